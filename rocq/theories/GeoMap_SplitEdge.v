(** splitEdge: what it does to the tables and why the rotation stays sound. *)
From Verif Require Import Base Orbit Conj FaceInv GeoMap_Model GeoMap_Views GeoMap_SInv GeoMap_Remove
  GeoMap_MergeEdges.
Local Open Scope Z_scope.

(** the rotation after the split, as a function of the old one *)
Definition spl (dl dr : Z) (s : Z -> Z) (x : Z) : Z :=
  if x =? - dl then dr else if x =? dr then - dl
  else if x =? - dr then (if s (- dl) =? - dl then - dr else s (- dl))
  else if s x =? - dl then - dr else s x.

Record Split m l e k pos pts m' (r : nat) : Prop := {
  sp_r : r = length (edges m);
  sp_faces : faces m' = faces m;
  sp_cap : cap m <= cap m';
  sp_capr : Z.of_nat r <= cap m';
  sp_sorted : sorted m' = sorted m;
  sp_fc : faceCount m' = faceCount m;
  sp_nc : nodeCount m' = nodeCount m + 1;
  sp_ec : edgeCount m' = edgeCount m + 1;
  sp_elen : length (edges m') = S (length (edges m));
  sp_nlen : length (nodes m') = S (length (nodes m));
  sp_busy : sumf busy (nodes m') = sumf busy (nodes m) + 1;
  sp_nalive : sumf alive (nodes m') = sumf alive (nodes m) + 1;
  sp_ealive : sumf alive (edges m') = sumf alive (edges m) + 1;
  sp_edge : forall j, eAt m' j =
     if Nat.eqb r j then Some (mkEdge (length (nodes m)) (eend e) (elf e) (erf e) (snd (splitPts pts k)) (eflags e))
     else if Nat.eqb l j then Some (mkEdge (estart e) (length (nodes m)) (elf e) (erf e) (fst (splitPts pts k)) (eflags e))
     else eAt m j;
  sp_node : exists cnd, nAt m (eend e) = Some cnd /\ forall j, nAt m' j =
     if Nat.eqb (length (nodes m)) j then Some (mkNode pos (Z.of_nat r))
     else if Nat.eqb (eend e) j then
       Some (set_anchor cnd (if nanchor cnd =? - Z.of_nat l then - Z.of_nat r else nanchor cnd))
     else nAt m j;
  sp_sg : forall x, In x (darts m) \/ x = Z.of_nat r \/ x = - Z.of_nat r ->
     sg m' x = spl (Z.of_nat l) (Z.of_nat r) (sg m) x;
  sp_sgi : forall x, In x (darts m) \/ x = Z.of_nat r \/ x = - Z.of_nat r ->
     sgi m' x = spl (Z.of_nat l) (Z.of_nat r) (sgi m) x }.

Lemma tget_fst {A} (l : list (option A)) i a o : tget l i = Some a -> tget (l ++ [o]) i = Some a.
Proof. intros H. rewrite tget_app_l; [assumption | eapply tget_lt; eassumption]. Qed.

Lemma splitEdge_spec m l e k p ins :
  SInv m -> eAt m l = Some e -> epts e <> [] ->
  match splitEdge m l k p ins with
  | Exn => ~ (k < length (epts e) - 1)%nat
  | Ok (m', r) => (k < length (epts e) - 1)%nat /\
      (exists pos, (if ins then pos = p else nth_error (epts e) k = Some pos) /\
       Split m l e (if ins then S k else k) pos (if ins then insert_at (epts e) (S k) p else epts e) m' r)
  | _ => False
  end.
Proof.
  intros V He Hne. unfold splitEdge.
  set (S := sv_si _ V). pose proof (si_perm _ _ S) as HP. pose proof (si_cap _ _ S) as Hcap.
  rewrite (deref_edge _ _ _ He). cbn [bind].
  destruct (Nat.eqb_spec (length (epts e)) 0) as [E0|E0].
  { destruct (epts e); [contradiction | discriminate]. }
  destruct (Nat.ltb_spec k (length (epts e) - 1)) as [Hk|Hk]; cbn [negb]; [|lia].
  destruct (nth_error (epts e) k) as [q|] eqn:Hq.
  2:{ apply nth_error_None in Hq. lia. }
  unfold vget. rewrite Hq. cbn [bind].
  set (pos := if ins then p else q).
  set (pts := if ins then insert_at (epts e) (Datatypes.S k) p else epts e).
  set (k' := if ins then Datatypes.S k else k).
  unfold addNode. cbv beta iota zeta. fold k'.
  replace (if ins then insert_at (epts e) k' p else epts e) with pts by (unfold pts, k'; destruct ins; reflexivity).
  set (nn := length (nodes m)). set (cn := eend e).
  set (ma := set_nodeCount (set_nodes m (nodes m ++ [Some (mkNode pos 0)])) (nodeCount m + 1)).
  assert (Hl0 : l <> 0%nat) by (intros ->; rewrite (sv_e0 _ V) in He; discriminate).
  set (dl := Z.of_nat l).
  assert (Hel : elab dl = l) by apply elab_of_nat.
  assert (Hdl : In dl (darts m)).
  { apply in_darts. rewrite Hel. split; [unfold dl; lia | congruence]. }
  assert (Hdl' : In (- dl) (darts m)) by (apply darts_opp; assumption).
  assert (Hst : stt m (- dl) = cn).
  { unfold stt. rewrite elab_opp, Hel, He. unfold e_st.
    destruct (Z.ltb_spec 0 (- dl)); [unfold dl in *; lia | reflexivity]. }
  destruct (nAt m cn) as [cnd|] eqn:Hcn.
  2:{ exfalso. apply (si_node _ _ S (- dl)); [assumption | rewrite Hst; assumption]. }
  assert (Hcna : nAt ma cn = Some cnd) by (apply tget_fst; exact Hcn).
  rewrite (deref_node _ _ _ Hcna). cbn [bind].
  destruct (splitPts pts k') as [pa pb] eqn:Hsp.
  unfold newEdge. cbv beta iota zeta.
  set (r := length (edges m)).
  change (length (edges ma)) with r.
  set (dr := Z.of_nat r).
  set (mb := set_edgeCount (set_edges ma (edges ma ++ [Some (mkEdge nn cn (elf e) (erf e) pb (eflags e))])) (edgeCount ma + 1)).
  set (mc := if inCap mb dr then mb else resizeSigma mb).
  assert (Hrl : (l < r)%nat) by (eapply tget_lt; exact He).
  assert (Hcapr : Z.abs dr <= cap mc).
  { pose proof (sv_len _ V) as L. pose proof (sv_cap _ V) as C. unfold mc. unfold dr, r in *.
    destruct (inCap mb (Z.of_nat (length (edges m)))) eqn:E; [apply Z.leb_le in E; exact E|].
    cbn [cap resizeSigma]. change (cap mb) with (cap m). lia. }
  assert (Hcapm : cap m <= cap mc).
  { pose proof (sv_cap _ V). unfold mc. destruct (inCap mb dr); [change (cap mb) with (cap m); lia|].
    cbn [cap resizeSigma]. change (cap mb) with (cap m). lia. }
  assert (Hsgc : forall x, Z.abs x <= cap m -> sg mc x = sg m x /\ sgi mc x = sgi m x).
  { intros x Hx. unfold mc. destruct (inCap mb dr); [auto|]. cbn [sg sgi resizeSigma].
    replace (inCap mb x) with true; [auto|]. symmetry; apply Z.leb_le. exact Hx. }
  assert (Hcnc : nodes mc = nodes ma) by (unfold mc; destruct (inCap mb dr); reflexivity).
  assert (Hcec : edges mc = edges mb) by (unfold mc; destruct (inCap mb dr); reflexivity).
  assert (Hcrest : faces mc = faces m /\ nodeCount mc = nodeCount m + 1 /\ edgeCount mc = edgeCount m + 1
      /\ faceCount mc = faceCount m /\ sorted mc = sorted m) by (unfold mc; destruct (inCap mb dr); repeat split).
  assert (Hfresh : forall x, In x (darts m) -> x <> dr /\ x <> - dr).
  { intros x Hx. apply in_darts in Hx as [_ Hx].
    split; intros ->; apply Hx; rewrite ?elab_opp; unfold dr; rewrite elab_of_nat; apply tget_ge; unfold r; lia. }
  assert (Hdl0 : dl <> 0) by (unfold dl; lia).
  assert (Hdr0 : dr <> 0) by (unfold dr; lia).
  clearbody mc.
  assert (C : forall x, In x (darts m) -> Z.abs x <= cap mc) by (intros x Hx; specialize (Hcap x Hx); lia).
  destruct (HP _ Hdl') as (Hs & Hp & X3 & X4).
  rewrite getS_Ok by (apply C; assumption). cbn [bind].
  rewrite getSi_Ok by (apply C; assumption). cbn [bind].
  destruct (Hsgc (- dl) (Hcap _ Hdl')) as [Es Esi]. rewrite Es, Esi.
  rewrite putS_Ok by (apply C; assumption). cbn [bind].
  rewrite putS_Ok by assumption. cbn [bind].
  rewrite putSi_Ok by assumption. cbn [bind].
  rewrite putSi_Ok by (apply C; assumption). cbn [bind].
  match goal with |- context [setNodeAnchor ?M nn _] => set (md := M) end.
  assert (Hnn : nAt md nn = Some (mkNode pos 0)).
  { unfold nAt. change (nodes md) with (nodes mc). rewrite Hcnc. apply tget_app_r. }
  rewrite (setNodeAnchor_Ok _ _ _ _ Hnn). cbn [bind set_anchor npos].
  match goal with |- context [putE ?A ?B ?C] => set (me := putE A B C) end.
  assert (Hnc : nn <> cn) by (pose proof (tget_lt _ _ _ Hcn); unfold nn; lia).
  assert (Hncn : nAt me cn = Some cnd).
  { unfold nAt. change (nodes me) with (list_upd (nodes mc) nn (Some (mkNode pos dr))). rewrite Hcnc.
    rewrite tget_upd_neq by assumption. exact Hcna. }
  assert (Hcapd : cap me = cap mc) by reflexivity.
  assert (Hbusy : nanchor cnd <> 0).
  { intros E. destruct (si_anchor _ _ S cn cnd Hcn) as [[_ K]|(K & _)].
    - apply (K (- dl)); assumption.
    - rewrite E in K. apply (si_nz _ _ S) in K; congruence. }
  (* both branches give the same shape *)
  assert (Hbr : exists s si,
    (if sg m (- dl) =? - dl
     then m <- putS me (- dr) (- dr) ;; m <- putSi m (- dr) (- dr) ;; setNodeAnchor m cn (- dr)
     else m0 <- putS me (sgi m (- dl)) (- dr) ;;
          m0 <- putS m0 (- dr) (sg m (- dl)) ;;
          m0 <- putSi m0 (sg m (- dl)) (- dr) ;;
          m0 <- putSi m0 (- dr) (sgi m (- dl)) ;;
          cnd0 <- deref (nodeP m0 cn) ;;
          if nanchor cnd0 =? - dl then setNodeAnchor m0 cn (- dr) else Ok m0)
    = Ok (let mf := set_sgi (set_sg me s) si in
          if nanchor cnd =? - dl then putN mf cn (Some (set_anchor cnd (- dr))) else mf) /\
    (forall x, In x (darts m) \/ x = dr \/ x = - dr -> s x = spl dl dr (sg m) x) /\
    (forall x, In x (darts m) \/ x = dr \/ x = - dr -> si x = spl dl dr (sgi m) x)).
  { assert (Hout : forall x, In x (darts m) \/ x = dr \/ x = - dr -> x <> - dl -> x <> dr -> x <> - dr ->
        (sg mc x = sg m x /\ sgi mc x = sgi m x) /\ sgi m (sg m x) = x /\ sg m (sgi m x) = x).
    { intros x Hx N1 N2 N3. destruct Hx as [Hx|[Hx|Hx]]; try contradiction.
      split; [apply Hsgc, Hcap; assumption|]. destruct (HP x Hx) as (_ & _ & A & B); auto. }
    destruct (Hfresh _ Hdl') as [F1 F2].
    assert (F3 : dr <> - dr) by lia.
    destruct (Z.eqb_spec (sg m (- dl)) (- dl)) as [E|E].
    - rewrite putS_Ok by (rewrite Hcapd, Z.abs_opp; assumption). cbn [bind].
      rewrite putSi_Ok by (cbn [cap set_sg]; rewrite Hcapd, Z.abs_opp; assumption). cbn [bind].
      match goal with |- context [setNodeAnchor ?M cn _] => set (mg := M) end.
      assert (Hncg : nAt mg cn = Some cnd) by exact Hncn.
      rewrite (setNodeAnchor_Ok _ _ _ _ Hncg).
      assert (Ea : nanchor cnd = - dl).
      { destruct (si_anchor _ _ S cn cnd Hcn) as [[K _]|(K1 & K2 & K3)]; [contradiction|].
        specialize (K3 _ Hdl' Hst). apply (reach_sym _ _ _ HP) in K3; [|assumption].
        destruct K3 as [n Hn]. rewrite <- Hn. clear -E. induction n; simpl; [reflexivity | rewrite IHn; exact E]. }
      rewrite Ea, Z.eqb_refl.
      eexists _, _. split; [reflexivity|].
      assert (E' : sgi m (- dl) = - dl) by (rewrite E in X3; exact X3).
      split; intros x Hx; unfold spl; rewrite ?E, ?E', ?Z.eqb_refl;
        cbn [sg sgi set_sg set_sgi me md putE putN set_edges set_nodes]; unfold updZ;
        destruct (Z.eqb_spec x (- dl)) as [->|N1];
        try (destruct (Z.eqb_spec (- dl) (- dr)); [congruence|]);
        try (destruct (Z.eqb_spec (- dl) dr); [congruence|]); try reflexivity;
        destruct (Z.eqb_spec x dr) as [->|N2];
        try (destruct (Z.eqb_spec dr (- dr)); [congruence|]); try reflexivity;
        destruct (Z.eqb_spec x (- dr)) as [->|N3]; try reflexivity;
        destruct (Hout x Hx N1 N2 N3) as ((Y1 & Y2) & Y3 & Y4); rewrite ?Y1, ?Y2.
      + destruct (Z.eqb_spec (sg m x) (- dl)) as [K|]; [|reflexivity]. rewrite K, E' in Y3; congruence.
      + destruct (Z.eqb_spec (sgi m x) (- dl)) as [K|]; [|reflexivity]. rewrite K, E in Y4; congruence.
    - destruct (Hfresh _ Hs) as [G1 G2]. destruct (Hfresh _ Hp) as [G3 G4].
      assert (E' : sgi m (- dl) <> - dl) by (intros K; apply E; rewrite <- K at 1; exact X4).
      rewrite putS_Ok by (rewrite Hcapd; apply C; assumption). cbn [bind].
      rewrite putS_Ok by (cbn [cap set_sg]; rewrite Hcapd, Z.abs_opp; assumption). cbn [bind].
      rewrite putSi_Ok by (cbn [cap set_sg]; rewrite Hcapd; apply C; assumption). cbn [bind].
      rewrite putSi_Ok by (cbn [cap set_sg set_sgi]; rewrite Hcapd, Z.abs_opp; assumption). cbn [bind].
      match goal with |- context [setNodeAnchor ?M cn _] => set (mg := M) end.
      assert (Hncg : nAt mg cn = Some cnd) by exact Hncn.
      rewrite (deref_node _ _ _ Hncg). cbn [bind].
      rewrite (setNodeAnchor_Ok _ _ _ _ Hncg).
      exists (sg mg), (sgi mg). split.
      { destruct (nanchor cnd =? - dl); reflexivity. }
      split; intros x Hx; unfold spl;
        cbn [sg sgi set_sg set_sgi mg me md putE putN set_edges set_nodes]; unfold updZ;
        try (destruct (Z.eqb_spec (sg m (- dl)) (- dl)); [contradiction|]);
        try (destruct (Z.eqb_spec (sgi m (- dl)) (- dl)); [contradiction|]).
      + destruct (Z.eqb_spec x (- dl)) as [->|N1].
        { destruct (Z.eqb_spec (- dl) (- dr)); [congruence|].
          destruct (Z.eqb_spec (- dl) (sgi m (- dl))); [congruence|].
          destruct (Z.eqb_spec (- dl) dr); [congruence|]. reflexivity. }
        destruct (Z.eqb_spec x dr) as [->|N2].
        { destruct (Z.eqb_spec dr (- dr)); [congruence|].
          destruct (Z.eqb_spec dr (sgi m (- dl))); [congruence|]. reflexivity. }
        destruct (Z.eqb_spec x (- dr)) as [->|N3]; [reflexivity|].
        destruct (Hout x Hx N1 N2 N3) as ((-> & _) & Y3 & Y4).
        destruct (Z.eqb_spec x (sgi m (- dl))) as [->|N4].
        * rewrite X4, Z.eqb_refl; reflexivity.
        * destruct (Z.eqb_spec (sg m x) (- dl)) as [K|]; [|reflexivity]. rewrite <- K, Y3 in N4; congruence.
      + destruct (Z.eqb_spec x (- dl)) as [->|N1].
        { destruct (Z.eqb_spec (- dl) (- dr)); [congruence|].
          destruct (Z.eqb_spec (- dl) (sg m (- dl))); [congruence|]. reflexivity. }
        destruct (Z.eqb_spec x dr) as [->|N2].
        { destruct (Z.eqb_spec dr (- dr)); [congruence|].
          destruct (Z.eqb_spec dr (sg m (- dl))); [congruence|].  reflexivity. }
        destruct (Z.eqb_spec x (- dr)) as [->|N3]; [reflexivity|].
        destruct (Hout x Hx N1 N2 N3) as ((_ & ->) & Y3 & Y4).
        destruct (Z.eqb_spec x (sg m (- dl))) as [->|N4].
        * rewrite X3, Z.eqb_refl; reflexivity.
        * destruct (Z.eqb_spec (sgi m x) (- dl)) as [K|]; [|reflexivity]. rewrite <- K, Y4 in N4; congruence. }
  destruct Hbr as (s & si & -> & Hs1 & Hs2). cbn [bind].
  split; [assumption|]. exists pos.
  split; [unfold pos; destruct ins; [reflexivity | reflexivity]|].
  cbv zeta. set (mf := set_sgi (set_sg me s) si).
  set (m' := if nanchor cnd =? - dl then putN mf cn (Some (set_anchor cnd (- dr))) else mf).
  assert (Enodes : nodes m' = list_upd (list_upd (nodes m ++ [Some (mkNode pos 0)]) nn (Some (mkNode pos dr))) cn
       (Some (set_anchor cnd (if nanchor cnd =? - dl then - dr else nanchor cnd)))).
  { unfold m'. destruct (nanchor cnd =? - dl).
    - change (nodes (putN mf cn (Some (set_anchor cnd (- dr))))) with
        (list_upd (list_upd (nodes mc) nn (Some (mkNode pos dr))) cn (Some (set_anchor cnd (- dr)))).
      rewrite Hcnc. reflexivity.
    - change (nodes mf) with (list_upd (nodes mc) nn (Some (mkNode pos dr))). rewrite Hcnc.
      change (nodes ma) with (nodes m ++ [Some (mkNode pos 0)]).
      replace (set_anchor cnd (nanchor cnd)) with cnd by (destruct cnd; reflexivity).
      set (L := list_upd (nodes m ++ [Some (mkNode pos 0)]) nn (Some (mkNode pos dr))).
      assert (HL : nth_error L cn = Some (Some cnd)).
      { unfold L. rewrite nth_error_upd_neq by assumption. rewrite nth_error_app1 by (eapply tget_lt; exact Hcn).
        unfold nAt, tget in Hcn. destruct (nth_error (nodes m) cn) as [o|] eqn:K; [rewrite Hcn; reflexivity | discriminate]. }
      clear -HL. clearbody L. revert HL. generalize cn. clear cn. induction L as [|a L IH]; intros [|c] HL; simpl in *; try discriminate.
      + congruence.
      + f_equal. apply IH; assumption. }
  assert (Eedges : edges m' = list_upd (edges m ++ [Some (mkEdge nn cn (elf e) (erf e) pb (eflags e))]) l
                     (Some (mkEdge (estart e) nn (elf e) (erf e) pa (eflags e)))).
  { transitivity (list_upd (edges mc) l (Some (mkEdge (estart e) nn (elf e) (erf e) pa (eflags e)))).
    - unfold m'; destruct (nanchor cnd =? - dl); reflexivity.
    - rewrite Hcec. reflexivity. }
  assert (Esg : sg m' = s /\ sgi m' = si /\ cap m' = cap mc /\ faces m' = faces m /\ nodeCount m' = nodeCount m + 1
      /\ edgeCount m' = edgeCount m + 1 /\ faceCount m' = faceCount m /\ sorted m' = sorted m).
  { destruct Hcrest as (A1 & A2 & A3 & A4 & A5).
    unfold m'; destruct (nanchor cnd =? - dl); repeat split; assumption. }
  destruct Esg as (Esg & Esgi & Ecap & Ef & Enc & Eec & Efc & Eso).
  assert (Tn1 : tget (nodes m ++ [Some (mkNode pos 0)]) nn = Some (mkNode pos 0)) by apply tget_app_r.
  assert (Tn2 : tget (list_upd (nodes m ++ [Some (mkNode pos 0)]) nn (Some (mkNode pos dr))) cn = Some cnd).
  { rewrite tget_upd_neq by assumption. exact Hcna. }
  assert (Te : tget (edges m ++ [Some (mkEdge nn cn (elf e) (erf e) pb (eflags e))]) l = Some e) by (apply tget_fst; exact He).
  clearbody m'. clear mf me md mb ma Hcna Hcnc Hcec Hnn Hncn Hcapd.
  constructor; auto.
  - lia.
  - rewrite Ecap. unfold dr in Hcapr. lia.
  - rewrite Eedges, list_upd_length, app_length. simpl; lia.
  - rewrite Enodes, !list_upd_length, app_length. simpl; lia.
  - rewrite Enodes, (sumf_tget busy _ _ _ _ Tn2), (sumf_tget busy _ _ _ _ Tn1), sumf_app.
    cbn [sumf busy nanchor set_anchor].
    rewrite Z.eqb_refl. apply Z.eqb_neq in Hdr0 as ->. apply Z.eqb_neq in Hbusy as Hb; rewrite Hb.
    destruct (Z.eqb_spec (nanchor cnd) (- dl)).
    + destruct (Z.eqb_spec (- dr) 0); [unfold dr in *; lia | lia].
    + rewrite Hb. lia.
  - rewrite Enodes, (sumf_tget alive _ _ _ _ Tn2), (sumf_tget alive _ _ _ _ Tn1), sumf_app. simpl; lia.
  - rewrite Eedges, (sumf_tget alive _ _ _ _ Te), sumf_app. simpl; lia.
  - intros j. fold k' pts. rewrite Hsp. cbn [fst snd]. unfold eAt. rewrite Eedges, tget_upd, app_length.
    fold nn cn. destruct (Nat.eqb_spec r j) as [<-|Hj].
    + destruct (Nat.eqb_spec l r); [lia|]. apply tget_app_r.
    + destruct (Nat.eqb_spec l j) as [<-|Hj'].
      * destruct (Nat.ltb_spec l (length (edges m) + length [Some (mkEdge nn cn (elf e) (erf e) pb (eflags e))])) as [L|L]; [reflexivity|].
        fold r in L. simpl in L. lia.
      * rewrite tget_app_one. destruct (Nat.eqb_spec j (length (edges m))); [unfold r in *; congruence | reflexivity].
  - exists cnd. split; [assumption|]. intros j. unfold nAt. rewrite Enodes, !tget_upd, list_upd_length, app_length.
    fold nn cn dl dr. pose proof (tget_lt _ _ _ Hcn) as Lc. fold nn in Lc.
    destruct (Nat.eqb_spec nn j) as [<-|Hj].
    + destruct (Nat.eqb_spec cn nn); [congruence|]. destruct (Nat.ltb_spec nn (nn + length [Some (mkNode pos 0)])) as [L|L]; [reflexivity | simpl in L; lia].
    + destruct (Nat.eqb_spec cn j) as [<-|Hj'].
      * destruct (Nat.ltb_spec cn (nn + length [Some (mkNode pos 0)])) as [L|L]; [reflexivity | simpl in L; lia].
      * rewrite tget_app_one. destruct (Nat.eqb_spec j (length (nodes m))); [unfold nn in *; congruence | reflexivity].
  - intros x Hx. rewrite Esg. apply Hs1; assumption.
  - intros x Hx. rewrite Esgi. apply Hs2; assumption.
Qed.

(** Extending the old rotation by a 2-cycle of the new darts; the split rotation
    is its conjugate. *)
Definition ext2 (dr : Z) (s : Z -> Z) (x : Z) : Z :=
  if x =? dr then - dr else if x =? - dr then dr else s x.

Section SplitViews.
  Variables (m : gmap) (l : nat) (e : edge) (k : nat) (pos : point) (pts : list point) (m' : gmap) (r : nat).
  Hypothesis V : SInv m.
  Hypothesis He : eAt m l = Some e.
  Hypothesis P : Split m l e k pos pts m' r.
  Let S := sv_si _ V.
  Let HP := si_perm _ _ S.
  Let dl := Z.of_nat l.
  Let dr := Z.of_nat r.
  Let nn := length (nodes m).

  Lemma sv_l0 : l <> 0%nat.
  Proof. intros ->; rewrite (sv_e0 _ V) in He; discriminate. Qed.
  Lemma sv_lr : (l < r)%nat.
  Proof. rewrite (sp_r _ _ _ _ _ _ _ _ P). eapply tget_lt; exact He. Qed.
  Lemma sv_el : elab dl = l. Proof. apply elab_of_nat. Qed.
  Lemma sv_er : elab dr = r. Proof. apply elab_of_nat. Qed.
  Lemma sv_dl : In dl (darts m).
  Proof. apply in_darts. rewrite sv_el. pose proof sv_l0. split; [unfold dl; lia | congruence]. Qed.
  Lemma sv_dl' : In (- dl) (darts m).
  Proof. apply darts_opp, sv_dl. Qed.
  Lemma sv_fresh x : In x (darts m) -> x <> dr /\ x <> - dr.
  Proof.
    intros Hx. apply in_darts in Hx as [_ Hx].
    split; intros ->; apply Hx; rewrite ?elab_opp; unfold dr; rewrite elab_of_nat;
      apply tget_ge; rewrite (sp_r _ _ _ _ _ _ _ _ P); lia.
  Qed.
  Lemma sv_dr0 : dr <> 0. Proof. pose proof sv_lr; unfold dr; lia. Qed.

  Definition D2 := dr :: - dr :: darts m.
  Lemma in_D2 x : In x D2 <-> In x (darts m) \/ x = dr \/ x = - dr.
  Proof. unfold D2; simpl; intuition. Qed.

  Lemma sv_darts x : In x (darts m') <-> In x D2.
  Proof.
    rewrite in_D2, !in_darts, (sp_edge _ _ _ _ _ _ _ _ P).
    pose proof sv_dr0. pose proof sv_l0.
    destruct (Nat.eqb_spec r (elab x)) as [E|E].
    - rewrite <- sv_er in E. symmetry in E; apply elab_eq in E. split; [tauto|]. intros [[_ K]|K].
      + exfalso; apply K. apply tget_ge. destruct E as [->| ->]; rewrite ?elab_opp, sv_er, (sp_r _ _ _ _ _ _ _ _ P); lia.
      + split; [lia | discriminate].
    - assert (x <> dr /\ x <> - dr).
      { split; intros ->; apply E; rewrite ?elab_opp, sv_er; reflexivity. }
      destruct (Nat.eqb_spec l (elab x)) as [L|L]; [rewrite <- L, He|]; intuition congruence.
  Qed.

  Lemma ext2_perm : perm_on D2 (ext2 dr (sg m)) (ext2 dr (sgi m)).
  Proof.
    intros x Hx. apply in_D2 in Hx. rewrite !in_D2. unfold ext2.
    pose proof sv_dr0.
    destruct (Z.eqb_spec x dr) as [->|N1].
    - destruct (Z.eqb_spec (- dr) dr); [lia|]. rewrite Z.eqb_refl. auto.
    - destruct (Z.eqb_spec x (- dr)) as [->|N2].
      + rewrite Z.eqb_refl. auto.
      + destruct Hx as [Hx|Hx]; [|tauto]. destruct (HP x Hx) as (A & B & C & E).
        destruct (sv_fresh _ A) as [A1 A2]. destruct (sv_fresh _ B) as [B1 B2].
        apply Z.eqb_neq in A1 as ->, A2 as ->, B1 as ->, B2 as ->. auto.
  Qed.

  Lemma spl_cnj x : In x D2 ->
    spl dl dr (sg m) x = cnj (- dl) (- dr) (ext2 dr (sg m)) x /\
    spl dl dr (sgi m) x = cnj (- dl) (- dr) (ext2 dr (sgi m)) x.
  Proof.
    intros Hx. apply in_D2 in Hx. pose proof sv_dr0. destruct (sv_fresh _ sv_dl') as [F1 F2].
    destruct (HP _ sv_dl') as (A & B & _).
    destruct (sv_fresh _ A) as [A1 A2]. destruct (sv_fresh _ B) as [B1 B2].
    assert (T : forall y, In y (darts m) -> tr (- dl) (- dr) y = if y =? - dl then - dr else y).
    { intros y Hy. destruct (sv_fresh _ Hy). unfold tr. destruct (Z.eqb_spec y (- dl)); [reflexivity|].
      destruct (Z.eqb_spec y (- dr)); [contradiction | reflexivity]. }
    unfold spl, cnj. destruct (Z.eqb_spec x (- dl)) as [->|N1].
    - rewrite tr_l. unfold ext2. destruct (Z.eqb_spec (- dr) dr); [lia|]. rewrite Z.eqb_refl.
      rewrite tr_o; auto.
    - destruct (Z.eqb_spec x dr) as [->|N2].
      + rewrite (tr_o _ _ dr) by (auto; lia). unfold ext2. rewrite Z.eqb_refl. rewrite tr_r. auto.
      + destruct (Z.eqb_spec x (- dr)) as [->|N3].
        * rewrite tr_r. unfold ext2. apply Z.eqb_neq in F1 as ->, F2 as ->. rewrite !T by assumption. auto.
        * destruct Hx as [Hx|Hx]; [|tauto]. rewrite (tr_o _ _ x) by auto.
          unfold ext2. apply Z.eqb_neq in N2 as ->, N3 as ->.
          destruct (HP x Hx) as (A' & B' & _). rewrite !T by assumption. auto.
  Qed.

  Lemma sv_sg x : In x D2 -> sg m' x = cnj (- dl) (- dr) (ext2 dr (sg m)) x.
  Proof.
    intros Hx. rewrite (sp_sg _ _ _ _ _ _ _ _ P) by (apply in_D2; assumption).
    apply spl_cnj; assumption.
  Qed.
  Lemma sv_sgi x : In x D2 -> sgi m' x = cnj (- dl) (- dr) (ext2 dr (sgi m)) x.
  Proof.
    intros Hx. rewrite (sp_sgi _ _ _ _ _ _ _ _ P) by (apply in_D2; assumption).
    apply spl_cnj; assumption.
  Qed.

  Definition st2 x : nat := if x =? dr then nn else if x =? - dr then nn else stt m x.
  Lemma st2_old x : In x (darts m) -> st2 x = stt m x.
  Proof.
    intros Hx. destruct (sv_fresh x Hx) as [A B]. unfold st2.
    apply Z.eqb_neq in A as ->, B as ->. reflexivity.
  Qed.

  Lemma sv_stt x : In x D2 -> stt m' x = st2 (tr (- dl) (- dr) x).
  Proof.
    intros Hx. apply in_D2 in Hx. pose proof sv_dr0. pose proof sv_l0 as Hl0. pose proof sv_lr.
    destruct (sv_fresh _ sv_dl') as [F1 F2]. destruct (sv_fresh _ sv_dl) as [F3 F4].
    assert (Edl : stt m dl = estart e /\ stt m (- dl) = eend e).
    { unfold stt. rewrite elab_opp, sv_el, He. unfold e_st, dl.
      destruct (Z.ltb_spec 0 (Z.of_nat l)), (Z.ltb_spec 0 (- Z.of_nat l)); try lia; auto. }
    unfold stt at 1. rewrite (sp_edge _ _ _ _ _ _ _ _ P).
    destruct (Nat.eqb_spec r (elab x)) as [E|E].
    - rewrite <- sv_er in E. symmetry in E; apply elab_eq in E as [->| ->].
      + rewrite tr_o by (auto; lia). unfold st2. rewrite Z.eqb_refl. unfold e_st.
        destruct (Z.ltb_spec 0 dr); [reflexivity | unfold dr in *; lia].
      + rewrite tr_r. rewrite st2_old by apply sv_dl'. destruct Edl as [_ ->].
        unfold e_st. destruct (Z.ltb_spec 0 (- dr)); [unfold dr in *; lia | reflexivity].
    - destruct (Nat.eqb_spec l (elab x)) as [L|L].
      + rewrite <- sv_el in L. symmetry in L; apply elab_eq in L as [->| ->].
        * rewrite tr_o by (auto; unfold dl; lia). rewrite st2_old by apply sv_dl. destruct Edl as [-> _].
          unfold e_st. destruct (Z.ltb_spec 0 dl); [reflexivity | unfold dl in *; lia].
        * rewrite tr_l. unfold st2. destruct (Z.eqb_spec (- dr) dr); [lia|]. rewrite Z.eqb_refl.
          unfold e_st. destruct (Z.ltb_spec 0 (- dl)); [unfold dl in *; lia | reflexivity].
      + assert (x <> - dl) by (intros ->; apply L; rewrite elab_opp, sv_el; reflexivity).
        assert (x <> - dr) by (intros ->; apply E; rewrite elab_opp, sv_er; reflexivity).
        rewrite tr_o by assumption. destruct Hx as [Hx|[->| ->]].
        * rewrite st2_old by assumption. reflexivity.
        * exfalso; apply E; rewrite sv_er; reflexivity.
        * contradiction.
  Qed.

  Lemma sv_lft x : In x (darts m) -> lft m' x = lft m x.
  Proof.
    intros Hx. unfold lft. rewrite (sp_edge _ _ _ _ _ _ _ _ P).
    destruct (sv_fresh _ Hx) as [A B].
    destruct (Nat.eqb_spec r (elab x)) as [E|E].
    { rewrite <- sv_er in E. symmetry in E; apply elab_eq in E; tauto. }
    destruct (Nat.eqb_spec l (elab x)) as [L|L]; [|reflexivity]. rewrite <- L, He. reflexivity.
  Qed.
  Lemma sv_lftr : lft m' dr = lft m dl /\ lft m' (- dr) = lft m (- dl).
  Proof.
    unfold lft. rewrite !elab_opp, sv_er, sv_el, (sp_edge _ _ _ _ _ _ _ _ P), Nat.eqb_refl, He.
    pose proof sv_l0. pose proof sv_lr. unfold e_lf, dl, dr.
    destruct (Z.ltb_spec 0 (Z.of_nat l)), (Z.ltb_spec 0 (Z.of_nat r)),
      (Z.ltb_spec 0 (- Z.of_nat l)), (Z.ltb_spec 0 (- Z.of_nat r)); try lia; auto.
  Qed.

  Lemma tr_D2 x : In x D2 -> In (tr (- dl) (- dr) x) D2.
  Proof. intros Hx. apply tr_in; auto; apply in_D2; [left; apply sv_dl' | auto]. Qed.

  Lemma cnj_D2_perm : perm_on D2 (cnj (- dl) (- dr) (ext2 dr (sg m))) (cnj (- dl) (- dr) (ext2 dr (sgi m))).
  Proof.
    apply cnj_perm; [apply in_D2; left; apply sv_dl' | apply in_D2; auto | apply ext2_perm].
  Qed.

  Lemma ext2_reach x y : In x (darts m) -> reach (sg m) x y -> reach (ext2 dr (sg m)) x y.
  Proof.
    intros Hx Hr. apply (reach_ext (sg m) (ext2 dr (sg m)) (fun z => In z (darts m))); auto.
    - intros z Hz. destruct (sv_fresh z Hz) as [A B]. unfold ext2. apply Z.eqb_neq in A as ->, B as ->. reflexivity.
    - intros z Hz; apply HP; assumption.
  Qed.

  Lemma st2_new x : In x D2 -> st2 x = nn -> x = dr \/ x = - dr.
  Proof.
    intros Hx E. apply in_D2 in Hx as [Hx|Hx]; [|assumption].
    rewrite st2_old in E by assumption.
    destruct (nAt m (stt m x)) as [n|] eqn:K; [|exfalso; apply (si_node _ _ S x); assumption].
    apply tget_lt in K. rewrite E in K. unfold nn in K; lia.
  Qed.

  Lemma sv_SI : SI m' D2.
  Proof.
    pose proof cnj_D2_perm as HQ. pose proof sv_dr0 as Hdr0. pose proof sv_l0. pose proof sv_lr.
    assert (Hreach : forall x y, In x D2 -> reach (ext2 dr (sg m)) (tr (- dl) (- dr) x) (tr (- dl) (- dr) y) -> reach (sg m') x y).
    { intros x y Hx Hr. apply cnj_reach in Hr.
      apply (reach_ext (cnj (- dl) (- dr) (ext2 dr (sg m))) (sg m') (fun z => In z D2)); auto.
      - intros z Hz; symmetry; apply sv_sg; assumption.
      - intros z Hz; apply HQ; assumption. }
    destruct (sp_node _ _ _ _ _ _ _ _ P) as (cnd & Hcnd & HN).
    fold nn dl dr in HN.
    assert (Lc : (eend e < nn)%nat) by (eapply tget_lt; exact Hcnd).
    assert (Edl : stt m (- dl) = eend e).
    { unfold stt. rewrite elab_opp, sv_el, He. unfold e_st, dl.
      destruct (Z.ltb_spec 0 (- Z.of_nat l)); [lia | reflexivity]. }
    constructor.
    - intros x Hx. destruct (HQ x Hx) as (A & B & C & E).
      rewrite (sv_sg x Hx), (sv_sgi x Hx). repeat split; auto.
      + rewrite (sv_sgi _ A); assumption.
      + rewrite (sv_sg _ B); assumption.
    - intros d Hd. apply sv_darts in Hd. apply in_darts in Hd; tauto.
    - intros d Hd. apply in_D2 in Hd as [Hd|[->| ->]]; [|unfold dr; lia | unfold dr; lia]. apply (si_nz _ _ S); assumption.
    - intros d Hd. pose proof (sp_cap _ _ _ _ _ _ _ _ P). pose proof (sp_capr _ _ _ _ _ _ _ _ P).
      apply in_D2 in Hd as [Hd|[->| ->]]; [|unfold dr; lia | unfold dr; lia].
      pose proof (si_cap _ _ S d Hd). lia.
    - intros d Hd. rewrite (sv_sg d Hd). destruct (HQ d Hd) as (A & _). rewrite !sv_stt by assumption.
      unfold cnj. rewrite tr_invol. apply tr_D2 in Hd. set (x := tr (- dl) (- dr) d) in *. clearbody x.
      unfold ext2, st2. destruct (Z.eqb_spec x dr) as [->|N1].
      + destruct (Z.eqb_spec (- dr) dr); [lia|]. rewrite Z.eqb_refl; reflexivity.
      + destruct (Z.eqb_spec x (- dr)) as [->|N2].
        * rewrite Z.eqb_refl. reflexivity.
        * apply in_D2 in Hd as [Hd|Hd]; [|tauto]. destruct (HP x Hd) as (A' & _).
          destruct (sv_fresh _ A') as [A1 A2]. apply Z.eqb_neq in A1 as ->, A2 as ->.
          apply (si_st _ _ S); assumption.
    - intros d Hd. rewrite sv_stt by assumption. apply tr_D2 in Hd. rewrite HN.
      destruct (Nat.eqb_spec nn (st2 (tr (- dl) (- dr) d))) as [K|K]; [discriminate|].
      destruct (Nat.eqb _ _); [discriminate|].
      set (x := tr (- dl) (- dr) d) in *. clearbody x. unfold st2 in *.
      destruct (x =? dr) eqn:E1; [congruence|]. destruct (x =? - dr) eqn:E2; [congruence|].
      apply Z.eqb_neq in E1, E2. apply (si_node _ _ S). apply in_D2 in Hd. tauto.
    - intros j n Hn. rewrite HN in Hn.
      destruct (Nat.eqb_spec nn j) as [<-|Hj].
      + injection Hn as <-. cbn [nanchor]. right.
        assert (Hi : In dr D2) by (apply in_D2; auto).
        assert (Et : tr (- dl) (- dr) dr = dr).
        { destruct (sv_fresh _ sv_dl'). apply tr_o; auto. lia. }
        split; [assumption|]. split; [rewrite sv_stt by assumption; rewrite Et; unfold st2; rewrite Z.eqb_refl; reflexivity|].
        intros d Hd Hs. rewrite sv_stt in Hs by assumption. apply Hreach; [assumption|]. rewrite Et.
        apply tr_D2 in Hd. apply st2_new in Hs as [->| ->]; auto; [apply reach_refl|].
        assert (Ex : ext2 dr (sg m) dr = - dr) by (unfold ext2; rewrite Z.eqb_refl; reflexivity).
        rewrite <- Ex. apply reach_step.
      + destruct (Nat.eqb_spec (eend e) j) as [<-|Hj'].
        * injection Hn as <-. cbn [nanchor set_anchor]. right.
          assert (Hold : forall y, In y D2 -> st2 (tr (- dl) (- dr) y) = eend e -> In (tr (- dl) (- dr) y) (darts m) /\ stt m (tr (- dl) (- dr) y) = eend e).
          { intros y Hy E. apply tr_D2 in Hy. set (z := tr (- dl) (- dr) y) in *. clearbody z.
            apply in_D2 in Hy as [Hy|Hy]; [rewrite st2_old in E by assumption; auto|].
            exfalso. unfold st2 in E. destruct Hy as [->| ->].
            - rewrite Z.eqb_refl in E. lia.
            - destruct (Z.eqb_spec (- dr) dr); [lia|]. rewrite Z.eqb_refl in E. lia. }
          destruct (Z.eqb_spec (nanchor cnd) (- dl)) as [Ea|Ea].
          -- assert (Hi : In (- dr) D2) by (apply in_D2; auto).
             split; [assumption|]. split; [rewrite sv_stt, tr_r by assumption; rewrite st2_old by apply sv_dl'; assumption|].
             intros d Hd Hs. rewrite sv_stt in Hs by assumption. apply Hreach; [assumption|]. rewrite tr_r.
             destruct (Hold d Hd Hs) as [Hd1 Hd2]. apply ext2_reach; [apply sv_dl'|].
             apply (SI_orbit m (darts m)); auto; [apply sv_dl' | congruence].
          -- destruct (si_anchor _ _ S _ _ Hcnd) as [[_ K]|(K1 & K2 & K3)].
             { exfalso; apply (K (- dl)); [apply sv_dl' | assumption]. }
             assert (Hi : In (nanchor cnd) D2) by (apply in_D2; auto).
             assert (Et : tr (- dl) (- dr) (nanchor cnd) = nanchor cnd).
             { apply tr_o; auto. apply sv_fresh; assumption. }
             split; [assumption|]. split; [rewrite sv_stt, Et by assumption; rewrite st2_old by assumption; assumption|].
             intros d Hd Hs. rewrite sv_stt in Hs by assumption. apply Hreach; [assumption|]. rewrite Et.
             destruct (Hold d Hd Hs) as [Hd1 Hd2]. apply ext2_reach; auto.
        * assert (Hne : forall y, In y D2 -> st2 y = j -> In y (darts m) /\ stt m y = j).
          { intros y Hy E. apply in_D2 in Hy as [Hy|Hy]; [rewrite st2_old in E by assumption; auto|].
            exfalso. apply Hj. rewrite <- E. unfold st2. destruct Hy as [->| ->].
            - rewrite Z.eqb_refl; reflexivity.
            - destruct (Z.eqb_spec (- dr) dr); [reflexivity|]. rewrite Z.eqb_refl; reflexivity. }
          destruct (si_anchor _ _ S j n Hn) as [[A B]|(A & B & C)].
          -- left. split; auto. intros d Hd E. rewrite sv_stt in E by assumption.
             destruct (Hne _ (tr_D2 d Hd) E) as [X Y]. eapply B; eassumption.
          -- right. assert (Hi : In (nanchor n) D2) by (apply in_D2; auto).
             assert (Et : tr (- dl) (- dr) (nanchor n) = nanchor n).
             { apply tr_o; [|apply sv_fresh; assumption]. intros F. rewrite F in B. congruence. }
             split; [assumption|]. split; [rewrite sv_stt, Et by assumption; rewrite st2_old by assumption; assumption|].
             intros d Hd Hs. rewrite sv_stt in Hs by assumption. apply Hreach; [assumption|]. rewrite Et.
             destruct (Hne _ (tr_D2 d Hd) Hs) as [X Y]. apply ext2_reach; auto.
  Qed.

  Lemma sv_SInv : SInv m'.
  Proof.
    constructor.
    - apply (SI_ext m' D2); [intros x; symmetry; apply sv_darts | apply sv_SI].
    - rewrite (sp_edge _ _ _ _ _ _ _ _ P). pose proof sv_l0. pose proof sv_lr.
      destruct (Nat.eqb_spec r 0); [lia|]. destruct (Nat.eqb_spec l 0); [lia|]. apply (sv_e0 _ V).
    - pose proof (sp_cap _ _ _ _ _ _ _ _ P). pose proof (sv_cap _ V). lia.
    - rewrite (sp_elen _ _ _ _ _ _ _ _ P). pose proof (sp_capr _ _ _ _ _ _ _ _ P). rewrite (sp_r _ _ _ _ _ _ _ _ P) in *. lia.
    - rewrite (sp_nc _ _ _ _ _ _ _ _ P), (sp_nalive _ _ _ _ _ _ _ _ P), (sv_nc _ V); reflexivity.
    - rewrite (sp_ec _ _ _ _ _ _ _ _ P), (sp_ealive _ _ _ _ _ _ _ _ P), (sv_ec _ V); reflexivity.
    - rewrite (sp_fc _ _ _ _ _ _ _ _ P), (sp_faces _ _ _ _ _ _ _ _ P). apply (sv_fc _ V).
  Qed.

  (** In the new map the split node has exactly the two darts [-dl] and [dr]. *)
  Lemma sv_Deg2 : Deg2 m' (- dl) dr.
  Proof.
    pose proof sv_dr0. pose proof sv_l0. destruct (sv_fresh _ sv_dl') as [F1 F2].
    constructor.
    - apply sv_darts, in_D2; left; apply sv_dl'.
    - apply sv_darts, in_D2; auto.
    - rewrite (sp_sg _ _ _ _ _ _ _ _ P) by (left; apply sv_dl'). unfold spl. fold dl dr. rewrite Z.eqb_refl; reflexivity.
    - rewrite (sp_sg _ _ _ _ _ _ _ _ P) by (fold dr; auto). unfold spl. fold dl dr.
      destruct (Z.eqb_spec dr (- dl)); [congruence|]. rewrite Z.eqb_refl; reflexivity.
    - assumption.
    - assumption.
  Qed.

  Lemma sv_rest x : In x (rest m' dr) <-> In x (darts m).
  Proof.
    rewrite in_rest, sv_darts, in_D2. split; [tauto|]. intros Hx. destruct (sv_fresh x Hx). tauto.
  Qed.

  Lemma sv_phi x : In x (darts m) -> phi m x = skp (skp (phi m') dr) (- dr) x.
  Proof.
    intros Hx. pose proof sv_SInv as V'. pose proof sv_Deg2 as G.
    assert (Hx' : In (- x) (darts m)) by (apply darts_opp; assumption).
    destruct (sv_fresh _ Hx) as [F1 F2].
    unfold phi at 2. 
    rewrite <- (sub_phi (darts m') (sg m') (sgi m') (- dl) dr (si_perm _ _ (sv_si _ V'))); try apply G; auto.
    - unfold cnj. rewrite sv_sgi.
      + unfold cnj. rewrite !tr_invol. unfold ext2. destruct (sv_fresh _ Hx') as [A B].
        apply Z.eqb_neq in A as ->, B as ->. reflexivity.
      + apply tr_D2. apply in_D2; auto.
    - apply darts_opp; apply G.
    - apply sv_dr0.
    - apply sv_darts, in_D2; auto.
  Qed.

  Lemma sv_phi_reach x y : In x (darts m) -> In y (darts m) ->
    (reach (phi m') x y <-> reach (phi m) x y).
  Proof.
    intros Hx Hy. pose proof sv_dr0 as Hz. destruct (sv_fresh _ Hx) as [F1 F2]. destruct (sv_fresh _ Hy) as [F3 F4].
    pose proof (phi_perm m S) as HPp.
    pose proof (phi_perm m' (sv_si _ sv_SInv)) as HPq.
    rewrite <- (skp2_reach (darts m') (phi m') (fun x => - sg m' x) dr (- dr) x y); auto.
    - split; apply (reach_ext _ _ (fun z => In z (darts m))); auto.
      + intros z Hz'; symmetry; apply sv_phi; assumption.
      + intros z Hz'. rewrite <- sv_phi by assumption. apply HPp; assumption.
      + intros z Hz'; apply sv_phi; assumption.
      + intros z Hz'; apply HPp; assumption.
    - apply sv_Deg2.
    - apply darts_opp, sv_Deg2.
    - lia.
    - apply sv_darts, in_D2; auto.
  Qed.

  Lemma sv_phi_new : phi m' dl = dr /\ phi m' (- dr) = - dl.
  Proof.
    destruct (g2_phi m' (- dl) dr sv_SInv sv_Deg2) as (A & B & _). rewrite Z.opp_involutive in B. auto.
  Qed.
End SplitViews.

(** The two halves of the point list, joined at the new node, are the (possibly
    extended) old point list. *)
Lemma splitPts_join (l : list point) k : l <> [] ->
  fst (splitPts l k) ++ skipn 1 (snd (splitPts l k)) = l.
Proof.
  intros H. destruct k as [|k].
  - destruct l; [contradiction | reflexivity].
  - unfold splitPts, fst, snd. rewrite <- (firstn_skipn (S (S k)) l) at 3. f_equal.
    clear H. revert l. induction (S k) as [|j IH]; intros [|a l]; try reflexivity.
    simpl skipn at 2. rewrite IH. destruct l; reflexivity.
Qed.
