(** removeBridges terminates, removes only what it may, and counts what it removes. *)
From Verif Require Import Base Orbit GraphRank Euler Links FaceInv Conj
  GeoMap_Model GeoMap_Views GeoMap_SInv GeoMap_Remove GeoMap_MergeEdges GeoMap_SplitEdge GeoMap_Loops GeoMap_MInv
  GeoMap_Gone GeoMap_Bridge GeoMap_MergeFaces GeoMap_Subdiv GeoMap_Init GeoMap_Area GeoMap_Embed GeoMap_Initialize GeoMap_Sort GeoMap_Flags
  GeoMap_History GeoMap_Geometry GeoMap_AreaInv GeoMap_Spec GeoMap_Facts GeoMap_Results Utils_Model Utils_Spec.
Local Open Scope Z_scope.

(** ** General facts *)

Lemma later_trans a b c : later a b -> later b c -> later a c.
Proof. intros H. revert c. induction H as [|m k m1 m2 Ha He Hl IH]; intros c Hc; [assumption|]. apply (lt_call m k m1); auto. Qed.
Lemma later_one m hk o m' : allowed m (Call hk o) -> run_op hk m o = Ok m' -> later m m'.
Proof. intros A E. apply (lt_call m (Call hk o) m'); [assumption | exact E | apply lt_refl]. Qed.
Lemma later_bridge hk m d r : removeBridge hk m d = Ok r -> later m (fst r).
Proof. intros E. apply (later_one m hk (ORemoveBridge d)); [exact I|]. cbn [run_op]. rewrite E. reflexivity. Qed.
Lemma later_mergeFaces hk m d r : mergeFaces hk m d = Ok r -> later m (fst r).
Proof. intros E. apply (later_one m hk (OMergeFaces d)); [exact I|]. cbn [run_op]. rewrite E. reflexivity. Qed.
Lemma later_mergeEdges hk m d r : mergeEdges hk m d = Ok r -> later m (fst r).
Proof. intros E. apply (later_one m hk (OMergeEdges d)); [exact I|]. cbn [run_op]. rewrite E. reflexivity. Qed.
Definition anyHooks : hooks := {| hkNode := fun _ _ => true; hkMergeEdges := fun _ _ => true; hkBridge := fun _ _ => true; hkMergeFaces := fun _ _ => true |}.
Lemma later_flag m l fl b m' e : eAt m l = Some e -> setFlag m l fl b = Ok m' -> later m m'.
Proof. intros He E. apply (later_one m anyHooks (OSetFlag l fl b)); [exists e; apply isEdge_iff; assumption | exact E]. Qed.

Lemma edgeP_eAt m l : (l < length (edges m))%nat -> edgeP m l = Ok (eAt m l).
Proof.
  intros L. unfold edgeP, eAt, tget. destruct (nth_error (edges m) l) as [o|] eqn:E; [reflexivity|]. apply nth_error_None in E. lia.
Qed.
Lemma nodeP_nAt m l : (l < length (nodes m))%nat -> nodeP m l = Ok (nAt m l).
Proof.
  intros L. unfold nodeP, nAt, tget. destruct (nth_error (nodes m) l) as [o|] eqn:E; [reflexivity|]. apply nth_error_None in E. lia.
Qed.
Lemma eAt_lt m l e : eAt m l = Some e -> (l < length (edges m))%nat.
Proof. apply tget_lt. Qed.

Lemma eAt_put m l e x j : eAt m l = Some e -> eAt (putE m l x) j = if Nat.eqb l j then x else eAt m j.
Proof.
  intros He. unfold eAt, putE; cbn [edges set_edges]. rewrite tget_upd. pose proof (tget_lt _ _ _ He) as L. apply Nat.ltb_lt in L; rewrite L; reflexivity.
Qed.

Lemma hasFlag_iff e f : hasFlag e f = true <-> N.land (eflags e) f <> 0%N.
Proof. unfold hasFlag, edgeFlag. rewrite negb_true_iff, N.eqb_neq. tauto. Qed.

Lemma edgeCount_pos m : SInv m -> 0 <= edgeCount m <= Z.of_nat (length (edges m)).
Proof.
  intros V. rewrite (sv_ec _ V). induction (edges m) as [|o t IH]; cbn [sumf length]; [lia|].
  unfold alive at 1 3. destruct o; lia.
Qed.

(** an edge with the same face on both sides is not a loop *)
Lemma bridge_noloop m d l : MInv m -> In d (darts m) -> lft m d = Some l -> lft m (- d) = Some l -> stt m d <> stt m (- d).
Proof.
  intros M Hd H1 H2 E.
  pose proof (sv_si _ (mi_v _ M)) as HS.
  assert (HA : In (Z.abs d) (elabs m)).
  { apply in_elabs. pose proof (si_nz _ _ HS d Hd). split; [lia|]. replace (elab (Z.abs d)) with (elab d) by (unfold elab; lia).
    apply in_darts in Hd. tauto. }
  destruct (in_split _ _ HA) as (A & B & EL).
  assert (HP : Permutation (elabs m) (Z.abs d :: A ++ B)) by (rewrite EL; symmetry; apply Permutation_middle).
  pose proof (gone_rank_bridge m d (A ++ B) M Hd HP (same_face_reach m d l M Hd H1 H2)) as R.
  rewrite (rank_edge m d (A ++ B) HP) in R. rewrite rank_dep in R; [lia|]. rewrite E. apply conn_refl.
Qed.

(** a dart alone at its node belongs to a bridge *)
Lemma alone_bridge m d : MInv m -> In d (darts m) -> sg m d = d ->
  exists fl, lft m d = Some fl /\ lft m (- d) = Some fl /\ stt m d <> stt m (- d).
Proof.
  intros M Hd E. pose proof (sv_si _ (mi_v _ M)) as HS. pose proof (mi_f _ M) as F.
  assert (Ei : sgi m d = d) by (apply sgi_fix; assumption).
  assert (Ep : phi m (- d) = d) by (unfold phi; rewrite Z.opp_involutive; assumption).
  pose proof (fi_phi _ _ _ _ F (- d) (darts_opp _ _ Hd)) as Hl. rewrite Ep in Hl.
  destruct (fi_cover _ _ _ _ F d Hd) as (l & A & a & H1 & _). exists l. split; [assumption|]. split; [congruence|].
  intros Est. apply (SI_orbit m (darts m) d (- d) HS Hd (darts_opp _ _ Hd)) in Est.
  assert (X : forall z, reach (sg m) d z -> z = d).
  { apply reach_ind_r; [reflexivity|]. intros z _ ->. assumption. }
  apply X in Est. pose proof (si_nz _ _ HS d Hd). lia.
Qed.

Lemma removeBridge_ok hk m d fl : MInv m -> In d (darts m) -> lft m d = Some fl -> lft m (- d) = Some fl ->
  exists r, removeBridge hk m d = Ok r /\
    ((hkBridge hk m d = false /\ snd r = None /\ fst r = m) \/
     (hkBridge hk m d = true /\ snd r = Some fl /\ Bridged m d fl (fst r) /\ MInv (fst r))).
Proof.
  intros M Hd H1 H2. pose proof (bridge_noloop m d fl M Hd H1 H2) as Hst.
  pose proof (removeBridge_full hk m d M) as G. destruct (removeBridge hk m d) as [r| | |]; cbn [goodE] in G; try contradiction.
  - exists r. split; [reflexivity|]. destruct G as (_ & fl' & E1 & _ & _ & G). assert (fl' = fl) by congruence. subst fl'.
    destruct G as [G|(A & B & C)]; [left; exact G|]. right. split; [assumption|]. split; [assumption|]. split; [assumption|].
    apply (br_MInv m (fst r) d fl); assumption.
  - exfalso. destruct G as [G|[G|G]]; [contradiction | congruence | contradiction].
Qed.

(** ** What the search for bridges does to the map *)

Local Notation U := UNREMOVABLE_BRIDGE.
Local Notation R := REMOVE_BRIDGE.
Definition acc (hk : hooks) : Prop := forall m d, hkBridge hk m d = true.

Record sc (hk : hooks) (May : nat -> Prop) m m' : Prop := {
  sc_M : MInv m';
  sc_later : later m m';
  sc_len : length (edges m') = length (edges m);
  sc_fc : faceCount m' = faceCount m;
  sc_edge : forall j, match eAt m j, eAt m' j with
      | Some e, Some e' => e' = set_flags e (eflags e') /\ (eflags e' = eflags e \/ (eflags e' = N.lor (eflags e) U /\ ~ acc hk /\ elf e = erf e))
      | Some e, None => May j /\ elf e = erf e
      | None, None => True
      | None, Some _ => False
      end }.

Lemma set_flags_id e : e = set_flags e (eflags e).
Proof. destruct e; reflexivity. Qed.

Lemma sc_refl hk May m : MInv m -> sc hk May m m.
Proof.
  intros M. constructor; auto; [apply lt_refl|]. intros j. destruct (eAt m j); auto. split; [apply set_flags_id | auto].
Qed.
Lemma sc_trans hk May a b c : sc hk May a b -> sc hk May b c -> sc hk May a c.
Proof.
  intros X Y. constructor.
  - apply Y.
  - eapply later_trans; [apply X | apply Y].
  - rewrite (sc_len _ _ _ _ Y). apply X.
  - rewrite (sc_fc _ _ _ _ Y). apply X.
  - intros j. pose proof (sc_edge _ _ _ _ X j) as A. pose proof (sc_edge _ _ _ _ Y j) as B.
    destruct (eAt a j) as [e|], (eAt b j) as [e'|], (eAt c j) as [e''|]; try contradiction; auto.
    2:{ destruct A as (A1 & _), B as (B1 & B2). split; [assumption|]. rewrite A1 in B2. exact B2. }
    destruct A as (A1 & A2), B as (B1 & B2). split; [rewrite B1, A1; reflexivity|].
    assert (Q : elf e' = erf e' -> elf e = erf e) by (rewrite A1; exact (fun x => x)).
    destruct A2 as [A2|(A2 & N & N1)], B2 as [B2|(B2 & N' & N2)]; [left; congruence | right; split; [congruence | auto] .. |].
    right. split; [|auto]. rewrite B2, A2, <- N.lor_assoc, N.lor_diag. reflexivity.
Qed.

Lemma lor_U_R a : N.land (N.lor a U) R = N.land a R.
Proof. rewrite N.land_lor_distr_l. change (N.land U R) with 0%N. apply N.lor_0_r. Qed.
Lemma lor_U_U a : N.land (N.lor a U) U = U.
Proof. apply N.bits_inj. intros n. rewrite N.land_spec, N.lor_spec. destruct (N.testbit U n), (N.testbit a n); reflexivity. Qed.

Lemma sc_R hk May m m' j e e' : sc hk May m m' -> eAt m j = Some e -> eAt m' j = Some e' -> hasFlag e' R = hasFlag e R.
Proof.
  intros X E E'. pose proof (sc_edge _ _ _ _ X j) as K. rewrite E, E' in K. destruct K as (_ & [K|(K & _ & _)]); unfold hasFlag, edgeFlag; rewrite K; [reflexivity|].
  rewrite lor_U_R. reflexivity.
Qed.
Lemma sc_U hk May m m' j e e' : sc hk May m m' -> eAt m j = Some e -> eAt m' j = Some e' -> hasFlag e U = true -> hasFlag e' U = true.
Proof.
  intros X E E' H. pose proof (sc_edge _ _ _ _ X j) as K. rewrite E, E' in K. destruct K as (_ & [K|(K & _ & _)]).
  - unfold hasFlag, edgeFlag in *. rewrite K; assumption.
  - apply hasFlag_iff. rewrite K, lor_U_U. discriminate.
Qed.
Lemma sc_May hk May m m' : sc hk May m m' -> (forall j e, eAt m j = Some e -> hasFlag e R = true -> May j) ->
  forall j e, eAt m' j = Some e -> hasFlag e R = true -> May j.
Proof.
  intros X H j e E Hf. pose proof (sc_edge _ _ _ _ X j) as K. rewrite E in K. destruct (eAt m j) as [e0|] eqn:E0; [|contradiction].
  apply (H j e0 E0). rewrite <- (sc_R _ _ _ _ _ _ _ X E0 E). assumption.
Qed.

(** the edge is gone or marked *)
Definition done m j : Prop := match eAt m j with None => True | Some e => hasFlag e U = true end.
Lemma sc_done hk May m m' j : sc hk May m m' -> done m j -> done m' j.
Proof.
  intros X H. pose proof (sc_edge _ _ _ _ X j) as K. unfold done in *. destruct (eAt m' j) as [e'|] eqn:E'; [|exact I].
  destruct (eAt m j) as [e|] eqn:E; [|contradiction]. apply (sc_U _ _ _ _ _ _ _ X E E' H).
Qed.

Lemma lft_same m d e fl : eAt m (elab d) = Some e -> d <> 0 -> lft m d = Some fl -> lft m (- d) = Some fl -> elf e = erf e.
Proof.
  intros Ej D0 H1 H2. unfold lft in H1, H2. rewrite elab_opp in H2. rewrite Ej in H1, H2. unfold e_lf in H1, H2.
  destruct (Z.ltb_spec 0 d), (Z.ltb_spec 0 (- d)); try congruence; lia.
Qed.
Lemma bridged_sc hk (May : nat -> Prop) m d fl m' : d <> 0 -> Bridged m d fl m' -> lft m d = Some fl -> lft m (- d) = Some fl ->
  MInv m' -> later m m' -> May (elab d) -> sc hk May m m'.
Proof.
  intros D0 B H1 H2 M' L HM. constructor; auto; [apply (eg_elen _ _ _ (br_gone _ _ _ _ B)) | apply (br_fc _ _ _ _ B)|]. intros j. rewrite (br_edge _ _ _ _ B).
  destruct (eAt m j) as [e|] eqn:Ej, (Nat.eqb_spec (elab d) j) as [<-|]; auto; [|split; [apply set_flags_id | auto]].
  split; [assumption|]. apply (lft_same m d e fl); assumption.
Qed.

Lemma veto_sc hk May m d e : MInv m -> eAt m (elab d) = Some e -> elf e = erf e -> ~ acc hk ->
  exists m', setFlag m (elab d) U true = Ok m' /\ sc hk May m m' /\ flagged m m' /\ done m' (elab d).
Proof.
  intros M He Hlr HN. pose proof (setFlag_Ok m (elab d) U true e He) as E. destruct (setFlag_flagged m (elab d) U true e He) as (m' & E' & Fl).
  exists m'. split; [assumption|]. rewrite E in E'. injection E' as <-. split; [|split; [assumption|]].
  - constructor.
    + apply (flagged_MInv m); assumption.
    + apply (later_flag m (elab d) U true _ e); assumption.
    + apply Fl.
    + apply (flagged_views _ _ Fl).
    + intros j. rewrite (eAt_put _ _ e _ _ He). destruct (Nat.eqb_spec (elab d) j) as [<-|].
      * rewrite He. split; [reflexivity|]. right. auto.
      * destruct (eAt m j); auto. split; [apply set_flags_id | auto].
  - unfold done. rewrite (eAt_put _ _ e _ _ He), Nat.eqb_refl. apply hasFlag_iff. cbn [withFlag set_flags eflags]. rewrite lor_U_U. discriminate.
Qed.

Lemma chain_ok hk (May : nat -> Prop) n : forall m d cnt, MInv m -> In d (darts m) -> sg m d = d -> May (elab d) ->
  (forall j e, eAt m j = Some e -> hasFlag e R = true -> May j) -> edgeCount m < Z.of_nat n ->
  exists m' cnt', chain n hk m d cnt = Ok (m', cnt') /\ sc hk May m m' /\ edgeCount m' + Z.of_nat cnt' = edgeCount m + Z.of_nat cnt /\
    done m' (elab d).
Proof.
  induction n as [|n IH]; intros m d cnt M Hd Hs HM HR Hn; [pose proof (edgeCount_pos m (mi_v _ M)); lia|].
  cbn [chain]. pose proof (sv_si _ (mi_v _ M)) as HS. pose proof (si_nz _ _ HS d Hd) as D0.
  rewrite (nextPhi_Ok m d HS Hd). cbn [bind].
  destruct (alone_bridge m d M Hd Hs) as (fl & H1 & H2 & H3).
  destruct (removeBridge_ok hk m d fl M Hd H1 H2) as (r & Er & [(Hk & Hr & Em)|(Hk & Hr & B & M')]); rewrite Er; cbn [bind]; rewrite Hr.
  - assert (HN : ~ acc hk) by (intros K; rewrite (K m d) in Hk; discriminate).
    destruct (live_edge m d Hd) as (e & He). destruct (veto_sc hk May m d e M He (lft_same m d e fl He D0 H1 H2) HN) as (m' & E' & X & Fl & Dn).
    rewrite Em, E'. cbn [bind fst snd].
    assert (Ec : edgeCount m' = edgeCount m) by apply (flagged_views _ _ Fl).
    destruct (Nat.eqb_spec (elab (phi m d)) (elab d)) as [El|El].
    { exists m', cnt. rewrite Ec. auto. }
    assert (HP : In (phi m d) (darts m)) by (apply (phi_perm m HS); assumption).
    assert (Eg : sg m' (phi m d) = - d).
    { assert (K : sg m' = sg m) by apply (flagged_views _ _ Fl). rewrite K. unfold phi. apply (si_perm _ _ HS). apply darts_opp; assumption. }
    rewrite getS_Ok. 2:{ assert (K : cap m' = cap m) by apply (flagged_views _ _ Fl). rewrite K. apply (si_cap _ _ HS); assumption. }
    cbn [bind]. rewrite Eg. destruct (Z.eqb_spec (- d) (phi m d)) as [K|K]; [exfalso; apply El; rewrite <- K; apply elab_opp|].
    cbn [negb]. exists m', cnt. rewrite Ec. auto.
  - cbn [bind fst snd]. set (m' := fst r) in *. pose proof (br_gone _ _ _ _ B) as G.
    assert (X : sc hk May m m') by (apply (bridged_sc hk May m d fl); auto; apply (later_bridge hk m d r Er)).
    assert (Dn : done m' (elab d)) by (unfold done; rewrite (br_edge _ _ _ _ B), Nat.eqb_refl; exact I).
    pose proof (eg_ec _ _ _ G) as Ec.
    destruct (Nat.eqb_spec (elab (phi m d)) (elab d)) as [El|El]; [exists m', (S cnt); split; [reflexivity|]; split; [assumption|]; split; [lia | assumption]|].
    assert (HP : In (phi m d) (darts m')).
    { apply (eg_darts _ _ _ G), in_rest. split; [apply (phi_perm m HS); assumption|]. split; intros K; apply El; rewrite K; [reflexivity | apply elab_opp]. }
    pose proof (sv_si _ (mi_v _ M')) as HS'.
    rewrite getS_Ok by (apply (si_cap _ _ HS'); assumption). cbn [bind].
    destruct (Z.eqb_spec (sg m' (phi m d)) (phi m d)) as [Es|Es]; cbn [negb].
    2:{ exists m', (S cnt). split; [reflexivity|]. split; [assumption|]. split; [lia | assumption]. }
    destruct (live_edge m' _ HP) as (e & He). rewrite (deref_edge _ _ _ He). cbn [bind].
    destruct (hasFlag e R) eqn:Ef.
    2:{ exists m', (S cnt). split; [reflexivity|]. split; [assumption|]. split; [lia | assumption]. }
    destruct (IH m' (phi m d) (S cnt)) as (m2 & c2 & E2 & X2 & C2 & _); auto.
    + apply (sc_May _ _ _ _ X HR _ e He Ef).
    + apply (sc_May _ _ _ _ X HR).
    + lia.
    + exists m2, c2. split; [assumption|]. split; [apply (sc_trans _ _ _ m'); assumption|]. split; [lia|].
      apply (sc_done _ _ _ _ _ X2 Dn).
Qed.

Lemma scan_ok hk (May : nat -> Prop) bs : forall m found cnt, MInv m -> (forall b, In b bs -> (b < length (edges m))%nat /\ May b) ->
  (forall j e, eAt m j = Some e -> hasFlag e R = true -> May j) ->
  exists m' found' cnt', scan hk m bs found cnt = Ok (m', found', cnt') /\ sc hk May m m' /\
    edgeCount m' + Z.of_nat cnt' = edgeCount m + Z.of_nat cnt /\
    (if found' then found = true \/ exists b, In b bs /\ done m' b else found = false /\ m' = m /\ cnt' = cnt).
Proof.
  induction bs as [|b t IH]; intros m found cnt M Hb HR.
  - exists m, found, cnt. split; [reflexivity|]. split; [apply sc_refl; assumption|]. split; [reflexivity|]. destruct found; auto.
  - cbn [scan]. cbv zeta. destruct (Hb b (or_introl eq_refl)) as [Lb Mb]. rewrite (edgeP_eAt m b Lb). cbn [bind].
    assert (Skip : exists m' found' cnt', scan hk m t found cnt = Ok (m', found', cnt') /\ sc hk May m m' /\
      edgeCount m' + Z.of_nat cnt' = edgeCount m + Z.of_nat cnt /\
      (if found' then found = true \/ exists b0, In b0 (b :: t) /\ done m' b0 else found = false /\ m' = m /\ cnt' = cnt)).
    { destruct (IH m found cnt M) as (m' & f' & c' & E & X & C & D); auto; [intros; apply Hb; right; assumption|].
      exists m', f', c'. split; [assumption|]. split; [assumption|]. split; [assumption|]. destruct f'; [|assumption].
      destruct D as [D|(b0 & D1 & D2)]; [left; assumption | right; exists b0; split; [right|]; assumption]. }
    destruct (eAt m b) as [e|] eqn:Eb; [|exact Skip].
    pose proof (sv_si _ (mi_v _ M)) as HS.
    assert (B0 : b <> 0%nat) by (intros ->; rewrite (sv_e0 _ (mi_v _ M)) in Eb; discriminate).
    assert (Hd : In (Z.of_nat b) (darts m)) by (apply in_darts; rewrite elab_of_nat; split; [lia | congruence]).
    pose proof (darts_opp _ _ Hd) as Hd'.
    rewrite !getS_Ok by (apply (si_cap _ _ HS); assumption). cbn [bind].
    assert (Go : forall d, In d (darts m) -> elab d = b -> sg m d = d -> exists m' found' cnt', (r <- chain (chainFuel m) hk m d cnt ;; scan hk (fst r) t true (snd r)) = Ok (m', found', cnt') /\ sc hk May m m' /\
      edgeCount m' + Z.of_nat cnt' = edgeCount m + Z.of_nat cnt /\
      (if found' then found = true \/ exists b0, In b0 (b :: t) /\ done m' b0 else found = false /\ m' = m /\ cnt' = cnt)).
    { intros d Dd El Es. destruct (chain_ok hk May (chainFuel m) m d cnt M Dd Es) as (m1 & c1 & E1 & X1 & C1 & D1); auto.
      - rewrite El; assumption.
      - unfold chainFuel. pose proof (edgeCount_pos m (mi_v _ M)). lia.
      - rewrite E1. cbn [bind fst snd].
        destruct (IH m1 true c1) as (m' & f' & c' & E & X & C & D).
        + apply X1.
        + intros b0 Hb0. rewrite (sc_len _ _ _ _ X1). apply Hb; right; assumption.
        + apply (sc_May _ _ _ _ X1 HR).
        + exists m', f', c'. split; [assumption|]. split; [apply (sc_trans _ _ _ m1); assumption|]. split; [lia|].
          destruct f'; [|destruct D; discriminate]. right. exists b. split; [left; reflexivity|].
          rewrite <- El. apply (sc_done _ _ _ _ _ X D1). }
    destruct (Z.eqb_spec (sg m (- Z.of_nat b)) (- Z.of_nat b)) as [E1|E1].
    { apply Go; [assumption | rewrite elab_opp; apply elab_of_nat | assumption]. }
    destruct (Z.eqb_spec (sg m (Z.of_nat b)) (Z.of_nat b)) as [E2|E2]; [|exact Skip].
    apply Go; [assumption | apply elab_of_nat | assumption].
Qed.

Lemma cleanup_ok bs : forall m, NoDup bs -> (forall b, In b bs -> (b < length (edges m))%nat) ->
  exists m' bs', cleanup m bs = Ok (m', bs') /\ flagged m m' /\ later m m' /\ NoDup bs' /\ (length bs' <= length bs)%nat /\
    (forall b, In b bs' <-> In b bs /\ exists e, eAt m b = Some e /\ hasFlag e U = false) /\
    (forall j, ~ In j bs -> eAt m' j = eAt m j) /\
    (forall j e, In j bs -> eAt m j = Some e -> eAt m' j = Some (if hasFlag e U then withFlag e U false else e)).
Proof.
  induction bs as [|b t IH]; intros m Hnd Hb.
  { exists m, []. split; [reflexivity|]. split; [apply flagged_refl|]. split; [apply lt_refl|]. split; [constructor|]. split; [lia|].
    split; [intros b; split; [intros [] | intros [[] _]]|]. split; [reflexivity | intros j e []]. }
  apply NoDup_cons_iff in Hnd as [Hni Hnd].
  cbn [cleanup]. rewrite (edgeP_eAt m b) by (apply Hb; left; reflexivity). cbn [bind].
  destruct (eAt m b) as [e|] eqn:Eb.
  - destruct (hasFlag e U) eqn:Ef.
    + pose proof (setFlag_Ok m b U false e Eb) as Es. rewrite Es. cbn [bind]. set (m1 := putE m b (Some (withFlag e U false))) in *.
      assert (Fl : flagged m m1) by (apply flagged_put; assumption).
      assert (He : forall j, eAt m1 j = if Nat.eqb b j then Some (withFlag e U false) else eAt m j) by (intros; apply (eAt_put m b e); assumption).
      destruct (IH m1 Hnd) as (m' & bs' & E & F2 & L2 & N2 & Len & Hin & Hout & Hon).
      { intros b0 Hb0. rewrite (fg_len _ _ Fl). apply Hb; right; assumption. }
      assert (Same : forall j, In j t -> eAt m1 j = eAt m j).
      { intros j Hj. rewrite He. destruct (Nat.eqb_spec b j); [congruence | reflexivity]. }
      exists m', bs'. split; [assumption|]. split; [apply (flagged_trans _ m1); assumption|].
      split; [apply (later_trans _ m1); [apply (later_flag m b U false _ e); assumption | assumption]|].
      split; [assumption|]. split; [cbn; lia|]. split; [|split].
      * intros j. rewrite Hin. split.
        -- intros (H1 & e0 & H2 & H3). rewrite (Same j H1) in H2. split; [right; assumption | eauto].
        -- intros ([<-|H1] & e0 & H2 & H3); [congruence|]. split; [assumption|]. exists e0. rewrite (Same j H1). auto.
      * intros j Hj. rewrite Hout by (intros K; apply Hj; right; assumption). rewrite He. destruct (Nat.eqb_spec b j) as [<-|]; [exfalso; apply Hj; left; reflexivity | reflexivity].
      * intros j e0 [<-|Hj] E0.
        -- assert (e0 = e) by congruence; subst e0. rewrite Ef, Hout by assumption. rewrite He, Nat.eqb_refl. reflexivity.
        -- apply Hon; [assumption|]. rewrite (Same j Hj). assumption.
    + destruct (IH m Hnd) as (m' & bs' & E & F2 & L2 & N2 & Len & Hin & Hout & Hon); [intros; apply Hb; right; assumption|].
      rewrite E. cbn [bind fst snd]. exists m', (b :: bs'). split; [reflexivity|]. split; [assumption|]. split; [assumption|].
      split; [constructor; [intros K; apply Hni, Hin; assumption | assumption]|]. split; [cbn; lia|]. split; [|split].
      * intros j. cbn [In]. rewrite Hin. split.
        -- intros [<-|(H1 & H2)]; [split; [left; reflexivity | eauto] | auto].
        -- intros ([<-|H1] & H2); auto.
      * intros j Hj. apply Hout. intros K; apply Hj; right; assumption.
      * intros j e0 [<-|Hj] E0; [|apply Hon; assumption]. assert (e0 = e) by congruence; subst e0. rewrite Ef, Hout; assumption.
  - destruct (IH m Hnd) as (m' & bs' & E & F2 & L2 & N2 & Len & Hin & Hout & Hon); [intros; apply Hb; right; assumption|].
    exists m', bs'. split; [assumption|]. split; [assumption|]. split; [assumption|]. split; [assumption|]. split; [cbn; lia|]. split; [|split].
    * intros j. rewrite Hin. split; [intros (H1 & H2); split; [right; assumption | assumption]|].
      intros ([<-|H1] & e0 & H2 & H3); [congruence | eauto].
    * intros j Hj. apply Hout. intros K; apply Hj; right; assumption.
    * intros j e0 [<-|Hj] E0; [congruence | apply Hon; assumption].
Qed.

(** ** The whole loop *)

Record rb (hk : hooks) (May : nat -> Prop) m m' : Prop := {
  rb_M : MInv m';
  rb_later : later m m';
  rb_len : length (edges m') = length (edges m);
  rb_fc : faceCount m' = faceCount m;
  rb_edge : forall j, match eAt m j, eAt m' j with
      | Some e, Some e' => e' = set_flags e (eflags e') /\ N.ldiff (eflags e') U = N.ldiff (eflags e) U /\ (acc hk -> eflags e' = eflags e) /\ (elf e <> erf e -> eflags e' = eflags e)
      | Some e, None => May j /\ elf e = erf e
      | None, None => True
      | None, Some _ => False
      end }.
Lemma rb_refl hk May m : MInv m -> rb hk May m m.
Proof.
  intros M. constructor; auto; [apply lt_refl|]. intros j. destruct (eAt m j); auto. split; [apply set_flags_id | auto].
Qed.
Lemma rb_trans hk May a b c : rb hk May a b -> rb hk May b c -> rb hk May a c.
Proof.
  intros X Y. constructor.
  - apply Y.
  - eapply later_trans; [apply X | apply Y].
  - rewrite (rb_len _ _ _ _ Y). apply X.
  - rewrite (rb_fc _ _ _ _ Y). apply X.
  - intros j. pose proof (rb_edge _ _ _ _ X j) as A. pose proof (rb_edge _ _ _ _ Y j) as B.
    destruct (eAt a j) as [e|], (eAt b j) as [e'|], (eAt c j) as [e''|]; try contradiction; auto.
    2:{ destruct A as (A1 & _), B as (B1 & B2). split; [assumption|]. rewrite A1 in B2. exact B2. }
    destruct A as (A1 & A2 & A3 & A4), B as (B1 & B2 & B3 & B4). assert (Q : elf e' = erf e' -> elf e = erf e) by (rewrite A1; exact (fun x => x)). split; [rewrite B1, A1; reflexivity|]. split; [congruence|].
    split; intros K; [rewrite (B3 K) | rewrite B4 by auto]; auto.
Qed.
Lemma ldiff_lor a : N.ldiff (N.lor a U) U = N.ldiff a U.
Proof. apply N.bits_inj. intros n. rewrite !N.ldiff_spec, N.lor_spec. destruct (N.testbit a n), (N.testbit U n); reflexivity. Qed.
Lemma ldiff_ldiff a : N.ldiff (N.ldiff a U) U = N.ldiff a U.
Proof. apply N.bits_inj. intros n. rewrite !N.ldiff_spec. destruct (N.testbit a n), (N.testbit U n); reflexivity. Qed.
Lemma sc_rb hk May m m' : sc hk May m m' -> rb hk May m m'.
Proof.
  intros X. constructor; try apply X. intros j. pose proof (sc_edge _ _ _ _ X j) as K.
  destruct (eAt m j) as [e|], (eAt m' j) as [e'|]; auto. destruct K as (K1 & K2). split; [assumption|]. split.
  - destruct K2 as [->|(-> & _ & _)]; [reflexivity | apply ldiff_lor].
  - split; intros A; destruct K2 as [K2|(_ & K2 & K3)]; auto; contradiction.
Qed.
Lemma ldiff_land a b : N.ldiff a U = N.ldiff b U -> N.land a R = N.land b R.
Proof.
  intros H. assert (K : forall x, N.land x R = N.land (N.ldiff x U) R).
  { intros x. apply N.bits_inj. intros n. rewrite !N.land_spec, N.ldiff_spec.
    destruct (N.testbit R n) eqn:E; [|rewrite !andb_false_r; reflexivity].
    destruct (N.testbit U n) eqn:E'; [|cbn [negb]; rewrite !andb_true_r; reflexivity].
    assert (X : N.testbit (N.land U R) n = true) by (rewrite N.land_spec, E, E'; reflexivity). change (N.land U R) with 0%N in X. rewrite N.bits_0 in X. discriminate. }
  rewrite (K a), (K b), H. reflexivity.
Qed.
Lemma rb_May hk May m m' : rb hk May m m' -> (forall j e, eAt m j = Some e -> hasFlag e R = true -> May j) ->
  forall j e, eAt m' j = Some e -> hasFlag e R = true -> May j.
Proof.
  intros X H j e E Hf. pose proof (rb_edge _ _ _ _ X j) as K. rewrite E in K. destruct (eAt m j) as [e0|] eqn:E0; [|contradiction].
  destruct K as (_ & K & _). apply (H j e0 E0). unfold hasFlag, edgeFlag in *. rewrite <- (ldiff_land _ _ K). assumption.
Qed.

Definition bridges_ok m bs : Prop := NoDup bs /\ forall b, In b bs -> exists e, eAt m b = Some e /\ elf e = erf e /\ hasFlag e U = false.

Lemma edge_lft m b e : (b <> 0)%nat -> eAt m b = Some e -> lft m (Z.of_nat b) = elf e /\ lft m (- Z.of_nat b) = erf e.
Proof.
  intros B0 He. unfold lft. rewrite elab_opp, elab_of_nat, He. unfold e_lf.
  destruct (Z.ltb_spec 0 (Z.of_nat b)), (Z.ltb_spec 0 (- Z.of_nat b)); try lia. auto.
Qed.

Lemma edge_dart m b e : SInv m -> eAt m b = Some e -> (b <> 0)%nat /\ In (Z.of_nat b) (darts m).
Proof.
  intros V He. assert (B0 : b <> 0%nat) by (intros ->; rewrite (sv_e0 _ V) in He; discriminate). split; [assumption|].
  apply in_darts. rewrite elab_of_nat. split; [lia | congruence].
Qed.

Lemma bridgesLoop_ok hk (May : nat -> Prop) n : forall bs m cnt, MInv m -> bridges_ok m bs -> (forall b, In b bs -> May b) ->
  (forall j e, eAt m j = Some e -> hasFlag e R = true -> May j) -> (length bs < n)%nat ->
  exists m' cnt', bridgesLoop n hk m bs cnt = Ok (m', cnt') /\ rb hk May m m' /\
    edgeCount m' + Z.of_nat cnt' = edgeCount m + Z.of_nat cnt /\ (acc hk -> forall b, In b bs -> eAt m' b = None).
Proof.
  induction n as [|n IH]; intros bs m cnt M (Hnd & Hb) HM HR Hn; [lia|].
  destruct bs as [|b0 t0] eqn:Ebs.
  { exists m, cnt. split; [reflexivity|]. split; [apply rb_refl; assumption|]. split; [reflexivity | intros _ b []]. }
  cbn [bridgesLoop]. assert (Hne : b0 :: t0 <> []) by discriminate. rewrite <- Ebs in *. clear Ebs.
  destruct (scan_ok hk May bs m false cnt M) as (m1 & found & c1 & E1 & X1 & C1 & D1).
  { intros b H. split; [|apply HM; assumption]. destruct (Hb b H) as (e & He & _). apply (eAt_lt m b e He). }
  { assumption. }
  rewrite E1. cbn [bind].
  destruct (cleanup_ok bs m1 Hnd) as (m2 & bs2 & E2 & Fl & L2 & N2 & Len & Hin & Hout & Hon).
  { intros b H. rewrite (sc_len _ _ _ _ X1). destruct (Hb b H) as (e & He & _). apply (eAt_lt m b e He). }
  rewrite E2. cbn [bind].
  assert (M2 : MInv m2) by (apply (flagged_MInv m1); [assumption | apply X1]).
  assert (NoU : acc hk -> forall j e, In j bs -> eAt m1 j = Some e -> hasFlag e U = false).
  { intros A j e Hj E. pose proof (sc_edge _ _ _ _ X1 j) as K. rewrite E in K. destruct (Hb j Hj) as (e0 & E0 & _ & F0). rewrite E0 in K.
    destruct K as (_ & [K|(_ & K & _)]); [|contradiction]. unfold hasFlag, edgeFlag in *. rewrite K. assumption. }
  assert (X2 : rb hk May m m2).
  { constructor.
    - assumption.
    - apply (later_trans _ m1); [apply X1 | assumption].
    - rewrite (fg_len _ _ Fl). apply X1.
    - transitivity (faceCount m1); [apply (flagged_views _ _ Fl) | apply X1].
    - intros j. pose proof (rb_edge _ _ _ _ (sc_rb _ _ _ _ X1) j) as K. pose proof (fg_edge _ _ Fl j) as K2.
      destruct (eAt m j) as [e|] eqn:Ej, (eAt m1 j) as [e1|] eqn:E1j, (eAt m2 j) as [e2|] eqn:E2j; try contradiction; auto.
      destruct K as (Ka & Kb & Kc & Kd). split; [rewrite K2, Ka; reflexivity|].
      destruct (in_dec Nat.eq_dec j bs) as [Hj|Hj].
      + rewrite (Hon j e1 Hj E1j) in E2j. destruct (hasFlag e1 U) eqn:Ef.
        * injection E2j as <-. cbn [withFlag set_flags eflags]. rewrite ldiff_ldiff. split; [assumption|].
          split; intros A; [rewrite (NoU A j e1 Hj E1j) in Ef; discriminate|]. destruct (Hb j Hj) as (e0 & E0 & Elr & _). congruence.
        * injection E2j as <-. auto.
      + rewrite (Hout j Hj), E1j in E2j. injection E2j as <-. auto. }
  assert (HR2 : forall j e, eAt m2 j = Some e -> hasFlag e R = true -> May j) by (apply (rb_May hk May m); assumption).
  assert (Ec2 : edgeCount m2 = edgeCount m1) by apply (flagged_views _ _ Fl).
  assert (B2 : bridges_ok m2 bs2).
  { split; [assumption|]. intros b H. apply Hin in H as (H & e1 & H1 & H2). exists e1. rewrite (Hon b e1 H H1), H2. split; [reflexivity|].
    pose proof (sc_edge _ _ _ _ X1 b) as K. rewrite H1 in K. destruct (Hb b H) as (e & E & Eb & _). rewrite E in K. destruct K as (K & _).
    split; [|reflexivity]. rewrite K. exact Eb. }
  assert (Gone2 : acc hk -> forall b, In b bs -> In b bs2 \/ eAt m2 b = None).
  { intros A b H. destruct (eAt m1 b) as [e|] eqn:E.
    - left. apply Hin. split; [assumption|]. exists e. split; [assumption|]. apply (NoU A b e H E).
    - right. pose proof (fg_edge _ _ Fl b) as K. rewrite E in K. destruct (eAt m2 b); [contradiction | reflexivity]. }
  assert (Dead : forall m' hk' b, rb hk' May m2 m' -> eAt m2 b = None -> eAt m' b = None).
  { intros m' hk' b X E. pose proof (rb_edge _ _ _ _ X b) as K. rewrite E in K. destruct (eAt m' b); [contradiction | reflexivity]. }
  destruct found.
  - (* at least one label has been dropped *)
    assert (Lt : (length bs2 < length bs)%nat).
    { destruct D1 as [D1|(b & Db & Dn)]; [discriminate|].
      assert (Nb : ~ In b bs2) by (intros K; apply Hin in K as (_ & e & K1 & K2); unfold done in Dn; rewrite K1 in Dn; congruence).
      assert (Inc : incl (b :: bs2) bs) by (intros x [<-|Hx]; [assumption | apply Hin in Hx; tauto]).
      pose proof (NoDup_incl_length (NoDup_cons b Nb N2) Inc) as K. cbn in K. lia. }
    destruct (IH bs2 m2 c1 M2 B2) as (m' & c' & E & X & C & A); auto; [intros b H; apply HM; apply Hin in H; tauto | lia|].
    exists m', c'. split; [assumption|]. split; [apply (rb_trans _ _ _ m2); assumption|]. split; [lia|].
    intros K b H. destruct (Gone2 K b H) as [H2|H2]; [apply A; assumption | apply (Dead m' hk); assumption].
  - destruct D1 as (_ & -> & ->).
    assert (All : forall b, In b bs -> In b bs2).
    { intros b H. apply Hin. split; [assumption|]. destruct (Hb b H) as (e & E & _ & F). eauto. }
    destruct bs2 as [|b t].
    { exfalso. destruct bs as [|b t]; [apply Hne; reflexivity | apply (All b); left; reflexivity]. }
    destruct B2 as (N2' & B2). destruct (B2 b (or_introl eq_refl)) as (e & He & Elr & Ef). destruct (edge_dart m2 b e (mi_v _ M2) He) as (B0 & Hd).
    destruct (edge_lft m2 b e B0 He) as (L1 & L2'). destruct (fi_cover _ _ _ _ (mi_f _ M2) _ Hd) as (fl & _ & _ & Hl & _).
    destruct (removeBridge_ok hk m2 (Z.of_nat b) fl M2 Hd Hl) as (r & Er & Hr); [congruence|]. rewrite Er. cbn [bind].
    assert (X3 : rb hk May m2 (fst r) /\ edgeCount (fst r) + (match snd r with Some _ => 1 | None => 0 end) = edgeCount m2 /\
                 (forall j, j <> b -> eAt (fst r) j = eAt m2 j) /\ (acc hk -> eAt (fst r) b = None)).
    { destruct Hr as [(Hk & Hr & Em)|(Hk & Hr & B & M')].
      - rewrite Hr, Em. split; [apply rb_refl; assumption|]. split; [lia|]. split; [reflexivity|]. intros K. rewrite (K m2) in Hk. discriminate.
      - rewrite Hr. split; [apply sc_rb, (bridged_sc hk May m2 (Z.of_nat b) fl); auto; [lia | congruence |..]|].
        + apply (later_bridge hk m2 _ r Er).
        + rewrite elab_of_nat. apply HM. apply Hin; left; reflexivity.
        + pose proof (eg_ec _ _ _ (br_gone _ _ _ _ B)). split; [lia|]. pose proof (br_edge _ _ _ _ B) as K. rewrite elab_of_nat in K. split.
          * intros j Hj. rewrite K. destruct (Nat.eqb_spec b j); [congruence | reflexivity].
          * intros _. rewrite K, Nat.eqb_refl. reflexivity. }
    destruct X3 as (X3 & C3 & Oth & Gn).
    apply NoDup_cons_iff in N2' as [Nb N2'].
    destruct (IH t (fst r) (match snd r with Some _ => S cnt | None => cnt end)) as (m' & c' & E & X & C & A).
    + apply X3.
    + split; [assumption|]. intros j Hj. rewrite Oth by (intros ->; contradiction). apply B2. right; assumption.
    + intros j Hj. apply HM. apply Hin. right; assumption.
    + apply (rb_May hk May m2); assumption.
    + cbn in Len. lia.
    + exists m', c'. split; [assumption|]. split; [apply (rb_trans _ _ _ m2); [assumption | apply (rb_trans _ _ _ (fst r)); assumption]|].
      split; [destruct (snd r); lia|]. intros K j Hj. apply All in Hj as [<-|Hj]; [|apply A; assumption].
      specialize (Gn K). pose proof (rb_edge _ _ _ _ X b) as Q. rewrite Gn in Q. destruct (eAt m' b); [contradiction | reflexivity].
Qed.
