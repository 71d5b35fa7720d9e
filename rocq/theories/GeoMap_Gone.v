(** One edge taken out of the map, possibly together with end nodes that became
    isolated: the part common to removeBridge and mergeFaces. *)
From Verif Require Import Base Orbit GraphRank Euler Links FaceInv Conj
  GeoMap_Model GeoMap_Views GeoMap_SInv GeoMap_Remove GeoMap_MergeEdges GeoMap_Loops GeoMap_MInv.
Local Open Scope Z_scope.

(** ** Isolated nodes removed *)

Record nless mA mB : Prop := {
  nl_eq : mB = set_nodeCount (set_nodes mA (nodes mB)) (nodeCount mB);
  nl_len : length (nodes mB) = length (nodes mA);
  nl_at : forall l, nAt mB l = nAt mA l \/
            (nAt mB l = None /\ exists n, nAt mA l = Some n /\ nanchor n = 0);
  nl_busy : sumf busy (nodes mB) = sumf busy (nodes mA);
  nl_cnt : nodeCount mB - sumf alive (nodes mB) = nodeCount mA - sumf alive (nodes mA) }.

Lemma nless_refl m : nless m m.
Proof. constructor; auto. destruct m; reflexivity. Qed.

Lemma nless_trans a b c : nless a b -> nless b c -> nless a c.
Proof.
  intros X Y. constructor.
  - rewrite (nl_eq _ _ Y), (nl_eq _ _ X). reflexivity.
  - rewrite (nl_len _ _ Y); apply X.
  - intros l. destruct (nl_at _ _ Y l) as [E|(E & n & En & E0)].
    + rewrite E; apply (nl_at _ _ X).
    + destruct (nl_at _ _ X l) as [E'|(E' & n' & En' & E0')].
      * right; split; auto. exists n. rewrite <- E'; auto.
      * right; split; auto. exists n'; auto.
  - rewrite (nl_busy _ _ Y); apply X.
  - rewrite (nl_cnt _ _ Y); apply X.
Qed.

Lemma removeIsolatedNode_nless hk m l n : nAt m l = Some n -> nanchor n = 0 ->
  exists m' b, removeIsolatedNode hk m l = Ok (m', b) /\ nless m m' /\
     (b = false -> m' = m) /\ (b = true -> m' = uninitNode m l).
Proof.
  intros Hn H0. unfold removeIsolatedNode. rewrite (deref_node _ _ _ Hn). cbn [bind].
  destruct (hkNode hk m l).
  - exists (uninitNode m l), true. split; [reflexivity|]. split; [|split; congruence].
    constructor.
    + reflexivity.
    + cbn. apply list_upd_length.
    + intros j. unfold nAt, uninitNode; cbn [nodes set_nodeCount putN set_nodes].
      rewrite tget_upd_None. destruct (Nat.eqb_spec l j) as [->|]; [|left; reflexivity].
      right; split; [reflexivity|]. exists n; auto.
    + cbn [uninitNode nodes set_nodeCount putN set_nodes]. rewrite (sumf_tget busy _ _ _ _ Hn).
      simpl. rewrite H0. simpl. lia.
    + cbn [uninitNode nodes nodeCount set_nodeCount putN set_nodes].
      rewrite (sumf_tget alive _ _ _ _ Hn). simpl; lia.
  - exists m, false. split; [reflexivity|]. split; [apply nless_refl | split; congruence].
Qed.

(** ** The record *)

Record EdgeGone m d m' : Prop := {
  eg_v : SInv m';
  eg_darts : forall x, In x (darts m') <-> In x (rest m d);
  eg_elen : length (edges m') = length (edges m);
  eg_nlen : length (nodes m') = length (nodes m);
  eg_cap : cap m' = cap m;
  eg_sorted : sorted m' = sorted m;
  eg_ec : edgeCount m' = edgeCount m - 1;
  eg_edge : forall j, match eAt m j, eAt m' j with
      | Some e, Some e' => j <> elab d /\ estart e' = estart e /\ eend e' = eend e /\
                           epts e' = epts e /\ eflags e' = eflags e
      | Some _, None => j = elab d
      | None, None => True
      | None, Some _ => False
      end;
  eg_sg : forall x, In x (rest m d) -> sg m' x = skp (skp (sg m) d) (- d) x;
  eg_sgi : forall x, In x (rest m d) -> sgi m' x = skp (skp (sgi m) d) (- d) x;
  eg_busy : sumf busy (nodes m') = sumf busy (nodes m) - (if sg m d =? d then 1 else 0)
              - (if skp (sg m) d (- d) =? - d then 1 else 0);
  eg_node : forall l, match nAt m l, nAt m' l with
      | Some n, Some n' => npos n' = npos n
      | Some n, None => (l = stt m d \/ l = stt m (- d)) \/ nanchor n = 0
      | None, None => True
      | None, Some _ => False
      end;
  eg_other : forall l, l <> stt m d -> l <> stt m (- d) ->
      nAt m' l = nAt m l \/ (nAt m' l = None /\ exists n, nAt m l = Some n /\ nanchor n = 0) }.

(** [mC]: [m] with left faces changed; [mD]: both darts detached; [mE]: isolated
    nodes dropped; [m']: same as [mE] up to faces, with the edge record gone. *)
Lemma gone_build m P s mC mD mE m' d :
  SInv m -> In d (darts m) -> relab m P s mC -> detached2 mC d mD -> nless mD mE ->
  sg m' = sg mE -> sgi m' = sgi mE -> cap m' = cap mE -> sorted m' = sorted mE ->
  nodes m' = nodes mE -> nodeCount m' = nodeCount mE ->
  edges m' = list_upd (edges mE) (elab d) None -> edgeCount m' = edgeCount mE - 1 ->
  faceCount m' = sumf alive (faces m') ->
  EdgeGone m d m'.
Proof.
  intros V Hd RC TD NE Hsg Hsgi Hcap Hso Hnd Hnc Hed Hec Hfc.
  assert (ED : darts mC = darts m) by (eapply rl_darts; exact RC).
  assert (ER : rest mC d = rest m d) by (unfold rest; rewrite ED; reflexivity).
  pose proof (rl_eq _ _ _ _ RC) as EqC. pose proof (nl_eq _ _ NE) as EqE.
  assert (EsC : sg mC = sg m) by (rewrite EqC; reflexivity).
  assert (EsiC : sgi mC = sgi m) by (rewrite EqC; reflexivity).
  assert (EnC : nodes mC = nodes m) by (rewrite EqC; reflexivity).
  assert (EcC : cap mC = cap m) by (rewrite EqC; reflexivity).
  assert (EeE : edges mE = edges mC) by (rewrite EqE; cbn; apply TD).
  assert (EsE : sg mE = sg mD) by (rewrite EqE; reflexivity).
  assert (EsiE : sgi mE = sgi mD) by (rewrite EqE; reflexivity).
  assert (EcE : cap mE = cap mD) by (rewrite EqE; reflexivity).
  assert (Est : forall x, stt mC x = stt m x) by (intros x; eapply rl_stt; exact RC).
  assert (EstD : forall x, stt mD x = stt m x).
  { intros x. rewrite <- Est. unfold stt, eAt. rewrite (d2_edges _ _ _ TD). reflexivity. }
  assert (Ee' : forall j, eAt m' j = if Nat.eqb (elab d) j then None else eAt mC j).
  { intros j. unfold eAt. rewrite Hed, tget_upd_None, EeE. reflexivity. }
  assert (HnN : forall l, nAt m' l = nAt mE l) by (intros l; unfold nAt; rewrite Hnd; reflexivity).
  assert (HnC : forall l, nAt mC l = nAt m l) by (intros l; unfold nAt; rewrite EnC; reflexivity).
  assert (Eec : edgeCount mE = edgeCount m).
  { rewrite EqE. cbn. rewrite (d2_ec _ _ _ TD), EqC. reflexivity. }
  assert (EaC : sumf alive (edges mC) = sumf alive (edges m)).
  { assert (HA : forall (l l' : list (option edge)), length l = length l' ->
      (forall j, alive (tget l j) = alive (tget l' j)) -> sumf alive l = sumf alive l').
    { induction l as [|a l IH]; intros [|b l'] Hl Hj; try discriminate; [reflexivity|].
      simpl. rewrite (IH l'); [f_equal; apply (Hj 0%nat) | simpl in Hl; lia|].
      intros j; apply (Hj (S j)). }
    apply HA; [apply (rl_len _ _ _ _ RC)|]. intros j. pose proof (rl_edge _ _ _ _ RC j) as K.
    unfold eAt in K. destruct (tget (edges m) j), (tget (edges mC) j); tauto || reflexivity. }
  assert (HdC : In d (darts mC)) by (rewrite ED; assumption).
  destruct (live_edge mC d HdC) as (e & He).
  assert (Hec' : edgeCount m' = sumf alive (edges m')).
  { rewrite Hed, EeE. unfold eAt in He. rewrite (sumf_tget alive _ _ _ _ He). simpl.
    rewrite Hec, Eec, EaC, (sv_ec _ V). lia. }
  assert (Hlen : length (edges m') = length (edges m)).
  { rewrite Hed, list_upd_length, EeE. apply (rl_len _ _ _ _ RC). }
  assert (SD : SI mD (rest m d)) by (rewrite <- ER; apply TD).
  destruct (removed_SInv m d mD m') as [V' HD']; auto.
  - rewrite Hcap, EcE, (d2_cap _ _ _ TD). assumption.
  - rewrite (d2_cap _ _ _ TD). assumption.
  - congruence.
  - congruence.
  - intros l. rewrite Ee'. pose proof (rl_edge _ _ _ _ RC l) as K.
    destruct (Nat.eqb_spec (elab d) l); [split; auto|].
    destruct (eAt m l), (eAt mC l); try contradiction; split; intuition congruence.
  - intros x Hx. rewrite EstD, <- Est. unfold stt. rewrite Ee'.
    apply in_rest in Hx as (A & B & C).
    destruct (Nat.eqb_spec (elab d) (elab x)) as [E|]; [|reflexivity].
    symmetry in E; apply elab_eq in E; tauto.
  - intros x Hx. rewrite HnN. pose proof (si_node _ _ SD x Hx) as Hn.
    destruct (nl_at _ _ NE (stt mD x)) as [->|(_ & n & En & E0)]; [assumption|].
    exfalso. destruct (si_anchor _ _ SD _ _ En) as [[_ A]|(A & _)].
    + apply (A x Hx); reflexivity.
    + apply (si_nz _ _ SD _ A); assumption.
  - intros l n Hn. rewrite HnN in Hn. destruct (nl_at _ _ NE l) as [E|(E & _)]; [|congruence].
    exists n. rewrite <- E; auto.
  - rewrite Hnc, Hnd. pose proof (nl_cnt _ _ NE) as Hcnt.
    rewrite (d2_nc _ _ _ TD), (d2_alive _ _ _ TD), EnC in Hcnt.
    assert (nodeCount mC = nodeCount m) by (rewrite EqC; reflexivity).
    rewrite (sv_nc _ V) in *. lia.
  - constructor; auto.
    + rewrite Hnd, (nl_len _ _ NE), (d2_nlen _ _ _ TD), EnC; reflexivity.
    + rewrite Hcap, EcE, (d2_cap _ _ _ TD); assumption.
    + rewrite Hso, EqE. cbn. rewrite (d2_sorted _ _ _ TD), EqC. reflexivity.
    + rewrite Hec, Eec; reflexivity.
    + intros j. rewrite Ee'. pose proof (rl_edge _ _ _ _ RC j) as K.
      destruct (Nat.eqb_spec (elab d) j) as [E|E]; [destruct (eAt m j); auto|].
      destruct (eAt m j), (eAt mC j); try tauto. split; [congruence | assumption].
    + intros x Hx. rewrite Hsg, EsE, (d2_sg _ _ _ TD) by (rewrite ER; assumption). rewrite EsC; reflexivity.
    + intros x Hx. rewrite Hsgi, EsiE, (d2_sgi _ _ _ TD) by (rewrite ER; assumption). rewrite EsiC; reflexivity.
    + rewrite Hnd, (nl_busy _ _ NE), (d2_busy _ _ _ TD), EsC, EnC. reflexivity.
    + intros l. rewrite HnN. pose proof (d2_pos _ _ _ TD l) as Hp. rewrite HnC in Hp.
      destruct (nl_at _ _ NE l) as [->|(-> & n & En & E0)].
      * destruct (nAt m l), (nAt mD l); simpl in Hp; try discriminate; auto. congruence.
      * rewrite En in Hp. destruct (nAt m l) as [n0|] eqn:E; [|discriminate].
        destruct (Nat.eq_dec l (stt m d)); [auto|]. destruct (Nat.eq_dec l (stt m (- d))); [auto|].
        right. rewrite (d2_node _ _ _ TD), HnC, E in En by (rewrite Est; assumption). congruence.
    + intros l H1 H2. rewrite HnN.
      assert (ED' : nAt mD l = nAt m l) by (rewrite (d2_node _ _ _ TD), HnC by (rewrite Est; assumption); reflexivity).
      rewrite <- ED'. apply (nl_at _ _ NE).
Qed.

(** ** Consequences *)
Section Gone.
  Variables (m m' : gmap) (d : Z).
  Hypothesis V : SInv m.
  Hypothesis Hd : In d (darts m).
  Hypothesis E : EdgeGone m d m'.
  Let HS := sv_si _ V.
  Let HP := phi_perm m HS.

  Lemma eg_d0 : d <> 0.
  Proof. apply (si_nz _ _ HS); assumption. Qed.
  Lemma eg_d' : In (- d) (darts m).
  Proof. apply darts_opp; assumption. Qed.

  Lemma eg_in x : In x (darts m') -> In x (darts m) /\ x <> d /\ x <> - d.
  Proof. intros H. apply (eg_darts _ _ _ E), in_rest in H. assumption. Qed.

  Lemma eg_stt x : In x (darts m') -> stt m' x = stt m x.
  Proof.
    intros Hx. destruct (live_edge _ _ Hx) as (e' & He'). pose proof (eg_edge _ _ _ E (elab x)) as K.
    unfold stt. rewrite He' in *. destruct (eAt m (elab x)) as [e|]; [|contradiction].
    destruct K as (_ & A & B & _). unfold e_st. rewrite A, B; reflexivity.
  Qed.

  Lemma eg_phi x : In x (darts m') -> phi m' x = skp (skp (swp (phi m) d (- d)) d) (- d) x.
  Proof.
    intros Hx. destruct (eg_in x Hx) as (A & B & C). unfold phi at 1.
    rewrite (eg_sgi _ _ _ E).
    - apply remove_phi; auto. apply eg_d0.
    - apply rest_opp, (eg_darts _ _ _ E); assumption.
  Qed.

  Let phi1 := swp (phi m) d (- d).
  Let HP1 : perm_on (darts m) phi1 (fun z => tr d (- d) (- sg m z)) :=
    swp_perm (darts m) (phi m) _ d (- d) HP Hd eg_d'.

  Lemma eg_phi_in x : In x (darts m') -> In (phi m' x) (darts m').
  Proof. apply (phi_perm m' (sv_si _ (eg_v _ _ _ E))). Qed.

  Lemma eg_phi_reach x y : In x (darts m') -> In y (darts m') ->
    (reach (phi m') x y <-> reach (swp (phi m) d (- d)) x y).
  Proof.
    intros Hx Hy. destruct (eg_in x Hx) as (A & B & C). destruct (eg_in y Hy) as (A' & B' & C').
    change (swp (phi m) d (- d)) with phi1.
    rewrite <- (skp2_reach (darts m) phi1 _ d (- d) x y HP1); auto using eg_d'.
    2:{ pose proof eg_d0; lia. }
    assert (Hcl : forall z, In z (darts m') -> In (skp (skp phi1 d) (- d) z) (darts m')).
    { intros z Hz. unfold phi1. rewrite <- eg_phi by assumption. apply eg_phi_in; assumption. }
    split; apply (reach_ext _ _ (fun z => In z (darts m'))); auto using eg_phi_in.
    - intros z Hz. apply eg_phi; assumption.
    - intros z Hz. symmetry. apply eg_phi; assumption.
  Qed.

  Lemma eg_elabs : Permutation (elabs m) (Z.abs d :: elabs m').
  Proof. apply elabs_split; auto. apply (eg_darts _ _ _ E). Qed.

  Lemma eg_Gm : Gm m' = pairs (stt m) (elabs m').
  Proof.
    unfold Gm, pairs. apply map_ext_in. intros l Hl.
    assert (H : In l (darts m') /\ In (- l) (darts m')).
    { split; [|apply darts_opp]; unfold darts; apply in_or_app; auto. }
    rewrite !eg_stt by tauto. reflexivity.
  Qed.

  Lemma eg_alive : sumf alive (edges m') = sumf alive (edges m) - 1.
  Proof.
    rewrite <- (sv_elabs m V), <- (sv_elabs m' (eg_v _ _ _ E)), (Permutation_length eg_elabs). cbn [length]; lia.
  Qed.
End Gone.
