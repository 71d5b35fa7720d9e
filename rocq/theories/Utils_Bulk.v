(** removeIsolatedNodes, mergeDegree2Nodes and removeEdges. *)
From Verif Require Import Base Orbit GraphRank Euler Links FaceInv Conj
  GeoMap_Model GeoMap_Views GeoMap_SInv GeoMap_Remove GeoMap_MergeEdges GeoMap_SplitEdge GeoMap_Loops GeoMap_MInv
  GeoMap_Gone GeoMap_Bridge GeoMap_MergeFaces GeoMap_Subdiv GeoMap_Init GeoMap_Area GeoMap_Embed GeoMap_Initialize GeoMap_Sort GeoMap_Flags
  GeoMap_History GeoMap_Geometry GeoMap_AreaInv GeoMap_Spec GeoMap_Facts GeoMap_Results GeoMap_Results2 GeoMap_Results4 GeoMap_Examples
  Utils_Model Utils_Spec Utils_Bridges Utils_Results Utils_Protect Utils_Trace Utils_Nodes Utils_Merge Utils_Complete.
Local Open Scope Z_scope.

Lemma nodeP_iff m n : nodeP m n = if Nat.ltb n (length (nodes m)) then Ok (nAt m n) else Exn.
Proof.
  destruct (Nat.ltb_spec n (length (nodes m))) as [L|L]; [apply nodeP_nAt; assumption|].
  unfold nodeP. apply nth_error_None in L. rewrite L. reflexivity.
Qed.
Lemma node_range m n : nAt m n <> None -> In n (seq 0 (length (nodes m))).
Proof. intros H. destruct (nAt m n) as [nd|] eqn:E; [|contradiction]. apply in_seq. pose proof (tget_lt _ _ _ E). lia. Qed.

Lemma isolated_faces hk ns : forall m c m' c', isolatedLoop hk m ns c = Ok (m', c') -> faces m' = faces m.
Proof.
  induction ns as [|n t IH]; intros m c m' c' E; cbn [isolatedLoop] in E; [injection E as <- _; reflexivity|].
  apply bind_Ok in E as (o & _ & E). destruct o as [nd|]; [|apply (IH _ _ _ _ E)]. destruct (nanchor nd =? 0); [|apply (IH _ _ _ _ E)].
  apply bind_Ok in E as (r & E1 & E). rewrite (IH _ _ _ _ E). unfold removeIsolatedNode in E1. apply bind_Ok in E1 as (nd' & _ & E1).
  destruct (hkNode hk m n); injection E1 as <-; reflexivity.
Qed.

Theorem removeIsolatedNodes_spec hk m : history anyCall m -> initialised m ->
  exists m' k, removeIsolatedNodes hk m = Ok (m', k) /\ later m m' /\ Z.of_nat k = liveNodes m - liveNodes m' /\
    (forall l, edgeP m' l = edgeP m l) /\ (forall l, faceP m' l = faceP m l) /\
    (forall n, nodeP m' n = nodeP m n \/ (noNode m' n /\ isolatedAt m n)) /\
    ((forall m1 l, hkNode hk m1 l = true) -> forall n, ~ isolatedAt m' n).
Proof.
  intros H Hi. pose proof (history_MInv _ m H Hi) as M.
  destruct (isolated_ok hk (seq 0 (length (nodes m))) m 0 M) as (m' & k & E & T & Ee & Hc & Hn & Hf); [intros n Hn; apply in_seq in Hn; lia|].
  pose proof (isolatedLoop_tr _ _ _ _ _ _ E) as Tr. destruct (tr_MInv _ _ _ Tr M) as (M' & _).
  exists m', k. split; [exact E|]. split; [apply (tr_later hk); assumption|]. rewrite !liveNodes_nc by (apply mi_v; assumption). split; [assumption|].
  split; [intros l; unfold edgeP; rewrite Ee; reflexivity|]. split; [|split].
  - intros l. unfold faceP. rewrite (isolated_faces hk _ _ _ _ _ E). reflexivity.
  - intros n. rewrite !nodeP_iff, (te_nlen _ _ T). destruct (Nat.ltb_spec n (length (nodes m))) as [L|L]; [|left; reflexivity].
    destruct (Hn n) as [->|(_ & K1 & nd & K2 & K3)]; [left; reflexivity|]. right. split; [unfold noNode; rewrite nodeP_iff, (te_nlen _ _ T), K1; apply Nat.ltb_lt in L; rewrite L; reflexivity|].
    exists nd. split; [apply isNode_iff|]; assumption.
  - intros A n Iso. assert (In n (seq 0 (length (nodes m)))). { rewrite <- (te_nlen _ _ T). apply node_range. destruct Iso as (nd & Hn' & _). apply isNode_iff in Hn'. congruence. }
    apply (isolated_fine m' n); [apply Hf; assumption | assumption].
Qed.

Theorem mergeDegree2Nodes_spec hk m : history anyCall m -> initialised m ->
  exists m' k, mergeDegree2Nodes hk m = Ok (m', k) /\ later m m' /\ Z.of_nat k = liveNodes m - liveNodes m' /\ Z.of_nat k = liveEdges m - liveEdges m' /\
    liveFaces m' = liveFaces m /\ (forall l, noFace m' l <-> noFace m l) /\
    (history geometric m -> pointsKept m (fun _ => True) m') /\ (forall n, isolatedAt m' n -> isolatedAt m n) /\
    (accepting hk -> forall n, ~ deg2At m' n).
Proof.
  intros H Hi. pose proof (history_MInv _ m H Hi) as M.
  destruct (degree2_ok hk (seq 0 (length (nodes m))) m 0 M) as (m' & k & E & T & Hn & He & Hf); [intros n Hn; apply in_seq in Hn; lia|].
  pose proof (degree2Loop_tr _ _ _ _ _ _ E) as Tr. destruct (tr_MInv _ _ _ Tr M) as (M' & _).
  exists m', k. split; [exact E|]. split; [apply (tr_later hk); assumption|]. rewrite !liveNodes_nc, !liveEdges_ec, !liveFaces_fc by (apply mi_v; assumption).
  split; [assumption|]. split; [assumption|]. split; [apply T|]. split; [intros l; rewrite !noFace_iff, (te_flen _ _ T), <- (te_fs _ _ T l); reflexivity|]. split; [|split].
  - intros G. destruct (te_pts _ _ T (history_geo geometric m (fun _ _ x => x) G)) as (P1 & P2). split.
    + intros l e K _. apply isEdge_iff in K. destruct (P1 l e K) as (l' & e' & E' & I). exists l', e'. split; [apply isEdge_iff|]; assumption.
    + intros l' e' p K Hp. apply isEdge_iff in K. destruct (P2 l' e' p K Hp) as (l & e & E' & I). exists l, e. split; [apply isEdge_iff|]; assumption.
  - intros n (nd & Hn' & H0). apply isNode_iff in Hn'. destruct (nAt m n) as [nd0|] eqn:E0.
    + destruct (Z.eq_dec (nanchor nd0) 0) as [Z0|Z0]; [exists nd0; split; [apply isNode_iff|]; assumption|].
      exfalso. assert (F : fine m n) by (intros nd1 K; congruence). apply (te_b _ _ T n F nd Hn' H0).
    + rewrite (te_n _ _ T n E0) in Hn'. discriminate.
  - intros (A1 & A2 & _) n K. assert (In n (seq 0 (length (nodes m)))).
    { rewrite <- (te_nlen _ _ T). apply node_range. destruct K as (d & d' & Hd & Hs & _). apply isDart_iff in Hd. rewrite (startLabel_Ok m' d Hd) in Hs. injection Hs as <-.
      apply (si_node _ _ (sv_si _ (mi_v _ M'))). assumption. }
    apply (deg2_tidy m' n); [apply M' | apply Hf; assumption | assumption].
Qed.

(** ** removeEdges *)

Notation R := REMOVE_BRIDGE.
Notation U := UNREMOVABLE_BRIDGE.

(** what the first loop does to the edges *)
Record lrel (D : nat -> Prop) m m' : Prop := {
  lr_M : MInv m';
  lr_elen : length (edges m') = length (edges m);
  lr_edge : forall j, match eAt m j, eAt m' j with
      | Some e, Some e' => estart e' = estart e /\ eend e' = eend e /\ epts e' = epts e /\ N.ldiff (eflags e') R = N.ldiff (eflags e) R /\
                           (eflags e' = eflags e \/ D j) /\ (elf e = erf e -> elf e' = erf e')
      | Some _, None => D j
      | None, None => True
      | None, Some _ => False
      end }.
Lemma lrel_refl D m : MInv m -> lrel D m m.
Proof. intros M. constructor; auto. intros j. destruct (eAt m j); auto. repeat split; auto. Qed.
Lemma lrel_trans (D D1 D2 : nat -> Prop) a b c : (forall j, D1 j -> D j) -> (forall j, D2 j -> D j) -> lrel D1 a b -> lrel D2 b c -> lrel D a c.
Proof.
  intros H1 H2 X Y. constructor; [apply Y | rewrite (lr_elen _ _ _ Y); apply X|].
  intros j. pose proof (lr_edge _ _ _ X j) as A. pose proof (lr_edge _ _ _ Y j) as B.
  destruct (eAt a j) as [e|], (eAt b j) as [e'|], (eAt c j) as [e''|]; try contradiction; auto.
  destruct A as (A1 & A2 & A3 & A4 & A5 & A6), B as (B1 & B2 & B3 & B4 & B5 & B6).
  split; [congruence|]. split; [congruence|]. split; [congruence|]. split; [congruence|]. split; [|auto].
  destruct A5 as [A5|A5]; [|right; auto]. destruct B5 as [B5|B5]; [left; congruence | right; auto].
Qed.

Lemma lrel_flag m l e : MInv m -> eAt m l = Some e -> lrel (fun j => j = l) m (putE m l (Some (withFlag e R true))).
Proof.
  intros M He. assert (Fl : flagged m (putE m l (Some (withFlag e R true)))) by (apply flagged_put; assumption).
  constructor; [apply (flagged_MInv m); assumption | apply Fl|]. intros j. rewrite (eAt_put m l e _ _ He).
  destruct (Nat.eqb_spec l j) as [<-|Nj]; [|destruct (eAt m j); auto; repeat split; auto]. rewrite He. cbn [withFlag set_flags estart eend epts eflags elf erf].
  repeat split; auto. apply N.bits_inj. intros i. rewrite !N.ldiff_spec, N.lor_spec. destruct (N.testbit R i), (N.testbit (eflags e) i); reflexivity.
Qed.

(** one call of mergeFaces on an edge that is not a bridge *)
Lemma faces_step hk m d : MInv m -> In d (darts m) -> lft m d <> lft m (- d) ->
  exists m' r, mergeFaces hk m d = Ok (m', r) /\ lrel (fun j => j = elab d) m m' /\
    isSome r = edgeCount m - edgeCount m' /\ isSome r = faceCount m - faceCount m' /\
    (forall j, j <> elab d -> eAt m j <> None -> eAt m' j <> None) /\
    (r <> None -> eAt m' (elab d) = None) /\ ((forall m1 d, hkMergeFaces hk m1 d = true) -> r <> None) /\
    (forall j e e', eAt m j = Some e -> eAt m' j = Some e' -> eflags e' = eflags e).
Proof.
  intros M Dd Hne. pose proof (mergeFaces_full hk m d M) as G. destruct (mergeFaces hk m d) as [[m1 r]| | |]; cbn [goodE] in G; try contradiction.
  2:{ exfalso. destruct G as [G|G]; contradiction. }
  destruct G as (_ & mc & d' & s & mm & C & Sv & H1 & H2 & Hn & G). cbn [fst snd] in *. exists m1, r. split; [reflexivity|].
  destruct (cached_views _ _ C) as (Vd & _ & _ & Vl & _). pose proof (cached_MInv m mc C M) as Mc.
  destruct (cached_same _ _ C) as (Ee & _ & Q1).
  assert (Ec : forall j, eAt mc j = eAt m j) by (intros j; unfold eAt; rewrite Ee; reflexivity).
  assert (Cn : edgeCount mc = edgeCount m /\ faceCount mc = faceCount m) by (rewrite (ca_eq _ _ C); auto).
  destruct Cn as (Cn1 & Cn2).
  assert (Xc : lrel (fun j => j = elab d) m mc).
  { constructor; [assumption | congruence|]. intros j. rewrite Ec. destruct (eAt m j); auto. repeat split; auto. }
  destruct G as [(Hk & -> & ->)|(Hk & -> & B)].
  - split; [assumption|]. split; [cbn; lia|]. split; [cbn; lia|]. split; [intros j _; rewrite Ec; auto|]. split; [congruence|]. split; [intros A; rewrite A in Hk; discriminate|]. intros j e e' E1 E2. rewrite Ec in E2. congruence.
  - assert (Sd : (d' = d \/ d' = - d) /\ mm <> 0%nat).
    { destruct Sv as (l & r0 & fl & fr & vl & vr & K1 & K2 & _ & _ & _ & _ & K3 & K4). destruct (K4 Hn) as (K5 & _). split; [|assumption]. tauto. }
    destruct Sd as (Sd & Hm0).
    assert (Dd' : In d' (darts mc)) by (rewrite Vd; destruct Sd as [->| ->]; [|apply darts_opp]; assumption).
    assert (Ed : elab d' = elab d) by (destruct Sd as [->| ->]; [reflexivity | apply elab_opp]).
    rewrite <- Vl in H1, H2.
    assert (M1 : MInv m1) by (apply (mf_MInv mc m1 d' s mm); assumption). pose proof (mf_gone _ _ _ _ _ B) as Gn.
    assert (Ej : forall j, match eAt mc j, eAt m1 j with Some e, Some e' => j <> elab d /\ estart e' = estart e /\ eend e' = eend e /\ epts e' = epts e /\ eflags e' = eflags e
                          | Some _, None => j = elab d | None, None => True | None, Some _ => False end).
    { intros j. pose proof (eg_edge _ _ _ Gn j) as K. rewrite Ed in K. destruct (eAt mc j), (eAt m1 j); auto. }
    split.
    { apply (lrel_trans _ _ (fun j => j = elab d) _ mc _ (fun _ x => x) (fun _ x => x)); [exact Xc|]. constructor; [assumption | apply Gn|].
      intros j. specialize (Ej j). destruct (eAt mc j) as [e|] eqn:E1, (eAt m1 j) as [e'|] eqn:E2; auto. destruct Ej as (Nj & K1 & K2 & K3 & K4).
      repeat split; auto; [congruence|]. intros Eb. assert (Nz : j <> 0%nat) by (intros ->; rewrite (sv_e0 _ (mi_v _ Mc)) in E1; discriminate).
      set (x := Z.of_nat j). assert (Hx : elab x = j) by apply elab_of_nat.
      assert (Dx : In x (darts m1)) by (apply in_darts; rewrite Hx; split; [unfold x; lia | congruence]).
      pose proof (mf_lft _ _ _ _ _ B x Dx) as L1. pose proof (mf_lft _ _ _ _ _ B (- x) (darts_opp _ _ Dx)) as L2.
      unfold lft in L1, L2. rewrite !elab_opp, Hx, E1, E2 in *. unfold e_lf in *.
      destruct (Z.ltb_spec 0 x); [|unfold x in *; lia]. destruct (Z.ltb_spec 0 (- x)); [unfold x in *; lia|]. rewrite L1, L2, Eb. reflexivity. }
    split; [rewrite (eg_ec _ _ _ Gn); cbn; lia|].
    split; [rewrite (mf_fc _ _ _ _ _ B); cbn; lia|]. split; [|split; [|split; [discriminate|]]].
    + intros j Nj Hj. rewrite <- Ec in Hj. specialize (Ej j). destruct (eAt mc j); [|contradiction]. destruct (eAt m1 j); [discriminate | contradiction].
    + intros _. specialize (Ej (elab d)). destruct (eAt m1 (elab d)); [|reflexivity]. destruct (eAt mc (elab d)); [|contradiction]. destruct Ej as (K & _). congruence.
    + intros j e e' E1 E2. specialize (Ej j). rewrite Ec, E1, E2 in Ej. tauto.
Qed.

Lemma mergeListed_ok hk ls : forall m c, MInv m -> NoDup ls -> (forall l, In l ls -> eAt m l <> None) ->
  exists m' bs k, mergeListed hk m ls c = Ok (m', bs, (c + k)%nat) /\ lrel (fun j => In j ls) m m' /\
    Z.of_nat k = edgeCount m - edgeCount m' /\ Z.of_nat k = faceCount m - faceCount m' /\
    NoDup bs /\ (forall b, In b bs -> In b ls /\ exists e, eAt m' b = Some e /\ elf e = erf e) /\
    (forall j e e', eAt m j = Some e -> eAt m' j = Some e' -> ~ In j bs -> eflags e' = eflags e) /\
    ((forall m1 d, hkMergeFaces hk m1 d = true) -> forall l, In l ls -> In l bs \/ eAt m' l = None).
Proof.
  induction ls as [|l t IH]; intros m c M Nd Hl.
  { exists m, [], 0%nat. cbn. rewrite Nat.add_0_r. split; [reflexivity|]. split; [apply lrel_refl; assumption|]. split; [lia|]. split; [lia|].
    split; [constructor|]. split; [intros b []|]. split; [congruence | intros _ b []]. }
  apply NoDup_cons_iff in Nd as [Ni Nd]. cbn [mergeListed]. pose proof (Hl l (or_introl eq_refl)) as Ll. destruct (eAt m l) as [e|] eqn:He; [|contradiction]. clear Ll.
  rewrite (require_edge _ _ _ He). cbn [bind].
  destruct (isBridge e) eqn:Eb.
  - apply optnat_eqb_eq in Eb. rewrite (setFlag_Ok m l R true e He). cbn [bind]. set (m1 := putE m l (Some (withFlag e R true))) in *.
    pose proof (lrel_flag m l e M He) as X1. fold m1 in X1.
    assert (Ee : forall j, eAt m1 j = if Nat.eqb l j then Some (withFlag e R true) else eAt m j) by (intros; apply (eAt_put m l e); assumption).
    destruct (IH m1 c (lr_M _ _ _ X1) Nd) as (m' & bs & k & E & X2 & K1 & K2 & Nb & Hb & Hfl & Ha).
    { intros j Hj. rewrite Ee. destruct (Nat.eqb l j); [discriminate | apply Hl; right; assumption]. }
    rewrite E. cbn [bind]. exists m', (l :: bs), k. split; [reflexivity|].
    split; [apply (lrel_trans _ (fun j => j = l) (fun j => In j t) _ m1); [intros j ->; left; reflexivity | intros j Hj; right; assumption | assumption | assumption]|].
    split; [exact K1|]. split; [exact K2|]. split; [constructor; [intros Q; apply Hb in Q; tauto | assumption]|].
    split; [|split].
    + intros b [<-|Hin]; [|destruct (Hb b Hin) as (Q1 & Q2); split; [right|]; assumption]. split; [left; reflexivity|].
      pose proof (lr_edge _ _ _ X2 l) as Q. rewrite Ee, Nat.eqb_refl in Q. destruct (eAt m' l) as [e'|]; [|contradiction]. exists e'. split; [reflexivity|]. apply Q. assumption.
    + intros j e0 e' E0 E' Nj. apply (Hfl j e0 e'); [|assumption|intros Q; apply Nj; right; assumption]. rewrite Ee. destruct (Nat.eqb_spec l j); [|assumption]. exfalso. apply Nj. left; assumption.
    + intros A j [<-|Hj]; [left; left; reflexivity|]. destruct (Ha A j Hj); [left; right; assumption | right; assumption].
  - set (d := Z.of_nat l). assert (Ed : elab d = l) by apply elab_of_nat.
    assert (Nz : l <> 0%nat) by (intros ->; rewrite (sv_e0 _ (mi_v _ M)) in He; discriminate).
    assert (Dd : In d (darts m)) by (apply in_darts; rewrite Ed; split; [unfold d; lia | congruence]).
    assert (Hne : lft m d <> lft m (- d)).
    { intros K. apply bridgeAt_iff in K; [|assumption]. rewrite Ed in K. destruct K as (e0 & He0 & K). apply isEdge_iff in He0. assert (e0 = e) by congruence; subst e0.
      apply optnat_eqb_eq in K. unfold isBridge in Eb. congruence. }
    destruct (faces_step hk m d M Dd Hne) as (m1 & r & E1 & X1 & C1 & C2 & Hk & Hg & Ha1 & Hfs). rewrite E1. cbn [bind fst snd]. rewrite Ed in *.
    destruct (IH m1 (match r with Some _ => S c | None => c end) (lr_M _ _ _ X1) Nd) as (m' & bs & k & E & X2 & K1 & K2 & Nb & Hb & Hfl & Ha).
    { intros j Hj. apply Hk; [congruence | apply Hl; right; assumption]. }
    exists m', bs, (match r with Some _ => S k | None => k end). rewrite E. split; [f_equal; f_equal; destruct r; lia|].
    split; [apply (lrel_trans _ (fun j => j = l) (fun j => In j t) _ m1); [intros j ->; left; reflexivity | intros j Hj; right; assumption | assumption | assumption]|].
    split; [destruct r; cbn in C1; lia|]. split; [destruct r; cbn in C2; lia|]. split; [assumption|]. split; [|split].
    + intros b Hin. destruct (Hb b Hin) as (Q1 & Q2); split; [right|]; assumption.
    + intros j e0 e' E0 E' Nj. pose proof (lr_edge _ _ _ X1 j) as Q. rewrite E0 in Q. pose proof (lr_edge _ _ _ X2 j) as Q'. rewrite E' in Q'.
      destruct (eAt m1 j) as [e1|] eqn:Ee1; [|contradiction]. rewrite (Hfl j e1 e' Ee1 E' Nj).
      apply (Hfs j); assumption.
    + intros A j [<-|Hj]; [|apply Ha; assumption]. right. pose proof (Hg (Ha1 A)) as Q. pose proof (lr_edge _ _ _ X2 l) as Q'. rewrite Q in Q'. destruct (eAt m' l); [contradiction | reflexivity].
Qed.

Lemma same_U x y : N.ldiff x R = N.ldiff y R -> N.land x U = N.land y U.
Proof.
  intros H. apply N.bits_inj. intros i. pose proof (f_equal (fun z => N.testbit z i) H) as K. cbv beta in K. rewrite !N.ldiff_spec in K. rewrite !N.land_spec.
  assert (Q : N.testbit U i = true -> N.testbit R i = false).
  { intros Q. destruct (N.eq_dec i 19) as [->|Ni]; [reflexivity|]. exfalso. change U with (2 ^ 19)%N in Q. rewrite N.pow2_bits_false in Q by congruence. discriminate. }
  destruct (N.testbit U i); [|rewrite !andb_false_r; reflexivity]. rewrite (Q eq_refl) in K. cbn in K. rewrite !andb_true_r in *. assumption.
Qed.

Theorem removeEdges_spec hk m ls : history anyCall m -> initialised m -> NoDup ls ->
  (forall l, In l ls -> (exists e, isEdge m l e) /\ ~ flagAt m l U) ->
  exists m' n, removeEdges hk m ls = Ok (m', n) /\ later m m' /\ liveEdges m - liveEdges m' <= Z.of_nat n /\
    (history geometric m -> pointsKept m (fun l => ~ In l ls /\ ~ flagAt m l R) m') /\
    ((forall m1 l, hkNode hk m1 l = true) -> forall n, ~ isolatedAt m' n) /\
    (accepting hk -> (forall l, In l ls -> noEdge m' l) /\ (forall n, ~ deg2At m' n)).
Proof.
  intros H Hi Nd Hl. pose proof (history_MInv _ m H Hi) as M. unfold removeEdges.
  assert (Hle : forall l, In l ls -> eAt m l <> None) by (intros l Hin; destruct (Hl l Hin) as ((e & He) & _); apply isEdge_iff in He; congruence).
  destruct (mergeListed_ok hk ls m 0 M Nd Hle) as (m1 & bs & n1 & E1 & X1 & C1 & _ & Nb & Hb & Hf1 & A1). rewrite E1. cbn [bind].
  destruct (bridgesLoop_ok hk (fun l => In l bs \/ flagAt m1 l R) (S (length bs)) bs m1 0%nat (lr_M _ _ _ X1)) as (m2 & n2 & E2 & X2 & C2 & A2).
  { split; [assumption|]. intros b Kb. destruct (Hb b Kb) as (Q1 & e' & Q2 & Q3). exists e'. split; [assumption|]. split; [assumption|].
    destruct (hasFlag e' U) eqn:Ef; [|reflexivity]. exfalso. apply (Hl b Q1). pose proof (lr_edge _ _ _ X1 b) as K. rewrite Q2 in K. destruct (eAt m b) as [e|] eqn:Ee; [|contradiction].
    apply flagAt_iff. exists e. split; [assumption|]. apply hasFlag_iff. apply hasFlag_iff in Ef. destruct K as (_ & _ & _ & K & _). rewrite <- (same_U _ _ K). assumption. }
  { intros b Kb. left; assumption. }
  { intros j e Ee Ef. right. apply flagAt_iff. eauto. }
  { lia. }
  unfold removeBridges. rewrite E2. cbn [bind].
  destruct (isolated_ok hk (seq 0 (length (nodes m2))) m2 0 (rb_M _ _ _ _ X2)) as (m3 & n3 & E3 & T3 & Ee3 & C3 & _ & Hf3); [intros n Hn; apply in_seq in Hn; lia|].
  unfold removeIsolatedNodes. rewrite E3. cbn [bind].
  pose proof (isolatedLoop_tr _ _ _ _ _ _ E3) as Tr3. destruct (tr_MInv _ _ _ Tr3 (rb_M _ _ _ _ X2)) as (M3 & _).
  destruct (degree2_ok hk (seq 0 (length (nodes m3))) m3 0 M3) as (m4 & n4 & E4 & T4 & C4 & C4' & Hf4); [intros n Hn; apply in_seq in Hn; lia|].
  unfold mergeDegree2Nodes. rewrite E4. cbn [bind].
  pose proof (degree2Loop_tr _ _ _ _ _ _ E4) as Tr4. destruct (tr_MInv _ _ _ Tr4 M3) as (M4 & _).
  pose proof (mergeListed_tr _ _ _ _ _ _ _ E1) as Tr1. pose proof (bridgesLoop_tr _ _ _ _ _ _ _ E2) as Tr2.
  assert (Tr : trace hk m m4) by (apply (tr_trans _ _ m1); [assumption|]; apply (tr_trans _ _ m2); [assumption|]; apply (tr_trans _ _ m3); assumption).
  exists m4, (n1 + n2 + n3 + n4)%nat. split; [reflexivity|]. split; [apply (tr_later hk); assumption|].
  rewrite !liveEdges_ec by (apply mi_v; assumption).
  assert (C33 : edgeCount m3 = edgeCount m2).
  { rewrite (sv_ec _ (mi_v _ M3)), (sv_ec _ (mi_v _ (rb_M _ _ _ _ X2))), Ee3. reflexivity. }
  split; [lia|]. split; [|split].
  - intros G0. pose proof (history_geo geometric m (fun _ _ x => x) G0) as G.
    assert (G3 : geo m3).
    { apply (tr_geo hk m2 m3 Tr3 (rb_M _ _ _ _ X2)). apply (tr_geo hk m1 m2 Tr2 (lr_M _ _ _ X1)). apply (tr_geo hk m m1 Tr1 M G). }
    destruct (te_pts _ _ T4 G3) as (P1 & P2). split.
    + intros l e He (Nl & Nf). apply isEdge_iff in He. pose proof (lr_edge _ _ _ X1 l) as K1. rewrite He in K1.
      destruct (eAt m1 l) as [e1|] eqn:Ee1; [|contradiction]. destruct K1 as (_ & _ & Kp & _ & [Kf|Kf] & _); [|contradiction].
      pose proof (rb_edge _ _ _ _ X2 l) as K2. rewrite Ee1 in K2. destruct (eAt m2 l) as [e2|] eqn:Ee2.
      * destruct K2 as (K2 & _). assert (Ee3l : eAt m3 l = Some e2) by (unfold eAt in *; rewrite Ee3; assumption).
        destruct (P1 l e2 Ee3l) as (l' & e' & E' & I). exists l', e'. split; [apply isEdge_iff; assumption|]. rewrite K2 in I. cbn in I. rewrite Kp in I. assumption.
      * exfalso. destruct K2 as ([K2|K2] & _); [apply Nl, Hb; assumption|]. apply Nf. apply flagAt_iff in K2 as (e0 & E0 & F0). apply flagAt_iff. exists e. split; [assumption|].
        assert (e0 = e1) by congruence; subst e0. apply hasFlag_iff in F0. apply hasFlag_iff. rewrite <- Kf. assumption.
    + intros l' e' p He Hp. apply isEdge_iff in He. destruct (P2 l' e' p He Hp) as (l & e3 & E3' & Hp3).
      assert (E2' : eAt m2 l = Some e3) by (unfold eAt in *; rewrite <- Ee3; assumption).
      pose proof (rb_edge _ _ _ _ X2 l) as K2. rewrite E2' in K2. destruct (eAt m1 l) as [e1|] eqn:Ee1; [|contradiction]. destruct K2 as (K2 & _).
      pose proof (lr_edge _ _ _ X1 l) as K1. rewrite Ee1 in K1. destruct (eAt m l) as [e|] eqn:Ee; [|contradiction]. exists l, e. split; [apply isEdge_iff; assumption|].
      destruct K1 as (_ & _ & K1 & _). rewrite <- K1. rewrite K2 in Hp3. exact Hp3.
  - intros A n Iso. assert (Hn : In n (seq 0 (length (nodes m2)))).
    { rewrite <- (te_nlen _ _ T3), <- (te_nlen _ _ T4). apply node_range. destruct Iso as (nd & Hn' & _). apply isNode_iff in Hn'. congruence. }
    apply (isolated_fine m4 n); [apply T4, Hf3; assumption | assumption].
  - intros (B1 & B2 & B3 & B4). split.
    + intros l Hin. apply noEdge_iff.
      * rewrite (te_elen _ _ T4), Ee3, (rb_len _ _ _ _ X2), (lr_elen _ _ _ X1). destruct (eAt m l) as [e|] eqn:Ee; [apply (eAt_lt _ _ _ Ee) | exfalso; apply (Hle l Hin Ee)].
      * apply (te_e _ _ T4). unfold eAt. rewrite Ee3. fold (eAt m2 l). destruct (A1 B4 l Hin) as [Kb|Kb]; [apply A2; assumption|].
        pose proof (rb_edge _ _ _ _ X2 l) as K2. rewrite Kb in K2. destruct (eAt m2 l); [contradiction | reflexivity].
    + intros n K. assert (In n (seq 0 (length (nodes m3)))).
      { rewrite <- (te_nlen _ _ T4). apply node_range. destruct K as (d & d' & Hd & Hs & _). apply isDart_iff in Hd. rewrite (startLabel_Ok m4 d Hd) in Hs. injection Hs as <-.
        apply (si_node _ _ (sv_si _ (mi_v _ M4))). assumption. }
      apply (deg2_tidy m4 n); [apply M4 | apply Hf4; assumption | assumption].
Qed.
