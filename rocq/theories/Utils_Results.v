(** C40: bulk removal of bridges, in the vocabulary of the specification. *)
From Verif Require Import Base Orbit GraphRank Euler Links FaceInv Conj
  GeoMap_Model GeoMap_Views GeoMap_SInv GeoMap_Remove GeoMap_MergeEdges GeoMap_SplitEdge GeoMap_Loops GeoMap_MInv
  GeoMap_Gone GeoMap_Bridge GeoMap_MergeFaces GeoMap_Subdiv GeoMap_Init GeoMap_Area GeoMap_Embed GeoMap_Initialize GeoMap_Sort GeoMap_Flags
  GeoMap_History GeoMap_Geometry GeoMap_AreaInv GeoMap_Spec GeoMap_Facts GeoMap_Results GeoMap_Examples Utils_Model Utils_Spec Utils_Bridges.
Local Open Scope Z_scope.

Local Notation U := UNREMOVABLE_BRIDGE.
Local Notation R := REMOVE_BRIDGE.

Lemma liveEdges_ec m : SInv m -> liveEdges m = edgeCount m.
Proof. intros V. unfold liveEdges. rewrite live_sumf. symmetry. apply (sv_ec _ V). Qed.
Lemma liveFaces_fc m : SInv m -> liveFaces m = faceCount m.
Proof. intros V. unfold liveFaces. rewrite live_sumf. symmetry. apply (sv_fc _ V). Qed.
Lemma noEdge_iff m l : (l < length (edges m))%nat -> (noEdge m l <-> eAt m l = None).
Proof. intros L. unfold noEdge. rewrite (edgeP_eAt m l L). split; congruence. Qed.
Lemma flagAt_iff m l which : flagAt m l which <-> exists e, eAt m l = Some e /\ hasFlag e which = true.
Proof. unfold flagAt. split; intros (e & H & K); exists e; (split; [apply isEdge_iff; assumption | apply hasFlag_iff; assumption]). Qed.
Lemma set_flags_same e e' : e' = set_flags e (eflags e') -> sameButFlags e e'.
Proof. intros ->. repeat split. Qed.

(** what a call of removeBridges with the listed labels does to the edges *)
Definition bridgesRemoved (hk : hooks) m (bs : list nat) m' : Prop :=
  forall l e, isEdge m l e ->
    (noEdge m' l /\ bridgeAt m l /\ (In l bs \/ flagAt m l R)) \/
    (exists e', isEdge m' l e' /\ sameButFlags e e' /\ flagsOutside U e e' /\
       ((forall m1 d, hkBridge hk m1 d = true) -> eflags e' = eflags e) /\ (~ bridgeAt m l -> eflags e' = eflags e)).

Lemma rb_removed hk m bs m' : MInv m -> rb hk (fun l => In l bs \/ flagAt m l R) m m' -> bridgesRemoved hk m bs m'.
Proof.
  intros M X l e He. apply isEdge_iff in He. pose proof (rb_edge _ _ _ _ X l) as K. rewrite He in K.
  destruct (eAt m' l) as [e'|] eqn:E'.
  - right. destruct K as (K1 & K2 & K3 & K4). exists e'. split; [apply isEdge_iff; assumption|]. split; [apply set_flags_same; assumption|]. split; [assumption|]. split; [exact K3|].
    intros Nb. apply K4. intros Elr. apply Nb. exists e. split; [apply isEdge_iff|]; assumption.
  - left. destruct K as (K1 & K2). split; [apply noEdge_iff; [rewrite (rb_len _ _ _ _ X); apply (eAt_lt _ _ _ He) | assumption]|].
    split; [exists e; split; [apply isEdge_iff|]; assumption | assumption].
Qed.

Theorem removeBridges_spec hk m bs : history anyCall m -> initialised m -> NoDup bs ->
  (forall b, In b bs -> bridgeAt m b /\ ~ flagAt m b U) ->
  exists m' n, removeBridges hk m bs = Ok (m', n) /\ later m m' /\ Z.of_nat n = liveEdges m - liveEdges m' /\ liveFaces m' = liveFaces m /\
    bridgesRemoved hk m bs m' /\ ((forall m1 d, hkBridge hk m1 d = true) -> forall b, In b bs -> noEdge m' b).
Proof.
  intros H Hi Nd Hb. pose proof (history_MInv _ m H Hi) as M.
  destruct (bridgesLoop_ok hk (fun l => In l bs \/ flagAt m l R) (S (length bs)) bs m 0%nat M) as (m' & n & E & X & C & A).
  - split; [assumption|]. intros b Hin. destruct (Hb b Hin) as ((e & He & Elr) & Hf). apply isEdge_iff in He. exists e. split; [assumption|]. split; [assumption|].
    destruct (hasFlag e U) eqn:Ef; [|reflexivity]. exfalso. apply Hf, flagAt_iff. eauto.
  - intros b Hin. left; assumption.
  - intros j e He Ef. right. apply flagAt_iff. eauto.
  - lia.
  - exists m', n. split; [exact E|]. split; [apply X|]. pose proof (mi_v _ (rb_M _ _ _ _ X)) as V'. pose proof (mi_v _ M) as V.
    rewrite (liveEdges_ec _ V'), (liveEdges_ec _ V), (liveFaces_fc _ V'), (liveFaces_fc _ V).
    split; [lia|]. split; [apply X|]. split; [apply rb_removed; assumption|].
    intros K b Hin. destruct (Hb b Hin) as ((e & He & _) & _). apply isEdge_iff in He.
    apply noEdge_iff; [rewrite (rb_len _ _ _ _ X); apply (eAt_lt _ _ _ He) | apply A; assumption].
Qed.

(** ** removeBridges(map) *)

Lemma markBridges_ok ls : forall m, NoDup ls -> (forall l, In l ls -> (l < length (edges m))%nat) ->
  exists m' bs, markBridges m ls = Ok (m', bs) /\ flagged m m' /\ later m m' /\ NoDup bs /\
    (forall l, In l bs <-> In l ls /\ exists e, eAt m l = Some e /\ elf e = erf e) /\
    (forall l, ~ In l bs -> eAt m' l = eAt m l) /\
    (forall l e, In l bs -> eAt m l = Some e -> eAt m' l = Some (withFlag e R true)).
Proof.
  induction ls as [|l t IH]; intros m Nd Hl.
  { exists m, []. split; [reflexivity|]. split; [apply flagged_refl|]. split; [apply lt_refl|]. split; [constructor|].
    split; [intros l; split; [intros [] | intros [[] _]]|]. split; [reflexivity | intros l e []]. }
  apply NoDup_cons_iff in Nd as [Ni Nd]. cbn [markBridges]. rewrite (edgeP_eAt m l) by (apply Hl; left; reflexivity). cbn [bind].
  destruct (eAt m l) as [e|] eqn:El; [destruct (isBridge e) eqn:Eb|].
  - pose proof (setFlag_Ok m l R true e El) as Es. rewrite Es. cbn [bind]. set (m1 := putE m l (Some (withFlag e R true))) in *.
    assert (Fl : flagged m m1) by (apply flagged_put; assumption).
    assert (He : forall j, eAt m1 j = if Nat.eqb l j then Some (withFlag e R true) else eAt m j) by (intros; apply (eAt_put m l e); assumption).
    assert (Same : forall j, In j t -> eAt m1 j = eAt m j).
    { intros j Hj. rewrite He. destruct (Nat.eqb_spec l j); [congruence | reflexivity]. }
    destruct (IH m1 Nd) as (m' & bs & E & F2 & L2 & N2 & Hin & Hout & Hon); [intros j Hj; rewrite (fg_len _ _ Fl); apply Hl; right; assumption|].
    rewrite E. cbn [bind fst snd]. exists m', (l :: bs). split; [reflexivity|]. split; [apply (flagged_trans _ m1); assumption|].
    split; [apply (later_trans _ m1); [apply (later_flag m l R true _ e); assumption | assumption]|].
    assert (Nl : ~ In l bs) by (intros K; apply Hin in K; tauto).
    split; [constructor; assumption|]. split; [|split].
    + intros j. cbn [In]. rewrite Hin. split.
      * intros [<-|(H1 & e0 & H2 & H3)]; [split; [left; reflexivity|]; exists e; split; [assumption|]; apply optnat_eqb_eq; assumption|].
        rewrite (Same j H1) in H2. eauto.
      * intros ([<-|H1] & e0 & H2 & H3); [left; reflexivity|]. right. split; [assumption|]. exists e0. rewrite (Same j H1). auto.
    + intros j Hj. rewrite Hout by (intros K; apply Hj; right; assumption). rewrite He. destruct (Nat.eqb_spec l j) as [<-|]; [exfalso; apply Hj; left; reflexivity | reflexivity].
    + intros j e0 [<-|Hj] E0.
      * assert (e0 = e) by congruence; subst e0. rewrite Hout by assumption. rewrite He, Nat.eqb_refl. reflexivity.
      * apply Hon; [assumption|]. apply Hin in Hj as (Hj & _). rewrite (Same j Hj). assumption.
  - destruct (IH m Nd) as (m' & bs & E & F2 & L2 & N2 & Hin & Hout & Hon); [intros; apply Hl; right; assumption|].
    exists m', bs. split; [assumption|]. split; [assumption|]. split; [assumption|]. split; [assumption|]. split; [|split; assumption].
    intros j. rewrite Hin. split; [intros (H1 & H2); split; [right|]; assumption|]. intros ([<-|H1] & e0 & H2 & H3); [|eauto].
    exfalso. assert (e0 = e) by congruence; subst e0. apply optnat_eqb_eq in H3. unfold isBridge in Eb. congruence.
  - destruct (IH m Nd) as (m' & bs & E & F2 & L2 & N2 & Hin & Hout & Hon); [intros; apply Hl; right; assumption|].
    exists m', bs. split; [assumption|]. split; [assumption|]. split; [assumption|]. split; [assumption|]. split; [|split; assumption].
    intros j. rewrite Hin. split; [intros (H1 & H2); split; [right|]; assumption|]. intros ([<-|H1] & e0 & H2 & H3); [congruence | eauto].
Qed.

Theorem removeAllBridges_spec hk m : history anyCall m -> initialised m -> (forall b, bridgeAt m b -> ~ flagAt m b U) ->
  exists m' n, removeAllBridges hk m = Ok (m', n) /\ later m m' /\ Z.of_nat n = liveEdges m - liveEdges m' /\ liveFaces m' = liveFaces m /\
    (forall l e, isEdge m l e -> ~ bridgeAt m l -> isEdge m' l e) /\
    (forall l e, isEdge m l e -> bridgeAt m l -> noEdge m' l \/ exists e', isEdge m' l e' /\ sameButFlags e e' /\ flagsOutside (N.lor U R) e e') /\
    ((forall m1 d, hkBridge hk m1 d = true) -> forall b, ~ bridgeAt m' b).
Proof.
  intros H Hi Hb. pose proof (history_MInv _ m H Hi) as M. unfold removeAllBridges.
  destruct (markBridges_ok (seq 0 (length (edges m))) m) as (m1 & bs & E1 & Fl & L1 & Nd & Hin & Hout & Hon).
  { apply seq_NoDup. } { intros l Hl. apply in_seq in Hl. lia. }
  rewrite E1. cbn [bind fst snd].
  assert (HB : forall l, In l bs <-> bridgeAt m l).
  { intros l. rewrite Hin. unfold bridgeAt. split.
    - intros (_ & e & He & K). exists e. split; [apply isEdge_iff|]; assumption.
    - intros (e & He & K). apply isEdge_iff in He. split; [apply in_seq; pose proof (eAt_lt _ _ _ He); lia | eauto]. }
  assert (M1 : MInv m1) by (apply (flagged_MInv m); assumption).
  destruct (bridgesLoop_ok hk (fun l => True) (S (length bs)) bs m1 0%nat M1) as (m' & n & E & X & C & A); auto.
  { split; [assumption|]. intros b Kb. pose proof (proj1 (HB b) Kb) as (e & He & Elr). apply isEdge_iff in He. rewrite (Hon b e Kb He).
    exists (withFlag e R true). split; [reflexivity|]. split; [exact Elr|].
    destruct (hasFlag (withFlag e R true) U) eqn:Ef; [|reflexivity]. exfalso. apply (Hb b (proj1 (HB b) Kb)). apply flagAt_iff. exists e. split; [assumption|].
    apply hasFlag_iff in Ef. apply hasFlag_iff. intros K. apply Ef. cbn [withFlag set_flags eflags]. rewrite N.land_lor_distr_l, K. reflexivity. }
  exists m', n. split; [exact E|]. split; [apply (later_trans _ m1); [assumption | apply X]|].
  pose proof (mi_v _ (rb_M _ _ _ _ X)) as V'. pose proof (mi_v _ M) as V.
  assert (Q1 : edgeCount m1 = edgeCount m) by apply (flagged_views _ _ Fl). assert (Q2 : faceCount m1 = faceCount m) by apply (flagged_views _ _ Fl).
  rewrite (liveEdges_ec _ V'), (liveEdges_ec _ V), (liveFaces_fc _ V'), (liveFaces_fc _ V).
  split; [lia|]. split; [rewrite (rb_fc _ _ _ _ X); assumption|]. split; [|split].
  - intros l e He Nb. apply isEdge_iff in He. rewrite <- HB in Nb. pose proof (rb_edge _ _ _ _ X l) as K. rewrite (Hout l Nb), He in K.
    assert (Hn : elf e <> erf e) by (intros Q; apply Nb, HB; exists e; split; [apply isEdge_iff|]; assumption).
    destruct (eAt m' l) as [e'|] eqn:E'; [|destruct K; contradiction]. destruct K as (K1 & _ & _ & K4). rewrite (K4 Hn) in K1.
    apply isEdge_iff. rewrite E', K1. f_equal. symmetry. apply set_flags_id.
  - intros l e He Kb. apply isEdge_iff in He. apply HB in Kb. pose proof (rb_edge _ _ _ _ X l) as K. rewrite (Hon l e Kb He) in K.
    destruct (eAt m' l) as [e'|] eqn:E'.
    + right. destruct K as (K1 & K2 & _). exists e'. split; [apply isEdge_iff; assumption|]. split; [apply set_flags_same; rewrite K1; reflexivity|].
      unfold flagsOutside. cbn [withFlag set_flags eflags] in K2. apply N.bits_inj. intros i.
      pose proof (f_equal (fun x => N.testbit x i) K2) as K3. cbv beta in K3. rewrite !N.ldiff_spec, N.lor_spec in *.
      destruct (N.testbit (eflags e) i), (N.testbit (eflags e') i), (N.testbit U i), (N.testbit R i); cbn in *; congruence.
    + left. apply noEdge_iff; [rewrite (rb_len _ _ _ _ X), (fg_len _ _ Fl); apply (eAt_lt _ _ _ He) | assumption].
  - intros K b (e' & He' & Elr). apply isEdge_iff in He'. pose proof (rb_edge _ _ _ _ X b) as Q. rewrite He' in Q.
    destruct (eAt m1 b) as [e1|] eqn:E1b; [|contradiction]. destruct Q as (Q & _). pose proof (fg_edge _ _ Fl b) as Q3. rewrite E1b in Q3.
    destruct (eAt m b) as [e|] eqn:Eb; [|contradiction].
    assert (Kb : In b bs). { apply HB. exists e. split; [apply isEdge_iff; assumption|]. rewrite Q, Q3 in Elr. exact Elr. }
    rewrite (A K b Kb) in He'. discriminate.
Qed.

(** ** A concrete case: two rings joined by a path of bridges with a dead end *)

Definition dumbbellCalls : list xcall :=
  [XCall (OAddNode (0,0)); XCall (OAddNode (20,0)); XCall (OAddNode (5,0)); XCall (OAddNode (10,0)); XCall (OAddNode (10,5));
   XCall (OAddEdge (SAnode 0) (SAnode 0) [(0,0);(-4,-2);(-4,2);(0,0)] 0);
   XCall (OAddEdge (SAnode 1) (SAnode 1) [(20,0);(24,2);(24,-2);(20,0)] 0);
   XCall (OAddEdge (SAnode 0) (SAnode 2) [(0,0);(5,0)] 0);
   XCall (OAddEdge (SAnode 2) (SAnode 3) [(5,0);(10,0)] 0);
   XCall (OAddEdge (SAnode 3) (SAnode 1) [(10,0);(20,0)] 0);
   XCall (OAddEdge (SAnode 3) (SAnode 4) [(10,0);(10,5)] 0);
   XInit [2;1;3]%nat []].
Definition dumbbell : gmap := Eval vm_compute in replay true dumbbellCalls.
Lemma dumbbell_replays : replays true dumbbellCalls = true.
Proof. vm_compute. reflexivity. Qed.
Lemma dumbbell_history : history geometricStraight dumbbell.
Proof. exact (replay_history true dumbbellCalls dumbbell_replays). Qed.
Lemma dumbbell_any : history anyCall dumbbell.
Proof. exact (replay_any true dumbbellCalls dumbbell_replays). Qed.
Lemma dumbbell_init : initialised dumbbell.
Proof. discriminate. Qed.

Definition bridgeb m l : bool := match edgeP m l with Ok (Some e) => isBridge e | _ => false end.
Lemma bridgeb_spec m l : bridgeb m l = true -> bridgeAt m l.
Proof. unfold bridgeb, bridgeAt, isEdge. destruct (edgeP m l) as [[e|]| | |]; try discriminate. intros H. exists e. split; [reflexivity | apply optnat_eqb_eq; assumption]. Qed.
Definition flagb m l which : bool := match edgeP m l with Ok (Some e) => hasFlag e which | _ => false end.
Lemma flagb_spec m l which : flagb m l which = true <-> flagAt m l which.
Proof.
  unfold flagb, flagAt, isEdge. destruct (edgeP m l) as [[e|]| | |].
  2-5: split; [discriminate | intros (e0 & E0 & _); discriminate].
  rewrite hasFlag_iff. split; [eauto|]. intros (e0 & E0 & K). injection E0 as <-. assumption.
Qed.
Lemma flagb_false m l which : flagb m l which = false -> ~ flagAt m l which.
Proof. intros H K. apply flagb_spec in K. congruence. Qed.

(** the list of all four bridges meets the conditions of [removeBridges_spec], and four edges are removed *)
Example dumbbell_bridges : NoDup [3;4;5;6]%nat /\ (forall b, In b [3;4;5;6]%nat -> bridgeAt dumbbell b /\ ~ flagAt dumbbell b U) /\
  match removeBridges yes dumbbell [3;4;5;6]%nat with Ok (_, n) => n = 4%nat | _ => False end.
Proof.
  split; [repeat constructor; cbn; lia|]. split; [|vm_compute; reflexivity].
  intros b [<-|[<-|[<-|[<-|[]]]]]; (split; [apply bridgeb_spec | apply flagb_false]); vm_compute; reflexivity.
Qed.
(** all of them refused *)
Definition noBridges : hooks := {| hkNode := fun _ _ => true; hkMergeEdges := fun _ _ => true; hkBridge := fun _ _ => false; hkMergeFaces := fun _ _ => true |}.
Example dumbbell_refused : match removeBridges noBridges dumbbell [3;4;5;6]%nat with Ok (m', n) => n = 0%nat /\ m' = dumbbell | _ => False end.
Proof. vm_compute. split; reflexivity. Qed.

(** ** What the conditions are for *)

(** a label listed twice: the second round reads the front() of an empty list *)
Theorem removeBridges_duplicate_refuted : exists m bs, history geometricStraight m /\ initialised m /\
  (forall b, In b bs -> bridgeAt m b /\ ~ flagAt m b U) /\ removeBridges yes m bs = UB.
Proof.
  exists dumbbell, [4;4]%nat. split; [apply dumbbell_history|]. split; [apply dumbbell_init|]. split; [|vm_compute; reflexivity].
  intros b [<-|[<-|[]]]; (split; [apply bridgeb_spec | apply flagb_false]); vm_compute; reflexivity.
Qed.

(** a bridge that already carries the internal mark 0x80000: the same *)
Definition markedCalls : list xcall := dumbbellCalls ++ [XCall (OSetFlag 4 524288 true)].
Definition marked : gmap := Eval vm_compute in replay true markedCalls.
Theorem removeBridges_marked_refuted : exists m bs, history geometricStraight m /\ initialised m /\ NoDup bs /\
  (forall b, In b bs -> bridgeAt m b) /\ removeBridges yes m bs = UB.
Proof.
  exists marked, [4]%nat. split; [apply (replay_history true markedCalls); vm_compute; reflexivity|]. split; [discriminate|].
  split; [repeat constructor; intros []|]. split; [|vm_compute; reflexivity].
  intros b [<-|[]]; apply bridgeb_spec; vm_compute; reflexivity.
Qed.

(** The mark is not always cleaned up: a path y-v-n-w-x-u-ring whose bridge v (label 1) is refused.  v is marked, unmarked and dropped
    from the list in the first round; after u (label 2) is gone, the chain that removes w (label 3) comes back to v and marks it again. *)
Definition leakCalls : list xcall :=
  [XCall (OAddNode (0,0)); XCall (OAddNode (5,0)); XCall (OAddNode (10,0)); XCall (OAddNode (15,0));
   XCall (OAddEdge (SAnode 0) (SAnode 1) [(0,0);(5,0)] 0);
   XCall (OAddEdge (SAnode 2) (SAnode 3) [(10,0);(15,0)] 0);
   XCall (OAddEdge (SAnode 1) (SAnode 2) [(5,0);(10,0)] 0);
   XCall (OAddEdge (SAnode 3) (SAnode 3) [(15,0);(20,3);(20,-3);(15,0)] 0);
   XInit [1;2]%nat []].
Definition leakMap : gmap := Eval vm_compute in replay true leakCalls.
Definition keepFirst : hooks := {| hkNode := fun _ _ => true; hkMergeEdges := fun _ _ => true;
  hkBridge := fun _ d => negb (Nat.eqb (elab d) 1); hkMergeFaces := fun _ _ => true |}.
Theorem removeBridges_unmarks_refuted : exists hk m, history geometricStraight m /\ initialised m /\ (forall b, ~ flagAt m b U) /\
  exists m' n l, removeAllBridges hk m = Ok (m', n) /\ flagAt m' l U.
Proof.
  exists keepFirst, leakMap. split; [apply (replay_history true leakCalls); vm_compute; reflexivity|]. split; [discriminate|]. split.
  - intros b. apply flagb_false. do 6 (destruct b as [|b]; [vm_compute; reflexivity|]). cbn. unfold flagb, edgeP, leakMap; cbn [edges]. 
    destruct b; reflexivity.
  - assert (E : match removeAllBridges keepFirst leakMap with Ok (m', _) => flagb m' 1 U = true | _ => False end) by (vm_compute; reflexivity).
    destruct (removeAllBridges keepFirst leakMap) as [[m' n]| | |]; try contradiction. exists m', n, 1%nat. split; [reflexivity | apply flagb_spec; assumption].
Qed.
