(** Every bulk operation is a sequence of Euler operations and of changes of marks. *)
From Verif Require Import Base GeoMap_Model GeoMap_Views GeoMap_SInv GeoMap_Spec GeoMap_Facts GeoMap_Results Utils_Model Utils_Spec Utils_Bridges Utils_Protect.
Local Open Scope Z_scope.

Inductive trace (hk : hooks) m : gmap -> Prop :=
| tr_refl : trace hk m m
| tr_call m1 o m2 : trace hk m m1 -> eulerOrMark o -> allowed m1 (Call hk o) -> run_op hk m1 o = Ok m2 -> trace hk m m2.

Lemma tr_trans hk a b c : trace hk a b -> trace hk b c -> trace hk a c.
Proof. intros H. induction 1 as [|m1 o m2 _ IH Ho Ha E]; [assumption|]. apply (tr_call _ _ m1 o m2); assumption. Qed.
Lemma tr_one hk m o m' : eulerOrMark o -> allowed m (Call hk o) -> run_op hk m o = Ok m' -> trace hk m m'.
Proof. intros. apply (tr_call _ _ m o); auto. apply tr_refl. Qed.
Lemma tr_later hk m m' : trace hk m m' -> later m m'.
Proof.
  induction 1 as [|m1 o m2 _ IH Ho Ha E]; [apply lt_refl|]. apply (later_trans _ m1); [assumption|].
  apply (lt_call m1 (Call hk o) m2); [assumption | exact E | apply lt_refl].
Qed.
Lemma tr_guarded hk m m' : trace (protect hk) m m' -> guarded eulerOrMark m m'.
Proof. induction 1 as [|m1 o m2 _ IH Ho Ha E]; [apply gd_refl|]. apply (gd_call _ _ m1 hk o); assumption. Qed.

Lemma tr_bridge hk m d r : removeBridge hk m d = Ok r -> trace hk m (fst r).
Proof. intros E. apply (tr_one hk m (ORemoveBridge d)); [exact I | exact I|]. cbn [run_op]. rewrite E. reflexivity. Qed.
Lemma tr_faces hk m d r : mergeFaces hk m d = Ok r -> trace hk m (fst r).
Proof. intros E. apply (tr_one hk m (OMergeFaces d)); [exact I | exact I|]. cbn [run_op]. rewrite E. reflexivity. Qed.
Lemma tr_edges hk m d r : mergeEdges hk m d = Ok r -> trace hk m (fst r).
Proof. intros E. apply (tr_one hk m (OMergeEdges d)); [exact I | exact I|]. cbn [run_op]. rewrite E. reflexivity. Qed.
Lemma tr_node hk m n nd r : nodeP m n = Ok (Some nd) -> (nanchor nd =? 0) = true -> removeIsolatedNode hk m n = Ok r -> trace hk m (fst r).
Proof.
  intros Hn H0 E. apply (tr_one hk m (ORemoveIsolatedNode n)); [exact I | exists nd; split; [exact Hn | apply Z.eqb_eq; assumption]|]. cbn [run_op]. rewrite E. reflexivity.
Qed.
Lemma tr_mark hk m l f b m' : setFlag m l f b = Ok m' -> N.land f ALL_PROTECTION = 0%N -> trace hk m m'.
Proof.
  intros E Hf. apply (tr_one hk m (OSetFlag l f b)); [exact Hf| |exact E]. unfold setFlag in E. apply bind_Ok in E as (e & E & _).
  exists e. unfold deref in E. unfold isEdge. destruct (edgeP m l) as [[e0|]| | |]; cbn [bind] in E; congruence.
Qed.

Lemma mergeCommon_tr hk ds : forall m surv ns m' s' ns', mergeCommon hk m ds surv ns = Ok (m', s', ns') -> trace hk m m'.
Proof.
  induction ds as [|d t IH]; intros m surv ns m' s' ns' E; cbn [mergeCommon] in E; [injection E as <- _ _; apply tr_refl|].
  apply bind_Ok in E as (s & _ & E). apply bind_Ok in E as (e & _ & E). cbv zeta in E.
  destruct surv as [f|]; apply bind_Ok in E as (r & E1 & E); apply (tr_trans _ _ (fst r)).
  - apply (tr_bridge hk m d r E1).
  - apply (IH _ _ _ _ _ _ E).
  - apply (tr_faces hk m d r E1).
  - apply (IH _ _ _ _ _ _ E).
Qed.

Lemma tidyNodes_tr hk merge2 ns : forall m m', tidyNodes hk merge2 m ns = Ok m' -> trace hk m m'.
Proof.
  induction ns as [|n t IH]; intros m m' E; cbn [tidyNodes] in E; [injection E as <-; apply tr_refl|].
  apply bind_Ok in E as (o & En & E). destruct o as [nd|]; [|apply IH; assumption].
  apply bind_Ok in E as (m1 & E1 & E). apply bind_Ok in E as (two & E2 & E). apply bind_Ok in E as (m2 & E3 & E).
  apply (tr_trans _ _ m1); [|apply (tr_trans _ _ m2); [|apply IH; assumption]].
  - destruct (nanchor nd =? 0) eqn:H0; [|injection E1 as <-; apply tr_refl]. apply bind_Ok in E1 as (r & E1 & E1'). injection E1' as <-.
    apply (tr_node hk m n nd); assumption.
  - destruct two; [|injection E3 as <-; apply tr_refl]. apply bind_Ok in E3 as (d & _ & E3). apply bind_Ok in E3 as (e & _ & E3).
    destruct (Nat.eqb e n); [injection E3 as <-; apply tr_refl|]. apply bind_Ok in E3 as (r & E3 & E3'). injection E3' as <-. apply (tr_edges hk m1 d); assumption.
Qed.

Lemma mergeFacesCompletely_tr hk merge2 m d m' s : mergeFacesCompletely hk merge2 m d = Ok (m', s) -> trace hk m m'.
Proof.
  unfold mergeFacesCompletely. intros E. apply bind_Ok in E as (e & _ & E). destruct (isBridge e); [discriminate|].
  apply bind_Ok in E as (r & _ & E). apply bind_Ok in E as (o & _ & E). destruct o as [ds|]; [|injection E as <- _; apply tr_refl].
  apply bind_Ok in E as ([[m1 sv] ns] & E1 & E). apply bind_Ok in E as (m2 & E2 & E). injection E as <- _.
  apply (tr_trans _ _ m1); [apply (mergeCommon_tr hk ds _ _ _ _ _ _ E1) | apply (tidyNodes_tr hk merge2 ns _ _ E2)].
Qed.

Lemma isolatedLoop_tr hk ns : forall m c m' c', isolatedLoop hk m ns c = Ok (m', c') -> trace hk m m'.
Proof.
  induction ns as [|n t IH]; intros m c m' c' E; cbn [isolatedLoop] in E; [injection E as <- _; apply tr_refl|].
  apply bind_Ok in E as (o & En & E). destruct o as [nd|]; [|apply (IH _ _ _ _ E)].
  destruct (nanchor nd =? 0) eqn:H0; [|apply (IH _ _ _ _ E)]. apply bind_Ok in E as (r & E1 & E).
  apply (tr_trans _ _ (fst r)); [apply (tr_node hk m n nd); assumption | apply (IH _ _ _ _ E)].
Qed.
Lemma degree2Loop_tr hk ns : forall m c m' c', degree2Loop hk m ns c = Ok (m', c') -> trace hk m m'.
Proof.
  induction ns as [|n t IH]; intros m c m' c' E; cbn [degree2Loop] in E; [injection E as <- _; apply tr_refl|].
  apply bind_Ok in E as (o & En & E). destruct o as [nd|]; [|apply (IH _ _ _ _ E)].
  apply bind_Ok in E as (two & _ & E). destruct two; [|apply (IH _ _ _ _ E)].
  apply bind_Ok in E as (d & _ & E). apply bind_Ok in E as (e & _ & E). destruct (Nat.eqb _ _); [apply (IH _ _ _ _ E)|].
  apply bind_Ok in E as (r & E1 & E). apply (tr_trans _ _ (fst r)); [apply (tr_edges hk m d); assumption | apply (IH _ _ _ _ E)].
Qed.

Lemma chain_tr hk n : forall m d c m' c', chain n hk m d c = Ok (m', c') -> trace hk m m'.
Proof.
  induction n as [|n IH]; intros m d c m' c' E; cbn [chain] in E; [discriminate|].
  apply bind_Ok in E as (nx & _ & E). apply bind_Ok in E as (r & Er & E). apply bind_Ok in E as (s & Es & E).
  assert (T : trace hk m (fst s)).
  { apply (tr_trans _ _ (fst r)); [apply (tr_bridge hk m d r Er)|]. destruct (snd r); [injection Es as <-; apply tr_refl|].
    apply bind_Ok in Es as (m1 & Es & Es'). injection Es' as <-. apply (tr_mark hk _ _ _ _ _ Es eq_refl). }
  destruct (Nat.eqb _ _); [injection E as ->; exact T|]. apply bind_Ok in E as (sn & _ & E). destruct (negb _); [injection E as ->; exact T|].
  apply bind_Ok in E as (e & _ & E). destruct (hasFlag e _); [|injection E as ->; exact T].
  apply (tr_trans _ _ (fst s)); [exact T | apply (IH _ _ _ _ _ E)].
Qed.
Lemma scan_tr hk bs : forall m f c m' f' c', scan hk m bs f c = Ok (m', f', c') -> trace hk m m'.
Proof.
  induction bs as [|b t IH]; intros m f c m' f' c' E; cbn [scan] in E; [injection E as <- _ _; apply tr_refl|]. cbv zeta in E.
  apply bind_Ok in E as (o & _ & E). destruct o; [|apply (IH _ _ _ _ _ _ E)].
  apply bind_Ok in E as (s1 & _ & E). apply bind_Ok in E as (s0 & _ & E).
  destruct (s1 =? _); [|destruct (s0 =? _); [|apply (IH _ _ _ _ _ _ E)]]; apply bind_Ok in E as ([m1 c1] & E1 & E);
    (apply (tr_trans _ _ m1); [apply (chain_tr _ _ _ _ _ _ _ E1) | apply (IH _ _ _ _ _ _ E)]).
Qed.
Lemma cleanup_tr hk bs : forall m m' bs', cleanup m bs = Ok (m', bs') -> trace hk m m'.
Proof.
  induction bs as [|b t IH]; intros m m' bs' E; cbn [cleanup] in E; [injection E as <- _; apply tr_refl|].
  apply bind_Ok in E as (o & _ & E). destruct o as [e|]; [|apply (IH _ _ _ E)]. destruct (hasFlag e _).
  - apply bind_Ok in E as (m1 & E1 & E). apply (tr_trans _ _ m1); [apply (tr_mark hk _ _ _ _ _ E1 eq_refl) | apply (IH _ _ _ E)].
  - apply bind_Ok in E as ([m1 b1] & E1 & E). injection E as <- _. apply (IH _ _ _ E1).
Qed.
Lemma bridgesLoop_tr hk n : forall m bs c m' c', bridgesLoop n hk m bs c = Ok (m', c') -> trace hk m m'.
Proof.
  induction n as [|n IH]; intros m bs c m' c' E; (destruct bs as [|b t]; cbn [bridgesLoop] in E; [injection E as <- _; apply tr_refl|]); [discriminate|].
  apply bind_Ok in E as ([[m1 f] c1] & E1 & E). apply bind_Ok in E as ([m2 bs2] & E2 & E).
  apply (tr_trans _ _ m1); [apply (scan_tr _ _ _ _ _ _ _ _ E1)|]. apply (tr_trans _ _ m2); [apply (cleanup_tr _ _ _ _ _ E2)|].
  destruct f; [apply (IH _ _ _ _ _ E)|]. destruct bs2 as [|b2 t2]; [discriminate|]. apply bind_Ok in E as (r & E3 & E).
  apply (tr_trans _ _ (fst r)); [apply (tr_bridge _ _ _ _ E3) | apply (IH _ _ _ _ _ E)].
Qed.
Lemma removeBridges_tr hk m bs m' c : removeBridges hk m bs = Ok (m', c) -> trace hk m m'.
Proof. apply bridgesLoop_tr. Qed.
Lemma markBridges_tr hk ls : forall m m' bs, markBridges m ls = Ok (m', bs) -> trace hk m m'.
Proof.
  induction ls as [|l t IH]; intros m m' bs E; cbn [markBridges] in E; [injection E as <- _; apply tr_refl|].
  apply bind_Ok in E as (o & _ & E). destruct o as [e|]; [|apply (IH _ _ _ E)]. destruct (isBridge e); [|apply (IH _ _ _ E)].
  apply bind_Ok in E as (m1 & E1 & E). apply bind_Ok in E as ([m2 b2] & E2 & E). injection E as <- _.
  apply (tr_trans _ _ m1); [apply (tr_mark hk _ _ _ _ _ E1 eq_refl) | apply (IH _ _ _ E2)].
Qed.
Lemma removeAllBridges_tr hk m m' c : removeAllBridges hk m = Ok (m', c) -> trace hk m m'.
Proof.
  unfold removeAllBridges. intros E. apply bind_Ok in E as ([m1 bs] & E1 & E).
  apply (tr_trans _ _ m1); [apply (markBridges_tr _ _ _ _ _ E1) | apply (removeBridges_tr _ _ _ _ _ E)].
Qed.
Lemma mergeListed_tr hk ls : forall m c m' bs c', mergeListed hk m ls c = Ok (m', bs, c') -> trace hk m m'.
Proof.
  induction ls as [|l t IH]; intros m c m' bs c' E; cbn [mergeListed] in E; [injection E as <- _ _; apply tr_refl|].
  apply bind_Ok in E as (e & _ & E). destruct (isBridge e).
  - apply bind_Ok in E as (m1 & E1 & E). apply bind_Ok in E as ([[m2 b2] c2] & E2 & E). injection E as <- _ _.
    apply (tr_trans _ _ m1); [apply (tr_mark hk _ _ _ _ _ E1 eq_refl) | apply (IH _ _ _ _ _ E2)].
  - apply bind_Ok in E as (r & E1 & E). apply (tr_trans _ _ (fst r)); [apply (tr_faces _ _ _ _ E1) | apply (IH _ _ _ _ _ E)].
Qed.
Lemma removeEdges_tr hk m ls m' c : removeEdges hk m ls = Ok (m', c) -> trace hk m m'.
Proof.
  unfold removeEdges. intros E. apply bind_Ok in E as ([[m1 bs] c1] & E1 & E). apply bind_Ok in E as ([m2 c2] & E2 & E).
  apply bind_Ok in E as ([m3 c3] & E3 & E). apply bind_Ok in E as ([m4 c4] & E4 & E). injection E as <- _.
  apply (tr_trans _ _ m1); [apply (mergeListed_tr _ _ _ _ _ _ _ E1)|]. apply (tr_trans _ _ m2); [apply (removeBridges_tr _ _ _ _ _ E2)|].
  apply (tr_trans _ _ m3); [apply (isolatedLoop_tr _ _ _ _ _ _ E3) | apply (degree2Loop_tr _ _ _ _ _ _ E4)].
Qed.

(** Protected edges survive the bulk operations. *)
Theorem protection_bulk hk m m' : history geometric m -> initialised m ->
  (exists merge2 d s, mergeFacesCompletely (protect hk) merge2 m d = Ok (m', s)) \/ (exists n, removeIsolatedNodes (protect hk) m = Ok (m', n)) \/
  (exists n, mergeDegree2Nodes (protect hk) m = Ok (m', n)) \/ (exists bs n, removeBridges (protect hk) m bs = Ok (m', n)) \/
  (exists n, removeAllBridges (protect hk) m = Ok (m', n)) \/ (exists ls n, removeEdges (protect hk) m ls = Ok (m', n)) ->
  (forall l e, isEdge m l e -> N.land (eflags e) ALL_PROTECTION <> 0%N ->
     exists l' e', isEdge m' l' e' /\ N.land (eflags e') ALL_PROTECTION = N.land (eflags e) ALL_PROTECTION /\ inside (epts e) (epts e')) /\
  (forall F p, F <> 0%N -> (pointProtected m F p <-> pointProtected m' F p)).
Proof.
  intros H Hi C. apply protection_marks; auto. apply (tr_guarded hk).
  destruct C as [(a & d & s & E)|[(n & E)|[(n & E)|[(bs & n & E)|[(n & E)|(ls & n & E)]]]]].
  - apply (mergeFacesCompletely_tr _ _ _ _ _ _ E).
  - apply (isolatedLoop_tr _ _ _ _ _ _ E).
  - apply (degree2Loop_tr _ _ _ _ _ _ E).
  - apply (removeBridges_tr _ _ _ _ _ E).
  - apply (removeAllBridges_tr _ _ _ _ E).
  - apply (removeEdges_tr _ _ _ _ _ E).
Qed.
