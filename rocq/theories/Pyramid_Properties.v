(** C31-C33: theorems about CellPyramid. *)
From Verif Require Import Base Pyramid_Model Pyramid_Spec Pyramid_Proofs.

Section C.
Variable S : Type.
Variable apply : euler -> Z -> S -> bool * S.
Variable sameFaces : Z -> S -> bool.
Variable endNodes : Z -> S -> nat * nat.
Variable degree : nat -> S -> nat.
Variable anchor : nat -> S -> Z.
Variable cells : S -> nat.

(** C31: getLevel reproduces every level there has been and that has not been cut, whatever checkpoints exist. *)
Theorem C31_getLevel_partial : forall walk p seen k l, orderly S apply sameFaces endNodes degree anchor cells walk p seen -> nth_error seen k = Some l ->
  getLevel S apply sameFaces endNodes degree anchor p k = Some (Done, l).
Proof. exact (getLevel_ok S apply sameFaces endNodes degree anchor cells). Qed.
(** C31: gotoLevel reaches it from any other level. *)
Theorem C31_gotoLevel_partial : forall walk p seen l k lk, orderly S apply sameFaces endNodes degree anchor cells walk p seen -> In l seen -> nth_error seen k = Some lk ->
  gotoLevel S apply sameFaces endNodes degree anchor p k l = (Done, lk).
Proof. exact (gotoLevel_ok S apply sameFaces endNodes degree anchor cells). Qed.
(** C31: approachLevel stops at a level there has been, not beyond the wanted one, and no earlier than after the allowed number of
    steps; it says whether the wanted level has been reached. *)
Theorem C31_approachLevel_partial : forall walk p seen l k n, orderly S apply sameFaces endNodes degree anchor cells walk p seen -> In l seen -> (k < length seen)%nat ->
  exists l', approachLevel S apply sameFaces endNodes degree anchor p k n l = (Done, l', (index S l' =? k)%nat) /\ In l' seen /\ (index S l' <= k)%nat /\
    (index S l <= k -> Nat.min k (index S l + n) <= index S l')%nat.
Proof. exact (approachLevel_ok S apply sameFaces endNodes degree anchor cells). Qed.
(** C31: the levels are what the first k recorded operations make of level 0. *)
Theorem C31_recorded_partial : forall walk p seen k l0, orderly S apply sameFaces endNodes degree anchor cells walk p seen -> nth_error seen 0 = Some l0 -> (k < length seen)%nat ->
  exists l, after S apply sameFaces endNodes degree anchor (firstn k (history S p)) l0 = (Done, l) /\ nth_error seen k = Some l.
Proof. exact (recorded_ok S apply sameFaces endNodes degree anchor cells). Qed.

(** C33: each operation and each outermost composite counts as one level, and the top level is the last one. *)
Theorem C33_levels_partial : forall walk p seen, orderly S apply sameFaces endNodes degree anchor cells walk p seen -> composing S p = 0%Z ->
  levelCount S p = length seen /\ In (top S p) seen /\ (forall k l, nth_error seen k = Some l -> index S l = k) /\
  (walk = false -> index S (top S p) = (levelCount S p - 1)%nat).
Proof. exact (counts_ok S apply sameFaces endNodes degree anchor cells). Qed.
(** C33: an open composite is counted already, and levels cannot be cut before it is closed. *)
Theorem C33_open : forall walk p seen, orderly S apply sameFaces endNodes degree anchor cells walk p seen -> composing S p <> 0%Z ->
  levelCount S p = (length seen + 1)%nat /\ (forall k, cutAbove S apply sameFaces endNodes degree anchor cells p k = (Thrown, p)) /\
  (forall l, cutAboveLevel S cells p l = (Thrown, p)).
Proof. exact (composing_ok S apply sameFaces endNodes degree anchor cells). Qed.
(** C33 does not hold with changeIntoComposite: converting the last operation and closing the composite counts its level twice. *)
Theorem C33_change_refuted : forall p last, composing S p = 0%Z -> back (history S p) = Some last -> index S (top S p) = (levelCount S p - 1)%nat ->
  exists p1 p2, changeIntoComposite S p = (Done, p1) /\ endComposite S cells p1 = (Done, p2) /\ composing S p2 = 0%Z /\ index S (top S p2) = levelCount S p2.
Proof.
  intros p last C B I. unfold changeIntoComposite. rewrite C, B. cbn [Z.eqb]. eexists _, _. split; [reflexivity|].
  unfold endComposite. cbn zeta. cbn [setComposing setHistory composing history]. change (((0 + 1) mod 2 ^ 32 - 1) mod 2 ^ 32)%Z with 0%Z. cbn [Z.eqb].
  unfold setLast at 1. rewrite back_app. cbn [length]. split; [reflexivity|].
  match goal with |- composing S (maybeStore S cells ?q) = _ /\ _ => destruct (maybeStore_rest S cells q) as (R1 & R2 & R3) end.
  unfold levelCount in *. rewrite R1, R2, R3. cbn [setTop setComposing setHistory composing history top bump index]. split; [reflexivity|].
  assert (1 <= length (history S p))%nat. { destruct (history S p); [discriminate|cbn; lia]. }
  unfold setLast. rewrite !app_length, !firstn_length, !app_length, !firstn_length. cbn [length]. lia.
Qed.

(** C32: an operation failing inside of a composite leaves history, checkpoints and level count as they were. *)
Theorem C32_inside : forall walk p seen t d p', orderly S apply sameFaces endNodes degree anchor cells walk p seen -> composing S p <> 0%Z ->
  addAndPerform S apply sameFaces endNodes degree anchor cells p t d = (Thrown, p') ->
  history S p' = history S p /\ checkpoints S p' = checkpoints S p /\ composing S p' = composing S p /\ levelCount S p' = levelCount S p.
Proof. exact (fails_inside S apply sameFaces endNodes degree anchor cells). Qed.
(** C32: any other failing operation stays in the history, so that there is one level too many; the levels before it stay reachable. *)
Theorem C32_outside_partial : forall walk p seen t d p', orderly S apply sameFaces endNodes degree anchor cells walk p seen -> composing S p = 0%Z ->
  index S (top S p) = length (history S p) -> addAndPerform S apply sameFaces endNodes degree anchor cells p t d = (Thrown, p') ->
  levelCount S p' = (levelCount S p + 1)%nat /\ index S (top S p') = index S (top S p) /\
  (forall k l, nth_error seen k = Some l -> getLevel S apply sameFaces endNodes degree anchor p' k = Some (Done, l)).
Proof. exact (fails_outside S apply sameFaces endNodes degree anchor cells). Qed.
End C.

(** ** A concrete pyramid: the segmentation is the list of the darts operated on; operations on negative darts throw *)
Definition xApply (e : euler) (d : Z) (s : list Z) : bool * list Z := if (d <? 0)%Z then (false, s) else (true, d :: s).
Definition xSame (d : Z) (s : list Z) : bool := Z.even d.
Definition xEnds (d : Z) (s : list Z) : nat * nat := (0, 1)%nat.
Definition xDeg (n : nat) (s : list Z) : nat := 1.
Definition xAnc (n : nat) (s : list Z) : Z := 0.
Definition xCells (s : list Z) : nat := length s.
Notation xadd := (addAndPerform (list Z) xApply xSame xEnds xDeg xAnc xCells).
Notation xget := (getLevel (list Z) xApply xSame xEnds xDeg xAnc).
Notation xord := (orderly (list Z) xApply xSame xEnds xDeg xAnc xCells).
Definition xnew : pyramid (list Z) := Eval vm_compute in newPyramid (list Z) xCells [].
Definition x1 : pyramid (list Z) := Eval vm_compute in snd (xadd xnew (Euler MergeEdges) 7).

Example C31_x1 : xord false x1 [mkLevel (list Z) 0 0 []; mkLevel (list Z) 1 1 [7%Z]].
Proof. exact (o_op (list Z) xApply xSame xEnds xDeg xAnc xCells false xnew [mkLevel (list Z) 0 0 []] (Euler MergeEdges) 7 x1 (o_new _ _ _ _ _ _ _ _ []) eq_refl eq_refl eq_refl). Qed.
(** a composite of three operations, one of which fails, and a cut *)
Definition x2 : pyramid (list Z) := Eval vm_compute in snd (beginComposite (list Z) x1).
Definition x3 : pyramid (list Z) := Eval vm_compute in snd (xadd x2 RemoveEdge 8).
Definition x4 : pyramid (list Z) := Eval vm_compute in snd (xadd x3 RemoveEdgeWithEnds (-3)).
Definition x5 : pyramid (list Z) := Eval vm_compute in snd (xadd x4 RemoveEdgeWithEnds 9).
Definition x6 : pyramid (list Z) := Eval vm_compute in snd (endComposite (list Z) xCells x5).
Example C31_x6 : xord false x6 [mkLevel (list Z) 0 0 []; mkLevel (list Z) 1 1 [7%Z]; mkLevel (list Z) 2 3 [9; 8; 7]%Z].
Proof.
  assert (O2 : xord false x2 [mkLevel (list Z) 0 0 []; mkLevel (list Z) 1 1 [7%Z]])
    by (eapply o_begin; [exact C31_x1|right; reflexivity|reflexivity|reflexivity]).
  assert (O3 : xord false x3 [mkLevel (list Z) 0 0 []; mkLevel (list Z) 1 1 [7%Z]])
    by (apply (o_op_inside (list Z) xApply xSame xEnds xDeg xAnc xCells false x2 _ RemoveEdge 8); [exact O2|discriminate|reflexivity]).
  assert (O4 : xord false x4 [mkLevel (list Z) 0 0 []; mkLevel (list Z) 1 1 [7%Z]])
    by (apply (o_op_fails (list Z) xApply xSame xEnds xDeg xAnc xCells false x3 _ RemoveEdgeWithEnds (-3)); [exact O3|discriminate|reflexivity|reflexivity]).
  assert (O5 : xord false x5 [mkLevel (list Z) 0 0 []; mkLevel (list Z) 1 1 [7%Z]])
    by (apply (o_op_inside (list Z) xApply xSame xEnds xDeg xAnc xCells false x4 _ RemoveEdgeWithEnds 9); [exact O4|discriminate|reflexivity]).
  exact (o_end (list Z) xApply xSame xEnds xDeg xAnc xCells false x5 _ x6 O5 eq_refl ltac:(discriminate) eq_refl).
Qed.
Example C31_x6_levels : xget x6 1 = Some (Done, mkLevel (list Z) 1 1 [7%Z]) /\ xget x6 2 = Some (Done, mkLevel (list Z) 2 3 [9; 8; 7]%Z).
Proof. split; reflexivity. Qed.
Example C31_x6_cut : exists p, cutAbove (list Z) xApply xSame xEnds xDeg xAnc xCells x6 1 = (Done, p) /\ xord false p [mkLevel (list Z) 0 0 []; mkLevel (list Z) 1 1 [7%Z]].
Proof.
  eexists. split; [reflexivity|].
  exact (o_cut (list Z) xApply xSame xEnds xDeg xAnc xCells false x6 _ 1 _ C31_x6 eq_refl).
Qed.
Example C33_open_applies : composing (list Z) x2 <> 0%Z /\ cutAbove (list Z) xApply xSame xEnds xDeg xAnc xCells x2 0 = (Thrown, x2).
Proof. split; [discriminate|reflexivity]. Qed.
Example C32_inside_applies : xadd x3 RemoveEdgeWithEnds (-3) = (Thrown, x4) /\ composing (list Z) x3 <> 0%Z.
Proof. split; [reflexivity|discriminate]. Qed.
Example C33_change_applies : composing (list Z) x1 = 0%Z /\ back (history (list Z) x1) = Some (Atom (Euler MergeEdges) 7) /\
  index (list Z) (top (list Z) x1) = (levelCount (list Z) x1 - 1)%nat.
Proof. repeat split. Qed.

(** C32 fails outside of composites: the operation has left the segmentation alone, but stays in the history; the next operation is
    recorded at the wrong place, and its level cannot be reached again. *)
Theorem C32_rolled_back_refuted : exists p seen t d p' p'' l, xord false p seen /\ composing (list Z) p = 0%Z /\ xadd p t d = (Thrown, p') /\
  top (list Z) p' = top (list Z) p /\ levelCount (list Z) p' <> levelCount (list Z) p /\
  xadd p' (Euler MergeEdges) 5 = (Done, p'') /\ index (list Z) (top (list Z) p'') = 2%nat /\ xget p'' 2 = Some (Thrown, l).
Proof.
  exists x1, [mkLevel (list Z) 0 0 []; mkLevel (list Z) 1 1 [7%Z]], (Euler MergeFaces), (-1)%Z. eexists _, _, _.
  split; [exact C31_x1|]. split; [reflexivity|]. split; [reflexivity|]. split; [reflexivity|]. split; [discriminate|]. repeat split.
Qed.
(** C31 fails for a composite without operations: its level cannot be computed again. *)
Theorem C31_empty_composite_refuted : exists p p1 p2 l, xord false p [mkLevel (list Z) 0 0 []] /\ beginComposite (list Z) p = (Done, p1) /\
  endComposite (list Z) xCells p1 = (Done, p2) /\ levelCount (list Z) p2 = 2%nat /\ xget p2 1 = Some (Undef, l).
Proof. exists xnew. eexists _, _, _. split; [apply (o_new (list Z) xApply xSame xEnds xDeg xAnc xCells false [])|]. repeat split. Qed.
(** C31 fails when an operation follows topLevel().gotoLevel(): it is recorded behind operations that the top level has not undergone. *)
Theorem C31_walk_refuted : exists p p' l, xord true p [mkLevel (list Z) 0 0 []; mkLevel (list Z) 1 1 [7%Z]] /\ composing (list Z) p = 0%Z /\
  xadd p (Euler MergeEdges) 5 = (Done, p') /\ index (list Z) (top (list Z) p') = 1%nat /\ st (list Z) (top (list Z) p') = [5%Z] /\
  xget p' 1 = Some (Done, l) /\ st (list Z) l = [7%Z].
Proof.
  assert (O : xord true x1 [mkLevel (list Z) 0 0 []; mkLevel (list Z) 1 1 [7%Z]])
    by exact (o_op (list Z) xApply xSame xEnds xDeg xAnc xCells true xnew [mkLevel (list Z) 0 0 []] (Euler MergeEdges) 7 x1 (o_new _ _ _ _ _ _ _ _ []) eq_refl eq_refl eq_refl).
  exists (setTop (list Z) x1 (mkLevel (list Z) 0 0 [])). eexists _, _. split; [exact (o_goto (list Z) xApply xSame xEnds xDeg xAnc xCells true x1 _ 0 (mkLevel (list Z) 0 0 []) O eq_refl eq_refl ltac:(cbn; lia) eq_refl)|].
  repeat split.
Qed.
(** C31 fails after changeIntoComposite: here the tenth operation is turned into a composite with an eleventh one; getLevel of that
    level still yields the checkpoint made after the tenth. *)
Fixpoint xrun (n : nat) (p : pyramid (list Z)) : pyramid (list Z) := match n with O => p | S n' => snd (xadd (xrun n' p) (Euler MergeEdges) (Z.of_nat n)) end.
Definition x10 : pyramid (list Z) := Eval vm_compute in xrun 10 xnew.
Theorem C31_stale_checkpoint_refuted : exists p1 p2 p3 l l', x10 = xrun 10 xnew /\ changeIntoComposite (list Z) x10 = (Done, p1) /\ xadd p1 (Euler MergeEdges) 11 = (Done, p2) /\
  endComposite (list Z) xCells p2 = (Done, p3) /\ xget p3 10 = Some (Done, l) /\
  after (list Z) xApply xSame xEnds xDeg xAnc (firstn 10 (history (list Z) p3)) (mkLevel (list Z) 0 0 []) = (Done, l') /\
  hd 0%Z (st (list Z) l) = 10%Z /\ hd 0%Z (st (list Z) l') = 11%Z.
Proof. eexists _, _, _, _, _. split; [vm_compute; reflexivity|]. split; [vm_compute; reflexivity|]. split; [vm_compute; reflexivity|]. split; [vm_compute; reflexivity|].
  split; [vm_compute; reflexivity|]. split; [vm_compute; reflexivity|]. split; reflexivity. Qed.

Print Assumptions C31_getLevel_partial.
Print Assumptions C31_gotoLevel_partial.
Print Assumptions C31_approachLevel_partial.
Print Assumptions C31_recorded_partial.
Print Assumptions C33_levels_partial.
Print Assumptions C33_open.
Print Assumptions C33_change_refuted.
Print Assumptions C32_inside.
Print Assumptions C32_outside_partial.
Print Assumptions C32_rolled_back_refuted.
Print Assumptions C31_empty_composite_refuted.
Print Assumptions C31_walk_refuted.
Print Assumptions C31_stale_checkpoint_refuted.
