(** C90: cutting a polygon with a line. *)
From Coq Require Import QArith Lqa.
From Verif Require Import Base CellMap_Proofs CellMap_Main Intersect_Model Intersect_Spec Intersect_Proofs.
Local Open Scope Q_scope.

(** C90: what is returned are the longest stretches of points on the side asked for, in their order; each begins with the point where the polygon meets the line, unless it begins with the polygon. *)
Theorem C90_cut l s e parts : ~ (fst e == fst s /\ snd e == snd s) -> intersectLine l s e = Ok parts -> cut s e None l parts.
Proof. exact (intersect_cut l s e parts). Qed.
Print Assumptions C90_cut.

(** C90: all points are finite if the points on the other side have different distances from the line. *)
Theorem C90_total l s e : apart s e l -> exists parts, intersectLine l s e = Ok parts.
Proof. exact (intersect_total l s e). Qed.
Print Assumptions C90_total.

(** C90: a line of length zero cuts nothing. *)
Theorem C90_zero p l s e : fst e == fst s -> snd e == snd s -> intersectLine (p :: l) s e = Ok [p :: l].
Proof. intros A B. unfold intersectLine. assert (Qeq_bool (snd e - snd s) 0 = true) as -> by (apply Qeq_bool_iff; lra). assert (Qeq_bool (fst e - fst s) 0 = true) as -> by (apply Qeq_bool_iff; lra). reflexivity. Qed.
Print Assumptions C90_zero.

(** C90: the point at the end of a part is wrong: after a part that began at a point [q] outside it is never on the line, but on the other side, or further inside than the last point [u] of the part. *)
Theorem C90_leaving s e q u p c : sideOf s e q < 0 -> isInside s e u -> sideOf s e p < 0 -> leaving s e (Some q) u p c ->
  ~ sideOf s e c == 0 /\ (sideOf s e q < sideOf s e p -> sideOf s e c < 0) /\ (sideOf s e p < sideOf s e q -> sideOf s e u < sideOf s e c).
Proof. exact (leaving_off s e q u p c). Qed.
Print Assumptions C90_leaving.

(** C90: the part from the beginning of the polygon just repeats its last point. *)
Theorem C90_leave_refuted : exists l s e u p c, intersectLine l s e = Ok [[u; c]] /\ l = [u; p] /\ isInside s e u /\ ~ isInside s e p /\ ~ meets s e u p c /\ samePt c u.
Proof.
  exists [(0, -1 # 1); (0, 1)], (0, 0), (1, 0), (0, -1 # 1), (0, 1). eexists. split; [vm_compute; reflexivity|]. split; [reflexivity|]. split; [vm_compute; discriminate|]. split; [intros K; vm_compute in K; apply K; reflexivity|].
  split; [intros [K _]; vm_compute in K; discriminate K|split; reflexivity].
Qed.
Print Assumptions C90_leave_refuted.

(** C90: and there are polygons that get a point which is not finite. *)
Theorem C90_infinite_refuted : exists l s e, ~ (fst e == fst s /\ snd e == snd s) /\ intersectLine l s e = UB.
Proof. exists [(0, 1); (0, -1 # 1); (0, 1)], (0, 0), (1, 0). split; [intros [K _]; vm_compute in K; discriminate K|vm_compute; reflexivity]. Qed.
Print Assumptions C90_infinite_refuted.

(** in, out, in and out again *)
Example C90_case : match intersectLine [(0, -1 # 1); (0, 1); (2, -1 # 1); (4, 3); (6, 4); (8, -4 # 1)] (0, 0) (1, 0) with
  | Ok [[a; b]; [c; d; f]; [g; h]] => samePt a (0, -1 # 1) /\ samePt b (0, -1 # 1) /\ samePt c (1, 0) /\ samePt d (2, -1 # 1) /\ samePt f (1, -3 # 1) /\ samePt g (7, 0) /\ samePt h (8, -4 # 1) | _ => False end.
Proof. vm_compute. repeat split. Qed.
Example C90_apart : apart (0, 0) (1, 0) [(0, -1 # 1); (0, 1); (2, -1 # 1); (4, 3); (6, 4); (8, -4 # 1)].
Proof.
  intros i j p q L Hp Hq Sp Sq. destruct i as [|[|[|[|[|[|i]]]]]]; cbn in Hp; try (destruct i; discriminate Hp); destruct j as [|[|[|[|[|[|j]]]]]]; cbn in Hq; try (destruct j; discriminate Hq); try lia;
  inversion Hp; inversion Hq; subst; vm_compute in Sp, Sq |- *; first [discriminate Sp|discriminate Sq|intros K; discriminate K].
Qed.
