(** C50: the convex hull of a point set. *)
From Coq Require Import Permutation.
From Verif Require Import Base GeoMap_Model Hull_Model Hull_Spec Hull_Proofs Hull_Results.
Local Open Scope Z_scope.

(** C50: whatever the sort does with points on one ray, the scan stays inside its vector and returns a closed polygon of input points. *)
Theorem C50_closed_subset sort : sorts sort -> forall p0 poly, isExtremal p0 poly -> (2 <= length poly)%nat ->
  exists hull, convexHull sort poly = Ok hull /\ closedFrom hull poly /\ (length hull <= S (length poly))%nat.
Proof. exact (hull_total sort). Qed.
Print Assumptions C50_closed_subset.

(** C50, not always true: with three points on a ray from the extremal point the result can have a dent. *)
Theorem C50_convex_refuted : exists sort poly p0 hull, sorts sort /\ isExtremal p0 poly /\ NoDup poly /\ convexHull sort poly = Ok hull /\
  (exists a b q, edgeOf hull a b /\ In q hull /\ side a b q < 0) /\ (exists a b q, edgeOf hull a b /\ In q hull /\ 0 < side a b q) /\
  ~ enclosesAll hull poly.
Proof. exact hull_refuted. Qed.
Print Assumptions C50_convex_refuted.

(** C50, not always true: an input point can lie outside of the result. *)
Theorem C50_contains_refuted : exists sort poly p0 hull, sorts sort /\ isExtremal p0 poly /\ NoDup poly /\ convexHull sort poly = Ok hull /\
  ~ spansAll hull poly.
Proof. exact hull_misses_refuted. Qed.
Print Assumptions C50_contains_refuted.

(** C50, not always true: for a closed polygon that starts at its extremal point the comparison passed to std::sort is no strict weak order. *)
Theorem C50_compare_refuted : exists poly p0 others, poly = p0 :: others /\ nth_error others (length others - 1) = Some p0 /\
  (forall q, In q others -> snd q < snd p0 \/ (snd q = snd p0 /\ fst p0 <= fst q)) /\ ~ strictWeak (ccwBefore p0) others.
Proof. exact hull_closed_refuted. Qed.
Print Assumptions C50_compare_refuted.

(** C50, for every input and every sort that does not put a nearer and then a farther point behind a point on the same ray: a closed
    convex polygon of input points around all input points.  Missing: other sort results (refuted above), repeated extremal points. *)
Theorem C50_hull_partial sort : sorts sort -> forall p0 poly, isExtremal p0 poly -> (2 <= length poly)%nat ->
  (forall u v, poly = u ++ p0 :: v -> rayOrder p0 (sort (ccwBefore p0) (u ++ v))) ->
  exists hull, convexHull sort poly = Ok hull /\ closedFrom hull poly /\ enclosesAll hull poly /\ spansAll hull poly.
Proof. exact (hull_convex sort). Qed.
Print Assumptions C50_hull_partial.

Example C50_case : sorts insertionSort /\ isExtremal (0, 0) cloud /\
  (forall u v, cloud = u ++ (0, 0) :: v -> rayOrder (0, 0) (insertionSort (ccwBefore (0, 0)) (u ++ v))) /\
  convexHull insertionSort cloud = Ok [(0, 0); (3, 0); (4, -2); (1, -4); (-1, -3); (0, 0)].
Proof. exact (conj insertionSort_sorts (conj cloud_extremal (conj cloud_order cloud_hull))). Qed.

(** C50: with at most two points on each line through the extremal point every sort gives the convex hull. *)
Theorem C50_general_position_partial sort p0 poly : sorts sort -> isExtremal p0 poly -> (2 <= length poly)%nat -> raysOfTwo p0 poly ->
  exists hull, convexHull sort poly = Ok hull /\ closedFrom hull poly /\ enclosesAll hull poly /\ spansAll hull poly.
Proof. exact (hull_two sort p0 poly). Qed.
Print Assumptions C50_general_position_partial.

Example C50_position_case : raysOfTwo (0, 0) cloud.
Proof. exact cloud_rays. Qed.
