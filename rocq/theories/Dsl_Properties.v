(** C36, C56: digital straight lines and tangents. *)
From Coq Require Import Znumtheory.
From Verif Require Import Base Dsl_Model Dsl_Spec Dsl_Proofs Dsl_Tangent.
Local Open Scope Z_scope.

(** C36: the mirrored lines contain the mirrored points. *)
Theorem C36_mirrors eight d x y :
  (onLine eight (mirrorX d) x y <-> onLine eight d (- x) y) /\
  (onLine eight (mirrorY eight d) x y <-> onLine eight d x (- y)) /\
  (onLine eight (mirrorXY eight d) x y <-> onLine eight d (- x) (- y)).
Proof. exact (conj (mirrorX_points eight d x y) (conj (mirrorY_points eight d x y) (mirrorXY_points eight d x y))). Qed.
Print Assumptions C36_mirrors.

(** C36: mirroring twice gives the line back. *)
Theorem C36_involutive eight d : mirrorX (mirrorX d) = d /\ mirrorXY eight (mirrorXY eight d) = d /\ mirrorY eight (mirrorY eight d) = d.
Proof. exact (mirrors_involutive eight d). Qed.
Print Assumptions C36_involutive.

Example C36_mirror_case : onLine true (mkDsl 2 5 (-1)) 3 1 /\ ~ onLine true (mirrorX (mkDsl 2 5 (-1))) 3 1 /\ mirrorY true (mkDsl 2 5 (-1)) = mkDsl (-2) 5 (-3).
Proof. repeat split. discriminate. Qed.

(** C36: the 4-connected line has the points of the 8-connected one, a diagonal step becoming a step up.  Missing: lines outside of the
    first octant, where it fails (below). *)
Theorem C36_four_partial d x y : 0 <= da d <= db d -> onLine false (convertToFourConnected true d) x y <-> onLine true d (x + y) y.
Proof. exact (four_points d x y). Qed.
Print Assumptions C36_four_partial.

(** C36, not always true: outside of the first octant. *)
Theorem C36_four_refuted : exists d x y, onLine false (convertToFourConnected true d) x y /\ ~ onLine true d (x + y) y.
Proof. exact four_refuted. Qed.
Print Assumptions C36_four_refuted.

Example C36_four_case : onLine true (mkDsl 2 5 (-1)) 3 1 /\ onLine false (convertToFourConnected true (mkDsl 2 5 (-1))) 2 1.
Proof. split; reflexivity. Qed.

(** C36: whatever the line and the point, addPoint returning true means that the point is contained now, returning false that nothing
    has changed. *)
Theorem C36_add_point eight d x y : match addPoint eight d x y with
  | (Returned true, d') => onLine eight d' x y
  | (Returned false, d') => d' = d
  | _ => True end.
Proof. exact (addPoint_always eight d x y). Qed.
Print Assumptions C36_add_point.

(** C36, not always true: addPoint can throw and leave a line behind that is neither the old one nor contains the point. *)
Theorem C36_add_point_refuted : exists d x y d', octant d /\ onLine true d 0 0 /\ addPoint true d x y = (Thrown, d') /\ d' <> d.
Proof. exact addPoint_refuted. Qed.
Print Assumptions C36_add_point_refuted.

(** C36: continuing a digital segment to the right by one column, addPoint decides whether the longer segment is a digital straight
    line, and finds the line if so: the old points in the old columns are kept and the new one is contained; no line at all does that
    if addPoint refuses.  The new line is again determined by its points. *)
Theorem C36_grow_right d x y : fits d 0 (x - 1) -> 0 < x -> 0 <= y -> stepRight d x y ->
  (exists d', addPoint true d x y = (Returned true, d') /\ fits d' 0 x /\ extends d d' 0 (x - 1) x y) \/
  (addPoint true d x y = (Returned false, d) /\ impossible d 0 (x - 1) x y).
Proof. exact (addPoint_right d x y). Qed.
Print Assumptions C36_grow_right.

(** C36: likewise to the left. *)
Theorem C36_grow_left d x y : fits d (x + 1) 0 -> x < 0 -> y < 0 \/ onLine true d x y -> stepLeft d x y ->
  (exists d', addPoint true d x y = (Returned true, d') /\ fits d' x 0 /\ extends d d' (x + 1) 0 x y) \/
  (addPoint true d x y = (Returned false, d) /\ impossible d (x + 1) 0 x y).
Proof. exact (addPoint_left d x y). Qed.
Print Assumptions C36_grow_left.

(** the line 1,2,0 through (0,0), (1,0), (2,1) is continued by (3,1), becomes 2,3,0 by (3,2); the line 1,3,0 refuses (4,2) *)
Example C36_grow_case : fits (mkDsl 1 2 0) 0 2 /\ stepRight (mkDsl 1 2 0) 3 2 /\
  addPoint true (mkDsl 1 2 0) 3 2 = (Returned true, mkDsl 2 3 0) /\
  addPoint true (mkDsl 1 2 0) 3 1 = (Returned true, mkDsl 1 2 0) /\
  fits (mkDsl 1 3 0) 0 3 /\ stepRight (mkDsl 1 3 0) 4 2 /\ addPoint true (mkDsl 1 3 0) 4 2 = (Returned false, mkDsl 1 3 0).
Proof.
  assert (G : forall b, Zis_gcd 1 b 1) by (intros b; apply Zis_gcd_sym, Zis_gcd_1).
  split; [|split; [|split; [|split; [|split; [|split]]]]].
  - split; [split; [cbn; lia|split; [cbn; lia|apply G]]|]. split; [lia|]. right. exists 0. split; [lia|]. split; [cbn; lia|]. left. exists 0. reflexivity.
  - exists 1. split; [reflexivity|lia].
  - reflexivity.
  - reflexivity.
  - split; [split; [cbn; lia|split; [cbn; lia|apply G]]|]. split; [lia|]. right. exists 0. split; [lia|]. split; [cbn; lia|]. left. exists 0. reflexivity.
  - exists 1. split; [reflexivity|lia].
  - reflexivity.
Qed.

(** C56: if tangentDSL returns a positive distance, the line it stores contains the polygon's points up to that distance on both sides,
    uses no more than two directions, stays within an open polygon, is determined by these points, and cannot be prolonged: the polygon
    ends, takes a third direction or no digital straight line contains the longer piece.  If it returns 0, its argument is unchanged and
    the polygon is straight up to its end or up to a point where it turns to two further directions at once. *)
Theorem C56_longest asserts closed codes fuel idx out dist d : (0 < length codes)%nat -> closed = true \/ (0 < idx < length codes)%nat ->
  tangentDSL asserts closed codes fuel idx out = Ok (dist, d) -> let s := (idx mod length codes)%nat in
  (dist = 0%nat /\ d = out /\ noTangent closed codes s) \/
  ((0 < dist)%nat /\ exists c2, secondCode codes s c2 /\ longestTangent closed codes s (codeAhead codes s 0) c2 dist d).
Proof. exact (tangent_ok asserts closed codes fuel idx out dist d). Qed.
Print Assumptions C56_longest.

(** C56: without assertions it returns, for open polygons and for closed ones with at least three directions. *)
Theorem C56_returns asserts closed codes fuel idx out : asserts = false -> (length codes <= fuel)%nat -> (0 < length codes)%nat ->
  (closed = true /\ exists a b c, In a codes /\ In b codes /\ In c codes /\ a <> b /\ a <> c /\ b <> c) \/
  (closed = false /\ (0 < idx < length codes)%nat) ->
  exists dist d, tangentDSL asserts closed codes fuel idx out = Ok (dist, d).
Proof. exact (tangent_terminates asserts closed codes fuel idx out). Qed.
Print Assumptions C56_returns.

Example C56_case : tangentDSL false true [0; 0; 1; 0; 0; 1; 2; 2; 2; 3; 2; 2; 2; 3] 14 3 (mkDsl 9 9 9) = Ok (3%nat, mkDsl 1 3 0) /\
  tangentDSL false false [0; 0; 0; 0] 4 2 (mkDsl 9 9 9) = Ok (0%nat, mkDsl 9 9 9).
Proof. split; reflexivity. Qed.

(** C56, not always true: with assertions compiled in, a straight piece of a closed polygon is rejected. *)
Theorem C56_assert_refuted : exists codes idx out, (forall fuel dist d, tangentDSL true true codes (S fuel) idx out <> Ok (dist, d)) /\
  exists dist d, tangentDSL false true codes 8 idx out = Ok (dist, d).
Proof. exact tangent_assert_refuted. Qed.
Print Assumptions C56_assert_refuted.

(** C56, not always true: on a closed contour that goes forth and back it does not return. *)
Theorem C56_hangs_refuted : exists codes idx out, forall fuel, tangentDSL false true codes fuel idx out = NoFuel.
Proof. exact tangent_hangs_refuted. Qed.
Print Assumptions C56_hangs_refuted.
