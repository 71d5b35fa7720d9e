(** C45: point-in-polygon, point-in-face. *)
From Coq Require Import QArith Bool.
From Verif Require Import Base GeoMap_Model GeoMap_Spec GeoMap_IterModel GeoMap_Results5 GeoMap_Examples
  Contains_Model Contains_Spec Contains_Proofs Contains_GeoMap.
Local Open Scope Q_scope.

Definition pt (x y : Z) : qpt := (inject_Z x, inject_Z y).
(** an L shaped polygon with a horizontal edge in the row of the tested point *)
Definition ell : list qpt := [pt 0 0; pt 4 0; pt 4 2; pt 2 2; pt 2 4; pt 0 4].

(** C45: contains() counts the segments that meet the ray from the point to the left, and throws iff the polygon is not closed. *)
Theorem C45_even_odd l p : l <> [] -> (closed l = Ok false /\ contains l p = Exn) \/
  (closed l = Ok true /\ exists n, crossings p l n /\ contains l p = Ok (Nat.odd n)).
Proof. exact (contains_evenOdd l p). Qed.
Print Assumptions C45_even_odd.

(** C45: the start point does not matter. *)
Theorem C45_rotate u v p : contains (loop (u ++ v)) p = contains (loop (v ++ u)) p.
Proof. exact (contains_rotate u v p). Qed.
Print Assumptions C45_rotate.

(** C45: the direction does not matter. *)
Theorem C45_reverse l p : contains (rev l) p = contains l p.
Proof. exact (contains_reverse l p). Qed.
Print Assumptions C45_reverse.

(** C45: additional points on a segment do not matter. *)
Theorem C45_subdivide u a b v q p : onSegment a b q -> contains (u ++ a :: q :: b :: v) p = contains (u ++ a :: b :: v) p.
Proof. exact (contains_subdivide u a b v q p). Qed.
Print Assumptions C45_subdivide.

Example C45_case : closed (loop ell) = Ok true /\ contains (loop ell) (pt 1 2) = Ok true /\ contains (loop ell) (pt 3 3) = Ok false /\
  contains (loop ell) (pt 3 2) = Ok true /\ onSegment (pt 0 0) (pt 4 0) (pt 1 0).
Proof.
  split; [reflexivity|]. split; [reflexivity|]. split; [reflexivity|]. split; [reflexivity|].
  exists (1 # 4). repeat split; discriminate.
Qed.

(** C45: cutting a polygon along a chord gives polygons that together contain the same points. *)
Theorem C45_chord a u b v p : exists x y, contains (loop (a :: u ++ [b])) p = Ok x /\ contains (loop (b :: v ++ [a])) p = Ok y /\
  contains (loop (a :: u ++ b :: v)) p = Ok (xorb x y).
Proof. exact (contains_chord a u b v p). Qed.
Print Assumptions C45_chord.

(** C45: a triangle contains the points strictly inside and no point outside. *)
Theorem C45_triangle a b c p : exists r, contains [a; b; c; a] p = Ok r /\ (insideTri a b c p -> r = true) /\ (r = true -> withinTri a b c p).
Proof. exact (contains_triangle a b c p). Qed.
Print Assumptions C45_triangle.

(** C45: a polygon contains a point iff an odd number of the triangles over its segments does, for every apex. *)
Theorem C45_fan apex l p : closed l = Ok true -> contains l p = fan apex l p.
Proof. exact (contains_fan apex l p). Qed.
Print Assumptions C45_fan.

Example C45_triangle_case : insideTri (pt 0 0) (pt 4 0) (pt 0 4) (pt 1 1) /\ withinTri (pt 0 0) (pt 4 0) (pt 0 4) (pt 2 2) /\
  ~ withinTri (pt 0 0) (pt 4 0) (pt 0 4) (pt 3 3) /\ fan (pt 9 9) (loop ell) (pt 1 2) = Ok true.
Proof.
  split; [left; repeat split|]. split; [split; [discriminate | left; repeat split; discriminate]|]. split; [|reflexivity].
  intros [_ [(_ & K & _)|(K & _)]]; apply K; reflexivity.
Qed.

(** C45: the bounding box test of BBoxPolygon does not change the answer. *)
Theorem C45_bounding_box l p : closed l = Ok true -> bboxContains l p = contains l p.
Proof. exact (bbox_agrees l p). Qed.
Print Assumptions C45_bounding_box.

(** C45: Face::contains is defined for every face of every map and means: in the outer contour, in no hole. *)
Theorem C45_face m l f p : history geometric m -> initialised m -> isFace m l f ->
  exists b, faceContains m l f p = Ok b /\ faceHas m p l f b.
Proof. exact (face_contains m l f p). Qed.
Print Assumptions C45_face.

(** C45: faceAt returns the first finite face that contains the point, and the infinite face if there is none. *)
Theorem C45_face_at m p : history geometric m -> initialised m -> exists l, faceAt m p = Ok l /\
  ((l = 0%nat /\ forall k f, (0 < k)%nat -> isFace m k f -> faceHas m p k f false) \/
   (exists f, (0 < l)%nat /\ isFace m l f /\ faceHas m p l f true /\
      forall k g, (0 < k < l)%nat -> isFace m k g -> faceHas m p k g false)).
Proof. exact (face_at m p). Qed.
Print Assumptions C45_face_at.

(** C45: every point lies in an even number of contours, counting those of the infinite face. *)
Theorem C45_contour_parity m p : history geometric m -> initialised m ->
  exists bs, Forall2 (contourHas m p) (flat_map (fun o => match o with Some f => fanchors f | None => [] end) (faces m)) bs /\
    fold_right xorb false bs = false.
Proof. exact (contours_parity m p). Qed.
Print Assumptions C45_contour_parity.

Example C45_face_case : faceAt ringMap (-1 # 2, 5 # 1) = Ok 4%nat /\ faceAt ringMap (pt 12 5) = Ok 0%nat /\ faceAt ringMap (pt 4 4) = Ok 2%nat.
Proof. vm_compute. repeat split. Qed.
