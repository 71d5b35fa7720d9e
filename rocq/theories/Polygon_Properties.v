(** C24, C25, C47: cached length, area and bounding box of polygons. *)
From Coq Require Import Reals.
From Verif Require Import Base GeoMap_Model Polygon_Model Polygon_Spec Polygon_Results.
Local Open Scope Z_scope.

(** C24: length() is the sum of the distances of consecutive points after every history of modifications and queries. *)
Theorem C24_length : forall p, made anyPush anySet p -> snd (qLength p) = trueLength (ppts p).
Proof. exact (length_any anyPush anySet). Qed.
Print Assumptions C24_length.
(** a triangle with sides 3, 4, 5 *)
Example C24_length_case : made flatPush inward triangle /\ snd (qLength triangle) = 12%R.
Proof. split; [exact triangle_made|exact triangle_length]. Qed.

(** C24: partialArea() is not: push_back adds the cross product without the factor 1/2. *)
Theorem C24_area_refuted : exists p, made anyPush anySet p /\ snd (qArea2 p) <> trueArea2 (ppts p).
Proof. exact area_refuted. Qed.
Print Assumptions C24_area_refuted.

(** C24: in particular a polygon built by push_back from an empty one reports twice its area. *)
Theorem C24_pushed_area : forall l, let p := fold_left pushBack l emptyPoly in ppts p = l /\ snd (qArea2 p) = 2 * trueArea2 l.
Proof. exact pushed_twice. Qed.
Print Assumptions C24_pushed_area.

(** C24: partialArea() is right after every history in which, while the area is cached, push_back and extend (across a gap)
    only add segments that sweep no area as seen from the origin. *)
Theorem C24_area_partial : forall p, made flatPush anySet p -> snd (qArea2 p) = trueArea2 (ppts p).
Proof. exact (area_flat anySet). Qed.
Print Assumptions C24_area_partial.
(** the area of the triangle, and of the triangle reversed after its area was queried *)
Example C24_area_case : snd (qArea2 triangle) = 12 /\ snd (qArea2 (reversePoly (fst (qArea2 triangle)))) = -12.
Proof. vm_compute. split; reflexivity. Qed.

(** C24: the points are what each operation says. *)
Theorem C24_points : forall p q i x l,
  ppts (pushBack p x) = ppts p ++ [x] /\
  ppts (fst (qLength p)) = ppts p /\ ppts (fst (qArea2 p)) = ppts p /\ ppts (fst (qBBox p)) = ppts p /\
  ppts (reversePoly p) = rev (ppts p) /\
  ppts (snd (extend p q)) = ppts q /\
  (forall f t, ppts q = f :: t -> lastPt (ppts p) = Some f -> ppts (fst (extend p q)) = ppts p ++ t) /\
  (forall f t, ppts q = f :: t -> lastPt (ppts p) <> Some f -> ppts (fst (extend p q)) = ppts p ++ ppts q) /\
  (ppts q = [] -> ppts (fst (extend p q)) = ppts p) /\
  (forall l1 y l2, ppts p = l1 ++ y :: l2 -> length l1 = i ->
     (exists r, setPoint p i x = Ok r /\ ppts r = l1 ++ x :: l2) /\ (exists r, erasePt p i = Ok r /\ ppts r = l1 ++ l2) /\
     (exists r r', splitPoly p i = Ok (r, r') /\ ppts r = l1 ++ [y] /\ ppts r' = y :: l2)) /\
  (forall l1 l2, ppts p = l1 ++ l2 -> length l1 = i ->
     (exists r, insertPt p i x = Ok r /\ ppts r = l1 ++ x :: l2) /\ (exists r, insertRange p i l = Ok r /\ ppts r = l1 ++ l ++ l2)).
Proof. exact poly_points. Qed.
Print Assumptions C24_points.

(** C25: boundingBox() misses points moved out of the box by setPoint. *)
Theorem C25_bbox_refuted : exists p, made anyPush anySet p /\ ~ isBox (ppts p) (snd (qBBox p)).
Proof. exact bbox_refuted. Qed.
Print Assumptions C25_bbox_refuted.

(** C25: boundingBox() is the smallest box containing all points after every history in which setPoint, while a box is cached,
    stays within the bounding box of the points. *)
Theorem C25_bbox_partial : forall p, made anyPush inward p -> isBox (ppts p) (snd (qBBox p)).
Proof. exact (bbox_inward anyPush). Qed.
Print Assumptions C25_bbox_partial.
Example C25_bbox_case : snd (qBBox (pushBack (fst (qBBox triangle)) (-1, 7))) = Some (mkBox (-1) 0 4 7).
Proof. reflexivity. Qed.

(** C25, C24: writing a point through operator[] or an iterator leaves all three stale. *)
Theorem C25_write_refuted : exists p q x, made flatPush inward p /\ poke p 0 x = Ok q /\
  snd (qLength q) <> trueLength (ppts q) /\ snd (qArea2 q) <> trueArea2 (ppts q) /\ ~ isBox (ppts q) (snd (qBBox q)).
Proof. exact poke_refuted. Qed.
Print Assumptions C25_write_refuted.

(** C47: reversal negates the area and keeps the length. *)
Theorem C47_reverse : forall l, trueArea2 (rev l) = - trueArea2 l /\ trueLength (rev l) = trueLength l.
Proof. exact reverse_law. Qed.
Print Assumptions C47_reverse.

(** C47: splitting at a vertex and extending by the rest restores the points; length and area are additive. *)
Theorem C47_split : forall p i, (i < length (ppts p))%nat -> exists a b, splitPoly p i = Ok (a, b) /\
  ppts (fst (extend a b)) = ppts p /\
  trueLength (ppts p) = (trueLength (ppts a) + trueLength (ppts b))%R /\
  trueArea2 (ppts p) = trueArea2 (ppts a) + trueArea2 (ppts b).
Proof. exact split_law. Qed.
Print Assumptions C47_split.
Example C47_case : match splitPoly triangle 2 with
  | Ok (a, b) => ppts a = [(0, 0); (0, 3); (4, 0)] /\ ppts b = [(4, 0); (0, 0)]
  | _ => False end.
Proof. vm_compute. split; reflexivity. Qed.
