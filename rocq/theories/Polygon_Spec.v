(** What length(), partialArea() and boundingBox() have to be. *)
From Coq Require Import Reals.
From Verif Require Import Base GeoMap_Model Polygon_Model.
Local Open Scope Z_scope.

(** consecutive points *)
Definition pairsOf (l : list point) : list (point * point) := combine l (tl l).

Definition distance (p q : point) : R := sqrt ((IZR (fst p) - IZR (fst q)) * (IZR (fst p) - IZR (fst q)) + (IZR (snd p) - IZR (snd q)) * (IZR (snd p) - IZR (snd q))).
Definition trueLength (l : list point) : R := fold_right Rplus 0%R (map (fun s => distance (fst s) (snd s)) (pairsOf l)).

(** twice the area between the polygon and the origin (shoelace formula), positive for polygons that turn from the positive
    y axis towards the positive x axis *)
Definition trueArea2 (l : list point) : Z :=
  fold_right Z.add 0 (map (fun s => fst (snd s) * snd (fst s) - fst (fst s) * snd (snd s)) (pairsOf l)).

(** the smallest box [x0, x1] x [y0, y1] containing all points; none for no points *)
Definition inBox (x0 y0 x1 y1 : Z) (p : point) : Prop := x0 <= fst p <= x1 /\ y0 <= snd p <= y1.
Definition isBBox (l : list point) (x0 y0 x1 y1 : Z) : Prop :=
  (forall p, In p l -> inBox x0 y0 x1 y1 p) /\
  (exists p, In p l /\ fst p = x0) /\ (exists p, In p l /\ fst p = x1) /\ (exists p, In p l /\ snd p = y0) /\ (exists p, In p l /\ snd p = y1).

(** Polygons obtained from each other by constructors, modifications and queries.  [okPush p v] restricts the points joined
    to the end of [p] by a new segment (push_back, extend across a gap), [okSet p i x] the calls of setPoint. *)
Section Made.
Variable okPush : poly -> point -> Prop.
Variable okSet : poly -> nat -> point -> Prop.
Inductive made : poly -> Prop :=
| m_empty : made emptyPoly
| m_points : forall l, made (ofPoints l)
| m_length : forall p, made p -> made (fst (qLength p))
| m_area : forall p, made p -> made (fst (qArea2 p))
| m_bbox : forall p, made p -> made (fst (qBBox p))
| m_inval : forall p, made p -> made (invalidate p)
| m_push : forall p v, made p -> okPush p v -> made (pushBack p v)
| m_extend : forall p q, made p -> made q ->
    (forall f t, ppts q = f :: t -> lastPt (ppts p) <> Some f -> okPush p f) -> made (fst (extend p q))
| m_extended : forall p q, made p -> made q -> made (snd (extend p q))
| m_set : forall p i x p', made p -> okSet p i x -> setPoint p i x = Ok p' -> made p'
| m_erase : forall p i p', made p -> erasePt p i = Ok p' -> made p'
| m_insert : forall p i x p', made p -> insertPt p i x = Ok p' -> made p'
| m_range : forall p i l p', made p -> insertRange p i l = Ok p' -> made p'
| m_split : forall p i p' r, made p -> splitPoly p i = Ok (p', r) -> made p'
| m_splitoff : forall p i p' r, made p -> splitPoly p i = Ok (p', r) -> made r
| m_reverse : forall p, made p -> made (reversePoly p)
| m_swap : forall p l, made p -> made (fst (swapPoints p l))
| m_concat : forall p q ae re p' q', made p -> made q -> concatenate p q ae re = Ok (p', q') -> made p'
| m_concatd : forall p q ae re p' q', made p -> made q -> concatenate p q ae re = Ok (p', q') -> made q'.
End Made.

Definition anyPush (p : poly) (v : point) : Prop := True.
Definition anySet (p : poly) (i : nat) (x : point) : Prop := True.

(** joining the point [v] to the end of a polygon whose area is cached: the swept triangle has to be degenerate *)
Definition flatPush (p : poly) (v : point) : Prop :=
  pareaV p = true -> forall b, lastPt (ppts p) = Some b -> fst v * snd b - snd v * fst b = 0.

(** setPoint with a point inside the current bounding box *)
Definition inward (p : poly) (i : nat) (x : point) : Prop :=
  pbbV p = true -> forall x0 y0 x1 y1, isBBox (ppts p) x0 y0 x1 y1 -> inBox x0 y0 x1 y1 x.

(** [o], as returned by boundingBox(), is the bounding box of the points [l] *)
Definition isBox (l : list point) (o : option box) : Prop :=
  match o with None => l = [] | Some b => isBBox l (bx0 b) (by0 b) (bx1 b) (by1 b) end.
