(** What the edges made from a label image have to be.  Map coordinates are doubled: corner (x,y) is the point (2x-1,2y-1). *)
From Verif Require Import Base Image_Model Crack_Spec GeoMap_Model GeoMap_Spec.
Local Open Scope Z_scope.

Definition cornerPoint (x y : Z) : point := (2 * x - 1, 2 * y - 1).

(** the unit segment between two neighbouring corners separates different labels *)
Inductive crackSegment (src : image) : point -> point -> Prop :=
| cs_horizontal x y : crackEast src x y = true -> crackSegment src (cornerPoint x y) (cornerPoint (x + 1) y)
| cs_vertical x y : crackSouth src x y = true -> crackSegment src (cornerPoint x y) (cornerPoint x (y + 1)).

(** the segments of a polygon, and of all edges of a map *)
Fixpoint segments (pts : list point) : list (point * point) :=
  match pts with
  | a :: ((b :: _) as t) => (a, b) :: segments t
  | _ => []
  end.
Definition mapSegments m : list (point * point) :=
  flat_map (fun o => match o with Some e => segments (epts e) | None => [] end) (edges m).

Definition point_dec (a b : point) : {a = b} + {a <> b}.
Proof. decide equality; apply Z.eq_dec. Defined.
Definition segment_dec (a b : point * point) : {a = b} + {a <> b}.
Proof. decide equality; apply point_dec. Defined.

(** how often a segment is drawn, in one direction or the other *)
Definition timesDrawn m (a b : point) : nat :=
  (count_occ segment_dec (mapSegments m) (a, b) + count_occ segment_dec (mapSegments m) (b, a))%nat.

(** points between the first and the last one *)
Definition innerPoints (pts : list point) : list point := removelast (tl pts).
