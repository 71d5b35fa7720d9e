(** C76: when the constructors of the pixel based map return. *)
From Verif Require Import Base CellMap_Model CellMap_Spec CellMap_Init CellSigma_Spec.
Local Open Scope Z_scope.

(** the first pixel of a node, row by row *)
Definition firstOf (im : img) (l x y : Z) : Prop :=
  owns im Vertex l x y /\ forall u v, owns im Vertex l u v -> y < v \/ (y = v /\ x <= u).
(** what the constructor expects of the CrackContourCirculator, if nodes have no holes *)
Definition rightAreas (crackArea : img -> Z -> Z -> Z) (im : img) : Prop :=
  forall l x y, firstOf im l x y -> manyPixels (owns im Vertex l) (crackArea im x y).
(** a pixel of the contours *)
Definition contour (im : img) (x y : Z) : Prop := 0 <= x < iw im /\ 0 <= y < ih im /\ ptype (ipix im x y) <> Region.
(** what it expects of labelImageWithBackground *)
Definition rightParts (components : img -> (Z -> Z -> Z) * nat) (im : img) : Prop :=
  (forall x y, 0 <= x < iw im -> 0 <= y < ih im -> ptype (ipix im x y) = Region -> fst (components im) x y = 0) /\
  (forall x y, contour im x y -> 1 <= fst (components im) x y <= Z.of_nat (snd (components im))) /\
  (forall x y k, 0 <= k < 8 -> contour im x y -> contour im (x + dirX k) (y + dirY k) -> fst (components im) (x + dirX k) (y + dirY k) = fst (components im) x y).
(** there is a node in the corner and a line from it on along the upper side *)
Definition ruled (im : img) : Prop := vertexAt im 1 1 /\ forall x, 0 < x < iw im - 1 -> contour im x 1.
