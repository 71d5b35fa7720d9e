(** What C73, C74 and C75 say about the maps made from images: which pixels are nodes and edges, and which pixels belong to one cell. *)
From Verif Require Import Base CellMap_Model CellMap_Spec CellSigma_Spec CellLink_Spec CellFace_Spec CellStart_Spec.
Local Open Scope Z_scope.

(** one can go from (x, y) to (u, v) in steps of the given directions without leaving [P] *)
Inductive reach (ways : list Z) (P : Z -> Z -> Prop) (x y : Z) : Z -> Z -> Prop :=
| re_here : P x y -> reach ways P x y x y
| re_step u v k : reach ways P x y u v -> In k ways -> P (u + dirX k) (v + dirY k) -> reach ways P x y (u + dirX k) (v + dirY k).
Definition ways4 : list Z := [0; 2; 4; 6].
Definition ways8 : list Z := [0; 1; 2; 3; 4; 5; 6; 7].

(** a contour seen from one of its pixels: which of the eight neighbours belong to it, too *)
Definition count8 (f : Z -> bool) : nat := length (filter f ways8).
(** the groups of neighbours that lie side by side *)
Definition groups (nb : Z -> bool) : nat := count8 (fun k => nb k && negb (nb ((k + 1) mod 8))).
(** the ways to go on: the neighbours with a side in common, and those that can only be reached diagonally *)
Definition goesOn (nb : Z -> bool) (k : Z) : bool := nb k && (Z.even k || negb (nb ((k + 1) mod 8)) && negb (nb ((k - 1) mod 8))).
(** the contour turns by a right angle *)
Definition rightAngle (nb : Z -> bool) : bool := existsb (fun k => nb k && nb ((k + 2) mod 8)) ways4.
Definition lineLike (nb : Z -> bool) : Prop := groups nb = 2%nat /\ count8 (goesOn nb) = 2%nat.

(** the contour image: the pixels with the boundary value and a frame around the image *)
Definition isContour (w h : Z) (boundary : Z -> Z -> bool) (x y : Z) : Prop :=
  (2 <= x < w + 2 /\ 2 <= y < h + 2 /\ boundary (x - 2) (y - 2) = true) \/
  (1 <= x < w + 3 /\ 1 <= y < h + 3 /\ (x = 1 \/ x = w + 2 \/ y = 1 \/ y = h + 2)).

(** the border of each group of node pixels is one closed curve *)
Definition unpierced (im : img) : Prop :=
  forall a b, isPlace im a -> isPlace im b -> reach ways8 (vertexAt im) (dcx a) (dcy a) (dcx b) (dcy b) -> exists k, places k im 1 a = b.
(** no group of node pixels has more darts than a degree can count *)
Definition lean (im : img) : Prop :=
  forall x y, vertexAt im x y -> exists n, 0 <= n < 2 ^ 16 /\ manyDarts (fun d => isDart im d /\ reach ways8 (vertexAt im) x y (dcx d) (dcy d)) n.

(** a line without a node *)
Definition closedLine (im : img) (x y : Z) : Prop := lineAt im x y /\ forall u v k, along im x y u v -> link im (Dart u v k) -> lineAt im (u + dirX k) (v + dirY k).
(** its upper left pixel *)
Definition firstPixel (im : img) (x y : Z) : Prop := forall u v, along im x y u v -> y < v \/ (y = v /\ x <= u).
(** a region pixel that is not on the border of the image *)
Definition openAt (im : img) (x y : Z) : Prop := 0 < x < iw im - 1 /\ 0 < y < ih im - 1 /\ ptype (ipix im x y) = Region.

(** ** One pixel and its neighbours *)
Definition seenAs (w h : Z) (boundary : Z -> Z -> bool) (x y : Z) (nb : Z -> bool) : Prop :=
  forall k, In k ways8 -> (nb k = true <-> isContour w h boundary (x + dirX k) (y + dirY k)).
(** the pixel is on the side of a contour that is too thick: its neighbours are one group, two steps wide, that ends in a corner *)
Definition thickSide (nb : Z -> bool) : Prop := groups nb = 1%nat /\ (4 <= count8 nb)%nat /\ exists k, In k [1; 3; 5; 7] /\ nb k = true /\ nb (k - 1) && nb ((k + 1) mod 8) = false.
(** what a refused pixel looks like *)
Definition crowded (nb : Z -> bool) : Prop := (4 <= count8 nb)%nat /\ (groups nb = 1 \/ groups nb = 2)%nat.
