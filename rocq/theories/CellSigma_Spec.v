(** What C65 says about the darts of the pixel based map: which darts there are, and in which order they lie around their node. *)
From Verif Require Import Base CellMap_Model CellMap_Spec.
Local Open Scope Z_scope.

(** the pixel [n] directions after that of [d], seen from the center of [d] *)
Definition typeAt (im : img) (d : dart) (n : Z) : ctype :=
  ptype (ipix im (dcx d + dirX ((ddir d + n) mod 8)) (dcy d + dirY ((ddir d + n) mod 8))).
Definition vertexAt (im : img) (x y : Z) : Prop := 0 <= x < iw im /\ 0 <= y < ih im /\ ptype (ipix im x y) = Vertex.

(** A dart points from a pixel of a node to a line pixel; diagonally only if there is no other way between the two. *)
Definition isDart (im : img) (d : dart) : Prop :=
  vertexAt im (dcx d) (dcy d) /\ 0 <= ddir d < 8 /\ typeAt im d 0 = Line /\
  (Z.odd (ddir d) = true -> typeAt im d 1 = Region /\ typeAt im d (-1) = Region).

(** The places around the pixels of the nodes: the sides a pixel has in common with a pixel of another type, and the corners between two such sides of one pixel. *)
Definition isPlace (im : img) (d : dart) : Prop :=
  vertexAt im (dcx d) (dcy d) /\ 0 <= ddir d < 8 /\ typeAt im d 0 <> Vertex /\
  (Z.odd (ddir d) = true -> typeAt im d 1 <> Vertex /\ typeAt im d (-1) <> Vertex).
Definition go (d : dart) (n k : Z) : dart :=
  Dart (dcx d + dirX ((ddir d + n) mod 8)) (dcy d + dirY ((ddir d + n) mod 8)) ((ddir d + k) mod 8).
(** The place next to [d], counter-clockwise for [n = 1], clockwise for [n = -1].  A node's pixels may be connected diagonally. *)
Definition placeNext (im : img) (n : Z) (d : dart) : dart :=
  if Z.odd (ddir d) then turn n d
  else if ctypeEqb (typeAt im d n) Vertex then go d n (- (2 * n))
  else if ctypeEqb (typeAt im d (2 * n)) Vertex then go d (2 * n) 0
  else turn n d.
Fixpoint places (k : nat) (im : img) (n : Z) (d : dart) : dart :=
  match k with O => d | Datatypes.S k' => places k' im n (placeNext im n d) end.

(** [d'] is the first dart met when walking around the node from [d] *)
Definition nextDart (im : img) (n : Z) (d d' : dart) : Prop :=
  isDart im d' /\ exists k, (0 < k)%nat /\ places k im n d = d' /\ forall j, (0 < j < k)%nat -> ~ isDart im (places j im n d).

(** no line pixel has sides in common with two node pixels that touch each other diagonally *)
Definition neat (im : img) : Prop :=
  forall x y k, 0 < x < iw im - 1 -> 0 < y < ih im - 1 -> In k [0; 2; 4; 6] -> ptype (ipix im x y) = Line ->
    ptype (ipix im (x + dirX k) (y + dirY k)) = Vertex -> ptype (ipix im (x + dirX ((k + 2) mod 8)) (y + dirY ((k + 2) mod 8))) <> Vertex.
(** node pixels that touch each other belong to the same node *)
Definition joined (im : img) : Prop :=
  forall x y k l, 0 <= k < 8 -> owns im Vertex l x y -> vertexAt im (x + dirX k) (y + dirY k) -> owns im Vertex l (x + dirX k) (y + dirY k).

Definition tidy (m : cmap) : Prop := sound m /\ neat (cim m) /\ joined (cim m).
