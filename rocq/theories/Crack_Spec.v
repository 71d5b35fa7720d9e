(** What the crack edge image of a label image has to say; independent of the model's loops and bit operations. *)
From Verif Require Import Base Image_Model.
Local Open Scope Z_scope.

(** label of a pixel; [None] outside of the image *)
Definition labelAt (src : image) (x y : Z) : option Z :=
  if (0 <=? x) && (x <? iw src) && (0 <=? y) && (y <? ih src) then Some (ipx src x y) else None.

Definition differ (a b : option Z) : bool :=
  match a, b with
  | Some u, Some v => negb (u =? v)
  | None, None => false
  | _, _ => true
  end.

(** Corner (x,y) is the upper left corner of pixel (x,y).  The four cracks around a corner. *)
Definition crackEast  (src : image) (x y : Z) : bool := differ (labelAt src x (y - 1)) (labelAt src x y).
Definition crackSouth (src : image) (x y : Z) : bool := differ (labelAt src (x - 1) y) (labelAt src x y).
Definition crackWest  (src : image) (x y : Z) : bool := differ (labelAt src (x - 1) (y - 1)) (labelAt src (x - 1) y).
Definition crackNorth (src : image) (x y : Z) : bool := differ (labelAt src (x - 1) (y - 1)) (labelAt src x (y - 1)).

Definition isCorner (src : image) (x y : Z) : Prop := 0 <= x <= iw src /\ 0 <= y <= ih src.

Definition cracksAt (src : image) (x y : Z) : Z :=
  (if crackEast src x y then 1 else 0) + (if crackSouth src x y then 1 else 0)
  + (if crackWest src x y then 1 else 0) + (if crackNorth src x y then 1 else 0).

(** with 8-connected regions: two diagonal neighbours of a corner with four cracks carry the same label *)
Definition diagonalAt (src : image) (x y : Z) : bool :=
  (cracksAt src x y =? 4) &&
  (negb (differ (labelAt src x y) (labelAt src (x - 1) (y - 1)))
   || negb (differ (labelAt src (x - 1) y) (labelAt src x (y - 1)))).

(** a corner needs a node iff at least three cracks end there that are not joined diagonally *)
Definition needsNode (src : image) (eight : bool) (x y : Z) : bool :=
  (3 <=? cracksAt src x y) && negb (eight && diagonalAt src x y).

(** corners where following may start although no node is needed: upper left corners of a region and diagonals *)
Definition mayStart (src : image) (eight : bool) (x y : Z) : bool :=
  negb (needsNode src eight x y) &&
  ((crackEast src x y && crackSouth src x y && negb (crackWest src x y) && negb (crackNorth src x y))
   || (eight && diagonalAt src x y)).

Definition sameLabel (a b : option Z) : bool := negb (differ a b).
Definition lessLabel (a b : option Z) : bool := match a, b with Some u, Some v => u <? v | _, _ => false end.

(** With 8-connected regions, at a corner where all four neighbouring pixels differ from their 4-neighbours, the
    diagonal pair with equal labels is joined; if both pairs are equal, the pair with the higher label is. *)
Definition joinsUpLeft (src : image) (eight : bool) (x y : Z) : bool :=
  eight && (cracksAt src x y =? 4) && sameLabel (labelAt src (x - 1) (y - 1)) (labelAt src x y)
  && negb (sameLabel (labelAt src x (y - 1)) (labelAt src (x - 1) y)
           && lessLabel (labelAt src (x - 1) (y - 1)) (labelAt src x (y - 1))).
Definition joinsUpRight (src : image) (eight : bool) (x y : Z) : bool :=
  eight && (cracksAt src x y =? 4) && sameLabel (labelAt src x (y - 1)) (labelAt src (x - 1) y)
  && negb (sameLabel (labelAt src (x - 1) (y - 1)) (labelAt src x y)
           && lessLabel (labelAt src x (y - 1)) (labelAt src (x - 1) (y - 1))).

Definition b2z (b : bool) : Z := if b then 1 else 0.
Definition cornerBits (src : image) (eight : bool) (x y : Z) : Z :=
  b2z (crackEast src x y) + 2 * b2z (crackSouth src x y) + 4 * b2z (crackWest src x y) + 8 * b2z (crackNorth src x y)
  + 16 * b2z (joinsUpLeft src eight x y) + 32 * b2z (joinsUpRight src eight x y)
  + 64 * b2z (needsNode src eight x y) + 128 * b2z (mayStart src eight x y).
