(** What a saddle is: going round the pixel, its neighbours are higher, not higher, higher, and not higher again. *)
From Verif Require Import Base Image_Model.
Local Open Scope Z_scope.

(** the eight neighbours of a pixel, once round *)
Definition around : list (Z * Z) := [(1, 0); (1, -1); (0, -1); (-1, -1); (-1, 0); (-1, 1); (0, 1); (1, 1)].
Definition neighbour (f : Z -> Z -> Z) (x y i : Z) : Z := let d := nth (Z.to_nat i) around (0, 0) in f (x + fst d) (y + snd d).
Definition higherAt (f : Z -> Z -> Z) (x y i : Z) : Prop := f x y < neighbour f x y i.
Definition saddle (f : Z -> Z -> Z) (x y : Z) : Prop :=
  exists i j k l, 0 <= i < j /\ j < k < l /\ l < 8 /\
    ((higherAt f x y i /\ ~ higherAt f x y j /\ higherAt f x y k /\ ~ higherAt f x y l) \/ (~ higherAt f x y i /\ higherAt f x y j /\ ~ higherAt f x y k /\ higherAt f x y l)).
