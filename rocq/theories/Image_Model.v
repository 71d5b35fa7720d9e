(** Images and image loops shared by several models: a pixel access outside the image is [UB].
    Stands for vigra::BasicImage and its traversers; a loop [for(; it.x < end.x; ++it.x)] is [forZ]. *)
From Verif Require Import Base.
Local Open Scope Z_scope.

Record image := mkImg { iw : Z; ih : Z; ipx : Z -> Z -> Z }.
Definition inImg (im : image) (x y : Z) : bool := (0 <=? x) && (x <? iw im) && (0 <=? y) && (y <? ih im).
Definition getPx (im : image) (x y : Z) : res Z := if inImg im x y then Ok (ipx im x y) else UB.
Definition setPx (im : image) (x y v : Z) : image :=
  mkImg (iw im) (ih im) (fun a b => if (a =? x) && (b =? y) then v else ipx im a b).
Definition putPx (im : image) (x y v : Z) : res image := if inImg im x y then Ok (setPx im x y v) else UB.
Definition newImg (w h v : Z) : image := mkImg w h (fun _ _ => v).

Fixpoint forN {S : Type} (n : nat) (a : Z) (body : Z -> S -> res S) (s : S) : res S :=
  match n with
  | O => Ok s
  | Datatypes.S k => s' <- body a s ;; forN k (a + 1) body s'
  end.
(** for(i = a; i < b; ++i) *)
Definition forZ {S : Type} (a b : Z) (body : Z -> S -> res S) (s : S) : res S := forN (Z.to_nat (b - a)) a body s.
