(** Model of findSaddles (src/cellimage/findsaddles.hxx 36-79).

    Simplifications: values are integers, differences and products do not overflow (with float, a product of two small differences may become 0). *)
From Verif Require Import Base Image_Model.
Local Open Scope Z_scope.

(** vigra's EightNeighborOffsetCirculator: East, NorthEast, North, ... (y points down) *)
Definition stepX (i : Z) : Z := match i with 0 | 1 | 7 => 1 | 3 | 4 | 5 => -1 | _ => 0 end.
Definition stepY (i : Z) : Z := match i with 1 | 2 | 3 => -1 | 5 | 6 | 7 => 1 | _ => 0 end.
(** findsaddles.hxx 56-64: grads *)
Fixpoint differences (n : nat) (i : Z) (im : image) (x y : Z) : res (list Z) :=
  match n with
  | O => Ok []
  | Datatypes.S k => a <- getPx im (x + stepX i) (y + stepY i) ;; c <- getPx im x y ;; t <- differences k (i + 1) im x y ;; Ok (a - c :: t)
  end.
(** findsaddles.hxx 66-72 *)
Fixpoint countUp (n : nat) (i : Z) (g : list Z) (up : Z) : res Z :=
  match n with
  | O => Ok up
  | Datatypes.S k =>
      a <- vget g (Z.to_nat i) ;; b <- vget g (Z.to_nat ((i + 7) mod 8)) ;;
      countUp k (i + 1) g (if 0 <? a * b then up else if 0 <? a then up + 1 else up)
  end.
(** findsaddles.hxx 54-74: one pixel *)
Definition saddlePixel (src : image) (marker x y : Z) (dest : image) : res image :=
  g <- differences 8 0 src x y ;; up <- countUp 8 0 g 0 ;; if 1 <? up then putPx dest x y marker else Ok dest.
(** findsaddles.hxx 36-79 *)
Definition findSaddles (src dest : image) (marker : Z) : res image :=
  forZ 1 (ih src - 1) (fun y d => forZ 1 (iw src - 1) (fun x d => saddlePixel src marker x y d) d) dest.
