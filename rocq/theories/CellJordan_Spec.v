(** What C77 says: when the constructor puts the contours in order. *)
From Verif Require Import Base CellMap_Model CellMap_Spec CellSigma_Spec CellThresh_Spec CellTotal_Spec.
Local Open Scope Z_scope.

Definition regionAt (im : img) (x y : Z) : Prop := 0 <= x < iw im /\ 0 <= y < ih im /\ ptype (ipix im x y) = Region.
(** one can go from each pixel of a face to each other in steps in four directions on region pixels *)
Definition whole (im : img) : Prop := forall l x y u v, owns im Region l x y -> owns im Region l u v -> reach ways4 (regionAt im) x y u v.
(** labelImageWithBackground gives different numbers to contours that do not touch *)
Definition exactParts (components : img -> (Z -> Z -> Z) * nat) (im : img) : Prop :=
  rightParts components im /\
  forall x y u v, contour im x y -> contour im u v -> fst (components im) x y = fst (components im) u v -> reach ways8 (contour im) x y u v.
