(** What C94 says about edges drawn into label images. *)
From Verif Require Import Base Scanlines_Model Scanlines_Spec Image_Model EdgeMark_Model.
Local Open Scope Z_scope.

Definition inside (im : image) (x y : Z) : Prop := 0 <= x < iw im /\ 0 <= y < ih im.
(** how many segments of the scanlines cover the pixel *)
Definition times (s : scanlines) (x y : Z) : Z := Z.of_nat (length (filter (fun g => (sbeg g <=? x) && (x <? send g)) (lineOf s y))).
Definition timesAll (on : list scanlines) (x y : Z) : Z := fold_right (fun s n => times s x y + n) 0 on.

(** Label images with edges: [on] are the edges marked and not removed since; only edges that are marked are removed, and the labels put in their place are not negative. *)
Inductive drawn (im0 : image) : list scanlines -> image -> Prop :=
| dr_start : drawn im0 [] im0
| dr_mark on im s im' : drawn im0 on im -> markEdge s im = Ok im' -> drawn im0 (s :: on) im'
| dr_remove a s b im k im' ps : drawn im0 (a ++ s :: b) im -> 0 <= k -> removeEdge s im k = Ok (im', ps) -> drawn im0 (a ++ b) im'.
