(** Which images the constructor of the pixel based map makes a map from whose darts and faces are in order. *)
From Verif Require Import Base CellMap_Model CellMap_Spec CellMap_Init CellSigma_Spec CellLink_Spec CellFace_Spec.
Local Open Scope Z_scope.

Definition lineAt (im : img) (x y : Z) : Prop := 0 <= x < iw im /\ 0 <= y < ih im /\ ptype (ipix im x y) = Line.
(** the pixel in the direction of [d] belongs to the contours, too, and there is no way to it via a pixel beside both *)
Definition link (im : img) (d : dart) : Prop :=
  0 <= ddir d < 8 /\ typeAt im d 0 <> Region /\ (Z.odd (ddir d) = true -> typeAt im d 1 = Region /\ typeAt im d (-1) = Region).
(** the line goes on at both ends of each of its pixels and does not branch *)
Definition slim (im : img) : Prop :=
  forall x y, lineAt im x y -> exists a b, a <> b /\ forall k, link im (Dart x y k) <-> k = a \/ k = b.
(** in the corner of a line there is a region *)
Definition smooth (im : img) : Prop :=
  forall d, lineAt im (dcx d) (dcy d) -> In (ddir d) [0; 2; 4; 6] -> typeAt im d 0 <> Region -> typeAt im d 2 <> Region -> typeAt im d 1 = Region.
(** the pixels reached from (x, y) along the line *)
Inductive along (im : img) (x y : Z) : Z -> Z -> Prop :=
| al_here : along im x y x y
| al_on u v k : along im x y u v -> link im (Dart u v k) -> lineAt im (u + dirX k) (v + dirY k) -> along im x y (u + dirX k) (v + dirY k).
(** an edge is one line *)
Definition drawn (im : img) : Prop :=
  (forall x y u v, lineAt im x y -> along im x y u v -> plabel (ipix im u v) = plabel (ipix im x y)) /\
  (forall l x y u v, owns im Line l x y -> owns im Line l u v -> along im x y u v) /\
  (forall l x y, owns im Line l x y -> exists d, dartOfEdge im l d).
(** no node has more darts than its degree can count *)
Definition light (im : img) : Prop := forall l, exists n, 0 <= n < 2 ^ 16 /\ manyDarts (dartOfNode im l) n.

Definition clean (im : img) : Prop :=
  neat im /\ joined im /\ ringed im /\ separate im /\ plain im /\ airy im /\ filled im /\ slim im /\ smooth im /\ drawn im /\ light im.

(** a map as the constructor leaves it, if it found no holes in the nodes to fill *)
Definition built (m : cmap) : Prop :=
  exists crack outer comps im, wfImg im /\ framed im /\ clean im /\ import crack outer comps im = Ok m /\ cim m = im.
(** and after calls with darts *)
Inductive bhistory : cmap -> Prop :=
| bh_start m : built m -> bhistory m
| bh_call m c m' s : bhistory m -> faceAllowed (cim m) c -> cexec m c = Ok (m', s) -> bhistory m'.
