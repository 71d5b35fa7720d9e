(** What C80 to C83 say about the statistics of the pixel based map. *)
From Verif Require Import Base CellMap_Model CellMap_Spec CellSigma_Spec CellLink_Spec CellFace_Spec CellStats_Model.
Local Open Scope Z_scope.

(** the pixels of the image the map was made from: two columns and rows on each side of the cell image are not among them *)
Definition inBase (im : img) (x y : Z) : Prop := 2 <= x < iw im - 2 /\ 2 <= y < ih im - 2.
Definition bigEnough (v : vimg) (im : img) : Prop := iw im - 4 <= vw v /\ ih im - 4 <= vh v.

(** [n] is the sum of [g] of the values at the pixels of [P], each taken once *)
Definition amount (v : vimg) (g : Z -> Z) (P : Z -> Z -> Prop) (n : Z) : Prop :=
  exists ps : list (Z * Z), NoDup ps /\ (forall x y, In (x, y) ps <-> P x y) /\ n = fold_right Z.add 0 (map (fun p => g (vpix v (fst p - 2) (snd p - 2))) ps).
(** the statistics of the pixels of [P]: their number, the sum of their values and of the squares *)
Definition statOf (v : vimg) (P : Z -> Z -> Prop) (s : stat) : Prop :=
  amount v (fun _ => 1) P (scount s) /\ amount v (fun a => a) P (ssum s) /\ amount v (fun a => a * a) P (ssq s).
Definition avgOf (v : vimg) (P : Z -> Z -> Prop) (s : avg) : Prop := amount v (fun _ => 1) P (acount s) /\ amount v (fun a => a) P (asum s).

(** a pixel of the edge has a side in common with one of the infinite face *)
Definition outerEdge (im : img) (l : Z) : Prop := exists x y k, In k [0; 2; 4; 6] /\ owns im Line l x y /\ owns im Region 0 (x + dirX k) (y + dirY k).

(** the infinite face is outside of the image the map was made from *)
Definition zeroOut (im : img) : Prop := forall x y, owns im Region 0 x y -> ~ inBase im x y.

(** the edge [a] of the map [m0] has become part of the edge [e] *)
Definition partOf (m0 m : cmap) (a e : Z) : Prop := exists x y, owns (cim m0) Line a x y /\ owns (cim m) Line e x y.

Section Data.
Variables original gradient : vimg.
Variable maxValue : Z.
(** Statistics made for the map [m0], and after calls with darts.  [since]: the map when lastChanges was cleared; [lost]: the pixels that belonged to nodes that were removed as isolated. *)
Inductive shistory (m0 : cmap) : cmap -> (Z -> Z -> Prop) -> cmap -> cstats -> Prop :=
| sh_new protection s since : faced m0 -> bigEnough original (cim m0) -> bigEnough gradient (cim m0) -> (length (cedges m0) <= length protection)%nat ->
    newStats original gradient maxValue m0 protection = Ok s -> shistory m0 since (fun _ _ => False) m0 s
| sh_call since lost m s c m' s' : shistory m0 since lost m s -> faceAllowed (cim m) c -> statExec original gradient maxValue m s c = Ok (m', s') ->
    shistory m0 since (fun x y => lost x y \/ (vertexAt (cim m) x y /\ ptype (ipix (cim m') x y) = Region)) m' s'
| sh_protect since lost m s l e flag on s' b : shistory m0 since lost m s -> isEdge m l e -> protectEdge s (Z.of_nat l) flag on = Ok (s', b) -> shistory m0 since lost m s'
| sh_clear since lost m s : shistory m0 since lost m s -> shistory m0 m lost m (fst (clearLastChanges s))
| sh_assign since lost m s since' : shistory m0 since lost m s -> shistory m0 since' lost m (assignStats original m s).
End Data.
