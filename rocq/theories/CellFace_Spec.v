(** What C68 and C69 say: which faces lie beside a dart. *)
From Verif Require Import Base CellMap_Model CellMap_Spec CellSigma_Spec CellLink_Spec.
Local Open Scope Z_scope.

Definition labelAt (im : img) (d : dart) (n : Z) : Z :=
  plabel (ipix im (dcx d + dirX ((ddir d + n) mod 8)) (dcy d + dirY ((ddir d + n) mod 8))).
(** the label beside the dart, on the left for [n = 1], on the right for [n = -1] *)
Definition sideOf (im : img) (n : Z) (d : dart) : Z := labelAt im d (if ctypeEqb (typeAt im d n) Region then n else 2 * n).

(** every pixel belongs to a cell *)
Definition plain (im : img) : Prop := forall x y, 0 <= x < iw im -> 0 <= y < ih im -> ptype (ipix im x y) <> ErrorType.
(** beside a line that leaves a node there is a region *)
Definition airy (im : img) : Prop :=
  forall d n, vertexAt im (dcx d) (dcy d) -> In (ddir d) [0; 2; 4; 6] -> n = 1 \/ n = -1 -> typeAt im d 0 = Line ->
    typeAt im d n = Region \/ typeAt im d (2 * n) = Region.
(** region pixels with a side in common belong to one face *)
Definition filled (im : img) : Prop :=
  forall x y k l, In k [0; 2; 4; 6] -> owns im Region l x y -> 0 <= x + dirX k < iw im -> 0 <= y + dirY k < ih im ->
    ptype (ipix im (x + dirX k) (y + dirY k)) = Region -> plabel (ipix im (x + dirX k) (y + dirY k)) = l.
(** what is left of one dart of an edge is right of the other *)
Definition facing (im : img) (a b : dart) : Prop := sideOf im 1 a = sideOf im (-1) b /\ sideOf im (-1) a = sideOf im 1 b.
(** the region pixels along an edge belong to the faces beside its darts *)
Definition bordered (im : img) (l : Z) (a : dart) : Prop :=
  forall x y k, In k [0; 2; 4; 6] -> owns im Line l x y -> 0 <= x + dirX k < iw im -> 0 <= y + dirY k < ih im ->
    ptype (ipix im (x + dirX k) (y + dirY k)) = Region ->
    plabel (ipix im (x + dirX k) (y + dirY k)) = sideOf im 1 a \/ plabel (ipix im (x + dirX k) (y + dirY k)) = sideOf im (-1) a.

Definition faced (m : cmap) : Prop :=
  wired m /\ plain (cim m) /\ airy (cim m) /\ filled (cim m) /\
  forall l e, isEdge m l e -> facing (cim m) (estart e) (eend e) /\ bordered (cim m) (Z.of_nat l) (estart e).

(** the calls are made with darts of the map; the one of a node without edges has a pixel of the face on its left *)
Definition faceAllowed (im : img) (c : ccall) : Prop :=
  match c with
  | CRemoveIsolatedNode d => isPlace im d /\ (typeAt im d 1 = Region \/ typeAt im d 2 = Region) /\ forall e, isDart im e -> nodeOf im e <> nodeOf im d
  | CMergeFaces d | CRemoveBridge d | CMergeEdges d => isDart im d
  end.
Inductive fhistory : cmap -> Prop :=
| fh_start m : faced m -> fhistory m
| fh_call m c m' s : fhistory m -> faceAllowed (cim m) c -> cexec m c = Ok (m', s) -> fhistory m'.
(** nextPhi() again and again *)
Fixpoint phis (m : cmap) (k : nat) (d : dart) : res dart := match k with O => Ok d | Datatypes.S j => d' <- nextPhi m d ;; phis m j d' end.
