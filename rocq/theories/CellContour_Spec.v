(** What C71 and C72 say: the contours of the faces. *)
From Verif Require Import Base CellMap_Model CellMap_Spec CellSigma_Spec CellLink_Spec CellFace_Spec.
Local Open Scope Z_scope.

Definition isFace (m : cmap) (l : nat) (f : finfo) : Prop := nth_error (cfaces m) l = Some f /\ initialized (finf f) = true.

(** a place at a node without edges *)
Definition lonely (im : img) (d : dart) : Prop := isPlace im d /\ forall e, isDart im e -> nodeOf im e <> nodeOf im d.
(** what the border of a face consists of: the darts with the face on their left, and the places at nodes without edges within the face *)
Definition onBorder (im : img) (l : Z) (x : dart) : Prop := (isDart im x /\ sideOf im 1 x = l) \/ (lonely im x /\ labelAt im x 0 = l).
(** the part of a border [a] belongs to: what nextPhi() reaches, or the node *)
Definition contour (m : cmap) (a x : dart) : Prop :=
  (isDart (cim m) a /\ exists k, phis m k a = Ok x) \/ (lonely (cim m) a /\ lonely (cim m) x /\ nodeOf (cim m) a = nodeOf (cim m) x).

(** what leftFaceLabel() needs at a node without edges *)
Definition beside (im : img) (d : dart) : Prop := typeAt im d 1 = Region \/ typeAt im d 2 = Region.
(** the anchors of the face lie on its border, and each part of the border has exactly one *)
Definition covers (m : cmap) (l : Z) (cs : list dart) : Prop :=
  (forall a, In a cs -> onBorder (cim m) l a /\ (isDart (cim m) a \/ beside (cim m) a)) /\
  (forall x, onBorder (cim m) l x -> exists i a, nth_error cs i = Some a /\ contour m a x /\ forall j b, nth_error cs j = Some b -> contour m b x -> j = i).
Definition contoured (m : cmap) : Prop := faced m /\ forall l f, isFace m l f -> covers m (Z.of_nat l) (fcontours f).

(** the calls are made with darts of the map; that of an edge removed as a bridge lies on one contour with its opposite *)
Definition contourAllowed (m : cmap) (c : ccall) : Prop :=
  faceAllowed (cim m) c /\ match c with CRemoveBridge d => exists k b, nextAlpha m d = Ok b /\ phis m k d = Ok b | _ => True end.
Inductive khistory : cmap -> Prop :=
| kh_start m : contoured m -> khistory m
| kh_call m c m' s : khistory m -> contourAllowed m c -> cexec m c = Ok (m', s) -> khistory m'.
