(** What C84 and C85 say: the operations of the pyramid on the pixel based map with its statistics. *)
From Verif Require Import Base CellMap_Model CellMap_Spec CellSigma_Spec CellLink_Spec CellFace_Spec CellPlane_Spec Pack_Model Pyramid_Model CellStats_Model CellStats_Spec CellPyr_Model.
Local Open Scope Z_scope.

(** the node has darts, and all of them belong to the edge *)
Definition endOnly (im : img) (e l : Z) : Prop := (exists d, dartOfNode im l d) /\ forall d, dartOfNode im l d -> edgeOf im d = e.
(** [im'] is [im] with the cells of [P] painted as face [k] *)
Definition painted (im im' : img) (k : Z) (P : ctype -> Z -> Prop) : Prop :=
  iw im' = iw im /\ ih im' = ih im /\ forall x y, 0 <= x < iw im -> 0 <= y < ih im ->
    (P (ptype (ipix im x y)) (plabel (ipix im x y)) -> ipix im' x y = Pix Region k) /\ (~ P (ptype (ipix im x y)) (plabel (ipix im x y)) -> ipix im' x y = ipix im x y).
(** the edge and the faces on both sides *)
Definition edgeAndFaces (im : img) (d : dart) (t : ctype) (l : Z) : Prop :=
  (t = Line /\ edgeLabel im d = Ok l) \/ (t = Region /\ (leftFaceLabel im d = Ok l \/ rightFaceLabel im d = Ok l)).
(** and the ends that have no other edges *)
Definition edgeWithEnds (im : img) (d : dart) (t : ctype) (l : Z) : Prop := edgeAndFaces im d t l \/ (t = Vertex /\ endOnly im (edgeOf im d) l).

(** operations are made with darts of the map *)
Definition pAllowed (im : img) (c : pcall) : Prop :=
  match c with PEuler c => faceAllowed im c | PRemoveEdge d | PRemoveEdgeWithEnds d => isDart im d end.

(** ** The pyramid *)
(** the call that the operation stands for *)
Definition pcallOf (t : optype) (d : dart) : pcall :=
  match t with
  | Euler RemoveIsolatedNode => PEuler (CRemoveIsolatedNode d)
  | Euler MergeFaces => PEuler (CMergeFaces d)
  | Euler RemoveBridge => PEuler (CRemoveBridge d)
  | Euler MergeEdges => PEuler (CMergeEdges d)
  | RemoveEdge => PRemoveEdge d
  | RemoveEdgeWithEnds => PRemoveEdgeWithEnds d
  end.
Section Data.
Variables original gradient : vimg.
Variable maxValue : Z.
Notation lapp := (lapply original gradient maxValue).
Notation add := (addAndPerform lstate lapp lsame lends ldegree lanchor lcells).
Notation cut := (cutAbove lstate lapp lsame lends ldegree lanchor lcells).
Notation goto := (gotoLevel lstate lapp lsame lends ldegree lanchor).
Notation approach := (approachLevel lstate lapp lsame lends ldegree lanchor).
(** the dart [z] is one of the top level's segmentation, and is meant for the operation [t] *)
Definition fits (t : optype) (z : Z) (st : lstate) : Prop := match st with Some (m, _) => pAllowed (cim m) (pcallOf t (unpack z)) | None => False end.

(** A pyramid over the map [m] with the statistics [s], after calls of a user as in [orderly] of Pyramid_Spec.v who makes the operations with darts of the top level. *)
Inductive built (walk : bool) (m : cmap) (s : cstats) : pyramid lstate -> list (level lstate) -> Prop :=
| b_new : built walk m s (newPyramid lstate lcells (Some (m, hide s))) [mkLevel lstate 0 0 (Some (m, hide s))]
| b_op p seen t z p' : built walk m s p seen -> composing lstate p = 0 -> index lstate (top lstate p) = length (history lstate p) -> fits t z (st lstate (top lstate p)) ->
    add p t z = (Done, p') -> built walk m s p' (seen ++ [top lstate p'])
| b_op_inside p seen t z p' : built walk m s p seen -> composing lstate p <> 0 -> fits t z (st lstate (top lstate p)) -> add p t z = (Done, p') -> built walk m s p' seen
| b_op_fails p seen t z p' : built walk m s p seen -> composing lstate p <> 0 -> fits t z (st lstate (top lstate p)) -> add p t z = (Thrown, p') -> built walk m s p' seen
| b_begin p seen p' : built walk m s p seen -> composing lstate p <> 0 \/ index lstate (top lstate p) = length (history lstate p) -> composing lstate p < 2 ^ 32 - 1 ->
    beginComposite lstate p = (Done, p') -> built walk m s p' seen
| b_change p seen p' : built walk m s p seen -> composing lstate p <> 0 -> composing lstate p < 2 ^ 32 - 1 -> changeIntoComposite lstate p = (Done, p') -> built walk m s p' seen
| b_end_inner p seen p' : built walk m s p seen -> 2 <= composing lstate p -> endComposite lstate lcells p = (Done, p') -> built walk m s p' seen
| b_end p seen p' : built walk m s p seen -> composing lstate p = 1 -> back (history lstate p) <> Some (Composite []) -> endComposite lstate lcells p = (Done, p') -> built walk m s p' (seen ++ [top lstate p'])
| b_cut p seen k p' : built walk m s p seen -> cut p k = (Done, p') -> built walk m s p' (firstn (k + 1) seen)
| b_cut_level p seen l p' : built walk m s p seen -> In l seen -> cutAboveLevel lstate lcells p l = (Done, p') -> built walk m s p' (firstn (index lstate l + 1) seen)
| b_store p seen l : built walk m s p seen -> In l seen -> built walk m s (storeCheckpoint lstate lcells p l) seen
| b_goto p seen k l : built walk m s p seen -> walk = true -> composing lstate p = 0 -> (k < length seen)%nat -> goto p k (top lstate p) = (Done, l) -> built walk m s (setTop lstate p l) seen
| b_approach p seen k n l b : built walk m s p seen -> walk = true -> composing lstate p = 0 -> (k < length seen)%nat -> approach p k n (top lstate p) = (Done, l, b) -> built walk m s (setTop lstate p l) seen.
End Data.
