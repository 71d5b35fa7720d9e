(** Model of the operations of CellPyramid on the pixel based map and its statistics (src/cellimage/cellpyramid.hxx 189-288), and of the pyramid with them.

    Simplifications, besides those of CellMap_Model.v, CellStats_Model.v and Pyramid_Model.v:
    - copies of the map (deepCopy, foureightsegmentation.cxx 453-491) and of the statistics are equal to the original; lastChanges is not part of a level
      (operator= of the statistics sets it to the whole image, the copy constructor does not);
    - the edge protection, which all levels share, is not changed while the pyramid is built;
    - NoFuel is treated as undefined behaviour. *)
From Verif Require Import Base CellMap_Model CellMap_Init Pack_Model Pyramid_Model CellStats_Model.
Local Open Scope Z_scope.

(** cellpyramid.hxx 54-60: the operations that are not composite *)
Inductive pcall := PEuler (c : ccall) | PRemoveEdge (d : dart) | PRemoveEdgeWithEnds (d : dart).

Section Data.
Variables original gradient : vimg.
Variable maxValue : Z.
Notation exec := (statExec original gradient maxValue).

(** cellpyramid.hxx 257-259, 268-270 *)
Definition removeEdgeOf (m : cmap) (s : cstats) (d : dart) : res (cmap * cstats) :=
  l <- leftFaceLabel (cim m) d ;; r <- rightFaceLabel (cim m) d ;; exec m s (if l =? r then CRemoveBridge d else CMergeFaces d).
(** cellpyramid.hxx 272-273, 276 *)
Definition removeAlone (m : cmap) (s : cstats) (n : Z) : res (cmap * cstats) :=
  x <- at_ (cnodes m) n ;; if ndegree x =? 0 then exec m s (CRemoveIsolatedNode (nanchor x)) else Ok (m, s).
(** cellpyramid.hxx 236-279: performOperation; node1 and node2 are references to entries of the list of nodes, so their labels and degrees are read after the calls *)
Definition pexec (m : cmap) (s : cstats) (c : pcall) : res (cmap * cstats) :=
  match c with
  | PEuler c => exec m s c
  | PRemoveEdge d => removeEdgeOf m s d
  | PRemoveEdgeWithEnds d =>
      el <- edgeLabel (cim m) d ;; e <- at_ (cedges m) el ;;
      n1 <- startNodeLabel (cim m) (estart e) ;; _ <- at_ (cnodes m) n1 ;;
      n2 <- startNodeLabel (cim m) (eend e) ;; _ <- at_ (cnodes m) n2 ;;
      a <- removeEdgeOf m s d ;;
      b <- removeAlone (fst a) (snd a) n1 ;;
      x1 <- at_ (cnodes (fst b)) n1 ;; x2 <- at_ (cnodes (fst b)) n2 ;;
      if clabel (ninf x1) =? clabel (ninf x2) then Ok b else removeAlone (fst b) (snd b) n2
  end.

(** ** The pyramid of Pyramid_Model.v *)
(** the segmentation and the statistics of a level; [None]: there has been undefined behaviour *)
Definition lstate : Type := option (cmap * cstats).
(** foureightsegmentation.hxx 612-629: the dart of a serialised one, and back *)
Definition unpack (z : Z) : dart := let '(d, x, y) := deserialize z in Dart x y d.
Definition pack (d : dart) : Z := match serialize (ddir d) (dcx d) (dcy d) with Ok z => z | _ => 0 end.
Definition callOf (e : euler) (d : dart) : ccall :=
  match e with RemoveIsolatedNode => CRemoveIsolatedNode d | MergeFaces => CMergeFaces d | RemoveBridge => CRemoveBridge d | MergeEdges => CMergeEdges d end.
(** lastChanges_ left out *)
Definition hide (s : cstats) : cstats := setLast s (Rect 0 0 0 0).
(** cellpyramid.hxx 189-223 *)
Definition lapply (e : euler) (z : Z) (st : lstate) : bool * lstate :=
  match st with
  | None => (true, None)
  | Some (m, s) => match exec m s (callOf e (unpack z)) with Ok (m', s') => (true, Some (m', hide s')) | Exn => (false, st) | _ => (true, None) end
  end.
(** cellpyramid.hxx 257, 268: where a label cannot be read mergeFaces cannot read it either *)
Definition lsame (z : Z) (st : lstate) : bool :=
  match st with
  | None => false
  | Some (m, _) => match leftFaceLabel (cim m) (unpack z), rightFaceLabel (cim m) (unpack z) with Ok l, Ok r => l =? r | _, _ => false end
  end.
(** cellpyramid.hxx 264-266: where a label cannot be read preRemoveEdge cannot read it either *)
Definition lends (z : Z) (st : lstate) : nat * nat :=
  match st with
  | None => (O, O)
  | Some (m, _) =>
      match (el <- edgeLabel (cim m) (unpack z) ;; e <- at_ (cedges m) el ;; n1 <- startNodeLabel (cim m) (estart e) ;; n2 <- startNodeLabel (cim m) (eend e) ;; Ok (n1, n2)) with
      | Ok (n1, n2) => (Z.to_nat n1, Z.to_nat n2)
      | _ => (O, O)
      end
  end.
(** cellpyramid.hxx 272, 275 *)
Definition ldegree (n : nat) (st : lstate) : nat :=
  match st with Some (m, _) => match nth_error (cnodes m) n with Some x => Z.to_nat (ndegree x) | None => 1%nat end | None => O end.
(** cellpyramid.hxx 273, 276 *)
Definition lanchor (n : nat) (st : lstate) : Z :=
  match st with Some (m, _) => match nth_error (cnodes m) n with Some x => pack (nanchor x) | None => 0 end | None => 0 end.
(** cellpyramid.hxx 362-365 *)
Definition lcells (st : lstate) : nat := match st with Some (m, _) => Z.to_nat (nodeCount m + edgeCount m + faceCount m) | None => O end.
End Data.
