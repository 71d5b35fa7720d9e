(** Model of CellStatistics and EdgeProtection (src/cellimage/cellstatistics.hxx, cellstatistics.cxx), with the calls of its hooks as CellPyramid makes them
    (cellpyramid.hxx 189-223).

    Simplifications:
    - pixel values are integers and sums are exact (finitely many floats are multiples of one power of two; what is left out is rounding and overflow of the sums);
    - coordinates count from cellImage.upperLeft() as in CellMap_Model.v, so the pixel (x, y) of a cell is the pixel (x - 2, y - 2) of the images;
    - doEdgeRethinning and doAutoProtection are false: no pixel is moved from an edge to a face after merging edges;
    - edgeProtection is not NULL;
    - the members that only carry something from a pre hook to the post hook of the same call (tempFaceStatistics_, tempEdgeStatistics_, edge1Label_, edge2Label_) are results of the pre hook;
    - nodeCenters_, edgels_, configurationDirections_ (never changed after the constructor, or not used) are left out, and output to std::cerr. *)
From Verif Require Import Base CellMap_Model CellMap_Init.
Local Open Scope Z_scope.

(** vigra's BasicImage of values: preparedOriginal_, gradientMagnitude_ (cellstatistics.hxx 58-60) *)
Record vimg := VImg { vw : Z; vh : Z; vpix : Z -> Z -> Z }.
Definition readVal (v : vimg) (x y : Z) : res Z := if (0 <=? x) && (x <? vw v) && (0 <=? y) && (y <? vh v) then Ok (vpix v x y) else UB.

(** statisticfunctor.hxx 106-108: count_, sum_ and squareSum_ *)
Record stat := Stat { scount : Z; ssum : Z; ssq : Z }.
Definition noStat : stat := Stat 0 0 0.
(** statisticfunctor.hxx 66-71 *)
Definition statAdd (s : stat) (v : Z) : stat := Stat (scount s + 1) (ssum s + v) (ssq s + v * v).
(** statisticfunctor.hxx 73-83 *)
Definition statMerge (s o : stat) : stat := Stat (scount s + scount o) (ssum s + ssum o) (ssq s + ssq o).
(** vigra's FindAverage (inspectimage.hxx): count_ and sum_, and merging *)
Record avg := Avg { acount : Z; asum : Z }.
Definition noAvg : avg := Avg 0 0.
Definition avgAdd (s : avg) (v : Z) : avg := Avg (acount s + 1) (asum s + v).
Definition avgMerge (s o : avg) : avg := Avg (acount s + acount o) (asum s + asum o).

(** cellimage.hxx 250-255: inspectCell; *endIterator is the pixel of the other image at the same place *)
Fixpoint inspect {S} (add : S -> Z -> S) (v : vimg) (ps : list (Z * Z)) (s : S) : res S :=
  match ps with [] => Ok s | (x, y) :: t => a <- readVal v (x - 2) (y - 2) ;; inspect add v t (add s a) end.

(** cellstatistics.hxx 152-166, 177: the members; edgeProtection_ (93) is the vector of flags behind the pointer edgeProtection *)
Record cstats := CStats { faceStats : list stat; edgeStats : list avg; mergedEdges : list Z; lastChanges : rect; flags : list Z }.
Definition setFaceStats (s : cstats) v := CStats v (edgeStats s) (mergedEdges s) (lastChanges s) (flags s).
Definition setEdgeStats (s : cstats) v := CStats (faceStats s) v (mergedEdges s) (lastChanges s) (flags s).
Definition setMerged (s : cstats) v := CStats (faceStats s) (edgeStats s) v (lastChanges s) (flags s).
Definition setLast (s : cstats) v := CStats (faceStats s) (edgeStats s) (mergedEdges s) v (flags s).
Definition setFlags (s : cstats) v := CStats (faceStats s) (edgeStats s) (mergedEdges s) (lastChanges s) v.
(** lastChanges_ |= bounds *)
Definition touch (s : cstats) (r : rect) : cstats := setLast s (rectOr (lastChanges s) r).

(** cellstatistics.hxx 100-109: EdgeProtection::protectEdge *)
Definition flagEdge (p : list Z) (e flag : Z) (on : bool) : res (list Z * bool) :=
  f <- at_ p e ;;
  if Bool.eqb (negb (Z.land f flag =? 0)) on then Ok (p, false) else p' <- put p e (Z.lxor f flag) ;; Ok (p', true).
(** cellstatistics.hxx 204-218: CellStatistics::protectEdge; a recursion that does not end is [NoFuel] *)
Fixpoint protectLoop (fuel : nat) (merged p : list Z) (e flag : Z) (on : bool) : res (list Z * bool) :=
  match fuel with
  | O => NoFuel
  | Datatypes.S k =>
      r <- flagEdge p e flag on ;; n <- at_ merged e ;;
      if n =? e then Ok r else q <- protectLoop k merged (fst r) n flag on ;; Ok (fst q, snd q || snd r)
  end.
Definition protectEdge (s : cstats) (e flag : Z) (on : bool) : res (cstats * bool) :=
  r <- protectLoop (Datatypes.S (length (mergedEdges s))) (mergedEdges s) (flags s) e flag on ;; Ok (setFlags s (fst r), snd r).
(** cellstatistics.hxx 111-114, 220-228: CellStatistics::edgeProtected *)
Fixpoint protectedLoop (fuel : nat) (merged p : list Z) (e : Z) : res bool :=
  match fuel with
  | O => NoFuel
  | Datatypes.S k => f <- at_ p e ;; if negb (f =? 0) then Ok true else n <- at_ merged e ;; if n =? e then Ok false else protectedLoop k merged p n
  end.
Definition edgeProtected (s : cstats) (e : Z) : res bool := protectedLoop (Datatypes.S (length (mergedEdges s))) (mergedEdges s) (flags s) e.
(** cellstatistics.hxx 255-260 *)
Definition clearLastChanges (s : cstats) : cstats * rect :=
  (setLast s (Rect (rx0 (lastChanges s)) (ry0 (lastChanges s)) (rx0 (lastChanges s)) (ry0 (lastChanges s))), lastChanges s).

Section Data.
(** segmentationData->preparedOriginal_, segmentationData->gradientMagnitude_ and NumericTraits<GradientImage::PixelType>::max() *)
Variables original gradient : vimg.
Variable maxValue : Z.

(** cellstatistics.hxx 85: EPBorder *)
Definition EPBorder : Z := 1.
(** cellstatistics.cxx 85-90: one face *)
Definition initFace (m : cmap) (v : list stat) (f : finfo) : res (list stat) :=
  ps <- scanCell m Region (clabel (finf f)) true ;; a <- at_ v (clabel (finf f)) ;; b <- inspect statAdd original ps a ;; put v (clabel (finf f)) b.
(** cellstatistics.cxx 163-180: one edge *)
Definition initEdge (m : cmap) (st : list avg * list Z) (e : einfo) : res (list avg * list Z) :=
  l <- leftFaceLabel (cim m) (estart e) ;; r <- (if l =? 0 then Ok 0 else rightFaceLabel (cim m) (estart e)) ;;
  a <- at_ (fst st) (clabel (einf e)) ;;
  if (l =? 0) || (r =? 0) then
    v <- put (fst st) (clabel (einf e)) (avgAdd a maxValue) ;; p <- flagEdge (snd st) (clabel (einf e)) EPBorder true ;; Ok (v, fst p)
  else ps <- scanCell m Line (clabel (einf e)) true ;; b <- inspect avgAdd gradient ps a ;; v <- put (fst st) (clabel (einf e)) b ;; Ok (v, snd st).
(** cellstatistics.cxx 62-188: the constructor; maxFaceLabel() and maxEdgeLabel() are the sizes of the vectors (foureightsegmentation.hxx 798-800).
    The first face is skipped (85); lastChanges_ is a copy of segDataBounds before the border is added (67-77). *)
Definition newStats (m : cmap) (protection : list Z) : res cstats :=
  fs <- (match filter (fun f => initialized (finf f)) (cfaces m) with [] => UB | _ :: t => forEach (initFace m) t (repeat noStat (Datatypes.S (length (cfaces m)))) end) ;;
  es <- forEach (initEdge m) (filter (fun e => initialized (einf e)) (cedges m)) (repeat noAvg (Datatypes.S (length (cedges m))), protection) ;;
  Ok (CStats fs (fst es) (map Z.of_nat (seq 0 (Datatypes.S (length (cedges m))))) (Rect 0 0 (iw (cim m)) (ih (cim m))) (snd es)).
(** cellstatistics.cxx 73-77, 190-206: operator=; segDataBounds.size() is that of the cell image with a border added on both sides *)
Definition assignStats (m : cmap) (other : cstats) : cstats :=
  setLast other (Rect 0 0 (iw (cim m) + 2 * Z.quot (vw original - iw (cim m)) 2 + 4) (ih (cim m) + 2 * Z.quot (vh original - ih (cim m)) 2 + 4)).

(** cellstatistics.hxx 288-297: preRemoveEdge; the labels of the nodes are read, but not used *)
Definition preRemoveEdge (m : cmap) (s : cstats) (d : dart) : res stat :=
  l <- leftFaceLabel (cim m) d ;; t <- at_ (faceStats s) l ;;
  el <- edgeLabel (cim m) d ;; ps <- scanCell m Line el true ;; t' <- inspect statAdd original ps t ;;
  e <- at_ (cedges m) el ;; _ <- startNodeLabel (cim m) (estart e) ;; _ <- startNodeLabel (cim m) (eend e) ;; Ok t'.
(** cellstatistics.hxx 299-309: postRemoveEdge *)
Definition postRemoveEdge (s : cstats) (t : stat) (f : finfo) : res cstats :=
  v <- put (faceStats s) (clabel (finf f)) t ;; Ok (touch (setFaceStats s v) (cbounds (finf f))).
(** cellstatistics.hxx 323-329: preMergeFaces *)
Definition preMergeFaces (m : cmap) (s : cstats) (d : dart) : res stat :=
  t <- preRemoveEdge m s d ;; r <- rightFaceLabel (cim m) d ;; o <- at_ (faceStats s) r ;; Ok (statMerge t o).
(** cellstatistics.hxx 336-365: preMergeEdges; edge1Label_, edge2Label_ and tempEdgeStatistics_ *)
Definition preMergeEdges (m : cmap) (s : cstats) (d : dart) : res (Z * Z * avg) :=
  d1 <- nextSigma (cim m) d ;; e1 <- edgeLabel (cim m) d ;; e2 <- edgeLabel (cim m) d1 ;;
  l <- leftFaceLabel (cim m) d ;; r <- (if l =? 0 then Ok 0 else rightFaceLabel (cim m) d) ;;
  if (l =? 0) || (r =? 0) then Ok (e1, e2, avgAdd noAvg maxValue)
  else
    t1 <- at_ (edgeStats s) e1 ;; t2 <- at_ (edgeStats s) e2 ;;
    n <- startNodeLabel (cim m) d1 ;; ps <- scanCell m Vertex n true ;; t <- inspect avgAdd gradient ps (avgMerge t1 t2) ;; Ok (e1, e2, t).
(** cellstatistics.hxx 470-472: the end of the chain *)
Fixpoint lastMerged (fuel : nat) (merged : list Z) (e : Z) : res Z :=
  match fuel with O => NoFuel | Datatypes.S k => n <- at_ merged e ;; if n =? e then Ok e else lastMerged k merged n end.
(** cellstatistics.hxx 464-474: postMergeEdges *)
Definition postMergeEdges (s : cstats) (t : Z * Z * avg) (e : einfo) : res cstats :=
  let l := clabel (einf e) in
  v <- put (edgeStats s) l (snd t) ;;
  r <- lastMerged (Datatypes.S (length (mergedEdges s))) (mergedEdges s) l ;;
  w <- put (mergedEdges s) r (if l =? fst (fst t) then snd (fst t) else fst (fst t)) ;;
  Ok (touch (setMerged (setEdgeStats s v) w) (cbounds (einf e))).

(** cellpyramid.hxx 189-223: pre hook, operation, post hook (for nodes: cellstatistics.hxx 278-286, for bridges: 311-321) *)
Definition statExec (m : cmap) (s : cstats) (c : ccall) : res (cmap * cstats) :=
  match c with
  | CRemoveIsolatedNode d => r <- removeIsolatedNode m d ;; f <- at_ (cfaces (fst r)) (snd r) ;; Ok (fst r, touch s (cbounds (finf f)))
  | CMergeFaces d => t <- preMergeFaces m s d ;; r <- mergeFaces m d ;; f <- at_ (cfaces (fst r)) (snd r) ;; s' <- postRemoveEdge s t f ;; Ok (fst r, s')
  | CRemoveBridge d => t <- preRemoveEdge m s d ;; r <- removeBridge m d ;; f <- at_ (cfaces (fst r)) (snd r) ;; s' <- postRemoveEdge s t f ;; Ok (fst r, s')
  | CMergeEdges d => t <- preMergeEdges m s d ;; r <- mergeEdges m d ;; e <- at_ (cedges (fst r)) (snd r) ;; s' <- postMergeEdges s t e ;; Ok (fst r, s')
  end.
End Data.
