(** Model of the pixel based map of src/cellimage: cellimage::GeoMap and its DartTraverser (foureightsegmentation.hxx, foureightsegmentation.cxx).

    Simplifications:
    - all coordinates, also those of the bounds, count from cellImage.upperLeft(); the code counts from [cells], which is the pixel (2, 2);
    - an image is its size and a function from coordinates to pixels; reading or writing a pixel outside is [UB];
    - a DartTraverser is its NeighborhoodCirculator; the pointer segmentation_ is the map at hand.  A default constructed
      one lies outside of every image, so using it is [UB];
    - the release build (NDEBUG) is modelled: validateDart() is empty and checkConsistency() is not called;
    - Rect2D::area() does not overflow;
    - output to std::cerr is left out;
    - loops have fuel: eight times the number of pixels is the number of circulators there are, a walk with more steps never ends.
    The crack contours, the connected components and the tables of vigra are parameters of the constructor. *)
From Verif Require Import Base.
Local Open Scope Z_scope.

(** cellimage.hxx 40-45, 66-67: what type() can return *)
Inductive ctype := Region | Line | Vertex | ErrorType.
Definition ctypeEqb (a b : ctype) : bool :=
  match a, b with Region, Region | Line, Line | Vertex, Vertex | ErrorType, ErrorType => true | _, _ => false end.

(** cellimage.hxx 52-91: a pixel; two of the 32 bits hold the type, so the label is cut to 30 bits (Pack_Model.v has the packing itself) *)
Record pix := Pix { ptype : ctype; plabel : Z }.
Definition cellPixel (t : ctype) (l : Z) : pix := Pix t (l mod 2 ^ 30).
Definition pixEqb (a b : pix) : bool := ctypeEqb (ptype a) (ptype b) && (plabel a =? plabel b).

(** cellimage.hxx 93: BasicImage<CellPixel> *)
Record img := Img { iw : Z; ih : Z; ipix : Z -> Z -> pix }.
Definition insideImg (im : img) (x y : Z) : bool := (0 <=? x) && (x <? iw im) && (0 <=? y) && (y <? ih im).
Definition readPix (im : img) (x y : Z) : res pix := if insideImg im x y then Ok (ipix im x y) else UB.
Definition writePix (im : img) (x y : Z) (p : pix) : res img :=
  if insideImg im x y then Ok (Img (iw im) (ih im) (fun x' y' => if (x' =? x) && (y' =? y) then p else ipix im x' y')) else UB.

(** vigra's Rect2D: upper left corner and, excluded, lower right corner *)
Record rect := Rect { rx0 : Z; ry0 : Z; rx1 : Z; ry1 : Z }.
Definition emptyRect : rect := Rect 0 0 0 0.
Definition rectEmpty (r : rect) : bool := (rx1 r <=? rx0 r) || (ry1 r <=? ry0 r).
Definition rectArea (r : rect) : Z := (rx1 r - rx0 r) * (ry1 r - ry0 r).
(** vigra's Rect2D::operator|= (Rect2D) *)
Definition rectOr (a b : rect) : rect :=
  if rectEmpty b then a else if rectEmpty a then b
  else Rect (Z.min (rx0 a) (rx0 b)) (Z.min (ry0 a) (ry0 b)) (Z.max (rx1 a) (rx1 b)) (Z.max (ry1 a) (ry1 b)).
(** vigra's Rect2D::operator|= (Point2D) *)
Definition rectOrPoint (a : rect) (x y : Z) : rect := rectOr a (Rect x y (x + 1) (y + 1)).
(** vigra's Rect2D::operator& *)
Definition rectAnd (a b : rect) : rect :=
  if rectEmpty a then a else if rectEmpty b then b
  else Rect (Z.max (rx0 a) (rx0 b)) (Z.max (ry0 a) (ry0 b)) (Z.min (rx1 a) (rx1 b)) (Z.min (ry1 a) (ry1 b)).

(** vigra's NeighborhoodCirculator with EightNeighborCode: a center and a direction, East = 0, NorthEast = 1, North = 2, ... (y points down);
    foureightsegmentation.hxx 362-366: the only data of a DartTraverser *)
Record dart := Dart { dcx : Z; dcy : Z; ddir : Z }.
Definition noDart : dart := Dart (-9) (-9) 0.
Definition dirX (d : Z) : Z := match d with 0 | 1 | 7 => 1 | 3 | 4 | 5 => -1 | _ => 0 end.
Definition dirY (d : Z) : Z := match d with 1 | 2 | 3 => -1 | 5 | 6 | 7 => 1 | _ => 0 end.
(** operator++ ([turn 1]), operator-- ([turn (-1)]), turnRight ([turn (-2)]) of the circulator *)
Definition turn (n : Z) (d : dart) : dart := Dart (dcx d) (dcy d) ((ddir d + n) mod 8).
(** operator[]: the pixel n directions further *)
Definition neighborPix (im : img) (d : dart) (n : Z) : res pix :=
  let k := (ddir d + n) mod 8 in readPix im (dcx d + dirX k) (dcy d + dirY k).
Definition centerPix (im : img) (d : dart) : res pix := readPix im (dcx d) (dcy d).
Definition moveCenterToNeighbor (d : dart) : dart := Dart (dcx d + dirX (ddir d mod 8)) (dcy d + dirY (ddir d mod 8)) (ddir d).
Definition swapCenterNeighbor (d : dart) : dart := turn 4 (moveCenterToNeighbor d).
Definition isDiagonal (d : dart) : bool := Z.odd (ddir d).
Definition dartEqb (a b : dart) : bool := (dcx a =? dcx b) && (dcy a =? dcy b) && (ddir a mod 8 =? ddir b mod 8).

Definition walkFuel (im : img) : nat := S (Z.to_nat (8 * (iw im * ih im))).

(** foureightsegmentation.hxx 497-500 *)
Definition isSingular (im : img) (d : dart) : res bool :=
  p <- neighborPix im d 0 ;; Ok (negb (ctypeEqb (ptype p) Line)).
(** foureightsegmentation.hxx 502-505 *)
Definition startNodeLabel (im : img) (d : dart) : res Z := p <- centerPix im d ;; Ok (plabel p).
(** foureightsegmentation.hxx 514-517 *)
Definition edgeLabel (im : img) (d : dart) : res Z := p <- neighborPix im d 0 ;; Ok (plabel p).
(** foureightsegmentation.hxx 519-525 *)
Definition leftFaceLabel (im : img) (d : dart) : res Z :=
  p <- neighborPix im d 1 ;; if ctypeEqb (ptype p) Region then Ok (plabel p) else q <- neighborPix im d 2 ;; Ok (plabel q).
(** foureightsegmentation.hxx 527-533 *)
Definition rightFaceLabel (im : img) (d : dart) : res Z :=
  p <- neighborPix im d (-1) ;; if ctypeEqb (ptype p) Region then Ok (plabel p) else q <- neighborPix im d (-2) ;; Ok (plabel q).

(** foureightsegmentation.hxx 650-656 *)
Definition badDiagonalConfig (im : img) (d : dart) : res bool :=
  if isDiagonal d then
    p <- neighborPix im d 0 ;;
    if ctypeEqb (ptype p) Line then
      a <- neighborPix im d 1 ;;
      if negb (ctypeEqb (ptype a) Region) then Ok true
      else b <- neighborPix im d (-1) ;; Ok (negb (ctypeEqb (ptype b) Region))
    else Ok false
  else Ok false.
(** foureightsegmentation.hxx 632-638 (n = 1, tryNextSigma) and 640-646 (n = -1, tryPrevSigma) *)
Definition trySigma (im : img) (n : Z) (d : dart) : res dart :=
  let d1 := turn n d in bad <- badDiagonalConfig im d1 ;; Ok (if bad : bool then turn n d1 else d1).
(** the loop of nextSigma (foureightsegmentation.hxx 466-474) and of prevSigma (485-493) *)
Fixpoint sigmaLoop (fuel : nat) (im : img) (n : Z) (d : dart) : res dart :=
  match fuel with
  | O => NoFuel
  | Datatypes.S k =>
      p <- neighborPix im d 0 ;;
      if ctypeEqb (ptype p) Line then Ok d else
      d' <- trySigma im n (if ctypeEqb (ptype p) Vertex then turn n (swapCenterNeighbor d) else d) ;;
      sigmaLoop k im n d'
  end.
(** foureightsegmentation.hxx 459-476 (n = 1, nextSigma) and 478-495 (n = -1, prevSigma) *)
Definition sigmaStep (im : img) (n : Z) (d : dart) : res dart :=
  s <- isSingular im d ;; if s : bool then Ok d else d' <- trySigma im n d ;; sigmaLoop (walkFuel im) im n d'.
Definition nextSigma (im : img) (d : dart) : res dart := sigmaStep im 1 d.
Definition prevSigma (im : img) (d : dart) : res dart := sigmaStep im (-1) d.
(** foureightsegmentation.hxx 401-419 *)
Fixpoint carefulLoop (fuel : nat) (im : img) (nend d : dart) : res dart :=
  match fuel with
  | O => NoFuel
  | Datatypes.S k =>
      p <- neighborPix im d 0 ;;
      if ctypeEqb (ptype p) Line then Ok d else
      d' <- trySigma im 1 (if ctypeEqb (ptype p) Vertex then turn 1 (swapCenterNeighbor d) else d) ;;
      if dartEqb d' nend then Ok d' else carefulLoop k im nend d'
  end.
Definition carefulNextSigma (im : img) (d : dart) : res dart := carefulLoop (walkFuel im) im d d.
(** foureightsegmentation.hxx 371-394: the constructor; the loop is 382-390 *)
Fixpoint diagonalLoop (fuel : nat) (im : img) (d : dart) : res dart :=
  match fuel with
  | O => NoFuel
  | Datatypes.S k => bad <- badDiagonalConfig im d ;; if bad : bool then diagonalLoop k im (turn 1 (swapCenterNeighbor (turn 1 d))) else Ok d
  end.
Definition makeDart (im : img) (d : dart) : res dart :=
  c <- centerPix im d ;;
  if negb (ctypeEqb (ptype c) Vertex) then Exn else
  p <- neighborPix im d 0 ;;
  if ctypeEqb (ptype p) Vertex then Exn else
  d1 <- diagonalLoop (walkFuel im) im d ;;
  q <- neighborPix im d1 0 ;;
  if ctypeEqb (ptype q) Line then Ok d1 else carefulNextSigma im d1.
(** foureightsegmentation.hxx 560-572 (operator==; operator!= is its negation) *)
Definition dartEq (im : img) (a b : dart) : res bool :=
  s <- isSingular im a ;;
  if negb s then Ok (dartEqb a b) else la <- startNodeLabel im a ;; lb <- startNodeLabel im b ;; Ok (la =? lb).

(** foureightsegmentation.hxx 202-221: EdgelIterator::operator++, the new circulator and atEnd_ *)
Fixpoint skipRegion (fuel : nat) (im : img) (d : dart) : res dart :=
  match fuel with
  | O => NoFuel
  | Datatypes.S k => p <- neighborPix im d 0 ;; if ctypeEqb (ptype p) Region then skipRegion k im (turn 1 d) else Ok d
  end.
Definition edgelNext (im : img) (d : dart) : res (dart * bool) :=
  d1 <- skipRegion 8 im (turn (-2) (moveCenterToNeighbor d)) ;;
  d2 <- (if isDiagonal d1 then q <- neighborPix im d1 1 ;; Ok (if ctypeEqb (ptype q) Region then d1 else turn 1 d1) else Ok d1) ;;
  p <- neighborPix im d2 0 ;; Ok (d2, ctypeEqb (ptype p) Vertex).
(** foureightsegmentation.hxx 223-230 *)
Fixpoint jumpToOpposite (fuel : nat) (im : img) (d : dart) : res dart :=
  match fuel with
  | O => NoFuel
  | Datatypes.S k => r <- edgelNext im d ;; if snd r then Ok (swapCenterNeighbor (fst r)) else jumpToOpposite k im (fst r)
  end.

(** foureightsegmentation.hxx 668-681: CellInfo; [clabel] is NumericTraits<CellLabel>::max() if the cell is not initialized *)
Definition maxLabel : Z := 2 ^ 32 - 1.
Record cinfo := CInfo { clabel : Z; cbounds : rect; csize : Z }.
Definition newInfo : cinfo := CInfo maxLabel emptyRect 0.
Definition initialized (c : cinfo) : bool := negb (clabel c =? maxLabel).
Definition uninitialize (c : cinfo) : cinfo := CInfo maxLabel (cbounds c) (csize c).
(** bounds |= other.bounds and size += other.size; sizes are unsigned int *)
Definition absorb (c other : cinfo) : cinfo := CInfo (clabel c) (rectOr (cbounds c) (cbounds other)) ((csize c + csize other) mod 2 ^ 32).
(** foureightsegmentation.hxx 683-703: NodeInfo, EdgeInfo, FaceInfo *)
Record ninfo := NInfo { ninf : cinfo; nanchor : dart; ndegree : Z }.
Record einfo := EInfo { einf : cinfo; estart : dart; eend : dart }.
Record finfo := FInfo { finf : cinfo; fcontours : list dart }.

(** foureightsegmentation.hxx 860-861 and 919-925 *)
Record cmap := CMap { cim : img; cnodes : list ninfo; cedges : list einfo; cfaces : list finfo;
                      nodeCount : Z; edgeCount : Z; faceCount : Z; cinit : bool }.
Definition setIm (m : cmap) (im : img) : cmap := CMap im (cnodes m) (cedges m) (cfaces m) (nodeCount m) (edgeCount m) (faceCount m) (cinit m).
Definition setNodes (m : cmap) (v : list ninfo) : cmap := CMap (cim m) v (cedges m) (cfaces m) (nodeCount m) (edgeCount m) (faceCount m) (cinit m).
Definition setEdges (m : cmap) (v : list einfo) : cmap := CMap (cim m) (cnodes m) v (cfaces m) (nodeCount m) (edgeCount m) (faceCount m) (cinit m).
Definition setFaces (m : cmap) (v : list finfo) : cmap := CMap (cim m) (cnodes m) (cedges m) v (nodeCount m) (edgeCount m) (faceCount m) (cinit m).
(** the unsigned counters *)
Definition addCounts (m : cmap) (n e f : Z) : cmap :=
  CMap (cim m) (cnodes m) (cedges m) (cfaces m) ((nodeCount m + n) mod 2 ^ 32) ((edgeCount m + e) mod 2 ^ 32) ((faceCount m + f) mod 2 ^ 32) (cinit m).

(** operator[] of the vectors nodeList_, edgeList_, faceList_ *)
Definition at_ {A} (v : list A) (l : Z) : res A := if (0 <=? l) && (l <? Z.of_nat (length v)) then vget v (Z.to_nat l) else UB.
Definition put {A} (v : list A) (l : Z) (a : A) : res (list A) := if (0 <=? l) && (l <? Z.of_nat (length v)) then vset v (Z.to_nat l) a else UB.
Definition updNode (m : cmap) (l : Z) (f : ninfo -> ninfo) : res cmap := n <- at_ (cnodes m) l ;; v <- put (cnodes m) l (f n) ;; Ok (setNodes m v).
Definition updEdge (m : cmap) (l : Z) (f : einfo -> einfo) : res cmap := n <- at_ (cedges m) l ;; v <- put (cedges m) l (f n) ;; Ok (setEdges m v).
Definition updFace (m : cmap) (l : Z) (f : finfo -> finfo) : res cmap := n <- at_ (cfaces m) l ;; v <- put (cfaces m) l (f n) ;; Ok (setFaces m v).
Definition setContours (c : list dart) (f : finfo) : finfo := FInfo (finf f) c.
Definition onNode (g : cinfo -> cinfo) (n : ninfo) : ninfo := NInfo (g (ninf n)) (nanchor n) (ndegree n).
Definition onEdge (g : cinfo -> cinfo) (e : einfo) : einfo := EInfo (g (einf e)) (estart e) (eend e).
Definition onFace (g : cinfo -> cinfo) (f : finfo) : finfo := FInfo (g (finf f)) (fcontours f).

(** foureightsegmentation.hxx 424-442 *)
Definition nextAlpha (m : cmap) (d : dart) : res dart :=
  s <- isSingular (cim m) d ;;
  if s : bool then Ok d else
  if cinit m then
    l <- edgeLabel (cim m) d ;; e <- at_ (cedges m) l ;;
    q <- dartEq (cim m) d (estart e) ;; Ok (if q : bool then eend e else estart e)
  else jumpToOpposite (walkFuel (cim m)) (cim m) d.
(** foureightsegmentation.hxx 449-452 *)
Definition nextPhi (m : cmap) (d : dart) : res dart := a <- nextAlpha m d ;; prevSigma (cim m) a.

(** ** LabelScanIterator, foureightsegmentation.hxx 53-154 *)

(** ++cellIter_.x and, at the end of a row, the step to the next row (98, 102-114); [k] is the test of the pixel reached *)
Definition scanAdvance {A} (k : Z -> Z -> res (option A)) (r : rect) (x y : Z) : res (option A) :=
  if x + 1 =? rx1 r then if y + 1 =? ry1 r then Ok None else k (rx0 r) (y + 1) else k (x + 1) y.
Fixpoint scanSeek (fuel : nat) (im : img) (r : rect) (v : pix) (x y : Z) : res (option (Z * Z)) :=
  match fuel with
  | O => NoFuel
  | Datatypes.S k => p <- readPix im x y ;; if pixEqb p v then Ok (Some (x, y)) else scanAdvance (scanSeek k im r v) r x y
  end.
Definition scanFuel (r : rect) : nat := S (Z.to_nat (rectArea r)).
(** 81-94: the constructor; [None] is the end *)
Definition scanBegin (im : img) (r : rect) (v : pix) : res (option (Z * Z)) :=
  if (rx0 r <? rx1 r) && (ry0 r <? ry1 r) then scanSeek (scanFuel r) im r v (rx0 r) (ry0 r) else Ok None.
(** 96-117 *)
Definition scanNext (im : img) (r : rect) (v : pix) (x y : Z) : res (option (Z * Z)) := scanAdvance (scanSeek (scanFuel r) im r v) r x y.
(** for(it = ...; it.inRange(); ++it) *it = new; *)
Fixpoint relabelLoop (fuel : nat) (im : img) (r : rect) (v new : pix) (it : option (Z * Z)) : res img :=
  match it with
  | None => Ok im
  | Some (x, y) =>
      match fuel with
      | O => NoFuel
      | Datatypes.S k => im' <- writePix im x y new ;; it' <- scanNext im' r v x y ;; relabelLoop k im' r v new it'
      end
  end.
Definition relabel (im : img) (r : rect) (v new : pix) : res img := it <- scanBegin im r v ;; relabelLoop (scanFuel r) im r v new it.
(** the positions the iterator takes when nothing is written *)
Fixpoint visitLoop (fuel : nat) (im : img) (r : rect) (v : pix) (it : option (Z * Z)) : res (list (Z * Z)) :=
  match it with
  | None => Ok []
  | Some (x, y) =>
      match fuel with
      | O => NoFuel
      | Datatypes.S k => it' <- scanNext im r v x y ;; l <- visitLoop k im r v it' ;; Ok ((x, y) :: l)
      end
  end.
Definition visit (im : img) (r : rect) (v : pix) : res (list (Z * Z)) := it <- scanBegin im r v ;; visitLoop (scanFuel r) im r v it.

(** foureightsegmentation.hxx 955-971: cellScanIterator, the rectangle scanned; Rect2D(cellImage.size() - Diff2D(4, 4)) begins at [cells] *)
Definition baseRect (im : img) : rect := Rect 2 2 (iw im - 2) (ih im - 2).
Definition scanRect (im : img) (c : cinfo) (crop : bool) : rect := if crop then rectAnd (cbounds c) (baseRect im) else cbounds c.
(** foureightsegmentation.hxx 871-896: nodeScanIterator, edgeScanIterator, faceScanIterator run to their end *)
Definition infoAt (m : cmap) (t : ctype) (l : Z) : res cinfo :=
  match t with
  | Vertex => n <- at_ (cnodes m) l ;; Ok (ninf n)
  | Line => e <- at_ (cedges m) l ;; Ok (einf e)
  | Region => f <- at_ (cfaces m) l ;; Ok (finf f)
  | ErrorType => UB
  end.
Definition scanCell (m : cmap) (t : ctype) (l : Z) (crop : bool) : res (list (Z * Z)) :=
  c <- infoAt m t l ;; visit (cim m) (scanRect (cim m) c crop) (cellPixel t (clabel c)).
(** the loops of the operations: for(CellScanIterator it = xScanIterator(label, cells, false); ...) *it = CellPixel(...) *)
Definition relabelCell (m : cmap) (t : ctype) (l : Z) (new : pix) : res cmap :=
  c <- infoAt m t l ;; im <- relabel (cim m) (cbounds c) (cellPixel t (clabel c)) new ;; Ok (setIm m im).

(** ** The Euler operations, foureightsegmentation.cxx *)

(** 133-188: findComponentAnchor; the messages before vigra_fail are left out *)
Fixpoint findNode (im : img) (cs : list dart) (l : Z) (i : nat) : res (option nat) :=
  match cs with
  | [] => Ok None
  | c :: t => s <- startNodeLabel im c ;; if s =? l then Ok (Some i) else findNode im t l (S i)
  end.
Fixpoint findEdge (im : img) (cs : list dart) (l : Z) (i : nat) : res (option nat) :=
  match cs with
  | [] => Ok None
  | c :: t =>
      s <- isSingular im c ;;
      if s : bool then findEdge im t l (S i) else e <- edgeLabel im c ;; if e =? l then Ok (Some i) else findEdge im t l (S i)
  end.
(** 164-170: while(dart2.nextPhi() != *contour) *)
Fixpoint phiSearch (fuel : nat) (m : cmap) (contour d : dart) (l : Z) : res bool :=
  match fuel with
  | O => NoFuel
  | Datatypes.S k =>
      d' <- nextPhi m d ;; q <- dartEq (cim m) d' contour ;;
      if q : bool then Ok false else e <- edgeLabel (cim m) d' ;; if e =? l then Ok true else phiSearch k m contour d' l
  end.
Fixpoint findContour (m : cmap) (cs : list dart) (l : Z) (i : nat) : res (option nat) :=
  match cs with
  | [] => Ok None
  | c :: t => b <- phiSearch (walkFuel (cim m)) m c c l ;; if b : bool then Ok (Some i) else findContour m t l (S i)
  end.
Definition orFail {A} (o : option A) : res A := match o with Some a => Ok a | None => Exn end.
Definition findComponentAnchor (m : cmap) (contours : list dart) (d : dart) : res nat :=
  if Nat.eqb (length contours) 1 then Ok O else
  s <- isSingular (cim m) d ;;
  if s : bool then l <- startNodeLabel (cim m) d ;; o <- findNode (cim m) contours l 0 ;; orFail o
  else
    l <- edgeLabel (cim m) d ;; o <- findEdge (cim m) contours l 0 ;;
    match o with Some i => Ok i | None => o' <- findContour m contours l 0 ;; orFail o' end.

(** vector::erase(begin() + i) *)
Fixpoint eraseAt {A} (i : nat) (v : list A) : list A :=
  match v, i with [], _ => [] | _ :: t, O => t | h :: t, Datatypes.S k => h :: eraseAt k t end.

(** 190-198: removeNodeFromContours *)
Fixpoint removeNodeFromContours (m : cmap) (cs : list dart) (l : Z) : res (list dart) :=
  match cs with
  | [] => Ok []
  | c :: t =>
      s <- startNodeLabel (cim m) c ;; c' <- (if s =? l then nextPhi m c else Ok c) ;;
      t' <- removeNodeFromContours m t l ;; Ok (c' :: t')
  end.

(** 200-234 *)
Definition removeIsolatedNode (m : cmap) (d : dart) : res (cmap * Z) :=
  s <- isSingular (cim m) d ;;
  if negb s then Exn else
  nl <- startNodeLabel (cim m) d ;; n <- at_ (cnodes m) nl ;;
  fl <- leftFaceLabel (cim m) d ;; f <- at_ (cfaces m) fl ;;
  i <- findComponentAnchor m (fcontours f) d ;;
  m1 <- updFace m fl (setContours (eraseAt i (fcontours f))) ;;
  m2 <- relabelCell m1 Vertex (clabel (ninf n)) (cellPixel Region (clabel (finf f))) ;;
  m3 <- updFace m2 fl (onFace (fun c => CInfo (clabel c) (cbounds c) ((csize c + csize (ninf n)) mod 2 ^ 32))) ;;
  m4 <- updNode m3 nl (onNode uninitialize) ;;
  Ok (addCounts m4 (-1) 0 0, fl).

(** 289-292 (and 361-364): if(--node.degree && node.anchor.isSingular()) node.anchor.carefulNextSigma(); degree is an unsigned short *)
Definition dropDegree (m : cmap) (l : Z) : res cmap :=
  n <- at_ (cnodes m) l ;;
  let deg := (ndegree n - 1) mod 2 ^ 16 in
  a <- (if deg =? 0 then Ok (nanchor n) else s <- isSingular (cim m) (nanchor n) ;; if s : bool then carefulNextSigma (cim m) (nanchor n) else Ok (nanchor n)) ;;
  updNode m l (fun n => NInfo (ninf n) a deg).

(** 258-268: the anchor of the merged contour *)
Definition mergedAnchor (m : cmap) (el : Z) (a b : dart) : res dart :=
  l1 <- edgeLabel (cim m) a ;;
  if l1 =? el then
    a2 <- nextPhi m a ;; l2 <- edgeLabel (cim m) a2 ;;
    if l2 =? el then lb <- edgeLabel (cim m) b ;; if lb =? el then nextPhi m b else Ok b
    else Ok a2
  else Ok a.

(** 236-317 *)
Definition mergeFaces (m : cmap) (d : dart) : res (cmap * Z) :=
  ll <- leftFaceLabel (cim m) d ;; lf <- at_ (cfaces m) ll ;;
  rl <- rightFaceLabel (cim m) d ;; rf <- at_ (cfaces m) rl ;;
  rd <- (if rectArea (cbounds (finf lf)) <? rectArea (cbounds (finf rf)) then nextAlpha m d else Ok d) ;;
  el <- edgeLabel (cim m) rd ;; e <- at_ (cedges m) el ;;
  sl <- leftFaceLabel (cim m) rd ;; sf <- at_ (cfaces m) sl ;;
  ml <- rightFaceLabel (cim m) rd ;; mf <- at_ (cfaces m) ml ;;
  n1 <- startNodeLabel (cim m) (estart e) ;; nd1 <- at_ (cnodes m) n1 ;;
  n2 <- startNodeLabel (cim m) (eend e) ;; nd2 <- at_ (cnodes m) n2 ;;
  if clabel (finf sf) =? clabel (finf mf) then Exn else
  c1 <- findComponentAnchor m (fcontours sf) rd ;;
  c2 <- findComponentAnchor m (fcontours mf) rd ;;
  a1 <- vget (fcontours sf) c1 ;; a2 <- vget (fcontours mf) c2 ;;
  a <- mergedAnchor m (clabel (einf e)) a1 a2 ;;
  la <- edgeLabel (cim m) a ;;
  if (la =? clabel (einf e)) && negb (clabel (ninf nd1) =? clabel (ninf nd2)) then Exn else
  m1 <- updFace m sl (setContours (list_upd (fcontours sf) c1 a ++ eraseAt c2 (fcontours mf))) ;;
  m2 <- relabelCell m1 Line (clabel (einf e)) (cellPixel Region (clabel (finf sf))) ;;
  m3 <- relabelCell m2 Region (clabel (finf mf)) (cellPixel Region (clabel (finf sf))) ;;
  m4 <- dropDegree m3 n1 ;;
  m5 <- dropDegree m4 n2 ;;
  m6 <- updFace m5 sl (onFace (fun c => absorb (absorb c (einf e)) (finf mf))) ;;
  m7 <- updEdge m6 el (onEdge uninitialize) ;;
  m8 <- updFace m7 ml (onFace uninitialize) ;;
  Ok (addCounts m8 0 (-1) (-1), sl).

(** 319-383 *)
Definition removeBridge (m : cmap) (d : dart) : res (cmap * Z) :=
  s <- isSingular (cim m) d ;;
  if s : bool then Exn else
  el <- edgeLabel (cim m) d ;; e <- at_ (cedges m) el ;;
  fl <- leftFaceLabel (cim m) d ;; f <- at_ (cfaces m) fl ;;
  n1 <- startNodeLabel (cim m) (estart e) ;; _ <- at_ (cnodes m) n1 ;;
  n2 <- startNodeLabel (cim m) (eend e) ;; _ <- at_ (cnodes m) n2 ;;
  rl <- rightFaceLabel (cim m) d ;;
  if negb (clabel (finf f) =? rl) then Exn else
  a1 <- prevSigma (cim m) (estart e) ;; a2 <- prevSigma (cim m) (eend e) ;;
  c <- findComponentAnchor m (fcontours f) d ;;
  m1 <- updFace m fl (setContours (list_upd (fcontours f) c a1 ++ [a2])) ;;
  m2 <- relabelCell m1 Line (clabel (einf e)) (cellPixel Region (clabel (finf f))) ;;
  m3 <- dropDegree m2 n1 ;;
  m4 <- dropDegree m3 n2 ;;
  m5 <- updFace m4 fl (onFace (fun c => absorb c (einf e))) ;;
  m6 <- updEdge m5 el (onEdge uninitialize) ;;
  Ok (addCounts m6 0 (-1) 0, fl).

(** 408-411: the anchors of the faces on both sides *)
Definition leaveNode (m : cmap) (fl l : Z) : res cmap :=
  f <- at_ (cfaces m) fl ;; cs <- removeNodeFromContours m (fcontours f) l ;; updFace m fl (setContours cs).

(** 385-450 *)
Definition mergeEdges (m : cmap) (d : dart) : res (cmap * Z) :=
  let im := cim m in
  d1 <- nextSigma im d ;;
  l0 <- edgeLabel im d ;; e0 <- at_ (cedges m) l0 ;; l1 <- edgeLabel im d1 ;; e1 <- at_ (cedges m) l1 ;;
  let firstIsSmaller := rectArea (cbounds (einf e0)) <? rectArea (cbounds (einf e1)) in
  d2 <- (if firstIsSmaller then nextSigma im d1 else Ok d1) ;;
  ml <- edgeLabel im d2 ;; me <- at_ (cedges m) ml ;;
  nl <- startNodeLabel im d2 ;; n <- at_ (cnodes m) nl ;;
  d1 <- nextSigma im d2 ;;
  sl <- edgeLabel im d1 ;; se <- at_ (cedges m) sl ;;
  q <- dartEq im (if firstIsSmaller then d2 else d1) d ;;
  if negb q then Exn else
  if clabel (einf se) =? clabel (einf me) then Exn else
  fl <- leftFaceLabel im d1 ;; nl1 <- startNodeLabel im d1 ;;
  m1 <- leaveNode m fl nl1 ;;
  fr <- rightFaceLabel im d1 ;;
  m2 <- (if fl =? fr then Ok m1 else leaveNode m1 fr nl1) ;;
  a1 <- nextAlpha m2 d1 ;; a2 <- nextAlpha m2 d2 ;;
  m3 <- updEdge m2 sl (fun e => EInfo (einf e) a1 a2) ;;
  m4 <- relabelCell m3 Vertex (clabel (ninf n)) (cellPixel Line (clabel (einf se))) ;;
  m5 <- relabelCell m4 Line (clabel (einf me)) (cellPixel Line (clabel (einf se))) ;;
  m6 <- updEdge m5 sl (onEdge (fun c => absorb (absorb c (ninf n)) (einf me))) ;;
  m7 <- updNode m6 nl (onNode uninitialize) ;;
  m8 <- updEdge m7 ml (onEdge uninitialize) ;;
  Ok (addCounts m8 (-1) (-1) 0, sl).

Inductive ccall := CRemoveIsolatedNode (d : dart) | CMergeFaces (d : dart) | CRemoveBridge (d : dart) | CMergeEdges (d : dart).
Definition cexec (m : cmap) (c : ccall) : res (cmap * Z) :=
  match c with
  | CRemoveIsolatedNode d => removeIsolatedNode m d
  | CMergeFaces d => mergeFaces m d
  | CRemoveBridge d => removeBridge m d
  | CMergeEdges d => mergeEdges m d
  end.
