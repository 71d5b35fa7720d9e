(** Model of the constructor GeoMap(const CellImage &importImage) of the pixel based map (foureightsegmentation.cxx 82-131) and of
    initNodeList, initEdgeList, initFaceList, which the other constructors call, too.

    Calls into vigra are parameters: the area enclosed by the outer contour of a node (CrackContourCirculator, 942-955), the labels of the regions
    along that contour (983-994) and the connected components of the contour image (labelImageWithBackground, 1084-1091). *)
From Verif Require Import Base CellMap_Model.
Local Open Scope Z_scope.

Fixpoint forEach {A S} (f : S -> A -> res S) (l : list A) (s : S) : res S :=
  match l with [] => Ok s | a :: t => s' <- f s a ;; forEach f t s' end.

Definition upFrom (a b : Z) : list Z := map (fun i => a + Z.of_nat i) (seq 0 (Z.to_nat (b - a))).
(** for(y = y0; y < y1; ++y) for(x = x0; x < x1; ++x) *)
Definition rectPoints (r : rect) : list (Z * Z) := flat_map (fun y => map (fun x => (x, y)) (upFrom (rx0 r) (rx1 r))) (upFrom (ry0 r) (ry1 r)).
(** all pixels, and those the loops of initNodeList and initFaceList look at (from (-1, -1) to (width - 4, height - 4) seen from [cells]) *)
Definition allPoints (im : img) : list (Z * Z) := rectPoints (Rect 0 0 (iw im) (ih im)).
Definition innerPoints (im : img) : list (Z * Z) := rectPoints (Rect 1 1 (iw im - 1) (ih im - 1)).

Section Init.
Variable crackArea : img -> Z -> Z -> Z.
Variable outerRegions : img -> Z -> Z -> list Z.
Variable components : img -> (Z -> Z -> Z) * nat.

(** ** initNodeList, 900-1027 *)

(** 934-939: do { ++degree; } while(dart.nextSigma() != anchor); *)
Fixpoint degreeLoop (fuel : nat) (im : img) (anchor d : dart) (deg : Z) : res Z :=
  match fuel with
  | O => NoFuel
  | Datatypes.S k =>
      d' <- nextSigma im d ;; q <- dartEq im d' anchor ;;
      let deg' := (deg + 1) mod 2 ^ 16 in if q : bool then Ok deg' else degreeLoop k im anchor d' deg'
  end.

(** bounds |= pos; ++size; *)
Definition addPixel (x y : Z) (c : cinfo) : cinfo := CInfo (clabel c) (rectOrPoint (cbounds c) x y) ((csize c + 1) mod 2 ^ 32).

(** 909-961: the body of the loop over the pixels; the vector crackCirculatedAreas goes along *)
Definition initNodePix (st : cmap * list Z) (p : Z * Z) : res (cmap * list Z) :=
  let m := fst st in let x := fst p in let y := snd p in
  c <- readPix (cim m) x y ;;
  if negb (ctypeEqb (ptype c) Vertex) then Ok st else
  let l := plabel c in
  if negb (l <? Z.of_nat (length (cnodes m))) then Exn else
  n <- at_ (cnodes m) l ;;
  st1 <- (if initialized (ninf n) then Ok st else
            a <- makeDart (cim m) (Dart x y 4) ;; s <- isSingular (cim m) a ;;
            deg <- (if s : bool then Ok 0 else degreeLoop (walkFuel (cim m)) (cim m) a a 0) ;;
            m1 <- updNode m l (fun n => NInfo (CInfo l (cbounds (ninf n)) (csize (ninf n))) a deg) ;;
            areas <- put (snd st) l (crackArea (cim m) x y) ;;
            Ok (addCounts m1 1 0 0, areas)) ;;
  m2 <- updNode (fst st1) l (onNode (addPixel x y)) ;;
  Ok (m2, snd st1).

(** 977-978: while( *anchor != nodePixel) ++anchor.x; *)
Fixpoint seekRight (fuel : nat) (im : img) (v : pix) (x y : Z) : res Z :=
  match fuel with
  | O => NoFuel
  | Datatypes.S k => p <- readPix im x y ;; if pixEqb p v then Ok x else seekRight k im v (x + 1) y
  end.
(** 1007-1011: transformImageIf over the bounds of the node; the number is that of the HoleRemover (880-898) *)
Definition fillStep (hole node : pix) (st : img * Z) (p : Z * Z) : res (img * Z) :=
  q <- readPix (fst st) (fst p) (snd p) ;;
  if pixEqb q hole then im <- writePix (fst st) (fst p) (snd p) node ;; Ok (im, snd st + 1) else Ok st.
Definition fillHole (im : img) (r : rect) (hole node : pix) : res (img * Z) := forEach (fillStep hole node) (rectPoints r) (im, 0).

Definition memZ (z : Z) (l : list Z) : bool := existsb (Z.eqb z) l.
(** 999-1018: one row; [true]: goto HolesStuffed *)
Fixpoint stuffRow (fuel : nat) (im : img) (size : Z) (node : pix) (outer : list Z) (area : Z) (r : rect) (x y : Z) : res (img * Z * bool) :=
  match fuel with
  | O => NoFuel
  | Datatypes.S k =>
      if negb (x <? rx1 r - 1) then Ok (im, size, false) else
      p <- readPix im x y ;;
      if negb (pixEqb p node) then stuffRow k im size node outer area r (x + 1) y else
      q <- readPix im (x + 1) y ;;
      if ctypeEqb (ptype q) Region && negb (memZ (plabel q) outer) then
        f <- fillHole im r q node ;;
        let size' := (size + snd f) mod 2 ^ 32 in
        if area =? size' then Ok (fst f, size', true) else stuffRow k (fst f) size' node outer area r (x + 2) y
      else stuffRow k im size node outer area r (x + 1) y
  end.
(** 997-1019: all rows *)
Fixpoint stuffRows (im : img) (size : Z) (node : pix) (outer : list Z) (area : Z) (r : rect) (ys : list Z) : res (img * Z) :=
  match ys with
  | [] => Ok (im, size)
  | y :: t =>
      f <- stuffRow (S (Z.to_nat (rx1 r - rx0 r))) im size node outer area r (rx0 r) y ;;
      if snd f then Ok (fst f) else stuffRows (fst (fst f)) (snd (fst f)) node outer area r t
  end.
(** 963-1026: the loop over the nodes *)
Definition stuffNode (areas : list Z) (m : cmap) (i : nat) : res cmap :=
  n <- at_ (cnodes m) (Z.of_nat i) ;;
  if negb (initialized (ninf n)) then Ok m else
  area <- at_ areas (clabel (ninf n)) ;;
  if area =? csize (ninf n) then Ok m else
  let r := cbounds (ninf n) in let node := cellPixel Vertex (clabel (ninf n)) in
  ax <- seekRight (walkFuel (cim m)) (cim m) node (rx0 r) (ry0 r) ;;
  f <- stuffRows (cim m) (csize (ninf n)) node (outerRegions (cim m) ax (ry0 r)) area r (upFrom (ry0 r) (ry1 r)) ;;
  updNode (setIm m (fst f)) (Z.of_nat i) (onNode (fun c => CInfo (clabel c) (cbounds c) (snd f))).

Definition initNodeList (m : cmap) : res cmap :=
  st <- forEach initNodePix (innerPoints (cim m)) (m, repeat 0 (length (cnodes m))) ;;
  forEach (stuffNode (snd st)) (seq 0 (length (cnodes (fst st)))) (fst st).

(** ** initEdgeList, 1031-1076 *)

(** 1042-1072: the darts around one node *)
Fixpoint initEdgesAround (fuel : nat) (m : cmap) (dend d : dart) : res cmap :=
  match fuel with
  | O => NoFuel
  | Datatypes.S k =>
      l <- edgeLabel (cim m) d ;;
      if negb (l <? Z.of_nat (length (cedges m))) then Exn else
      e <- at_ (cedges m) l ;;
      m1 <- (if initialized (einf e) then Ok m else
               o <- nextAlpha m d ;; m1 <- updEdge m l (fun e => EInfo (CInfo l (cbounds (einf e)) 0) d o) ;; Ok (addCounts m1 0 1 0)) ;;
      d' <- nextSigma (cim m) d ;; q <- dartEq (cim m) d' dend ;;
      if q : bool then Ok m1 else initEdgesAround k m1 dend d'
  end.
Definition initEdgesOf (m : cmap) (i : nat) : res cmap :=
  n <- at_ (cnodes m) (Z.of_nat i) ;;
  if negb (initialized (ninf n)) then Ok m else
  s <- isSingular (cim m) (nanchor n) ;;
  if s : bool then Ok m else initEdgesAround (walkFuel (cim m)) m (nanchor n) (nanchor n).
Definition initEdgeList (m : cmap) : res cmap := forEach initEdgesOf (seq 0 (length (cnodes m))) m.

(** ** initFaceList, 1080-1222 *)

(** 1138-1147 and 1187-1196: an anchor from a node; the dart must have the face on its left *)
Definition anchorAt (m : cmap) (l : Z) (d : dart) : res dart :=
  a <- makeDart (cim m) d ;; a' <- prevSigma (cim m) a ;; k <- leftFaceLabel (cim m) a' ;; if k =? l then Ok a' else Exn.
(** 1151-1167 and 1200-1215: an anchor from an edge *)
Definition anchorOf (m : cmap) (l : Z) (p : pix) : res dart :=
  if negb (ctypeEqb (ptype p) Line) then Exn else
  e <- at_ (cedges m) (plabel p) ;;
  if negb (initialized (einf e)) then Exn else
  k <- leftFaceLabel (cim m) (estart e) ;;
  a <- (if k =? l then Ok (estart e) else nextAlpha m (estart e)) ;;
  k' <- leftFaceLabel (cim m) a ;; if k' =? l then Ok a else Exn.
Definition pushAnchor (m : cmap) (l : Z) (a : dart) : res cmap := updFace m l (fun f => FInfo (finf f) (fcontours f ++ [a])).

(** 1175-1217: the neighbours of a pixel whose face was seen before *)
Definition innerContour (comp : Z -> Z -> Z) (l x y : Z) (st : cmap * list bool) (k : Z) : res (cmap * list bool) :=
  let m := fst st in let nx := x + dirX k in let ny := y + dirY k in
  if negb (insideImg (cim m) nx ny) then UB else
  let i := comp nx ny in
  if i =? 0 then Ok st else
  b <- at_ (snd st) i ;;
  if b : bool then Ok st else
  done <- put (snd st) i true ;;
  p <- readPix (cim m) nx ny ;;
  a <- (if ctypeEqb (ptype p) Vertex then anchorAt m l (swapCenterNeighbor (Dart x y k)) else anchorOf m l p) ;;
  m' <- pushAnchor m l a ;; Ok (m', done).

(** 1110-1220: the body of the loop over the pixels *)
Definition initFacePix (comp : Z -> Z -> Z) (st : cmap * list bool) (p : Z * Z) : res (cmap * list bool) :=
  let m := fst st in let x := fst p in let y := snd p in
  c <- readPix (cim m) x y ;;
  match ptype c with
  | Line => m' <- updEdge m (plabel c) (onEdge (addPixel x y)) ;; Ok (m', snd st)
  | Region =>
      let l := plabel c in
      if negb (l <? Z.of_nat (length (cfaces m))) then Exn else
      f <- at_ (cfaces m) l ;;
      st1 <- (if initialized (finf f) then forEach (innerContour comp l x y) [0; 1; 2; 3; 4; 5; 6; 7] st
              else
                m1 <- updFace m l (onFace (fun c => CInfo l (cbounds c) (csize c))) ;;
                let m2 := addCounts m1 0 0 1 in
                q <- readPix (cim m) (x - 1) y ;;
                a <- (if ctypeEqb (ptype q) Vertex then anchorAt m2 l (Dart (x - 1) y 0) else anchorOf m2 l q) ;;
                m3 <- pushAnchor m2 l a ;; Ok (m3, snd st)) ;;
      m' <- updFace (fst st1) l (onFace (addPixel x y)) ;; Ok (m', snd st1)
  | _ => Ok st
  end.

Definition initFaceList (m : cmap) : res cmap :=
  let im := cim m in
  let comp := fst (components im) in
  m1 <- updFace m 0 (onFace (fun c => CInfo 0 (rectOrPoint (rectOrPoint (cbounds c) 0 0) (iw im - 1) (ih im - 1)) (2 ^ 32 - 1))) ;;
  let m2 := addCounts m1 0 0 1 in
  a <- makeDart im (Dart 1 1 4) ;; a' <- prevSigma im a ;;
  m3 <- pushAnchor m2 0 a' ;;
  done <- put (repeat false (S (snd (components im)))) (comp 1 1) true ;;
  st <- forEach (initFacePix comp) (innerPoints im) (m3, done) ;; Ok (fst st).

(** ** The constructor, 82-131 *)

(** 66-80, 91-112: FindMaxLabel *)
Definition maxLabelOf (im : img) (t : ctype) : Z :=
  fold_left (fun a p => let c := ipix im (fst p) (snd p) in if ctypeEqb (ptype c) t then Z.max a (plabel c) else a) (allPoints im) 0.
Definition newNode : ninfo := NInfo newInfo noDart 0.
Definition newEdge : einfo := EInfo newInfo noDart noDart.
Definition newFace : finfo := FInfo newInfo [].
(** 901, 1033, 1082: the lists are resized to maxLabel + 1 *)
Definition blank (im : img) (n e f : Z) : cmap :=
  CMap im (repeat newNode (Z.to_nat (n + 1))) (repeat newEdge (Z.to_nat (e + 1))) (repeat newFace (Z.to_nat (f + 1))) 0 0 0 false.
Definition import (im : img) : res cmap :=
  m1 <- initNodeList (blank im (maxLabelOf im Vertex) (maxLabelOf im Line) (maxLabelOf im Region)) ;;
  m2 <- initEdgeList m1 ;;
  m3 <- initFaceList m2 ;;
  Ok (CMap (cim m3) (cnodes m3) (cedges m3) (cfaces m3) (nodeCount m3) (edgeCount m3) (faceCount m3) true).
End Init.
