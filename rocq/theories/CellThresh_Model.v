(** Model of the constructors of the pixel based map that make a map from an image and the value of its boundaries
    (foureightsegmentation.hxx 737-784): initGeoMapContourImage (foureightsegmentation.hxx 319-343), the table of cellconfigurations.hxx,
    initCellImage, labelNodes, labelEdges, labelFaces, labelSelfLoops, labelEdge (foureightsegmentation.cxx 652-877).

    Simplifications:
    - all coordinates count from the upper left pixel, as in CellMap_Model.v;
    - the image is its size and the answer to "has this pixel the boundary value?";
    - vigra's labelImageWithBackground is replaced by an algorithm of our own: components connected through the neighbours of four or eight directions
      get the labels 1, 2, ... in the order of their first pixels; pixels of the background are not written. *)
From Verif Require Import Base CellMap_Model CellMap_Init.
Local Open Scope Z_scope.

(** cellimage.hxx 40-45: the values that occur in the table *)
Inductive config := CfVertex | CfLine | CfError | CfVertexOrLine | CfErrorOrLine.
(** cellconfigurations.hxx 38-1318: the entries 0 to 255 *)
Definition cellConfigurations : list config :=
  let V := CfVertex in let L := CfLine in let X := CfError in let VL := CfVertexOrLine in let XL := CfErrorOrLine in [
   V; V; V; V; V; VL; V; V; V; L; L; L; V; VL; V; X;
   V; L; L; L; VL; V; VL; V; V; L; L; L; V; V; X; V;
   V; L; L; L; L; V; L; V; L; V; V; V; L; V; L; V;
   V; L; L; L; VL; V; XL; X; V; L; L; L; X; V; X; X;
   V; VL; L; VL; L; V; L; V; L; V; V; V; L; V; L; V;
   VL; V; V; V; V; V; V; V; VL; V; V; V; V; V; V; V;
   V; VL; L; XL; L; V; L; X; L; V; V; V; L; V; L; X;
   V; V; V; X; V; V; X; V; X; V; V; X; V; V; X; V;
   V; V; L; V; L; VL; L; X; L; L; V; L; L; XL; L; X;
   L; L; V; L; V; V; V; V; L; L; V; L; V; X; V; X;
   L; L; V; L; V; V; V; V; V; V; V; V; V; V; V; V;
   L; L; V; L; V; V; V; X; L; L; V; L; V; X; V; X;
   V; V; L; X; L; V; L; V; L; V; V; V; L; X; L; X;
   VL; V; V; V; V; V; V; V; XL; X; V; X; X; V; X; V;
   V; X; L; X; L; V; L; X; L; V; V; V; L; X; L; X;
   X; V; V; X; V; V; X; V; X; X; V; X; X; V; X; V].

(** foureightsegmentation.cxx 652-670: ChooseCellConfiguration; [cornerVertex]: cornerType == CellTypeVertex *)
Definition chooseType (cornerVertex : bool) (c : config) : ctype :=
  match c with
  | CfVertex => Vertex | CfLine => Line | CfError => ErrorType
  | CfVertexOrLine => if cornerVertex then Vertex else Line
  | CfErrorOrLine => if cornerVertex then ErrorType else Line
  end.

Section Threshold.
Variable cornerVertex : bool.
(** the size of the image, and the pixels with the boundary value *)
Variables w h : Z.
Variable boundary : Z -> Z -> bool.

Definition within (a b z : Z) : bool := (a <=? z) && (z <? b).
(** foureightsegmentation.hxx 319-343: the contour image; [true] is 1 *)
Definition contourAt (x y : Z) : bool :=
  if within 2 (w + 2) x && within 2 (h + 2) y then boundary (x - 2) (y - 2)
  else within 1 (w + 3) x && within 1 (h + 3) y.
Definition readContour (x y : Z) : res bool := if within 0 (w + 4) x && within 0 (h + 4) y then Ok (contourAt x y) else UB.

(** foureightsegmentation.cxx 695-703: the neighbours from SouthEast on clockwise *)
Fixpoint readConf (x y : Z) (ks : list Z) (conf : Z) : res Z :=
  match ks with [] => Ok conf | k :: t => b <- readContour (x + dirX k) (y + dirY k) ;; readConf x y t (2 * conf + Z.b2z b) end.
(** foureightsegmentation.cxx 687-717: one pixel *)
Definition initCellPix (im : img) (p : Z * Z) : res img :=
  let x := fst p in let y := snd p in
  b <- readContour x y ;;
  if negb b then writePix im x y (Pix Region 0) else
  conf <- readConf x y [7; 6; 5; 4; 3; 2; 1; 0] 0 ;;
  match chooseType cornerVertex (nth (Z.to_nat conf) cellConfigurations CfError) with
  | ErrorType => Exn
  | t => writePix im x y (Pix t 0)
  end.
(** foureightsegmentation.hxx 768 and foureightsegmentation.cxx 672-728 *)
Definition initCellImage : res img :=
  let im := Img (w + 4) (h + 4) (fun _ _ => Pix ErrorType 0) in
  im' <- forEach initCellPix (allPoints im) im ;; writePix im' 1 1 (Pix Vertex 0).
End Threshold.

(** ** Connected components *)
Definition neighbourCode (eight : bool) : list Z := if eight then [0; 1; 2; 3; 4; 5; 6; 7] else [0; 2; 4; 6].
Definition inRectB (r : rect) (x y : Z) : bool := within (rx0 r) (rx1 r) x && within (ry0 r) (ry1 r) y.
(** the number of a pixel *)
Definition pixelIndex (r : rect) (p : Z * Z) : Z := (snd p - ry0 r) * (rx1 r - rx0 r) + (fst p - rx0 r).
Definition step8 (p : Z * Z) (k : Z) : Z * Z := (fst p + dirX k, snd p + dirY k).
(** the pixels of the foreground that touch each other *)
Definition touching (eight : bool) (r : rect) (fg : Z -> Z -> bool) : list ((Z * Z) * (Z * Z)) :=
  let on p := inRectB r (fst p) (snd p) && fg (fst p) (snd p) in
  flat_map (fun p => if on p then map (fun k => (p, step8 p k)) (filter (fun k => on (step8 p k)) (neighbourCode eight)) else []) (rectPoints r).
Definition mergeTwo (lab : Z * Z -> Z) (pq : (Z * Z) * (Z * Z)) : Z * Z -> Z :=
  let a := lab (fst pq) in let b := lab (snd pq) in
  let lo := Z.min a b in let hi := Z.max a b in
  fun p => let v := lab p in if v =? hi then lo else v.
(** the number of the first pixel of the component *)
Definition rootOf (eight : bool) (r : rect) (fg : Z -> Z -> bool) : Z * Z -> Z := fold_left mergeTwo (touching eight r fg) (pixelIndex r).
Fixpoint position (v : Z) (l : list Z) : Z := match l with [] => 0 | a :: t => if a =? v then 0 else 1 + position v t end.
Definition firstsOf (eight : bool) (r : rect) (fg : Z -> Z -> bool) : list Z :=
  let root := rootOf eight r fg in
  map (pixelIndex r) (filter (fun p => fg (fst p) (snd p) && (root p =? pixelIndex r p)) (rectPoints r)).
(** the labels, and how many there are *)
Definition labelComponents (eight : bool) (r : rect) (fg : Z -> Z -> bool) : (Z -> Z -> Z) * Z :=
  let root := rootOf eight r fg in let firsts := firstsOf eight r fg in
  (fun x y => 1 + position (root (x, y)) firsts, Z.of_nat (length firsts)).
(** cellimage.hxx 170-180: LabelWriter *)
Definition writeLabels (im : img) (t : ctype) (r : rect) (fg : Z -> Z -> bool) (lab : Z -> Z -> Z) : img :=
  Img (iw im) (ih im) (fun x y => if inRectB r x y && fg x y then cellPixel t (lab x y) else ipix im x y).

(** foureightsegmentation.cxx 732-771: the image and the greatest label *)
Definition labelNodes (im : img) : img * Z :=
  let r := Rect 0 0 (iw im) (ih im) in let fg := fun x y => ctypeEqb (ptype (ipix im x y)) Vertex in
  let c := labelComponents true r fg in (writeLabels im Vertex r fg (fst c), snd c).

(** foureightsegmentation.cxx 867-877: for(; !edge.atEnd(); ++edge) edge->setLabel(newLabel, CellTypeLine); *)
Fixpoint labelEdge (fuel : nat) (im : img) (d : dart) (l : Z) : res img :=
  match fuel with
  | O => NoFuel
  | Datatypes.S k =>
      im' <- writePix im (dcx d + dirX (ddir d mod 8)) (dcy d + dirY (ddir d mod 8)) (cellPixel Line l) ;;
      r <- edgelNext im' d ;; if snd r then Ok im' else labelEdge k im' (fst r) l
  end.

(** foureightsegmentation.cxx 801-808: the darts of one node *)
Fixpoint labelAround (fuel : nat) (im : img) (dend d : dart) (max : Z) : res (img * Z) :=
  match fuel with
  | O => NoFuel
  | Datatypes.S k =>
      l <- edgeLabel im d ;;
      st <- (if negb (l =? 0) then Ok (im, max)
             else let l' := (max + 1) mod 2 ^ 32 in im' <- labelEdge (walkFuel im) im d l' ;; Ok (im', l')) ;;
      d' <- nextSigma (fst st) d ;; q <- dartEq (fst st) d' dend ;;
      if q : bool then Ok st else labelAround k (fst st) dend d' (snd st)
  end.
(** foureightsegmentation.cxx 786-809: one pixel; the vector nodeProcessed goes along *)
Definition labelEdgesPix (st : img * list bool * Z) (p : Z * Z) : res (img * list bool * Z) :=
  let im := fst (fst st) in let x := fst p in let y := snd p in
  c <- readPix im x y ;;
  if negb (ctypeEqb (ptype c) Vertex) then Ok st else
  b <- at_ (snd (fst st)) (plabel c) ;;
  if b : bool then Ok st else
  done <- put (snd (fst st)) (plabel c) true ;;
  d <- makeDart im (Dart x y 4) ;;
  s <- isSingular im d ;;
  if s : bool then Ok (im, done, snd st) else
  r <- labelAround (walkFuel im) im d d (snd st) ;; Ok (fst r, done, snd r).
(** foureightsegmentation.cxx 775-813 *)
Definition labelEdges (im : img) (maxNode : Z) : res (img * Z) :=
  st <- forEach labelEdgesPix (innerPoints im) (im, repeat false (Z.to_nat (maxNode + 1)), 0) ;; Ok (fst (fst st), snd st).

(** foureightsegmentation.cxx 817-828 *)
Definition labelFaces (im : img) (contour : Z -> Z -> bool) : img * Z :=
  let r := Rect 1 1 (iw im - 1) (ih im - 1) in let fg := fun x y => negb (contour x y) in
  let c := labelComponents false r fg in (writeLabels im Region r fg (fst c), snd c).

(** foureightsegmentation.cxx 848-860: the neighbours of the new node *)
Definition labelLoopFrom (x y : Z) (st : img * Z) (k : Z) : res (img * Z) :=
  p <- neighborPix (fst st) (Dart x y k) 0 ;;
  if negb (ctypeEqb (ptype p) Line) then Ok st else
  if negb (plabel p =? 0) then Ok st else
  let l := (snd st + 1) mod 2 ^ 32 in
  im' <- labelEdge (walkFuel (fst st)) (fst st) (Dart x y k) l ;; Ok (im', l).
(** foureightsegmentation.cxx 839-861: one pixel; the greatest labels of the nodes and of the edges go along *)
Definition labelLoopPix (st : img * Z * Z) (p : Z * Z) : res (img * Z * Z) :=
  let im := fst (fst st) in let x := fst p in let y := snd p in
  c <- readPix im x y ;;
  if negb (plabel c =? 0) then Ok st else
  let n := (snd (fst st) + 1) mod 2 ^ 32 in
  im' <- writePix im x y (cellPixel Vertex n) ;;
  r <- forEach (labelLoopFrom x y) [0; 1; 2; 3; 4; 5; 6; 7] (im', snd st) ;;
  Ok (fst r, n, snd r).
(** foureightsegmentation.cxx 832-863 *)
Definition labelSelfLoops (im : img) (maxNode maxEdge : Z) : res (img * Z * Z) :=
  forEach labelLoopPix (innerPoints im) (im, maxNode, maxEdge).

(** foureightsegmentation.hxx 763-775: the cell image and the greatest labels of the nodes, the edges, and the faces *)
Definition cellImageOf (cornerVertex : bool) (w h : Z) (boundary : Z -> Z -> bool) : res (img * Z * Z * Z) :=
  im0 <- initCellImage cornerVertex w h boundary ;;
  let n := labelNodes im0 in
  e <- labelEdges (fst n) (snd n) ;;
  let f := labelFaces (fst e) (contourAt w h boundary) in
  s <- labelSelfLoops (fst f) (snd n) (snd e) ;;
  Ok (fst (fst s), snd (fst s), snd s, snd f).

(** foureightsegmentation.hxx 757-784, 737-753 *)
Definition threshold (crackArea : img -> Z -> Z -> Z) (outerRegions : img -> Z -> Z -> list Z) (components : img -> (Z -> Z -> Z) * nat)
    (cornerVertex : bool) (w h : Z) (boundary : Z -> Z -> bool) : res cmap :=
  r <- cellImageOf cornerVertex w h boundary ;;
  let im := fst (fst (fst r)) in
  m1 <- initNodeList crackArea outerRegions (blank im (snd (fst (fst r))) (snd (fst r)) (snd r)) ;;
  m2 <- initEdgeList m1 ;;
  m3 <- initFaceList components m2 ;;
  Ok (CMap (cim m3) (cnodes m3) (cedges m3) (cfaces m3) (nodeCount m3) (edgeCount m3) (faceCount m3) true).
