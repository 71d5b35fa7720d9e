(** Model of the label image of a GeoMap: src/geomap/cppmap.cxx 965-1026, 1057-1253, 1673-1767 and the
    statements about labelImage_, faceLabelLUT_, pixelArea_ and scanLines_ in the Euler operations.

    The map itself is GeoMap_Model.v; every operation below runs the operation of that model and adds
    the statements left out there.  In the code they are interleaved; the two parts read and write
    different data.

    Simplifications (also listed in DESIGN.md): coordinates are multiples of 1/[unit] for an arbitrary
    [unit]; int and unsigned int do not overflow; an image is its size and a function, accesses outside
    the size are [UB]; the tables pixelArea_ and scanLines_ are functions of the label; scanPoly is
    ScanPoly_Model.v, in exact arithmetic, with the bounding box computed afresh; [srt] is std::sort;
    an exception thrown half-way leaves no state (except in [relabelFaces]). *)
From Coq Require Import QArith.
From Verif Require Import Base GeoMap_Model Scanlines_Model ScanPoly_Model LabelLUT_Model.
Local Open Scope Z_scope.

(** cppmap.hxx 206: LabelImage, a vigra::MultiArray<2, int> *)
Record image := mkImg { iw : Z; ih : Z; ipx : Z -> Z -> Z }.
Definition insideB (img : image) (x y : Z) : bool := (0 <=? x) && (x <? iw img) && (0 <=? y) && (y <? ih img).
Definition pixGet (img : image) (x y : Z) : res Z := if insideB img x y then Ok (ipx img x y) else UB.
Definition pixPut (img : image) (x y v : Z) : res image :=
  if insideB img x y then Ok (mkImg (iw img) (ih img) (fun a b => if (a =? x) && (b =? y) then v else ipx img a b)) else UB.

(** ** The loops over the pixels of scanlines: cppmap.cxx 1673-1697, 1699-1727, 1729-1767.
    They differ in what is done with a pixel: [body] maps the old value to the new one and says whether the
    pixel is appended to the output list. *)
Fixpoint walkRun (n : nat) (body : Z -> Z * bool) (img : image) (x y : Z) : res (image * list (Z * Z)) :=
  match n with
  | O => Ok (img, [])
  | S k =>
      v <- pixGet img x y ;;
      img <- pixPut img x y (fst (body v)) ;;
      r <- walkRun k body img (x + 1) y ;;
      Ok (fst r, if snd (body v) then (x, y) :: snd r else snd r)
  end.
Fixpoint walkSegs (body : Z -> Z * bool) (img : image) (y : Z) (l : list seg) : res (image * list (Z * Z)) :=
  match l with
  | [] => Ok (img, [])
  | g :: t =>
      let b := if sbeg g <? 0 then 0 else sbeg g in
      let e := if send g >? iw img then iw img else send g in
      r1 <- walkRun (Z.to_nat (e - b)) body img b y ;;
      r2 <- walkSegs body (fst r1) y t ;;
      Ok (fst r2, snd r1 ++ snd r2)
  end.
Fixpoint walkRows (n : nat) (body : Z -> Z * bool) (s : scanlines) (img : image) (y : Z) : res (image * list (Z * Z)) :=
  match n with
  | O => Ok (img, [])
  | S k =>
      l <- lineAt s y ;;
      r1 <- walkSegs body img y l ;;
      r2 <- walkRows k body s (fst r1) (y + 1) ;;
      Ok (fst r2, snd r1 ++ snd r2)
  end.
Definition walkEdge (body : Z -> Z * bool) (s : scanlines) (img : image) : res (image * list (Z * Z)) :=
  let y := Z.max 0 (sl_start s) in
  let endY := Z.min (ih img) (endIndex s) in
  walkRows (Z.to_nat (endY - y)) body s img y.

(** cppmap.cxx 1673-1697 *)
Definition rawAddEdge (s : scanlines) (img : image) (diff : Z) : res image :=
  r <- walkEdge (fun v => (v + diff, false)) s img ;; Ok (fst r).
(** cppmap.cxx 1699-1727 *)
Definition markEdge (s : scanlines) (img : image) : res image :=
  r <- walkEdge (fun v => (if v >=? 0 then -1 else v - 1, false)) s img ;; Ok (fst r).
(** cppmap.cxx 1729-1767 *)
Definition removeEdgeFrom (s : scanlines) (img : image) (substitute : Z) : res (image * list (Z * Z)) :=
  walkEdge (fun v => if negb (v =? -1) then (v + 1, false) else (substitute, true)) s img.

(** ** The state *)

Record lmap := mkLM {
  lg : gmap;
  lsize : Z * Z;                      (* imageSize_ *)
  lim : option image;                 (* labelImage_ *)
  llut : lut;                         (* faceLabelLUT_ *)
  larea : nat -> Z;                   (* Face::pixelArea_ *)
  lsc : nat -> option scanlines }.    (* Edge::scanLines_ *)

Definition set_lg st v := mkLM v (lsize st) (lim st) (llut st) (larea st) (lsc st).
Definition set_lim st v := mkLM (lg st) (lsize st) v (llut st) (larea st) (lsc st).
Definition set_llut st v := mkLM (lg st) (lsize st) (lim st) v (larea st) (lsc st).
Definition set_larea st v := mkLM (lg st) (lsize st) (lim st) (llut st) v (lsc st).
Definition set_lsc st v := mkLM (lg st) (lsize st) (lim st) (llut st) (larea st) v.
Definition updN {A} (f : nat -> A) (l : nat) (v : A) : nat -> A := fun k => if Nat.eqb k l then v else f k.

(** cppmap.cxx 230-243: the constructor with an image size *)
Definition newMap (w h : Z) : lmap := mkLM empty_map (w, h) None (initIdentity 0) (fun _ => 0) (fun _ => None).

(** statements inside if(labelImage_) *)
Definition onImage {A} (st : lmap) (f : image -> res A) (dflt : A) : res A :=
  match lim st with Some img => f img | None => Ok dflt end.
Definition ifImage (st : lmap) (f : lmap -> image -> res lmap) : res lmap :=
  match lim st with Some img => f st img | None => Ok st end.

Section Model.
Variable srt : list seg -> list seg.
Variable unit : positive.

Definition toQ (p : point) : Q * Q := (fst p # unit, snd p # unit)%Q.
Definition minY (p : point) (t : list point) : Z := fold_left (fun a q => Z.min a (snd q)) t (snd p).
Definition maxY (p : point) (t : list point) : Z := fold_left (fun a q => Z.max a (snd q)) t (snd p).
(** polygon.hxx 1946-1953 for the points of an edge; the bounding box of no point cannot be converted to int *)
Definition scanEdge (pts : list point) : res scanlines :=
  match pts with
  | [] => UB
  | p :: t => Ok (scanPolyBBox srt (map toQ pts) (minY p t # unit) (maxY p t # unit))
  end.

(** cppmap.hxx 686-691: Edge::scanLines() of the edge with label [l] *)
Definition edgeScan st (l : nat) : res (lmap * scanlines) :=
  e <- deref (edgeP (lg st) l) ;;
  match lsc st l with
  | Some s => Ok (st, s)
  | None => s <- scanEdge (epts e) ;; Ok (set_lsc st (updN (lsc st) l (Some s)), s)
  end.

(** do ... while(dart.nextPhi() != anchor): the darts visited *)
Fixpoint orbitLoop (n : nat) m (a d : Z) : res (list Z) :=
  match n with
  | O => NoFuel
  | S k => d' <- nextPhi m d ;; if d' =? a then Ok [d] else r <- orbitLoop k m a d' ;; Ok (d :: r)
  end.
(** cppmap.hxx 1146-1163: y range of the bounding box of the contour *)
Fixpoint boundY m (ds : list Z) (acc : option (Z * Z)) : res (option (Z * Z)) :=
  match ds with
  | [] => Ok acc
  | d :: t =>
      e <- deref (edgeP m (elab d)) ;;
      match epts e with
      | [] => boundY m t acc
      | p :: q => let lo := minY p q in let hi := maxY p q in
          boundY m t (Some (match acc with Some (a, b) => (Z.min a lo, Z.max b hi) | None => (lo, hi) end))
      end
  end.
(** cppmap.hxx 1221-1233: merging the scanlines of the contour's darts *)
Fixpoint mergeScans st (ds : list Z) (acc : scanlines) : res (lmap * scanlines) :=
  match ds with
  | [] => Ok (st, acc)
  | d :: t =>
      r <- edgeScan st (elab d) ;;
      acc <- merge acc (if 0 <? d then snd r else reverseLines (snd r)) ;;
      mergeScans (fst r) t acc
  end.
(** cppmap.hxx 1209-1236: Face::scanLines() of the face with label [l] *)
Definition faceScan st (l : nat) : res (lmap * scanlines) :=
  f <- deref (faceP (lg st) l) ;;
  if Nat.eqb l 0 then Exn else
  a <- vget (fanchors f) 0 ;;
  ds <- orbitLoop (fuel (lg st)) (lg st) a a ;;
  bb <- boundY (lg st) ds None ;;
  match bb with
  | None => UB
  | Some (lo, hi) =>
      let startIndex := Qround.Qfloor ((lo # unit) + (1#2)) in
      let endIdx := Qround.Qfloor ((hi # unit) + (1#2)) in
      r <- mergeScans st ds (newScanlines startIndex (Z.to_nat (endIdx - startIndex + 1))) ;;
      Ok (fst r, normalize srt (snd r))
  end.

(** ** Setting up the label image *)

Definition setPixels (img : image) (ps : list (Z * Z)) (v : Z) : image :=
  mkImg (iw img) (ih img) (fun x y => if existsb (fun p => (fst p =? x) && (snd p =? y)) ps then v else ipx img x y).
(** the calls of fillScannedPoly and drawScannedPoly in setHasLabelImage and embedFaces *)
Definition fillImage (s : scanlines) (img : image) (v : Z) : res image :=
  r <- fillScannedPoly s (iw img) (ih img) ;; Ok (setPixels img (fst r) v).
Definition drawImage (s : scanlines) (img : image) (v : Z) : res image :=
  r <- drawScannedPoly s (iw img) (ih img) ;; Ok (setPixels img (fst r) v).

(** all pixels, row by row *)
Definition allPx (w h : Z) : list (Z * Z) :=
  flat_map (fun y => map (fun x => (Z.of_nat x, Z.of_nat y)) (seq 0 (Z.to_nat w))) (seq 0 (Z.to_nat h)).
(** cppmap.cxx 1009-1019: counting the pixels of every face *)
Fixpoint countAreas m (img : image) (ps : list (Z * Z)) (area : nat -> Z) : res (nat -> Z) :=
  match ps with
  | [] => Ok area
  | (x, y) :: t =>
      v <- pixGet img x y ;;
      if v >=? 0 then
        _ <- deref (faceP m (Z.to_nat v)) ;;
        countAreas m img t (updN area (Z.to_nat v) (area (Z.to_nat v) + 1))
      else countAreas m img t area
  end.

Definition isLive {A} (o : option A) : bool := match o with Some _ => true | None => false end.
(** labels of the live entries of a table from [k] on, ascending *)
Definition liveFrom {A} (k : nat) (l : list (option A)) : list nat :=
  filter (fun i => isLive (nth i l None)) (seq k (length l - k)).

(** cppmap.cxx 995-1002: faces in label order *)
Fixpoint fillFaces st (img : image) (ls : list nat) : res (lmap * image) :=
  match ls with
  | [] => Ok (st, img)
  | l :: t =>
      r <- faceScan st l ;;
      img <- fillImage (snd r) img (Z.of_nat l) ;;
      fillFaces (set_larea (fst r) (updN (larea (fst r)) l 0)) img t
  end.
(** cppmap.cxx 1004-1006, 1193-1195 *)
Fixpoint markEdges st (img : image) (ls : list nat) : res (lmap * image) :=
  match ls with
  | [] => Ok (st, img)
  | l :: t => r <- edgeScan st l ;; img <- markEdge (snd r) img ;; markEdges (fst r) img t
  end.

(** cppmap.cxx 982-1026.  finiteFacesBegin() of a map without faces is [UB] (see Filter_Model.v). *)
Definition setHasLabelImage st (onoff : bool) : res lmap :=
  if Bool.eqb onoff (isLive (lim st)) then Ok st else
  if onoff then
    if negb (0 <? fst (lsize st) * snd (lsize st)) then Exn else
    if Nat.eqb (length (faces (lg st))) 0 then UB else
    let img := mkImg (fst (lsize st)) (snd (lsize st)) (fun _ _ => 0) in
    let st := set_llut st (initIdentity (length (faces (lg st)))) in
    r <- fillFaces st img (liveFrom 1 (faces (lg st))) ;;
    let (st, img) := r in
    r <- markEdges st img (liveFrom 0 (edges (lg st))) ;;
    let (st, img) := r in
    area <- countAreas (lg st) img (allPx (iw img) (ih img)) (larea st) ;;
    Ok (set_lim (set_larea st area) (Some img))
  else Ok (set_lim st None).

(** cppmap.cxx 1094-1109: contours with positive area, in the order of the sort *)
Fixpoint drawFaces st (img : image) (ls : list nat) : res (lmap * image) :=
  match ls with
  | [] => Ok (st, img)
  | l :: t =>
      if isLive (nth l (faces (lg st)) None) then
        r <- faceScan st l ;;
        img <- fillImage (snd r) img (Z.of_nat l) ;;
        img <- drawImage (snd r) img (-1) ;;
        drawFaces (fst r) img t
      else drawFaces st img t
  end.
(** cppmap.cxx 1171-1175 *)
Fixpoint drawBridges st (img : image) (ls : list nat) : res (lmap * image) :=
  match ls with
  | [] => Ok (st, img)
  | l :: t =>
      e <- deref (edgeP (lg st) l) ;;
      if isBridge e then r <- edgeScan st l ;; img <- drawImage (snd r) img (-1) ;; drawBridges (fst r) img t
      else drawBridges st img t
  end.
(** cppmap.cxx 1178-1190: negative marks become 0 and are not counted *)
Definition clearMarks (img : image) : image := mkImg (iw img) (ih img) (fun x y => if ipx img x y <? 0 then 0 else ipx img x y).

(** cppmap.cxx 965-975 with 1067-1077, 1094-1109 and 1166-1196.  [par] stands for the whole parent search, also the
    one in the label image (1116-1131).  The faces which survive are the contours with positive area; their
    outer contour and the points of the edges are not changed by embedFaces, so the label image can be drawn after it. *)
Definition linit st (ord : list nat) (par : gmap -> Z -> nat) (withImage : bool) : res lmap :=
  if isLive (lim st) then Exn else
  if withImage && negb (0 <? fst (lsize st) * snd (lsize st)) then Exn else
  m <- initializeMap ord par (lg st) ;;
  let st := set_larea (set_lg st m) (fun _ => 0) in
  if withImage then
    let img := mkImg (fst (lsize st)) (snd (lsize st)) (fun _ _ => 0) in
    let st := set_llut st (initIdentity (length (faces m))) in
    r <- drawFaces st img ord ;;
    let (st, img) := r in
    r <- drawBridges st img (liveFrom 0 (edges m)) ;;
    let (st, img) := r in
    area <- countAreas m img (allPx (iw img) (ih img)) (larea st) ;;
    r <- markEdges st (clearMarks img) (liveFrom 0 (edges m)) ;;
    let (st, img) := r in
    Ok (set_lim (set_larea st area) (Some img))
  else Ok st.

(** ** Euler operations *)

(** cppmap.cxx 1773-1788: survivor dart and merged dart *)
Definition mergeDarts m (d : Z) : res (Z * Z) :=
  x2 <- getS m d ;;
  x1 <- getS m x2 ;;
  let sw := ((0 <? x1) && (x2 <? 0))%bool in
  Ok (if sw then x2 else x1, if sw then x1 else x2).

(** cppmap.cxx 199-206: Edge::concatenate on the scanlines of edges [l1] and [l2].  operator+= is plusAssign. *)
Definition concatScans st (l1 l2 : nat) (reverse : bool) : res lmap :=
  match lsc st l1 with
  | None => Ok st
  | Some s1 =>
      r <- (if reverse then
              match lsc st l2 with
              | None => UB
              | Some s2 => Ok (set_lsc st (updN (lsc st) l2 (Some (reverseLines s2))), reverseLines s2)
              end
            else edgeScan st l2) ;;
      s <- plusAssign srt s1 (snd r) ;;
      Ok (set_lsc (fst r) (updN (lsc (fst r)) l1 (Some s)))
  end.

Definition rawAddOf st (l : nat) (diff : Z) : res lmap :=
  ifImage st (fun st img => r <- edgeScan st l ;; img <- rawAddEdge (snd r) img diff ;; Ok (set_lim (fst r) (Some img))).

(** cppmap.cxx 1769-1871 *)
Definition lmergeEdges hk st (d : Z) : res (lmap * option nat) :=
  r <- mergeEdges hk (lg st) d ;;
  match snd r with
  | None => Ok (set_lg st (fst r), None)
  | Some s =>
      ds <- mergeDarts (lg st) d ;;
      let (d1, d2) := ds in
      e1 <- deref (edgeP (lg st) (elab d1)) ;;
      e2 <- deref (edgeP (lg st) (elab d2)) ;;
      let mn := e_st e2 d2 in
      st <- rawAddOf st (elab d2) 1 ;;
      st <- rawAddOf st (elab d1) 1 ;;
      st <- concatScans st (elab d1) (elab d2)
              (if negb (Nat.eqb (estart e1) mn) then negb (Nat.eqb (estart e2) mn) else Nat.eqb (estart e2) mn) ;;
      st <- rawAddOf st (elab d1) (-1) ;;
      Ok (set_lg st (fst r), Some s)
  end.

(** cppmap.cxx 1873-1950 *)
Definition lsplitEdge st (l k : nat) (p : point) (ins : bool) : res (lmap * nat) :=
  r <- splitEdge (lg st) l k p ins ;;
  st <- rawAddOf st l 1 ;;
  let st := set_lsc (set_lg st (fst r)) (updN (lsc st) (snd r) None) in
  st <- ifImage st (fun st _ => Ok (set_lsc st (updN (lsc st) l None))) ;;
  st <- rawAddOf st l (-1) ;;
  st <- rawAddOf st (snd r) (-1) ;;
  Ok (st, snd r).

(** cppmap.cxx 1952-1958: the list handed to associatePixelsHook is returned *)
Definition associate st (f : nat) (ps : list (Z * Z)) : lmap :=
  set_larea st (updN (larea st) f (larea st f + Z.of_nat (length ps))).

(** cppmap.cxx 2019-2022, 2125-2127: taking edge [l] out of the image *)
Definition takeOut st (l : nat) (substitute : nat) : res (lmap * list (Z * Z)) :=
  match lim st with
  | None => Ok (st, [])
  | Some img =>
      r <- edgeScan st l ;;
      q <- removeEdgeFrom (snd r) img (Z.of_nat substitute) ;;
      Ok (set_lim (fst r) (Some (fst q)), snd q)
  end.

(** cppmap.cxx 1960-2034 *)
Definition lremoveBridge hk st (d : Z) : res (lmap * option nat * list (Z * Z)) :=
  r <- removeBridge hk (lg st) d ;;
  match snd r with
  | None => Ok (set_lg st (fst r), None, [])
  | Some f =>
      q <- takeOut st (elab d) f ;;
      Ok (associate (set_lg (fst q) (fst r)) f (snd q), Some f, snd q)
  end.

(** cppmap.cxx 2036-2162 *)
Definition lmergeFaces hk st (d : Z) : res (lmap * option nat * list (Z * Z)) :=
  r <- mergeFaces hk (lg st) d ;;
  match snd r with
  | None => Ok (set_lg st (fst r), None, [])
  | Some s =>
      x <- pickDart (lg st) d ;;
      mo <- rightLabel (lg st) (snd x) ;;
      match mo with
      | None => UB
      | Some mm =>
          st <- ifImage st (fun st _ => t <- relabel (llut st) mm s ;; Ok (set_llut st t)) ;;
          q <- takeOut st (elab d) s ;;
          let st := fst q in
          let st := set_larea st (updN (larea st) s (larea st s + larea st mm)) in
          Ok (associate (set_lg st (fst r)) s (snd q), Some s, snd q)
      end
  end.

(** cppmap.cxx 407-426 *)
Definition lremoveEdge hk st (d : Z) : res (lmap * option nat * list (Z * Z)) :=
  if negb (Nat.eqb (length (faces (lg st))) 0) then
    e <- deref (edgeP (lg st) (elab d)) ;;
    if isBridge e then lremoveBridge hk st d else lmergeFaces hk st d
  else r <- removeEdge hk (lg st) d ;; Ok (set_lg st (fst r), snd r, []).

(** ** changeFaceLabels, cppmap.cxx 1216-1253 *)

(** 1226-1237: the loop over the old labels [ls]; [labels] are the members label_ of the face objects, indexed by the
    place of the object at the beginning; [None] is an exception in a check, the labels written so far stay *)
Fixpoint relabelFaces (old : list (option face)) (new : list nat) (mx : nat) (ls : list nat) (tab : list (option face)) (labels : list nat)
  : option (list (option face)) * list nat :=
  match ls with
  | [] => (Some tab, labels)
  | l :: t =>
      match nth l old None with
      | None => relabelFaces old new mx t tab labels
      | Some f =>
          let n := nth l new 0%nat in
          if negb (n <? mx)%nat then (None, labels)
          else if isLive (nth n tab None) then (None, labels)
          else relabelFaces old new mx t (list_upd tab n (Some f)) (list_upd labels l n)
      end
  end.

(** 1240-1244 *)
Fixpoint renameEdges m (new : list nat) (ls : list nat) : res gmap :=
  match ls with
  | [] => Ok m
  | l :: t =>
      e <- deref (edgeP m l) ;;
      match elf e, erf e with
      | Some a, Some b =>
          a' <- vget new a ;; b' <- vget new b ;;
          renameEdges (putE m l (Some (mkEdge (estart e) (eend e) (Some a') (Some b') (epts e) (eflags e)))) new t
      | _, _ => UB
      end
  end.
(** cppmap.cxx 1199-1214 and the accessor of cppmap.hxx 151-181: transformMultiArray over all pixels.  Reading
    outside the tables is undefined. *)
Definition renamePixel (t : lut) (new : list nat) (v : Z) : res Z :=
  if v >=? 0 then l <- lookup t (Z.to_nat v) ;; n <- vget new l ;; Ok (Z.of_nat n) else Ok v.
Fixpoint renameRow (t : lut) (new : list nat) (src img : image) (ps : list (Z * Z)) : res image :=
  match ps with
  | [] => Ok img
  | (x, y) :: q => v <- pixGet src x y ;; w <- renamePixel t new v ;; img <- pixPut img x y w ;; renameRow t new src img q
  end.

(** the position of an object in the old table: the face stored under the new label *)
Definition oldPlace (old : list (option face)) (new : list nat) (k : nat) : option nat :=
  find (fun l => isLive (nth l old None) && Nat.eqb (nth l new 0%nat) k) (seq 0 (length old)).

Definition changeFaceLabels st (new : list nat) (mx : nat) : res lmap :=
  let m := lg st in
  if Nat.eqb (length (faces m)) 0 then Exn else
  if negb (Nat.eqb (length new) (length (faces m))) then Exn else
  match fst (relabelFaces (faces m) new mx (seq 0 (length new)) (repeat None mx) (seq 0 (length new))) with
  | None => Exn
  | Some tab =>
      let area := fun k => match oldPlace (faces m) new k with Some l => larea st l | None => 0 end in
      m <- renameEdges (set_faces m tab) new (liveFrom 0 (edges m)) ;;
      let st := set_larea (set_lg st m) area in
      ifImage st (fun st img =>
        img' <- renameRow (llut st) new img img (allPx (iw img) (ih img)) ;;
        Ok (set_lim (set_llut st (initIdentity (length tab))) (Some img')))
  end.

(** cppmap.cxx 245-296 with the copy constructors of the cells (cppmap.hxx 465-472, 561-571, 1124-1135): all members are
    copied, except the scanlines; the label image and its table only if there are faces (and an image) *)
Definition copyOf st : lmap :=
  let img := if Nat.eqb (length (faces (lg st))) 0 then None else lim st in
  mkLM (lg st) (lsize st) img (if isLive img then llut st else initIdentity 0) (larea st) (fun _ => None).

(** ** All public operations *)

Inductive lcall :=
| LCall (hk : hooks) (o : GeoMap_Model.op)
| LInit (ord : list nat) (par : gmap -> Z -> nat) (withImage : bool)
| LSetImage (onoff : bool)
| LRelabel (new : list nat) (mx : nat)
| LScan (l : nat)                     (* edge(l)->scanLines() *)
| LCopy.                              (* the call goes on with a copy of the map *)

Definition lexec st (c : lcall) : res lmap :=
  match c with
  | LCall hk (OMergeEdges d) => r <- lmergeEdges hk st d ;; Ok (fst r)
  | LCall hk (OSplitEdge l k p ins) => r <- lsplitEdge st l k p ins ;; Ok (fst r)
  | LCall hk (ORemoveBridge d) => r <- lremoveBridge hk st d ;; Ok (fst (fst r))
  | LCall hk (OMergeFaces d) => r <- lmergeFaces hk st d ;; Ok (fst (fst r))
  | LCall hk (ORemoveEdge d) => r <- lremoveEdge hk st d ;; Ok (fst (fst r))
  | LCall hk o => m <- run_op hk (lg st) o ;; Ok (set_lg st m)
  | LInit ord par withImage => linit st ord par withImage
  | LSetImage onoff => setHasLabelImage st onoff
  | LRelabel new mx => changeFaceLabels st new mx
  | LScan l => r <- edgeScan st l ;; Ok (fst r)
  | LCopy => Ok (copyOf st)
  end.
End Model.

(** cppmap.hxx 151-181: the value of a pixel read through labelAccessor() *)
Definition labelAt st (x y : Z) : res Z :=
  match lim st with
  | None => UB
  | Some img => v <- pixGet img x y ;; if v >=? 0 then l <- lookup (llut st) (Z.to_nat v) ;; Ok (Z.of_nat l) else Ok v
  end.
