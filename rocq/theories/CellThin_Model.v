(** Rethinning of edges: the code of CellStatistics that moves single pixels of the pixel based map between its cells.
    Positions are those of [cellImage], two more than those counted from [cells], as in CellMap_Model. *)
From Verif Require Import Base CellMap_Model.
Local Open Scope Z_scope.

(** ** reassociate, cellstatistics.hxx 367-462 *)

(** cellstatistics.hxx 381-386 and 455-460: the list the CellInfo is taken from; what is no line and no vertex counts as region *)
Definition owner (t : ctype) : ctype := match t with Line => Line | Vertex => Vertex | _ => Region end.
(** ... and a change of it (CellInfo &) *)
Definition updInfo (m : cmap) (t : ctype) (l : Z) (g : cinfo -> cinfo) : res cmap :=
  match owner t with Line => updEdge m l (onEdge g) | Vertex => updNode m l (onNode g) | _ => updFace m l (onFace g) end.

(** std::find over a column (dx = 0, dy = 1) or a row (dx = 1, dy = 0): [n] pixels from (x, y) *)
Fixpoint findFrom (n : nat) (im : img) (dx dy x y : Z) (v : pix) : res bool :=
  match n with
  | O => Ok false
  | Datatypes.S k => p <- readPix im x y ;; if pixEqb p v then Ok true else findFrom k im dx dy (x + dx) (y + dy) v
  end.
(** the range [a, b) has to be one: with b < a the loop of std::find never meets its end *)
Definition findCol (im : img) (x a b : Z) (v : pix) : res bool := if b <? a then UB else findFrom (Z.to_nat (b - a)) im 0 1 x a v.
Definition findRow (im : img) (y a b : Z) (v : pix) : res bool := if b <? a then UB else findFrom (Z.to_nat (b - a)) im 1 0 a y v.

(** cellstatistics.hxx 398-410: first column *)
Definition shrinkLeft (im : img) (x : Z) (v : pix) (r : rect) : res rect :=
  if x =? rx0 r then f <- findCol im x (ry0 r) (ry1 r) v ;; Ok (if f : bool then r else Rect (rx0 r + 1) (ry0 r) (rx1 r) (ry1 r)) else Ok r.
(** cellstatistics.hxx 412-424: last column *)
Definition shrinkRight (im : img) (x : Z) (v : pix) (r : rect) : res rect :=
  if x =? rx1 r - 1 then f <- findCol im x (ry0 r) (ry1 r) v ;; Ok (if f : bool then r else Rect (rx0 r) (ry0 r) (rx1 r - 1) (ry1 r)) else Ok r.
(** cellstatistics.hxx 426-438: first row *)
Definition shrinkTop (im : img) (y : Z) (v : pix) (r : rect) : res rect :=
  if y =? ry0 r then f <- findRow im y (rx0 r) (rx1 r) v ;; Ok (if f : bool then r else Rect (rx0 r) (ry0 r + 1) (rx1 r) (ry1 r)) else Ok r.
(** cellstatistics.hxx 440-452: last row *)
Definition shrinkBottom (im : img) (y : Z) (v : pix) (r : rect) : res rect :=
  if y =? ry1 r - 1 then f <- findRow im y (rx0 r) (rx1 r) v ;; Ok (if f : bool then r else Rect (rx0 r) (ry0 r) (rx1 r) (ry1 r - 1)) else Ok r.
Definition withBounds (r : rect) (c : cinfo) : cinfo := CInfo (clabel c) r (csize c).

(** cellstatistics.hxx 367-462; sizes are not touched *)
Definition reassociate (m : cmap) (x y : Z) (new : pix) : res cmap :=
  old <- readPix (cim m) x y ;;
  c <- infoAt m (owner (ptype old)) (plabel old) ;;
  im <- writePix (cim m) x y new ;;
  r1 <- shrinkLeft im x old (cbounds c) ;; r2 <- shrinkRight im x old r1 ;;
  r3 <- shrinkTop im y old r2 ;; r4 <- shrinkBottom im y old r3 ;;
  m1 <- updInfo (setIm m im) (ptype old) (plabel old) (withBounds r4) ;;
  updInfo m1 (ptype new) (plabel new) (fun c' => withBounds (rectOrPoint (cbounds c') x y) c').

(** ** edgeRethinning, cellstatistics.cxx 354-443 *)

(** the state of the loop: the image, EdgeInfo::bounds and size, FaceInfo::bounds and size of the two faces *)
Record thin := Thin { tim : img; tedge : cinfo; tface1 : cinfo; tface2 : cinfo }.
(** bounds |= pos; ++size *)
Definition gain (c : cinfo) (x y : Z) : cinfo := CInfo (clabel c) (rectOrPoint (cbounds c) x y) ((csize c + 1) mod 2 ^ 32).
(** --size *)
Definition lose (c : cinfo) : cinfo := CInfo (clabel c) (cbounds c) ((csize c - 1) mod 2 ^ 32).
(** cellstatistics.cxx 409-431: one pixel; [grown] is newRegions after seededRegionGrowing (VIGRA), of which nothing is assumed here *)
Definition thinPixel (grown : Z -> Z -> Z) (e f1 f2 : Z) (s : thin) (x y : Z) : res thin :=
  p <- readPix (tim s) x y ;;
  if pixEqb p (cellPixel Line e) then
    if grown x y =? 0 then Ok (Thin (tim s) (withBounds (rectOrPoint (cbounds (tedge s)) x y) (tedge s)) (tface1 s) (tface2 s)) else
    if grown x y =? f1 then
      im <- writePix (tim s) x y (cellPixel Region f1) ;; Ok (Thin im (lose (tedge s)) (gain (tface1 s) x y) (tface2 s))
    else if grown x y =? f2 then
      im <- writePix (tim s) x y (cellPixel Region f2) ;; Ok (Thin im (lose (tedge s)) (tface1 s) (gain (tface2 s) x y))
    else Ok (Thin (tim s) (lose (tedge s)) (tface1 s) (tface2 s))
  else Ok s.
(** the pixels of [r] row by row (cellstatistics.cxx 398-408); [w] pixels from (x, y) on, [h] rows from (x0, y) on *)
Fixpoint thinRow (w : nat) (grown : Z -> Z -> Z) (e f1 f2 : Z) (s : thin) (x y : Z) : res thin :=
  match w with O => Ok s | Datatypes.S k => s' <- thinPixel grown e f1 f2 s x y ;; thinRow k grown e f1 f2 s' (x + 1) y end.
Fixpoint thinRows (h w : nat) (grown : Z -> Z -> Z) (e f1 f2 : Z) (s : thin) (x y : Z) : res thin :=
  match h with O => Ok s | Datatypes.S k => s' <- thinRow w grown e f1 f2 s x y ;; thinRows k w grown e f1 f2 s' x (y + 1) end.
(** cellstatistics.cxx 354-443; 365-366: an edge with the same face on both sides is left alone; the checks 435-440 are compiled out in releases *)
Definition edgeRethinning (grown : Z -> Z -> Z) (m : cmap) (e : Z) (r : rect) : res cmap :=
  ei <- at_ (cedges m) e ;;
  f1 <- leftFaceLabel (cim m) (estart ei) ;; f2 <- rightFaceLabel (cim m) (estart ei) ;;
  if f1 =? f2 then Ok m else
  i1 <- at_ (cfaces m) f1 ;; i2 <- at_ (cfaces m) f2 ;;
  s <- thinRows (Z.to_nat (ry1 r - ry0 r)) (Z.to_nat (rx1 r - rx0 r)) grown e f1 f2
         (Thin (cim m) (withBounds emptyRect (einf ei)) (finf i1) (finf i2)) (rx0 r) (ry0 r) ;;
  m1 <- updEdge (setIm m (tim s)) e (onEdge (fun _ => tedge s)) ;;
  m2 <- updFace m1 f1 (onFace (fun _ => tface1 s)) ;; updFace m2 f2 (onFace (fun _ => tface2 s)).

(** ** The loop over the pixels of the former node, postMergeEdges, cellstatistics.hxx 510-617 *)

(** cellstatistics.hxx 534 and 542-563, 580-598: [d] already turned to the pixel the centre is to be moved to; the three new neighbours have to be of its cell *)
Definition newNeighborsAgree (im : img) (d : dart) : res bool :=
  q <- neighborPix im d 0 ;;
  let n := moveCenterToNeighbor d in
  a <- neighborPix im n 0 ;; if negb (pixEqb a q) then Ok false else
  b <- neighborPix im n 1 ;; if negb (pixEqb b q) then Ok false else
  c <- neighborPix im n (-1) ;; Ok (pixEqb c q).
Definition tryRelocate (m : cmap) (d : dart) : res (option cmap) :=
  ok <- newNeighborsAgree (cim m) d ;;
  if negb ok then Ok None else
  region <- neighborPix (cim m) d (-4) ;; c <- centerPix (cim m) d ;;
  m1 <- reassociate m (dcx d + dirX (ddir d mod 8)) (dcy d + dirY (ddir d mod 8)) c ;;
  m2 <- reassociate m1 (dcx d) (dcy d) region ;; Ok (Some m2).
(** the gradient at the pixel n directions further; [grad] stands for gradientMagnitude_, whose values are only compared *)
Definition gradAt (grad : Z -> Z -> Z) (d : dart) (n : Z) : Z :=
  let k := (ddir d + n) mod 8 in grad (dcx d + dirX k) (dcy d + dirY k).
(** *it + circ.diff() *)
Definition pointAt (d : dart) (n : Z) : Z * Z := let k := (ddir d + n) mod 8 in (dcx d + dirX k, dcy d + dirY k).
(** the do loop, cellstatistics.hxx 526-616, in [n] turns of two directions; the points are those put at the end of nodePoints_ *)
Fixpoint relocateLoop (n : nat) (m : cmap) (grad : Z -> Z -> Z) (d : dart) : res (cmap * list (Z * Z)) :=
  match n with
  | O => Ok (m, [])
  | Datatypes.S k =>
      c <- centerPix (cim m) d ;; p <- neighborPix (cim m) d 0 ;;
      if negb (pixEqb p c) then relocateLoop k m grad (turn 2 d) else
      a <- neighborPix (cim m) d 2 ;;
      hit <- (if pixEqb a c then Ok true else b <- neighborPix (cim m) d 3 ;; Ok (pixEqb b c)) ;;
      if hit && (grad (dcx d) (dcy d) <? gradAt grad d 1) then
        r <- tryRelocate m (turn 1 d) ;;
        match r with
        | None => relocateLoop k m grad (turn 2 d)
        | Some m' =>
            o <- neighborPix (cim m') (moveCenterToNeighbor (turn 1 d)) 0 ;; a' <- neighborPix (cim m') d 2 ;;
            Ok (m', [pointAt d 0; pointAt d (if pixEqb o a' then 3 else 2)])
        end
      else
        b <- neighborPix (cim m) d (-3) ;;
        if pixEqb b c && (grad (dcx d) (dcy d) <? gradAt grad d (-11)) then
          r <- tryRelocate m (turn (-1) d) ;;
          match r with
          | None => relocateLoop k m grad (turn 2 d)
          | Some m' => Ok (m', [pointAt d 0; pointAt d (-3)])
          end
        else relocateLoop k m grad (turn 2 d)
  end.
(** cellstatistics.hxx 510-520: one point of the list; 3 is NorthWest *)
Definition relocatePoint (m : cmap) (grad : Z -> Z -> Z) (x y : Z) : res (cmap * list (Z * Z)) :=
  c <- readPix (cim m) x y ;; if negb (ctypeEqb (ptype c) Line) then Ok (m, []) else relocateLoop 4 m grad (Dart x y 3).
(** cellstatistics.hxx 510-617: the list grows while it is gone through *)
Fixpoint relocatePoints (fuel : nat) (m : cmap) (grad : Z -> Z -> Z) (ps : list (Z * Z)) : res cmap :=
  match ps with
  | [] => Ok m
  | (x, y) :: rest =>
      match fuel with
      | O => NoFuel
      | Datatypes.S k => r <- relocatePoint m grad x y ;; relocatePoints k (fst r) grad (rest ++ snd r)
      end
  end.
