(** Model of DartPointIter and DartPosition (src/geomap/cppmap.hxx 697-779, 1477-1666).  Coordinates and arc lengths are real
    numbers (no rounding).  leaveCircle and intersectCircle (lines 1582-1628) are not modelled. *)
From Coq Require Import Reals.
From Verif Require Import Base.
Local Open Scope Z_scope.

Definition vec : Type := (R * R)%type.
Definition vsub (a b : vec) : vec := (fst a - fst b, snd a - snd b)%R.
Definition vadd (a b : vec) : vec := (fst a + fst b, snd a + snd b)%R.
Definition vscale (a : vec) (s : R) : vec := (fst a * s, snd a * s)%R.
Definition sqMag (a : vec) : R := (fst a * fst a + snd a * snd a)%R.
Definition mag (a : vec) : R := sqrt (sqMag a).

(** the edge's points, index_, inc_, end_ (cppmap.hxx 697-700) *)
Record piter := mkPiter { pipts : list vec; piIndex : Z; piInc : Z; piEnd : Z }.

(** DartPointIter(dart) (cppmap.cxx 211-226): [fwd] iff the dart's label is positive *)
Definition piStart (pts : list vec) (fwd : bool) : piter :=
  if fwd then mkPiter pts 0 1 (Z.of_nat (length pts)) else mkPiter pts (Z.of_nat (length pts) - 1) (-1) (-1).
(** cppmap.hxx 720-724 *)
Definition piNext (i : piter) : piter := mkPiter (pipts i) (piIndex i + piInc i) (piInc i) (piEnd i).
(** cppmap.hxx 738-750 *)
Definition piReverse (i : piter) : piter :=
  if piInc i <? 0 then mkPiter (pipts i) (piIndex i) 1 (Z.of_nat (length (pipts i))) else mkPiter (pipts i) (piIndex i) (-1) (-1).
(** cppmap.hxx 756-759 *)
Definition piAtEnd (i : piter) : bool := piIndex i =? piEnd i.
(** cppmap.hxx 770-773 *)
Definition piDeref (i : piter) : res vec := if piIndex i <? 0 then UB else vget (pipts i) (Z.to_nat (piIndex i)).

(** pointIter_, segmentIndex_, arcLength_, partialArcLength_, p1_, p2_, position_ (cppmap.hxx 1661-1665) *)
Record dpos := mkDpos { dIter : piter; dSeg : nat; dArc : R; dPart : R; dP1 : vec; dP2 : vec; dAt : vec }.

(** cppmap.hxx 1480-1490 *)
Definition dpStart (pts : list vec) (fwd : bool) : res dpos :=
  let it := piStart pts fwd in
  a <- piDeref it ;; b <- piDeref (piNext it) ;; Ok (mkDpos (piNext it) 0 0%R 0%R a b a).
(** cppmap.hxx 1492-1495, 1517-1520 *)
Definition dpAtEnd (d : dpos) : bool := piAtEnd (dIter d).
Definition dpArcLength (d : dpos) : R := (dArc d + dPart d)%R.

(** cppmap.hxx 1631-1643 *)
Definition nextInternal (d : dpos) : res (dpos * bool) :=
  if dpAtEnd d then Ok (d, false)
  else
    let arc := (dArc d + mag (vsub (dP2 d) (dP1 d)))%R in
    let it := piNext (dIter d) in
    if piAtEnd it then Ok (mkDpos it (dSeg d) arc (dPart d) (dP2 d) (dP2 d) (dAt d), false)
    else b <- piDeref it ;; Ok (mkDpos it (S (dSeg d)) arc (dPart d) (dP2 d) b (dAt d), true).
(** cppmap.hxx 1645-1659 *)
Definition prevInternal (d : dpos) : res (dpos * bool) :=
  match dSeg d with
  | 0%nat => Ok (d, false)
  | S k =>
      let it := piReverse (piNext (piReverse (dIter d))) in
      a <- piDeref it ;;
      Ok (mkDpos it k (dArc d - mag (vsub (dP1 d) a))%R (dPart d) a (dP1 d) (dAt d), true)
  end.

(** position_ = p1_, partialArcLength_ = 0 *)
Definition toStart (d : dpos) : dpos := mkDpos (dIter d) (dSeg d) (dArc d) 0%R (dP1 d) (dP2 d) (dP1 d).
(** cppmap.hxx 1566-1580 *)
Definition gotoNextSegment (d : dpos) : res (dpos * bool) := r <- nextInternal d ;; Ok (toStart (fst r), snd r).
Definition gotoPrevSegment (d : dpos) : res (dpos * bool) := r <- prevInternal d ;; Ok (toStart (fst r), snd r).

(** cppmap.hxx 1541-1543: step back while the segment starts behind [s] *)
Fixpoint backLoop (fuel : nat) (d : dpos) (s : R) : res (dpos * bool) :=
  match fuel with
  | 0%nat => NoFuel
  | S fuel' =>
      if Rlt_dec s (dArc d) then r <- prevInternal d ;; if snd r then backLoop fuel' (fst r) s else Ok (fst r, false)
      else Ok (d, true)
  end.
(** cppmap.hxx 1544-1560 *)
Fixpoint forthLoop (fuel : nat) (d : dpos) (s : R) : res (dpos * bool) :=
  match fuel with
  | 0%nat => NoFuel
  | S fuel' =>
      let rest := (s - dArc d)%R in
      let diff := vsub (dP2 d) (dP1 d) in
      if Rlt_dec (rest * rest) (sqMag diff)
      then Ok (mkDpos (dIter d) (dSeg d) (dArc d) rest (dP1 d) (dP2 d) (vadd (dP1 d) (vscale (vscale diff rest) (/ mag diff)%R)), true)
      else r <- nextInternal d ;; if snd r then forthLoop fuel' (fst r) s else Ok (toStart (fst r), false)
  end.
(** cppmap.hxx 1539-1561.  The fuel covers the segments in either direction. *)
Definition gotoArcLength (d : dpos) (s : R) : res (dpos * bool) :=
  let fuel := S (S (length (pipts (dIter d)))) in
  r <- backLoop fuel d s ;; if snd r then forthLoop fuel (fst r) s else Ok r.
