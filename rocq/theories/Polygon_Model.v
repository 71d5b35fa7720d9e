(** Model of vigra::Polygon and vigra::BBoxPolygon (src/geomap/polygon.hxx 233-514, 563-709) with their lazily computed
    length, area and bounding box.  Coordinates are integers, lengths are real numbers (no rounding); the area is stored
    doubled, so partialArea_ is parea2 / 2.  vigra::Box<double, 2> is modelled by [option box]: [None] is the empty box, the
    other boxes are closed. *)
From Coq Require Import Reals.
From Verif Require Import Base GeoMap_Model.
Local Open Scope Z_scope.

Record box := mkBox { bx0 : Z; by0 : Z; bx1 : Z; by1 : Z }.
(** vigra::Box::operator|=(Vector), operator|=(Box) *)
Definition boxAdd (o : option box) (p : point) : option box :=
  match o with
  | None => Some (mkBox (fst p) (snd p) (fst p) (snd p))
  | Some b => Some (mkBox (Z.min (bx0 b) (fst p)) (Z.min (by0 b) (snd p)) (Z.max (bx1 b) (fst p)) (Z.max (by1 b) (snd p)))
  end.
Definition boxJoin (o o' : option box) : option box :=
  match o, o' with
  | o, None => o
  | None, o' => o'
  | Some a, Some b => Some (mkBox (Z.min (bx0 a) (bx0 b)) (Z.min (by0 a) (by0 b)) (Z.max (bx1 a) (bx1 b)) (Z.max (by1 a) (by1 b)))
  end.

(** points_, lengthValid_, length_, partialAreaValid_, partialArea_, boundingBoxValid_, boundingBox_ *)
Record poly := mkPoly { ppts : list point; plenV : bool; plen : R; pareaV : bool; parea2 : Z; pbbV : bool; pbb : option box }.

(** polygon.hxx 256-261, 587-589 *)
Definition emptyPoly : poly := mkPoly [] true 0%R true 0 false None.
(** polygon.hxx 250-254, 263-274, 577-600 *)
Definition ofPoints (l : list point) : poly := mkPoly l false 0%R false 0 false None.
(** polygon.hxx 276-280 *)
Definition invalidate (p : poly) : poly := mkPoly (ppts p) false (plen p) false (parea2 p) (pbbV p) (pbb p).

(** (q - p).magnitude() *)
Definition segLen (p q : point) : R := sqrt (IZR ((fst q - fst p) * (fst q - fst p) + (snd q - snd p) * (snd q - snd p))).

(** polygon.hxx 282-292 *)
Fixpoint lengthLoop (prev : point) (l : list point) (acc : R) : R :=
  match l with [] => acc | q :: t => lengthLoop q t (acc + segLen prev q)%R end.
Definition computeLength (l : list point) : R := match l with [] => 0%R | p :: t => lengthLoop p t 0%R end.
Definition qLength (p : poly) : poly * R :=
  if plenV p then (p, plen p)
  else let v := computeLength (ppts p) in (mkPoly (ppts p) true v (pareaV p) (parea2 p) (pbbV p) (pbb p), v).

(** polygon.hxx 732-740 (doubled) and 294-302 *)
Fixpoint areaLoop (prev : point) (l : list point) (acc : Z) : Z :=
  match l with [] => acc | q :: t => areaLoop q t (acc + (fst q * snd prev - snd q * fst prev)) end.
Definition computeArea2 (l : list point) : Z := match l with [] => 0 | p :: t => areaLoop p t 0 end.
Definition qArea2 (p : poly) : poly * Z :=
  if pareaV p then (p, parea2 p)
  else let v := computeArea2 (ppts p) in (mkPoly (ppts p) (plenV p) (plen p) true v (pbbV p) (pbb p), v).

(** polygon.hxx 609-619 *)
Definition qBBox (p : poly) : poly * option box :=
  if pbbV p then (p, pbb p)
  else let v := fold_left boxAdd (ppts p) None in (mkPoly (ppts p) (plenV p) (plen p) (pareaV p) (parea2 p) true v, v).

Fixpoint lastPt (l : list point) : option point := match l with [] => None | [p] => Some p | _ :: t => lastPt t end.

(** polygon.hxx 347-358 and 621-626.  The cross product is added to the area without the factor 1/2, i.e. twice to the
    doubled area. *)
Definition pushBack (p : poly) (v : point) : poly :=
  match lastPt (ppts p) with
  | None => mkPoly (ppts p ++ [v]) (plenV p) (plen p) (pareaV p) (parea2 p) (pbbV p) (if pbbV p then boxAdd (pbb p) v else pbb p)
  | Some b => mkPoly (ppts p ++ [v])
      (plenV p) (if plenV p then (plen p + segLen b v)%R else plen p)
      (pareaV p) (if pareaV p then parea2 p + 2 * (fst v * snd b - snd v * fst b) else parea2 p)
      (pbbV p) (if pbbV p then boxAdd (pbb p) v else pbb p)
  end.

Definition pointEqb (a b : point) : bool := (fst a =? fst b) && (snd a =? snd b).

(** polygon.hxx 628-633 and 362-390; [other] may get its caches filled *)
Definition extend (p other : poly) : poly * poly :=
  let '(other, p) := if pbbV p then let (other, b) := qBBox other in
                       (other, mkPoly (ppts p) (plenV p) (plen p) (pareaV p) (parea2 p) true (boxJoin (pbb p) b))
                     else (other, p) in
  match ppts other with
  | [] => (p, other)
  | f :: rest =>
      let '(add, dl, da) :=
        match lastPt (ppts p) with
        | None => (ppts other, 0%R, 0)
        | Some b => if pointEqb f b then (rest, 0%R, 0)
                    else (ppts other, segLen b f, 2 * (fst f * snd b - snd f * fst b))
        end in
      let '(other, len) := if plenV p then let (other, l) := qLength other in (other, (plen p + dl + l)%R) else (other, plen p) in
      let '(other, area) := if pareaV p then let (other, a) := qArea2 other in (other, parea2 p + da + a) else (other, parea2 p) in
      (mkPoly (ppts p ++ add) (plenV p) len (pareaV p) area (pbbV p) (pbb p), other)
  end.

(** polygon.hxx 635-651 and 393-410 *)
Definition setPoint (p : poly) (pos : nat) (x : point) : res poly :=
  old <- vget (ppts p) pos ;;
  let stale := match pbb p with
               | None => false
               | Some b => ((fst x <? fst old) && (fst old =? bx1 b)) || ((fst old <? fst x) && (fst old =? bx0 b)) ||
                           ((snd x <? snd old) && (snd old =? by1 b)) || ((snd old <? snd x) && (snd old =? by0 b))
               end in
  let bbV := pbbV p && negb stale in
  len <- (if plenV p then
            l <- (if (0 <? pos)%nat then a <- vget (ppts p) (pos - 1) ;; Ok (plen p + (segLen a x - segLen a old))%R else Ok (plen p)) ;;
            (if (pos <? length (ppts p) - 1)%nat then b <- vget (ppts p) (pos + 1) ;; Ok (l + (segLen b x - segLen b old))%R else Ok l)
          else Ok (plen p)) ;;
  Ok (mkPoly (list_upd (ppts p) pos x) (plenV p) len false (parea2 p) bbV (pbb p)).

(** polygon.hxx 653-662 and 412-416 *)
Definition erasePt (p : poly) (pos : nat) : res poly :=
  old <- vget (ppts p) pos ;;
  let onBorder := match pbb p with
                  | None => false
                  | Some b => (fst old =? bx0 b) || (fst old =? bx1 b) || (snd old =? by0 b) || (snd old =? by1 b)
                  end in
  Ok (mkPoly (remove_nth (ppts p) pos) false (plen p) false (parea2 p) (pbbV p && negb onBorder) (pbb p)).

(** polygon.hxx 664-669 and 418-433 *)
Definition insertPt (p : poly) (pos : nat) (x : point) : res poly :=
  if (length (ppts p) <? pos)%nat then UB else
  len <- (if plenV p then
            l <- (if (0 <? pos)%nat then a <- vget (ppts p) (pos - 1) ;; Ok (plen p + segLen a x)%R else Ok (plen p)) ;;
            (if (pos <? length (ppts p))%nat then
               b <- vget (ppts p) pos ;;
               (if (0 <? pos)%nat then a <- vget (ppts p) (pos - 1) ;; Ok (l + segLen b x - segLen a b)%R else Ok (l + segLen b x)%R)
             else Ok l)
          else Ok (plen p)) ;;
  Ok (mkPoly (insert_at (ppts p) pos x) (plenV p) len false (parea2 p) (pbbV p) (if pbbV p then boxAdd (pbb p) x else pbb p)).

(** polygon.hxx 671-676 and 435-441 *)
Definition insertRange (p : poly) (pos : nat) (xs : list point) : res poly :=
  if (length (ppts p) <? pos)%nat then UB else
  Ok (mkPoly (firstn pos (ppts p) ++ xs ++ skipn pos (ppts p)) false (plen p) false (parea2 p) false (pbb p)).

(** polygon.hxx 678-685 and 443-471: what remains, and the returned part *)
Definition splitPoly (p : poly) (pos : nat) : res (poly * poly) :=
  if (pos <? length (ppts p))%nat then
    if Nat.eqb pos 0 then
      f <- vget (ppts p) 0 ;;
      Ok (mkPoly [f] false 0%R false 0 false None, mkPoly (ppts p) (plenV p) (plen p) (pareaV p) (parea2 p) false (pbb p))
    else Ok (mkPoly (firstn (S pos) (ppts p)) false (plen p) false (parea2 p) false (pbb p), ofPoints (skipn pos (ppts p)))
  else UB.

(** polygon.hxx 500-505 *)
Definition reversePoly (p : poly) : poly :=
  mkPoly (rev (ppts p)) (plenV p) (plen p) (pareaV p) (if pareaV p then - parea2 p else parea2 p) (pbbV p) (pbb p).

(** swap(Base &): the points of a bare point array come in (polygon.hxx 494-498, 701-705) *)
Definition swapPoints (p : poly) (l : list point) : poly * list point :=
  (mkPoly l false (plen p) false (parea2 p) false (pbb p), ppts p).

(** GeoMap::Edge::concatenate without the scan lines (cppmap.cxx 147-199); the vigra_asserts are exceptions.  Front and back
    of an empty polygon are undefined behaviour. *)
Definition concatenate (p other : poly) (atEnd reverse : bool) : res (poly * poly) :=
  match ppts p, lastPt (ppts p), ppts other, lastPt (ppts other) with
  | f :: _, Some b, f' :: _, Some b' =>
      let l := if reverse then rev (ppts other) else ppts other in
      let meets := if reverse then (if atEnd then pointEqb b b' else pointEqb f f')
                   else (if atEnd then pointEqb b f' else pointEqb f b') in
      if meets then
        let pts := if atEnd then ppts p ++ tl l else removelast l ++ ppts p in
        let '(other, len) := if plenV p then let (other, v) := qLength other in (other, (plen p + v)%R) else (other, plen p) in
        let '(other, area) := if pareaV p then let (other, a) := qArea2 other in (other, if reverse then parea2 p - a else parea2 p + a)
                              else (other, parea2 p) in
        let '(other, bb) := if pbbV p then let (other, b) := qBBox other in (other, boxJoin (pbb p) b) else (other, pbb p) in
        Ok (mkPoly pts (plenV p) len (pareaV p) area (pbbV p) bb, other)
      else Exn
  | _, _, _, _ => UB
  end.

(** writing through the non-const operator[] or iterators (PointArray, polygon.hxx 78-81, 92-105) *)
Definition poke (p : poly) (pos : nat) (x : point) : res poly :=
  l <- vset (ppts p) pos x ;; Ok (mkPoly l (plenV p) (plen p) (pareaV p) (parea2 p) (pbbV p) (pbb p)).
