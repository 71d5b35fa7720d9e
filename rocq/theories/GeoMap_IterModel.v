(** Model of the point iterators of cppmap.hxx / cppmap.cxx.

    Simplification: the edge pointer held by a DartPointIter is replaced by the
    edge's point list, i.e. the map is not modified during the traversal. *)
From Verif Require Import Base GeoMap_Model.
Local Open Scope Z_scope.

(** cppmap.hxx 697-779: DartPointIter (edge_, index_, inc_, end_) *)
Record dpi := mkDpi { dp_pts : list point; dp_i : Z; dp_inc : Z; dp_end : Z }.

(** cppmap.cxx 211-226 *)
Definition dpiOf m d : res dpi :=
  e <- gEdge m d ;;
  let n := Z.of_nat (length (epts e)) in
  Ok (if 0 <? d then mkDpi (epts e) 0 1 n else mkDpi (epts e) (n - 1) (-1) (-1)).
(** cppmap.hxx 722-726 *)
Definition dpiNext (it : dpi) : dpi := mkDpi (dp_pts it) (dp_i it + dp_inc it) (dp_inc it) (dp_end it).
(** cppmap.hxx 756-759 *)
Definition dpiAtEnd (it : dpi) : bool := dp_i it =? dp_end it.
(** cppmap.hxx 769-772: indexing outside the polygon is undefined *)
Definition dpiGet (it : dpi) : res point :=
  if dp_i it <? 0 then UB else
  match nth_error (dp_pts it) (Z.to_nat (dp_i it)) with Some p => Ok p | None => UB end.
(** cppmap.hxx 740-752 *)
Definition dpiReverse (it : dpi) : dpi :=
  if dp_inc it <? 0 then mkDpi (dp_pts it) (dp_i it) 1 (Z.of_nat (length (dp_pts it)))
  else mkDpi (dp_pts it) (dp_i it) (-1) (-1).

(** cppmap.hxx 978-1055: ContourPointIter (dpi_, dart_, end_) *)
Record cpi := mkCpi { cp_dpi : dpi; cp_dart : Z; cp_end : Z }.
(** cppmap.hxx 1000-1007 *)
Definition cpiOf m d (firstTwice : bool) : res cpi :=
  it <- dpiOf m d ;; Ok (mkCpi (if firstTwice then it else dpiNext it) d d).
(** cppmap.hxx 1009-1021 *)
Definition cpiNext m (it : cpi) : res cpi :=
  let p := dpiNext (cp_dpi it) in
  if dpiAtEnd p then
    d <- nextPhi m (cp_dart it) ;;
    if d =? cp_end it then Ok (mkCpi p d (cp_end it))
    else q <- dpiOf m d ;; Ok (mkCpi (dpiNext q) d (cp_end it))
  else Ok (mkCpi p (cp_dart it) (cp_end it)).

(** for(; it.inRange(); ++it) visit( *it ) *)
Fixpoint drain (n : nat) m (it : cpi) : res (list point) :=
  match n with
  | O => NoFuel
  | S k => if dpiAtEnd (cp_dpi it) then Ok []
           else p <- dpiGet (cp_dpi it) ;;
                it <- cpiNext m it ;;
                ps <- drain k m it ;; Ok (p :: ps)
  end.

(** the same for a DartPointIter *)
Fixpoint drainDpi (n : nat) (it : dpi) : res (list point) :=
  match n with
  | O => NoFuel
  | S k => if dpiAtEnd it then Ok []
           else p <- dpiGet it ;; ps <- drainDpi k (dpiNext it) ;; Ok (p :: ps)
  end.

Definition pointEqb (p q : point) : bool := (fst p =? fst q) && (snd p =? snd q).

(** polygon.hxx 363-389: Polygon::extend, the points *)
Definition extendPts (p q : list point) : list point :=
  match q with
  | [] => p
  | b :: q' => match rev p with
               | [] => q
               | a :: _ => if pointEqb b a then p ++ q' else p ++ q
               end
  end.

(** cppmap.cxx 110-128: contourPoly *)
Fixpoint contourPolyLoop (n : nat) m (d0 d : Z) (acc : list point) : res (list point) :=
  match n with
  | O => NoFuel
  | S k =>
      e <- deref (edgeP m (elab d)) ;;
      let acc := extendPts acc (if d <? 0 then rev (epts e) else epts e) in
      d' <- nextPhi m d ;;
      if d' =? d0 then Ok acc else contourPolyLoop k m d0 d' acc
  end.
Definition contourPoly m d : res (list point) := contourPolyLoop (fuel m) m d d [].
