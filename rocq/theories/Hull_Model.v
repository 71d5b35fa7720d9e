(** Model of convexHull and CCWCompare (src/geomap/polygon.hxx 742-831).  Coordinates are integers (no rounding).

    std::sort is a parameter: any function that returns a sorted permutation for a strict weak order.  The vector [result]
    with the iterator currentEnd is the list of its valid entries, last entry first; endSegment is always the difference of
    the last two entries. *)
From Verif Require Import Base GeoMap_Model.
Local Open Scope Z_scope.

(** polygon.hxx 752-755: CCWCompare(p0)(a, b) *)
Definition ccwBefore (p0 a b : point) : bool :=
  0 <? (snd a - snd p0) * (fst b - fst p0) - (fst a - fst p0) * (snd b - snd p0).

(** polygon.hxx 771-781: the extremal point among the points from index [i] on, [i0] and [p0] being the best so far *)
Fixpoint extremal (l : list point) (i : nat) (p0 : point) (i0 : nat) : point * nat :=
  match l with
  | [] => (p0, i0)
  | p :: t =>
      let yDiff := snd p - snd p0 in
      if (0 <? yDiff) || ((yDiff =? 0) && (fst p <? fst p0)) then extremal t (S i) p i else extremal t (S i) p0 i0
  end.

Definition sqDist (a b : point) : Z := (fst a - fst b) * (fst a - fst b) + (snd a - snd b) * (snd a - snd b).

(** polygon.hxx 799-824: the do-while loop for the point [c]; currentEnd[-1] does not exist in front of the first entry *)
Fixpoint scanOne (stack : list point) (c : point) : res (list point) :=
  match stack with
  | t :: ((s :: _) as below) =>
      let sa2 := (fst c - fst s) * (snd t - snd s) - (fst t - fst s) * (snd c - snd s) in
      if 0 <? sa2 then Ok (c :: stack)
      else if sa2 =? 0 then (if sqDist t s <? sqDist c s then Ok (c :: below) else Ok stack)
      else scanOne below c
  | _ => UB
  end.
(** polygon.hxx 797-825 *)
Fixpoint scanAll (stack : list point) (l : list point) : res (list point) :=
  match l with
  | [] => Ok stack
  | c :: t => st <- scanOne stack c ;; scanAll st t
  end.

(** polygon.hxx 760-831 with an empty chull *)
Definition convexHull (sort : (point -> point -> bool) -> list point -> list point) (poly : list point) : res (list point) :=
  match poly with
  | a :: ((_ :: _) as rest) =>
      let '(p0, i0) := extremal rest 1 a 0 in
      match sort (ccwBefore p0) (firstn i0 poly ++ skipn (S i0) poly) with
      | [] => UB
      | o :: others => st <- scanAll [o; p0] others ;; Ok (rev (p0 :: st))
      end
  | _ => Exn
  end.
