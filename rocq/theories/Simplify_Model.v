(** Model of simplifyPolygon (src/geomap/polygon.hxx 835-935).  Coordinates are real numbers (no rounding). *)
From Coq Require Import Reals.
From Verif Require Import Base DartPosition_Model.
Local Open Scope R_scope.

(** dot(a, b) *)
Definition vdot (a b : vec) : R := fst a * fst b + snd a * snd b.
Definition tiny : R := / IZR 10000000000000000.

(** polygon.hxx 867-876, 882-891: index of the last point (of [mid], counted from [i]) that exceeded all distances before it *)
Fixpoint farthest (d : vec -> R) (mid : list vec) (i : nat) (maxDist : R) (split : option nat) : option nat :=
  match mid with
  | [] => split
  | p :: t => if Rlt_dec maxDist (d p) then farthest d t (S i) (d p) (Some i) else farthest d t (S i) maxDist split
  end.
(** polygon.hxx 899-910: index of the point with the most similar distances to both ends *)
Fixpoint mostCentral (d : vec -> R) (mid : list vec) (i : nat) (best : R) (split : nat) : nat :=
  match mid with
  | [] => split
  | p :: t => if Rlt_dec (d p) best then mostCentral d t (S i) (d p) i else mostCentral d t (S i) best split
  end.

(** polygon.hxx 846-894: position to split at by distance *)
Definition distSplit (a b : vec) (mid : list vec) (epsilon : R) : option nat :=
  let straight := vsub b a in
  let l2 := sqMag straight in
  if Rlt_dec tiny l2 then
    let normal := vscale (snd straight, - fst straight) (/ sqrt l2) in
    farthest (fun p => Rabs (vdot (vsub p a) normal)) mid 1 epsilon None
  else farthest (fun p => mag (vsub p a)) mid 1 epsilon None.
(** polygon.hxx 896-911 *)
Definition stepSplit (a b : vec) (mid : list vec) : option nat :=
  let d p := Rabs (sqMag (vsub p a) - sqMag (vsub p b)) in
  match mid with [] => None | p :: t => Some (mostCentral d t 2 (d p) 1) end.

(** polygon.hxx 835-919: the points appended to [simple]; maxStep2 is given iff useMaxStep *)
Fixpoint simplifyHelper (fuel : nat) (poly : list vec) (epsilon : R) (maxStep2 : option R) : res (list vec) :=
  match fuel with
  | 0%nat => NoFuel
  | S fuel' =>
      if (length poly <=? 2)%nat then Ok []
      else
        a <- vget poly 0 ;; b <- vget poly (length poly - 1) ;;
        let mid := removelast (tl poly) in
        let split := match distSplit a b mid epsilon with
                     | Some i => Some i
                     | None => match maxStep2 with
                               | Some m2 => if Rlt_dec m2 (sqMag (vsub b a)) then stepSplit a b mid else None
                               | None => None
                               end
                     end in
        match split with
        | None => Ok []
        | Some i =>
            l <- simplifyHelper fuel' (firstn (S i) poly) epsilon maxStep2 ;;
            p <- vget poly i ;;
            r <- simplifyHelper fuel' (skipn i poly) epsilon maxStep2 ;;
            Ok (l ++ [p] ++ r)
        end
  end.
(** polygon.hxx 921-939 with an empty [simple] *)
Definition simplifyPolygon (poly : list vec) (epsilon : R) (maxStep : option R) : res (list vec) :=
  a <- vget poly 0 ;;
  l <- simplifyHelper (S (length poly)) poly epsilon (option_map (fun m => m * m) maxStep) ;;
  b <- vget poly (length poly - 1) ;;
  Ok ([a] ++ l ++ [b]).
