(** Model of intersectLine (src/python_bindings/polygon.cxx 1754-1814), exported as a function on polygons.

    Simplifications: coordinates are rational and arithmetic is exact; the normal is not divided by its length, as only signs and ratios of the
    distances are used; a point that is not finite (division by zero) is [UB]. *)
From Coq Require Import QArith.
From Verif Require Import Base.
Local Open Scope Q_scope.

Definition pt := (Q * Q)%type.
(** polygon.cxx 1763-1765, 1781: dot(p - lineStart, lineNormal) *)
Definition dist (s e p : pt) : Q := (fst p - fst s) * (snd e - snd s) - (snd p - snd s) * (fst e - fst s).
Definition Qneg (a : Q) : bool := negb (Qle_bool 0 a).
(** polygon.cxx 1787-1789, 1801-1803; [prev] is polygon[pointIndex-1] *)
Definition cross (prev : option pt) (p : pt) (prevDist d : Q) : res pt :=
  match prev with
  | None => UB
  | Some q => if Qeq_bool (d - prevDist) 0 then UB else let r := prevDist / (d - prevDist) in Ok (fst q - r * (fst p - fst q), snd q - r * (snd p - snd q))
  end.
(** polygon.cxx 1778-1809: the loop; [cur] is currentPart.  prevDist is only set at points outside *)
Fixpoint cutLoop (s e : pt) (prev : option pt) (inside : bool) (prevDist : Q) (cur : list pt) (l : list pt) : res (list (list pt)) :=
  match l with
  | [] => Ok (if inside then [cur] else [])
  | p :: t =>
      let d := dist s e p in
      if Qneg d then
        if inside then c <- cross prev p prevDist d ;; rest <- cutLoop s e (Some p) false d [] t ;; Ok ((cur ++ [c]) :: rest)
        else cutLoop s e (Some p) false d cur t
      else if inside then cutLoop s e (Some p) true prevDist (cur ++ [p]) t
      else c <- cross prev p prevDist d ;; cutLoop s e (Some p) true prevDist ((cur ++ [c]) ++ [p]) t
  end.
(** polygon.cxx 1754-1814 *)
Definition intersectLine (l : list pt) (s e : pt) : res (list (list pt)) :=
  match l with
  | [] => Ok []
  | p :: _ =>
      if Qeq_bool (snd e - snd s) 0 && Qeq_bool (fst e - fst s) 0 then Ok [l]
      else cutLoop s e None (negb (Qneg (dist s e p))) 0 [] l
  end.
