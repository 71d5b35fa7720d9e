(** What a convex hull is (C50). *)
From Coq Require Import Permutation.
From Verif Require Import Base GeoMap_Model.
Local Open Scope Z_scope.

(** twice the area of the triangle, positive iff [q] lies to the left of the line from [a] to [b] (y axis pointing down) *)
Definition side (a b q : point) : Z := (fst q - fst a) * (snd b - snd a) - (fst b - fst a) * (snd q - snd a).

(** std::sort: for a strict weak order the result is a sorted permutation *)
Definition strictWeak (before : point -> point -> bool) (l : list point) : Prop :=
  (forall a, In a l -> before a a = false) /\
  (forall a b c, In a l -> In b l -> In c l -> before a b = true -> before b c = true -> before a c = true) /\
  (forall a b c, In a l -> In b l -> In c l -> before a b = false -> before b a = false -> before b c = false -> before c b = false ->
     before a c = false /\ before c a = false).
Definition sorted (before : point -> point -> bool) (l : list point) : Prop :=
  forall l1 a l2 b l3, l = l1 ++ a :: l2 ++ b :: l3 -> before b a = false.
Definition sorts (sort : (point -> point -> bool) -> list point -> list point) : Prop :=
  forall before l, strictWeak before l -> Permutation (sort before l) l /\ sorted before (sort before l).

(** [p0] is the lowest point (y pointing down), the leftmost of these, and occurs once *)
Definition isExtremal (p0 : point) (poly : list point) : Prop :=
  exists u v, poly = u ++ p0 :: v /\ forall q, In q (u ++ v) -> snd q < snd p0 \/ (snd q = snd p0 /\ fst p0 < fst q).

(** consecutive points *)
Definition edgeOf (hull : list point) (a b : point) : Prop := exists u v, hull = u ++ a :: b :: v.

(** closed polygon of input points *)
Definition closedFrom (hull poly : list point) : Prop :=
  (exists p0 m, hull = p0 :: m ++ [p0] /\ m <> []) /\ incl hull poly.
(** no input point lies to the right of any edge *)
Definition enclosesAll (hull poly : list point) : Prop := forall a b q, edgeOf hull a b -> In q poly -> 0 <= side a b q.
(** every half plane that contains the corners contains the input points *)
Definition spansAll (hull poly : list point) : Prop := forall A B C, (forall v, In v hull -> 0 <= A * fst v + B * snd v + C) ->
  forall q, In q poly -> 0 <= A * fst q + B * snd q + C.

(** on no ray from [p0] there is a point with a nearer point and then a farther point behind it in the list *)
Definition rayOrder (p0 : point) (l : list point) : Prop :=
  forall l1 a l2 b l3 c l4, l = l1 ++ a :: l2 ++ b :: l3 ++ c :: l4 -> side p0 a b = 0 -> side p0 a c = 0 ->
    let d q := (fst q - fst p0) * (fst q - fst p0) + (snd q - snd p0) * (snd q - snd p0) in ~ (d b < d a /\ d a < d c).

(** at most two points besides [p0] lie on one line through it *)
Definition raysOfTwo (p0 : point) (poly : list point) : Prop :=
  forall w x a b c u, poly = w ++ p0 :: x -> Permutation (w ++ x) (a :: b :: c :: u) -> ~ (side p0 a b = 0 /\ side p0 a c = 0).
