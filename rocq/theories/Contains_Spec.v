(** What "inside a polygon" means (C45), independent of the code's loop: the even-odd rule. *)
From Coq Require Import QArith.
From Verif Require Import Base GeoMap_Model GeoMap_IterModel Contains_Model.
Local Open Scope Q_scope.

(** [q] lies on the segment from [a] to [b] *)
Definition onSegment (a b q : qpt) : Prop :=
  exists t, 0 <= t /\ t <= 1 /\ fst q == fst a + t * (fst b - fst a) /\ snd q == snd a + t * (snd b - snd a).

(** the segment meets the ray from [p] to the left; the segment's lower end does not belong to it (half-open rule) *)
Definition crossesLeft (a b p : qpt) : Prop :=
  ((snd a < snd p /\ snd p <= snd b) \/ (snd b < snd p /\ snd p <= snd a)) /\
  exists q, onSegment a b q /\ snd q == snd p /\ fst q < fst p.

(** [n] of the polygon's segments cross the ray *)
Inductive crossings (p : qpt) : list qpt -> nat -> Prop :=
| cr_nil : crossings p [] 0
| cr_one a : crossings p [a] 0
| cr_yes a b t n : crossesLeft a b p -> crossings p (b :: t) n -> crossings p (a :: b :: t) (S n)
| cr_no a b t n : ~ crossesLeft a b p -> crossings p (b :: t) n -> crossings p (a :: b :: t) n.

(** the closed polygon with the given corners *)
Definition loop (c : list qpt) : list qpt := match c with [] => [] | a :: _ => c ++ [a] end.

(** twice the signed area of the triangle *)
Definition orient (a b c : qpt) : Q := (fst b - fst a) * (snd c - snd a) - (snd b - snd a) * (fst c - fst a).
(** strictly inside the triangle; inside or on its border *)
Definition insideTri (a b c p : qpt) : Prop :=
  (0 < orient a b p /\ 0 < orient b c p /\ 0 < orient c a p) \/ (orient a b p < 0 /\ orient b c p < 0 /\ orient c a p < 0).
Definition withinTri (a b c p : qpt) : Prop :=
  ~ orient a b c == 0 /\
  ((0 <= orient a b p /\ 0 <= orient b c p /\ 0 <= orient c a p) \/ (orient a b p <= 0 /\ orient b c p <= 0 /\ orient c a p <= 0)).

(** exclusive or of the answers for the triangles (apex, x, y) over the segments (x, y) of the polygon *)
Fixpoint fan (apex : qpt) (l : list qpt) (p : qpt) : res bool :=
  match l with
  | x :: ((y :: _) as t) => b <- contains [apex; x; y; apex] p ;; r <- fan apex t p ;; Ok (xorb b r)
  | _ => Ok false
  end.

(** ** Faces *)

(** the contour through dart [a] contains the point *)
Definition contourHas m (p : qpt) (a : Z) (b : bool) : Prop :=
  exists ps, contourPoly m a = Ok ps /\ contains (map toQ ps) p = Ok b.
(** the face contains the point: it lies in the outer contour (except for the infinite face) and in no hole *)
Definition faceHas m (p : qpt) (l : nat) (f : face) (b : bool) : Prop :=
  exists bs, Forall2 (contourHas m p) (fanchors f) bs /\
    b = match l with
        | O => negb (existsb (fun x => x) bs)
        | S _ => hd false bs && negb (existsb (fun x => x) (tl bs))
        end.
