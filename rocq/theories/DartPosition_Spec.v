(** Positions along a dart, by arc length. *)
From Coq Require Import Reals.
From Verif Require Import Base DartPosition_Model.
Local Open Scope R_scope.

(** the points of a dart in its direction *)
Definition dartPts (pts : list vec) (fwd : bool) : list vec := if fwd then pts else rev pts.
Definition dist (a b : vec) : R := sqrt ((fst a - fst b) * (fst a - fst b) + (snd a - snd b) * (snd a - snd b)).
(** length of the first [k] segments *)
Fixpoint arcTo (P : list vec) (k : nat) : R :=
  match k, P with
  | S k', a :: t => match t with b :: _ => dist a b + arcTo t k' | [] => 0 end
  | _, _ => 0
  end.
(** the whole length *)
Definition arcAll (P : list vec) : R := arcTo P (length P - 1).

(** [x] lies on segment [k] of [P], at arc length [s] *)
Definition onSegment (P : list vec) (k : nat) (s : R) (x : vec) : Prop :=
  exists a b t, nth_error P k = Some a /\ nth_error P (S k) = Some b /\ 0 <= t <= 1 /\
    x = (fst a + t * (fst b - fst a), snd a + t * (snd b - snd a)) /\ s = arcTo P k + t * dist a b.

(** positions reached by moving forward *)
Inductive forward (pts : list vec) (fwd : bool) : dpos -> Prop :=
| f_start : forall d, dpStart pts fwd = Ok d -> forward pts fwd d
| f_next : forall d d' b, forward pts fwd d -> gotoNextSegment d = Ok (d', b) -> forward pts fwd d'
| f_goto : forall d d' b s, forward pts fwd d -> dpArcLength d <= s -> gotoArcLength d s = Ok (d', b) -> forward pts fwd d'.
