(** What a simplified polygon has to be. *)
From Coq Require Import Reals.
From Verif Require Import Base DartPosition_Model DartPosition_Spec.
Local Open Scope R_scope.

(** [p] is within [eps] of some point of the line through [a] and [b] *)
Definition nearLine (eps : R) (a b p : vec) : Prop :=
  exists t, dist p (fst a + t * (fst b - fst a), snd a + t * (snd b - snd a)) <= eps.

(** dropping the points between the indices [i] and [j] is allowed *)
Definition gapOK (P : list vec) (eps : R) (maxStep : option R) (i j : nat) : Prop :=
  (i < j)%nat /\
  forall a b, nth_error P i = Some a -> nth_error P j = Some b ->
    (forall k p, (i < k < j)%nat -> nth_error P k = Some p -> nearLine eps a b p) /\
    (forall m, maxStep = Some m -> j = S i \/ dist a b <= Rabs m).

(** [K] consists of the points of [P] at the increasing indices [idx], from the first to the last one, with allowed gaps *)
Definition simplified (P K : list vec) (eps : R) (maxStep : option R) (idx : list nat) : Prop :=
  Forall2 (fun i p => nth_error P i = Some p) idx K /\
  (exists t, idx = 0%nat :: t) /\ (exists t, idx = t ++ [(length P - 1)%nat]) /\
  (forall l1 i j l2, idx = l1 ++ i :: j :: l2 -> gapOK P eps maxStep i j).
