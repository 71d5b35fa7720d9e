(** What a position index is expected to do, in terms of the multiset of stored points. *)
From Verif Require Import Base.
Local Open Scope Z_scope.

(** squared Euclidean distance *)
Definition farSq (p q : Z * Z) : Z := (fst p - fst q) ^ 2 + (snd p - snd q) ^ 2.

(** [o] is a correct answer to "which of the points [s] is nearest to [p], if closer than [b]" *)
Definition nearestOf {A} (s : list ((Z * Z) * A)) (p : Z * Z) (b : Z) (o : option ((Z * Z) * A)) : Prop :=
  match o with
  | Some e => In e s /\ farSq (fst e) p < b /\ (forall e', In e' s -> farSq (fst e) p <= farSq (fst e') p)
  | None => forall e', In e' s -> b <= farSq (fst e') p
  end.

(** live nodes of a table *)
Definition liveAt (t : list (option (Z * Z))) (l : nat) (p : Z * Z) : Prop := nth_error t l = Some (Some p).

(** the answer expected of nearestNode *)
Definition nearestLive (t : list (option (Z * Z))) (p : Z * Z) (b : Z) (o : option nat) : Prop :=
  match o with
  | Some l => exists q, liveAt t l q /\ farSq q p < b /\ (forall l' q', liveAt t l' q' -> farSq q p <= farSq q' p)
  | None => forall l' q', liveAt t l' q' -> b <= farSq q' p
  end.
