(** Specification vocabulary for LabelLUT, independent of the implementation:
    the partition generated by the merges of a history. *)
From Coq Require Export Relations.
From Verif Require Import Base LabelLUT_Model.

(** number of labels after a history *)
Fixpoint nlabels (n : nat) (os : list op) : nat :=
  match os with
  | [] => n
  | Relabel _ _ :: os' => nlabels n os'
  | AppendOne :: os' => nlabels (S n) os'
  end.

(** labels that have been merged into another one *)
Definition absorbed (os : list op) (l : nat) : Prop := exists g, In (Relabel l g) os.

(** the equivalence generated by the merges *)
Definition same (os : list op) : nat -> nat -> Prop :=
  clos_refl_sym_trans nat (fun a b => In (Relabel a b) os).

(** A history is admissible if each merge names two different existing labels
    none of which has been absorbed before (they are current representatives). *)
Fixpoint admissible_from (past : list op) (n : nat) (os : list op) : Prop :=
  match os with
  | [] => True
  | Relabel f g :: os' =>
      f < n /\ g < n /\ f <> g /\ ~ absorbed past f /\ ~ absorbed past g /\
      admissible_from (past ++ [Relabel f g]) n os'
  | AppendOne :: os' => admissible_from (past ++ [AppendOne]) (S n) os'
  end.

Definition admissible n os := admissible_from [] n os.
