(** What Python's lists do with an index. *)
From Verif Require Import Base.
Local Open Scope Z_scope.

Definition isInt (i : Z) : Prop := - 2 ^ 31 <= i < 2 ^ 31.
(** the position of l[i] in a list of length [n] *)
Definition pyPos (i : Z) (n : nat) : option nat :=
  if (0 <=? i) && (i <? Z.of_nat n) then Some (Z.to_nat i) else if (- Z.of_nat n <=? i) && (i <? 0) then Some (Z.to_nat (i + Z.of_nat n)) else None.
(** where l.insert(i, x) puts x *)
Definition pyInsertPos (i : Z) (n : nat) : nat := Z.to_nat (if i <? 0 then Z.max 0 (i + Z.of_nat n) else Z.min i (Z.of_nat n)).
