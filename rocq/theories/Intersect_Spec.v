(** What a polygon is cut into by a line. *)
From Coq Require Import QArith.
From Verif Require Import Base.
Local Open Scope Q_scope.

(** twice the signed area of the triangle (s, p, e): not negative on one side of the line *)
Definition sideOf (s e p : Q * Q) : Q := (fst p - fst s) * (snd e - snd s) - (snd p - snd s) * (fst e - fst s).
Definition isInside (s e p : Q * Q) : Prop := 0 <= sideOf s e p.
Definition samePt (p q : Q * Q) : Prop := fst p == fst q /\ snd p == snd q.
(** the point dividing p q at [r] *)
Definition along (p q : Q * Q) (r : Q) : Q * Q := (fst p + r * (fst q - fst p), snd p + r * (snd q - snd p)).
(** the point where p q meets the line *)
Definition meets (s e p q c : Q * Q) : Prop := sideOf s e c == 0 /\ exists r, 0 <= r <= 1 /\ samePt c (along p q r).

(** what the function puts at the end of a part that leaves from [u] to [p]; [o] is the point outside before the part, if there is one *)
Definition leaving (s e : Q * Q) (o : option (Q * Q)) (u p c : Q * Q) : Prop :=
  match o with
  | None => samePt c u
  | Some q => ~ sideOf s e p == sideOf s e q /\ exists r, r * (sideOf s e p - sideOf s e q) == - sideOf s e q /\ samePt c (along u p r)
  end.
Definition entering (s e : Q * Q) (o : option (Q * Q)) (u : Q * Q) (cs : list (Q * Q)) : Prop :=
  match o with None => cs = [] | Some q => exists c, cs = [c] /\ meets s e q u c end.

(** the parts of a polygon: its longest stretches inside, each with the point where it enters and one where it leaves; [o] is the point before, if it is outside *)
Inductive cut (s e : Q * Q) : option (Q * Q) -> list (Q * Q) -> list (list (Q * Q)) -> Prop :=
| cut_none o : cut s e o [] []
| cut_skip o p l parts : ~ isInside s e p -> cut s e (Some p) l parts -> cut s e o (p :: l) parts
| cut_last o u run cs : (forall x, In x (u :: run) -> isInside s e x) -> entering s e o u cs -> cut s e o (u :: run) [cs ++ u :: run]
| cut_leave o u run cs p c l parts : (forall x, In x (u :: run) -> isInside s e x) -> entering s e o u cs -> ~ isInside s e p -> leaving s e o (last (u :: run) u) p c ->
    cut s e (Some p) l parts -> cut s e o ((u :: run) ++ p :: l) ((cs ++ (u :: run) ++ [c]) :: parts).
