(** Where a polygonal chain runs and how often it winds around a pixel. *)
From Coq Require Import QArith.
From Verif Require Import Base.
Local Open Scope Q_scope.

(** [q] lies inside the open unit square around pixel ([x], [y]) *)
Definition inPixel (x y : Z) (q : Q * Q) : Prop :=
  inject_Z x - (1#2) < fst q < inject_Z x + (1#2) /\ inject_Z y - (1#2) < snd q < inject_Z y + (1#2).

Definition between (a b : Q * Q) (t : Q) : Q * Q := (fst a + (fst b - fst a) * t, snd a + (snd b - snd a) * t).

(** some point of the chain satisfies [P] *)
Fixpoint chainMeets (P : Q * Q -> Prop) (pts : list (Q * Q)) : Prop :=
  match pts with
  | [] => False
  | [a] => P a
  | a :: ((b :: _) as t) => (exists u, 0 <= u <= 1 /\ P (between a b u)) \/ chainMeets P t
  end.

(** signed crossings of the chain with the ray from pixel centre ([x], [y]) to the left *)
Definition crossing (x y : Z) (a b : Q * Q) : Z :=
  let cx := fst a + (fst b - fst a) * (inject_Z y - snd a) / (snd b - snd a) in
  let left := negb (Qle_bool (inject_Z x) cx) in
  let ga := negb (Qle_bool (snd a) (inject_Z y)) in
  let gb := negb (Qle_bool (snd b) (inject_Z y)) in
  (if left then (if gb then 1 else 0) - (if ga then 1 else 0) else 0)%Z.
Fixpoint winding (x y : Z) (pts : list (Q * Q)) : Z :=
  match pts with
  | a :: ((b :: _) as t) => (crossing x y a b + winding x y t)%Z
  | _ => 0%Z
  end.

Definition closedChain (pts : list (Q * Q)) : Prop := exists p t, pts = p :: t /\ last t p = p.
