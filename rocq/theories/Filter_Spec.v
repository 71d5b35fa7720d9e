(** What iterating is expected to visit. *)
From Verif Require Import Base.
Local Open Scope Z_scope.

(** labels of the live cells of a table, ascending *)
Fixpoint liveFrom {A} (k : nat) (v : list (option A)) : list (nat * A) :=
  match v with
  | [] => []
  | Some a :: t => (k, a) :: liveFrom (S k) t
  | None :: t => liveFrom (S k) t
  end.
Definition liveCells {A} (v : list (option A)) : list (nat * A) := liveFrom 0 v.

(** cells may be removed, nothing else happens to the table *)
Definition onlyRemoves {A} (v v' : list (option A)) : Prop :=
  length v' = length v /\ (forall i, nth_error v' i = nth_error v i \/ nth_error v' i = Some None).

(** integers a, a+1, ..., b-1 *)
Definition upTo (a b : Z) : list Z := map (fun i => a + Z.of_nat i) (seq 0 (Z.to_nat (b - a))).

(** pixels of the rectangle [x0,x1) x [y0,y1) in row-major order *)
Definition rowMajor (x0 y0 x1 y1 : Z) : list (Z * Z) :=
  flat_map (fun y => map (fun x => (x, y)) (upTo x0 x1)) (upTo y0 y1).
