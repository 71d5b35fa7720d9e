(** Common vocabulary of all models.

    [res] separates the outcomes a C++ call can have: a normal result, a
    violated [vigra_precondition] / [vigra_postcondition] / other C++ exception
    ([Exn]), undefined behaviour ([UB]: out-of-range index, null dereference,
    erase(end()), ...), and a fuel exhaustion of the model's own loop
    ([NoFuel]), which theorems have to exclude. *)
From Coq Require Export List Arith ZArith Bool Lia.
From Coq Require Export Permutation.
Export ListNotations.

Inductive res (A : Type) : Type :=
| Ok (a : A)
| Exn
| UB
| NoFuel.
Arguments Ok {A} a.
Arguments Exn {A}.
Arguments UB {A}.
Arguments NoFuel {A}.

Definition bind {A B} (r : res A) (f : A -> res B) : res B :=
  match r with Ok a => f a | Exn => Exn | UB => UB | NoFuel => NoFuel end.

Notation "x <- r ;; k" := (bind r (fun x => k))
  (at level 61, r at next level, right associativity).

(** [vector::operator[]] read. *)
Definition vget {A} (v : list A) (i : nat) : res A :=
  match nth_error v i with Some a => Ok a | None => UB end.

Fixpoint list_upd {A} (v : list A) (i : nat) (x : A) : list A :=
  match v, i with
  | [], _ => []
  | _ :: t, 0 => x :: t
  | h :: t, S j => h :: list_upd t j x
  end.

(** [vector::operator[]] write. *)
Definition vset {A} (v : list A) (i : nat) (x : A) : res (list A) :=
  if i <? length v then Ok (list_upd v i x) else UB.

Lemma bind_Ok {A B} (r : res A) (f : A -> res B) b :
  bind r f = Ok b <-> exists a, r = Ok a /\ f a = Ok b.
Proof.
  destruct r; simpl; split; try discriminate; try (intros [a' [H _]]; discriminate).
  - intros H; exists a; auto.
  - intros [a' [H1 H2]]; injection H1 as ->; exact H2.
Qed.

Lemma vget_Ok {A} (v : list A) i a : vget v i = Ok a <-> nth_error v i = Some a.
Proof.
  unfold vget; destruct (nth_error v i); split; intros H; inversion H; reflexivity.
Qed.

Lemma vset_Ok {A} (v : list A) i x w :
  vset v i x = Ok w <-> i < length v /\ w = list_upd v i x.
Proof.
  unfold vset; destruct (Nat.ltb_spec i (length v)); split.
  - intros H1; inversion H1; auto.
  - intros [_ ->]; reflexivity.
  - discriminate.
  - intros [H1 _]; lia.
Qed.

Lemma list_upd_length {A} (v : list A) i x : length (list_upd v i x) = length v.
Proof.
  revert i; induction v as [|h t IH]; intros [|i]; simpl; auto.
Qed.

Lemma nth_error_upd_eq {A} (v : list A) i x :
  i < length v -> nth_error (list_upd v i x) i = Some x.
Proof.
  revert i; induction v as [|h t IH]; intros [|i]; simpl; intros H; try lia; auto.
  apply IH; lia.
Qed.

Lemma nth_error_upd_neq {A} (v : list A) i j x :
  i <> j -> nth_error (list_upd v i x) j = nth_error v j.
Proof.
  revert i j; induction v as [|h t IH]; intros [|i] [|j]; simpl; intros H; auto; try lia.
Qed.

Lemma nth_error_upd {A} (v : list A) i j x :
  nth_error (list_upd v i x) j =
  if Nat.eqb i j then (if i <? length v then Some x else None) else nth_error v j.
Proof.
  destruct (Nat.eqb_spec i j) as [->|H].
  - destruct (Nat.ltb_spec j (length v)).
    + apply nth_error_upd_eq; assumption.
    + apply nth_error_None; rewrite list_upd_length; lia.
  - apply nth_error_upd_neq; assumption.
Qed.

Lemma nth_error_lt {A} (v : list A) i a : nth_error v i = Some a -> i < length v.
Proof. intros H; apply nth_error_Some; rewrite H; discriminate. Qed.

Lemma nth_error_ex {A} (v : list A) i : i < length v -> exists a, nth_error v i = Some a.
Proof.
  intros H; destruct (nth_error v i) as [a|] eqn:E; [exists a; reflexivity|].
  apply nth_error_None in E; lia.
Qed.

Lemma NoDup_app_intro {A} (l1 l2 : list A) :
  NoDup l1 -> NoDup l2 -> (forall x, In x l1 -> ~ In x l2) -> NoDup (l1 ++ l2).
Proof.
  induction l1 as [|h t IH]; simpl; intros H1 H2 H; auto.
  inversion H1; subst; constructor.
  - rewrite in_app_iff; intros [Hh|Hh]; [auto|]. apply (H h); auto.
  - apply IH; auto.
Qed.

Lemma NoDup_app_inv {A} (l1 l2 : list A) :
  NoDup (l1 ++ l2) -> NoDup l1 /\ NoDup l2 /\ (forall x, In x l1 -> ~ In x l2).
Proof.
  induction l1 as [|h t IH]; simpl; intros H.
  - repeat split; auto; constructor.
  - inversion H; subst. destruct (IH H3) as (Ht & H2' & Hd).
    repeat split; auto.
    + constructor; auto. intros Hi; apply H2; apply in_or_app; auto.
    + intros x [->|Hx] Hx2; [apply H2; apply in_or_app; auto | apply (Hd x Hx Hx2)].
Qed.
