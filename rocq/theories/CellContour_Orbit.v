(** Cycles of a permutation, and what becomes of them when two elements are left out. *)
From Coq Require Import Lia Arith List.
Import ListNotations.

Section It.
Context {A : Type}.
Fixpoint it (k : nat) (f : A -> A) (x : A) : A := match k with O => x | S j => it j f (f x) end.
Definition orb (f : A -> A) (x y : A) : Prop := exists k, it k f x = y.
Lemma it_add f j : forall k x, it (j + k) f x = it k f (it j f x).
Proof. induction j; intros k x; cbn; auto. Qed.
Lemma it_S f k x : it (S k) f x = f (it k f x).
Proof. rewrite <- (Nat.add_1_r k), it_add. reflexivity. Qed.
Lemma orb_refl f x : orb f x x. Proof. exists 0. reflexivity. Qed.
Lemma orb_step f x : orb f x (f x). Proof. exists 1. reflexivity. Qed.
Lemma orb_trans f x y z : orb f x y -> orb f y z -> orb f x z.
Proof. intros (j & <-) (k & <-). exists (j + k). apply it_add. Qed.
End It.

Section Perm.
Context {A : Type}.
Variable dec : forall x y : A, {x = y} + {x <> y}.
Variable P : A -> Prop.
Variable f : A -> A.
Hypothesis closed : forall x, P x -> P (f x).
Hypothesis inj : forall x y, P x -> P y -> f x = f y -> x = y.
Hypothesis back : forall x, P x -> exists k, (0 < k)%nat /\ it k f x = x.

Lemma it_P k : forall x, P x -> P (it k f x).
Proof. induction k; intros x H; cbn; auto. Qed.
Lemma it_mul x r : it r f x = x -> forall q, it (q * r) f x = x.
Proof. intros H. induction q; [reflexivity|]. cbn [Nat.mul]. rewrite it_add, H. exact IHq. Qed.
Lemma orb_sym x y : P x -> orb f x y -> orb f y x.
Proof.
  intros H (k & <-). destruct (back x H) as (r & R & E). exists (k * r - k). rewrite <- it_add. replace (k + (k * r - k)) with (k * r) by nia. apply it_mul, E.
Qed.
Lemma orb_P x y : P x -> orb f x y -> P y.
Proof. intros H (k & <-). apply it_P, H. Qed.
(** the first time [y] is met after leaving [x] *)
Lemma first_meet x y k : (0 < k)%nat -> it k f x = y -> exists i, (0 < i <= k)%nat /\ it i f x = y /\ forall j, (0 < j < i)%nat -> it j f x <> y.
Proof.
  induction k as [k IH] using lt_wf_ind. intros K E.
  destruct (Exists_dec (fun j => it j f x = y) (seq 1 (k - 1)) (fun j => dec _ _)) as [X|N].
  - apply Exists_exists in X. destruct X as (j & J & Ej). apply in_seq in J. destruct (IH j) as (i & I & Ei & F); [lia|lia|exact Ej|]. exists i. split; [lia|auto].
  - exists k. split; [lia|]. split; [exact E|]. intros j J Ej. apply N, Exists_exists. exists j. split; [apply in_seq; lia|exact Ej].
Qed.
Lemma first_return x : P x -> exists r, (0 < r)%nat /\ it r f x = x /\ forall j, (0 < j < r)%nat -> it j f x <> x.
Proof. intros H. destruct (back x H) as (k & K & E). destruct (first_meet x x k K E) as (r & R & F). exists r. split; [lia|exact F]. Qed.
(** before the return no element is met twice *)
Lemma distinct x r i j : P x -> (forall j, (0 < j < r)%nat -> it j f x <> x) -> (i < j)%nat -> (j < r)%nat -> it i f x <> it j f x.
Proof.
  intros H F I J E. apply (F (j - i)%nat); [lia|]. clear F J. revert j I E. induction i as [|i IH]; intros j I E; [rewrite Nat.sub_0_r; symmetry; exact E|].
  destruct j as [|j]; [lia|]. rewrite !it_S in E. apply inj in E; try (apply it_P, H). replace (S j - S i)%nat with (j - i)%nat by lia. apply IH; [lia|exact E].
Qed.
Lemma orb_bound x y r : it r f x = x -> (0 < r)%nat -> orb f x y -> exists j, (j < r)%nat /\ it j f x = y.
Proof.
  intros E R (k & <-). exists (k mod r)%nat. split; [apply Nat.mod_upper_bound; lia|]. rewrite (Nat.div_mod k r) at 2 by lia. rewrite (Nat.mul_comm r), it_add, it_mul by exact E. reflexivity.
Qed.
Lemma orb_dec x y : P x -> {r : nat | it r f x = x /\ (0 < r)%nat} -> {orb f x y} + {~ orb f x y}.
Proof.
  intros H (r & E & R). destruct (Exists_dec (fun j => it j f x = y) (seq 0 r) (fun j => dec _ _)) as [X|N].
  - left. apply Exists_exists in X. destruct X as (j & _ & Ej). exists j. exact Ej.
  - right. intros O. destruct (orb_bound x y r E R O) as (j & J & Ej). apply N, Exists_exists. exists j. split; [apply in_seq; lia|exact Ej].
Qed.
Lemma orb_or x y : P x -> orb f x y \/ ~ orb f x y.
Proof. intros H. destruct (back x H) as (r & R & E). destruct (orb_dec x y H (exist _ r (conj E R))); auto. Qed.
Lemma before x : P x -> exists u, P u /\ f u = x /\ orb f x u.
Proof.
  intros H. destruct (back x H) as (k & K & E). destruct k as [|k]; [lia|]. rewrite it_S in E. exists (it k f x). split; [apply it_P, H|]. split; [exact E|exists k; reflexivity].
Qed.

(** ** Two elements are left out: what led to [a] leads on as [b] did, and the other way round *)
Section Cut.
Variables a b : A.
Hypothesis Pa : P a.
Hypothesis Pb : P b.
Hypothesis ab : a <> b.
Variable g : A -> A.
Definition stay (x : A) : Prop := P x /\ x <> a /\ x <> b.
Hypothesis g_same : forall x, stay x -> stay (f x) -> g x = f x.
Hypothesis g_a : forall x, stay x -> f x = a -> stay (f b) -> g x = f b.
Hypothesis g_b : forall x, stay x -> f x = b -> stay (f a) -> g x = f a.
Hypothesis g_ab : forall x, stay x -> f x = a -> f b = b -> g x = f a.
Hypothesis g_ba : forall x, stay x -> f x = b -> f a = a -> g x = f b.

Lemma stay_dec x : P x -> {stay x} + {x = a \/ x = b}.
Proof. intros H. destruct (dec x a); [right; auto|]. destruct (dec x b); [right; auto|]. left. split; auto. Qed.
(** where [g] leads *)
Lemma g_cases x : stay x -> (stay (f x) /\ g x = f x) \/ ((f x = a \/ f x = b) /\ ((stay (f a) /\ g x = f a) \/ (stay (f b) /\ g x = f b))).
Proof.
  intros S. pose proof S as (Px & Xa & Xb). destruct (stay_dec (f x) (closed x Px)) as [F|F]; [left; auto|right]. split; [exact F|]. destruct F as [F|F].
  - destruct (stay_dec (f b) (closed b Pb)) as [B|[B|B]]; [right; auto| |].
    + exfalso. apply Xb. apply inj; auto. congruence.
    + left. assert (stay (f a)). { destruct (stay_dec (f a) (closed a Pa)) as [Q|[Q|Q]]; auto; exfalso; [apply Xa; apply inj; auto; congruence|apply ab; apply inj; auto; congruence]. } auto.
  - destruct (stay_dec (f a) (closed a Pa)) as [B|[B|B]]; [left; auto| |].
    + right. assert (stay (f b)). { destruct (stay_dec (f b) (closed b Pb)) as [Q|[Q|Q]]; auto; exfalso; [apply ab; apply inj; auto; congruence|apply Xb; apply inj; auto; congruence]. } auto.
    + exfalso. apply Xa. apply inj; auto. congruence.
Qed.
Lemma g_stay x : stay x -> stay (g x).
Proof. intros S. destruct (g_cases x S) as [(F & ->)|(_ & [(F & ->)|(F & ->)])]; exact F. Qed.
Lemma gs_stay k : forall x, stay x -> stay (it k g x).
Proof. induction k; intros x S; cbn; auto using g_stay. Qed.
Definition near (x : A) : Prop := orb f a x \/ orb f b x.
Lemma near_step x : P x -> (near (f x) <-> near x).
Proof.
  intros H. assert (S : orb f (f x) x) by (apply orb_sym; auto; apply orb_step). split; intros [N|N]; [left|right|left|right].
  - exact (orb_trans _ _ _ _ N S). - exact (orb_trans _ _ _ _ N S). - exact (orb_trans _ _ _ _ N (orb_step f x)). - exact (orb_trans _ _ _ _ N (orb_step f x)).
Qed.
Lemma near_g x : stay x -> (near (g x) <-> near x).
Proof.
  intros S. pose proof S as (Px & _). destruct (g_cases x S) as [(F & ->)|(F & G)]; [apply near_step, Px|].
  assert (N : near (f x)) by (destruct F as [-> | ->]; [left|right]; apply orb_refl). apply (proj1 (near_step x Px)) in N.
  destruct G as [(_ & ->)|(_ & ->)]; (split; [intros _; exact N|intros _]); [left|right]; apply orb_step.
Qed.
Lemma near_gs x y : stay x -> orb g x y -> (near y <-> near x).
Proof. intros S (k & <-). revert x S. induction k; intros x S; cbn; [reflexivity|]. rewrite IHk by (apply g_stay, S). apply near_g, S. Qed.
Lemma away x y : stay x -> ~ near x -> (orb g x y <-> orb f x y).
Proof.
  intros S N. assert (G : forall k z, stay z -> ~ near z -> it k g z = it k f z).
  { induction k; intros z Sz Nz; cbn; [reflexivity|]. assert (g z = f z) as E.
    { destruct (g_cases z Sz) as [(F & ->)|(F & _)]; auto. exfalso. apply Nz, near_step; [apply Sz|]. destruct F as [-> | ->]; [left|right]; apply orb_refl. }
    rewrite E. apply IHk; [rewrite <- E; apply g_stay, Sz|]. rewrite near_step by apply Sz. exact Nz. }
  split; intros (k & <-); exists k; [symmetry|]; apply G; auto.
Qed.
Lemma cover x : stay x -> near x -> (stay (f a) /\ orb g (f a) x) \/ (stay (f b) /\ orb g (f b) x).
Proof.
  intros S N.
  assert (G : forall k z, P z -> (z = a \/ z = b \/ (stay z /\ ((stay (f a) /\ orb g (f a) z) \/ (stay (f b) /\ orb g (f b) z)))) ->
     let w := it k f z in w = a \/ w = b \/ (stay w /\ ((stay (f a) /\ orb g (f a) w) \/ (stay (f b) /\ orb g (f b) w)))).
  { induction k; intros z Pz H; [exact H|]. cbn [it]. apply IHk; [apply closed, Pz|]. destruct (stay_dec (f z) (closed z Pz)) as [F|[F|F]]; [|auto|auto]. right. right. split; [exact F|].
    destruct H as [-> |[-> |(Sz & H)]].
    - left. split; [exact F|apply orb_refl].
    - right. split; [exact F|apply orb_refl].
    - destruct H as [(Q & H)|(Q & H)]; [left|right]; (split; [exact Q|]); apply (orb_trans _ _ z); auto; rewrite <- (g_same z Sz F); apply orb_step. }
  destruct S as (Px & Xa & Xb). destruct N as [(k & E)|(k & E)].
  - specialize (G k a Pa (or_introl eq_refl)). cbn zeta in G. rewrite E in G. destruct G as [G|[G|(_ & G)]]; [congruence|congruence|exact G].
  - specialize (G k b Pb (or_intror (or_introl eq_refl))). cbn zeta in G. rewrite E in G. destruct G as [G|[G|(_ & G)]]; [congruence|congruence|exact G].
Qed.

(** they were on one cycle: it falls apart *)
Lemma split_apart : orb f a b -> stay (f a) -> stay (f b) -> ~ orb g (f a) (f b).
Proof.
  intros (k & K) Sa Sb (q & Q). destruct k as [|k]; [apply ab; exact K|]. destruct (first_meet a b (S k) ltac:(lia) K) as (n & Hn & En & F).
  assert (Fa : forall i, (0 < i < n)%nat -> it i f a <> a). { intros i Hi E. apply (F (n - i)%nat); [lia|]. replace n with (i + (n - i))%nat in En by lia. rewrite it_add, E in En. exact En. }
  assert (N2 : (1 < n)%nat). { destruct (Nat.eq_dec n 1) as [->|]; [|lia]. exfalso. cbn in En. destruct Sa as (_ & _ & X). contradiction. }
  assert (G : forall q, exists j, (0 < j < n)%nat /\ it q g (f a) = it j f a).
  { induction q0 as [|q0 (j & Hj & E)]; [exists 1%nat; split; [lia|reflexivity]|]. rewrite it_S, E.
    assert (Sj : stay (it j f a)) by (split; [apply it_P, Pa|]; split; [apply Fa; lia|apply F; lia]).
    destruct (Nat.eq_dec (S j) n) as [Ej|Nj].
    - exists 1%nat. split; [lia|]. apply g_b; auto. rewrite <- it_S. rewrite Ej. exact En.
    - exists (S j). split; [lia|]. rewrite it_S. apply g_same; auto. rewrite <- it_S. split; [apply it_P, Pa|]. split; [apply Fa; lia|apply F; lia]. }
  destruct (G q) as (j & Hj & E). rewrite Q in E. destruct j as [|j]; [lia|]. rewrite it_S in E. apply inj in E; auto; [|apply it_P, Pa].
  destruct j as [|j]; [apply ab; symmetry; exact E|]. apply (F (S j)); [lia|]. symmetry. exact E.
Qed.
(** they were on two cycles: these become one *)
Lemma merge_together : ~ orb f a b -> stay (f a) -> stay (f b) -> orb g (f a) (f b).
Proof.
  intros N Sa Sb. destruct (first_return a Pa) as (r & R & E & F). destruct r as [|[|r]]; [lia|cbn in E; destruct Sa as (_ & X & _); contradiction|].
  assert (Sj : forall j, (0 < j < S (S r))%nat -> stay (it j f a)). { intros j Hj. split; [apply it_P, Pa|]. split; [apply F, Hj|]. intros B. apply N. exists j. exact B. }
  assert (G : forall j, (j <= r)%nat -> it j g (f a) = it (S j) f a).
  { induction j as [|j IH]; intros Hj; [reflexivity|]. rewrite it_S, IH by lia. rewrite (it_S f (S j)). apply g_same; [apply Sj; lia|]. rewrite <- it_S. apply Sj. lia. }
  exists (S r). rewrite it_S, G by lia. apply g_a; auto. apply Sj. lia. rewrite <- it_S. exact E.
Qed.
End Cut.

(** ** An element is bridged: what led to it leads on as it did *)
Section Skip.
Variable gone : A -> Prop.
Variable gone_dec : forall x, {gone x} + {~ gone x}.
Variable g : A -> A.
Hypothesis g_same : forall x, P x -> ~ gone x -> ~ gone (f x) -> g x = f x.
Hypothesis g_skip : forall x, P x -> ~ gone x -> gone (f x) -> g x = f (f x) /\ ~ gone (f (f x)).
Lemma skip_orb x y : P x -> ~ gone x -> ~ gone y -> (orb g x y <-> orb f x y).
Proof.
  intros Px Gx Gy. split.
  - intros (k & <-). clear Gy. revert x Px Gx. induction k; intros x Px Gx; cbn; [apply orb_refl|]. destruct (gone_dec (f x)) as [D|D].
    + destruct (g_skip x Px Gx D) as (-> & H). apply (orb_trans _ _ (f (f x))); [apply (orb_trans _ _ (f x)); apply orb_step|]. apply IHk; auto.
    + rewrite (g_same x Px Gx D). apply (orb_trans _ _ (f x)); [apply orb_step|]. apply IHk; auto.
  - intros (k & E). revert x Px Gx E. induction k as [k IH] using lt_wf_ind. intros x Px Gx E. destruct k as [|k]; [cbn in E; subst; apply orb_refl|]. cbn [it] in E.
    destruct (gone_dec (f x)) as [D|D].
    + destruct k as [|k]; [cbn in E; subst; contradiction|]. cbn [it] in E. destruct (g_skip x Px Gx D) as (Eg & H). apply (orb_trans _ _ (g x)); [apply orb_step|]. rewrite Eg. apply (IH k); auto; lia.
    + apply (orb_trans _ _ (g x)); [apply orb_step|]. rewrite (g_same x Px Gx D). apply (IH k); auto; lia.
Qed.
End Skip.
End Perm.
