(** Proofs about intersectLine. *)
From Coq Require Import QArith Qfield Lqa.
From Verif Require Import Base CellMap_Proofs CellMap_Main Intersect_Model Intersect_Spec.
Local Open Scope Q_scope.

Lemma Qneg_true a : Qneg a = true <-> a < 0.
Proof. unfold Qneg. destruct (Qle_bool 0 a) eqn:E; cbn; split; intros H; try discriminate; [apply Qle_bool_iff in E; lra|apply Qnot_le_lt; intros K; apply Qle_bool_iff in K; congruence|reflexivity]. Qed.
Lemma Qneg_false a : Qneg a = false <-> 0 <= a.
Proof. unfold Qneg. destruct (Qle_bool 0 a) eqn:E; cbn; split; intros H; try discriminate; [apply Qle_bool_iff, E|reflexivity|]. exfalso. apply Qle_bool_iff in H. congruence. Qed.
Lemma side_along s e p q r : sideOf s e (along p q r) == sideOf s e p + r * (sideOf s e q - sideOf s e p).
Proof. unfold sideOf, along. cbn [fst snd]. ring. Qed.
Lemma side_same s e p q : samePt p q -> sideOf s e p == sideOf s e q.
Proof. intros [A B]. unfold sideOf. rewrite A, B. reflexivity. Qed.

Lemma cross_along q p a d c : cross (Some q) p a d = Ok c -> ~ d - a == 0 /\ samePt c (along q p (- (a / (d - a)))).
Proof.
  unfold cross. destruct (Qeq_bool (d - a) 0) eqn:E; [discriminate|]. intros [= <-]. split; [intros K; apply Qeq_bool_iff in K; congruence|]. unfold along. split; cbn [fst snd]; ring.
Qed.
Lemma enter_meets s e q p c : sideOf s e q < 0 -> 0 <= sideOf s e p -> cross (Some q) p (dist s e q) (dist s e p) = Ok c -> meets s e q p c.
Proof.
  intros Hq Hp H. change (dist s e q) with (sideOf s e q) in H. change (dist s e p) with (sideOf s e p) in H. apply cross_along in H. destruct H as [N S].
  set (a := sideOf s e q) in *. set (d := sideOf s e p) in *. assert (0 < d - a) as D by lra. assert (a / (d - a) * (d - a) == a) as M by (field; lra). set (k := a / (d - a)) in *.
  split; [rewrite (side_same _ _ _ _ S), side_along; fold a d; nra|]. exists (- k). split; [split; nra|exact S].
Qed.

Lemma ratio_back a d : ~ d - a == 0 -> - (a / (d - a)) * (d - a) == - a.
Proof. intros N. field. exact N. Qed.
Lemma zero_back x y d : ~ d - 0 == 0 -> x + - (0 / (d - 0)) * (y - x) == x.
Proof. intros N. field. lra. Qed.
(** the state in front of [l]: nothing yet or outside last, or inside a part *)
Lemma cut_out s e : forall n l, (length l <= n)%nat -> forall o parts,
  (forall a, cutLoop s e (Some o) false (dist s e o) [] l = Ok parts -> sideOf s e o < 0 -> a = tt -> cut s e (Some o) l parts) /\
  (forall ob u run cs, cutLoop s e (Some (last (u :: run) u)) true (match ob with None => 0 | Some q => dist s e q end) (cs ++ u :: run) l = Ok parts ->
     (forall x, In x (u :: run) -> isInside s e x) -> match ob with None => True | Some q => sideOf s e q < 0 end -> entering s e ob u cs -> cut s e ob ((u :: run) ++ l) parts).
Proof.
  induction n as [|n IH]; intros [|p l] Hl o parts; cbn [length] in Hl; try lia.
  1,2: split; [intros a H _ _; injection H as <-; constructor|intros ob u run cs H A B C; injection H as <-; rewrite app_nil_r; constructor; assumption].
  assert (length l <= n)%nat as Hl' by lia. split.
  - intros _ H Ho _. cbn [cutLoop] in H. cbv zeta in H. destruct (Qneg (dist s e p)) eqn:N.
    + apply Qneg_true in N. apply cut_skip; [intros K; unfold isInside in K; change (dist s e p) with (sideOf s e p) in N; lra|]. exact (proj1 (IH l Hl' p parts) tt H N eq_refl).
    + apply Qneg_false in N. bnd H c Ec. apply (proj2 (IH l Hl' p parts) (Some o) p [] [c]); [exact H|intros x [<-|[]]; exact N|exact Ho|]. exists c. split; [reflexivity|]. exact (enter_meets s e o p c Ho N Ec).
  - intros ob u run cs H A B C. cbn [cutLoop] in H. cbv zeta in H. destruct (Qneg (dist s e p)) eqn:N.
    + apply Qneg_true in N. bnd H c Ec. bnd H rest Er. injection H as <-. rewrite <- app_assoc. apply cut_leave; [exact A|exact C|intros K; unfold isInside in K; change (dist s e p) with (sideOf s e p) in N; lra| |exact (proj1 (IH l Hl' p rest) tt Er N eq_refl)].
      apply cross_along in Ec. destruct Ec as [Nz S]. change (dist s e p) with (sideOf s e p) in *. destruct ob as [q|]; cbn [leaving].
      * change (dist s e q) with (sideOf s e q) in *. split; [intros K; apply Nz; rewrite K; ring|]. eexists. split; [|exact S]. apply ratio_back, Nz.
      * destruct S as [S1 S2]. split; [rewrite S1|rewrite S2]; unfold along; apply zero_back; exact Nz.
    + apply Qneg_false in N. replace ((u :: run) ++ p :: l) with ((u :: (run ++ [p])) ++ l) by (cbn; rewrite <- app_assoc; reflexivity).
      apply (proj2 (IH l Hl' p parts) ob u (run ++ [p]) cs); [|intros x I; rewrite app_comm_cons in I; apply in_app_or in I; destruct I as [I|[<-|[]]]; [exact (A x I)|exact N]|exact B|exact C].
      rewrite app_comm_cons, last_last. rewrite <- app_assoc in H. exact H.
Qed.

Lemma intersect_cut l s e parts : ~ (fst e == fst s /\ snd e == snd s) -> intersectLine l s e = Ok parts -> cut s e None l parts.
Proof.
  intros N H. destruct l as [|p l]; [injection H as <-; constructor|]. unfold intersectLine in H.
  destruct (Qeq_bool (snd e - snd s) 0 && Qeq_bool (fst e - fst s) 0) eqn:E.
  { exfalso. apply N. apply andb_true_iff in E. destruct E as [A B]. apply Qeq_bool_iff in A, B. split; lra. }
  cbn [cutLoop] in H. cbv zeta in H. destruct (Qneg (dist s e p)) eqn:D; cbn [negb] in H.
  - apply Qneg_true in D. apply cut_skip; [intros K; unfold isInside in K; change (dist s e p) with (sideOf s e p) in D; lra|]. exact (proj1 (cut_out s e (length l) l (le_n _) p parts) tt H D eq_refl).
  - apply Qneg_false in D. apply (proj2 (cut_out s e (length l) l (le_n _) p parts) None p [] []); [exact H|intros x [<-|[]]; exact D|exact Logic.I|reflexivity].
Qed.

(** the point at the end is never on the line after a part that begins inside of the polygon *)
Lemma leaving_off s e q u p c : sideOf s e q < 0 -> isInside s e u -> sideOf s e p < 0 -> leaving s e (Some q) u p c ->
  ~ sideOf s e c == 0 /\ (sideOf s e q < sideOf s e p -> sideOf s e c < 0) /\ (sideOf s e p < sideOf s e q -> sideOf s e u < sideOf s e c).
Proof.
  intros Hq Hu Hp [N (r & Er & S)]. rewrite (side_same _ _ _ _ S), side_along. unfold isInside in Hu. set (a := sideOf s e q) in *. set (b := sideOf s e u) in *. set (d := sideOf s e p) in *.
  assert ((b + r * (d - b)) * (d - a) == d * (b - a)) as K by (transitivity (b * (d - a) + (r * (d - a)) * (d - b)); [ring|rewrite Er; ring]).
  assert (d * (b - a) < 0) as L by nra. set (z := b + r * (d - b)) in *. split; [intros Z; rewrite Z in K; lra|]. split; intros H; [nra|].
  assert (r < 0) by nra. unfold z. nra.
Qed.

(** ** When all points are finite *)
Definition apart (s e : pt) (l : list pt) : Prop :=
  forall i j p q, (i < j)%nat -> nth_error l i = Some p -> nth_error l j = Some q -> sideOf s e p < 0 -> sideOf s e q < 0 -> ~ sideOf s e p == sideOf s e q.
Lemma cross_ok q p a d : ~ d == a -> exists c, cross (Some q) p a d = Ok c.
Proof. intros N. unfold cross. destruct (Qeq_bool (d - a) 0) eqn:E; [apply Qeq_bool_iff in E; exfalso; apply N; lra|eauto]. Qed.
Lemma loop_total s e : forall l prev inside a cur, (a < 0 -> forall p, In p l -> sideOf s e p < 0 -> ~ sideOf s e p == a) -> a <= 0 -> (inside = false -> a < 0) -> apart s e l -> exists parts, cutLoop s e (Some prev) inside a cur l = Ok parts.
Proof.
  induction l as [|p l IH]; intros prev inside a cur F Ha Hi A; cbn [cutLoop]; cbv zeta; [eauto|].
  assert (apart s e l) as A' by (intros i j x y L X Y; apply (A (S i) (S j) x y ltac:(lia) X Y)).
  assert (sideOf s e p < 0 -> forall q, In q l -> sideOf s e q < 0 -> ~ sideOf s e q == dist s e p) as F'.
  { intros Hp q I Hq K. apply In_nth_error in I. destruct I as (j & Ej). apply (A 0%nat (S j) p q ltac:(lia) eq_refl Ej Hp Hq). rewrite K. reflexivity. }
  assert (a < 0 -> forall q, In q l -> sideOf s e q < 0 -> ~ sideOf s e q == a) as F2 by (intros H q I; apply (F H q (or_intror I))).
  destruct (Qneg (dist s e p)) eqn:N; [apply Qneg_true in N|apply Qneg_false in N]; change (dist s e p) with (sideOf s e p) in *.
  - destruct inside.
    + destruct (cross_ok prev p a (sideOf s e p)) as (c & ->). { destruct (Qlt_le_dec a 0) as [K|K]; [exact (F K p (or_introl eq_refl) N)|lra]. }
      cbn [bind]. destruct (IH p false (sideOf s e p) [] (fun _ => F' N) ltac:(lra) (fun _ => N) A') as (r & ->). cbn [bind]. eauto.
    + apply IH; [intros _; exact (F' N)|lra|intros _; exact N|exact A'].
  - destruct inside; [apply IH; [exact F2|exact Ha|discriminate|exact A']|]. specialize (Hi eq_refl). destruct (cross_ok prev p a (sideOf s e p)) as (c & ->); [lra|]. cbn [bind]. apply IH; [exact F2|exact Ha|discriminate|exact A'].
Qed.
Lemma intersect_total l s e : apart s e l -> exists parts, intersectLine l s e = Ok parts.
Proof.
  intros A. destruct l as [|p l]; [eexists; reflexivity|]. unfold intersectLine. destruct (Qeq_bool _ 0 && Qeq_bool _ 0); [eauto|]. cbn [cutLoop]. cbv zeta.
  assert (apart s e l) as A' by (intros i j x y L X Y; apply (A (S i) (S j) x y ltac:(lia) X Y)).
  destruct (Qneg (dist s e p)) eqn:N; cbn [negb].
  - apply Qneg_true in N. change (dist s e p) with (sideOf s e p) in *. apply loop_total; [|lra|intros _; exact N|exact A']. intros _ q I Hq K. apply In_nth_error in I. destruct I as (j & Ej). apply (A 0%nat (S j) p q ltac:(lia) eq_refl Ej N Hq). rewrite K. reflexivity.
  - apply loop_total; [intros K; lra|lra|discriminate|exact A'].
Qed.
