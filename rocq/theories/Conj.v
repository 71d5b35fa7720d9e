(** Conjugating a permutation by a transposition, and subdividing an edge.

    Pure mathematics: merging two edges at a node of degree two replaces one dart
    by another in the rotation, i.e. conjugates the rotation by a transposition. *)
From Verif Require Import Base Orbit.
Local Open Scope Z_scope.

Definition cnj (x y : Z) (s : Z -> Z) (z : Z) : Z := tr x y (s (tr x y z)).

Lemma tr_l x y : tr x y x = y.
Proof. unfold tr; rewrite Z.eqb_refl; reflexivity. Qed.
Lemma tr_r x y : tr x y y = x.
Proof. unfold tr; destruct (Z.eqb_spec y x); [assumption | rewrite Z.eqb_refl; reflexivity]. Qed.
Lemma tr_o x y z : z <> x -> z <> y -> tr x y z = z.
Proof. unfold tr; destruct (Z.eqb_spec z x), (Z.eqb_spec z y); congruence. Qed.

Lemma cnj_perm D s si x y : In x D -> In y D -> perm_on D s si -> perm_on D (cnj x y s) (cnj x y si).
Proof.
  intros Hx Hy HP z Hz. unfold cnj.
  assert (Hz' : In (tr x y z) D) by (apply tr_in; assumption).
  destruct (HP _ Hz') as (A & B & C & E). rewrite !tr_invol, C, E.
  repeat split; try apply tr_in; auto; apply tr_invol.
Qed.

Lemma cnj_iter x y s n z : iter n (cnj x y s) z = tr x y (iter n s (tr x y z)).
Proof.
  induction n; simpl; [symmetry; apply tr_invol|]. rewrite IHn. unfold cnj. rewrite tr_invol; reflexivity.
Qed.

Lemma cnj_reach x y s z w : reach (cnj x y s) z w <-> reach s (tr x y z) (tr x y w).
Proof.
  split; intros [n Hn]; exists n.
  - rewrite cnj_iter in Hn. rewrite <- Hn, tr_invol; reflexivity.
  - rewrite cnj_iter, Hn. apply tr_invol.
Qed.

(** A node of degree two with darts [d1], [d2]; [d1] takes the place of [-d2]. *)
Section Subdiv.
  Variable D : list Z.
  Variables s si : Z -> Z.
  Variables d1 d2 : Z.
  Hypothesis HP : perm_on D s si.
  Hypothesis H1 : In d1 D.
  Hypothesis H2 : In d2 D.
  Hypothesis H2' : In (- d2) D.
  Hypothesis E12 : s d1 = d2.
  Hypothesis E21 : s d2 = d1.
  Hypothesis Hne : d1 <> d2.
  Hypothesis Hno : d1 <> - d2.
  Hypothesis Hz2 : d2 <> 0.
  Let D' := rmz (- d2) (rmz d2 D).

  Lemma sub_in z : In z D' <-> In z D /\ z <> d2 /\ z <> - d2.
  Proof. unfold D'; rewrite !in_rmz; tauto. Qed.

  Lemma sub_si1 : si d1 = d2.
  Proof. rewrite <- E21. apply HP; assumption. Qed.
  Lemma sub_si2 : si d2 = d1.
  Proof. rewrite <- E12. apply HP; assumption. Qed.

  Lemma sub_perm : perm_on D' (cnj d1 (- d2) s) (cnj d1 (- d2) si).
  Proof.
    pose proof (cnj_perm D s si d1 (- d2) H1 H2' HP) as HQ.
    assert (A1 : cnj d1 (- d2) s (- d2) = d2).
    { unfold cnj. rewrite tr_r, E12. apply tr_o; [auto | lia]. }
    assert (A2 : cnj d1 (- d2) s d2 = - d2).
    { unfold cnj. rewrite (tr_o _ _ d2), E21 by lia. apply tr_l. }
    assert (B1 : cnj d1 (- d2) si (- d2) = d2).
    { unfold cnj. rewrite tr_r, sub_si1. apply tr_o; [auto | lia]. }
    assert (B2 : cnj d1 (- d2) si d2 = - d2).
    { unfold cnj. rewrite (tr_o _ _ d2), sub_si2 by lia. apply tr_l. }
    intros z Hz. apply sub_in in Hz as (Hz & Hz1 & Hz2').
    destruct (HQ z Hz) as (A & B & C & E). rewrite !sub_in.
    repeat split; auto; intros K.
    - rewrite K, B2 in C. congruence.
    - rewrite K, B1 in C. congruence.
    - rewrite K, A2 in E. congruence.
    - rewrite K, A1 in E. congruence.
  Qed.

  Lemma sub_phi z : In (- z) D -> z <> d2 -> z <> - d2 ->
    cnj d1 (- d2) si (- z) = skp (skp (fun x => si (- x)) d2) (- d2) z.
  Proof.
    intros HzD Hz1 Hz2'. unfold cnj, skp.
    rewrite !Z.opp_involutive, sub_si2.
    destruct (Z.eqb_spec d1 d2) as [|_]; [contradiction|].
    destruct (Z.eq_dec (- z) d1) as [E|E].
    - rewrite E, tr_l, sub_si1, Z.eqb_refl.
      assert (K1 : si (- d2) <> d1).
      { intros K. rewrite <- sub_si2 in K. apply (f_equal s) in K.
        destruct (HP _ H2') as (_ & _ & _ & F1). destruct (HP _ H2) as (_ & _ & _ & F2). rewrite F1, F2 in K. lia. }
      unfold tr. destruct (Z.eqb_spec (si (- d2)) d1); [contradiction|]. reflexivity.
    - rewrite (tr_o _ _ (- z)) by lia.
      assert (K1 : si (- z) <> d2).
      { intros K. apply (f_equal s) in K. destruct (HP _ HzD) as (_ & _ & _ & F1). rewrite F1, E21 in K. lia. }
      assert (K2 : si (- z) <> d1).
      { intros K. apply (f_equal s) in K. destruct (HP _ HzD) as (_ & _ & _ & F1). rewrite F1, E12 in K. lia. }
      destruct (Z.eqb_spec (si (- z)) d2); [contradiction|].
      unfold tr. destruct (Z.eqb_spec (si (- z)) d1); [contradiction|]. reflexivity.
  Qed.
End Subdiv.

(** Skipping two darts of a contour keeps the contours. *)
Lemma skp2_reach D f g d e z w :
  perm_on D f g -> In d D -> In e D -> d <> e ->
  In z D -> z <> d -> z <> e -> w <> d -> w <> e ->
  (reach (skp (skp f d) e) z w <-> reach f z w).
Proof.
  intros HP Hd He Hde Hz Hzd Hze Hwd Hwe.
  pose proof (skp_perm D f g HP d Hd) as HQ.
  rewrite (skp_reach (rmz d D) (skp f d) (skp g d) HQ e); try (apply in_rmz; auto); auto.
  apply (skp_reach D f g HP d Hd); auto.
Qed.

(** Removing an edge: the contours of what remains are those of the swapped map. *)
Lemma remove_phi si d z : d <> 0 -> z <> d -> z <> - d ->
  skp (skp si d) (- d) (- z) = skp (skp (swp (fun x => si (- x)) d (- d)) d) (- d) z.
Proof.
  intros H0 Hz1 Hz2. unfold skp.
  rewrite swp_l, swp_r, (swp_o _ _ _ z) by assumption. rewrite !Z.opp_involutive. reflexivity.
Qed.
