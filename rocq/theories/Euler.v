(** Euler's inequality for combinatorial maps.

    Pure mathematics.  Darts are nonzero integers, [d] and [-d] are the two darts
    of an edge, [s] / [si] is the rotation and its inverse, [st] gives the node a
    dart starts at.  For a list [L] of edges the contours are the orbits of
    [phiL L = si o alpha_L], where [alpha_L] negates the darts of the edges in
    [L] and fixes the others.  The number of contours plus twice the rank of the
    graph never exceeds the number of nodes plus the number of edges; a map is
    planar when equality holds. *)
From Verif Require Import Base Orbit GraphRank.
Local Open Scope Z_scope.

Definition al (L : list Z) (x : Z) : Z :=
  if existsb (Z.eqb (Z.abs x)) L then - x else x.

Definition phiL (si : Z -> Z) (L : list Z) (x : Z) : Z := si (al L x).

Definition pairs (st : Z -> nat) (L : list Z) : graph :=
  map (fun l => (st l, st (- l))) L.

Lemma al_in L x : In (Z.abs x) L -> al L x = - x.
Proof.
  intros H; unfold al. replace (existsb (Z.eqb (Z.abs x)) L) with true; [reflexivity|].
  symmetry; apply existsb_exists; exists (Z.abs x); split; [assumption | apply Z.eqb_refl].
Qed.

Lemma al_out L x : ~ In (Z.abs x) L -> al L x = x.
Proof.
  intros H; unfold al. destruct (existsb (Z.eqb (Z.abs x)) L) eqn:E; [|reflexivity].
  apply existsb_exists in E as (y & Hy & E). apply Z.eqb_eq in E; subst; contradiction.
Qed.

Lemma al_invol L x : al L (al L x) = x.
Proof.
  destruct (in_dec Z.eq_dec (Z.abs x) L) as [H|H].
  - rewrite (al_in L x H), al_in; [lia | rewrite Z.abs_opp; assumption].
  - rewrite (al_out L x H). apply al_out; assumption.
Qed.

Lemma al_cons l L x : 0 < l -> ~ In l L -> al (l :: L) x = al L (tr l (- l) x).
Proof.
  intros Hl Hn. unfold tr.
  destruct (Z.eqb_spec x l) as [->|H1]; [|destruct (Z.eqb_spec x (- l)) as [->|H2]].
  - rewrite al_in, al_out; [reflexivity | | left]; replace (Z.abs _) with l by lia; auto.
  - rewrite al_in, al_out; [lia | |left]; replace (Z.abs _) with l by lia; auto.
  - destruct (in_dec Z.eq_dec (Z.abs x) L) as [H|H].
    + rewrite !al_in; [reflexivity | assumption | right; assumption].
    + rewrite !al_out; [reflexivity | assumption|]. intros [E|E]; [lia | contradiction].
Qed.

Lemma phiL_cons si l L x : 0 < l -> ~ In l L ->
  phiL si (l :: L) x = swp (phiL si L) l (- l) x.
Proof. intros; unfold phiL, swp; rewrite al_cons by assumption; reflexivity. Qed.

Lemma reach_flip D f g x y :
  perm_on D f g -> In x D -> reach f x y <-> reach g x y.
Proof.
  intros HP Hx; split; intros H.
  - apply (reach_inverse D g f); auto. apply perm_on_sym; assumption.
  - apply (reach_inverse D f g); auto.
Qed.

Lemma reps_flip D f g R : perm_on D f g -> reps f D R -> reps g D R.
Proof.
  intros HP HR. constructor; try apply HR.
  - intros x Hx. destruct (reps_cover _ _ _ HR x Hx) as (r & Hr & H).
    exists r; split; auto. apply (reach_flip D f g); auto. apply HR; assumption.
  - intros r s Hr Hs H. apply (reps_sep _ _ _ HR); auto.
    apply (reach_flip D f g); auto. apply HR; assumption.
Qed.

Section Euler.
  Variable D : list Z.
  Variables s si : Z -> Z.
  Variable st : Z -> nat.
  Hypothesis HP : perm_on D s si.
  Hypothesis Hst : forall x, In x D -> st (s x) = st x.

  Definition okL (L : list Z) : Prop :=
    NoDup L /\ forall l, In l L -> 0 < l /\ In l D /\ In (- l) D.

  Lemma okL_tail l L : okL (l :: L) -> okL L.
  Proof. intros [H1 H2]; inversion H1; subst; split; auto. intros; apply H2; right; assumption. Qed.

  Lemma al_D L x : okL L -> In x D -> In (al L x) D.
  Proof.
    intros [_ H] Hx. destruct (in_dec Z.eq_dec (Z.abs x) L) as [Hi|Hi].
    - rewrite (al_in L x Hi). destruct (H _ Hi) as (H0 & H1 & H2).
      destruct (Z.abs_spec x) as [[_ E]|[_ E]]; rewrite E in *; auto.
    - rewrite al_out; assumption.
  Qed.

  Lemma phiL_perm L : okL L -> perm_on D (phiL si L) (fun x => al L (s x)).
  Proof.
    intros HL x Hx. unfold phiL. repeat split.
    - apply HP. apply al_D; assumption.
    - apply al_D; auto. apply HP; assumption.
    - rewrite (perm_fg D s si HP) by (apply al_D; assumption). apply al_invol.
    - rewrite al_invol. apply HP; assumption.
  Qed.

  Lemma st_si x : In x D -> st (si x) = st x.
  Proof.
    intros Hx. rewrite <- (Hst (si x)) by (apply HP; assumption).
    rewrite (perm_fg D s si HP) by assumption; reflexivity.
  Qed.

  (** Darts on the same contour start at connected nodes. *)
  Lemma phi_conn L x y : okL L -> In x D -> reach (phiL si L) x y ->
    conn (pairs st L) (st x) (st y).
  Proof.
    intros HL Hx Hr. revert y Hr. apply reach_ind_r; [apply conn_refl|].
    intros y Hr IH.
    assert (Hy : In y D) by (eapply (reach_in D _ _ (phiL_perm L HL)); eassumption).
    apply (conn_trans _ _ (st y)); auto.
    unfold phiL. rewrite st_si by (apply al_D; assumption).
    destruct (in_dec Z.eq_dec (Z.abs y) L) as [Hi|Hi].
    - rewrite (al_in L y Hi).
      assert (He : In (st (Z.abs y), st (- Z.abs y)) (pairs st L)).
      { apply in_map_iff; exists (Z.abs y); auto. }
      destruct (Z.abs_spec y) as [[_ E]|[_ E]]; rewrite E in He.
      + apply conn_edge; assumption.
      + apply conn_sym, conn_edge. rewrite Z.opp_involutive in He; assumption.
    - rewrite al_out by assumption. apply conn_refl.
  Qed.

  Theorem euler_ineq Vr : reps s D Vr -> forall L, okL L ->
    forall R, reps (phiL si L) D R ->
    (length R + 2 * rank (pairs st L) <= length Vr + length L)%nat.
  Proof.
    intros HV. induction L as [|l L IH]; intros HL R HR.
    - simpl. assert (Hl : length R = length Vr); [|lia].
      apply (reps_unique D si s); [apply perm_on_sym; assumption | | apply (reps_flip D s si); assumption].
      apply (reps_ext (phiL si [])); auto. intros z Hz; unfold phiL, al; simpl.
      apply HP; assumption.
    - pose proof (okL_tail _ _ HL) as HL'.
      destruct HL as [Hnd HLp]. inversion Hnd as [|? ? Hni Hnd']; subst.
      destruct (HLp l (or_introl eq_refl)) as (Hl0 & HlD & HlD').
      destruct (reps_ex D _ _ (phiL_perm L HL')) as (R0 & HR0).
      specialize (IH HL' R0 HR0).
      assert (HR2 : reps (swp (phiL si L) l (- l)) D R).
      { apply (reps_ext (phiL si (l :: L))); auto.
        - intros; apply phiL_cons; assumption.
        - intros z Hz; apply (phiL_perm (l :: L)); auto. split; auto. }
      pose proof (phiL_perm L HL') as HP0.
      cbn [pairs map length]. fold (pairs st L).
      destruct (reach_dec D _ _ HP0 l (- l) HlD) as [Hr|Hr].
      + rewrite (rank_dep (pairs st L)) by (apply phi_conn; assumption).
        rewrite (reps_split D _ _ R0 l (- l) HP0 HR0 HlD HlD' ltac:(lia) Hr R HR2). lia.
      + pose proof (reps_join D _ _ R0 l (- l) HP0 HR0 HlD HlD' Hr R HR2).
        pose proof (rank_cons_le (pairs st L) (st l, st (- l))). lia.
  Qed.
End Euler.
