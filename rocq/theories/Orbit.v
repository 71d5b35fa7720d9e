(** Orbits of finite permutations on integers.

    Pure mathematics used by the GeoMap proofs (no code is modelled here):
    orbits of a function that is invertible on a finite set, what happens to the
    orbits when two images are exchanged ([swp]) and when one element is
    short-circuited ([skp]), and counting orbits by systems of
    representatives. *)
From Verif Require Import Base.
Local Open Scope Z_scope.

Fixpoint iter (n : nat) (f : Z -> Z) (x : Z) : Z :=
  match n with O => x | S k => f (iter k f x) end.

Definition reach (f : Z -> Z) (x y : Z) : Prop := exists n, iter n f x = y.

(** [f] and [g] are inverse to each other on the finite set [D]. *)
Definition perm_on (D : list Z) (f g : Z -> Z) : Prop :=
  forall x, In x D -> In (f x) D /\ In (g x) D /\ g (f x) = x /\ f (g x) = x.

Lemma iter_add n m f x : iter (n + m) f x = iter n f (iter m f x).
Proof. induction n; simpl; congruence. Qed.

Lemma iter_S_r n f x : iter (S n) f x = iter n f (f x).
Proof. induction n; simpl in *; congruence. Qed.

Lemma reach_refl f x : reach f x x.
Proof. exists O; reflexivity. Qed.

Lemma reach_step f x : reach f x (f x).
Proof. exists 1%nat; reflexivity. Qed.

Lemma reach_trans f x y z : reach f x y -> reach f y z -> reach f x z.
Proof.
  intros [n <-] [m <-]; exists (m + n)%nat; apply iter_add.
Qed.

Lemma reach_step_l f x y : reach f (f x) y -> reach f x y.
Proof. intros H; eapply reach_trans; [apply reach_step | exact H]. Qed.

Lemma reach_step_r f x y : reach f x y -> reach f x (f y).
Proof. intros H; eapply reach_trans; [exact H | apply reach_step]. Qed.

(** Induction along the walk, from the target backwards. *)
Lemma reach_ind_l (f : Z -> Z) (y : Z) (P : Z -> Prop) :
  P y -> (forall x, reach f (f x) y -> P (f x) -> P x) ->
  forall x, reach f x y -> P x.
Proof.
  intros Hy Hs x [n Hn]. revert x Hn. induction n; intros x Hn.
  - simpl in Hn; subst; exact Hy.
  - rewrite iter_S_r in Hn. apply Hs; [exists n; exact Hn | apply IHn; exact Hn].
Qed.

Lemma reach_ind_r (f : Z -> Z) (x : Z) (P : Z -> Prop) :
  P x -> (forall y, reach f x y -> P y -> P (f y)) ->
  forall y, reach f x y -> P y.
Proof.
  intros Hx Hs y [n <-]. induction n; simpl; auto.
  apply Hs; [exists n; reflexivity | assumption].
Qed.

Lemma reach_ext f g (P : Z -> Prop) x y :
  (forall z, P z -> f z = g z) -> (forall z, P z -> P (f z)) -> P x ->
  reach f x y -> reach g x y.
Proof.
  intros He Hc Hx [n <-]. 
  assert (H : forall n, iter n f x = iter n g x /\ P (iter n f x)).
  { induction n0; simpl; split; auto.
    - destruct IHn0 as [E HP]. rewrite <- E. apply He; assumption.
    - apply Hc, IHn0. }
  exists n; symmetry; apply H.
Qed.

Section Perm.
  Variable D : list Z.
  Variables f g : Z -> Z.
  Hypothesis HP : perm_on D f g.

  Lemma perm_in x : In x D -> In (f x) D.
  Proof. intros H; apply HP; assumption. Qed.

  Lemma perm_in_inv x : In x D -> In (g x) D.
  Proof. intros H; apply HP; assumption. Qed.

  Lemma perm_gf x : In x D -> g (f x) = x.
  Proof. intros H; apply HP; assumption. Qed.

  Lemma perm_fg x : In x D -> f (g x) = x.
  Proof. intros H; apply HP; assumption. Qed.

  Lemma perm_inj x y : In x D -> In y D -> f x = f y -> x = y.
  Proof. intros Hx Hy H. rewrite <- (perm_gf x Hx), <- (perm_gf y Hy), H; reflexivity. Qed.

  Lemma iter_in n x : In x D -> In (iter n f x) D.
  Proof. intros H; induction n; simpl; auto using perm_in. Qed.

  Lemma reach_in x y : In x D -> reach f x y -> In y D.
  Proof. intros H [n <-]; apply iter_in; assumption. Qed.

  Lemma iter_inj n x y : In x D -> In y D -> iter n f x = iter n f y -> x = y.
  Proof.
    intros Hx Hy; induction n; simpl; auto. intros H; apply IHn.
    apply perm_inj; auto using iter_in.
  Qed.

  (** Every element returns to itself within [length D] steps. *)
  Lemma period x : In x D -> exists n, (0 < n <= length D)%nat /\ iter n f x = x.
  Proof.
    intros Hx.
    set (l := map (fun i => iter i f x) (seq 0 (S (length D)))).
    assert (Hinc : incl l D).
    { intros y Hy; apply in_map_iff in Hy as (i & <- & _); apply iter_in; assumption. }
    assert (Hnd : ~ NoDup l).
    { intros Hnd. pose proof (NoDup_incl_length Hnd Hinc) as Hl.
      unfold l in Hl; rewrite map_length, seq_length in Hl; lia. }
    assert (Hex : exists i j, (i < j <= length D)%nat /\ iter i f x = iter j f x).
    { assert (Hgen : forall k s, (forall i j, (s <= i < j)%nat -> (j < s + k)%nat ->
                        iter i f x <> iter j f x) ->
                     NoDup (map (fun i => iter i f x) (seq s k))).
      { induction k; intros s Hd; simpl; constructor.
        - intros Hi. apply in_map_iff in Hi as (j & Hj & Hj2).
          apply in_seq in Hj2. apply (Hd s j); [lia | lia | congruence].
        - apply IHk. intros i j Hij Hj; apply Hd; lia. }
      destruct (existsb (fun i => existsb (fun j => (i <? j)%nat && (iter i f x =? iter j f x))
                  (seq 0 (S (length D)))) (seq 0 (S (length D)))) eqn:E.
      - apply existsb_exists in E as (i & Hi & E).
        apply existsb_exists in E as (j & Hj & E).
        apply andb_true_iff in E as [E1 E2].
        apply Nat.ltb_lt in E1; apply Z.eqb_eq in E2. apply in_seq in Hj.
        exists i, j; split; [lia | assumption].
      - exfalso; apply Hnd. apply Hgen. intros i j Hij Hj Heq.
        assert (Ht : existsb (fun i => existsb (fun j => (i <? j)%nat && (iter i f x =? iter j f x))
                  (seq 0 (S (length D)))) (seq 0 (S (length D))) = true).
        { apply existsb_exists; exists i; split; [apply in_seq; lia|].
          apply existsb_exists; exists j; split; [apply in_seq; lia|].
          apply andb_true_iff; split; [apply Nat.ltb_lt; lia | apply Z.eqb_eq; assumption]. }
        congruence. }
    destruct Hex as (i & j & Hij & Heq).
    exists (j - i)%nat; split; [lia|].
    symmetry. apply (iter_inj i); auto using iter_in.
    rewrite <- iter_add. replace (i + (j - i))%nat with j by lia. assumption.
  Qed.

  Lemma reach_sym x y : In x D -> reach f x y -> reach f y x.
  Proof.
    intros Hx Hr. revert y Hr. apply reach_ind_r; [apply reach_refl|].
    intros y Hy IH.
    pose proof (reach_in x y Hx Hy) as HyD.
    destruct (period y HyD) as (n & Hn & Hp).
    destruct n; [lia|]. rewrite iter_S_r in Hp.
    apply (reach_trans _ _ y); [exists n; exact Hp | exact IH].
  Qed.

  Lemma reach_inv x : In x D -> reach f x (g x).
  Proof.
    intros Hx. apply reach_sym; [apply perm_in_inv; assumption|].
    exists 1%nat; simpl; apply perm_fg; assumption.
  Qed.

  (** A walk need not be longer than the set. *)
  Lemma reach_bounded x y : In x D -> reach f x y ->
    exists n, (n < length D)%nat /\ iter n f x = y.
  Proof.
    intros Hx [n Hn]. destruct (period x Hx) as (p & Hp & Hpx).
    assert (Hmul : forall k, iter (k * p) f x = x).
    { induction k; [reflexivity|]. replace (S k * p)%nat with (p + k * p)%nat by lia.
      rewrite iter_add, IHk; assumption. }
    exists (n mod p)%nat. split.
    - pose proof (Nat.mod_upper_bound n p); lia.
    - rewrite <- Hn. rewrite (Nat.div_mod n p) at 2 by lia.
      replace (p * (n / p) + n mod p)%nat with (n mod p + n / p * p)%nat by lia.
      rewrite iter_add, Hmul; reflexivity.
  Qed.

  Definition reachb x y := existsb (fun n => iter n f x =? y) (seq 0 (length D)).

  Lemma reachb_spec x y : In x D -> reachb x y = true <-> reach f x y.
  Proof.
    intros Hx; unfold reachb; rewrite existsb_exists; split.
    - intros (n & _ & H); exists n; apply Z.eqb_eq; assumption.
    - intros H; destruct (reach_bounded x y Hx H) as (n & Hn & Hi).
      exists n; split; [apply in_seq; lia | apply Z.eqb_eq; assumption].
  Qed.

  Lemma reach_dec x y : In x D -> {reach f x y} + {~ reach f x y}.
  Proof.
    intros Hx; destruct (reachb x y) eqn:E.
    - left; apply reachb_spec; assumption.
    - right; intros H; apply (reachb_spec x y Hx) in H; congruence.
  Qed.

  Lemma perm_on_sym : perm_on D g f.
  Proof. intros x Hx; destruct (HP x Hx) as (A & B & C & E); auto. Qed.
End Perm.

(** Orbits of a permutation and of its inverse coincide. *)
Lemma reach_inverse D f g x y :
  perm_on D f g -> In x D -> reach g x y -> reach f x y.
Proof.
  intros HP Hx Hr. revert y Hr. apply reach_ind_r; [apply reach_refl|].
  intros y Hy IH. apply (reach_trans _ _ y); [exact IH|].
  apply (reach_inv D f g HP). eapply (reach_in D g f (perm_on_sym D f g HP)); eassumption.
Qed.

(* ------------------------------------------------------------------ *)
(** ** Exchanging two images *)

Definition tr (x y z : Z) : Z := if z =? x then y else if z =? y then x else z.
Definition swp (f : Z -> Z) (x y z : Z) : Z := f (tr x y z).

Lemma tr_invol x y z : tr x y (tr x y z) = z.
Proof.
  unfold tr.
  destruct (Z.eqb_spec z x) as [->|H1].
  - destruct (Z.eqb_spec y x) as [->|H2]; [reflexivity|].
    rewrite Z.eqb_refl; reflexivity.
  - destruct (Z.eqb_spec z y) as [->|H2].
    + rewrite Z.eqb_refl; reflexivity.
    + destruct (Z.eqb_spec z x); [contradiction|].
      destruct (Z.eqb_spec z y); [contradiction | reflexivity].
Qed.

Lemma tr_sym x y z : tr x y z = tr y x z.
Proof. unfold tr; destruct (Z.eqb_spec z x), (Z.eqb_spec z y); lia. Qed.

Lemma tr_in D x y z : In x D -> In y D -> In z D -> In (tr x y z) D.
Proof. unfold tr; intros; destruct (z =? x), (z =? y); assumption. Qed.

Lemma swp_perm D f g x y :
  perm_on D f g -> In x D -> In y D -> perm_on D (swp f x y) (fun z => tr x y (g z)).
Proof.
  intros HP Hx Hy z Hz. unfold swp. repeat split.
  - apply HP, tr_in; assumption.
  - apply tr_in; auto. apply HP; assumption.
  - rewrite (perm_gf D f g HP) by (apply tr_in; assumption). apply tr_invol.
  - rewrite tr_invol. apply HP; assumption.
Qed.

Lemma swp_sym f x y z : swp f x y z = swp f y x z.
Proof. unfold swp; rewrite tr_sym; reflexivity. Qed.

Lemma swp_l f x y : swp f x y x = f y.
Proof. unfold swp, tr; rewrite Z.eqb_refl; reflexivity. Qed.

Lemma swp_r f x y : swp f x y y = f x.
Proof. rewrite swp_sym; apply swp_l. Qed.

Lemma swp_o f x y z : z <> x -> z <> y -> swp f x y z = f z.
Proof.
  intros H1 H2; unfold swp, tr.
  destruct (Z.eqb_spec z x), (Z.eqb_spec z y); try lia; reflexivity.
Qed.

Section Swap.
  Variable D : list Z.
  Variables f g : Z -> Z.
  Hypothesis HP : perm_on D f g.
  Variables x y : Z.
  Hypothesis Hx : In x D.
  Hypothesis Hy : In y D.
  Let f' := swp f x y.
  Let HP' : perm_on D f' (fun z => tr x y (g z)) := swp_perm D f g x y HP Hx Hy.

  (** Each element first meets [x] or [y], or never meets them. *)
  Lemma swp_reaches_end z : In z D -> reach f z x \/ reach f z y ->
    reach f' z x \/ reach f' z y.
  Proof.
    intros Hz H.
    assert (Hgen : forall t, (t = x \/ t = y) -> forall z, reach f z t -> reach f' z x \/ reach f' z y).
    { intros t Ht. apply reach_ind_l.
      - destruct Ht; subst; [left|right]; apply reach_refl.
      - intros w _ IH. destruct (Z.eq_dec w x); [subst; left; apply reach_refl|].
        destruct (Z.eq_dec w y); [subst; right; apply reach_refl|].
        unfold f'. destruct IH as [IH|IH]; [left|right];
          apply reach_step_l; rewrite swp_o by assumption; exact IH. }
    destruct H as [H|H]; [apply (Hgen x) | apply (Hgen y)]; auto.
  Qed.

  Lemma swp_other z w : ~ reach f z x -> ~ reach f z y ->
    (reach f' z w <-> reach f z w).
  Proof.
    intros Hnx Hny. split.
    - apply (reach_ext _ _ (fun v => reach f z v)); [| |apply reach_refl].
      + intros v Hv. unfold f'. apply swp_o; intros ->; auto.
      + intros v Hv. unfold f'. rewrite swp_o; [apply reach_step_r; assumption | |]; intros ->; auto.
    - apply (reach_ext _ _ (fun v => reach f z v)); [| |apply reach_refl].
      + intros v Hv. unfold f'. symmetry; apply swp_o; intros ->; auto.
      + intros v Hv. apply reach_step_r; assumption.
  Qed.

  (** Different orbits: they are joined. *)
  Section Join.
    Hypothesis Hd : ~ reach f x y.
    Lemma join_x : forall z, reach f z x -> In z D -> reach f' z x.
    Proof.
      apply (reach_ind_l f x (fun z => In z D -> reach f' z x)).
      - intros _; apply reach_refl.
      - intros z Hr IH Hz. destruct (Z.eq_dec z x) as [->|Hzx]; [apply reach_refl|].
        apply reach_step_l. unfold f'. rewrite swp_o; [apply IH; eapply perm_in; eauto | assumption |].
        intros ->. apply Hd. apply (reach_sym D f g HP); auto.
        apply reach_step_l; assumption.
    Qed.
  End Join.
End Swap.

Lemma reach_ext_all f g x y : (forall z, f z = g z) -> reach f x y -> reach g x y.
Proof. intros H; apply (reach_ext f g (fun _ => True)); auto. Qed.

Section SwapJoin.
  Variable D : list Z.
  Variables f g : Z -> Z.
  Hypothesis HP : perm_on D f g.
  Variables x y : Z.
  Hypothesis Hx : In x D.
  Hypothesis Hy : In y D.
  Hypothesis Hd : ~ reach f x y.
  Let f' := swp f x y.
  Let HP' : perm_on D f' (fun z => tr x y (g z)) := swp_perm D f g x y HP Hx Hy.

  Lemma join_y : forall z, reach f z y -> In z D -> reach f' z y.
  Proof.
    intros z Hr Hz.
    assert (Hd' : ~ reach f y x).
    { intros H; apply Hd; apply (reach_sym D f g HP); auto. }
    apply (reach_ext_all (swp f y x)); [intros w; apply swp_sym|].
    eapply (join_x D f g HP); eauto.
  Qed.

  Lemma join_xy : reach f' x y.
  Proof.
    apply reach_step_l. unfold f'. rewrite swp_l. apply join_y.
    - apply (reach_sym D f g HP); auto. apply reach_step.
    - eapply perm_in; eauto.
  Qed.

  Lemma swp_join z w : In z D -> In w D ->
    (reach f' z w <-> reach f z w \/
      ((reach f z x \/ reach f z y) /\ (reach f w x \/ reach f w y))).
  Proof.
    intros Hz Hw.
    assert (Hto : forall v, In v D -> reach f v x \/ reach f v y -> reach f' v y).
    { intros v Hv [H|H]; [|apply join_y; assumption].
      apply (reach_trans _ _ x); [eapply (join_x D f g HP); eauto | apply join_xy]. }
    destruct (reach_dec D f g HP z x Hz) as [Hzx|Hzx];
      [|destruct (reach_dec D f g HP z y Hz) as [Hzy|Hzy]].
    - assert (Hz' : reach f' z y) by (apply Hto; auto).
      split.
      + intros Hr. right; split; auto.
        destruct (reach_dec D f g HP w x Hw) as [|H1]; auto.
        destruct (reach_dec D f g HP w y Hw) as [|H2]; auto.
        exfalso. assert (Hrw : reach f' w z) by (apply (reach_sym D f' _ HP'); assumption).
        apply (swp_other f x y w z H1 H2) in Hrw.
        apply H1; eapply reach_trans; eassumption.
      + intros [H|[_ H]].
        * assert (reach f' w y).
          { apply Hto; auto. left. apply (reach_trans _ _ z); auto.
            apply (reach_sym D f g HP); auto. }
          apply (reach_trans _ _ y); auto. apply (reach_sym D f' _ HP'); auto.
        * apply (reach_trans _ _ y); auto. apply (reach_sym D f' _ HP'); auto.
    - assert (Hz' : reach f' z y) by (apply Hto; auto).
      split.
      + intros Hr. right; split; auto.
        destruct (reach_dec D f g HP w x Hw) as [|H1]; auto.
        destruct (reach_dec D f g HP w y Hw) as [|H2]; auto.
        exfalso. assert (Hrw : reach f' w z) by (apply (reach_sym D f' _ HP'); assumption).
        apply (swp_other f x y w z H1 H2) in Hrw.
        apply H2; eapply reach_trans; eassumption.
      + intros [H|[_ H]].
        * assert (reach f' w y).
          { apply Hto; auto. right. apply (reach_trans _ _ z); auto.
            apply (reach_sym D f g HP); auto. }
          apply (reach_trans _ _ y); auto. apply (reach_sym D f' _ HP'); auto.
        * apply (reach_trans _ _ y); auto. apply (reach_sym D f' _ HP'); auto.
    - unfold f'; rewrite (swp_other f x y z w Hzx Hzy). tauto.
  Qed.
End SwapJoin.

Section SwapSplit.
  Variable D : list Z.
  Variables f g : Z -> Z.
  Hypothesis HP : perm_on D f g.
  Variables x y : Z.
  Hypothesis Hx : In x D.
  Hypothesis Hy : In y D.
  Hypothesis Hxy : x <> y.
  Hypothesis Hd : reach f x y.
  Let f' := swp f x y.
  Let HP' : perm_on D f' (fun z => tr x y (g z)) := swp_perm D f g x y HP Hx Hy.

  Lemma first_hit : exists n, iter (S n) f y = x /\ forall i, (i < n)%nat -> iter (S i) f y <> x.
  Proof.
    assert (Hyx : reach f (f y) x).
    { apply (reach_trans _ _ y).
      - apply (reach_sym D f g HP); auto. apply reach_step.
      - apply (reach_sym D f g HP); auto. }
    destruct Hyx as [n Hn]. rewrite <- iter_S_r in Hn.
    revert Hn. induction n as [n IH] using lt_wf_ind. intros Hn.
    destruct (existsb (fun i => iter (S i) f y =? x) (seq 0 n)) eqn:E.
    - apply existsb_exists in E as (i & Hi & E). apply in_seq in Hi. apply Z.eqb_eq in E.
      apply (IH i); [lia | assumption].
    - exists n; split; [assumption|]. intros i Hi Heq.
      assert (existsb (fun i => iter (S i) f y =? x) (seq 0 n) = true).
      { apply existsb_exists; exists i; split; [apply in_seq; lia | apply Z.eqb_eq; assumption]. }
      congruence.
  Qed.

  Lemma split_xy : ~ reach f' x y.
  Proof.
    destruct first_hit as (n & Hn & Hmin).
    set (S_ := fun z => exists i, (i <= n)%nat /\ iter (S i) f y = z).
    assert (HSy : ~ S_ y).
    { intros (i & Hi & He).
      destruct (Nat.eq_dec i n) as [->|Hin]; [congruence|].
      assert (Hj : iter (S (n - S i)) f y = x).
      { rewrite <- Hn. replace (S n) with (S (n - S i) + S i)%nat by lia.
        rewrite iter_add, He; reflexivity. }
      apply (Hmin (n - S i)%nat); [lia | assumption]. }
    assert (Hcl : forall z, S_ z -> S_ (f' z)).
    { intros z (i & Hi & He). unfold f'.
      destruct (Z.eq_dec z x) as [->|Hzx].
      - rewrite swp_l. exists O; split; [lia | reflexivity].
      - assert (z <> y) by (intros ->; apply HSy; exists i; auto).
        rewrite swp_o by assumption.
        destruct (Nat.eq_dec i n) as [->|Hin]; [congruence|].
        exists (S i); split; [lia|]. simpl in *; congruence. }
    intros Hr. apply HSy.
    apply (reach_ind_r f' x S_); [exists n; auto | intros; apply Hcl; assumption | assumption].
  Qed.

  Lemma swp_sub z w : In z D -> reach f' z w -> reach f z w.
  Proof.
    intros Hz Hr. revert w Hr. apply reach_ind_r; [apply reach_refl|].
    intros w Hr IH. unfold f'.
    destruct (Z.eq_dec w x) as [->|Hwx]; [|destruct (Z.eq_dec w y) as [->|Hwy]].
    - rewrite swp_l. apply reach_step_r. apply (reach_trans _ _ x); assumption.
    - rewrite swp_r. apply reach_step_r. apply (reach_trans _ _ y); auto.
      apply (reach_sym D f g HP); auto.
    - rewrite swp_o by assumption. apply reach_step_r; assumption.
  Qed.

  Lemma swp_split z : In z D -> reach f z x -> reach f' z x \/ reach f' z y.
  Proof. intros Hz H; apply (swp_reaches_end D f x y); auto. Qed.
End SwapSplit.

(* ------------------------------------------------------------------ *)
(** ** Short-circuiting one element *)

Definition skp (f : Z -> Z) (d z : Z) : Z := if f z =? d then f d else f z.

Definition rmz (d : Z) (D : list Z) : list Z := filter (fun z => negb (z =? d)) D.

Lemma in_rmz d D z : In z (rmz d D) <-> In z D /\ z <> d.
Proof.
  unfold rmz; rewrite filter_In, negb_true_iff, Z.eqb_neq; reflexivity.
Qed.

Section Skip.
  Variable D : list Z.
  Variables f g : Z -> Z.
  Hypothesis HP : perm_on D f g.
  Variable d : Z.
  Hypothesis Hd : In d D.

  Lemma skp_perm : perm_on (rmz d D) (skp f d) (skp g d).
  Proof.
    intros z Hz. apply in_rmz in Hz as [Hz Hzd]. unfold skp.
    assert (Hgd := perm_in_inv D f g HP d Hd). assert (Hfd := perm_in D f g HP d Hd).
    assert (Hfz := perm_in D f g HP z Hz). assert (Hgz := perm_in_inv D f g HP z Hz).
    pose proof (perm_gf D f g HP z Hz) as E1. pose proof (perm_fg D f g HP z Hz) as E2.
    pose proof (perm_gf D f g HP d Hd) as E3. pose proof (perm_fg D f g HP d Hd) as E4.
    repeat split.
    - apply in_rmz. destruct (Z.eqb_spec (f z) d) as [E|E]; split; auto.
      intros E'. apply Hzd. rewrite <- E1, E, <- E' at 1. rewrite E3. congruence.
    - apply in_rmz. destruct (Z.eqb_spec (g z) d) as [E|E]; split; auto.
      intros E'. apply Hzd. rewrite <- E2, E, <- E' at 1. rewrite E4. congruence.
    - destruct (Z.eqb_spec (f z) d) as [E|E].
      + rewrite E3, Z.eqb_refl. congruence.
      + rewrite E1. destruct (Z.eqb_spec z d); congruence.
    - destruct (Z.eqb_spec (g z) d) as [E|E].
      + rewrite E4, Z.eqb_refl. congruence.
      + rewrite E2. destruct (Z.eqb_spec z d); congruence.
  Qed.

  Lemma skp_reach z w : In z D -> z <> d -> w <> d -> (reach (skp f d) z w <-> reach f z w).
  Proof.
    intros Hz Hzd Hwd. split.
    - intros Hr. revert w Hr Hwd. 
      apply (reach_ind_r (skp f d) z (fun w => w <> d -> reach f z w)); [intros; apply reach_refl|].
      intros w Hr IH Hwd.
      destruct (Z.eq_dec w d) as [->|Hw].
      + exfalso. assert (Hin : In d (rmz d D)).
        { eapply (reach_in (rmz d D) (skp f d) (skp g d) skp_perm); [|exact Hr].
          apply in_rmz; auto. }
        apply in_rmz in Hin; tauto.
      + specialize (IH Hw). unfold skp in *. destruct (Z.eqb_spec (f w) d) as [E|E].
        * rewrite <- E. apply reach_step_r, reach_step_r; assumption.
        * apply reach_step_r; assumption.
    - intros Hr.
      assert (Hgen : forall z, reach f z w -> z <> d -> reach (skp f d) z w /\ True
                     \/ False).
      { intros z0 [n Hn]. revert z0 Hn.
        induction n as [n IH] using lt_wf_ind. intros z0 Hn Hz0.
        destruct n as [|n]; [simpl in Hn; subst; left; split; auto; apply reach_refl|].
        rewrite iter_S_r in Hn.
        destruct (Z.eq_dec (f z0) d) as [E|E].
        - destruct n as [|n]; [simpl in Hn; congruence|].
          rewrite iter_S_r in Hn.
          destruct (Z.eq_dec (f (f z0)) d) as [E2|E2].
          + (* f d = d: then the walk stays at d *)
            exfalso. rewrite E in E2. rewrite E, E2 in Hn.
            assert (Hst : forall k, iter k f d = d) by (induction k; simpl; congruence).
            rewrite Hst in Hn; congruence.
          + left; split; auto.
            destruct (IH n ltac:(lia) (f (f z0)) Hn E2) as [[H _]|[]].
            apply reach_step_l. unfold skp. rewrite E, Z.eqb_refl. rewrite E in H; exact H.
        - destruct (IH n ltac:(lia) (f z0) Hn E) as [[H _]|[]].
          left; split; auto. apply reach_step_l. unfold skp.
          destruct (Z.eqb_spec (f z0) d); [congruence|]. exact H. }
      destruct (Hgen z Hr Hzd) as [[H _]|[]]; exact H.
  Qed.
End Skip.

(* ------------------------------------------------------------------ *)
(** ** Counting orbits *)

(** [R] contains exactly one element of every orbit of [f] on [D]. *)
Record reps (f : Z -> Z) (D R : list Z) : Prop := {
  reps_nodup : NoDup R;
  reps_incl : forall r, In r R -> In r D;
  reps_cover : forall x, In x D -> exists r, In r R /\ reach f r x;
  reps_sep : forall r s, In r R -> In s R -> reach f r s -> r = s }.

Lemma rel_inj_length {A B} (P : A -> B -> Prop) (l1 : list A) (l2 : list B) :
  NoDup l1 ->
  (forall a, In a l1 -> exists b, In b l2 /\ P a b) ->
  (forall a a' b, In a l1 -> In a' l1 -> In b l2 -> P a b -> P a' b -> a = a') ->
  (length l1 <= length l2)%nat.
Proof.
  revert l2; induction l1 as [|a l1 IH]; intros l2 Hnd Hex Hinj; simpl; [lia|].
  inversion Hnd; subst.
  destruct (Hex a (or_introl eq_refl)) as (b & Hb & HPb).
  apply in_split in Hb as (u & v & ->).
  rewrite app_length; simpl.
  assert (length l1 <= length (u ++ v))%nat; [|rewrite app_length in *; lia].
  apply IH; auto.
  - intros a' Ha'. destruct (Hex a' (or_intror Ha')) as (b' & Hb' & HP').
    exists b'; split; auto. apply in_app_or in Hb' as [H|[H|H]]; apply in_or_app; auto.
    subst b'. exfalso. assert (a = a').
    { apply (Hinj a a' b); simpl; auto. apply in_or_app; simpl; auto. }
    subst; contradiction.
  - intros a1 a2 b' H1' H2' Hb'. apply Hinj; simpl; auto.
    apply in_app_or in Hb' as [H|H]; apply in_or_app; simpl; auto.
Qed.

Lemma reps_unique D f g R S_ :
  perm_on D f g -> reps f D R -> reps f D S_ -> length R = length S_.
Proof.
  intros HP HR HS.
  assert (Hle : forall A B, reps f D A -> reps f D B -> (length A <= length B)%nat).
  { intros A B HA HB. apply (rel_inj_length (fun a b => reach f b a)).
    - apply HA.
    - intros a Ha. apply (reps_cover _ _ _ HB). apply HA; assumption.
    - intros a a' b Ha Ha' Hb H1 H2. apply (reps_sep _ _ _ HA); auto.
      apply (reach_trans _ _ b); auto.
      apply (reach_sym D f g HP); auto. apply HB; assumption. }
  apply Nat.le_antisymm; auto.
Qed.

Lemma reps_ex D f g : perm_on D f g -> exists R, reps f D R.
Proof.
  intros HP.
  assert (H : forall l, incl l D -> exists R, NoDup R /\ incl R l /\
     (forall x, In x l -> exists r, In r R /\ reach f r x) /\
     (forall r s, In r R -> In s R -> reach f r s -> r = s)).
  { induction l as [|a l IH]; intros Hl.
    - exists []. split; [constructor|]. split; [intros ? []|]. split; [intros ? []|]. intros ? ? [].
    - destruct IH as (R & Hnd & Hin & Hc & Hs); [intros z Hz; apply Hl; right; assumption|].
      assert (HaD : In a D) by (apply Hl; left; reflexivity).
      destruct (existsb (fun r => reachb D f r a) R) eqn:E.
      + exists R. repeat split; auto.
        * intros z Hz; right; auto.
        * intros z [->|Hz]; [|apply Hc; assumption].
          apply existsb_exists in E as (r & Hr & E). exists r; split; auto.
          apply (reachb_spec D f g HP) in E; auto. apply Hl; right; apply Hin; assumption.
      + assert (Hn : forall r, In r R -> ~ reach f r a).
        { intros r Hr Hra. assert (existsb (fun r => reachb D f r a) R = true); [|congruence].
          apply existsb_exists; exists r; split; auto.
          apply (reachb_spec D f g HP); auto. apply Hl; right; apply Hin; assumption. }
        exists (a :: R). repeat split.
        * constructor; auto. intros Ha; apply (Hn a Ha), reach_refl.
        * intros z [->|Hz]; [left; reflexivity | right; auto].
        * intros z [->|Hz]; [exists z; split; [left; auto | apply reach_refl]|].
          destruct (Hc z Hz) as (r & Hr & Hrz); exists r; split; [right; assumption | assumption].
        * intros r s [->|Hr] [->|Hs'] Hrs; auto.
          -- exfalso; apply (Hn s Hs'). apply (reach_sym D f g HP); auto.
          -- exfalso; apply (Hn r Hr); assumption. }
  destruct (H D (incl_refl D)) as (R & Hnd & Hin & Hc & Hs).
  exists R; constructor; auto.
Qed.

Lemma length_rmz d R : NoDup R -> In d R -> S (length (rmz d R)) = length R.
Proof.
  induction R as [|a R IH]; intros Hnd Hin; [destruct Hin|].
  inversion Hnd; subst. simpl. destruct (Z.eqb_spec a d) as [->|Hne]; simpl.
  - f_equal. replace (rmz d R) with R; [reflexivity|]. unfold rmz.
    clear -H1. induction R as [|b R IH]; simpl; auto.
    destruct (Z.eqb_spec b d) as [->|E]; simpl.
    + exfalso; apply H1; left; reflexivity.
    + f_equal; apply IH; intros Hi; apply H1; right; assumption.
  - f_equal. apply IH; auto. destruct Hin; [congruence | assumption].
Qed.

Lemma NoDup_rmz d R : NoDup R -> NoDup (rmz d R).
Proof. apply NoDup_filter. Qed.

Lemma reps_join D f g R x y :
  perm_on D f g -> reps f D R -> In x D -> In y D -> ~ reach f x y ->
  forall R', reps (swp f x y) D R' -> S (length R') = length R.
Proof.
  intros HP HR Hx Hy Hd R' HR'.
  destruct (reps_cover _ _ _ HR x Hx) as (rx & Hrx & Hrxx).
  destruct (reps_cover _ _ _ HR y Hy) as (ry & Hry & Hryy).
  assert (Hne : rx <> ry).
  { intros ->. apply Hd. apply (reach_trans _ _ ry); auto.
    apply (reach_sym D f g HP); auto. apply HR; assumption. }
  assert (Hcase : reps (swp f x y) D (rmz ry R)).
  { constructor.
    - apply NoDup_rmz, HR.
    - intros r Hr; apply in_rmz in Hr; apply HR; tauto.
    - intros z Hz. destruct (reps_cover _ _ _ HR z Hz) as (r & Hr & Hrz).
      assert (HrD : In r D) by (apply HR; assumption).
      destruct (Z.eq_dec r ry) as [->|Hn].
      + exists rx; split; [apply in_rmz; auto|].
        apply (swp_join D f g HP x y Hx Hy Hd); auto; [apply HR; assumption|].
        right; split; [left; assumption|right].
        apply (reach_trans _ _ ry); auto. apply (reach_sym D f g HP); auto.
      + exists r; split; [apply in_rmz; auto|].
        apply (swp_join D f g HP x y Hx Hy Hd); auto.
    - intros r s Hr Hs Hrs. apply in_rmz in Hr as [Hr Hr2]. apply in_rmz in Hs as [Hs Hs2].
      assert (HrD : In r D) by (apply HR; assumption).
      assert (HsD : In s D) by (apply HR; assumption).
      apply (swp_join D f g HP x y Hx Hy Hd) in Hrs; auto.
      destruct Hrs as [Hrs|[H1 H2]]; [apply (reps_sep _ _ _ HR); assumption|].
      assert (Hto : forall t, In t R -> t <> ry -> reach f t x \/ reach f t y -> t = rx).
      { intros t Ht Hty [H|H].
        - apply (reps_sep _ _ _ HR); auto. apply (reach_trans _ _ x); auto.
          apply (reach_sym D f g HP); auto. apply HR; assumption.
        - exfalso; apply Hty. apply (reps_sep _ _ _ HR); auto. apply (reach_trans _ _ y); auto.
          apply (reach_sym D f g HP); auto. apply HR; assumption. }
      rewrite (Hto r), (Hto s); auto. }
  rewrite (reps_unique D _ _ _ _ (swp_perm D f g x y HP Hx Hy) HR' Hcase).
  apply length_rmz; auto. apply HR.
Qed.

Lemma swp_swp f x y z : swp (swp f x y) x y z = f z.
Proof. unfold swp; rewrite tr_invol; reflexivity. Qed.

Lemma reps_ext f f' D R :
  (forall z, In z D -> f z = f' z) -> (forall z, In z D -> In (f z) D) ->
  reps f D R -> reps f' D R.
Proof.
  intros He Hc HR. constructor; try apply HR.
  - intros x Hx. destruct (reps_cover _ _ _ HR x Hx) as (r & Hr & H). exists r; split; auto.
    apply (reach_ext f f' (fun z => In z D)); auto. apply HR; assumption.
  - intros r s Hr Hs H. apply (reps_sep _ _ _ HR); auto.
    apply (reach_ext f' f (fun z => In z D)); auto.
    + intros; symmetry; auto.
    + intros z Hz; rewrite <- He by assumption; auto.
    + apply HR; assumption.
Qed.

Lemma reps_split D f g R x y :
  perm_on D f g -> reps f D R -> In x D -> In y D -> x <> y -> reach f x y ->
  forall R', reps (swp f x y) D R' -> length R' = S (length R).
Proof.
  intros HP HR Hx Hy Hne Hd R' HR'.
  pose proof (swp_perm D f g x y HP Hx Hy) as HP'.
  pose proof (split_xy D f g HP x y Hx Hy Hne Hd) as Hs.
  symmetry. apply (reps_join D _ _ R' x y HP' HR' Hx Hy Hs R).
  apply (reps_ext f); auto.
  - intros; symmetry; apply swp_swp.
  - intros; apply HP; assumption.
Qed.
