(** angleTheta orders vectors by polar angle. *)
From Coq Require Import Reals Lra Lia QArith Qreals ZArith.
From Verif Require Import Base GeoMap_Model.
Local Open Scope R_scope.

(** cppmap.cxx 54-67 in real arithmetic *)
Definition thetaR (dy dx : R) : R :=
  let den := Rabs dx + Rabs dy in
  if Req_EM_T den 0 then 0
  else
    let r := dy / den in
    if Rlt_dec dx 0 then (if Rlt_dec dy 0 then 2 - r - 4 else 2 - r) else r.

(** (r, t) are polar coordinates of the vector *)
Definition polar (dy dx r t : R) : Prop :=
  0 < r /\ - PI < t <= PI /\ dx = r * cos t /\ dy = r * sin t.

Lemma polar_ex dy dx : (dx <> 0 \/ dy <> 0) -> exists r t, polar dy dx r t.
Proof.
  intros Hne. set (r := sqrt (dx * dx + dy * dy)).
  assert (Hs : 0 < dx * dx + dy * dy) by (destruct Hne as [H|H]; pose proof (Rsqr_pos_lt _ H) as K; unfold Rsqr in K; pose proof (Rle_0_sqr dx) as K1; pose proof (Rle_0_sqr dy) as K2; unfold Rsqr in K1, K2; lra).
  assert (Hr : 0 < r) by (apply sqrt_lt_R0; assumption).
  assert (Hrr : r * r = dx * dx + dy * dy) by (apply sqrt_sqrt; lra).
  assert (Hc : -1 <= dx / r <= 1).
  { split; apply (Rmult_le_reg_r r); auto; unfold Rdiv; rewrite Rmult_assoc, Rinv_l by lra; rewrite Rmult_1_r, ?Rmult_1_l.
    - assert (dx * dx <= r * r) by (pose proof (Rle_0_sqr dy) as K; unfold Rsqr in K; lra).
      destruct (Rle_dec (-1 * r) dx) as [|N]; [assumption|]. exfalso. assert (r < - dx) by lra.
      assert (r * r < (- dx) * (- dx)) by (apply Rmult_le_0_lt_compat; lra). lra.
    - destruct (Rle_dec dx r) as [|N]; [assumption|]. exfalso. assert (r * r < dx * dx) by (apply Rmult_le_0_lt_compat; lra).
      pose proof (Rle_0_sqr dy) as K; unfold Rsqr in K; lra. }
  assert (Hcos : cos (acos (dx / r)) = dx / r) by (apply cos_acos; assumption).
  pose proof (acos_bound (dx / r)) as Hb.
  assert (Hsin : sin (acos (dx / r)) * r = Rabs dy).
  { rewrite sin_acos by assumption.
    assert (E : 1 - Rsqr (dx / r) = (dy * dy) / (r * r)) by (replace (dy * dy) with (r * r - dx * dx) by lra; unfold Rsqr; field; lra).
    rewrite E, sqrt_div_alt by (apply Rmult_lt_0_compat; assumption). rewrite (sqrt_square r) by lra. change (dy * dy) with (Rsqr dy). rewrite sqrt_Rsqr_abs. field. lra. }
  destruct (Rle_dec 0 dy) as [Hy|Hy].
  - exists r, (acos (dx / r)). rewrite Rabs_pos_eq in Hsin by assumption. split; [assumption|].
    split; [pose proof PI_RGT_0; lra|]. rewrite Hcos. split; [field; lra | lra].
  - assert (Hlt : dy < 0) by lra. rewrite Rabs_left in Hsin by assumption.
    exists r, (- acos (dx / r)). split; [assumption|]. rewrite cos_neg, sin_neg, Hcos. split; [|split; [field; lra | lra]].
    split; [|pose proof PI_RGT_0; lra]. destruct (Rle_lt_or_eq_dec _ _ (proj2 Hb)) as [K|K]; [lra|].
    exfalso. rewrite K, sin_PI in Hsin. lra.
Qed.

(** ** Value by quadrant *)

Lemma thetaR_polar r t : 0 < r -> thetaR (r * sin t) (r * cos t) = thetaR (sin t) (cos t).
Proof.
  intros Hr. unfold thetaR. rewrite !Rabs_mult, (Rabs_pos_eq r) by lra.
  assert (Hd : 0 < Rabs (cos t) + Rabs (sin t)).
  { pose proof (Rabs_pos (cos t)). pose proof (Rabs_pos (sin t)). destruct (Req_dec (cos t) 0) as [E|N].
    - assert (sin t <> 0). { intros E'. pose proof (sin2_cos2 t) as K. unfold Rsqr in K. rewrite E, E' in K. lra. }
      pose proof (Rabs_pos_lt _ H1). lra.
    - pose proof (Rabs_pos_lt _ N). lra. }
  destruct (Req_EM_T _ 0) as [E|_]. { exfalso. nra. }
  destruct (Req_EM_T _ 0) as [E|_]; [lra|].
  replace (r * sin t / (r * Rabs (cos t) + r * Rabs (sin t))) with (sin t / (Rabs (cos t) + Rabs (sin t))) by (field; split; nra).
  destruct (Rlt_dec (r * cos t) 0), (Rlt_dec (cos t) 0); try nra;
  destruct (Rlt_dec (r * sin t) 0), (Rlt_dec (sin t) 0); try nra; reflexivity.
Qed.

Lemma den_pos t : 0 < Rabs (cos t) + Rabs (sin t).
Proof.
  pose proof (Rabs_pos (cos t)). pose proof (Rabs_pos (sin t)). destruct (Req_dec (cos t) 0) as [E|N].
  - assert (Hs : sin t <> 0). { intros E'. pose proof (sin2_cos2 t) as K. unfold Rsqr in K. rewrite E, E' in K. lra. }
    pose proof (Rabs_pos_lt _ Hs). lra.
  - pose proof (Rabs_pos_lt _ N). lra.
Qed.

(** the four pieces: (-PI,-PI/2), [-PI/2,0], [0,PI/2], (PI/2,PI] *)
Definition f4 t := - 2 + (- sin t) / (- cos t - sin t).
Definition f1 t := - ((- sin t) / (cos t - sin t)).
Definition f2 t := sin t / (cos t + sin t).
Definition f3 t := 2 - sin t / (- cos t + sin t).

Lemma signs4 t : - PI < t < - PI / 2 -> cos t < 0 /\ sin t < 0.
Proof.
  intros H. pose proof PI_RGT_0. split.
  - replace t with (- (- t)) by ring. rewrite cos_neg. apply cos_lt_0; lra.
  - apply sin_lt_0_var; lra.
Qed.
Lemma signs1 t : - PI / 2 <= t <= 0 -> 0 <= cos t /\ sin t <= 0.
Proof.
  intros H. pose proof PI_RGT_0. split.
  - apply cos_ge_0; lra.
  - replace t with (- (- t)) by ring. rewrite sin_neg. assert (0 <= sin (- t)) by (apply sin_ge_0; lra). lra.
Qed.
Lemma signs2 t : 0 <= t <= PI / 2 -> 0 <= cos t /\ 0 <= sin t.
Proof. intros H. pose proof PI_RGT_0. split; [apply cos_ge_0; lra | apply sin_ge_0; lra]. Qed.
Lemma signs3 t : PI / 2 < t <= PI -> cos t < 0 /\ 0 <= sin t.
Proof. intros H. pose proof PI_RGT_0. split; [apply cos_lt_0; lra | apply sin_ge_0; lra]. Qed.

Lemma theta_f4 t : - PI < t < - PI / 2 -> thetaR (sin t) (cos t) = f4 t.
Proof.
  intros H. destruct (signs4 t H) as [Hc Hs]. unfold thetaR, f4. pose proof (den_pos t) as Hd.
  destruct (Req_EM_T _ 0) as [E|_]; [lra|]. rewrite (Rabs_left (cos t)), (Rabs_left (sin t)) by assumption.
  destruct (Rlt_dec (cos t) 0); [|lra]. destruct (Rlt_dec (sin t) 0); [|lra]. field. lra.
Qed.
Lemma theta_f1 t : - PI / 2 <= t <= 0 -> thetaR (sin t) (cos t) = f1 t.
Proof.
  intros H. destruct (signs1 t H) as [Hc Hs]. unfold thetaR, f1. pose proof (den_pos t) as Hd.
  destruct (Req_EM_T _ 0) as [E|_]; [lra|]. rewrite (Rabs_pos_eq (cos t)), (Rabs_left1 (sin t)) in * by assumption.
  destruct (Rlt_dec (cos t) 0); [lra|]. field. lra.
Qed.
Lemma theta_f2 t : 0 <= t <= PI / 2 -> thetaR (sin t) (cos t) = f2 t.
Proof.
  intros H. destruct (signs2 t H) as [Hc Hs]. unfold thetaR, f2. pose proof (den_pos t) as Hd.
  destruct (Req_EM_T _ 0) as [E|_]; [lra|]. rewrite (Rabs_pos_eq (cos t)), (Rabs_pos_eq (sin t)) in * by assumption.
  destruct (Rlt_dec (cos t) 0); [lra|]. reflexivity.
Qed.
Lemma theta_f3 t : PI / 2 < t <= PI -> thetaR (sin t) (cos t) = f3 t.
Proof.
  intros H. destruct (signs3 t H) as [Hc Hs]. unfold thetaR, f3. pose proof (den_pos t) as Hd.
  destruct (Req_EM_T _ 0) as [E|_]; [lra|]. rewrite (Rabs_left (cos t)), (Rabs_pos_eq (sin t)) in * by assumption.
  destruct (Rlt_dec (cos t) 0); [|lra]. destruct (Rlt_dec (sin t) 0); [lra|]. reflexivity.
Qed.

Lemma frac_lt a b c d : 0 < b -> 0 < d -> a * d < c * b -> a / b < c / d.
Proof.
  intros Hb Hd H. apply (Rmult_lt_reg_r (b * d)); [nra|]. unfold Rdiv.
  replace (a * / b * (b * d)) with (a * d) by (field; lra). replace (c * / d * (b * d)) with (c * b) by (field; lra). assumption.
Qed.
Lemma frac_bound a b : 0 < b -> 0 <= a <= b -> 0 <= a / b <= 1.
Proof.
  intros Hb [H1 H2]. split; [apply Rmult_le_pos; [assumption | left; apply Rinv_0_lt_compat; assumption]|].
  apply (Rmult_le_reg_r b); [assumption|]. unfold Rdiv. rewrite Rmult_assoc, Rinv_l by lra. lra.
Qed.
Lemma frac_sbound a b : 0 < b -> 0 < a < b -> 0 < a / b < 1.
Proof.
  intros Hb [H1 H2]. split; [apply Rmult_lt_0_compat; [assumption | apply Rinv_0_lt_compat; assumption]|].
  apply (Rmult_lt_reg_r b); [assumption|]. unfold Rdiv. rewrite Rmult_assoc, Rinv_l by lra. lra.
Qed.

Lemma cross_pos t1 t2 : 0 < t2 - t1 < PI -> sin t1 * cos t2 < sin t2 * cos t1.
Proof. intros H. assert (K : 0 < sin (t2 - t1)) by (apply sin_gt_0; lra). rewrite sin_minus in K. lra. Qed.

Lemma f4_mono t1 t2 : - PI < t1 -> t1 < t2 -> t2 < - PI / 2 -> f4 t1 < f4 t2.
Proof.
  intros H1 H H2. destruct (signs4 t1) as [A1 B1]; [lra|]. destruct (signs4 t2) as [A2 B2]; [lra|].
  pose proof (cross_pos t1 t2) as K. unfold f4. apply Rplus_lt_compat_l, frac_lt; try lra; nra.
Qed.
Lemma f1_mono t1 t2 : - PI / 2 <= t1 -> t1 < t2 -> t2 <= 0 -> f1 t1 < f1 t2.
Proof.
  intros H1 H H2. destruct (signs1 t1) as [A1 B1]; [lra|]. destruct (signs1 t2) as [A2 B2]; [lra|].
  pose proof (cross_pos t1 t2) as K. pose proof (den_pos t1) as D1. pose proof (den_pos t2) as D2. pose proof PI_RGT_0.
  rewrite (Rabs_pos_eq (cos t1)), (Rabs_left1 (sin t1)) in D1 by assumption.
  rewrite (Rabs_pos_eq (cos t2)), (Rabs_left1 (sin t2)) in D2 by assumption.
  unfold f1. apply Ropp_lt_contravar, frac_lt; try lra; nra.
Qed.
Lemma f2_mono t1 t2 : 0 <= t1 -> t1 < t2 -> t2 <= PI / 2 -> f2 t1 < f2 t2.
Proof.
  intros H1 H H2. destruct (signs2 t1) as [A1 B1]; [lra|]. destruct (signs2 t2) as [A2 B2]; [lra|].
  pose proof (cross_pos t1 t2) as K. pose proof (den_pos t1) as D1. pose proof (den_pos t2) as D2. pose proof PI_RGT_0.
  rewrite (Rabs_pos_eq (cos t1)), (Rabs_pos_eq (sin t1)) in D1 by assumption.
  rewrite (Rabs_pos_eq (cos t2)), (Rabs_pos_eq (sin t2)) in D2 by assumption.
  unfold f2. apply frac_lt; try lra; nra.
Qed.
Lemma f3_mono t1 t2 : PI / 2 < t1 -> t1 < t2 -> t2 <= PI -> f3 t1 < f3 t2.
Proof.
  intros H1 H H2. destruct (signs3 t1) as [A1 B1]; [lra|]. destruct (signs3 t2) as [A2 B2]; [lra|].
  pose proof (cross_pos t1 t2) as K. pose proof PI_RGT_0. unfold f3. apply Rplus_lt_compat_l, Ropp_lt_contravar, frac_lt; try lra; nra.
Qed.

Lemma f4_range t : - PI < t < - PI / 2 -> -2 < f4 t < -1.
Proof. intros H. destruct (signs4 t H). unfold f4. pose proof (frac_sbound (- sin t) (- cos t - sin t)). lra. Qed.
Lemma f1_range t : - PI / 2 <= t <= 0 -> -1 <= f1 t <= 0.
Proof.
  intros H. destruct (signs1 t H) as [A B]. pose proof (den_pos t) as D. rewrite (Rabs_pos_eq (cos t)), (Rabs_left1 (sin t)) in D by assumption.
  unfold f1. pose proof (frac_bound (- sin t) (cos t - sin t)). lra.
Qed.
Lemma f2_range t : 0 <= t <= PI / 2 -> 0 <= f2 t <= 1.
Proof.
  intros H. destruct (signs2 t H) as [A B]. pose proof (den_pos t) as D. rewrite (Rabs_pos_eq (cos t)), (Rabs_pos_eq (sin t)) in D by assumption.
  unfold f2. pose proof (frac_bound (sin t) (cos t + sin t)). lra.
Qed.
Lemma f3_range t : PI / 2 < t <= PI -> 1 < f3 t <= 2.
Proof.
  intros H. destruct (signs3 t H) as [A B]. unfold f3. split.
  - assert (sin t / (- cos t + sin t) < 1); [|lra]. apply (Rmult_lt_reg_r (- cos t + sin t)); [lra|].
    unfold Rdiv. rewrite Rmult_assoc, Rinv_l by lra. lra.
  - pose proof (frac_bound (sin t) (- cos t + sin t)). lra.
Qed.

Lemma theta_range t : - PI < t <= PI -> -2 < thetaR (sin t) (cos t) <= 2.
Proof.
  intros H. destruct (Rlt_dec t (- PI / 2)) as [L|L]; [rewrite theta_f4 by lra; pose proof (f4_range t); lra|].
  destruct (Rle_dec t 0) as [L0|L0]; [rewrite theta_f1 by lra; pose proof (f1_range t); lra|].
  destruct (Rle_dec t (PI / 2)) as [L1|L1]; [rewrite theta_f2 by lra; pose proof (f2_range t); lra|].
  rewrite theta_f3 by lra. pose proof (f3_range t). lra.
Qed.

Lemma theta_mono t1 t2 : - PI < t1 -> t1 < t2 -> t2 <= PI -> thetaR (sin t1) (cos t1) < thetaR (sin t2) (cos t2).
Proof.
  intros H1 H H2. pose proof PI_RGT_0.
  destruct (Rlt_dec t2 (- PI / 2)) as [L|L].
  { rewrite !theta_f4 by lra. apply f4_mono; lra. }
  destruct (Rlt_dec t1 (- PI / 2)) as [M|M].
  { rewrite theta_f4 by lra. pose proof (f4_range t1).
    destruct (Rle_dec t2 0) as [L0|L0]; [rewrite theta_f1 by lra; pose proof (f1_range t2); lra|].
    destruct (Rle_dec t2 (PI / 2)) as [L1|L1]; [rewrite theta_f2 by lra; pose proof (f2_range t2); lra|].
    rewrite theta_f3 by lra. pose proof (f3_range t2). lra. }
  destruct (Rle_dec t2 0) as [L0|L0]; [rewrite !theta_f1 by lra; apply f1_mono; lra|].
  destruct (Rlt_dec t1 0) as [M0|M0].
  { assert (K : thetaR (sin t1) (cos t1) < 0).
    { rewrite theta_f1 by lra. replace 0 with (f1 0); [apply f1_mono; lra|]. unfold f1. rewrite sin_0, cos_0. field. }
    destruct (Rle_dec t2 (PI / 2)) as [L1|L1]; [rewrite (theta_f2 t2) by lra; pose proof (f2_range t2); lra|].
    rewrite (theta_f3 t2) by lra. pose proof (f3_range t2). lra. }
  destruct (Rle_dec t2 (PI / 2)) as [L1|L1]; [rewrite !theta_f2 by lra; apply f2_mono; lra|].
  destruct (Rle_dec t1 (PI / 2)) as [M1|M1].
  { rewrite (theta_f2 t1) by lra. rewrite (theta_f3 t2) by lra. pose proof (f2_range t1). pose proof (f3_range t2). lra. }
  rewrite !theta_f3 by lra. apply f3_mono; lra.
Qed.

(** ** The real-valued statement *)

Theorem thetaR_range dy dx r t : polar dy dx r t -> -2 < thetaR dy dx <= 2.
Proof. intros (Hr & Ht & -> & ->). rewrite thetaR_polar by assumption. apply theta_range; assumption. Qed.

Theorem thetaR_lt dy dx r t dy' dx' r' t' : polar dy dx r t -> polar dy' dx' r' t' ->
  (thetaR dy dx < thetaR dy' dx' <-> t < t').
Proof.
  intros (Hr & Ht & -> & ->) (Hr' & Ht' & -> & ->). rewrite !thetaR_polar by assumption. split.
  - intros H. destruct (Rlt_le_dec t t') as [L|L]; [assumption|]. exfalso. destruct (Rle_lt_or_eq_dec _ _ L) as [L'|E].
    + pose proof (theta_mono t' t). lra.
    + subst. lra.
  - intros H. apply theta_mono; lra.
Qed.

Theorem thetaR_eq dy dx r t dy' dx' r' t' : polar dy dx r t -> polar dy' dx' r' t' ->
  (thetaR dy dx = thetaR dy' dx' <-> t = t').
Proof.
  intros H H'. pose proof (thetaR_lt _ _ _ _ _ _ _ _ H H') as K1. pose proof (thetaR_lt _ _ _ _ _ _ _ _ H' H) as K2. split.
  - intros E. destruct (Rtotal_order t t') as [L|[L|L]]; auto; exfalso; [apply K1 in L | apply K2 in L]; lra.
  - intros E. destruct (Rtotal_order (thetaR dy dx) (thetaR dy' dx')) as [L|[L|L]]; auto; exfalso; [apply K1 in L | apply K2 in L]; lra.
Qed.

(** ** Transfer to exact rational arithmetic *)

Lemma angleTheta_R dy dx : Q2R (angleTheta dy dx) = thetaR (IZR dy) (IZR dx).
Proof.
  unfold angleTheta, thetaR. rewrite <- !abs_IZR, <- plus_IZR.
  destruct (Z.abs dx + Z.abs dy)%Z as [|den|p] eqn:E.
  - destruct (Req_EM_T 0 0) as [_|N]; [|lra]. unfold Q2R; simpl; lra.
  - destruct (Req_EM_T (IZR (Z.pos den)) 0) as [N|_]; [exfalso; apply eq_IZR in N; discriminate|].
    assert (Hr : Q2R (dy # den) = IZR dy / IZR (Z.pos den)) by reflexivity.
    destruct (Z.ltb_spec dx 0) as [L|L]; [apply IZR_lt in L | apply IZR_le in L].
    + destruct (Rlt_dec (IZR dx) 0); [|lra]. destruct (Z.ltb_spec dy 0) as [M|M]; [apply IZR_lt in M | apply IZR_le in M].
      * destruct (Rlt_dec (IZR dy) 0); [|lra]. rewrite !Q2R_minus, Hr. unfold Q2R; simpl. lra.
      * destruct (Rlt_dec (IZR dy) 0); [lra|]. rewrite !Q2R_minus, Hr. unfold Q2R; simpl. lra.
    + destruct (Rlt_dec (IZR dx) 0); [lra|]. exact Hr.
  - lia.
Qed.

Theorem angleTheta_range dy dx r t : polar (IZR dy) (IZR dx) r t -> (-2 < angleTheta dy dx <= 2)%Q.
Proof.
  intros H. apply thetaR_range in H. rewrite <- angleTheta_R in H.
  assert (E1 : Q2R (-2) = -2) by (unfold Q2R; simpl; lra). assert (E2 : Q2R 2 = 2) by (unfold Q2R; simpl; lra).
  split; [apply Rlt_Qlt | apply Rle_Qle]; rewrite ?E1, ?E2; apply H.
Qed.

Theorem angleTheta_lt dy dx r t dy' dx' r' t' : polar (IZR dy) (IZR dx) r t -> polar (IZR dy') (IZR dx') r' t' ->
  ((angleTheta dy dx < angleTheta dy' dx')%Q <-> t < t').
Proof.
  intros H H'. rewrite <- (thetaR_lt _ _ _ _ _ _ _ _ H H'), <- !angleTheta_R. split; [apply Qlt_Rlt | apply Rlt_Qlt].
Qed.

Theorem angleTheta_eq dy dx r t dy' dx' r' t' : polar (IZR dy) (IZR dx) r t -> polar (IZR dy') (IZR dx') r' t' ->
  ((angleTheta dy dx == angleTheta dy' dx')%Q <-> t = t').
Proof.
  intros H H'. rewrite <- (thetaR_eq _ _ _ _ _ _ _ _ H H'), <- !angleTheta_R. split; [apply Qeq_eqR | apply eqR_Qeq].
Qed.

Theorem angleTheta_zero : (angleTheta 0 0 == 0)%Q.
Proof. reflexivity. Qed.
