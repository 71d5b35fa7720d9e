(** Moving forward along a dart. *)
From Coq Require Import Reals Lra.
From Verif Require Import Base DartPosition_Model DartPosition_Spec.
Local Open Scope Z_scope.

Lemma mag_dist a b : mag (vsub b a) = dist a b.
Proof. unfold mag, sqMag, vsub, dist. cbn [fst snd]. f_equal. ring. Qed.
Lemma dist_nonneg a b : (0 <= dist a b)%R.
Proof. apply sqrt_pos. Qed.
Lemma mag_sq v : (mag v * mag v = sqMag v)%R.
Proof. unfold mag. apply sqrt_sqrt. unfold sqMag. pose proof (Rle_0_sqr (fst v)). pose proof (Rle_0_sqr (snd v)). unfold Rsqr in *. lra. Qed.

Lemma arcTo_S P k a b : nth_error P k = Some a -> nth_error P (S k) = Some b -> arcTo P (S k) = (arcTo P k + dist a b)%R.
Proof.
  revert k. induction P as [|c P IH]; intros k Ha Hb; [destruct k; discriminate|].
  destruct k as [|k].
  - injection Ha as ->. cbn [nth_error] in Hb. destruct P as [|b' P]; [discriminate|]. injection Hb as ->. cbn [arcTo]. destruct P; lra.
  - cbn [nth_error] in Ha, Hb. pose proof (IH k Ha Hb) as E. destruct P as [|c' P]; [destruct k; discriminate|].
    change (arcTo (c :: c' :: P) (S (S k))) with (dist c c' + arcTo (c' :: P) (S k))%R.
    change (arcTo (c :: c' :: P) (S k)) with (dist c c' + arcTo (c' :: P) k)%R. rewrite E. lra.
Qed.
Lemma arcTo_mono P j k : (j <= k)%nat -> (k < length P)%nat -> (arcTo P j <= arcTo P k)%R.
Proof.
  intro H. induction H as [|k H IH]; intro B; [lra|].
  destruct (nth_error P k) as [a|] eqn:Ha; [|apply nth_error_None in Ha; lia].
  destruct (nth_error P (S k)) as [b|] eqn:Hb; [|apply nth_error_None in Hb; lia].
  rewrite (arcTo_S P k a b Ha Hb). pose proof (dist_nonneg a b). assert (K : (k < length P)%nat) by lia. specialize (IH K). lra.
Qed.

Section Dart.
Variables (pts : list vec) (fwd : bool).
Let P := dartPts pts fwd.
Let n := length pts.
Lemma P_length : length P = n.
Proof. unfold P, dartPts, n. destruct fwd; [reflexivity|apply rev_length]. Qed.

(** the iterator at place [j] of the dart *)
Definition itAt (j : nat) : piter :=
  if fwd then mkPiter pts (Z.of_nat j) 1 (Z.of_nat n) else mkPiter pts (Z.of_nat n - 1 - Z.of_nat j) (-1) (-1).

Lemma nth_error_rev {A} (l : list A) j : (j < length l)%nat -> nth_error (rev l) j = nth_error l (length l - 1 - j).
Proof.
  revert j. induction l as [|a l IH] using rev_ind; intros j H; [cbn in H; lia|].
  rewrite rev_app_distr, app_length in *. cbn [rev app length] in *. destruct j as [|j].
  - cbn [nth_error]. rewrite nth_error_app2 by lia. replace (length l + 1 - 1 - 0 - length l)%nat with 0%nat by lia. reflexivity.
  - cbn [nth_error]. rewrite IH by lia. rewrite nth_error_app1 by lia. f_equal. lia.
Qed.
Lemma itAt_deref j a : nth_error P j = Some a -> piDeref (itAt j) = Ok a.
Proof.
  intro H. assert (B : (j < n)%nat) by (rewrite <- P_length; apply nth_error_Some; congruence).
  unfold piDeref, itAt, P, dartPts in *. destruct fwd; cbn [piIndex pipts].
  - replace (Z.of_nat j <? 0) with false by (symmetry; apply Z.ltb_ge; lia). rewrite Nat2Z.id. unfold vget. rewrite H. reflexivity.
  - replace (Z.of_nat n - 1 - Z.of_nat j <? 0) with false by (symmetry; apply Z.ltb_ge; lia).
    replace (Z.to_nat (Z.of_nat n - 1 - Z.of_nat j)) with (n - 1 - j)%nat by lia. unfold vget. rewrite nth_error_rev in H by exact B.
    unfold n. rewrite H. reflexivity.
Qed.
Lemma itAt_next j : piNext (itAt j) = itAt (S j).
Proof. unfold piNext, itAt. destruct fwd; cbn [pipts piIndex piInc piEnd]; f_equal; lia. Qed.
Lemma itAt_end j : (j <= n)%nat -> piAtEnd (itAt j) = Nat.eqb j n.
Proof.
  intro H. unfold piAtEnd, itAt. destruct fwd; cbn [piIndex piEnd]; destruct (Nat.eqb j n) eqn:E;
    first [apply Nat.eqb_eq in E | apply Nat.eqb_neq in E]; first [apply Z.eqb_eq; lia | apply Z.eqb_neq; lia].
Qed.
Lemma itAt_pts j : pipts (itAt j) = pts.
Proof. unfold itAt. destruct fwd; reflexivity. Qed.
Lemma itAt_back j : piReverse (piNext (piReverse (itAt (S j)))) = itAt j.
Proof.
  unfold itAt, piReverse. destruct fwd; cbn [piInc pipts piIndex piEnd].
  - change (1 <? 0) with false. cbn iota. unfold piNext. cbn [pipts piIndex piInc piEnd]. change (-1 <? 0) with true. cbn iota.
    f_equal; lia.
  - change (-1 <? 0) with true. cbn iota. unfold piNext. cbn [pipts piIndex piInc piEnd]. change (1 <? 0) with false. cbn iota.
    f_equal; lia.
Qed.

(** on segment [k] *)
Definition atSeg (d : dpos) (k : nat) : Prop :=
  dIter d = itAt (S k) /\ dSeg d = k /\ nth_error P k = Some (dP1 d) /\ nth_error P (S k) = Some (dP2 d) /\ dArc d = arcTo P k /\
  (0 <= dPart d)%R /\ onSegment P k (dpArcLength d) (dAt d).
(** behind the last segment *)
Definition atEndPos (d : dpos) : Prop :=
  dIter d = itAt n /\ S (S (dSeg d)) = n /\ nth_error P (n - 1) = Some (dP1 d) /\ dP2 d = dP1 d /\ dAt d = dP1 d /\
  dArc d = arcAll P /\ dPart d = 0%R.

Lemma onSegment_start k a b : nth_error P k = Some a -> nth_error P (S k) = Some b -> onSegment P k (arcTo P k) a.
Proof.
  intros Ha Hb. exists a, b, 0%R. split; [exact Ha|]. split; [exact Hb|]. split; [lra|]. split; [|lra].
  destruct a as [x y]. cbn [fst snd]. f_equal; lra.
Qed.

Lemma start_at : (2 <= n)%nat -> exists d, dpStart pts fwd = Ok d /\ atSeg d 0.
Proof.
  intro H. pose proof P_length as L.
  destruct (nth_error P 0) as [a|] eqn:Ha; [|apply nth_error_None in Ha; lia].
  destruct (nth_error P 1) as [b|] eqn:Hb; [|apply nth_error_None in Hb; lia].
  assert (E : piStart pts fwd = itAt 0) by (unfold piStart, itAt, n; destruct fwd; f_equal; lia).
  unfold dpStart. rewrite E, itAt_next, (itAt_deref 0 a Ha), (itAt_deref 1 b Hb). cbn [bind]. eexists. split; [reflexivity|].
  unfold atSeg, dpArcLength. cbn [dIter dSeg dP1 dP2 dArc dPart dAt]. split; [reflexivity|]. split; [reflexivity|]. split; [exact Ha|]. split; [exact Hb|].
  assert (Z : arcTo P 0 = 0%R) by (destruct P; reflexivity).
  split; [congruence|]. split; [lra|]. replace (0 + 0)%R with (arcTo P 0) by (rewrite Z; lra). eapply onSegment_start; eassumption.
Qed.

Lemma next_end d : atEndPos d -> nextInternal d = Ok (d, false) /\ toStart d = d.
Proof.
  intros [E1 [E2 [E3 [E4 [E5 [E6 E7]]]]]]. unfold nextInternal, dpAtEnd. rewrite E1, itAt_end by lia. rewrite Nat.eqb_refl.
  split; [reflexivity|]. destruct d. cbn in *. unfold toStart. cbn. congruence.
Qed.

(** the segment invariant without the position *)
Definition atSeg0 (d : dpos) (k : nat) : Prop :=
  dIter d = itAt (S k) /\ dSeg d = k /\ nth_error P k = Some (dP1 d) /\ nth_error P (S k) = Some (dP2 d) /\ dArc d = arcTo P k.
Lemma atSeg_0 d k : atSeg d k -> atSeg0 d k.
Proof. unfold atSeg, atSeg0. tauto. Qed.
Lemma atSeg0_start d k : atSeg0 d k -> atSeg (toStart d) k.
Proof.
  intros [E1 [E2 [E3 [E4 E5]]]]. unfold atSeg, toStart, dpArcLength. cbn [dIter dSeg dP1 dP2 dArc dPart dAt].
  split; [exact E1|]. split; [exact E2|]. split; [exact E3|]. split; [exact E4|]. split; [exact E5|]. split; [lra|].
  rewrite E5, Rplus_0_r. eapply onSegment_start; eassumption.
Qed.
Lemma next_at0 d k : atSeg0 d k ->
  ((S (S k) < n)%nat /\ exists d', nextInternal d = Ok (d', true) /\ atSeg0 d' (S k)) \/
  (S (S k) = n /\ exists d', nextInternal d = Ok (d', false) /\ atEndPos (toStart d')).
Proof.
  intros [E1 [E2 [E3 [E4 E5]]]]. pose proof P_length as L.
  assert (B : (S k < n)%nat) by (rewrite <- L; apply nth_error_Some; congruence).
  unfold nextInternal, dpAtEnd. rewrite E1, itAt_end by lia. rewrite (proj2 (Nat.eqb_neq (S k) n)) by lia.
  rewrite itAt_next, itAt_end by lia. rewrite mag_dist, E5, <- (arcTo_S P k _ _ E3 E4).
  destruct (Nat.eqb (S (S k)) n) eqn:E.
  - apply Nat.eqb_eq in E. right. split; [exact E|]. eexists. split; [reflexivity|]. unfold atEndPos, toStart. cbn [dIter dSeg dP1 dP2 dArc dPart dAt].
    rewrite E. split; [reflexivity|]. split; [lia|]. split; [replace (n - 1)%nat with (S k) by lia; exact E4|]. split; [reflexivity|]. split; [reflexivity|].
    split; [unfold arcAll; rewrite L; f_equal; lia|reflexivity].
  - apply Nat.eqb_neq in E. left. split; [lia|].
    destruct (nth_error P (S (S k))) as [c|] eqn:Hc; [|apply nth_error_None in Hc; lia].
    rewrite (itAt_deref _ _ Hc). cbn [bind]. eexists. split; [reflexivity|]. unfold atSeg0. cbn [dIter dSeg dP1 dP2 dArc].
    split; [reflexivity|]. split; [congruence|]. split; [exact E4|]. split; [exact Hc|]. reflexivity.
Qed.

(** what gotoArcLength finds, going forward *)
Lemma forth_at s : forall fuel d k, atSeg0 d k -> (arcTo P k <= s)%R -> (n - k <= fuel)%nat ->
  exists d' b, forthLoop fuel d s = Ok (d', b) /\
    ((b = true /\ (s < arcAll P)%R /\ exists j, (k <= j)%nat /\ (s < arcTo P (S j))%R /\ atSeg d' j /\ dpArcLength d' = s) \/
     (b = false /\ (arcAll P <= s)%R /\ atEndPos d')).
Proof.
  pose proof P_length as L.
  induction fuel as [|fuel IH]; intros d k H0 Hs Hf.
  - destruct H0 as [_ [_ [_ [E4 _]]]]. assert (B : (S k < length P)%nat) by (apply nth_error_Some; congruence). lia.
  - cbn [forthLoop]. pose proof H0 as [E1 [E2 [E3 [E4 E5]]]].
    assert (B : (S k < n)%nat) by (rewrite <- L; apply nth_error_Some; congruence).
    set (D := dist (dP1 d) (dP2 d)) in *.
    assert (SQ : sqMag (vsub (dP2 d) (dP1 d)) = (D * D)%R) by (rewrite <- mag_sq, mag_dist; reflexivity).
    assert (D0 : (0 <= D)%R) by apply dist_nonneg.
    assert (AS : arcTo P (S k) = (arcTo P k + D)%R) by (exact (arcTo_S P k _ _ E3 E4)).
    rewrite SQ, E5. destruct (Rlt_dec ((s - arcTo P k) * (s - arcTo P k)) (D * D)) as [Hlt|Hge].
    + assert (R : (s - arcTo P k < D)%R).
      { destruct (Rlt_le_dec (s - arcTo P k) D) as [G|G]; [exact G|]. exfalso.
        pose proof (Rmult_le_compat D (s - arcTo P k) D (s - arcTo P k) D0 D0 G G). lra. }
      eexists; exists true. split; [reflexivity|]. left. split; [reflexivity|].
      assert (M : (arcTo P (S k) <= arcAll P)%R) by (unfold arcAll; apply arcTo_mono; lia).
      split; [lra|]. exists k. split; [lia|]. split; [lra|]. split; [|unfold dpArcLength; cbn [dArc dPart]; lra].
      unfold atSeg, dpArcLength. cbn [dIter dSeg dP1 dP2 dArc dPart dAt].
      split; [exact E1|]. split; [exact E2|]. split; [exact E3|]. split; [exact E4|]. split; [reflexivity|]. split; [lra|].
      exists (dP1 d), (dP2 d), ((s - arcTo P k) / D)%R. split; [exact E3|]. split; [exact E4|].
      assert (DP : (0 < D)%R) by lra.
      assert (I : (0 <= (s - arcTo P k) / D <= 1)%R).
      { assert (NI : (0 < / D)%R) by (apply Rinv_0_lt_compat; exact DP). unfold Rdiv. split.
        - apply Rmult_le_pos; lra.
        - replace 1%R with (D * / D)%R by (apply Rinv_r; lra). apply Rmult_le_compat_r; lra. }
      split; [exact I|]. split.
      * rewrite mag_dist. fold D. unfold vadd, vscale, vsub, Rdiv. cbn [fst snd]. f_equal; ring.
      * fold D. field. lra.
    + assert (R : (D <= s - arcTo P k)%R).
      { destruct (Rlt_le_dec (s - arcTo P k) D) as [G|G]; [|exact G]. exfalso. apply Hge.
        apply Rmult_le_0_lt_compat; lra. }
      destruct (next_at0 d k H0) as [[HB [d' [En A']]]|[HB [d' [En A']]]]; rewrite En; cbn [bind fst snd].
      * destruct (IH d' (S k) A' ltac:(lra) ltac:(lia)) as [d2 [b [Ef Hx]]]. exists d2, b. split; [exact Ef|].
        destruct Hx as [[-> [X [j [J Y]]]]|Hx]; [|right; exact Hx]. left. split; [reflexivity|]. split; [exact X|]. exists j. split; [lia|exact Y].
      * exists (toStart d'), false. split; [reflexivity|]. right. split; [reflexivity|]. split; [|exact A'].
        unfold arcAll. rewrite L. replace (n - 1)%nat with (S k) by lia. lra.
Qed.
Lemma goto_at s d k : atSeg d k -> (dArc d <= s)%R ->
  exists d' b, gotoArcLength d s = Ok (d', b) /\
    ((b = true /\ (s < arcAll P)%R /\ exists j, (k <= j)%nat /\ (s < arcTo P (S j))%R /\ atSeg d' j /\ dpArcLength d' = s) \/
     (b = false /\ (arcAll P <= s)%R /\ atEndPos d')).
Proof.
  intros H Hs. pose proof (atSeg_0 _ _ H) as H0. unfold gotoArcLength. cbn zeta.
  cbn [backLoop]. destruct (Rlt_dec s (dArc d)) as [C|_]; [lra|]. cbn [bind snd fst].
  apply forth_at with (k := k); [exact H0| |].
  - destruct H0 as [_ [_ [_ [_ E5]]]]. lra.
  - destruct H0 as [E1 _]. rewrite E1, itAt_pts. unfold n. lia.
Qed.
Lemma goto_end s d : atEndPos d -> (dArc d <= s)%R -> gotoArcLength d s = Ok (d, false).
Proof.
  intros H Hs. destruct (next_end d H) as [N T]. destruct H as [E1 [E2 [E3 [E4 [E5 [E6 E7]]]]]].
  unfold gotoArcLength. cbn zeta. cbn [backLoop]. destruct (Rlt_dec s (dArc d)) as [C|_]; [lra|]. cbn [bind snd fst].
  cbn [forthLoop]. destruct (Rlt_dec ((s - dArc d) * (s - dArc d)) (sqMag (vsub (dP2 d) (dP1 d)))) as [C|_].
  - exfalso. rewrite E4 in C. unfold sqMag, vsub in C. cbn [fst snd] in C.
    pose proof (Rle_0_sqr (s - dArc d)) as Q. unfold Rsqr in Q.
    replace ((fst (dP1 d) - fst (dP1 d)) * (fst (dP1 d) - fst (dP1 d)) + (snd (dP1 d) - snd (dP1 d)) * (snd (dP1 d) - snd (dP1 d)))%R with 0%R in C by ring. lra.
  - rewrite N. cbn [bind snd fst]. rewrite T. reflexivity.
Qed.

Theorem forward_inv d : (2 <= n)%nat -> forward pts fwd d -> (exists k, atSeg d k) \/ atEndPos d.
Proof.
  intros N H. induction H as [d H|d d' b H IH E|d d' b s H IH Hs E].
  - destruct (start_at N) as [d0 [E A]]. left. exists 0%nat. congruence.
  - unfold gotoNextSegment in E. destruct IH as [[k A]|A].
    + destruct (next_at0 d k (atSeg_0 _ _ A)) as [[_ [d2 [En A']]]|[_ [d2 [En A']]]]; rewrite En in E; cbn [bind fst snd] in E; injection E as <- <-.
      * left. exists (S k). apply atSeg0_start. exact A'.
      * right. exact A'.
    + destruct (next_end d A) as [En T]. rewrite En in E. cbn [bind fst snd] in E. injection E as <- <-. rewrite T. right. exact A.
  - destruct IH as [[k A]|A].
    + assert (Hs' : (dArc d <= s)%R) by (destruct A as [_ [_ [_ [_ [_ [A _]]]]]]; unfold dpArcLength in Hs; lra).
      destruct (goto_at s d k A Hs') as [d2 [b2 [E2 K]]]. rewrite E in E2. injection E2 as <- <-.
      destruct K as [[_ [_ [j [_ [_ [K _]]]]]]|[_ [_ K]]]; [left; exists j; exact K|right; exact K].
    + assert (Hs' : (dArc d <= s)%R) by (destruct A as [_ [_ [_ [_ [_ [_ A]]]]]]; unfold dpArcLength in Hs; lra).
      rewrite (goto_end s d A Hs') in E. injection E as <- <-. right. exact A.
Qed.

Theorem forward_reports d : (2 <= n)%nat -> forward pts fwd d ->
  if dpAtEnd d then nth_error P (n - 1) = Some (dAt d) /\ dpArcLength d = arcAll P
  else nth_error P (dSeg d) = Some (dP1 d) /\ nth_error P (S (dSeg d)) = Some (dP2 d) /\ onSegment P (dSeg d) (dpArcLength d) (dAt d).
Proof.
  intros N H. destruct (forward_inv d N H) as [[k A]|A]; unfold dpAtEnd.
  - destruct A as [E1 [E2 [E3 [E4 [E5 [E6 E7]]]]]].
    assert (B : (S k < n)%nat) by (rewrite <- P_length; apply nth_error_Some; congruence).
    rewrite E1, itAt_end by lia. rewrite (proj2 (Nat.eqb_neq (S k) n)) by lia. rewrite E2. auto.
  - destruct A as [E1 [E2 [E3 [E4 [E5 [E6 E7]]]]]]. rewrite E1, itAt_end by lia. rewrite Nat.eqb_refl.
    split; [congruence|]. unfold dpArcLength. rewrite E6, E7. lra.
Qed.
Theorem forward_goto d s : (2 <= n)%nat -> forward pts fwd d -> (dpArcLength d <= s)%R ->
  exists d' b, gotoArcLength d s = Ok (d', b) /\ (b = true <-> (s < arcAll P)%R) /\
    (b = true -> dpArcLength d' = s /\ dpAtEnd d' = false) /\ (b = false -> dpAtEnd d' = true).
Proof.
  intros N H Hs. destruct (forward_inv d N H) as [[k A]|A].
  - assert (Hs' : (dArc d <= s)%R) by (destruct A as [_ [_ [_ [_ [_ [A _]]]]]]; unfold dpArcLength in Hs; lra).
    destruct (goto_at s d k A Hs') as [d2 [b2 [E2 K]]]. exists d2, b2. split; [exact E2|].
    destruct K as [[-> [K1 [j [_ [_ [K2 K3]]]]]]|[-> [K1 K2]]].
    + split; [tauto|]. split; [|discriminate]. intros _. split; [exact K3|]. unfold dpAtEnd.
      destruct K2 as [E1 [_ [_ [E4 _]]]]. assert (B : (S j < n)%nat) by (rewrite <- P_length; apply nth_error_Some; congruence).
      rewrite E1, itAt_end by lia. apply Nat.eqb_neq. lia.
    + split; [split; [discriminate|lra]|]. split; [discriminate|]. intros _. unfold dpAtEnd. destruct K2 as [E1 _]. rewrite E1, itAt_end by lia. apply Nat.eqb_refl.
  - pose proof A as [E1 [_ [_ [_ [_ [E6 E7]]]]]].
    assert (Hs' : (dArc d <= s)%R) by (unfold dpArcLength in Hs; lra).
    exists d, false. split; [exact (goto_end s d A Hs')|]. split; [split; [discriminate|]|].
    + unfold dpArcLength in Hs. lra.
    + split; [discriminate|]. intros _. unfold dpAtEnd. rewrite E1, itAt_end by lia. apply Nat.eqb_refl.
Qed.
Theorem forward_next d : (2 <= n)%nat -> forward pts fwd d ->
  exists d' b, gotoNextSegment d = Ok (d', b) /\ (b = true <-> (dpAtEnd d = false /\ S (S (dSeg d)) < n)%nat) /\
    (b = true -> dSeg d' = S (dSeg d) /\ dAt d' = dP2 d /\ dpArcLength d' = arcTo P (dSeg d')).
Proof.
  intros N H. unfold gotoNextSegment. destruct (forward_inv d N H) as [[k A]|A].
  - assert (AE : dpAtEnd d = false).
    { pose proof A as [E1 [_ [_ [E4 _]]]]. unfold dpAtEnd. assert (B : (S k < n)%nat) by (rewrite <- P_length; apply nth_error_Some; congruence).
      rewrite E1, itAt_end by lia. apply Nat.eqb_neq. lia. }
    assert (Ed : dSeg d = k) by (destruct A as [_ [A _]]; exact A). assert (EP : nth_error P (S k) = Some (dP2 d)) by (destruct A as [_ [_ [_ [A _]]]]; exact A).
    rewrite AE, Ed. destruct (next_at0 d k (atSeg_0 _ _ A)) as [[B [d2 [En A']]]|[B [d2 [En A']]]]; rewrite En; cbn [bind fst snd]; eexists; eexists; (split; [reflexivity|]).
    + split; [tauto|]. intros _. destruct A' as [_ [E2 [E3 [_ E5]]]]. unfold toStart, dpArcLength. cbn [dSeg dAt dArc dPart]. split; [exact E2|].
      split; [congruence|]. rewrite E5, E2. lra.
    + split; [|discriminate]. split; [discriminate|]. intros [_ C]. lia.
  - destruct (next_end d A) as [En T]. rewrite En. cbn [bind fst snd]. eexists; eexists. split; [reflexivity|].
    split; [|discriminate]. split; [discriminate|]. intros [C _]. destruct A as [E1 _]. unfold dpAtEnd in C. rewrite E1, itAt_end, Nat.eqb_refl in C by lia. discriminate.
Qed.

(** one step forward and one back: the segment collapses to its end point and the arc length stays *)
Theorem next_prev : (3 <= n)%nat -> forall a b, nth_error P 0 = Some a -> nth_error P 1 = Some b ->
  exists d0 d1 d2, dpStart pts fwd = Ok d0 /\ gotoNextSegment d0 = Ok (d1, true) /\ gotoPrevSegment d1 = Ok (d2, true) /\
    dSeg d2 = 0%nat /\ dP1 d2 = b /\ dP2 d2 = b /\ dAt d2 = b /\ dpArcLength d2 = dist a b.
Proof.
  intros N a b Ha Hb. destruct (start_at ltac:(lia)) as [d0 [E0 A0]].
  destruct (next_at0 d0 0 (atSeg_0 _ _ A0)) as [[_ [d1 [E1 A1]]]|[B _]]; [|lia].
  assert (EN : gotoNextSegment d0 = Ok (toStart d1, true)) by (unfold gotoNextSegment; rewrite E1; reflexivity).
  pose proof A1 as [F1 [F2 [F3 [F4 F5]]]].
  assert (Eb : dP1 d1 = b) by congruence.
  exists d0, (toStart d1). eexists. split; [exact E0|]. split; [exact EN|]. split.
  - unfold gotoPrevSegment, prevInternal. unfold toStart at 1 2 3 4 5 6. cbn [dSeg dIter dP1 dP2 dArc dPart dAt].
    rewrite F2, F1, itAt_back, (itAt_deref 1 b Hb). cbn [bind fst snd]. reflexivity.
  - unfold toStart, dpArcLength. cbn [dSeg dP1 dP2 dAt dArc dPart]. rewrite Eb. split; [reflexivity|]. split; [reflexivity|]. split; [reflexivity|]. split; [reflexivity|].
    rewrite F5, (arcTo_S P 0 a b Ha Hb). assert (Z : arcTo P 0 = 0%R) by (destruct P; reflexivity).
    rewrite Z, mag_dist. assert (S0 : dist b b = 0%R) by (unfold dist; transitivity (sqrt 0); [f_equal; ring|apply sqrt_0]). rewrite S0. lra.
Qed.
End Dart.
