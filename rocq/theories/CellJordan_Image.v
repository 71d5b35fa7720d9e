(** C77: maps made from images, and an image that is not whole. *)
From Coq Require Import Lia.
From Verif Require Import Base CellMap_Model CellMap_Spec CellMap_Scan CellMap_Init CellMap_InitProofs CellMap_Check CellMap_Main CellMap_Examples CellSigma_Spec CellSigma_Proofs CellSigma_Examples CellLink_Spec CellLink_Check CellFace_Spec CellStart_Spec CellStart_Results CellStart_Examples
  CellContour_Spec CellThresh_Model CellThresh_Spec CellThresh_Comps CellThresh_Types CellThresh_Draw CellThresh_Results CellThresh_Examples CellTotal_Init CellTotal_Results CellJordan_Spec CellJordan_Results CellTotal_Spec.
Local Open Scope Z_scope.

(** ** The helper as it should be *)
Lemma parts_exact im : exactParts contourParts im.
Proof.
  split; [apply parts_right|]. unfold contourParts. cbv zeta. cbn [fst]. set (fg := fun x y => negb (ctypeEqb (ptype (ipix im x y)) Region)). change (fun x y : Z => negb (ctypeEqb (ptype (ipix im x y)) Region)) with fg.
  destruct (labelComponents true (Rect 0 0 (iw im) (ih im)) fg) as [lab n] eqn:E. destruct (components_spec _ _ _ _ _ E) as (A & B & C & D). cbn [fst snd].
  assert (F : forall x y, contour im x y <-> inRect (Rect 0 0 (iw im) (ih im)) x y /\ fg x y = true).
  { intros x y. unfold contour, inRect, fg. cbn. rewrite Bool.negb_true_iff, CellSigma_Proofs.ctypeEqb_ne. tauto. }
  intros x y u v P Q. apply F in P. apply F in Q. change (negb (ctypeEqb (ptype (ipix im x y)) Region)) with (fg x y). change (negb (ctypeEqb (ptype (ipix im u v)) Region)) with (fg u v). rewrite (proj2 P), (proj2 Q).
  intros H. apply (C _ _ _ _ P Q) in H. revert H. apply CellThresh_Loops.reach_mono. intros a b. apply F.
Qed.

(** ** The border *)
Section Ring.
Variable im : img.
Hypothesis Wf : wfImg im.
Hypothesis Fr : framed im.
Let R := reach ways4 (regionAt im).
Definition onRing (x y : Z) : Prop := 0 <= x < iw im /\ 0 <= y < ih im /\ (x = 0 \/ x = iw im - 1 \/ y = 0 \/ y = ih im - 1).
Lemma ring_region x y : onRing x y -> regionAt im x y.
Proof. intros (X & Y & B). split; [exact X|]. split; [exact Y|]. rewrite Fr by assumption. reflexivity. Qed.
Lemma trans4 x y u v a b : R x y u v -> R u v a b -> R x y a b.
Proof. intros A B. induction B; [exact A|]. apply re_step; auto. Qed.
Lemma run_right x y n : (forall i, 0 <= i <= Z.of_nat n -> onRing (x + i) y) -> R x y (x + Z.of_nat n) y /\ R (x + Z.of_nat n) y x y.
Proof.
  induction n as [|n IH]; intros H.
  - replace (x + Z.of_nat 0) with x by lia. assert (regionAt im x y) by (apply ring_region; replace x with (x + 0) by lia; apply H; lia). split; apply re_here; assumption.
  - destruct IH as [A B]; [intros i I; apply H; lia|]. pose proof (ring_region _ _ (H (Z.of_nat (Datatypes.S n)) ltac:(lia))) as E1. pose proof (ring_region _ _ (H (Z.of_nat n) ltac:(lia))) as E0. split.
    + pose proof (re_step ways4 (regionAt im) x y _ _ 0 A) as Q. cbn [dirX dirY] in Q. replace (x + Z.of_nat n + 1) with (x + Z.of_nat (Datatypes.S n)) in Q by lia. rewrite Z.add_0_r in Q. apply Q; [cbn; auto|exact E1].
    + assert (S : R (x + Z.of_nat (Datatypes.S n)) y (x + Z.of_nat n) y).
      { pose proof (re_step ways4 (regionAt im) _ _ _ _ 4 (re_here ways4 _ _ _ E1)) as Q. cbn [dirX dirY] in Q. replace (x + Z.of_nat (Datatypes.S n) + -1) with (x + Z.of_nat n) in Q by lia. rewrite Z.add_0_r in Q. apply Q; [cbn; auto|exact E0]. }
      exact (trans4 _ _ _ _ _ _ S B).
Qed.
Lemma run_down x y n : (forall i, 0 <= i <= Z.of_nat n -> onRing x (y + i)) -> R x y x (y + Z.of_nat n) /\ R x (y + Z.of_nat n) x y.
Proof.
  induction n as [|n IH]; intros H.
  - replace (y + Z.of_nat 0) with y by lia. assert (regionAt im x y) by (apply ring_region; replace y with (y + 0) by lia; apply H; lia). split; apply re_here; assumption.
  - destruct IH as [A B]; [intros i I; apply H; lia|]. pose proof (ring_region _ _ (H (Z.of_nat (Datatypes.S n)) ltac:(lia))) as E1. pose proof (ring_region _ _ (H (Z.of_nat n) ltac:(lia))) as E0. split.
    + pose proof (re_step ways4 (regionAt im) x y _ _ 6 A) as Q. cbn [dirX dirY] in Q. replace (y + Z.of_nat n + 1) with (y + Z.of_nat (Datatypes.S n)) in Q by lia. rewrite Z.add_0_r in Q. apply Q; [cbn; auto 6|exact E1].
    + assert (S : R x (y + Z.of_nat (Datatypes.S n)) x (y + Z.of_nat n)).
      { pose proof (re_step ways4 (regionAt im) _ _ _ _ 2 (re_here ways4 _ _ _ E1)) as Q. cbn [dirX dirY] in Q. replace (y + Z.of_nat (Datatypes.S n) + -1) with (y + Z.of_nat n) in Q by lia. rewrite Z.add_0_r in Q. apply Q; [cbn; auto|exact E0]. }
      exact (trans4 _ _ _ _ _ _ S B).
Qed.
Lemma ring_origin x y : onRing x y -> R 0 0 x y /\ R x y 0 0.
Proof.
  intros (X & Y & B).
  assert (Top : forall x, 0 <= x < iw im -> R 0 0 x 0 /\ R x 0 0 0).
  { intros u U. destruct (run_right 0 0 (Z.to_nat u)) as [P Q]; [intros i I; unfold onRing; lia|]. replace (0 + Z.of_nat (Z.to_nat u)) with u in * by lia. auto. }
  assert (Left : forall y, 0 <= y < ih im -> R 0 0 0 y /\ R 0 y 0 0).
  { intros u U. destruct (run_down 0 0 (Z.to_nat u)) as [P Q]; [intros i I; unfold onRing; lia|]. replace (0 + Z.of_nat (Z.to_nat u)) with u in * by lia. auto. }
  destruct B as [->|[->|[->| ->]]]; [apply Left, Y| |apply Top, X|].
  - destruct (Top (iw im - 1) ltac:(lia)) as [P Q]. destruct (run_down (iw im - 1) 0 (Z.to_nat y)) as [P' Q']; [intros i I; unfold onRing; lia|]. replace (0 + Z.of_nat (Z.to_nat y)) with y in * by lia. split; eapply trans4; eassumption.
  - destruct (Left (ih im - 1) ltac:(lia)) as [P Q]. destruct (run_right 0 (ih im - 1) (Z.to_nat x)) as [P' Q']; [intros i I; unfold onRing; lia|]. replace (0 + Z.of_nat (Z.to_nat x)) with x in * by lia. split; eapply trans4; eassumption.
Qed.
Lemma ring_joined x y u v : onRing x y -> onRing u v -> R x y u v.
Proof. intros A B. eapply trans4; [apply ring_origin, A|apply ring_origin, B]. Qed.
End Ring.

Section Drawing.
Variables (crack : img -> Z -> Z -> Z) (outer : img -> Z -> Z -> list Z) (comps : img -> (Z -> Z -> Z) * nat).
Variables (cv : bool) (w h : Z) (boundary : Z -> Z -> bool) (im0 : img).
Hypothesis Sm : small w h.
Hypothesis Ei : initCellImage cv w h boundary = Ok im0.
Hypothesis Ne : neat im0.
Hypothesis Un : unpierced im0.
Hypothesis Le : lean im0.
Theorem image_whole im n e f : cellImageOf cv w h boundary = Ok (im, n, e, f) -> whole im.
Proof.
  intros Q. destruct (image_clean cv w h boundary im0 Sm Ei Ne Un Le) as (im' & n' & e' & f' & Q' & Wf & Fr & C & _). rewrite Q in Q'. injection Q' as <- <- <- <-.
  destruct (image_labels cv w h boundary im0 Sm Ei Ne Un Le im n e f Q) as (_ & _ & _ & _ & L & _). intros l x y u v O1 O2.
  assert (Cs : forall x y, owns im Region l x y -> (openAt im x y /\ 1 <= l) \/ (onRing im x y /\ l = 0)).
  { intros a b (A & B & T). destruct (Z.eq_dec a 0) as [Z1|]; [|destruct (Z.eq_dec a (iw im - 1)) as [Z1|]; [|destruct (Z.eq_dec b 0) as [Z1|]; [|destruct (Z.eq_dec b (ih im - 1)) as [Z1|]]]];
      try (right; split; [split; [exact A|]; split; [exact B|]; tauto|]; rewrite (Fr a b A B) in T by tauto; congruence).
    left. assert (openAt im a b) by (split; [lia|]; split; [lia|]; rewrite T; reflexivity). split; [assumption|]. specialize (L a b H). rewrite T in L. cbn in L. lia. }
  destruct (Cs x y O1) as [(P1 & L1)|(P1 & L1)], (Cs u v O2) as [(P2 & L2)|(P2 & L2)]; try lia.
  - apply CellThresh_Loops.reach_mono with (P := openAt im); [intros a b (A & B & T); split; [lia|]; split; [lia|exact T]|]. apply (image_faces cv w h boundary im0 Sm Ei Ne Un Le im n e f Q x y u v P1 P2).
    destruct O1 as (_ & _ & ->), O2 as (_ & _ & ->). reflexivity.
  - apply ring_joined; assumption.
Qed.
Theorem threshold_contoured m : (forall im n e f, cellImageOf cv w h boundary = Ok (im, n, e, f) -> rightAreas crack im /\ exactParts comps im) ->
  threshold crack outer comps cv w h boundary = Ok m -> contoured m.
Proof.
  intros Or T. destruct (image_clean cv w h boundary im0 Sm Ei Ne Un Le) as (im & n & e & f & Q & Wf & Fr & C & M1 & M2 & M3). destruct (Or _ _ _ _ Q) as [Ra Rp].
  destruct (image_size cv w h boundary im0 Sm Ei Ne Un Le im n e f Q) as [W H].
  apply (import_contoured crack outer comps im Wf Fr C Ra Rp (image_ruled cv w h boundary im0 Sm Ei Ne Un Le im n e f Q W H) (image_whole im n e f Q)).
  unfold threshold in T. rewrite Q in T. cbn [bind fst snd] in T. rewrite <- M1, <- M2, <- M3 in T. exact T.
Qed.
End Drawing.
