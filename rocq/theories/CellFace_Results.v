(** C68, C69. *)
From Coq Require Import Lia.
From Verif Require Import Base CellMap_Model CellMap_Spec CellMap_Main CellMap_Check CellSigma_Spec CellSigma_Proofs CellSigma_Results CellLink_Spec CellLink_Proofs CellLink_Main CellLink_Results CellLink_Check CellFace_Spec CellFace_Walk CellFace_Main CellFace_Step.
Local Open Scope Z_scope.

Lemma fhistory_dhistory m : fhistory m -> dhistory m.
Proof.
  induction 1 as [m H|m c m' s H IH A E]; [apply dh_start, H|]. apply (dh_call m c m' s); auto. apply faced_allows; auto. apply fhistory_faced, H.
Qed.
Theorem faces_beside m d : fhistory m -> isDart (cim m) d ->
  exists l r c c', leftFaceLabel (cim m) d = Ok l /\ rightFaceLabel (cim m) d = Ok r /\ 0 <= l /\ 0 <= r /\ isCell m Region (Z.to_nat l) c /\ isCell m Region (Z.to_nat r) c'.
Proof.
  intros H D. apply fhistory_faced in H. pose proof H as (Wi & _ & Ai & _). assert (So : sound m) by apply Wi. assert (Fr : framed (cim m)) by apply So.
  assert (W1 : way 1) by (left; reflexivity). assert (W2 : way (-1)) by (right; reflexivity).
  destruct (side_live m 1 d H W1 D) as (c & C). destruct (side_live m (-1) d H W2 D) as (c' & C').
  assert (P : forall n, way n -> 0 <= sideOf (cim m) n d).
  { intros n W. destruct (side_region (cim m) Fr Ai n d W D) as (x & y & X & Y & O). destruct So as (((_ & _ & _ & B) & _) & _). specialize (B _ _ X Y). rewrite O in B. cbn in B. lia. }
  exists (sideOf (cim m) 1 d), (sideOf (cim m) (-1) d), c, c'. rewrite leftFace_is, rightFace_is by (auto; apply D). auto 10.
Qed.
Theorem face_sigma m d : fhistory m -> isDart (cim m) d -> exists d', nextSigma (cim m) d = Ok d' /\ isDart (cim m) d' /\ rightFaceLabel (cim m) d' = leftFaceLabel (cim m) d.
Proof.
  intros H D. apply fhistory_faced in H. destruct H as (Wi & Pl & Ai & Fi & _). assert (Fr : framed (cim m)) by apply Wi. assert (Ne : neat (cim m)) by apply Wi.
  assert (W1 : way 1) by (left; reflexivity). destruct (sigma_defined (cim m) Fr Ne 1 d W1 D) as (d' & U & N & _). exists d'. split; [exact U|]. split; [apply N|].
  rewrite leftFace_is, rightFace_is by (auto; apply D || apply N). f_equal. apply (side_next (cim m) Fr Ne Pl Ai Fi 1 d d'); auto.
Qed.
Theorem face_alpha m d : fhistory m -> isDart (cim m) d -> exists d', nextAlpha m d = Ok d' /\ isDart (cim m) d' /\ leftFaceLabel (cim m) d' = rightFaceLabel (cim m) d /\ rightFaceLabel (cim m) d' = leftFaceLabel (cim m) d.
Proof.
  intros H D. destruct (alpha_opposite m d (fhistory_dhistory m H) D) as (d' & A & D' & _). apply fhistory_faced in H. destruct (faced_edge m d d' H D A) as ((F1 & F2) & _).
  assert (Fr : framed (cim m)) by apply H. exists d'. split; auto. split; auto. rewrite !leftFace_is, !rightFace_is by (auto; apply D || apply D'). rewrite F1, F2. auto.
Qed.
Theorem face_phi m k : forall d, fhistory m -> isDart (cim m) d -> exists d', phis m k d = Ok d' /\ isDart (cim m) d' /\ leftFaceLabel (cim m) d' = leftFaceLabel (cim m) d.
Proof.
  induction k; intros d H D; cbn [phis]; [exists d; auto|]. destruct (phi_around m d (fhistory_dhistory m H) D) as (d1 & b & P & D1 & S1 & A1). rewrite P. cbn [bind].
  destruct (IHk d1 H D1) as (d' & P' & D' & L'). exists d'. split; auto. split; auto. rewrite L'.
  destruct (face_sigma m d1 H D1) as (b' & S1' & Db & R1). assert (b' = b) by congruence. subst b'. destruct (face_alpha m b H Db) as (d0 & A0 & _ & L0 & _). assert (d0 = d) by congruence. subst d0. congruence.
Qed.
Theorem regions_whole m x y k l : fhistory m -> In k [0; 2; 4; 6] -> owns (cim m) Region l x y -> 0 <= x + dirX k < iw (cim m) -> 0 <= y + dirY k < ih (cim m) ->
  ptype (ipix (cim m) (x + dirX k) (y + dirY k)) = Region -> owns (cim m) Region l (x + dirX k) (y + dirY k).
Proof.
  intros H K O X Y T. apply fhistory_faced in H. destruct H as (_ & _ & _ & Fi & _). split; auto. split; auto. apply pix_eta; auto. symmetry. apply (Fi x y k l K O X Y T).
Qed.
Theorem border_faces m d e x y k f : fhistory m -> isDart (cim m) d -> edgeLabel (cim m) d = Ok e -> owns (cim m) Line e x y -> In k [0; 2; 4; 6] -> owns (cim m) Region f (x + dirX k) (y + dirY k) ->
  leftFaceLabel (cim m) d = Ok f \/ rightFaceLabel (cim m) d = Ok f.
Proof.
  intros H D E O K (X & Y & P). destruct (alpha_opposite m d (fhistory_dhistory m H) D) as (d' & A & _). apply fhistory_faced in H. destruct (faced_edge m d d' H D A) as (_ & B).
  assert (Fr : framed (cim m)) by apply H. rewrite edgeLabel_dart in E by (auto; apply D). injection E as E. rewrite E in B. rewrite leftFace_is, rightFace_is by (auto; apply D).
  assert (T : ptype (ipix (cim m) (x + dirX k) (y + dirY k)) = Region) by (rewrite P; reflexivity). pose proof (B x y k K O X Y T) as Q. rewrite P in Q. cbn [plabel] in Q. destruct Q as [-> | ->]; auto.
Qed.
Theorem calls_fine m c m' s : fhistory m -> faceAllowed (cim m) c -> cexec m c = Ok (m', s) -> callEffect m m' c s /\ recount m'.
Proof.
  intros H A E. apply fhistory_faced in H. pose proof (faced_allows m c H A) as (Al & _). assert (So : sound m) by apply H.
  destruct (cexec_sound m c m' s So Al E) as (S' & Ef). split; auto. apply S'.
Qed.
