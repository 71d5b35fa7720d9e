(** C76: the anchors the constructor of the pixel based map looks for. *)
From Coq Require Import Lia.
From Verif Require Import Base CellMap_Model CellMap_Spec CellMap_Init CellMap_Main CellMap_InitProofs CellSigma_Spec CellSigma_Proofs CellSigma_Results CellLink_Spec CellLink_Proofs CellLink_Main CellLink_Check
  CellFace_Spec CellFace_Walk CellStart_Spec CellStart_Walk CellStart_Ends CellStart_Init CellContour_Spec CellCall_Base CellCall_Careful.
Local Open Scope Z_scope.

Section Anchor.
Variable im : img.
Hypothesis Wf : wfImg im.
Hypothesis Fr : framed im.
Hypothesis Cl : clean im.
Let Ne : neat im. Proof. apply Cl. Qed.
Let Jo : joined im. Proof. apply Cl. Qed.
Let Ri : ringed im. Proof. apply Cl. Qed.
Let Pl : plain im. Proof. apply Cl. Qed.
Let Ai : airy im. Proof. apply Cl. Qed.
Let Fi : filled im. Proof. apply Cl. Qed.
Let Sl : slim im. Proof. apply Cl. Qed.
Let Sm : smooth im. Proof. apply Cl. Qed.
Let Dr : drawn im. Proof. apply Cl. Qed.
Let Li : light im. Proof. apply Cl. Qed.
Let W1 : way 1. Proof. left. reflexivity. Qed.

(** from a place of a node with darts: the first dart counter-clockwise *)
Lemma careful_first d e : isPlace im d -> typeAt im d 0 <> Line -> dartOfNode im (nodeOf im d) e -> exists a, carefulNextSigma im d = Ok a /\ nextDart im 1 d a.
Proof.
  intros P L (De & Ee). destruct (Ri d e P (dart_place im e De) (eq_sym Ee)) as (k & K).
  assert (K0 : (0 < k)%nat) by (destruct k; [cbn in K; subst e; exfalso; apply L, De|lia]).
  destruct (least (fun j => isDart im (places j im 1 d)) (fun j => isDart_dec im _) k K0) as (i & Hi & Di & Lj); [rewrite K; exact De|].
  assert (St : stops im 1 d (places i im 1 d)).
  { apply stops_on; auto. rewrite round_plain by apply P. apply stops_next; auto. lia. }
  destruct (stops_rounds im 1 _ _ St) as (k0 & R0 & L0 & N0).
  assert (k0 <> O) by (intros ->; cbn in R0; subst; rewrite <- R0 in L0; contradiction).
  destruct (careful_ends im Fr d P L) as (a & A); [exists k0; split; [lia|right; rewrite R0; exact L0]|].
  exists a. split; [exact A|]. unfold carefulNextSigma in A. pose proof (place_state im d P) as S. destruct (careful_rounds im Fr _ _ _ _ S S A) as (k1 & R1 & N1 & Q1).
  assert (a = places i im 1 d) as ->.
  { destruct Q1 as [Q1|(-> & Kp)].
    - destruct (Nat.lt_trichotomy k0 k1) as [X|[X|X]].
      + exfalso. apply (N1 k0 X). rewrite R0. exact L0.
      + subst k1. congruence.
      + exfalso. apply (N0 k1 X). rewrite R1. exact Q1.
    - exfalso. destruct (Nat.lt_ge_cases k0 k1) as [X|X]; [apply (N1 k0 X); rewrite R0; exact L0|].
      apply (N0 (k0 - k1)%nat); [lia|]. rewrite <- L0, <- R0. replace k0 with (k1 + (k0 - k1))%nat at 2 by lia. rewrite rounds_add, R1. reflexivity. }
  split; [exact Di|]. exists i. split; [lia|]. split; [reflexivity|exact Lj].
Qed.
(** the constructor of the traverser does not turn such places before *)
Lemma make_eq d : isPlace im d -> typeAt im d 0 <> Line -> makeDart im d = carefulNextSigma im d.
Proof.
  intros (V & D & T & C) L. unfold makeDart. assert (centerPix im d = Ok (ipix im (dcx d) (dcy d))) as ->.
  { pose proof (vertex_inner im Fr _ _ V). unfold centerPix, readPix, insideImg. destruct (Z.leb_spec 0 (dcx d)), (Z.leb_spec 0 (dcy d)), (Z.ltb_spec (dcx d) (iw im)), (Z.ltb_spec (dcy d) (ih im)); try lia. reflexivity. }
  cbn [bind]. rewrite (proj2 (proj2 V)). cbn [ctypeEqb negb]. rewrite neighbor_read by auto. cbn [bind]. fold (typeAt im d 0).
  pose proof T as T'. apply CellSigma_Proofs.ctypeEqb_ne in T'. pose proof L as L'. apply CellSigma_Proofs.ctypeEqb_ne in L'. rewrite T'.
  unfold walkFuel. cbn [diagonalLoop]. unfold badDiagonalConfig. rewrite neighbor_read by auto. cbn [bind]. fold (typeAt im d 0). rewrite L'.
  destruct (isDiagonal d); cbn [bind]; rewrite neighbor_read by auto; cbn [bind]; fold (typeAt im d 0); rewrite L'; reflexivity.
Qed.
(** the anchor of a node *)
Lemma hub_total d : isPlace im d -> noticed im d -> exists a, makeDart im d = Ok a.
Proof.
  intros P N. destruct (ctypeEqb (typeAt im d 0) Line) eqn:E.
  - apply CellSigma_Proofs.ctypeEqb_eq in E. pose proof P as (V & D & T & C). unfold makeDart. assert (centerPix im d = Ok (ipix im (dcx d) (dcy d))) as ->.
    { pose proof (vertex_inner im Fr _ _ V). unfold centerPix, readPix, insideImg. destruct (Z.leb_spec 0 (dcx d)), (Z.leb_spec 0 (dcy d)), (Z.ltb_spec (dcx d) (iw im)), (Z.ltb_spec (dcy d) (ih im)); try lia. reflexivity. }
    cbn [bind]. rewrite (proj2 (proj2 V)). cbn [ctypeEqb negb]. rewrite neighbor_read by auto. cbn [bind]. fold (typeAt im d 0). rewrite E. cbn [ctypeEqb].
    assert (badDiagonalConfig im d = Ok false) as B.
    { pose proof (proj1 N) as B. rewrite bad_read by auto. rewrite B. reflexivity. }
    unfold walkFuel. cbn [diagonalLoop]. rewrite B. cbn [bind]. rewrite neighbor_read by auto. cbn [bind]. fold (typeAt im d 0). rewrite E. cbn [ctypeEqb]. eauto.
  - apply CellSigma_Proofs.ctypeEqb_ne in E. rewrite make_eq by auto. apply careful_total; auto.
Qed.
Lemma degree_total l a : fair im l a -> exists g, (s <- isSingular im a ;; if s : bool then Ok 0 else degreeLoop (walkFuel im) im a a 0) = Ok g.
Proof.
  intros F. rewrite (fair_single im Fr _ _ F). cbn [bind]. pose proof F as (Pa & Na & Q). destruct (ctypeEqb (typeAt im a 0) Line) eqn:E; cbn [negb]; [|eauto].
  apply CellSigma_Proofs.ctypeEqb_eq in E. specialize (Q E). destruct (sigma_turn im Fr Ne Jo Ri a Q) as (r & ds & Pr & Er & Lr & Ld & Nd & Id). destruct (Li (nodeOf im a)) as (n & Rn & Mn).
  pose proof (count_unique _ _ _ Nd Id Mn) as C. rewrite Ld in C. assert (r < walkFuel im)%nat as Fu.
  { rewrite <- Ld. apply (turn_fuel im); auto; [intros e Ie; apply Id in Ie; apply Ie|]. intros ->. cbn in Ld. lia. }
  exists (Z.of_nat r). apply (CellStart_Init.degree_is im Fr Cl a r (walkFuel im)); auto. lia.
Qed.

(** ** The anchors of the faces *)
(** the dart the face is left of, found from a place of a node with darts that points to a pixel of the face *)
Lemma before_first d a : isPlace im d -> typeAt im d 0 = Region -> nextDart im 1 d a -> exists a', prevSigma im a = Ok a' /\ isDart im a' /\ sideOf im 1 a' = labelAt im d 0 /\ nodeOf im a' = nodeOf im d.
Proof.
  intros P T (Da & k & K & Ek & Nk). destruct (sigma_defined im Fr Ne (-1) a (or_intror eq_refl) Da) as (a' & S & N & _). exists a'. split; [exact S|]. split; [apply N|].
  enough (sideOf im 1 a' = labelAt im d 0) as Q.
  { split; [exact Q|]. destruct N as (_ & i & _ & <- & _). rewrite (places_label im Fr Jo i (-1)) by (auto using dart_place; right; reflexivity). rewrite <- Ek. apply (places_label im Fr Jo k 1); auto. }
  assert (W : way (-1)) by (right; reflexivity). pose proof (side_next im Fr Ne Pl Ai Fi (-1) a a' W Da N) as Q. change (- (-1)) with 1 in Q. rewrite Q. symmetry.
  assert (B : forall j, (j <= k)%nat -> places j im (-1) a = places (k - j) im 1 d).
  { intros j J. rewrite <- Ek. replace k with ((k - j) + j)%nat at 1 by lia. rewrite places_add. apply (places_inv im Fr j 1); auto. apply places_ok; auto. }
  assert (E : places k im (-1) a = d) by (rewrite B by lia; rewrite Nat.sub_diag; reflexivity).
  rewrite <- E at 1. apply side_chain; auto; [|rewrite E; exact T].
  intros j Hj. rewrite B by lia. destruct (Nat.eq_dec j k) as [->|X]; [rewrite Nat.sub_diag; cbn; intros (_ & _ & X & _); congruence|]. apply Nk. lia.
Qed.
Lemma leftFace_total d : vertexAt im (dcx d) (dcy d) -> leftFaceLabel im d = Ok (sideOf im 1 d).
Proof. apply leftFace_is. exact Fr. Qed.

(** what an anchor of a face has to be *)
Definition fits (l : Z) (a : dart) : Prop := onBorder im l a /\ (isDart im a \/ beside im a).
Lemma anchor_darts m l d e : cim m = im -> isPlace im d -> typeAt im d 0 = Region -> labelAt im d 0 = l -> dartOfNode im (nodeOf im d) e ->
  exists a0 a, makeDart im d = Ok a0 /\ prevSigma im a0 = Ok a /\ anchorAt m l d = Ok a /\ fits l a /\ isPlace im a /\ nodeOf im a = nodeOf im d.
Proof.
  intros C P T El De. destruct (careful_first d e P ltac:(congruence) De) as (a & A & N). unfold anchorAt. rewrite C, make_eq by (auto; congruence). rewrite A. cbn [bind].
  destruct (before_first d a P T N) as (a' & S & D & Q & En). exists a, a'. split; [reflexivity|]. split; [exact S|]. split; [rewrite S; cbn [bind]; rewrite leftFace_total by apply D; cbn [bind]; rewrite Q, El, Z.eqb_refl; reflexivity|].
  split; [split; [left; split; [exact D|congruence]|left; exact D]|]. split; [apply dart_place, D|exact En].
Qed.
Lemma anchor_alone m l d : cim m = im -> isPlace im d -> noticed im d -> typeAt im d 0 = Region -> labelAt im d 0 = l -> typeAt im d 1 = Region -> labelAt im d 1 = l ->
  (forall e, ~ dartOfNode im (nodeOf im d) e) -> exists a0 a, makeDart im d = Ok a0 /\ prevSigma im a0 = Ok a /\ anchorAt m l d = Ok a /\ fits l a /\ isPlace im a /\ nodeOf im a = nodeOf im d.
Proof.
  intros C P N T El T1 E1 No. assert (L : typeAt im d 0 <> Line) by congruence. destruct (careful_total im Fr d P N L) as (a & A). unfold anchorAt. rewrite C, make_eq by auto. rewrite A. cbn [bind].
  destruct (careful_result im Fr Ne Jo d a P L A) as [(Da & Ea)|(-> & _)]; [exfalso; exact (No a (conj Da Ea))|].
  assert (S : prevSigma im d = Ok d) by (unfold prevSigma, sigmaStep, isSingular; rewrite neighbor_read by (auto; apply P); cbn [bind]; fold (typeAt im d 0); rewrite T; reflexivity).
  exists d, d. split; [reflexivity|]. split; [exact S|]. rewrite S. cbn [bind].
  rewrite leftFace_total by (apply P). cbn [bind]. split; [unfold sideOf; rewrite T1; cbn [ctypeEqb]; rewrite E1, Z.eqb_refl; reflexivity|].
  split; [|auto]. split; [right; split; [split; [exact P|]; intros e De Ee; exact (No e (conj De Ee))|exact El]|]. right. left. exact T1.
Qed.
Lemma darts_dec l : (exists e, dartOfNode im l e) \/ (forall e, ~ dartOfNode im l e).
Proof.
  destruct (Li l) as (n & Rn & (ds & N & I & L)). destruct ds as [|e ds]; [right; intros e He; apply I in He; exact He|]. left. exists e. apply I. left. reflexivity.
Qed.
Lemma anchor_place m l d : cim m = im -> isPlace im d -> noticed im d -> typeAt im d 0 = Region -> labelAt im d 0 = l -> typeAt im d 1 = Region -> labelAt im d 1 = l ->
  exists a0 a, makeDart im d = Ok a0 /\ prevSigma im a0 = Ok a /\ anchorAt m l d = Ok a /\ fits l a /\ isPlace im a /\ nodeOf im a = nodeOf im d.
Proof.
  intros C P N T El T1 E1. destruct (darts_dec (nodeOf im d)) as [(e & De)|No]; [exact (anchor_darts m l d e C P T El De)|exact (anchor_alone m l d C P N T El T1 E1 No)].
Qed.

(** the dart of an edge *)
Lemma anchor_line m l x y k : cim m = im -> cinit m = false -> lined im m -> (forall d, isDart im d -> hasEdge m (edgeOf im d)) -> lineAt im x y -> In k [0; 2; 4; 6] ->
  owns im Region l (x + dirX k) (y + dirY k) -> exists a, anchorOf m l (ipix im x y) = Ok a /\ fits l a /\ isDart im a /\ edgeOf im a = plabel (ipix im x y).
Proof.
  intros C CI Ln He La K O. unfold anchorOf. pose proof La as (X & Y & T). rewrite T. cbn [ctypeEqb negb]. set (z := plabel (ipix im x y)).
  assert (Oz : owns im Line z x y) by (split; [exact X|]; split; [exact Y|]; unfold z; destruct (ipix im x y); cbn in *; congruence).
  destruct (proj2 (proj2 Dr) z x y Oz) as (d & D & Ed). destruct (He d D) as (L0 & e & Hn & Ie). rewrite Ed in L0, Hn.
  assert (at_ (cedges m) z = Ok e) as -> by (apply at_Ok; split; [exact L0|exact Hn]).
  cbn [bind]. rewrite Ie. cbn [negb]. destruct (Ln _ e Hn Ie) as (n & Ds & Es & Lt & Ef). rewrite Z2Nat.id in Es by exact L0. rewrite C.
  rewrite leftFace_total by apply Ds. cbn [bind].
  pose proof (line_bordered im Fr Sl Sm Fi (estart e) n Dr Ds Lt) as B. rewrite Es in B. destruct O as (OX & OY & OP).
  assert (Q : l = sideOf im 1 (estart e) \/ l = sideOf im (-1) (estart e)).
  { specialize (B x y k K Oz OX OY). rewrite OP in B. exact (B eq_refl). }
  destruct (Z.eqb_spec (sideOf im 1 (estart e)) l) as [Q1|Q1].
  - cbn [bind]. rewrite leftFace_total by apply Ds. cbn [bind]. exists (estart e). rewrite Q1, Z.eqb_refl. split; [reflexivity|]. split; [split; left; auto|]. auto.
  - destruct Q as [Q|Q]; [congruence|]. unfold nextAlpha. rewrite C, (singular_dart im Fr _ Ds), CI. cbn [bind].
    destruct (line_ends im Fr Sl Sm Pl (estart e) Ds) as (n' & Lt' & Bn). rewrite (jump_to im Fr Sl Sm (estart e) n' Ds Lt' Bn). cbn [bind].
    pose proof (far_dart im Fr Sl Sm (estart e) n' Ds Lt') as Df. rewrite leftFace_total by apply Df. cbn [bind].
    destruct (line_facing im Fr Sl Sm Fi Ai (estart e) n' Ds Lt') as (_ & F2). exists (far im n' (estart e)). rewrite <- F2, <- Q, Z.eqb_refl. split; [reflexivity|].
    split; [split; left; [split; [exact Df|congruence]|exact Df]|]. split; [exact Df|]. rewrite <- Es. apply (two_ends im Fr Sl Sm (estart e) n' Dr Ds Lt'). right. reflexivity.
Qed.
End Anchor.
