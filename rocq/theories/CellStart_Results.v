(** From the constructor on the darts and faces of the pixel based map are in order. *)
From Verif Require Import Base CellMap_Model CellMap_Spec CellMap_Init CellMap_Main CellMap_InitProofs CellSigma_Spec CellSigma_Proofs CellSigma_Results
  CellLink_Spec CellLink_Proofs CellLink_Main CellLink_Results CellLink_Check CellFace_Spec CellFace_Main CellFace_Step CellFace_Results CellStart_Spec CellStart_Init.
Local Open Scope Z_scope.

Theorem built_faced m : built m -> faced m.
Proof. intros (cr & ou & co & im & W & F & C & H & E). exact (import_faced cr ou co im W F C m H E). Qed.
Theorem built_history m : bhistory m -> fhistory m.
Proof. induction 1 as [m H|m c m' s H IH A E]; [apply fh_start, built_faced, H|exact (fh_call m c m' s IH A E)]. Qed.
Lemma dhistory_chistory m : dhistory m -> chistory tidy m.
Proof. induction 1 as [m H|m c m' s H IH A E]; [apply ch_start, H|exact (ch_call tidy m c m' s IH (proj1 A) E)]. Qed.
Theorem built_order m : bhistory m -> faced m /\ fhistory m /\ dhistory m /\ chistory tidy m.
Proof.
  intros B. apply built_history in B. pose proof (fhistory_faced _ B) as F. pose proof (fhistory_dhistory _ B) as D. split; [exact F|]. split; [exact B|]. split; [exact D|]. apply dhistory_chistory, D.
Qed.
Lemma owns_label im t l x y : wfImg im -> owns im t l x y -> 0 <= l.
Proof. intros (_ & _ & _ & W) (X & Y & E). specialize (W x y X Y). rewrite E in W. cbn in W. lia. Qed.
Theorem built_edges m l x y : bhistory m -> owns (cim m) Line l x y ->
  exists e, isEdge m (Z.to_nat l) e /\ estart e <> eend e /\ forall d, isDart (cim m) d -> (edgeLabel (cim m) d = Ok l <-> d = estart e \/ d = eend e).
Proof.
  intros B O. apply built_history, fhistory_faced in B. destruct B as (Wi & _). pose proof Wi as (_ & (So & _) & _ & _ & Te & _). pose proof So as ((Wf & _) & Fr & _ & R & _).
  pose proof (owns_label _ _ _ _ _ Wf O) as L0. destruct (R Line l x y O ltac:(discriminate)) as (c & Hc & I). cbn [cellsOf] in Hc. rewrite nth_error_map in Hc.
  destruct (nth_error (cedges m) (Z.to_nat l)) as [e|] eqn:He; [|discriminate Hc]. injection Hc as <-. exists e. split; [split; auto|]. specialize (Te _ _ He I). rewrite Z2Nat.id in Te by exact L0.
  destruct Te as (N & T). split; [exact N|]. intros d D. rewrite <- T. rewrite (edgeLabel_dart _ Fr) by apply D. unfold dartOfEdge. split; [intros E; injection E as E; auto|intros (_ & ->); reflexivity].
Qed.
Theorem built_nodes m l x y : bhistory m -> owns (cim m) Vertex l x y ->
  exists n, isNode m (Z.to_nat l) n /\ manyDarts (fun d => isDart (cim m) d /\ startNodeLabel (cim m) d = Ok l) (ndegree n) /\
    startNodeLabel (cim m) (nanchor n) = Ok l /\ (0 < ndegree n -> isDart (cim m) (nanchor n)) /\ (ndegree n = 0 -> isSingular (cim m) (nanchor n) = Ok true).
Proof.
  intros B O. apply built_history in B. pose proof (fhistory_faced _ B) as ((_ & (So & _) & _) & _). pose proof So as ((Wf & _) & Fr & _ & R & _).
  pose proof (owns_label _ _ _ _ _ Wf O) as L0. destruct (R Vertex l x y O ltac:(discriminate)) as (c & Hc & I). cbn [cellsOf] in Hc. rewrite nth_error_map in Hc.
  destruct (nth_error (cnodes m) (Z.to_nat l)) as [n|] eqn:He; [|discriminate Hc]. injection Hc as <-. exists n. split; [split; auto|].
  destruct (CellLink_Check.degree_is m (Z.to_nat l) n (fhistory_dhistory m B) (conj He I)) as (A1 & A2 & A3). rewrite Z2Nat.id in A1, A2 by exact L0. auto.
Qed.
Theorem built_alpha m d : bhistory m -> isDart (cim m) d ->
  exists d', nextAlpha m d = Ok d' /\ isDart (cim m) d' /\ d' <> d /\ nextAlpha m d' = Ok d /\ leftFaceLabel (cim m) d' = rightFaceLabel (cim m) d /\ rightFaceLabel (cim m) d' = leftFaceLabel (cim m) d.
Proof.
  intros B D. apply built_history in B. destruct (alpha_opposite m d (fhistory_dhistory m B) D) as (d' & A & D' & N & A' & _). destruct (face_alpha m d B D) as (d2 & A2 & _ & L & R). assert (d2 = d') by congruence. subst d2. exists d'. auto 7.
Qed.
Theorem built_contour m k d : bhistory m -> isDart (cim m) d ->
  exists d' l c, phis m k d = Ok d' /\ isDart (cim m) d' /\ leftFaceLabel (cim m) d = Ok l /\ leftFaceLabel (cim m) d' = Ok l /\ 0 <= l /\ isCell m Region (Z.to_nat l) c.
Proof.
  intros B D. apply built_history in B. destruct (face_phi m k d B D) as (d' & P & D' & E). destruct (faces_beside m d B D) as (l & r & c & c' & L & _ & L0 & _ & C & _). exists d', l, c. rewrite E, L. auto 7.
Qed.
Theorem built_checks m : bhistory m -> checkDarts m = Ok true.
Proof. intros B. apply darts_check, fhistory_dhistory, built_history, B. Qed.
Theorem built_calls m c m' s : bhistory m -> faceAllowed (cim m) c -> cexec m c = Ok (m', s) -> callEffect m m' c s /\ recount m'.
Proof. intros B. apply calls_fine, built_history, B. Qed.

Theorem dart_made m d a : bhistory m -> vertexAt (cim m) (dcx d) (dcy d) -> In (ddir d) [0; 2; 4; 6] -> typeAt (cim m) d 0 <> Vertex -> makeDart (cim m) d = Ok a ->
  startNodeLabel (cim m) a = startNodeLabel (cim m) d /\
  ((exists e, isDart (cim m) e /\ startNodeLabel (cim m) e = startNodeLabel (cim m) d) -> isDart (cim m) a) /\ (typeAt (cim m) d 0 = Line -> a = d).
Proof.
  intros B V K T H. apply built_history, fhistory_faced in B. destruct B as (Wi & _). pose proof Wi as (_ & (So & Ne & Jo) & Ri & _). pose proof So as (_ & Fr & _).
  assert (O : Z.odd (ddir d) = false) by (destruct K as [<-|[<-|[<-|[<-|[]]]]]; reflexivity).
  assert (P : isPlace (cim m) d). { split; [exact V|]. split; [destruct K as [<-|[<-|[<-|[<-|[]]]]]; lia|]. split; [exact T|]. rewrite O. discriminate. }
  destruct (make_fair (cim m) d a Fr Ne Jo Ri P O H) as ((Pa & Na & _) & D).
  assert (L : forall e, vertexAt (cim m) (dcx e) (dcy e) -> startNodeLabel (cim m) e = Ok (nodeOf (cim m) e)).
  { intros e Ve. apply nodeLabel_dart, Ve. }
  split; [rewrite !L by (auto; apply Pa); congruence|]. split.
  - intros (e & De & Ee). apply D. exists e. split; [exact De|]. rewrite !L in Ee by (auto; apply De). injection Ee as Ee. exact Ee.
  - intros Ln. unfold makeDart in H. bnd H c Ec. destruct (negb _); [discriminate H|]. bnd H p Ep. destruct (ctypeEqb (ptype p) Vertex); [discriminate H|].
    bnd H d1 E1. assert (d1 = d) as ->.
    { unfold walkFuel in E1. cbn [diagonalLoop] in E1. unfold badDiagonalConfig, isDiagonal in E1. rewrite O in E1. cbn [bind] in E1. injection E1 as <-. reflexivity. }
    bnd H q Eqq. apply (neighbor_type _ Fr d 0 q V) in Eqq. rewrite Eqq, Ln in H. cbn [ctypeEqb] in H. injection H as <-. reflexivity.
Qed.
Theorem dart_refused im d : framed im -> 0 <= dcx d < iw im -> 0 <= dcy d < ih im ->
  (ptype (ipix im (dcx d) (dcy d)) <> Vertex -> makeDart im d = Exn) /\
  (vertexAt im (dcx d) (dcy d) -> typeAt im d 0 = Vertex -> makeDart im d = Exn).
Proof.
  intros Fr X Y. assert (C : centerPix im d = Ok (ipix im (dcx d) (dcy d))).
  { unfold centerPix, readPix, insideImg. destruct (Z.leb_spec 0 (dcx d)), (Z.leb_spec 0 (dcy d)), (Z.ltb_spec (dcx d) (iw im)), (Z.ltb_spec (dcy d) (ih im)); try lia. reflexivity. }
  unfold makeDart. rewrite C. cbn [bind]. split.
  - intros N. apply CellSigma_Proofs.ctypeEqb_ne in N. rewrite N. reflexivity.
  - intros V T. pose proof V as (_ & _ & Vt). rewrite Vt. cbn [ctypeEqb negb]. rewrite (neighbor_read im Fr d 0 V). cbn [bind]. unfold typeAt in T. rewrite T. reflexivity.
Qed.
