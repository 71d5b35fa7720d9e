(** C64, C65, C66, C67: the darts of the pixel based map. *)
From Verif Require Import Base CellMap_Model CellMap_Spec CellMap_Init CellMap_Examples CellSigma_Spec CellSigma_Proofs CellSigma_Results CellLink_Spec CellLink_Proofs CellLink_Main CellLink_Results CellLink_Check CellSigma_Examples.
Local Open Scope Z_scope.

(** C65: nextSigma() goes to the first dart met when walking around the pixels of the node counter-clockwise; prevSigma() goes back from there; the node stays the same. *)
Theorem C65_next m d : chistory tidy m -> isDart (cim m) d ->
  exists d', nextSigma (cim m) d = Ok d' /\ nextDart (cim m) 1 d d' /\ prevSigma (cim m) d' = Ok d /\ startNodeLabel (cim m) d' = startNodeLabel (cim m) d.
Proof. exact (sigma_around m d). Qed.
Print Assumptions C65_next.

(** around a node of three pixels, the third one touching the second diagonally *)
Example C65_next_case : chistory tidy fork0 /\ map (fun d => isDartB (cim fork0) d) [Dart 3 2 4; Dart 5 3 5; Dart 5 3 0; Dart 4 2 1] = [true; true; true; true] /\
  map (nextSigma (cim fork0)) [Dart 3 2 4; Dart 5 3 5; Dart 5 3 0; Dart 4 2 1] = [Ok (Dart 5 3 5); Ok (Dart 5 3 0); Ok (Dart 4 2 1); Ok (Dart 3 2 4)].
Proof. split; [apply ch_start, fork_wired|]. computes. Qed.

(** C65: prevSigma() goes to the first dart met when walking clockwise; nextSigma() goes back. *)
Theorem C65_prev m d : chistory tidy m -> isDart (cim m) d ->
  exists d', prevSigma (cim m) d = Ok d' /\ nextDart (cim m) (-1) d d' /\ nextSigma (cim m) d' = Ok d /\ startNodeLabel (cim m) d' = startNodeLabel (cim m) d.
Proof. exact (sigma_back m d). Qed.
Print Assumptions C65_prev.

Example C65_prev_case : chistory tidy (pruned 2) /\ isDartB (cim (pruned 2)) (Dart 3 2 4) = true /\ prevSigma (cim (pruned 2)) (Dart 3 2 4) = Ok (Dart 3 2 4) /\
  map (prevSigma (cim (pruned 1))) [Dart 3 2 4; Dart 5 3 5] = [Ok (Dart 5 3 5); Ok (Dart 3 2 4)].
Proof. split; [apply dhistory_chistory, pruned_history|]. computes. Qed.

(** C65: without the condition that no line pixel lies in the corner between two diagonal pixels of a node it is false, also of a map the constructor made. *)
Theorem C65_refuted : exists crack outer comps im m d d',
  wfImg im /\ framed im /\ joined im /\ import crack outer comps im = Ok m /\ sound m /\ isDart (cim m) d /\ nextSigma (cim m) d = Ok d' /\ prevSigma (cim m) d' <> Ok d.
Proof. exact (sigma_refuted). Qed.
Print Assumptions C65_refuted.

(** C65: the constructor of DartTraverser may return a dart that does not start at a node: from a diagonal direction with a line pixel on its left the center moves onto that line pixel. *)
Theorem C65_constructor_refuted : exists im d d',
  wfImg im /\ framed im /\ neat im /\ joined im /\ vertexAt im (dcx d) (dcy d) /\ 0 <= ddir d < 8 /\ typeAt im d 0 = Line /\ makeDart im d = Ok d' /\ ptype (ipix im (dcx d') (dcy d')) = Line.
Proof. exact (constructor_refuted). Qed.
Print Assumptions C65_constructor_refuted.

(** C66: nextAlpha() leads to the other dart of the edge and back; an edge has these two darts and no others. *)
Theorem C66_alpha m d : dhistory m -> isDart (cim m) d ->
  exists d', nextAlpha m d = Ok d' /\ isDart (cim m) d' /\ d' <> d /\ nextAlpha m d' = Ok d /\
    forall x, isDart (cim m) x -> (edgeLabel (cim m) x = edgeLabel (cim m) d <-> x = d \/ x = d').
Proof. exact (alpha_opposite m d). Qed.
Print Assumptions C66_alpha.

Example C66_alpha_case : dhistory (pruned 1) /\ isDartB (cim (pruned 1)) (Dart 5 3 5) = true /\ nextAlpha (pruned 1) (Dart 5 3 5) = Ok (Dart 3 5 1) /\ nextAlpha (pruned 1) (Dart 3 5 1) = Ok (Dart 5 3 5) /\
  dhistory (wiredAfter 7) /\ isDartB (cim (wiredAfter 7)) (Dart 1 1 0) = true /\ nextAlpha (wiredAfter 7) (Dart 1 1 0) = Ok (Dart 1 1 6).
Proof. split; [apply pruned_history|]. split; [vm_compute; reflexivity|]. split; [vm_compute; reflexivity|]. split; [vm_compute; reflexivity|]. split; [apply wiredAfter_history|]. computes. Qed.

(** C66: nextPhi() is defined for every dart and leads to a dart; nextSigma() and nextAlpha() lead back. *)
Theorem C66_phi m d : dhistory m -> isDart (cim m) d ->
  exists d' b, nextPhi m d = Ok d' /\ isDart (cim m) d' /\ nextSigma (cim m) d' = Ok b /\ nextAlpha m b = Ok d.
Proof. exact (phi_around m d). Qed.
Print Assumptions C66_phi.

Example C66_phi_case : dhistory fork0 /\ map (nextPhi fork0) [Dart 3 2 4; Dart 1 1 7; Dart 4 2 1; Dart 5 3 0] = [Ok (Dart 1 1 7); Ok (Dart 4 2 1); Ok (Dart 5 3 5); Ok (Dart 5 3 0)].
Proof. split; [apply dh_start, fork_wired|]. computes. Qed.

(** C66: every dart is reached by nextPhi(). *)
Theorem C66_phi_onto m d' : dhistory m -> isDart (cim m) d' -> exists d, isDart (cim m) d /\ nextPhi m d = Ok d'.
Proof. exact (phi_onto m d'). Qed.
Print Assumptions C66_phi_onto.

Example C66_phi_onto_case : dhistory fork0 /\ isDartB (cim fork0) (Dart 5 3 0) = true /\ nextPhi fork0 (Dart 5 3 0) = Ok (Dart 5 3 0).
Proof. split; [apply dh_start, fork_wired|]. computes. Qed.

(** C67: the degree of a node is the number of its darts; its anchor is one of them if there are any. *)
Theorem C67_degree m l n : dhistory m -> isNode m l n ->
  manyDarts (fun d => isDart (cim m) d /\ startNodeLabel (cim m) d = Ok (Z.of_nat l)) (ndegree n) /\
  startNodeLabel (cim m) (nanchor n) = Ok (Z.of_nat l) /\ (0 < ndegree n -> isDart (cim m) (nanchor n)) /\ (ndegree n = 0 -> isSingular (cim m) (nanchor n) = Ok true).
Proof. exact (degree_is m l n). Qed.
Print Assumptions C67_degree.

(** the anchor of node 0 points to the edge that is removed; a new one is found, past two other pixels of the node *)
Example C67_degree_case : exists m, dreplay fork0 [CRemoveBridge (Dart 3 2 4)] = Some m /\ dhistory m /\
  map nanchor (cnodes fork0) = [Dart 3 2 4; Dart 1 1 7; Dart 3 5 1] /\ map ndegree (cnodes fork0) = [4; 1; 1] /\
  map nanchor (cnodes m) = [Dart 5 3 5; Dart 1 1 7; Dart 3 5 1] /\ map ndegree (cnodes m) = [3; 0; 1].
Proof.
  assert (H : forall m, dreplay fork0 [CRemoveBridge (Dart 3 2 4)] = Some m -> dhistory m) by (intros m E; exact (dreplay_history _ fork0 m (dh_start fork0 fork_wired) E)).
  destruct (dreplay fork0 [CRemoveBridge (Dart 3 2 4)]) as [m|] eqn:E; [|vm_compute in E; discriminate E]. exists m. split; [reflexivity|]. split; [apply H; reflexivity|].
  vm_compute in E. injection E as <-. computes.
Qed.

(** C64: the tests of checkConsistency() of the anchors and degrees of the nodes and of the start and end of the edges pass. *)
Theorem C64_darts m : dhistory m -> checkDarts m = Ok true.
Proof. exact (darts_check m). Qed.
Print Assumptions C64_darts.

Example C64_darts_case : dhistory (pruned 3) /\ checkDarts (pruned 3) = Ok true /\ checkNode (cim fork0) (NInfo (CInfo 0 (Rect 3 2 6 4) 3) (Dart 3 2 4) 3) = Ok false /\
  checkEdge (cim fork0) (EInfo (CInfo 2 (Rect 4 4 5 5) 1) (Dart 5 3 0) (Dart 3 5 1)) = Ok false.
Proof. split; [apply pruned_history|]. computes. Qed.

