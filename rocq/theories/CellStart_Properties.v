(** C70: what the constructor of the pixel based map leaves behind. *)
From Verif Require Import Base CellMap_Model CellMap_Spec CellMap_Init CellMap_Examples CellSigma_Spec CellSigma_Proofs CellSigma_Results CellLink_Spec CellLink_Check CellSigma_Examples
  CellFace_Spec CellFace_Results CellFace_Examples CellStart_Spec CellStart_Results CellStart_Examples.
Local Open Scope Z_scope.

(** C70: the darts and faces of a map made by the constructor are in order; C65 to C69 are about such maps and those that calls with darts make from them. *)
Theorem C70_order m : bhistory m -> faced m /\ fhistory m /\ dhistory m /\ chistory tidy m.
Proof. exact (built_order m). Qed.
Print Assumptions C70_order.

Example C70_order_case : bhistory r0 /\ bhistory fork0 /\ bhistory ell0 /\ bhistory (facedAfter 7) /\ cim (facedAfter 7) <> cim r0.
Proof.
  split; [apply bh_start, r0_built|]. split; [apply bh_start, fork_built|]. split; [apply bh_start, ell_built|]. split; [apply facedAfter_built|].
  intros E. assert (X : ipix (cim (facedAfter 7)) 4 4 = Pix Region 2) by (vm_compute; reflexivity). rewrite E in X. vm_compute in X. discriminate X.
Qed.

(** C70: every line pixel belongs to an edge of the map, and start and end of the edge are its two darts. *)
Theorem C70_edges m l x y : bhistory m -> owns (cim m) Line l x y ->
  exists e, isEdge m (Z.to_nat l) e /\ estart e <> eend e /\ forall d, isDart (cim m) d -> (edgeLabel (cim m) d = Ok l <-> d = estart e \/ d = eend e).
Proof. exact (built_edges m l x y). Qed.
Print Assumptions C70_edges.

(** the loop at the node of three pixels *)
Example C70_edges_case : bhistory fork0 /\ ipix (cim fork0) 7 2 = Pix Line 1 /\ nth_error (map (fun e => (estart e, eend e)) (cedges fork0)) 1 = Some (Dart 5 3 0, Dart 4 2 1) /\ edgeLabel (cim fork0) (Dart 4 2 1) = Ok 1.
Proof. split; [apply bh_start, fork_built|]. computes. Qed.

(** C70: every node pixel belongs to a node of the map, its degree is the number of its darts and its anchor is one of them if there are any. *)
Theorem C70_nodes m l x y : bhistory m -> owns (cim m) Vertex l x y ->
  exists n, isNode m (Z.to_nat l) n /\ manyDarts (fun d => isDart (cim m) d /\ startNodeLabel (cim m) d = Ok l) (ndegree n) /\
    startNodeLabel (cim m) (nanchor n) = Ok l /\ (0 < ndegree n -> isDart (cim m) (nanchor n)) /\ (ndegree n = 0 -> isSingular (cim m) (nanchor n) = Ok true).
Proof. exact (built_nodes m l x y). Qed.
Print Assumptions C70_nodes.

Example C70_nodes_case : bhistory fork0 /\ map (fun p => ipix (cim fork0) (fst p) (snd p)) [(3, 2); (4, 2); (5, 3)] = [Pix Vertex 0; Pix Vertex 0; Pix Vertex 0] /\
  map (fun n => (nanchor n, ndegree n)) (cnodes fork0) = [(Dart 3 2 4, 4); (Dart 1 1 7, 1); (Dart 3 5 1, 1)] /\
  bhistory ell0 /\ nth_error (map ndegree (cnodes ell0)) 1 = Some 0.
Proof. split; [apply bh_start, fork_built|]. split; [vm_compute; reflexivity|]. split; [vm_compute; reflexivity|]. split; [apply bh_start, ell_built|]. computes. Qed.

(** C70: nextAlpha() leads to another dart and back, with left and right exchanged. *)
Theorem C70_alpha m d : bhistory m -> isDart (cim m) d ->
  exists d', nextAlpha m d = Ok d' /\ isDart (cim m) d' /\ d' <> d /\ nextAlpha m d' = Ok d /\ leftFaceLabel (cim m) d' = rightFaceLabel (cim m) d /\ rightFaceLabel (cim m) d' = leftFaceLabel (cim m) d.
Proof. exact (built_alpha m d). Qed.
Print Assumptions C70_alpha.

Example C70_alpha_case : bhistory r0 /\ isDartB (cim r0) (Dart 4 1 6) = true /\ nextAlpha r0 (Dart 4 1 6) = Ok (Dart 4 7 2) /\ leftFaceLabel (cim r0) (Dart 4 1 6) = Ok 2 /\ leftFaceLabel (cim r0) (Dart 4 7 2) = Ok 1.
Proof. split; [apply bh_start, r0_built|]. computes. Qed.

(** C70: a contour, followed for any number of steps, consists of darts with one face of the map on the left. *)
Theorem C70_contour m k d : bhistory m -> isDart (cim m) d ->
  exists d' l c, phis m k d = Ok d' /\ isDart (cim m) d' /\ leftFaceLabel (cim m) d = Ok l /\ leftFaceLabel (cim m) d' = Ok l /\ 0 <= l /\ isCell m Region (Z.to_nat l) c.
Proof. exact (built_contour m k d). Qed.
Print Assumptions C70_contour.

Example C70_contour_case : bhistory (facedAfter 6) /\ isDartB (cim (facedAfter 6)) (Dart 1 1 0) = true /\ phis (facedAfter 6) 5 (Dart 1 1 0) = Ok (Dart 4 7 4) /\ leftFaceLabel (cim (facedAfter 6)) (Dart 4 7 4) = Ok 0.
Proof. split; [apply facedAfter_built|]. computes. Qed.

(** C70: the tests of checkConsistency() of nodes and edges pass. *)
Theorem C70_checks m : bhistory m -> checkDarts m = Ok true.
Proof. exact (built_checks m). Qed.
Print Assumptions C70_checks.

Example C70_checks_case : bhistory r0 /\ checkDarts r0 = Ok true /\ checkNode (cim fork0) (NInfo (CInfo 0 (Rect 3 2 6 4) 3) (Dart 3 2 4) 3) = Ok false.
Proof. split; [apply bh_start, r0_built|]. computes. Qed.

(** C70: calls with darts do what they should. *)
Theorem C70_calls m c m' s : bhistory m -> faceAllowed (cim m) c -> cexec m c = Ok (m', s) -> callEffect m m' c s /\ recount m'.
Proof. exact (built_calls m c m' s). Qed.
Print Assumptions C70_calls.

Example C70_calls_case : bhistory r0 /\ faceAllowedB (cim r0) (CMergeFaces (Dart 4 1 6)) = true /\ match cexec r0 (CMergeFaces (Dart 4 1 6)) with Ok (m, s) => (s, faceCount m) | _ => (0, 0) end = (2, 2).
Proof. split; [apply bh_start, r0_built|]. computes. Qed.

(** C65: the constructor of DartTraverser, given a node pixel and one of its four sides without node pixel, returns a dart of that node, if there are any; the one given, if it points to a line. *)
Theorem C65_constructor m d a : bhistory m -> vertexAt (cim m) (dcx d) (dcy d) -> In (ddir d) [0; 2; 4; 6] -> typeAt (cim m) d 0 <> Vertex -> makeDart (cim m) d = Ok a ->
  startNodeLabel (cim m) a = startNodeLabel (cim m) d /\
  ((exists e, isDart (cim m) e /\ startNodeLabel (cim m) e = startNodeLabel (cim m) d) -> isDart (cim m) a) /\ (typeAt (cim m) d 0 = Line -> a = d).
Proof. exact (dart_made m d a). Qed.
Print Assumptions C65_constructor.

(** from the middle pixel of the node, from its third one, and at a line *)
Example C65_constructor_case : bhistory fork0 /\ map (makeDart (cim fork0)) [Dart 4 2 6; Dart 5 3 2; Dart 5 3 0] = [Ok (Dart 5 3 5); Ok (Dart 4 2 1); Ok (Dart 5 3 0)] /\
  map (fun d => typeAt (cim fork0) d 0) [Dart 4 2 6; Dart 5 3 2; Dart 5 3 0] = [Region; Region; Line].
Proof. split; [apply bh_start, fork_built|]. computes. Qed.

(** C65: it throws if the first pixel is not a node pixel or the second one is. *)
Theorem C65_constructor_throws im d : framed im -> 0 <= dcx d < iw im -> 0 <= dcy d < ih im ->
  (ptype (ipix im (dcx d) (dcy d)) <> Vertex -> makeDart im d = Exn) /\
  (vertexAt im (dcx d) (dcy d) -> typeAt im d 0 = Vertex -> makeDart im d = Exn).
Proof. exact (dart_refused im d). Qed.
Print Assumptions C65_constructor_throws.

Example C65_constructor_throws_case : framed fork /\ makeDart fork (Dart 2 2 4) = Exn /\ ptype (ipix fork 2 2) = Line /\ makeDart fork (Dart 3 2 0) = Exn /\ typeAt fork (Dart 3 2 0) 0 = Vertex.
Proof. split; [apply fork_clean|]. computes. Qed.
