(** C71: the contours of the faces of the pixel based map; C64: all of checkConsistency(). *)
From Verif Require Import Base CellMap_Model CellMap_Spec CellMap_Init CellMap_Examples CellSigma_Spec CellSigma_Proofs CellSigma_Results CellLink_Spec CellSigma_Examples CellFace_Spec CellFace_Results CellFace_Examples
  CellContour_Spec CellContour_Leave CellContour_Results CellContour_Examples.
Local Open Scope Z_scope.

(** C71: the four operations keep the contours in order. *)
Theorem C71_kept m : khistory m -> contoured m.
Proof. exact (khistory_contoured m). Qed.
Print Assumptions C71_kept.

(** the room on the right: at first the frame with the wall, the single node and the bridge; then the two ends of the bridge; in the end the frame alone *)
Example C71_kept_case : khistory (contouredAfter 2) /\ map (fun n => contoursOf (contouredAfter n)) [0; 2; 5; 7]%nat =
  [[Some [Dart 1 1 0]; Some [Dart 1 1 6]; Some [Dart 4 1 6; Dart 8 3 3; Dart 7 5 0]];
   [Some [Dart 1 1 0]; Some [Dart 1 1 6]; Some [Dart 4 1 6; Dart 7 5 0; Dart 9 5 4]];
   [Some [Dart 1 1 0]; None; Some [Dart 4 7 0]];
   [Some [Dart 1 1 0]; None; Some [Dart 1 1 6]]].
Proof. split; [apply contouredAfter_history|]. vm_compute. reflexivity. Qed.

(** C71: a dart lies on exactly one of the contours of the face on its left: nextPhi() leads there from its anchor, and back. *)
Theorem C71_darts m d l : khistory m -> isDart (cim m) d -> leftFaceLabel (cim m) d = Ok l ->
  exists f i a, isFace m (Z.to_nat l) f /\ nth_error (fcontours f) i = Some a /\ (exists k, phis m k a = Ok d) /\ (exists k, phis m k d = Ok a) /\
    forall j b k, nth_error (fcontours f) j = Some b -> phis m k b = Ok d -> j = i.
Proof. intros H. exact (contour_darts m H d l). Qed.
Print Assumptions C71_darts.

(** the bridge before it goes: from its anchor to the other end and back; then the wall *)
Example C71_darts_case : khistory r0 /\ isDartB (cim r0) (Dart 9 5 4) = true /\ leftFaceLabel (cim r0) (Dart 9 5 4) = Ok 2 /\ phis r0 1 (Dart 7 5 0) = Ok (Dart 9 5 4) /\ phis r0 1 (Dart 9 5 4) = Ok (Dart 7 5 0) /\
  isDartB (cim r0) (Dart 4 7 2) = true /\ leftFaceLabel (cim r0) (Dart 4 7 2) = Ok 1 /\ phis r0 1 (Dart 1 1 6) = Ok (Dart 4 7 2).
Proof. split; [apply kh_start, r0_contoured|]. computes. Qed.

(** C71: a node without edges is one of the contours of the face around it. *)
Theorem C71_nodes m d l : khistory m -> isPlace (cim m) d -> (forall e, isDart (cim m) e -> nodeOf (cim m) e <> nodeOf (cim m) d) -> labelAt (cim m) d 0 = l ->
  exists f i a, isFace m (Z.to_nat l) f /\ nth_error (fcontours f) i = Some a /\ startNodeLabel (cim m) a = startNodeLabel (cim m) d /\
    forall j b, nth_error (fcontours f) j = Some b -> startNodeLabel (cim m) b = startNodeLabel (cim m) d -> j = i.
Proof. intros H. exact (contour_nodes m H d l). Qed.
Print Assumptions C71_nodes.

(** the node of three pixels *)
Example C71_nodes_case : khistory ell0 /\ lonelyB (cim ell0) (dartsOf (cim ell0)) (Dart 5 4 4) = true /\ labelAt (cim ell0) (Dart 5 4 4) 0 = 2 /\
  startNodeLabel (cim ell0) (Dart 5 4 4) = Ok 1 /\ nth_error (contoursOf ell0) 2 = Some (Some [Dart 3 1 6; Dart 6 3 3]) /\ startNodeLabel (cim ell0) (Dart 6 3 3) = Ok 1.
Proof. split; [apply kh_start, ell_contoured|]. computes. Qed.

(** C71: the anchor of a contour has its face on the left; it is a dart that nextPhi() comes back to with the face always on the left, or belongs to a node of degree 0. *)
Theorem C71_anchors m l f a : khistory m -> isFace m l f -> In a (fcontours f) ->
  leftFaceLabel (cim m) a = Ok (Z.of_nat l) /\
  ((isDart (cim m) a /\ exists r, (0 < r)%nat /\ phis m r a = Ok a /\ forall k d, phis m k a = Ok d -> isDart (cim m) d /\ leftFaceLabel (cim m) d = Ok (Z.of_nat l)) \/
   (isPlace (cim m) a /\ isSingular (cim m) a = Ok true /\ exists nl n, startNodeLabel (cim m) a = Ok nl /\ isNode m (Z.to_nat nl) n /\ ndegree n = 0)).
Proof. intros H. exact (contour_anchor m H l f a). Qed.
Print Assumptions C71_anchors.

Example C71_anchors_case : khistory r0 /\ nth_error (contoursOf r0) 2 = Some (Some [Dart 4 1 6; Dart 8 3 3; Dart 7 5 0]) /\ map (leftFaceLabel (cim r0)) [Dart 4 1 6; Dart 8 3 3; Dart 7 5 0] = [Ok 2; Ok 2; Ok 2] /\
  map (isDartB (cim r0)) [Dart 4 1 6; Dart 8 3 3; Dart 7 5 0] = [true; false; true] /\ phis r0 2 (Dart 4 1 6) = Ok (Dart 4 1 6).
Proof. split; [apply kh_start, r0_contoured|]. computes. Qed.

(** C64: checkConsistency() finds nothing, if no contour has more than 10000 darts. *)
Theorem C64_consistency m : khistory m -> shortContours m -> checkConsistency m = Ok true.
Proof. exact (consistency m). Qed.
Print Assumptions C64_consistency.

(** it finds an anchor in the list of another face and an anchor that lost its edge *)
Example C64_consistency_case : khistory (contouredAfter 6) /\ shortContours (contouredAfter 6) /\ checkConsistency (contouredAfter 6) = Ok true /\
  checkContour r0 1 (Dart 4 1 6) = Ok false /\ checkContour (contouredAfter 5) 2 (Dart 4 1 6) = Ok false /\ checkContour r0 2 (Dart 4 1 6) = Ok true.
Proof. split; [apply contouredAfter_history|]. split; [apply after_short; cbn; tauto|]. computes. Qed.
