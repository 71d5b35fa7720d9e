(** C78: the pixel based map stays a map of the plane. *)
From Verif Require Import Base CellMap_Model CellMap_Spec CellMap_Scan CellMap_Init CellMap_Examples CellMap_Check CellSigma_Spec CellLink_Spec CellLink_Check CellFace_Spec CellFace_Results CellFace_Examples CellStart_Spec CellStart_Results CellStart_Examples CellSigma_Proofs CellSigma_Results
  CellThresh_Model CellThresh_Spec CellThresh_Results CellThresh_Examples CellTotal_Spec CellTotal_Init CellTotal_Results CellJordan_Spec CellJordan_Image CellJordan_Examples CellJordan_Properties CellCall_Results CellContour_Examples CellContour_Results CellContour_Leave CellContour_Spec CellPlane_Spec CellPlane_Results CellPlane_Examples.
Local Open Scope Z_scope.

(** C78: after any calls, the two darts of an edge with one face on both sides lie on one contour: nextPhi() leads from one to the other. *)
Theorem C78_bridge m d : phistory m -> isDart (cim m) d -> leftFaceLabel (cim m) d = rightFaceLabel (cim m) d -> exists k b, nextAlpha m d = Ok b /\ phis m k d = Ok b.
Proof. exact (phistory_bridge m d). Qed.
Print Assumptions C78_bridge.

(** the line that branches *)
Example C78_bridge_case : phistory thick /\ isDart (cim thick) (Dart 1 3 0) /\ leftFaceLabel (cim thick) (Dart 1 3 0) = Ok 1 /\ rightFaceLabel (cim thick) (Dart 1 3 0) = Ok 1 /\
  nextAlpha thick (Dart 1 3 0) = Ok (Dart 7 3 4) /\ phis thick 1 (Dart 1 3 0) = Ok (Dart 7 3 4) /\ phis thick 2 (Dart 1 3 0) = Ok (Dart 1 3 6) /\ phis thick 4 (Dart 1 3 0) = Ok (Dart 1 3 0).
Proof. split; [exact thick_history|]. split; [apply isDartB_holds; vm_compute; reflexivity|]. repeat split; vm_compute; reflexivity. Qed.

(** C78: if a face consists of two parts, the edge between them counts as a bridge and removeBridge() removes it, though its darts lie on two contours. *)
Theorem C78_split_refuted : exists crack outer comps im m d b, wfImg im /\ framed im /\ clean im /\ rightAreas crack im /\ exactParts comps im /\ ruled im /\ import crack outer comps im = Ok m /\
  isDart (cim m) d /\ leftFaceLabel (cim m) d = rightFaceLabel (cim m) d /\ nextAlpha m d = Ok b /\ (forall k, phis m k d <> Ok b) /\ exists m' s, cexec m (CRemoveBridge d) = Ok (m', s).
Proof. exact split_refuted. Qed.
Print Assumptions C78_split_refuted.

(** C78: so the calls need no more than darts of the map for the contours to stay in order. *)
Theorem C78_contoured m : phistory m -> khistory m /\ contoured m.
Proof. intros H. split; [exact (phistory_khistory m H)|]. exact (khistory_contoured m (phistory_khistory m H)). Qed.
Print Assumptions C78_contoured.

(** the wall goes, the bridge, the node at the foot of the wall, and one end of the bridge *)
Definition clearing : list ccall := [CMergeFaces (Dart 4 1 6); CRemoveBridge (Dart 7 5 0); CMergeEdges (Dart 4 7 0); CRemoveIsolatedNode (Dart 7 5 0)].
Example C78_contoured_case : phistory (afterCalls rm clearing) /\ map fcontours (cfaces rm) = [[Dart 1 1 0]; [Dart 1 1 6]; [Dart 4 1 6; Dart 8 3 3; Dart 7 5 0]] /\
  (faceCount (afterCalls rm clearing), edgeCount (afterCalls rm clearing), nodeCount (afterCalls rm clearing)) = (2, 2, 4).
Proof. split; [apply after_history; [exact rm_history|vm_compute; reflexivity]|]. split; vm_compute; reflexivity. Qed.

(** C78: checkConsistency() finds nothing, if no contour has more than 10000 darts. *)
Theorem C78_consistency m : phistory m -> shortContours m -> checkConsistency m = Ok true.
Proof. intros H. exact (consistency m (phistory_khistory m H)). Qed.
Print Assumptions C78_consistency.

Example C78_consistency_case : phistory thick /\ shortContours thick /\ checkConsistency thick = Ok true.
Proof. split; [exact thick_history|]. split; [apply (short_holds 20); vm_compute; [discriminate|reflexivity]|vm_compute; reflexivity]. Qed.

(** C78: any calls with darts of the map, one after the other, return or are refused, and lead to such a map again. *)
Theorem C78_runs m cs : phistory m -> dartCalls m cs -> exists m', runCalls m cs = Ok m' /\ phistory m'.
Proof. exact (phistory_runs cs m). Qed.
Print Assumptions C78_runs.

(** mergeFaces() is refused at the thorn, mergeEdges() at its end; the edges become one, the thorn goes, its far end, and the frame is a loop *)
Example C78_runs_case : phistory thornMap /\ dartCalls thornMap [CMergeFaces (Dart 1 3 0); CMergeEdges (Dart 7 3 4); CMergeEdges (Dart 5 3 0); CRemoveBridge (Dart 1 3 0); CRemoveIsolatedNode (Dart 7 3 2); CMergeEdges (Dart 1 3 2)] /\
  match runCalls thornMap [CMergeFaces (Dart 1 3 0); CMergeEdges (Dart 7 3 4); CMergeEdges (Dart 5 3 0); CRemoveBridge (Dart 1 3 0); CRemoveIsolatedNode (Dart 7 3 2); CMergeEdges (Dart 1 3 2)] with
  | Ok m => (faceCount m, edgeCount m, nodeCount m, map fcontours (cfaces m)) | _ => (0, 0, 0, []) end = (2, 1, 1, [[Dart 1 1 0]; [Dart 1 1 6]]).
Proof. split; [exact thorn_history|]. split; [apply dartCallsB_holds; vm_compute; reflexivity|vm_compute; reflexivity]. Qed.

(** C78: the pixels of each face hang together in four directions, those of each edge in eight. *)
Theorem C78_pixels m : phistory m ->
  (forall l x y u v, owns (cim m) Region l x y -> owns (cim m) Region l u v -> reach ways4 (regionAt (cim m)) x y u v) /\
  (forall l x y u v, owns (cim m) Line l x y -> owns (cim m) Line l u v -> reach ways8 (owns (cim m) Line l) x y u v).
Proof. intros H. destruct (phistory_planar m H) as (_ & A & B & _). split; [exact A|exact B]. Qed.
Print Assumptions C78_pixels.

(** the line with the pixels of the node: both its ends, and the pixel that sticks out *)
Example C78_pixels_case : phistory thick /\ map (fun p => ipix (cim thick) (fst p) (snd p)) [(2, 3); (4, 4); (6, 3); (4, 5)] = [Pix Line 2; Pix Line 2; Pix Line 2; Pix Region 1].
Proof. split; [exact thick_history|vm_compute; reflexivity]. Qed.

(** C78: two darts or single nodes on the border of a face belong to one contour if and only if one can go from one to the other on pixels of nodes and edges. *)
Theorem C78_contours m l a b : phistory m -> onBorder (cim m) l a -> onBorder (cim m) l b ->
  contour m a b <-> reach ways8 (CellTotal_Spec.contour (cim m)) (dcx a) (dcy a) (dcx b) (dcy b).
Proof. exact (phistory_contours m l a b). Qed.
Print Assumptions C78_contours.

(** the bridge in the room and the wall are two contours; the ends of the thorn lie on the contour of the frame *)
Example C78_contours_case : (phistory rm /\ onBorder (cim rm) 2 (Dart 7 5 0) /\ onBorder (cim rm) 2 (Dart 4 1 6) /\ fst (contourParts (cim rm)) 7 5 = 3 /\ fst (contourParts (cim rm)) 4 1 = 1) /\
  phistory thick /\ onBorder (cim thick) 1 (Dart 7 3 4) /\ onBorder (cim thick) 1 (Dart 1 3 0) /\ fst (contourParts (cim thick)) 7 3 = 1 /\ fst (contourParts (cim thick)) 1 3 = 1.
Proof.
  split; [split; [exact rm_history|]|split; [exact thick_history|]].
  all: split; [left; split; [apply isDartB_holds|]; vm_compute; reflexivity|]; split; [left; split; [apply isDartB_holds|]; vm_compute; reflexivity|]; split; vm_compute; reflexivity.
Qed.

(** C78: the constructors from an image return such a map. *)
Theorem C78_threshold crack outer comps cv w h boundary im0 m : small w h -> initCellImage cv w h boundary = Ok im0 -> neat im0 -> unpierced im0 -> lean im0 ->
  (forall im n e f, cellImageOf cv w h boundary = Ok (im, n, e, f) -> rightAreas crack im /\ exactParts comps im) -> threshold crack outer comps cv w h boundary = Ok m -> phistory m.
Proof. exact (threshold_phistory crack outer comps cv w h boundary im0 m). Qed.
Print Assumptions C78_threshold.

Definition sketchMap : cmap := mapOf (threshold pixelArea (fun _ _ _ => []) contourParts true 8 5 sketch).
Example C78_threshold_case : phistory sketchMap /\ map fcontours (cfaces sketchMap) = [[Dart 1 1 0]; [Dart 1 1 6; Dart 4 3 7]; [Dart 4 3 5]].
Proof.
  split; [|vm_compute; reflexivity].
  apply (C78_threshold pixelArea (fun _ _ _ => []) contourParts true 8 5 sketch sketch0 sketchMap); [exact sketch_small|exact sketch_init|exact sketch_neat|exact sketch_unpierced|exact sketch_lean|intros im n e f _; apply C77_helpers|].
  assert (Q : match threshold pixelArea (fun _ _ _ => []) contourParts true 8 5 sketch with Ok _ => true | _ => false end = true) by (vm_compute; reflexivity).
  unfold sketchMap. destruct (threshold pixelArea (fun _ _ _ => []) contourParts true 8 5 sketch) as [m| | |]; [reflexivity|discriminate Q..].
Qed.
