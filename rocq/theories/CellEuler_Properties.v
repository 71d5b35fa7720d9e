(** C79: Euler's formula for the pixel based map. *)
From Coq Require Import Lia.
From Verif Require Import Base CellMap_Model CellMap_Spec CellMap_Scan CellMap_Init CellMap_Examples CellSigma_Spec CellLink_Spec CellLink_Check CellSigma_Results CellFace_Spec CellFace_Results CellStart_Spec CellContour_Spec CellContour_Examples CellThresh_Spec CellThresh_Examples CellCall_Results CellJordan_Spec CellJordan_Examples
  CellPlane_Spec CellPlane_Results CellPlane_Examples CellPlane_Properties CellTotal_Spec CellEuler_Spec CellEuler_Step CellEuler_Clear CellEuler_Parts CellEuler_Examples.
Local Open Scope Z_scope.

(** C79: after any calls, the number of nodes minus that of edges plus that of faces is one more than the number of connected parts of the contour. *)
Theorem C79_euler m n : phistory m -> (manyParts (contour (cim m)) n <-> nodeCount m - edgeCount m + faceCount m = 1 + n).
Proof. exact (euler_parts m n). Qed.
Print Assumptions C79_euler.

Lemma counted m v e f n : phistory m -> (nodeCount m, edgeCount m, faceCount m) = (v, e, f) -> v - e + f = 1 + n -> manyParts (contour (cim m)) n.
Proof. intros H E Q. injection E as <- <- <-. apply C79_euler; assumption. Qed.

(** the frame with the wall, the single node and the bridge; after the calls of [clearing] the ends of the bridge are single nodes, and one is gone *)
Example C79_euler_case : (phistory rm /\ manyParts (contour (cim rm)) 3 /\ (nodeCount rm, edgeCount rm, faceCount rm) = (6, 5, 3)) /\
  phistory (afterCalls rm clearing) /\ (nodeCount (afterCalls rm clearing), edgeCount (afterCalls rm clearing), faceCount (afterCalls rm clearing)) = (4, 2, 2) /\ manyParts (contour (cim (afterCalls rm clearing))) 3.
Proof.
  split; [split; [exact rm_history|split; [apply (partsB_holds (cim rm) [(1, 1); (8, 3); (7, 5)])|]; vm_compute; reflexivity]|].
  assert (H : phistory (afterCalls rm clearing)) by (apply after_history; [exact rm_history|vm_compute; reflexivity]). assert (E : (nodeCount (afterCalls rm clearing), edgeCount (afterCalls rm clearing), faceCount (afterCalls rm clearing)) = (4, 2, 2)) by (vm_compute; reflexivity).
  split; [exact H|]. split; [exact E|]. apply (counted (afterCalls rm clearing) 4 2 2 3 H E). reflexivity.
Qed.

(** C79: if two regions carry one label, it does not hold. *)
Theorem C79_split_refuted : exists crack outer comps im m n, wfImg im /\ framed im /\ clean im /\ rightAreas crack im /\ exactParts comps im /\ ruled im /\ import crack outer comps im = Ok m /\
  manyParts (contour (cim m)) n /\ nodeCount m - edgeCount m + faceCount m <> 1 + n.
Proof. exact twins_euler. Qed.
Print Assumptions C79_split_refuted.

(** C79: the faces have together as many contours as there are parts and faces but the infinite one: each finite face has its outer contour, and each part is a hole in one face. *)
Theorem C79_contours m n : phistory m -> manyParts (contour (cim m)) n -> contourCount m = n + faceCount m - 1.
Proof. intros H P. apply (C79_euler m n H) in P. pose proof (euler_two m H) as E. unfold euler in E. lia. Qed.
Print Assumptions C79_contours.

Example C79_contours_case : phistory rm /\ manyParts (contour (cim rm)) 3 /\ faceCount rm = 3 /\ contourCount rm = 5 /\ map fcontours (cfaces rm) = [[Dart 1 1 0]; [Dart 1 1 6]; [Dart 4 1 6; Dart 8 3 3; Dart 7 5 0]].
Proof. split; [exact rm_history|]. split; [apply (partsB_holds (cim rm) [(1, 1); (8, 3); (7, 5)]); vm_compute; reflexivity|]. split; [vm_compute; reflexivity|]. split; vm_compute; reflexivity. Qed.

(** C79: what a call does to the numbers, if it is not refused. *)
Theorem C79_calls m c m' s n n' : phistory m -> faceAllowed (cim m) c -> cexec m c = Ok (m', s) -> manyParts (contour (cim m)) n -> manyParts (contour (cim m')) n' ->
  match c with
  | CRemoveIsolatedNode _ => nodeCount m' = nodeCount m - 1 /\ edgeCount m' = edgeCount m /\ faceCount m' = faceCount m /\ contourCount m' = contourCount m - 1 /\ n' = n - 1
  | CMergeFaces _ => nodeCount m' = nodeCount m /\ edgeCount m' = edgeCount m - 1 /\ faceCount m' = faceCount m - 1 /\ contourCount m' = contourCount m - 1 /\ n' = n
  | CRemoveBridge _ => nodeCount m' = nodeCount m /\ edgeCount m' = edgeCount m - 1 /\ faceCount m' = faceCount m /\ contourCount m' = contourCount m + 1 /\ n' = n + 1
  | CMergeEdges _ => nodeCount m' = nodeCount m - 1 /\ edgeCount m' = edgeCount m - 1 /\ faceCount m' = faceCount m /\ contourCount m' = contourCount m /\ n' = n
  end.
Proof.
  intros H A E P P'. pose proof (call_numbers m c m' s (proj1 (phistory_planar m H)) A E) as N. apply (C79_euler m n H) in P. apply (C79_euler m' n' (ph_call m c m' s H A E)) in P'. destruct c; lia.
Qed.
Print Assumptions C79_calls.

(** the bridge goes: a part more *)
Example C79_calls_case : phistory rm /\ faceAllowed (cim rm) (CRemoveBridge (Dart 7 5 0)) /\ manyParts (contour (cim rm)) 3 /\
  exists m' s, cexec rm (CRemoveBridge (Dart 7 5 0)) = Ok (m', s) /\ (nodeCount m', edgeCount m', faceCount m', contourCount m') = (6, 4, 3, 6) /\ manyParts (contour (cim m')) 4.
Proof.
  split; [exact rm_history|]. assert (A : faceAllowed (cim rm) (CRemoveBridge (Dart 7 5 0))) by (apply isDartB_holds; vm_compute; reflexivity). split; [exact A|]. split; [apply (partsB_holds (cim rm) [(1, 1); (8, 3); (7, 5)]); vm_compute; reflexivity|].
  assert (Q : match cexec rm (CRemoveBridge (Dart 7 5 0)) with Ok (m', _) => (nodeCount m', edgeCount m', faceCount m', contourCount m') | _ => (0, 0, 0, 0) end = (6, 4, 3, 6)) by (vm_compute; reflexivity).
  destruct (cexec rm (CRemoveBridge (Dart 7 5 0))) as [[m' s]| | |] eqn:E; [|discriminate Q..]. exists m', s. split; [reflexivity|]. split; [exact Q|].
  apply (counted m' 6 4 3 4 (ph_call rm _ m' s rm_history A E)); [|reflexivity]. revert Q. generalize (nodeCount m') (edgeCount m') (faceCount m') (contourCount m'). intros a b c d Q. injection Q as -> -> -> _. reflexivity.
Qed.

(** C79: the calls can always be chosen so that all edges and nodes go and the infinite face alone is left. *)
Theorem C79_clears m : phistory m -> exists cs m', dartCalls m cs /\ runCalls m cs = Ok m' /\ phistory m' /\ cleared m'.
Proof. exact (clears m). Qed.
Print Assumptions C79_clears.

(** the wall, the bridge, the three edges of the frame, and the six nodes *)
Definition sweep : list ccall := [CMergeFaces (Dart 4 1 6); CRemoveBridge (Dart 7 5 0); CMergeFaces (Dart 1 1 0); CRemoveBridge (Dart 4 1 0); CRemoveBridge (Dart 1 1 6);
  CRemoveIsolatedNode (Dart 1 1 0); CRemoveIsolatedNode (Dart 4 1 0); CRemoveIsolatedNode (Dart 4 7 0); CRemoveIsolatedNode (Dart 8 3 0); CRemoveIsolatedNode (Dart 7 5 0); CRemoveIsolatedNode (Dart 9 5 0)].
Example C79_clears_case : phistory rm /\ dartCalls rm sweep /\ match runCalls rm sweep with Ok m => (nodeCount m, edgeCount m, faceCount m, contourCount m) | _ => (1, 1, 0, 1) end = (0, 0, 1, 0).
Proof. split; [exact rm_history|]. split; [apply dartCallsB_holds; vm_compute; reflexivity|vm_compute; reflexivity]. Qed.
