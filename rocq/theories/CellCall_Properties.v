(** C72: the Euler operations of the pixel based map return or refuse. *)
From Verif Require Import Base CellMap_Model CellMap_Spec CellMap_Init CellMap_Examples CellSigma_Spec CellSigma_Proofs CellSigma_Results CellLink_Spec CellSigma_Examples CellFace_Spec CellFace_Results CellFace_Examples
  CellContour_Spec CellContour_Leave CellContour_Results CellContour_Examples CellCall_Results.
Local Open Scope Z_scope.

(** C72: a call with a dart of the map returns, or is refused by one of its preconditions; it does not leave the arrays or the image, and its loops end. *)
Theorem C72_calls m c : khistory m -> faceAllowed (cim m) c -> (exists m' s, cexec m c = Ok (m', s)) \/ cexec m c = Exn.
Proof. exact (fun H => calls_return m H c). Qed.
Print Assumptions C72_calls.

(** C72: mergeFaces() merges exactly when the faces are different. *)
Theorem C72_mergeFaces m d : khistory m -> isDart (cim m) d ->
  (leftFaceLabel (cim m) d <> rightFaceLabel (cim m) d -> exists m' s, mergeFaces m d = Ok (m', s)) /\ (leftFaceLabel (cim m) d = rightFaceLabel (cim m) d -> mergeFaces m d = Exn).
Proof. exact (fun H => faces_return m H d). Qed.
Print Assumptions C72_mergeFaces.

(** the wall and the bridge of the room *)
Example C72_mergeFaces_case : khistory r0 /\ isDartB (cim r0) (Dart 4 1 6) = true /\ leftFaceLabel (cim r0) (Dart 4 1 6) = Ok 2 /\ rightFaceLabel (cim r0) (Dart 4 1 6) = Ok 1 /\
  isDartB (cim r0) (Dart 7 5 0) = true /\ leftFaceLabel (cim r0) (Dart 7 5 0) = rightFaceLabel (cim r0) (Dart 7 5 0) /\
  (match mergeFaces r0 (Dart 4 1 6) with Ok (_, s) => s | _ => -1 end) = 2 /\ mergeFaces r0 (Dart 7 5 0) = Exn.
Proof. split; [apply kh_start, r0_contoured|]. vm_compute. repeat split. Qed.

(** C72: removeBridge() removes exactly the edges with one face on both sides. *)
Theorem C72_removeBridge m d : khistory m -> isDart (cim m) d ->
  (leftFaceLabel (cim m) d = rightFaceLabel (cim m) d -> exists m' s, removeBridge m d = Ok (m', s)) /\ (leftFaceLabel (cim m) d <> rightFaceLabel (cim m) d -> removeBridge m d = Exn).
Proof. exact (fun H => bridge_returns m H d). Qed.
Print Assumptions C72_removeBridge.

Example C72_removeBridge_case : khistory r0 /\ isDartB (cim r0) (Dart 4 1 6) = true /\ isDartB (cim r0) (Dart 7 5 0) = true /\
  (match removeBridge r0 (Dart 7 5 0) with Ok (_, s) => s | _ => -1 end) = 2 /\ removeBridge r0 (Dart 4 1 6) = Exn.
Proof. split; [apply kh_start, r0_contoured|]. vm_compute. repeat split. Qed.

(** C72: mergeEdges() merges exactly when the node of the dart has two darts, and of two edges. *)
Theorem C72_mergeEdges m d : khistory m -> isDart (cim m) d -> exists d1 d2, nextSigma (cim m) d = Ok d1 /\ nextSigma (cim m) d1 = Ok d2 /\
  (d2 = d -> edgeLabel (cim m) d1 <> edgeLabel (cim m) d -> exists m' s, mergeEdges m d = Ok (m', s)) /\ (d2 <> d \/ edgeLabel (cim m) d1 = edgeLabel (cim m) d -> mergeEdges m d = Exn).
Proof. exact (fun H => edges_return m H d). Qed.
Print Assumptions C72_mergeEdges.

(** three darts at the start of the wall; two when it is gone; in the end a loop and a node with it alone; the end of the bridge *)
Example C72_mergeEdges_case : khistory r0 /\ khistory (contouredAfter 5) /\ khistory (contouredAfter 7) /\
  (nextSigma (cim r0) (Dart 4 1 0) = Ok (Dart 4 1 4) /\ nextSigma (cim r0) (Dart 4 1 4) = Ok (Dart 4 1 6) /\ mergeEdges r0 (Dart 4 1 0) = Exn) /\
  (nextSigma (cim (contouredAfter 5)) (Dart 4 1 0) = Ok (Dart 4 1 4) /\ nextSigma (cim (contouredAfter 5)) (Dart 4 1 4) = Ok (Dart 4 1 0) /\ (match mergeEdges (contouredAfter 5) (Dart 4 1 0) with Ok (_, s) => 0 <=? s | _ => false end) = true) /\
  (isDartB (cim (contouredAfter 7)) (Dart 1 1 0) = true /\ mergeEdges (contouredAfter 7) (Dart 1 1 0) = Exn) /\ (isDartB (cim r0) (Dart 7 5 0) = true /\ mergeEdges r0 (Dart 7 5 0) = Exn).
Proof. split; [apply kh_start, r0_contoured|]. split; [apply contouredAfter_history|]. split; [apply contouredAfter_history|]. vm_compute. repeat split. Qed.

(** C72: removeIsolatedNode() removes every node without edges. *)
Theorem C72_removeIsolatedNode m d : khistory m -> isPlace (cim m) d -> beside (cim m) d -> (forall e, isDart (cim m) e -> nodeOf (cim m) e <> nodeOf (cim m) d) -> exists m' s, removeIsolatedNode m d = Ok (m', s).
Proof. exact (fun H => isolated_returns m H d). Qed.
Print Assumptions C72_removeIsolatedNode.

Example C72_removeIsolatedNode_case : khistory ell0 /\ lonelyB (cim ell0) (dartsOf (cim ell0)) (Dart 6 3 3) = true /\ typeAt (cim ell0) (Dart 6 3 3) 1 = Region /\
  (match removeIsolatedNode ell0 (Dart 6 3 3) with Ok (_, s) => s | _ => -1 end) = 2.
Proof. split; [apply kh_start, ell_contoured|]. vm_compute. repeat split. Qed.

(** C72: so do all calls one after the other. *)
Theorem C72_runs m cs : khistory m -> callsAllowed m cs -> exists m', runCalls m cs = Ok m' /\ khistory m'.
Proof. exact (runs_return cs m). Qed.
Print Assumptions C72_runs.

(** with calls that are refused in between *)
Fixpoint callsAllowedB (f : nat) (m : cmap) (cs : list ccall) : bool :=
  match cs with [] => true | c :: t => contourAllowedB f m c && match cexec m c with Ok r => callsAllowedB f (fst r) t | _ => callsAllowedB f m t end end.
Lemma callsAllowedB_holds f cs : forall m, callsAllowedB f m cs = true -> callsAllowed m cs.
Proof.
  induction cs as [|c t IH]; intros m H; cbn [callsAllowedB callsAllowed] in *; [exact I|]. apply andb_true_iff in H. destruct H as (A & B). split; [apply (contourAllowedB_holds f), A|].
  destruct (cexec m c); auto.
Qed.
Example C72_runs_case : khistory r0 /\ callsAllowed r0 (CMergeEdges (Dart 4 1 0) :: CMergeFaces (Dart 7 5 0) :: tidying) /\
  (match runCalls r0 (CMergeEdges (Dart 4 1 0) :: CMergeFaces (Dart 7 5 0) :: tidying) with Ok m => contoursOf m | _ => [] end) = [Some [Dart 1 1 0]; None; Some [Dart 1 1 6]].
Proof. split; [apply kh_start, r0_contoured|]. split; [apply (callsAllowedB_holds 20); vm_compute; reflexivity|]. vm_compute. reflexivity. Qed.
