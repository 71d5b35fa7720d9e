(** C78: a map whose lines become thick, and one whose faces do not hang together. *)
From Coq Require Import Lia.
From Verif Require Import Base CellMap_Model CellMap_Spec CellMap_Scan CellMap_Init CellMap_InitProofs CellMap_Check CellMap_Main CellMap_Examples CellSigma_Spec CellSigma_Proofs CellSigma_Results CellSigma_Examples CellLink_Spec CellLink_Check CellFace_Spec CellFace_Results CellFace_Examples CellStart_Spec CellStart_Results CellStart_Examples
  CellContour_Spec CellContour_Results CellContour_Examples CellCall_Results CellThresh_Model CellThresh_Spec CellThresh_Comps CellThresh_Examples CellTotal_Init CellTotal_Results CellJordan_Spec CellJordan_Results CellJordan_Image CellJordan_Examples CellPlane_Spec CellPlane_Results CellTotal_Spec.
Local Open Scope Z_scope.

Fixpoint dartCallsB (m : cmap) (cs : list ccall) : bool :=
  match cs with [] => true | c :: t => faceAllowedB (cim m) c && match cexec m c with Ok r => dartCallsB (fst r) t | _ => dartCallsB m t end end.
Lemma dartCallsB_holds cs : forall m, dartCallsB m cs = true -> dartCalls m cs.
Proof.
  induction cs as [|c t IH]; intros m H; cbn [dartCallsB dartCalls] in *; [exact I|]. apply Bool.andb_true_iff in H. destruct H as (A & B). split; [apply faceAllowedB_holds, A|]. destruct (cexec m c); auto.
Qed.
Definition afterCalls (m : cmap) (cs : list ccall) : cmap := match runCalls m cs with Ok r => r | _ => m end.
Lemma after_history m cs : phistory m -> dartCallsB m cs = true -> phistory (afterCalls m cs).
Proof. intros H A. destruct (phistory_runs cs m H (dartCallsB_holds cs m A)) as (m' & E & P). unfold afterCalls. rewrite E. exact P. Qed.
Lemma rm_history : phistory rm.
Proof.
  destruct rooms_clean as (A & B & C). exact (ph_start pixelArea (fun _ _ _ => []) contourParts rooms rm A B C (area_right rooms) (parts_exact rooms) rooms_ruled rooms_whole rm_imported).
Qed.

(** a line from the frame into the room, through a node of three pixels *)
Definition thorn : img := picture [
  [R 0; R 0; R 0; R 0; R 0; R 0; R 0; R 0; R 0; R 0; R 0];
  [R 0; V 0; L 0; L 0; L 0; L 0; L 0; L 0; L 0; L 0; R 0];
  [R 0; L 1; R 1; R 1; R 1; R 1; R 1; R 1; R 1; L 0; R 0];
  [R 0; V 1; L 2; L 2; V 2; V 2; L 3; V 3; R 1; L 0; R 0];
  [R 0; L 0; R 1; R 1; V 2; R 1; R 1; R 1; R 1; L 0; R 0];
  [R 0; L 0; R 1; R 1; R 1; R 1; R 1; R 1; R 1; L 0; R 0];
  [R 0; L 0; L 0; L 0; L 0; L 0; L 0; L 0; L 0; L 0; R 0];
  [R 0; R 0; R 0; R 0; R 0; R 0; R 0; R 0; R 0; R 0; R 0]] 11 8.
Definition thornMap : cmap := Eval vm_compute in mapOf (import pixelArea (fun _ _ _ => []) contourParts thorn).
Lemma thorn_imported : import pixelArea (fun _ _ _ => []) contourParts thorn = Ok thornMap.
Proof. vm_compute. reflexivity. Qed.
Lemma thorn_clean : wfImg thorn /\ framed thorn /\ clean thorn.
Proof.
  assert (F : framed thorn) by (apply framedB_holds; vm_compute; reflexivity). split; [apply wfImgB_holds; vm_compute; reflexivity|]. split; [exact F|]. apply (cleanB_holds 40); [exact F|vm_compute; reflexivity].
Qed.
Lemma thorn_ruled : ruled thorn.
Proof.
  split; [split; [vm_compute; intuition congruence|split; [vm_compute; intuition congruence|vm_compute; reflexivity]]|].
  intros x X. split; [lia|]. split; [vm_compute; intuition congruence|]. cbn [iw] in X.
  assert (G : forallb (fun x => negb (ctypeEqb (ptype (ipix thorn x 1)) Region)) (upFrom 1 (iw thorn - 1)) = true) by (vm_compute; reflexivity). rewrite forallb_forall in G.
  specialize (G x). rewrite Bool.negb_true_iff, CellSigma_Proofs.ctypeEqb_ne in G. apply G. apply upFrom_in. lia.
Qed.
Lemma thorn_whole : whole thorn.
Proof. apply wholeB_holds. vm_compute. reflexivity. Qed.
Lemma thorn_history : phistory thornMap.
Proof.
  destruct thorn_clean as (A & B & C). exact (ph_start pixelArea (fun _ _ _ => []) contourParts thorn thornMap A B C (area_right thorn) (parts_exact thorn) thorn_ruled thorn_whole thorn_imported).
Qed.
(** the two edges at the node become one; its pixels form a line that branches *)
Definition thick : cmap := Eval vm_compute in afterCalls thornMap [CMergeEdges (Dart 5 3 0)].
Lemma thick_history : phistory thick.
Proof. assert (E : thick = afterCalls thornMap [CMergeEdges (Dart 5 3 0)]) by (vm_compute; reflexivity). rewrite E. apply after_history; [exact thorn_history|vm_compute; reflexivity]. Qed.

(** the wall between the two rooms that have one label counts as a bridge *)
Lemma split_refuted : exists crack outer comps im m d b, wfImg im /\ framed im /\ clean im /\ rightAreas crack im /\ exactParts comps im /\ ruled im /\ import crack outer comps im = Ok m /\
  isDart (cim m) d /\ leftFaceLabel (cim m) d = rightFaceLabel (cim m) d /\ nextAlpha m d = Ok b /\ (forall k, phis m k d <> Ok b) /\ exists m' s, cexec m (CRemoveBridge d) = Ok (m', s).
Proof.
  destruct twins_clean as (A & B & C). exists pixelArea, (fun _ _ _ => []), contourParts, twins, twinMap, (Dart 3 3 2), (Dart 3 1 6). split; [exact A|]. split; [exact B|]. split; [exact C|]. split; [apply area_right|]. split; [apply parts_exact|]. split; [exact twins_ruled|].
  split; [exact twins_imported|]. split; [apply isDartB_holds; vm_compute; reflexivity|]. split; [vm_compute; reflexivity|]. split; [vm_compute; reflexivity|]. split.
  - intros k E. apply (closed_phis twinMap leftRoom) in E; [|vm_compute; reflexivity|vm_compute; tauto]. revert E. vm_compute. intuition congruence.
  - destruct (cexec twinMap (CRemoveBridge (Dart 3 3 2))) as [[m' s]| | |] eqn:E; [eauto| | |]; exfalso.
    all: assert (Q : match cexec twinMap (CRemoveBridge (Dart 3 3 2)) with Ok _ => true | _ => false end = true) by (vm_compute; reflexivity); rewrite E in Q; discriminate Q.
Qed.
