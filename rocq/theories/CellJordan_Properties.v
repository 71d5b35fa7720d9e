(** C77: the constructors of the pixel based map put the contours of the faces in order. *)
From Verif Require Import Base CellMap_Model CellMap_Spec CellMap_Scan CellMap_Init CellMap_Examples CellMap_Check CellSigma_Spec CellLink_Spec CellLink_Check CellFace_Spec CellFace_Results CellStart_Spec CellStart_Results CellStart_Examples CellSigma_Proofs CellSigma_Results
  CellThresh_Model CellThresh_Spec CellThresh_Results CellThresh_Examples CellTotal_Spec CellTotal_Init CellTotal_Results CellTotal_Properties CellContour_Results CellJordan_Spec CellJordan_Results CellJordan_Image CellJordan_Examples CellContour_Spec.
Local Open Scope Z_scope.

(** C77: a map made from a clean cell image whose faces hang together has one anchor for each part of the border of each face. *)
Theorem C77_contoured crack outer comps im : wfImg im -> framed im -> clean im -> rightAreas crack im -> exactParts comps im -> ruled im -> whole im ->
  exists m, import crack outer comps im = Ok m /\ contoured m.
Proof.
  intros A B C D E F G. destruct (import_built crack outer comps im A B C D (proj1 E) F) as (m & H & _). exists m. split; [exact H|]. exact (import_contoured crack outer comps im A B C D E F G m H).
Qed.
Print Assumptions C77_contoured.

(** the room on the right has three parts: the frame with the wall, the single node and the bridge *)
Example C77_contoured_case : (wfImg rooms /\ framed rooms /\ clean rooms /\ rightAreas pixelArea rooms /\ exactParts contourParts rooms /\ ruled rooms /\ whole rooms) /\
  import pixelArea (fun _ _ _ => []) contourParts rooms = Ok rm /\ map fcontours (cfaces rm) = [[Dart 1 1 0]; [Dart 1 1 6]; [Dart 4 1 6; Dart 8 3 3; Dart 7 5 0]].
Proof.
  split; [|split; [exact rm_imported|vm_compute; reflexivity]]. destruct rooms_clean as (A & B & C). split; [exact A|]. split; [exact B|]. split; [exact C|]. split; [apply area_right|]. split; [apply parts_exact|]. split; [exact rooms_ruled|exact rooms_whole].
Qed.

(** C77: if two rooms have the same label, the constructor forgets the border of the second. *)
Theorem C77_split_refuted : exists crack outer comps im m, wfImg im /\ framed im /\ clean im /\ rightAreas crack im /\ exactParts comps im /\ ruled im /\
  import crack outer comps im = Ok m /\ ~ contoured m.
Proof. exact whole_refuted. Qed.
Print Assumptions C77_split_refuted.

(** C77: two darts or single nodes on the border of a face belong to one contour if and only if one can go from one to the other on pixels of nodes and edges. *)
Theorem C77_contours crack outer comps im m : wfImg im -> framed im -> clean im -> rightAreas crack im -> exactParts comps im -> ruled im -> whole im ->
  import crack outer comps im = Ok m -> forall l a b, onBorder im l a -> onBorder im l b -> contour m a b <-> reach ways8 (CellTotal_Spec.contour im) (dcx a) (dcy a) (dcx b) (dcy b).
Proof. intros A B C D E F G H. exact (contour_reach crack outer comps im A B C D E F G m H). Qed.
Print Assumptions C77_contours.

Example C77_contours_case : onBorder rooms 2 (Dart 4 1 6) /\ onBorder rooms 2 (Dart 7 5 0) /\ onBorder rooms 2 (Dart 9 5 4) /\
  fst (contourParts rooms) 4 1 <> fst (contourParts rooms) 7 5 /\ fst (contourParts rooms) 7 5 = fst (contourParts rooms) 9 5.
Proof.
  split; [left; split; [apply isDartB_holds|]; vm_compute; reflexivity|]. split; [left; split; [apply isDartB_holds|]; vm_compute; reflexivity|]. split; [left; split; [apply isDartB_holds|]; vm_compute; reflexivity|].
  split; [vm_compute; discriminate|vm_compute; reflexivity].
Qed.

(** C77: an edge with the same face on both sides may be removed as a bridge: its two darts belong to one contour. *)
Theorem C77_bridge m d : faced m -> slim (cim m) -> smooth (cim m) -> drawn (cim m) -> whole (cim m) -> isDart (cim m) d -> sideOf (cim m) 1 d = sideOf (cim m) (-1) d ->
  contourAllowed m (CRemoveBridge d).
Proof.
  intros A B C D E F G. destruct (CellLink_Check.alpha_opposite m d (dh_start m (proj1 A)) F) as (b & N & _). split; [exact F|]. destruct (bridge_contour m A B C D E d b F N G) as (k & H). exists k, b. auto.
Qed.
Print Assumptions C77_bridge.

Example C77_bridge_case : (faced rm /\ slim (cim rm) /\ smooth (cim rm) /\ drawn (cim rm) /\ whole (cim rm)) /\ isDart (cim rm) (Dart 7 5 0) /\ sideOf (cim rm) 1 (Dart 7 5 0) = sideOf (cim rm) (-1) (Dart 7 5 0).
Proof.
  split; [|split; [apply isDartB_holds|]; vm_compute; reflexivity]. destruct rooms_clean as (A & B & C). split; [|exact (conj (proj1 (proj2 (proj2 (proj2 (proj2 (proj2 (proj2 (proj2 C)))))))) (conj (proj1 (proj2 (proj2 (proj2 (proj2 (proj2 (proj2 (proj2 (proj2 C))))))))) (conj (proj1 (proj2 (proj2 (proj2 (proj2 (proj2 (proj2 (proj2 (proj2 (proj2 C)))))))))) rooms_whole)))].
  apply built_faced. exact (fresh_built pixelArea (fun _ _ _ => []) contourParts rooms A B C (area_right rooms) (parts_exact rooms) rooms_ruled rm rm_imported).
Qed.

(** C77: helpers like that exist for all images. *)
Theorem C77_helpers im : rightAreas pixelArea im /\ exactParts contourParts im.
Proof. split; [apply area_right|apply parts_exact]. Qed.
Print Assumptions C77_helpers.

(** C77: the faces of the cell image made from an image hang together. *)
Theorem C77_whole cv w h boundary im0 im n e f : small w h -> initCellImage cv w h boundary = Ok im0 -> neat im0 -> unpierced im0 -> lean im0 ->
  cellImageOf cv w h boundary = Ok (im, n, e, f) -> whole im.
Proof. intros A B C D E. exact (image_whole pixelArea (fun _ _ _ => []) contourParts cv w h boundary im0 A B C D E im n e f). Qed.
Print Assumptions C77_whole.

(** C77: so the constructors from an image put the contours in order, and C64, C71 and C72 hold for what they return. *)
Theorem C77_threshold crack outer comps cv w h boundary im0 m : small w h -> initCellImage cv w h boundary = Ok im0 -> neat im0 -> unpierced im0 -> lean im0 ->
  (forall im n e f, cellImageOf cv w h boundary = Ok (im, n, e, f) -> rightAreas crack im /\ exactParts comps im) ->
  threshold crack outer comps cv w h boundary = Ok m -> khistory m /\ (shortContours m -> checkConsistency m = Ok true).
Proof.
  intros A B C D E F H. assert (K : khistory m) by (apply kh_start; exact (threshold_contoured crack outer comps cv w h boundary im0 A B C D E m F H)). split; [exact K|]. exact (consistency m K).
Qed.
Print Assumptions C77_threshold.

Example C77_threshold_case : small 8 5 /\ initCellImage true 8 5 sketch = Ok sketch0 /\ neat sketch0 /\ unpierced sketch0 /\ lean sketch0 /\
  (forall im n e f, cellImageOf true 8 5 sketch = Ok (im, n, e, f) -> rightAreas pixelArea im /\ exactParts contourParts im) /\
  match threshold pixelArea (fun _ _ _ => []) contourParts true 8 5 sketch with Ok m => (map fcontours (cfaces m), checkConsistency m) | _ => ([], Exn) end =
    ([[Dart 1 1 0]; [Dart 1 1 6; Dart 4 3 7]; [Dart 4 3 5]], Ok true).
Proof.
  split; [exact sketch_small|]. split; [exact sketch_init|]. split; [exact sketch_neat|]. split; [exact sketch_unpierced|]. split; [exact sketch_lean|]. split; [intros im n e f _; apply C77_helpers|]. vm_compute. reflexivity.
Qed.
