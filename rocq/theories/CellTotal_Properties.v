(** C76: the constructors of the pixel based map return a map. *)
From Verif Require Import Base CellMap_Model CellMap_Spec CellMap_Init CellMap_Examples CellMap_Check CellSigma_Spec CellLink_Spec CellLink_Check CellFace_Spec CellStart_Spec CellStart_Results CellStart_Examples
  CellThresh_Model CellThresh_Spec CellThresh_Results CellThresh_Examples CellThresh_Properties CellTotal_Spec CellTotal_Init CellTotal_Results.
Local Open Scope Z_scope.

(** C76: the constructor from a clean cell image returns, and what it returns is the start of all that C65 to C70 say; the helpers must count the pixels of the nodes and tell the parts of the contour apart. *)
Theorem C76_import crack outer comps im : wfImg im -> framed im -> clean im -> rightAreas crack im -> rightParts comps im -> ruled im ->
  exists m, import crack outer comps im = Ok m /\ cim m = im /\ built m.
Proof. exact (import_built crack outer comps im). Qed.
Print Assumptions C76_import.

Example C76_import_case : wfImg rooms /\ framed rooms /\ clean rooms /\ rightAreas pixelArea rooms /\ rightParts contourParts rooms /\ ruled rooms.
Proof. destruct rooms_clean as (A & B & C). split; [exact A|]. split; [exact B|]. split; [exact C|]. split; [apply area_right|]. split; [apply parts_right|exact rooms_ruled]. Qed.

(** C76: helpers like that exist for all images. *)
Theorem C76_helpers im : rightAreas pixelArea im /\ rightParts contourParts im.
Proof. split; [apply area_right|apply parts_right]. Qed.
Print Assumptions C76_helpers.

(** C76: if there is no node in the corner (1, 1), the constructor refuses the image. *)
Theorem C76_corner_refuted : exists crack outer comps im, wfImg im /\ framed im /\ clean im /\ rightAreas crack im /\ rightParts comps im /\ import crack outer comps im = Exn.
Proof. exact corner_refuted. Qed.
Print Assumptions C76_corner_refuted.

(** C76: the constructors from an image return a map of the cell image of C74 and C75. *)
Theorem C76_threshold crack outer comps cv w h boundary im0 : small w h -> initCellImage cv w h boundary = Ok im0 -> neat im0 -> unpierced im0 -> lean im0 ->
  (forall im n e f, cellImageOf cv w h boundary = Ok (im, n, e, f) -> rightAreas crack im /\ rightParts comps im) ->
  exists m n e f, threshold crack outer comps cv w h boundary = Ok m /\ cellImageOf cv w h boundary = Ok (cim m, n, e, f) /\ built m.
Proof. exact (threshold_total crack outer comps cv w h boundary im0). Qed.
Print Assumptions C76_threshold.

Example C76_threshold_case : small 8 5 /\ initCellImage true 8 5 sketch = Ok sketch0 /\ neat sketch0 /\ unpierced sketch0 /\ lean sketch0 /\
  (forall im n e f, cellImageOf true 8 5 sketch = Ok (im, n, e, f) -> rightAreas pixelArea im /\ rightParts contourParts im).
Proof. split; [exact sketch_small|]. split; [exact sketch_init|]. split; [exact sketch_neat|]. split; [exact sketch_unpierced|]. split; [exact sketch_lean|]. intros im n e f _. apply C76_helpers. Qed.

(** C76: they either do that or throw, and they throw only if a pixel has no cell type. *)
Theorem C76_outcome crack outer comps cv w h boundary : small w h -> (forall im0, initCellImage cv w h boundary = Ok im0 -> neat im0 /\ unpierced im0 /\ lean im0) ->
  (forall im n e f, cellImageOf cv w h boundary = Ok (im, n, e, f) -> rightAreas crack im /\ rightParts comps im) ->
  (exists m, threshold crack outer comps cv w h boundary = Ok m /\ built m) \/ (threshold crack outer comps cv w h boundary = Exn /\ initCellImage cv w h boundary = Exn).
Proof. exact (threshold_decides crack outer comps cv w h boundary). Qed.
Print Assumptions C76_outcome.

Example C76_outcome_case : small 8 5 /\ (forall im0, initCellImage true 8 5 sketch = Ok im0 -> neat im0 /\ unpierced im0 /\ lean im0) /\ threshold pixelArea (fun _ _ _ => []) contourParts true 5 4 stroke = Exn.
Proof. destruct C74_outcome_case as [A B]. split; [exact A|]. split; [exact B|vm_compute; reflexivity]. Qed.

(** C76: so a map from an image has the right sizes, bounds, counts, anchors and degrees, and passes its own checks. *)
Theorem C76_checked crack outer comps cv w h boundary im0 m : small w h -> initCellImage cv w h boundary = Ok im0 -> neat im0 -> unpierced im0 -> lean im0 ->
  (forall im n e f, cellImageOf cv w h boundary = Ok (im, n, e, f) -> rightAreas crack im /\ rightParts comps im) ->
  threshold crack outer comps cv w h boundary = Ok m -> sound m /\ faced m /\ checkBounds m = Ok true /\ checkDarts m = Ok true.
Proof.
  intros A B C D E F H. apply built_checked. destruct (threshold_total crack outer comps cv w h boundary im0 A B C D E F) as (m' & n & e & f & Q & _ & G).
  rewrite H in Q. injection Q as ->. exact G.
Qed.
Print Assumptions C76_checked.

Example C76_checked_case : exists m, threshold pixelArea (fun _ _ _ => []) contourParts true 8 5 sketch = Ok m /\ nodeCount m = 8 /\ edgeCount m = 8 /\ faceCount m = 3 /\ map ndegree (cnodes m) = [0; 2; 2; 1; 2; 3; 2; 2; 2].
Proof. exact sketch_map. Qed.

(** C76: any number of Euler operations after that leaves the map in order. *)
Theorem C76_history crack outer comps cv w h boundary im0 m : small w h -> initCellImage cv w h boundary = Ok im0 -> neat im0 -> unpierced im0 -> lean im0 ->
  (forall im n e f, cellImageOf cv w h boundary = Ok (im, n, e, f) -> rightAreas crack im /\ rightParts comps im) ->
  threshold crack outer comps cv w h boundary = Ok m -> bhistory m.
Proof.
  intros A B C D E F H. apply bh_start. destruct (threshold_total crack outer comps cv w h boundary im0 A B C D E F) as (m' & n & e & f & Q & _ & G).
  rewrite H in Q. injection Q as ->. exact G.
Qed.
Print Assumptions C76_history.
