(** C46, C62, C63, C64: the pixel based map. *)
From Verif Require Import Base CellMap_Model CellMap_Spec CellMap_Scan CellMap_Proofs CellMap_Main CellMap_Init CellMap_InitProofs CellMap_Check CellMap_Examples.
Local Open Scope Z_scope.

(** C46: the books the constructor makes for an imported cell image are right, provided it returns, the image has the frame of the infinite face around it, and every line pixel belongs to an edge that begins at a node. *)
Theorem C46_constructed (crack : img -> Z -> Z -> Z) (outer : img -> Z -> Z -> list Z) (comps : img -> (Z -> Z -> Z) * nat) (im : img) (m : cmap) :
  wfImg im -> framed im -> import crack outer comps im = Ok m ->
  (forall l x y, owns (cim m) Line l x y -> exists c, isCell m Line (Z.to_nat l) c) -> sound m.
Proof. exact (import_right crack outer comps im m). Qed.
Print Assumptions C46_constructed.

(** two rooms with a wall, an isolated node and a bridge: six nodes, five edges, three faces *)
Example C46_constructed_case : exists crack outer comps, wfImg rooms /\ framed rooms /\ import crack outer comps rooms = Ok r0 /\
  (forall l x y, owns (cim r0) Line l x y -> exists c, isCell r0 Line (Z.to_nat l) c) /\
  sizes r0 Vertex = [Some 1; Some 1; Some 1; Some 1; Some 1; Some 1] /\ sizes r0 Line = [Some 2; Some 19; Some 8; Some 5; Some 1] /\ sizes r0 Region = [Some 4294967295; Some 10; Some 26].
Proof.
  exists (fun _ _ _ => 1), (fun _ _ _ => []), roomsComponents. split; [apply wfImgB_holds; vm_compute; reflexivity|]. split; [apply framedB_holds; vm_compute; reflexivity|].
  split; [vm_compute; reflexivity|]. split; [apply linesLiveB_holds; vm_compute; reflexivity|]. computes.
Qed.
(** a node with a hole: the pixel in the middle becomes one of the node, face 2 is not a face *)
Example C46_constructed_hole : exists crack outer comps, wfImg ring /\ framed ring /\ import crack outer comps ring = Ok r1 /\
  (forall l x y, owns (cim r1) Line l x y -> exists c, isCell r1 Line (Z.to_nat l) c) /\ ipix ring 4 4 = Pix Region 2 /\ ipix (cim r1) 4 4 = Pix Vertex 1 /\
  sizes r1 Vertex = [Some 1; Some 9] /\ sizes r1 Region = [Some 4294967295; Some 16; None].
Proof.
  exists ringArea, ringOuter, ringComponents. split; [apply wfImgB_holds; vm_compute; reflexivity|]. split; [apply framedB_holds; vm_compute; reflexivity|].
  split; [vm_compute; reflexivity|]. split; [apply linesLiveB_holds; vm_compute; reflexivity|]. computes.
Qed.

(** C46: whatever operations were done, the bounds of every cell are the bounding rectangle of the pixels that carry its type and label, and its size is their number (the size of the infinite face is a mark, not a number). *)
Theorem C46_exact m t l c : chistory sound m -> isCell m t l c ->
  clabel c = Z.of_nat l /\ exactRect (owns (cim m) t (Z.of_nat l)) (cbounds c) /\ (~ (t = Region /\ l = 0%nat) -> manyPixels (owns (cim m) t (Z.of_nat l)) (csize c)).
Proof. exact (live_exact m t l c). Qed.
Print Assumptions C46_exact.

Example C46_exact_case : chistory sound (tidied 7) /\ isCell (tidied 7) Region 2 (CInfo 2 (Rect 2 2 11 7) 45) /\ isCell (tidied 7) Line 1 (CInfo 1 (Rect 1 1 12 8) 31).
Proof. split; [apply tidied_history|]. split; split; vm_compute; reflexivity. Qed.

(** C46: a removed cell has no pixels. *)
Theorem C46_removed m t l c : chistory sound m -> t <> ErrorType -> nth_error (cellsOf m t) l = Some c -> initialized c = false -> forall x y, ~ owns (cim m) t (Z.of_nat l) x y.
Proof. exact (removed_nothing m t l c). Qed.
Print Assumptions C46_removed.

Example C46_removed_case : chistory sound (tidied 7) /\ sizes (tidied 7) Vertex = [Some 1; None; None; None; None; None] /\ sizes (tidied 7) Line = [None; Some 31; None; None; None].
Proof. split; [apply tidied_history|]. split; vm_compute; reflexivity. Qed.

(** C46: every pixel belongs to a cell of the map. *)
Theorem C46_pixel m t l x y : chistory sound m -> owns (cim m) t l x y -> t <> ErrorType -> exists c, isCell m t (Z.to_nat l) c /\ clabel c = l.
Proof. exact (pixel_cell m t l x y). Qed.
Print Assumptions C46_pixel.

Example C46_pixel_case : chistory sound (tidied 7) /\ owns (cim (tidied 7)) Region 2 8 3 /\ owns (cim (tidied 7)) Line 1 4 1 /\ owns (cim r0) Vertex 3 8 3 /\ owns (cim r0) Vertex 1 4 1.
Proof. split; [apply tidied_history|]. repeat match goal with |- _ /\ _ => split end; (split; [vm_compute; split; congruence|]; split; [vm_compute; split; congruence | vm_compute; reflexivity]). Qed.

(** C46: nodeCount(), edgeCount() and faceCount() are the numbers of cells. *)
Theorem C46_counts m t : chistory sound m -> t <> ErrorType -> countOf m t = Z.of_nat (length (filter initialized (cellsOf m t))).
Proof. exact (counts_exact m t). Qed.
Print Assumptions C46_counts.

Example C46_counts_case : chistory sound (tidied 7) /\ (nodeCount r0, edgeCount r0, faceCount r0) = (6, 5, 3) /\ (nodeCount (tidied 7), edgeCount (tidied 7), faceCount (tidied 7)) = (1, 1, 2).
Proof. split; [apply tidied_history|]. split; vm_compute; reflexivity. Qed.

(** C46: removeIsolatedNode trusts isSingular(): a dart that lost its edge is singular although other edges end at its node. The node is removed, a pixel of the face then lies outside of its bounds, and the bounds test of checkConsistency() does not notice. *)
Theorem C46_refuted : exists m c m' s, chistory sound m /\ cexec m c = Ok (m', s) /\ ~ recount m' /\ checkBounds m' = Ok true.
Proof. exact (stale_refuted). Qed.
Print Assumptions C46_refuted.

(** C46: without the condition on the line pixels the constructor returns a map with line pixels that belong to no edge. *)
Theorem C46_import_refuted : exists crack outer comps im m, wfImg im /\ framed im /\ import crack outer comps im = Ok m /\ ~ recount m.
Proof. exact (tee_refuted). Qed.
Print Assumptions C46_import_refuted.

(** C62: scanning a cell visits exactly its pixels, row by row from left to right; with cropping, those inside the base image. *)
Theorem C62_scan m t l c crop : chistory sound m -> isCell m t l c -> exists ps, scanCell m t (Z.of_nat l) crop = Ok ps /\ Sorted.StronglySorted before ps /\
  forall x y, In (x, y) ps <-> owns (cim m) t (Z.of_nat l) x y /\ (crop = true -> 2 <= x < iw (cim m) - 2 /\ 2 <= y < ih (cim m) - 2).
Proof. exact (scan_exact m t l c crop). Qed.
Print Assumptions C62_scan.

Example C62_scan_case : chistory sound (tidied 1) /\ isCell (tidied 1) Line 3 (CInfo 3 (Rect 4 2 5 7) 5) /\ scanCell (tidied 1) Line 3 false = Ok [(4, 2); (4, 3); (4, 4); (4, 5); (4, 6)] /\
  scanCell (tidied 1) Line 0 false = Ok [(2, 1); (3, 1)] /\ scanCell (tidied 1) Line 0 true = Ok [].
Proof. split; [apply tidied_history|]. split; [split; vm_compute; reflexivity|]. computes. Qed.

(** C62: the number of positions visited is the size of the cell. *)
Theorem C62_size m t l c : chistory sound m -> isCell m t l c -> ~ (t = Region /\ l = 0%nat) ->
  exists ps, scanCell m t (Z.of_nat l) false = Ok ps /\ csize c = Z.of_nat (length ps).
Proof. exact (scan_size m t l c). Qed.
Print Assumptions C62_size.

Example C62_size_case : chistory sound (tidied 1) /\ isCell (tidied 1) Region 2 (CInfo 2 (Rect 5 2 11 7) 27).
Proof. split; [apply tidied_history|]. split; vm_compute; reflexivity. Qed.

(** C63: an operation that returns has removed the cells it is documented to remove, their pixels belong to the cell it returns, and all other pixels and cells are as before. *)
Theorem C63_effect m c m' s : chistory sound m -> callAllowed m c -> cexec m c = Ok (m', s) -> callEffect m m' c s.
Proof. exact (call_effect m c m' s). Qed.
Print Assumptions C63_effect.

Example C63_effect_case : chistory sound (tidied 4) /\ callAllowed (tidied 4) (CMergeFaces (Dart 4 1 6)) /\ cexec (tidied 4) (CMergeFaces (Dart 4 1 6)) = Ok (tidied 5, 2) /\
  ipix (cim (tidied 4)) 4 3 = Pix Line 3 /\ ipix (cim (tidied 5)) 4 3 = Pix Region 2 /\ ipix (cim (tidied 4)) 3 3 = Pix Region 1 /\ ipix (cim (tidied 5)) 3 3 = Pix Region 2.
Proof. split; [apply tidied_history|]. split; [apply allowedB_holds; vm_compute; reflexivity|]. computes. Qed.

(** C63: the infinite face stays. *)
Theorem C63_infinite m c m' s : chistory sound m -> callAllowed m c -> cexec m c = Ok (m', s) ->
  (exists c, isCell m Region 0 c) /\ (exists c, isCell m' Region 0 c).
Proof. exact (infinite_stays m c m' s). Qed.
Print Assumptions C63_infinite.

Example C63_infinite_case : chistory sound (tidied 0) /\ callAllowed (tidied 0) (CMergeFaces (Dart 1 1 0)) /\ exists m, cexec (tidied 0) (CMergeFaces (Dart 1 1 0)) = Ok (m, 0) /\ sizes m Region = [Some 11; None; Some 26].
Proof.
  split; [apply tidied_history|]. split; [apply allowedB_holds; vm_compute; reflexivity|].
  exists (match cexec (tidied 0) (CMergeFaces (Dart 1 1 0)) with Ok (m, _) => m | _ => r0 end). split; vm_compute; reflexivity.
Qed.

(** C64: the bounds test of checkConsistency() passes. *)
Theorem C64_check m : chistory sound m -> checkBounds m = Ok true.
Proof. exact (check_passes m). Qed.
Print Assumptions C64_check.

Example C64_check_case : chistory sound (tidied 5) /\ checkBounds (tidied 5) = Ok true /\
  checkCells (setFaces r0 [FInfo (CInfo 0 (Rect 0 0 13 9) 5) []; FInfo (CInfo 1 (Rect 1 2 4 7) 10) []]) Region [CInfo 1 (Rect 1 2 4 7) 10] = Ok false.
Proof. split; [apply tidied_history|]. computes. Qed.

