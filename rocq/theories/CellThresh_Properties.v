(** C73, C74 and C75: the pixel based map made from an image and the value of its boundaries. *)
From Verif Require Import Base CellMap_Model CellMap_Spec CellMap_Init CellMap_Examples CellSigma_Spec CellLink_Spec CellFace_Spec CellStart_Spec CellSigma_Examples
  CellThresh_Model CellThresh_Spec CellThresh_Types CellThresh_Draw CellThresh_Results CellThresh_Examples CellThresh_Corner.
Local Open Scope Z_scope.

(** ** C73: nodes, lines and regions *)

(** C73: every image is either turned into a cell image or refused; it is only refused because of a pixel with four or more neighbours in one or two groups. *)
Theorem C73_outcome cv w h boundary : 0 <= w -> 0 <= h -> (exists im, initCellImage cv w h boundary = Ok im) \/
  (initCellImage cv w h boundary = Exn /\ exists x y nb, isContour w h boundary x y /\ seenAs w h boundary x y nb /\ crowded nb).
Proof. exact (init_decides cv w h boundary). Qed.
Print Assumptions C73_outcome.

Example C73_outcome_case : isOk (initCellImage true 8 5 sketch) = true /\ isOk (initCellImage false 8 5 sketch) = true /\ initCellImage true 5 4 stroke = Exn.
Proof. split; [vm_compute; reflexivity|]. split; vm_compute; reflexivity. Qed.

(** C73: thick contours are refused. *)
Theorem C73_refused cv w h boundary x y nb : 0 <= w -> 0 <= h -> isContour w h boundary x y -> seenAs w h boundary x y nb -> thickSide nb -> initCellImage cv w h boundary = Exn.
Proof. intros Hw Hh. exact (init_refuses cv w h boundary Hw Hh x y nb). Qed.
Print Assumptions C73_refused.

Example C73_refused_case : exists nb, isContour 5 4 stroke 4 4 /\ seenAs 5 4 stroke 4 4 nb /\ thickSide nb.
Proof. exact stroke_side. Qed.

(** C73: with cornerType = Vertex so are corners with a diagonal step beside each of the two arms, which have four neighbours. *)
Theorem C73_corner w h boundary x y nb : 0 <= w -> 0 <= h -> isContour w h boundary x y -> seenAs w h boundary x y nb -> lineLike nb -> rightAngle nb = true -> (4 <= count8 nb)%nat -> initCellImage true w h boundary = Exn.
Proof. exact (corner_refused w h boundary x y nb). Qed.
Print Assumptions C73_corner.

(** the same image is accepted with corners as lines *)
Example C73_corner_case : isOk (initCellImage false 5 5 bend) = true /\ exists nb, isContour 5 5 bend 4 4 /\ seenAs 5 5 bend 4 4 nb /\ lineLike nb /\ rightAngle nb = true /\ (4 <= count8 nb)%nat.
Proof. split; [exact bend_line|exact bend_corner]. Qed.

(** C73: the image gets a border of two pixels; the regions are the pixels that do not belong to a contour. *)
Theorem C73_regions cv w h boundary im : 0 <= w -> 0 <= h -> initCellImage cv w h boundary = Ok im -> iw im = w + 4 /\ ih im = h + 4 /\
  (forall x y, 0 <= x < w + 4 -> 0 <= y < h + 4 -> plabel (ipix im x y) = 0 /\ (ptype (ipix im x y) = Region <-> ~ isContour w h boundary x y)).
Proof.
  intros Hw Hh E. destruct (init_size cv w h boundary Hw Hh im E) as [A B]. split; [exact A|]. split; [exact B|]. intros x y X Y.
  split; [exact (init_blank cv w h boundary Hw Hh im E x y X Y)|exact (init_regions cv w h boundary Hw Hh im E x y X Y)].
Qed.
Print Assumptions C73_regions.

Example C73_regions_case : initCellImage true 8 5 sketch = Ok sketch0 /\ match initCellImage true 8 5 sketch with Ok im => nth 4 (codes im) [] | _ => [] end = [0; 100; 0; 100; 0; 100; 0; 0; 100; 0; 100; 0].
Proof. split; [exact sketch_init|vm_compute; reflexivity]. Qed.

(** C73: a contour pixel belongs to a line exactly if the contour goes on from it in two ways (and, if corners are to be nodes, does not turn by a right angle there); the other ones are nodes. The corner (1, 1) is a node. *)
Theorem C73_lines cv w h boundary im : 0 <= w -> 0 <= h -> initCellImage cv w h boundary = Ok im -> ptype (ipix im 1 1) = Vertex /\
  forall x y nb, isContour w h boundary x y -> seenAs w h boundary x y nb -> (x, y) <> (1, 1) ->
    (ptype (ipix im x y) = Line <-> lineLike nb /\ (cv = true -> rightAngle nb = false)) /\
    (ptype (ipix im x y) = Vertex <-> ~ (lineLike nb /\ (cv = true -> rightAngle nb = false))).
Proof.
  intros Hw Hh E. split; [rewrite (init_corner cv w h boundary Hw Hh im E); reflexivity|]. intros x y nb C S N.
  split; [exact (init_line cv w h boundary Hw Hh im E x y nb C S N)|exact (init_vertex cv w h boundary Hw Hh im E x y nb C S N)].
Qed.
Print Assumptions C73_lines.

(** a pixel of the small ring is a line; the pixel next to the end of the other line has neighbours in three groups *)
Example C73_lines_case : initCellImage true 8 5 sketch = Ok sketch0 /\ isContour 8 5 sketch 3 4 /\ (exists nb, seenAs 8 5 sketch 3 4 nb /\ lineLike nb /\ rightAngle nb = false) /\
  isContour 8 5 sketch 8 5 /\ (exists nb, seenAs 8 5 sketch 8 5 nb /\ ~ lineLike nb) /\ match initCellImage true 8 5 sketch with Ok im => (ptype (ipix im 3 4), ptype (ipix im 8 5)) | _ => (ErrorType, ErrorType) end = (Line, Vertex).
Proof.
  split; [exact sketch_init|]. split; [apply (contour_spec true); vm_compute; reflexivity|]. split; [|split; [apply (contour_spec true); vm_compute; reflexivity|split; [|vm_compute; reflexivity]]].
  - exists (ringAt 8 5 sketch 3 4). split; [apply ring_seen|]. split; [split; vm_compute; reflexivity|vm_compute; reflexivity].
  - exists (ringAt 8 5 sketch 8 5). split; [apply ring_seen|]. intros [K _]. vm_compute in K. discriminate K.
Qed.

(** C73: ends of lines, single pixels and pixels where three or four lines meet are nodes. *)
Theorem C73_nodes cv w h boundary im x y nb : 0 <= w -> 0 <= h -> initCellImage cv w h boundary = Ok im -> isContour w h boundary x y -> seenAs w h boundary x y nb ->
  count8 (goesOn nb) = 1%nat \/ count8 nb = 0%nat \/ (3 <= groups nb)%nat -> ptype (ipix im x y) = Vertex.
Proof.
  intros Hw Hh E C S K. destruct (Z.eq_dec x 1) as [X|X], (Z.eq_dec y 1) as [Y|Y]; try (subst; rewrite (init_corner cv w h boundary Hw Hh im E); reflexivity);
  (rewrite (contour_type cv w h boundary Hw Hh im E x y nb C S) by (intros Q; injection Q; intros; contradiction); cbn [ptype]; destruct K as [K|[K|K]]; [apply end_vertex; left; exact K|apply end_vertex; right; exact K|apply fork_vertex, K]).
Qed.
Print Assumptions C73_nodes.

(** the upper end of the line *)
Example C73_nodes_case : initCellImage true 8 5 sketch = Ok sketch0 /\ isContour 8 5 sketch 8 3 /\ exists nb, seenAs 8 5 sketch 8 3 nb /\ count8 (goesOn nb) = 1%nat.
Proof. split; [exact sketch_init|]. split; [apply (contour_spec true); vm_compute; reflexivity|]. exists (ringAt 8 5 sketch 8 3). split; [apply ring_seen|vm_compute; reflexivity]. Qed.

(** C73: the cell image of the transposed image is the transposed cell image. *)
Theorem C73_transposed cv w h b im : 0 <= w -> 0 <= h -> initCellImage cv w h b = Ok im ->
  exists im', initCellImage cv h w (fun u v => b v u) = Ok im' /\ forall x y, 0 <= x < w + 4 -> 0 <= y < h + 4 -> ipix im' y x = ipix im x y.
Proof. exact (init_transposed cv w h b im). Qed.
Print Assumptions C73_transposed.

(** C73: likewise for the mirrored image, except for the two upper corners of the frame. *)
Theorem C73_mirrored cv w h b im : 0 <= w -> 0 <= h -> initCellImage cv w h b = Ok im ->
  exists im', initCellImage cv w h (fun u v => b (w - 1 - u) v) = Ok im' /\ forall x y, 0 <= x < w + 4 -> 0 <= y < h + 4 -> (x, y) <> (1, 1) -> (x, y) <> (w + 2, 1) -> ipix im' (w + 3 - x) y = ipix im x y.
Proof. exact (init_mirrored cv w h b im). Qed.
Print Assumptions C73_mirrored.

Example C73_mirrored_case : initCellImage true 8 5 sketch = Ok sketch0 /\
  match initCellImage true 8 5 (fun u v => sketch (8 - 1 - u) v) with Ok im => nth 5 (codes im) [] | _ => [] end = [0; 200; 100; 200; 200; 0; 0; 100; 0; 0; 100; 0] /\
  match initCellImage true 5 8 (fun u v => sketch v u) with Ok im => nth 8 (codes im) [] | _ => [] end = [0; 100; 0; 200; 100; 200; 0; 100; 0].
Proof. split; [exact sketch_init|]. split; vm_compute; reflexivity. Qed.

(** ** C74: a map that the constructor can work with *)

(** C74: labelling the cells never fails, and the image has all the properties the constructor from a cell image relies on; the numbers of labels are right, too.
    If corners are nodes, [neat] needs no proof; images with less than 2^13 pixels are [lean]. *)
Theorem C74_image cv w h boundary im0 : small w h -> initCellImage cv w h boundary = Ok im0 -> neat im0 -> unpierced im0 -> lean im0 ->
  exists im n e f, cellImageOf cv w h boundary = Ok (im, n, e, f) /\ wfImg im /\ framed im /\ clean im /\ maxLabelOf im Vertex = n /\ maxLabelOf im Line = e /\ maxLabelOf im Region = f.
Proof. exact (image_clean cv w h boundary im0). Qed.
Print Assumptions C74_image.

Example C74_image_case : small 8 5 /\ initCellImage true 8 5 sketch = Ok sketch0 /\ neat sketch0 /\ unpierced sketch0 /\ lean sketch0 /\ exists im, cellImageOf true 8 5 sketch = Ok (im, 8, 8, 2).
Proof. split; [exact sketch_small|]. split; [exact sketch_init|]. split; [exact sketch_neat|]. split; [exact sketch_unpierced|]. split; [exact sketch_lean|exact sketch_image]. Qed.

Theorem C74_neat w h boundary im0 : small w h -> initCellImage true w h boundary = Ok im0 -> neat im0.
Proof. exact (init_neat w h boundary im0). Qed.
Print Assumptions C74_neat.

Theorem C74_lean cv w h boundary im0 : small w h -> initCellImage cv w h boundary = Ok im0 -> (w + 4) * (h + 4) < 2 ^ 13 -> lean im0.
Proof. intros S E. exact (few_lean cv w h boundary im0 S (init_typed cv w h boundary im0 S E)). Qed.
Print Assumptions C74_lean.

(** C74: so the constructor from an image does the same as the constructor from a clean cell image (C70). *)
Theorem C74_import crack outer comps cv w h boundary im0 : small w h -> initCellImage cv w h boundary = Ok im0 -> neat im0 -> unpierced im0 -> lean im0 ->
  exists im, wfImg im /\ framed im /\ clean im /\ threshold crack outer comps cv w h boundary = import crack outer comps im.
Proof. exact (threshold_import crack outer comps cv w h boundary im0). Qed.
Print Assumptions C74_import.

Example C74_import_case : exists m, threshold pixelArea (fun _ _ _ => []) contourParts true 8 5 sketch = Ok m /\ nodeCount m = 8 /\ edgeCount m = 8 /\ faceCount m = 3 /\ map ndegree (cnodes m) = [0; 2; 2; 1; 2; 3; 2; 2; 2].
Proof. exact sketch_map. Qed.

(** C74: the labels are given to all images that are not refused; the loops come to an end, and nothing is read or written outside the image. *)
Theorem C74_outcome cv w h boundary : small w h -> (forall im0, initCellImage cv w h boundary = Ok im0 -> neat im0 /\ unpierced im0 /\ lean im0) ->
  (exists r, cellImageOf cv w h boundary = Ok r) \/ (cellImageOf cv w h boundary = Exn /\ exists x y nb, isContour w h boundary x y /\ seenAs w h boundary x y nb /\ crowded nb).
Proof.
  intros S H. destruct (image_outcome cv w h boundary S H) as [A|(A & x & y & C & T)]; [left; exact A|right]. split; [exact A|]. exists x, y, (ringAt w h boundary x y). split; [exact C|]. split; [apply ring_seen|exact (error_many cv _ T)].
Qed.
Print Assumptions C74_outcome.

Example C74_outcome_case : small 8 5 /\ (forall im0, initCellImage true 8 5 sketch = Ok im0 -> neat im0 /\ unpierced im0 /\ lean im0).
Proof. split; [exact sketch_small|]. intros im0 E. rewrite sketch_init in E. apply Ok_same in E. subst im0. split; [exact sketch_neat|]. split; [exact sketch_unpierced|exact sketch_lean]. Qed.

(** C74: with corners that are lines (the default), [neat] may fail: three pixels are enough for a node with two ends of edges, but degree 1. *)
Theorem C74_default_refuted : exists w h boundary m, small w h /\ threshold pixelArea (fun _ _ _ => []) contourParts false w h boundary = Ok m /\
  exists n e, nth_error (cnodes m) 2 = Some n /\ nth_error (cedges m) 2 = Some e /\
    plabel (ipix (cim m) (dcx (estart e)) (dcy (estart e))) = 2 /\ plabel (ipix (cim m) (dcx (eend e)) (dcy (eend e))) = 2 /\ estart e <> eend e /\ ndegree n = 1.
Proof. exact hook_refuted. Qed.
Print Assumptions C74_default_refuted.

(** ** C75: the cells are the connected components *)
Section Cells.
Variable cv : bool.
Variables w h : Z.
Variable boundary : Z -> Z -> bool.
Variable im0 : img.
Hypothesis Sm : small w h.
Hypothesis Ei : initCellImage cv w h boundary = Ok im0.
Hypothesis Ne : neat im0.
Hypothesis Un : unpierced im0.
Hypothesis Le : lean im0.
Variable im : img.
Variables n e f : Z.
Hypothesis Ec : cellImageOf cv w h boundary = Ok (im, n, e, f).

(** C75: the types stay as they are, except that the first pixel of a line without node becomes a node. *)
Theorem C75_types x y : 0 <= x < w + 4 -> 0 <= y < h + 4 ->
  (vertexAt im x y <-> vertexAt im0 x y \/ (closedLine im0 x y /\ firstPixel im0 x y)) /\
  (lineAt im x y <-> lineAt im0 x y /\ ~ (closedLine im0 x y /\ firstPixel im0 x y)) /\ (ptype (ipix im x y) = Region <-> ~ isContour w h boundary x y).
Proof.
  intros X Y. split; [exact (image_vertices cv w h boundary im0 Sm Ei Ne Un Le im n e f Ec x y)|]. split; [exact (image_lines cv w h boundary im0 Sm Ei Ne Un Le im n e f Ec x y)|].
  exact (image_regions cv w h boundary im0 Sm Ei Ne Un Le im n e f Ec x y X Y).
Qed.
(** C75: two node pixels have the same label exactly if one can go from one to the other in steps in eight directions on node pixels. *)
Theorem C75_nodes x y u v : vertexAt im x y -> vertexAt im u v -> plabel (ipix im x y) = plabel (ipix im u v) <-> reach ways8 (vertexAt im) x y u v.
Proof. exact (image_nodes cv w h boundary im0 Sm Ei Ne Un Le im n e f Ec x y u v). Qed.
(** C75: two line pixels have the same label exactly if the line goes from one to the other. *)
Theorem C75_edges x y u v : lineAt im x y -> lineAt im u v -> plabel (ipix im x y) = plabel (ipix im u v) <-> along im x y u v.
Proof. exact (image_edges cv w h boundary im0 Sm Ei Ne Un Le im n e f Ec x y u v). Qed.
(** C75: two region pixels within the border have the same label exactly if one can go from one to the other in steps in four directions on region pixels. *)
Theorem C75_faces x y u v : openAt im x y -> openAt im u v -> plabel (ipix im x y) = plabel (ipix im u v) <-> reach ways4 (openAt im) x y u v.
Proof. exact (image_faces cv w h boundary im0 Sm Ei Ne Un Le im n e f Ec x y u v). Qed.
(** C75: the labels count from 1, and none is left out; the border is the region 0. *)
Theorem C75_labels : (forall x y, vertexAt im x y -> 1 <= plabel (ipix im x y) <= n) /\ (forall l, 1 <= l <= n -> exists x y, owns im Vertex l x y) /\
  (forall x y, lineAt im x y -> 1 <= plabel (ipix im x y) <= e) /\ (forall l, 1 <= l <= e -> exists x y, owns im Line l x y) /\
  (forall x y, openAt im x y -> 1 <= plabel (ipix im x y) <= f) /\ (forall l, 1 <= l <= f -> exists x y, owns im Region l x y) /\
  (forall x y, 0 <= x < iw im -> 0 <= y < ih im -> x = 0 \/ x = iw im - 1 \/ y = 0 \/ y = ih im - 1 -> ipix im x y = Pix Region 0).
Proof. exact (image_labels cv w h boundary im0 Sm Ei Ne Un Le im n e f Ec). Qed.
End Cells.
Print Assumptions C75_types.
Print Assumptions C75_nodes.
Print Assumptions C75_edges.
Print Assumptions C75_faces.
Print Assumptions C75_labels.

(** the ring becomes the edge 8 with the node 8 at its first pixel (4, 3); inside is the face 2 *)
Example C75_case : small 8 5 /\ initCellImage true 8 5 sketch = Ok sketch0 /\ neat sketch0 /\ unpierced sketch0 /\ lean sketch0 /\ (exists im, cellImageOf true 8 5 sketch = Ok (im, 8, 8, 2)) /\
  match cellImageOf true 8 5 sketch with Ok (im, _, _, _) => map (fun y => nth y (codes im) []) [3; 4; 5]%nat | _ => [] end =
  [[0; 101; 1;   1; 208;   1; 1;   1; 203;   1; 103; 0];
   [0; 101; 1; 108;   2; 108; 1;   1; 104;   1; 103; 0];
   [0; 101; 1;   1; 108;   1; 1; 204; 204; 105; 205; 0]].
Proof. destruct C74_image_case as (A & B & C & D & F & G). split; [exact A|]. split; [exact B|]. split; [exact C|]. split; [exact D|]. split; [exact F|]. split; [exact G|vm_compute; reflexivity]. Qed.

(** C75: if a node has a hole, this is wrong: a line across the hole gets a node of its own that touches the other one. *)
Theorem C75_pierced_refuted : exists cv w h boundary im0 im n e f x y u v, small w h /\ initCellImage cv w h boundary = Ok im0 /\ neat im0 /\ lean im0 /\ cellImageOf cv w h boundary = Ok (im, n, e, f) /\
  vertexAt im x y /\ vertexAt im u v /\ reach ways8 (vertexAt im) x y u v /\ plabel (ipix im x y) <> plabel (ipix im u v).
Proof. exact pierced_refuted. Qed.
Print Assumptions C75_pierced_refuted.
