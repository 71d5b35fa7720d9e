(** Drawings, and what the thresholding constructors make from them. *)
From Verif Require Import Base CellMap_Model CellMap_Spec CellMap_Scan CellMap_Init CellMap_InitProofs CellMap_Examples CellSigma_Spec CellSigma_Proofs CellSigma_Results CellLink_Spec CellLink_Proofs CellLink_Main CellSigma_Examples CellFace_Spec
  CellStart_Spec CellStart_Walk CellStart_Init CellStart_Examples CellThresh_Model CellThresh_Spec CellThresh_Comps CellThresh_Types CellThresh_Paint CellThresh_Edges CellThresh_Loops CellThresh_Results.
Local Open Scope Z_scope.

(** ** Tests *)
(** it is enough to look at the labels of the nodes *)
Lemma ringed_unpierced cv w h boundary im0 : small w h -> typedImage cv w h boundary im0 -> ringed (fst (labelNodes im0)) -> unpierced im0.
Proof.
  intros (Hw & Hh & Hs) Im R a b Pa Pb Re. pose proof (N_types cv w h boundary Hw Hh Hs im0 Im) as S. destruct (vcomps im0) as (_ & _ & C & _).
  destruct (R a b) as (k & <-); [apply (same_isPlace im0 _ S), Pa|apply (same_isPlace im0 _ S), Pb| |].
  - unfold nodeOf. rewrite (N_vertex cv w h boundary Hw Hh Hs im0 Im _ _ (proj1 Pa)), (N_vertex cv w h boundary Hw Hh Hs im0 Im _ _ (proj1 Pb)). cbn [plabel]. apply C; [apply Pa|apply Pb|exact Re].
  - exists k. symmetry. apply (same_places im0 _ S).
Qed.
(** a drawing with less than 2^13 pixels has no node with too many darts *)
Lemma few_lean cv w h boundary im0 : small w h -> typedImage cv w h boundary im0 -> (w + 4) * (h + 4) < 2 ^ 13 -> lean im0.
Proof.
  intros (Hw & Hh & Hs) Im F x y V. pose proof (N_types cv w h boundary Hw Hh Hs im0 Im) as S. destruct (vcomps im0) as (_ & _ & C & _). pose proof Im as (W0 & H0 & _).
  destruct (few_light (fst (labelNodes im0))) with (l := vlab im0 x y) as (g & G & M); [rewrite (same_w _ _ S), W0; lia|rewrite (same_h _ _ S), H0; lia|rewrite (same_w _ _ S), (same_h _ _ S), W0, H0; exact F|].
  exists g. split; [exact G|]. revert M. apply many_ext. intros d. unfold dartOfNode. rewrite (same_isDart im0 _ S).
  split; intros [D Q]; (split; [exact D|]); unfold nodeOf in *; rewrite (N_vertex cv w h boundary Hw Hh Hs im0 Im _ _ (proj1 D)) in *; cbn [plabel] in *; [apply C; [exact V|apply D|symmetry; exact Q]|symmetry; apply C; [exact V|apply D|exact Q]].
Qed.

(** ** Drawings *)
Lemma Ok_same {A} (a b : A) : Ok a = Ok b -> a = b. Proof. intros H. injection H as ->. reflexivity. Qed.
Definition isOk {A} (r : res A) : bool := match r with Ok _ => true | _ => false end.
Lemma isOk_some {A} (r : res A) : isOk r = true -> exists a, r = Ok a. Proof. destruct r as [a| | |]; intros H; try discriminate H. exists a. reflexivity. Qed.
Definition drawing (rows : list (list Z)) (x y : Z) : bool := nth (Z.to_nat x) (nth (Z.to_nat y) rows []) 0 =? 1.
(** a small ring, and a line that ends at the frame *)
Definition sketch : Z -> Z -> bool := drawing
  [[0; 0; 0; 0; 0; 0; 0; 0];
   [0; 0; 1; 0; 0; 0; 1; 0];
   [0; 1; 0; 1; 0; 0; 1; 0];
   [0; 0; 1; 0; 0; 1; 1; 1];
   [0; 0; 0; 0; 0; 0; 0; 0]].
Definition sketch0 : img := match initCellImage true 8 5 sketch with Ok im => im | _ => Img 0 0 (fun _ _ => Pix Region 0) end.
Definition sketch1 : img := match cellImageOf true 8 5 sketch with Ok (im, _, _, _) => im | _ => Img 0 0 (fun _ _ => Pix Region 0) end.
Lemma sketch_small : small 8 5. Proof. unfold small. lia. Qed.
Lemma sketch_init : initCellImage true 8 5 sketch = Ok sketch0. Proof. unfold sketch0. destruct (initCellImage true 8 5 sketch) eqn:E; try (exfalso; vm_compute in E; discriminate E). reflexivity. Qed.
Lemma sketch_typed : typedImage true 8 5 sketch sketch0. Proof. exact (init_typed true 8 5 sketch sketch0 sketch_small sketch_init). Qed.
Lemma sketch_neat : neat sketch0. Proof. exact (init_neat 8 5 sketch sketch0 sketch_small sketch_init). Qed.
Lemma sketch_unpierced : unpierced sketch0.
Proof.
  apply (ringed_unpierced true 8 5 sketch sketch0 sketch_small sketch_typed). pose proof sketch_small as (Hw & Hh & Hs). apply (ringedB_holds 24); [apply (N_shaped true 8 5 sketch Hw Hh Hs sketch0 sketch_typed)|].
  unfold sketch0. destruct (initCellImage true 8 5 sketch) as [im| | |] eqn:E; try (exfalso; vm_compute in E; discriminate E). pose proof (f_equal (fun r => match r with Ok im => ringedB 24 (fst (labelNodes im)) | _ => false end) E) as Q. cbv beta in Q. cbv beta iota in Q. rewrite <- Q. vm_compute. reflexivity.
Qed.
Lemma sketch_lean : lean sketch0. Proof. apply (few_lean true 8 5 sketch sketch0 sketch_small sketch_typed). lia. Qed.
Definition countsOf (r : res (img * Z * Z * Z)) : option (Z * Z * Z) := match r with Ok (_, n, e, f) => Some (n, e, f) | _ => None end.
Lemma counts_some r n e f : countsOf r = Some (n, e, f) -> exists im, r = Ok (im, n, e, f).
Proof. destruct r as [[[[im n'] e'] f']| | |]; intros H; try discriminate H. injection H as -> -> ->. exists im. reflexivity. Qed.
Lemma sketch_image : exists im, cellImageOf true 8 5 sketch = Ok (im, 8, 8, 2).
Proof. apply counts_some. vm_compute. reflexivity. Qed.
(** the types and the labels, row by row: regions have their label, lines 100 more, nodes 200 more *)
Definition codeOf (p : pix) : Z := plabel p + match ptype p with Region => 0 | Line => 100 | Vertex => 200 | ErrorType => 300 end.
Definition codes (im : img) : list (list Z) := map (fun y => map (fun x => codeOf (ipix im x y)) (upFrom 0 (iw im))) (upFrom 0 (ih im)).
Lemma sketch_types : match initCellImage true 8 5 sketch with Ok im => codes im | _ => [] end =
  [[0;   0;   0;   0;   0;   0;   0;   0;   0;   0;   0; 0];
   [0; 200; 100; 100; 100; 100; 100; 100; 100; 100; 200; 0];
   [0; 100;   0;   0;   0;   0;   0;   0;   0;   0; 100; 0];
   [0; 100;   0;   0; 100;   0;   0;   0; 200;   0; 100; 0];
   [0; 100;   0; 100;   0; 100;   0;   0; 100;   0; 100; 0];
   [0; 100;   0;   0; 100;   0;   0; 200; 200; 100; 200; 0];
   [0; 100;   0;   0;   0;   0;   0;   0;   0;   0; 100; 0];
   [0; 200; 100; 100; 100; 100; 100; 100; 100; 100; 200; 0];
   [0;   0;   0;   0;   0;   0;   0;   0;   0;   0;   0; 0]].
Proof. vm_compute. reflexivity. Qed.
(** the ring gets a node at its first pixel *)
Lemma sketch_cells : match cellImageOf true 8 5 sketch with Ok (im, _, _, _) => codes im | _ => [] end =
  [[0;   0;   0;   0;   0;   0;   0;   0;   0;   0;   0; 0];
   [0; 201; 102; 102; 102; 102; 102; 102; 102; 102; 202; 0];
   [0; 101;   1;   1;   1;   1;   1;   1;   1;   1; 103; 0];
   [0; 101;   1;   1; 208;   1;   1;   1; 203;   1; 103; 0];
   [0; 101;   1; 108;   2; 108;   1;   1; 104;   1; 103; 0];
   [0; 101;   1;   1; 108;   1;   1; 204; 204; 105; 205; 0];
   [0; 101;   1;   1;   1;   1;   1;   1;   1;   1; 106; 0];
   [0; 206; 107; 107; 107; 107; 107; 107; 107; 107; 207; 0];
   [0;   0;   0;   0;   0;   0;   0;   0;   0;   0;   0; 0]].
Proof. vm_compute. reflexivity. Qed.
(** a thick stroke: the lower of its left ends is refused *)
Definition stroke : Z -> Z -> bool := drawing [[0; 0; 0; 0; 0]; [0; 1; 1; 1; 0]; [0; 0; 1; 1; 0]; [0; 0; 0; 0; 0]].
Lemma stroke_side : exists nb, isContour 5 4 stroke 4 4 /\ seenAs 5 4 stroke 4 4 nb /\ thickSide nb.
Proof.
  exists (fun k => contourAt 5 4 stroke (4 + dirX k) (4 + dirY k)). split; [apply (contour_spec true); vm_compute; reflexivity|]. split; [intros k _; apply (contour_spec true)|].
  split; [vm_compute; reflexivity|]. split; [vm_compute; lia|]. exists 3. split; [right; left; reflexivity|]. split; vm_compute; reflexivity.
Qed.

(** ** A node with a hole *)
(** a thick ring that is all node, with a line across its hole *)
Definition target (x y : Z) : bool :=
  let u := x - 8 in let v := y - 8 in let s := Z.abs u + Z.abs v in
  (s =? 4) || (s =? 6) || ((s =? 7) && ((u =? 0) || (v =? 0))) || ((s <? 4) && (v =? 0)).
Definition target0 : img := match initCellImage true 17 17 target with Ok im => im | _ => Img 0 0 (fun _ _ => Pix Region 0) end.
Definition target1 : img := match cellImageOf true 17 17 target with Ok (im, _, _, _) => im | _ => Img 0 0 (fun _ _ => Pix Region 0) end.
Lemma target_init : initCellImage true 17 17 target = Ok target0.
Proof. destruct (isOk_some (initCellImage true 17 17 target)) as (im & E); [vm_compute; reflexivity|]. unfold target0. rewrite E. reflexivity. Qed.
Lemma target_image : exists n e f, cellImageOf true 17 17 target = Ok (target1, n, e, f).
Proof. destruct (counts_some (cellImageOf true 17 17 target) 6 5 23) as (im & E); [vm_compute; reflexivity|]. exists 6, 5, 23. unfold target1. rewrite E. reflexivity. Qed.
Lemma target_pix x y : ipix target1 x y = match cellImageOf true 17 17 target with Ok (im, _, _, _) => ipix im x y | _ => Pix Region 0 end.
Proof. unfold target1. destruct (cellImageOf true 17 17 target) as [[[[im n] e] f]| | |]; reflexivity. Qed.
Lemma target_size : iw target1 = 21 /\ ih target1 = 21.
Proof. split; vm_compute; reflexivity. Qed.
Lemma pierced_refuted : exists cv w h boundary im0 im n e f x y u v, small w h /\ initCellImage cv w h boundary = Ok im0 /\ neat im0 /\ lean im0 /\ cellImageOf cv w h boundary = Ok (im, n, e, f) /\
  vertexAt im x y /\ vertexAt im u v /\ reach ways8 (vertexAt im) x y u v /\ plabel (ipix im x y) <> plabel (ipix im u v).
Proof.
  destruct target_image as (n & e & f & Q). exists true, 17, 17, target, target0, target1, n, e, f, 8, 10, 7, 10. assert (Sm : small 17 17) by (unfold small; lia).
  destruct target_size as [W H]. assert (Va : vertexAt target1 8 10) by (split; [lia|split; [lia|]]; rewrite target_pix; vm_compute; reflexivity). assert (Vb : vertexAt target1 7 10) by (split; [lia|split; [lia|]]; rewrite target_pix; vm_compute; reflexivity).
  split; [exact Sm|]. split; [exact target_init|]. split; [exact (init_neat 17 17 target target0 Sm target_init)|].
  split; [apply (few_lean true 17 17 target target0 Sm (init_typed true 17 17 target target0 Sm target_init)); lia|]. split; [exact Q|]. split; [exact Va|]. split; [exact Vb|].
  split; [exact (re_step ways8 (vertexAt target1) 8 10 8 10 4 (re_here _ _ _ _ Va) ltac:(unfold ways8; cbn; tauto) Vb)|].
  rewrite !target_pix. vm_compute. discriminate.
Qed.

(** ** The whole constructor *)
(** the size of a cell, and the connected parts of the contour *)
Definition pixelArea (im : img) (x y : Z) : Z := Z.of_nat (length (filter (fun p => pixEqb (ipix im (fst p) (snd p)) (ipix im x y)) (allPoints im))).
Definition contourParts (im : img) : (Z -> Z -> Z) * nat :=
  let fg x y := negb (ctypeEqb (ptype (ipix im x y)) Region) in
  let c := labelComponents true (Rect 0 0 (iw im) (ih im)) fg in (fun x y => if fg x y then fst c x y else 0, Z.to_nat (snd c)).
Definition summary (r : res cmap) : option (Z * Z * Z * list Z) := match r with Ok m => Some (nodeCount m, edgeCount m, faceCount m, map ndegree (cnodes m)) | _ => None end.
Lemma summary_some r n e f l : summary r = Some (n, e, f, l) -> exists m, r = Ok m /\ nodeCount m = n /\ edgeCount m = e /\ faceCount m = f /\ map ndegree (cnodes m) = l.
Proof. destruct r as [m| | |]; intros H; try discriminate H. injection H as <- <- <- <-. exists m. auto. Qed.
(** eight nodes, eight edges, three faces, and two parts *)
Lemma sketch_map : exists m, threshold pixelArea (fun _ _ _ => []) contourParts true 8 5 sketch = Ok m /\ nodeCount m = 8 /\ edgeCount m = 8 /\ faceCount m = 3 /\ map ndegree (cnodes m) = [0; 2; 2; 1; 2; 3; 2; 2; 2].
Proof. apply summary_some. vm_compute. reflexivity. Qed.
(** three pixels, and corners that count as lines (the default of the constructor) *)
Definition hook : Z -> Z -> bool := drawing [[0; 0; 0; 0]; [0; 1; 1; 0]; [0; 0; 1; 0]; [0; 0; 0; 0]].
Lemma hook_refuted : exists w h boundary m, small w h /\ threshold pixelArea (fun _ _ _ => []) contourParts false w h boundary = Ok m /\
  exists n e, nth_error (cnodes m) 2 = Some n /\ nth_error (cedges m) 2 = Some e /\
    plabel (ipix (cim m) (dcx (estart e)) (dcy (estart e))) = 2 /\ plabel (ipix (cim m) (dcx (eend e)) (dcy (eend e))) = 2 /\ estart e <> eend e /\ ndegree n = 1.
Proof.
  exists 4, 4, hook. destruct (isOk_some (threshold pixelArea (fun _ _ _ => []) contourParts false 4 4 hook)) as (m & E); [vm_compute; reflexivity|]. exists m. split; [unfold small; lia|]. split; [exact E|].
  assert (Q : match threshold pixelArea (fun _ _ _ => []) contourParts false 4 4 hook with
    | Ok m => match nth_error (cnodes m) 2, nth_error (cedges m) 2 with
              | Some n, Some e => Some (ndegree n, estart e, eend e, plabel (ipix (cim m) (dcx (estart e)) (dcy (estart e))), plabel (ipix (cim m) (dcx (eend e)) (dcy (eend e)))) | _, _ => None end
    | _ => None end = Some (1, Dart 4 4 2, Dart 3 3 0, 2, 2)) by (vm_compute; reflexivity).
  rewrite E in Q. destruct (nth_error (cnodes m) 2) as [n|]; [|discriminate Q]. destruct (nth_error (cedges m) 2) as [e|]; [|discriminate Q]. injection Q as Q1 Q2 Q3 Q4 Q5.
  exists n, e. repeat split; try assumption. rewrite Q2, Q3. discriminate.
Qed.
