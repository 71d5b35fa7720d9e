(** C68, C69: the faces beside the darts of the pixel based map. *)
From Verif Require Import Base CellMap_Model CellMap_Spec CellMap_Init CellMap_Examples CellSigma_Spec CellSigma_Proofs CellSigma_Results CellLink_Spec CellSigma_Examples CellFace_Spec CellFace_Results CellFace_Examples.
Local Open Scope Z_scope.

(** C68: left and right of every dart are faces of the map. *)
Theorem C68_sides m d : fhistory m -> isDart (cim m) d ->
  exists l r c c', leftFaceLabel (cim m) d = Ok l /\ rightFaceLabel (cim m) d = Ok r /\ 0 <= l /\ 0 <= r /\ isCell m Region (Z.to_nat l) c /\ isCell m Region (Z.to_nat r) c'.
Proof. exact (faces_beside m d). Qed.
Print Assumptions C68_sides.

(** the wall between the rooms, and what is left of the frame after it and its ends are gone *)
Example C68_sides_case : fhistory r0 /\ isDartB (cim r0) (Dart 4 1 6) = true /\ leftFaceLabel (cim r0) (Dart 4 1 6) = Ok 2 /\ rightFaceLabel (cim r0) (Dart 4 1 6) = Ok 1 /\
  fhistory (facedAfter 7) /\ isDartB (cim (facedAfter 7)) (Dart 1 1 0) = true /\ leftFaceLabel (cim (facedAfter 7)) (Dart 1 1 0) = Ok 0 /\ rightFaceLabel (cim (facedAfter 7)) (Dart 1 1 0) = Ok 2.
Proof.
  split; [apply fh_start, r0_faced|]. split; [vm_compute; reflexivity|]. split; [vm_compute; reflexivity|]. split; [vm_compute; reflexivity|]. split; [apply facedAfter_history|]. computes.
Qed.

(** C68: what is left of a dart is right of the next one around the node. *)
Theorem C68_sigma m d : fhistory m -> isDart (cim m) d -> exists d', nextSigma (cim m) d = Ok d' /\ isDart (cim m) d' /\ rightFaceLabel (cim m) d' = leftFaceLabel (cim m) d.
Proof. exact (face_sigma m d). Qed.
Print Assumptions C68_sigma.

(** around the node of three pixels: between the third and the fourth dart is the inside of the loop *)
Example C68_sigma_case : fhistory fork0 /\ map (leftFaceLabel (cim fork0)) [Dart 3 2 4; Dart 5 3 5; Dart 5 3 0; Dart 4 2 1] = [Ok 0; Ok 0; Ok 1; Ok 0] /\
  map (rightFaceLabel (cim fork0)) [Dart 5 3 5; Dart 5 3 0; Dart 4 2 1; Dart 3 2 4] = [Ok 0; Ok 0; Ok 1; Ok 0].
Proof. split; [apply fh_start, fork_faced|]. computes. Qed.

(** C68: what is left of a dart is right of the opposite one, and the other way round. *)
Theorem C68_alpha m d : fhistory m -> isDart (cim m) d ->
  exists d', nextAlpha m d = Ok d' /\ isDart (cim m) d' /\ leftFaceLabel (cim m) d' = rightFaceLabel (cim m) d /\ rightFaceLabel (cim m) d' = leftFaceLabel (cim m) d.
Proof. exact (face_alpha m d). Qed.
Print Assumptions C68_alpha.

Example C68_alpha_case : fhistory fork0 /\ nextAlpha fork0 (Dart 5 3 0) = Ok (Dart 4 2 1) /\ leftFaceLabel (cim fork0) (Dart 5 3 0) = Ok 1 /\ rightFaceLabel (cim fork0) (Dart 5 3 0) = Ok 0 /\
  leftFaceLabel (cim fork0) (Dart 4 2 1) = Ok 0 /\ rightFaceLabel (cim fork0) (Dart 4 2 1) = Ok 1.
Proof. split; [apply fh_start, fork_faced|]. computes. Qed.

(** C68: along a contour, that is with nextPhi() any number of times, the face on the left stays the same. *)
Theorem C68_contour m k d : fhistory m -> isDart (cim m) d -> exists d', phis m k d = Ok d' /\ isDart (cim m) d' /\ leftFaceLabel (cim m) d' = leftFaceLabel (cim m) d.
Proof. exact (face_phi m k d). Qed.
Print Assumptions C68_contour.

(** along the outer face, in the room beside the wall and around the bridge *)
Example C68_contour_case : fhistory r0 /\ map (fun k => phis r0 k (Dart 1 1 0)) [1; 2; 3; 4]%nat = [Ok (Dart 4 1 0); Ok (Dart 4 7 4); Ok (Dart 1 1 0); Ok (Dart 4 1 0)] /\
  map (leftFaceLabel (cim r0)) [Dart 1 1 0; Dart 4 1 0; Dart 4 7 4] = [Ok 0; Ok 0; Ok 0] /\
  phis r0 1 (Dart 7 5 0) = Ok (Dart 9 5 4) /\ phis r0 2 (Dart 7 5 0) = Ok (Dart 7 5 0) /\ map (leftFaceLabel (cim r0)) [Dart 7 5 0; Dart 9 5 4] = [Ok 2; Ok 2].
Proof. split; [apply fh_start, r0_faced|]. computes. Qed.

(** C69: the four operations called with darts do what they should, and the book-keeping stays that of a recount. *)
Theorem C69_calls m c m' s : fhistory m -> faceAllowed (cim m) c -> cexec m c = Ok (m', s) -> callEffect m m' c s /\ recount m'.
Proof. exact (calls_fine m c m' s). Qed.
Print Assumptions C69_calls.

(** the isolated node, the bridge, its nodes, the wall and its ends go *)
Example C69_calls_case : fhistory r0 /\ faceAllowedB (cim r0) (CMergeFaces (Dart 4 1 6)) = true /\
  map (fun n => match freplay r0 (firstn n tidying) with Some m => Some (nodeCount m, edgeCount m, faceCount m) | None => None end) [1; 2; 3; 4; 5; 6; 7]%nat =
  [Some (5, 5, 3); Some (5, 4, 3); Some (4, 4, 3); Some (3, 4, 3); Some (3, 3, 2); Some (2, 2, 2); Some (1, 1, 2)].
Proof. split; [apply fh_start, r0_faced|]. computes. Qed.

(** C69: two region pixels with a side in common stay in one face. *)
Theorem C69_regions m x y k l : fhistory m -> In k [0; 2; 4; 6] -> owns (cim m) Region l x y -> 0 <= x + dirX k < iw (cim m) -> 0 <= y + dirY k < ih (cim m) ->
  ptype (ipix (cim m) (x + dirX k) (y + dirY k)) = Region -> owns (cim m) Region l (x + dirX k) (y + dirY k).
Proof. exact (regions_whole m x y k l). Qed.
Print Assumptions C69_regions.

(** where the wall was *)
Example C69_regions_case : fhistory (facedAfter 5) /\ ipix (cim r0) 4 4 = Pix Line 3 /\ ipix (cim r0) 3 4 = Pix Region 1 /\
  map (fun x => ipix (cim (facedAfter 5)) x 4) [2; 3; 4; 5] = [Pix Region 2; Pix Region 2; Pix Region 2; Pix Region 2].
Proof. split; [apply facedAfter_history|]. computes. Qed.

(** C69: the region pixels beside the pixels of an edge belong to the faces left and right of its darts. *)
Theorem C69_border m d e x y k f : fhistory m -> isDart (cim m) d -> edgeLabel (cim m) d = Ok e -> owns (cim m) Line e x y -> In k [0; 2; 4; 6] -> owns (cim m) Region f (x + dirX k) (y + dirY k) ->
  leftFaceLabel (cim m) d = Ok f \/ rightFaceLabel (cim m) d = Ok f.
Proof. exact (border_faces m d e x y k f). Qed.
Print Assumptions C69_border.

(** one edge goes all around after its other node is gone *)
Example C69_border_case : fhistory (facedAfter 7) /\ isDartB (cim (facedAfter 7)) (Dart 1 1 0) = true /\ edgeLabel (cim (facedAfter 7)) (Dart 1 1 0) = edgeLabel (cim (facedAfter 7)) (Dart 1 1 6) /\
  Ok (plabel (ipix (cim (facedAfter 7)) 4 7)) = edgeLabel (cim (facedAfter 7)) (Dart 1 1 0) /\ ipix (cim (facedAfter 7)) 4 6 = Pix Region 2 /\ ipix (cim (facedAfter 7)) 4 8 = Pix Region 0.
Proof. split; [apply facedAfter_history|]. computes. Qed.

(** C69: it does not hold of removeIsolatedNode() with the anchor of the node, if the node has three pixels: the pixels then go to a face that does not touch them, and that face loses its contour. *)
Theorem C69_anchor_refuted : exists m n m' s f x y,
  faced m /\ isNode m 1 n /\ ndegree n = 0 /\ nanchor n = Dart x y 4 /\ owns (cim m) Vertex 1 x y /\ removeIsolatedNode m (nanchor n) = Ok (m', s) /\
  isolatedIn (cim m) 1 2 /\ s = 1 /\ owns (cim m') Region 1 x y /\ nth_error (cfaces m') 1 = Some f /\ fcontours f = [] /\ ~ recount m'.
Proof. exact anchor_refuted. Qed.
Print Assumptions C69_anchor_refuted.
