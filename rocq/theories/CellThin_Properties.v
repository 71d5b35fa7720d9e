(** C86, C87 and C88: the rethinning of edges moves single pixels between the cells of the pixel based map. *)
From Coq Require Import Lia.
From Verif Require Import Base CellMap_Model CellMap_Spec CellMap_Examples CellThin_Model CellThin_Spec CellThin_Pixel CellThin_Edge CellThin_Move CellThin_Examples.
Local Open Scope Z_scope.

(** C86: reassociate() changes exactly the given pixel; the rectangles of all cells are again the bounding rectangles of their pixels, and labels, sizes, anchors, contours and counters are as before,
    if the pixel has one of its own cell around it. *)
Theorem C86_reassociate m x y new : boundsRight m -> pixelsLive m -> 0 <= x < iw (cim m) -> 0 <= y < ih (cim m) ->
  hasContact (cim m) x y \/ new = ipix (cim m) x y -> isLive m new ->
  exists m', reassociate m x y new = Ok m' /\ onePixel (cim m) (cim m') x y new /\ sameButBounds m m' /\ boundsRight m' /\ pixelsLive m'.
Proof. exact (reassociate_right m x y new). Qed.
Print Assumptions C86_reassociate.

(** C86: the only pixel of a cell cannot be given away: std::find is called with a range that is none. *)
Theorem C86_only m x y new : boundsRight m -> pixelsLive m -> 0 <= x < iw (cim m) -> 0 <= y < ih (cim m) -> new <> ipix (cim m) x y ->
  (forall a b, owns (cim m) (ptype (ipix (cim m) x y)) (plabel (ipix (cim m) x y)) a b -> (a, b) = (x, y)) -> reassociate m x y new = UB.
Proof. exact (reassociate_only m x y new). Qed.
Print Assumptions C86_only.

(** C86: the sizes do not follow. *)
Theorem C86_sizes_refuted : exists m x y new m', sound m /\ boundsRight m /\ pixelsLive m /\ hasContact (cim m) x y /\ isLive m new /\ reassociate m x y new = Ok m' /\ ~ sound m'.
Proof. exact sizes_refuted. Qed.
Print Assumptions C86_sizes_refuted.

Example C86_case : boundsRight k0 /\ pixelsLive k0 /\ hasContact (cim k0) 6 4 /\ isLive k0 (Pix Line 3) /\ reassociate k0 6 1 (Pix Line 3) = UB.
Proof. split; [apply k0_fine|]. split; [apply k0_fine|]. split; [exact k0_contact|]. split; [apply liveP_is; vm_compute; reflexivity|exact k0_only]. Qed.

(** C87: edgeRethinning() gives each pixel of the edge to the face whose label has grown over it, and leaves it to the edge where that label is 0; no other pixel changes, darts and contours stay,
    and rectangles, sizes and counters are those of a recount again; whatever the region growing does, if it gives labels of the two faces only and leaves a pixel to the edge. *)
Theorem C87_thinning grown m e ei f1 f2 r : sound m -> at_ (cedges m) e = Ok ei -> initialized (einf ei) = true ->
  leftFaceLabel (cim m) (estart ei) = Ok f1 -> rightFaceLabel (cim m) (estart ei) = Ok f2 -> f1 <> f2 ->
  (exists c, isCell m Region (Z.to_nat f1) c) -> (exists c, isCell m Region (Z.to_nat f2) c) -> 0 <= f1 -> 0 <= f2 ->
  throughout (cim m) r -> (forall x y, owns (cim m) Line e x y -> inRect r x y) ->
  (forall x y, owns (cim m) Line e x y -> grown x y = 0 \/ grown x y = f1 \/ grown x y = f2) ->
  (exists x y, owns (cim m) Line e x y /\ grown x y = 0) ->
  exists m', edgeRethinning grown m e r = Ok m' /\ sound m' /\ thinned (cim m) (cim m') e grown /\ restKept m m' e f1 f2.
Proof. exact (edgeRethinning_sound grown m e ei f1 f2 r). Qed.
Print Assumptions C87_thinning.

(** C87: an edge all of whose pixels are given away stays a cell of the map. *)
Theorem C87_vanish_refuted : exists grown m e ei f1 f2 r m', sound m /\ at_ (cedges m) e = Ok ei /\ initialized (einf ei) = true /\
  leftFaceLabel (cim m) (estart ei) = Ok f1 /\ rightFaceLabel (cim m) (estart ei) = Ok f2 /\ f1 <> f2 /\
  (forall x y, owns (cim m) Line e x y -> inRect r x y) /\ (forall x y, owns (cim m) Line e x y -> grown x y = 0 \/ grown x y = f1 \/ grown x y = f2) /\
  edgeRethinning grown m e r = Ok m' /\ (exists c, isCell m' Line (Z.to_nat e) c) /\ (forall x y, ~ owns (cim m') Line e x y) /\ ~ sound m'.
Proof. exact vanish_refuted. Qed.
Print Assumptions C87_vanish_refuted.

(** C87: with the label of a third face the pixel stays, but is not counted any more. *)
Theorem C87_foreign_refuted : exists grown m e r m', sound m /\ (forall x y, owns (cim m) Line e x y -> inRect r x y) /\ (exists x y, owns (cim m) Line e x y /\ grown x y = 0) /\
  edgeRethinning grown m e r = Ok m' /\ (forall x y, ipix (cim m') x y = ipix (cim m) x y) /\ ~ sound m'.
Proof. exact foreign_refuted. Qed.
Print Assumptions C87_foreign_refuted.

Example C87_case : sound k0 /\ exists m', edgeRethinning twice k0 3 wallRange = Ok m' /\ sound m' /\ thinned (cim k0) (cim m') 3 twice.
Proof. split; [exact k0_sound|]. destruct k0_thinned as (m' & A & B & C & _). exists m'. auto. Qed.

(** C88: at a pixel two pixels away from the border of the image the loop over the pixels of the former node never reads or writes outside; it leaves the map as it is, and then the pixel is none of an
    edge or cannot move, or moves the pixel to one next to it, in one of the configurations described and with the pixels beyond all of one cell, and fills the place with the pixel opposite; the rectangles
    stay exact. *)
Theorem C88_point m grad x y : boundsRight m -> pixelsLive m -> 2 <= x < iw (cim m) - 2 -> 2 <= y < ih (cim m) - 2 ->
  exists m' ps, relocatePoint m grad x y = Ok (m', ps) /\ boundsRight m' /\ pixelsLive m' /\ sameButBounds m m' /\ pointDone m grad x y m' ps.
Proof.
  intros B P X Y. destruct (relocatePoint_total grad m x y (conj B P) X Y) as (m' & ps & E). exists m', ps. split; [exact E|].
  destruct (relocatePoint_done grad m x y m' ps (conj B P) E) as ([B' P'] & S & K). auto.
Qed.
Print Assumptions C88_point.

(** C88: whatever points the loop goes through, and however many are added to them: each is dealt with in its turn, the rectangles are exact afterwards, and labels, sizes, anchors, contours and counters are as before. *)
Theorem C88_points fuel m grad ps m' : boundsRight m -> pixelsLive m -> relocatePoints fuel m grad ps = Ok m' ->
  boundsRight m' /\ pixelsLive m' /\ sameButBounds m m' /\ allDone grad m ps m'.
Proof. intros B P H. destruct (relocatePoints_fine grad fuel m ps m' (conj B P) H) as ([B' P'] & S). auto. Qed.
Print Assumptions C88_points.

(** C88: a move takes one pixel from the cell of the pixel moved to and gives one to the cell of the pixel opposite; all other cells, the edge among them, have as many pixels as before. *)
Theorem C88_counts im im' x y a b t l n : relocated im im' x y a b -> 0 <= x < iw im -> 0 <= y < ih im -> 0 <= a < iw im -> 0 <= b < ih im ->
  manyPixels (owns im t l) n -> manyPixels (owns im' t l) (n - oneIf (ipix im a b) t l + oneIf (ipix im (2 * x - a) (2 * y - b)) t l).
Proof. exact (relocated_count im im' x y a b t l n). Qed.
Print Assumptions C88_counts.

(** C88: so the stored sizes of the faces become wrong. *)
Theorem C88_sizes_refuted : exists fuel m grad ps m', sound m /\ boundsRight m /\ pixelsLive m /\ relocatePoints fuel m grad ps = Ok m' /\ ~ sound m'.
Proof. exact move_sizes_refuted. Qed.
Print Assumptions C88_sizes_refuted.

(** C88: in the reflected configuration the pixel may be moved to one with a lower gradient. *)
Theorem C88_uphill_refuted : exists m grad x y m' ps a b, sound m /\ boundsRight m /\ pixelsLive m /\ relocatePoint m grad x y = Ok (m', ps) /\ relocated (cim m) (cim m') x y a b /\ grad a b < grad x y.
Proof. exact uphill_refuted. Qed.
Print Assumptions C88_uphill_refuted.

Example C88_case : boundsRight k0 /\ pixelsLive k0 /\ relocatePoints 5 k0 slope [(5, 4)] = Ok k2 /\ ipix (cim k2) 6 4 = Pix Line 3 /\ ipix (cim k2) 5 4 = Pix Region 1.
Proof. split; [apply k0_fine|]. split; [apply k0_fine|]. split; [vm_compute; reflexivity|]. split; reflexivity. Qed.
