(** C18, C51-C54: scanlines. *)
From Coq Require Import QArith Qround Sorted.
From Verif Require Import Base Scanlines_Model Scanlines_Spec Scanlines_Proofs ScanPoly_Model ScanPoly_Spec ScanPoly_Proofs.
Local Open Scope Z_scope.

(** a square with corners (1,1) and (4,4), traversed with the inside on the right of the y direction *)
Definition square : list (Q * Q) := [(1, 1); (1, 4); (4, 4); (4, 1); (1, 1)]%Q.
Lemma square_closed : closedChain square.
Proof. exists (1, 1)%Q, [(1, 4); (4, 4); (4, 1); (1, 1)]%Q. split; reflexivity. Qed.

(** C18: normalising one line; for every sorting function, every list of segments that do not end before they begin. *)
Theorem C18_normalize_line srt l : sorter srt -> proper l ->
  spaced (normalizeLine srt l) /\ proper (normalizeLine srt l) /\
  (forall x, covered (normalizeLine srt l) x <-> covered l x) /\
  (forall x, ~ covered l x -> windLeft (normalizeLine srt l) x = windLeft l x) /\
  totalDir (normalizeLine srt l) = totalDir l.
Proof. exact (normalizeLine_spec srt l). Qed.
Print Assumptions C18_normalize_line.

Example C18_case : sorter isort /\ proper [mkSeg 5 2 6; mkSeg 0 1 2; mkSeg 2 (-2) 4] /\
  normalizeLine isort [mkSeg 5 2 6; mkSeg 0 1 2; mkSeg 2 (-2) 4] = [mkSeg 0 (-1) 4; mkSeg 5 2 6].
Proof. split; [exact isort_sorter|]. split; [|reflexivity]. intros g [<-|[<-|[<-|[]]]]; cbn; lia. Qed.

(** C53: merge keeps every segment of both operands in its line and extends the line range. *)
Theorem C53_merge s other : exists r, merge s other = Ok r /\ sl_start r = Z.min (sl_start s) (sl_start other) /\
  endIndex r = Z.max (endIndex s) (endIndex other) /\ (forall y, lineOf r y = lineOf s y ++ lineOf other y).
Proof. exact (merge_spec s other). Qed.
Print Assumptions C53_merge.

Example C53_merge_case : merge (mkSL 3 [[mkSeg 0 1 2]]) (mkSL 1 [[mkSeg 7 1 9]; []; [mkSeg 1 2 5]; [mkSeg 4 4 4]]) =
  Ok (mkSL 1 [[mkSeg 7 1 9]; []; [mkSeg 0 1 2; mkSeg 1 2 5]; [mkSeg 4 4 4]]).
Proof. reflexivity. Qed.

(** C53: operator+= unites the covered pixels, adds the turning counts and leaves normalised lines. *)
Theorem C53_plus_assign srt s other : sorter srt -> properLines s -> properLines other ->
  exists r, plusAssign srt s other = Ok r /\ sl_start r = Z.min (sl_start s) (sl_start other) /\ endIndex r = Z.max (endIndex s) (endIndex other) /\
    properLines r /\ (forall y, spaced (lineOf r y)) /\
    (forall y x, covered (lineOf r y) x <-> covered (lineOf s y) x \/ covered (lineOf other y) x) /\
    (forall y x, ~ covered (lineOf r y) x -> windLeft (lineOf r y) x = windLeft (lineOf s y) x + windLeft (lineOf other y) x) /\
    (forall y, totalDir (lineOf r y) = totalDir (lineOf s y) + totalDir (lineOf other y)).
Proof. exact (plusAssign_spec srt s other). Qed.
Print Assumptions C53_plus_assign.

Example C53_plus_case : plusAssign isort (mkSL 3 [[mkSeg 0 1 2]]) (mkSL 2 [[]; [mkSeg 1 2 5]]) = Ok (mkSL 2 [[]; [mkSeg 0 3 5]]).
Proof. reflexivity. Qed.

(** C53: reverse negates every direction and moves nothing. *)
Theorem C53_reverse s y : lineOf (reverseLines s) y = map (fun g => mkSeg (sbeg g) (- sdir g) (send g)) (lineOf s y).
Proof. exact (reverse_spec s y). Qed.
Print Assumptions C53_reverse.

Example C53_reverse_case : reverseLines (mkSL 0 [[mkSeg 0 1 2; mkSeg 4 (-2) 5]]) = mkSL 0 [[mkSeg 0 (-1) 2; mkSeg 4 2 5]].
Proof. reflexivity. Qed.

(** C53: append adds to the addressed line only, and does nothing outside the domain. *)
Theorem C53_append s line g : forall y, lineOf (append s line g) y = lineOf s y ++ (if (y =? line) && (sl_start s <=? line) && (line <? endIndex s) then [g] else []).
Proof. exact (append_spec s line g). Qed.
Print Assumptions C53_append.

(** C54: ScanlinesIter yields exactly the covered pixels, line by line; scanlines must have a segment. *)
Theorem C54_iterator s n : (0 < segCount s)%nat -> (length (allPixels s) <= n)%nat ->
  (it <- slBegin s ;; slDrain n s it) = Ok (allPixels s).
Proof. exact (sliter_spec s n). Qed.
Print Assumptions C54_iterator.

Example C54_case : let s := mkSL 5 [[]; [mkSeg 1 0 3; mkSeg 4 0 4; mkSeg 6 0 7]; []; [mkSeg 0 0 1]; []] in
  (0 < segCount s)%nat /\ (it <- slBegin s ;; slDrain 4 s it) = Ok [(1,6);(2,6);(6,6);(0,8)].
Proof. split; [cbn; lia | reflexivity]. Qed.

(** C54: the list of pixels used above, by membership. *)
Theorem C54_pixels s x y : In (x, y) (allPixels s) <-> covered (lineOf s y) x.
Proof. exact (allPixels_In s x y). Qed.
Print Assumptions C54_pixels.

(** C54, limit: constructing the iterator over scanlines without any segment reads outside the line array. *)
Theorem C54_iterator_empty_refuted s : segCount s = 0%nat -> slBegin s = UB.
Proof. exact (sliter_empty s). Qed.
Print Assumptions C54_iterator_empty_refuted.

Example C54_empty_case : segCount (newScanlines 0 3) = 0%nat /\ slBegin (newScanlines 0 3) = UB.
Proof. split; reflexivity. Qed.

(** C51: fillScannedPoly on any normalised scanlines. *)
Theorem C51_fill_scanlines srt s w h : sorter srt -> properLines s -> 0 <= w ->
  let rows := fun y => 0 <= y < h /\ sl_start s <= y < endIndex s in
  ((forall y, rows y -> totalDir (lineOf s y) = 0) ->
     exists px, fillScannedPoly (normalize srt s) w h = Ok (px, Z.of_nat (length px)) /\ NoDup px /\
       (forall x y, In (x, y) px <-> 0 <= x < w /\ 0 <= y < h /\ ~ covered (lineOf s y) x /\ windLeft (lineOf s y) x > 0)) /\
  (~ (forall y, rows y -> totalDir (lineOf s y) = 0) -> fillScannedPoly (normalize srt s) w h = Exn).
Proof. exact (fill_spec srt s w h). Qed.
Print Assumptions C51_fill_scanlines.

(** C51: drawScannedPoly on any normalised scanlines. *)
Theorem C51_draw_scanlines srt s w h : sorter srt -> properLines s ->
  exists px, drawScannedPoly (normalize srt s) w h = Ok (px, Z.of_nat (length px)) /\ NoDup px /\
    (forall x y, In (x, y) px <-> 0 <= x < w /\ 0 <= y < h /\ covered (lineOf s y) x).
Proof. exact (draw_spec srt s w h). Qed.
Print Assumptions C51_draw_scanlines.

(** C51: scanPoly covers a pixel exactly if the polygon has a point inside that pixel's open square. *)
Theorem C51_covered_iff_passes_through (srt : list seg -> list seg) (Hsrt : sorter srt) (pts : list (Q * Q)) (n : nat) (a L x : Z) : (a <= L < a + Z.of_nat n)%Z ->
  covered (lineOf (scanPoly srt pts n a) L) x <-> chainMeets (inPixel x L) pts.
Proof. exact (scanPoly_covered srt Hsrt pts n a L x). Qed.
Print Assumptions C51_covered_iff_passes_through.

Example C51_square_lines : scanPoly isort square 6 0 =
  mkSL 0 [[]; [mkSeg 1 0 5]; [mkSeg 1 2 2; mkSeg 4 (-2) 5]; [mkSeg 1 2 2; mkSeg 4 (-2) 5]; [mkSeg 1 0 5]; []].
Proof. vm_compute. reflexivity. Qed.

(** C51: the lines scanPoly returns are normalised. *)
Theorem C51_lines_normalised (srt : list seg -> list seg) (Hsrt : sorter srt) (pts : list (Q * Q)) (n : nat) (a L : Z) : spaced (lineOf (scanPoly srt pts n a) L) /\ proper (lineOf (scanPoly srt pts n a) L).
Proof. exact (scanPoly_spaced srt Hsrt pts n a L). Qed.
Print Assumptions C51_lines_normalised.

(** C51: with the rows of the bounding box no pixel the polygon passes through is missing. *)
Theorem C51_bounding_box_suffices (srt : list seg -> list seg) (Hsrt : sorter srt) (pts : list (Q * Q)) (ylo yhi : Q) (x L : Z) : (forall p, In p pts -> (ylo <= snd p <= yhi)%Q) -> chainMeets (inPixel x L) pts ->
  let s := scanPolyBBox srt pts ylo yhi in (sl_start s <= L < endIndex s)%Z /\ covered (lineOf s L) x.
Proof. exact (bbox_rows srt Hsrt pts ylo yhi x L). Qed.
Print Assumptions C51_bounding_box_suffices.

(** C51: drawing the scanned polygon writes exactly the pixels it passes through, once each, inside the image. *)
Theorem C51_draw_polygon (srt : list seg -> list seg) (Hsrt : sorter srt) (pts : list (Q * Q)) (n : nat) (a w h : Z) : exists px, drawScannedPoly (scanPoly srt pts n a) w h = Ok (px, Z.of_nat (length px)) /\ NoDup px /\
    (forall x y, In (x, y) px <-> (0 <= x < w /\ 0 <= y < h /\ a <= y < a + Z.of_nat n)%Z /\ chainMeets (inPixel x y) pts).
Proof. exact (draw_polygon srt Hsrt pts n a w h). Qed.
Print Assumptions C51_draw_polygon.

(** C52: for a closed polygon the directions of every line add up to 0. *)
Theorem C52_closed_total (srt : list seg -> list seg) (Hsrt : sorter srt) (pts : list (Q * Q)) (n : nat) (a L : Z) : closedChain pts -> totalDir (lineOf (scanPoly srt pts n a) L) = 0%Z.
Proof. exact (scanPoly_total srt Hsrt pts n a L). Qed.
Print Assumptions C52_closed_total.

(** C52: left of an untouched pixel the directions add up to twice the winding number. *)
Theorem C52_winding (srt : list seg -> list seg) (Hsrt : sorter srt) (pts : list (Q * Q)) (n : nat) (a L x : Z) : closedChain pts -> (a <= L < a + Z.of_nat n)%Z -> ~ chainMeets (inPixel x L) pts ->
  windLeft (lineOf (scanPoly srt pts n a) L) x = (2 * winding x L pts)%Z.
Proof. exact (scanPoly_wind srt Hsrt pts n a L x). Qed.
Print Assumptions C52_winding.

Example C52_square_winding : winding 2 2 square = 1 /\ winding 0 2 square = 0 /\ winding 7 2 square = 0.
Proof. vm_compute. auto. Qed.

(** C52: scanning and filling a closed polygon never throws and writes exactly the untouched pixels with
    positive winding number, once each, inside the image. *)
Theorem C52_fill_polygon (srt : list seg -> list seg) (Hsrt : sorter srt) (pts : list (Q * Q)) (n : nat) (a w h : Z) : closedChain pts -> (0 <= w)%Z ->
  exists px, fillScannedPoly (scanPoly srt pts n a) w h = Ok (px, Z.of_nat (length px)) /\ NoDup px /\
    (forall x y, In (x, y) px <-> (0 <= x < w /\ 0 <= y < h /\ a <= y < a + Z.of_nat n)%Z /\ ~ chainMeets (inPixel x y) pts /\ (winding x y pts > 0)%Z).
Proof. exact (fill_polygon srt Hsrt pts n a w h). Qed.
Print Assumptions C52_fill_polygon.

Example C52_square_fill : closedChain square /\ fillScannedPoly (scanPoly isort square 6 0) 4 8 = Ok ([(2,2);(3,2);(2,3);(3,3)], 4).
Proof. split; [exact square_closed | vm_compute; reflexivity]. Qed.
(** an open chain is rejected *)
Example C52_open_chain : fillScannedPoly (scanPoly isort [(1, 1); (1, 4); (4, 4)]%Q 6 0) 8 8 = Exn.
Proof. vm_compute. reflexivity. Qed.

