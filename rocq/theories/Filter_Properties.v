(** C16, C17: cell iterators and image scan iterators. *)
From Verif Require Import Base GeoMap_Model GeoMap_Spec GeoMap_Results5 GeoMap_Examples Filter_Model Filter_Spec Filter_Proofs Filter_GeoMap.
Local Open Scope Z_scope.

(** C16: a loop over all cells visits exactly the live cells in label order. *)
Theorem C16_iterate_all {A : Type} (v : list (option A)) : exists it, cellsBegin v = Ok it /\ forCells (S (length v)) (fun _ w => w) v it [] = Ok (liveCells v, v).
Proof. exact (iterate_all v). Qed.
Print Assumptions C16_iterate_all.

Example C16_case : liveCells [None; Some 7; None; None; Some 8; None] = [(1%nat, 7); (4%nat, 8)].
Proof. reflexivity. Qed.

(** C16: the loop body may remove any cells (also the current one): the loop ends, dereferences only
    cells that are live at that moment, in ascending order, and sees every cell that is left. *)
Theorem C16_iterate_while_removing {A : Type} (body : list (nat * A) -> list (option A) -> list (option A)) (v : list (option A)) : removing body -> exists it, cellsBegin v = Ok it /\
  exists seen v', forCells (S (length v)) body v it [] = Ok (seen, v') /\ onlyRemoves v v' /\
    ascending (map fst seen) /\ (forall i a, In (i, a) seen -> In (i, a) (liveCells v)) /\
    (forall i a, In (i, a) (liveCells v') -> In (i, a) seen).
Proof. exact (iterate_removing body v). Qed.
Print Assumptions C16_iterate_while_removing.

(** the body removes the current cell and its successor *)
Definition nibble : list (nat * Z) -> list (option Z) -> list (option Z) := fun seen v =>
  match rev seen with (i, _) :: _ => list_upd (list_upd v i None) (S i) None | [] => v end.
Example C16_removing_case : removing nibble /\
  (it <- cellsBegin [None; Some 1; Some 2; Some 3] ;; forCells 5 nibble [None; Some 1; Some 2; Some 3] it []) =
    Ok ([(1%nat, 1); (3%nat, 3)], [None; None; None; None]).
Proof.
  split; [|reflexivity]. intros seen v. unfold nibble. destruct (rev seen) as [|[i a] t]; [apply onlyRemoves_refl|].
  split; [rewrite !list_upd_length; reflexivity|]. intros j. rewrite !nth_error_upd, list_upd_length.
  destruct (Nat.eqb_spec (S i) j) as [<-|].
  - destruct (Nat.ltb_spec (S i) (length v)) as [L|L]; [right; reflexivity|]. left. symmetry. apply nth_error_None, L.
  - destruct (Nat.eqb_spec i j) as [<-|]; [|left; reflexivity].
    destruct (Nat.ltb_spec i (length v)) as [L|L]; [right; reflexivity|]. left. symmetry. apply nth_error_None, L.
Qed.

(** C16: whatever was removed, an iterator standing at [p] reads the first cell alive at or behind
    [p], and inRange says whether there is one. *)
Theorem C16_dereference {A : Type} (v : list (option A)) p : (p <= length v)%nat ->
  match liveFrom p (skipn p v) with
  | (i, a) :: _ => sDeref notNull v (mkFiter p (length v)) = Ok (mkFiter i (length v), Some a) /\
                   sInRange notNull v (mkFiter p (length v)) = Ok (mkFiter i (length v), true)
  | [] => exists q, sInRange notNull v (mkFiter p (length v)) = Ok (mkFiter q (length v), false)
  end.
Proof. exact (deref_live v p). Qed.
Print Assumptions C16_dereference.

Example C16_dereference_case : liveFrom 1 (skipn 1 [Some 5; None; None; Some 9]) = [(3%nat, 9)] /\ liveFrom 4 (skipn 4 [Some 5; None; None; Some 9]) = [].
Proof. split; reflexivity. Qed.

(** C16: finiteFacesBegin starts behind the infinite face 0. *)
Theorem C16_finite_faces {A : Type} (f0 : A) (v : list (option A)) : exists it, finiteFacesBegin (Some f0 :: v) = Ok it /\
  forCells (S (length (Some f0 :: v))) (fun _ w => w) (Some f0 :: v) it [] = Ok (liveFrom 1 v, Some f0 :: v).
Proof. exact (iterate_finite f0 v). Qed.
Print Assumptions C16_finite_faces.

(** C16, limit: finiteFacesBegin on a map without faces (before initializeMap) increments the end iterator. *)
Theorem C16_finite_faces_empty_refuted {A : Type} : finiteFacesBegin (A := A) [] = UB.
Proof. exact (finiteFaces_empty_refuted). Qed.
Print Assumptions C16_finite_faces_empty_refuted.

(** C16: the loops over the cells of a map. *)
Theorem C16_cells_of_a_map m : history anyCall m ->
  (exists ls, visited (nodes m) (cellsBegin (nodes m)) = Ok ls /\ ascending ls /\ (forall l, In l ls <-> exists nd, isNode m l nd) /\ Z.of_nat (length ls) = nodeCount m) /\
  (exists ls, visited (edges m) (cellsBegin (edges m)) = Ok ls /\ ascending ls /\ (forall l, In l ls <-> exists e, isEdge m l e) /\ Z.of_nat (length ls) = edgeCount m) /\
  (exists ls, visited (faces m) (cellsBegin (faces m)) = Ok ls /\ ascending ls /\ (forall l, In l ls <-> exists f, isFace m l f) /\ Z.of_nat (length ls) = faceCount m) /\
  (initialised m -> exists ls, visited (faces m) (finiteFacesBegin (faces m)) = Ok ls /\ ascending ls /\ (forall l, In l ls <-> l <> 0%nat /\ exists f, isFace m l f) /\
     Z.of_nat (length ls) = faceCount m - 1).
Proof. exact (cells_visited m). Qed.
Print Assumptions C16_cells_of_a_map.

Example C16_map_case : history anyCall ringMap /\ initialised ringMap /\ visited (faces ringMap) (finiteFacesBegin (faces ringMap)) = Ok [2%nat; 4%nat].
Proof. split; [exact (replay_any true ringCalls ring_replays)|]. split; [vm_compute; discriminate|]. vm_compute. reflexivity. Qed.

(** C17: LabelScanIterator visits the matching pixels of any rectangle in row-major order, once each, with
    the second iterator at the same offset; it never reads outside the rectangle. *)
Theorem C17_label_scan {V : Type} (rd : Z -> Z -> res V) (img : Z -> Z -> V) (ok : V -> bool) (r : rect) (Hrd : forall x y, r_ulx r <= x < r_lrx r -> r_uly r <= y < r_lry r -> rd x y = Ok (img x y)) (ix iy : Z) (n : nat) : (length (rowMajor (r_ulx r) (r_uly r) (r_lrx r) (r_lry r)) <= n)%nat ->
  exists it, lsBegin rd ok r ix iy = Ok it /\
    lsDrain rd n ok r it = Ok (map (withOffset (ix - r_ulx r) (iy - r_uly r)) (filter (fun p => ok (img (fst p) (snd p))) (rowMajor (r_ulx r) (r_uly r) (r_lrx r) (r_lry r)))).
Proof. exact (labelScan_visits rd img ok r Hrd ix iy n). Qed.
Print Assumptions C17_label_scan.

Definition checker (x y : Z) : res Z := if (0 <=? x) && (x <? 3) && (0 <=? y) && (y <? 2) then Ok ((x + y) mod 2) else UB.
Example C17_case : (it <- lsBegin checker (fun v => v =? 1) (mkRect 0 0 3 2) 10 20 ;; lsDrain checker 6 (fun v => v =? 1) (mkRect 0 0 3 2) it) =
  Ok [((1,0),(11,20)); ((0,1),(10,21)); ((2,1),(12,21))] /\
  (it <- lsBegin checker (fun v => v =? 1) (mkRect 2 0 2 2) 10 20 ;; lsDrain checker 6 (fun v => v =? 1) (mkRect 2 0 2 2) it) = Ok [].
Proof. split; reflexivity. Qed.

(** C17: the same for ImageFilterIterator over rectangles with pixels or equal corners. *)
Theorem C17_image_filter {V : Type} (rd : Z -> Z -> res V) (img : Z -> Z -> V) (ok : V -> bool) (r : rect) (Hrd : forall x y, r_ulx r <= x < r_lrx r -> r_uly r <= y < r_lry r -> rd x y = Ok (img x y)) (n : nat) : (r_ulx r < r_lrx r /\ r_uly r < r_lry r) \/ (r_ulx r = r_lrx r /\ r_uly r = r_lry r) ->
  (length (rowMajor (r_ulx r) (r_uly r) (r_lrx r) (r_lry r)) <= n)%nat ->
  exists it, ifBegin rd ok r = Ok it /\ ifDrain rd n ok r it = Ok (filter (fun p => ok (img (fst p) (snd p))) (rowMajor (r_ulx r) (r_uly r) (r_lrx r) (r_lry r))).
Proof. exact (imageFilter_visits rd img ok r Hrd n). Qed.
Print Assumptions C17_image_filter.

(** C17, limit: a rectangle with width 0 but positive height makes ImageFilterIterator read outside. *)
Theorem C17_image_filter_flat_refuted : exists (rd : Z -> Z -> res Z) (img : Z -> Z -> Z) r,
  (forall x y, r_ulx r <= x < r_lrx r -> r_uly r <= y < r_lry r -> rd x y = Ok (img x y)) /\ rowMajor (r_ulx r) (r_uly r) (r_lrx r) (r_lry r) = [] /\
  ifBegin rd (fun _ => true) r = UB.
Proof. exact (imageFilter_flat_refuted). Qed.
Print Assumptions C17_image_filter_flat_refuted.

