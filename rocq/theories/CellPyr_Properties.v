(** C84 and C85: the pyramid with the pixel based map and its statistics. *)
From Coq Require Import Lia.
From Verif Require Import Base CellMap_Model CellMap_Spec CellMap_Init CellMap_Examples CellSigma_Spec CellSigma_Results CellLink_Spec CellFace_Spec CellPlane_Spec CellPlane_Results CellPlane_Examples CellJordan_Examples Pack_Model Pyramid_Model
  CellStats_Model CellStats_Spec CellStats_Examples CellPyr_Model CellPyr_Spec CellPyr_Main CellPyr_Levels CellPyr_Examples.
Local Open Scope Z_scope.

(** C84: removeEdge() with a dart of the map always succeeds: the edge and the faces on both sides of it become one face, with the label of one of them, and no other pixel is changed. *)
Theorem C84_edge original gradient maxValue m0 since lost m s d : phistory m -> shistory original gradient maxValue m0 since lost m s -> isDart (cim m) d ->
  exists m' s' k lost', pexec original gradient maxValue m s (PRemoveEdge d) = Ok (m', s') /\ painted (cim m) (cim m') k (edgeAndFaces (cim m) d) /\ edgeAndFaces (cim m) d Region k /\ shistory original gradient maxValue m0 since lost' m' s' /\ phistory m'.
Proof. intros P H. exact (edge_goes original gradient maxValue m0 since lost m s P H d). Qed.
Print Assumptions C84_edge.

(** C84: removeEdgeWithEnds() does the same and makes the ends that have no other edges part of that face, and no other node. *)
Theorem C84_ends original gradient maxValue m0 since lost m s d : phistory m -> shistory original gradient maxValue m0 since lost m s -> isDart (cim m) d ->
  exists m' s' k lost', pexec original gradient maxValue m s (PRemoveEdgeWithEnds d) = Ok (m', s') /\ painted (cim m) (cim m') k (edgeWithEnds (cim m) d) /\ edgeAndFaces (cim m) d Region k /\ shistory original gradient maxValue m0 since lost' m' s' /\ phistory m'.
Proof.
  intros P H D. destruct (ends_go original gradient maxValue m0 since lost m s d P H D) as (m' & s' & k & lost' & A & B & C & (E & F) & _). exists m', s', k, lost'. auto.
Qed.
Print Assumptions C84_ends.

(** the bridge of the rooms and both its ends become part of the second room *)
Example C84_case : phistory rm /\ shistory grey steep 255 rm rm (fun _ _ => False) rm q0 /\ isDart (cim rm) (Dart 7 5 0) /\
  match pexec grey steep 255 rm q0 (PRemoveEdgeWithEnds (Dart 7 5 0)), pexec grey steep 255 rm q0 (PRemoveEdge (Dart 7 5 0)) with
  | Ok (a, _), Ok (b, _) => map (fun x => (ipix (cim rm) x 5, ipix (cim a) x 5, ipix (cim b) x 5)) [7; 8; 9] = [(Pix Vertex 4, Pix Region 2, Pix Vertex 4); (Pix Line 4, Pix Region 2, Pix Region 2); (Pix Vertex 5, Pix Region 2, Pix Vertex 5)] /\ nodeCount a = 4 /\ nodeCount b = 6
  | _, _ => False end.
Proof. split; [exact rm_history|]. split; [apply q0_history|]. split; [apply isDartB_holds; vm_compute; reflexivity|]. vm_compute. repeat split; reflexivity. Qed.

(** C84: the pixels of the ends are missing from the statistics of the face afterwards. *)
Theorem C84_stats_refuted : exists original gradient maxValue m s d m' s' l c a, phistory m /\ shistory original gradient maxValue m m (fun _ _ => False) m s /\ zeroOut (cim m) /\ isDart (cim m) d /\ pexec original gradient maxValue m s (PRemoveEdgeWithEnds d) = Ok (m', s') /\ isCell m' Region l c /\
  nth_error (faceStats s') l = Some a /\ ~ statOf original (fun x y => owns (cim m') Region (Z.of_nat l) x y /\ inBase (cim m') x y) a.
Proof.
  assert (Q : exists r, pexec grey steep 255 rm q0 (PRemoveEdgeWithEnds (Dart 7 5 0)) = Ok r /\ (match nth_error (cellsOf (fst r) Region) 2 with Some c => initialized c | None => false end) = true /\ nth_error (faceStats (snd r)) 2 = Some (Stat 27 677 22745) /\ foundStat grey (cim (fst r)) Region 2 = Stat 29 749 25339) by (eexists; split; [vm_compute; reflexivity|vm_compute; auto]).
  destruct Q as ((m' & s') & E & L & N & F). destruct (live_is m' Region 2 L) as (c & C). exists grey, steep, 255, rm, q0, (Dart 7 5 0), m', s', 2%nat, c, (Stat 27 677 22745). split; [exact rm_history|]. split; [apply q0_history|].
  split; [intros x y O B; assert (G : found (cim rm) Region 0 = []) by (vm_compute; reflexivity); pose proof (proj2 (found_in (cim rm) Region 0 x y) (conj O B)) as J; rewrite G in J; destruct J|].
  split; [apply isDartB_holds; vm_compute; reflexivity|]. split; [exact E|]. split; [exact C|]. split; [exact N|]. rewrite foundStat_is. cbn [fst] in F. change (Z.of_nat 2) with 2. rewrite F. discriminate.
Qed.
Print Assumptions C84_stats_refuted.

(** C85: every level of the pyramid is the one that was the top level then, a map of the plane with the statistics of operations made one after the other. *)
Theorem C85_levels original gradient maxValue m0 walk m s since lost p seen k l : iw (cim m0) <= 2 ^ 14 /\ ih (cim m0) <= 2 ^ 14 -> phistory m -> shistory original gradient maxValue m0 since lost m s -> built original gradient maxValue walk m s p seen -> nth_error seen k = Some l ->
  getLevel lstate (lapply original gradient maxValue) lsame lends ldegree lanchor p k = Some (Done, l) /\ index lstate l = k /\ exists m' s' since' lost', st lstate l = Some (m', hide s') /\ phistory m' /\ shistory original gradient maxValue m0 since' lost' m' s'.
Proof. intros Sm. exact (levels_right original gradient maxValue m0 Sm walk m s since lost p seen k l). Qed.
Print Assumptions C85_levels.

(** C85: an operation with a dart of the top level never fails in an undefined way: the top level becomes what the operation makes of it, or is as before; removeEdge() and removeEdgeWithEnds() are not refused. *)
Theorem C85_operation original gradient maxValue m0 walk m s since lost p seen t z : iw (cim m0) <= 2 ^ 14 /\ ih (cim m0) <= 2 ^ 14 -> phistory m -> shistory original gradient maxValue m0 since lost m s -> built original gradient maxValue walk m s p seen ->
  (composing lstate p = 0 -> index lstate (top lstate p) = length (history lstate p)) -> fits t z (st lstate (top lstate p)) ->
  exists m1 s1 since1 lost1, st lstate (top lstate p) = Some (m1, hide s1) /\ phistory m1 /\ shistory original gradient maxValue m0 since1 lost1 m1 s1 /\
    ((exists p' m2 s2, addAndPerform lstate (lapply original gradient maxValue) lsame lends ldegree lanchor lcells p t z = (Done, p') /\ pexec original gradient maxValue m1 s1 (pcallOf t (unpack z)) = Ok (m2, s2) /\ st lstate (top lstate p') = Some (m2, hide s2)) \/
     ((exists e, t = Euler e) /\ pexec original gradient maxValue m1 s1 (pcallOf t (unpack z)) = Exn /\ exists p', addAndPerform lstate (lapply original gradient maxValue) lsame lends ldegree lanchor lcells p t z = (Thrown, p') /\ top lstate p' = top lstate p)).
Proof. intros Sm. exact (operation_right original gradient maxValue m0 Sm walk m s since lost p seen t z). Qed.
Print Assumptions C85_operation.

(** C85: the serialised dart that is recorded is the dart, in images of this size. *)
Theorem C85_dart d : 0 <= ddir d < 8 -> 0 <= dcx d < 2 ^ 14 -> 0 <= dcy d < 2 ^ 14 -> unpack (pack d) = d.
Proof. exact (pack_unpack d). Qed.
Print Assumptions C85_dart.

(** three levels, the last of them made by a composite of three operations; the dart of the frame fits the last one *)
Example C85_case : iw (cim rm) <= 2 ^ 14 /\ ih (cim rm) <= 2 ^ 14 /\ phistory rm /\ shistory grey steep 255 rm rm (fun _ _ => False) rm q0 /\ exists p seen, built grey steep 255 false rm q0 p seen /\ map countsOf seen = [Some (6, 5, 3); Some (4, 4, 3); Some (2, 1, 2)] /\
  composing lstate p = 0 /\ index lstate (top lstate p) = length (history lstate p) /\ fits RemoveEdgeWithEnds (pack (Dart 1 1 0)) (st lstate (top lstate p)).
Proof.
  split; [vm_compute; discriminate|]. split; [vm_compute; discriminate|]. split; [exact rm_history|]. split; [apply q0_history|].
  assert (Q : option_map (fun r => (map countsOf (snd r), composing lstate (fst r), (index lstate (top lstate (fst r)) =? length (history lstate (fst r)))%nat, fitsB RemoveEdgeWithEnds (pack (Dart 1 1 0)) (st lstate (top lstate (fst r))))) (climbed stairs) = Some ([Some (6, 5, 3); Some (4, 4, 3); Some (2, 1, 2)], 0, true, true)) by (vm_compute; reflexivity).
  assert (B := climbed_built stairs). revert Q B. generalize (climbed stairs) as r. intros [(p & seen)|] Q B; [|discriminate Q]. cbn [option_map fst snd] in Q. injection Q as A C I F. exists p, seen. split; [apply B; reflexivity|]. split; [exact A|]. split; [exact C|]. split; [apply Nat.eqb_eq, I|apply fitsB_holds, F].
Qed.
