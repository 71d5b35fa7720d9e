(** C80 to C83: the statistics of the pixel based map. *)
From Coq Require Import Lia.
From Verif Require Import Base CellMap_Model CellMap_Spec CellMap_Init CellMap_Examples CellSigma_Spec CellSigma_Results CellLink_Spec CellFace_Spec CellFace_Results CellFace_Examples CellContour_Spec CellCall_Results CellPlane_Spec CellPlane_Results CellPlane_Examples
  CellStats_Model CellStats_Spec CellStats_Step CellStats_Results CellStats_Examples.
Local Open Scope Z_scope.

(** C80: after any calls the statistics of a face are those of its pixels in the image, without the ones that belonged to nodes removed as isolated. *)
Theorem C80_faces original gradient maxValue m0 since lost m s l c : shistory original gradient maxValue m0 since lost m s -> isCell m Region l c -> (l = O -> zeroOut (cim m0)) ->
  exists a, nth_error (faceStats s) l = Some a /\ statOf original (fun x y => owns (cim m) Region (Z.of_nat l) x y /\ inBase (cim m) x y /\ ~ lost x y) a.
Proof. exact (face_stats original gradient maxValue m0 since lost m s l c). Qed.
Print Assumptions C80_faces.

(** C80: so they are exactly those of its pixels if none was lost that way. *)
Theorem C80_exact original gradient maxValue m0 since lost m s l c : shistory original gradient maxValue m0 since lost m s -> isCell m Region l c -> (l = O -> zeroOut (cim m0)) -> (forall x y, owns (cim m) Region (Z.of_nat l) x y -> ~ lost x y) ->
  exists a, nth_error (faceStats s) l = Some a /\ forall b, statOf original (fun x y => owns (cim m) Region (Z.of_nat l) x y /\ inBase (cim m) x y) b <-> b = a.
Proof. exact (face_exact original gradient maxValue m0 since lost m s l c). Qed.
Print Assumptions C80_exact.

(** the second room when the wall is gone: 26 pixels, 5 of the wall and 10 of the first room *)
Example C80_case : zeroOut (cim r0) /\ (exists lost, shistory grey steep 255 r0 r0 lost (mapGot (runRooms joining) r0) (got (runRooms joining) s0)) /\ (exists c, isCell (mapGot (runRooms joining) r0) Region 2 c) /\
  nth_error (faceStats (got (runRooms joining) s0)) 2 = Some (Stat 41 956 31074) /\ foundStat grey (cim (mapGot (runRooms joining) r0)) Region 2 = Stat 41 956 31074.
Proof. split; [exact r0_zeroOut|]. split; [apply (rooms_after joining); vm_compute; reflexivity|]. split; [apply live_is; vm_compute; reflexivity|]. split; vm_compute; reflexivity. Qed.

(** C80: the pixels of a node removed as isolated are missing from the statistics of the face that gets them. *)
Theorem C80_lost_refuted : exists original gradient maxValue m0 since lost m s l c a, shistory original gradient maxValue m0 since lost m s /\ zeroOut (cim m0) /\ isCell m Region l c /\ nth_error (faceStats s) l = Some a /\
  ~ statOf original (fun x y => owns (cim m) Region (Z.of_nat l) x y /\ inBase (cim m) x y) a.
Proof. exact lost_refuted. Qed.
Print Assumptions C80_lost_refuted.

(** C81: after any calls the statistics of an edge are those of its pixels in the image, or, along the infinite face, a single largest value. *)
Theorem C81_edges original gradient maxValue m0 since lost m s l e : shistory original gradient maxValue m0 since lost m s -> isEdge m l e ->
  exists a, nth_error (edgeStats s) l = Some a /\ (avgOf gradient (fun x y => owns (cim m) Line (Z.of_nat l) x y /\ inBase (cim m) x y) a \/ (a = Avg 1 maxValue /\ outerEdge (cim m) (Z.of_nat l))).
Proof. exact (edge_stats original gradient maxValue m0 since lost m s l e). Qed.
Print Assumptions C81_edges.

Theorem C81_exact original gradient maxValue m0 since lost m s l e : shistory original gradient maxValue m0 since lost m s -> isEdge m l e -> ~ outerEdge (cim m) (Z.of_nat l) ->
  exists a, nth_error (edgeStats s) l = Some a /\ forall b, avgOf gradient (fun x y => owns (cim m) Line (Z.of_nat l) x y /\ inBase (cim m) x y) b <-> b = a.
Proof. exact (edge_exact original gradient maxValue m0 since lost m s l e). Qed.
Print Assumptions C81_exact.

(** the edge through the node of three pixels *)
Example C81_case : (exists lost, shistory grey steep 255 thornMap thornMap lost (mapGot runThorn thornMap) (got runThorn t0)) /\ (exists c, isCell (mapGot runThorn thornMap) Line 2 c) /\ ~ outerEdge (cim (mapGot runThorn thornMap)) 2 /\
  nth_error (edgeStats (got runThorn t0)) 2 = Some (Avg 6 43) /\ foundAvg steep (cim (mapGot runThorn thornMap)) Line 2 = Avg 6 43.
Proof.
  split; [apply (thorn_after [CMergeEdges (Dart 5 3 0)]); vm_compute; reflexivity|]. split; [apply live_is; vm_compute; reflexivity|].
  split; [rewrite <- outerB_is; vm_compute; intros Q; discriminate Q|]. split; vm_compute; reflexivity.
Qed.

(** C81: the constructor gives the edges along the infinite face the largest value and the first flag, and leaves all other flags. *)
Theorem C81_start original gradient maxValue m p : faced m -> bigEnough original (cim m) -> bigEnough gradient (cim m) -> (length (cedges m) <= length p)%nat ->
  exists s, newStats original gradient maxValue m p = Ok s /\ length (flags s) = length p /\
    (forall l e, isEdge m l e -> outerEdge (cim m) (Z.of_nat l) -> nth_error (edgeStats s) l = Some (Avg 1 maxValue)) /\
    (forall l f, nth_error p l = Some f -> exists f', nth_error (flags s) l = Some f' /\
       forall b, 0 <= b -> (Z.testbit f' b = true <-> Z.testbit f b = true \/ (b = 0 /\ (exists e, isEdge m l e) /\ outerEdge (cim m) (Z.of_nat l)))).
Proof. exact (start_stats original gradient maxValue m p). Qed.
Print Assumptions C81_start.

Example C81_start_case : faced r0 /\ bigEnough grey (cim r0) /\ bigEnough steep (cim r0) /\ (length (cedges r0) <= 5)%nat /\ outerEdge (cim r0) 2 /\ ~ outerEdge (cim r0) 3 /\
  option_map flags (match newStats grey steep 255 r0 [0; 0; 4; 0; 0] with Ok s => Some s | _ => None end) = Some [1; 1; 5; 0; 0].
Proof.
  split; [exact r0_faced|]. split; [apply bigB_holds; vm_compute; reflexivity|]. split; [apply bigB_holds; vm_compute; reflexivity|]. split; [vm_compute; repeat constructor|].
  split; [apply outerB_is; vm_compute; reflexivity|]. split; [rewrite <- outerB_is; vm_compute; intros Q; discriminate Q|]. vm_compute. reflexivity.
Qed.

(** C81: an edge that comes to lie along the infinite face later has not the largest value and is not protected. *)
Theorem C81_border_refuted : exists original gradient maxValue m0 since lost m s l e, shistory original gradient maxValue m0 since lost m s /\ isEdge m l e /\ outerEdge (cim m) (Z.of_nat l) /\ nth_error (edgeStats s) l <> Some (Avg 1 maxValue) /\
  edgeProtected s (Z.of_nat l) = Ok false.
Proof. exact border_refuted. Qed.
Print Assumptions C81_border_refuted.

(** C82: protectEdge() sets or clears the flag at all edges of the first map that the edge consists of, and nowhere else; it tells whether one of them was changed. *)
Theorem C82_protect original gradient maxValue m0 since lost m s l e b on : shistory original gradient maxValue m0 since lost m s -> isEdge m l e -> 0 <= b ->
  exists s' r, protectEdge s (Z.of_nat l) (2 ^ b) on = Ok (s', r) /\
    (forall a f, nth_error (flags s) a = Some f -> exists f', nth_error (flags s') a = Some f' /\
       forall n, 0 <= n -> (partOf m0 m (Z.of_nat a) (Z.of_nat l) /\ n = b -> Z.testbit f' n = on) /\ (~ (partOf m0 m (Z.of_nat a) (Z.of_nat l) /\ n = b) -> Z.testbit f' n = Z.testbit f n)) /\
    (r = true <-> exists a f, partOf m0 m (Z.of_nat a) (Z.of_nat l) /\ nth_error (flags s) a = Some f /\ Z.testbit f b <> on) /\ setFlags s' (flags s) = s.
Proof. exact (protect original gradient maxValue m0 since lost m s l e b on). Qed.
Print Assumptions C82_protect.

(** C82: an edge is protected if one of the edges it consists of has a flag. *)
Theorem C82_protected original gradient maxValue m0 since lost m s l e : shistory original gradient maxValue m0 since lost m s -> isEdge m l e ->
  exists r, edgeProtected s (Z.of_nat l) = Ok r /\ (r = true <-> exists a f, partOf m0 m (Z.of_nat a) (Z.of_nat l) /\ nth_error (flags s) a = Some f /\ f <> 0).
Proof. exact (protected original gradient maxValue m0 since lost m s l e). Qed.
Print Assumptions C82_protected.

(** C82: an edge consists of one edge of the first map at least, the one with its label; each of them has flags, and is part of no other edge. *)
Theorem C82_parts original gradient maxValue m0 since lost m s l e : shistory original gradient maxValue m0 since lost m s -> isEdge m l e ->
  partOf m0 m (Z.of_nat l) (Z.of_nat l) /\ forall a, partOf m0 m a (Z.of_nat l) -> exists n f, a = Z.of_nat n /\ nth_error (flags s) n = Some f /\ forall l', partOf m0 m a l' -> l' = Z.of_nat l.
Proof. exact (parts original gradient maxValue m0 since lost m s l e). Qed.
Print Assumptions C82_parts.

(** C82: after a call an edge is protected if and only if one of the edges it was made of was. *)
Theorem C82_kept original gradient maxValue m0 since lost m s c m' s' l e : shistory original gradient maxValue m0 since lost m s -> faceAllowed (cim m) c -> statExec original gradient maxValue m s c = Ok (m', s') -> isEdge m' l e ->
  (edgeProtected s' (Z.of_nat l) = Ok true <-> exists j f x y, isEdge m j f /\ edgeProtected s (Z.of_nat j) = Ok true /\ owns (cim m) Line (Z.of_nat j) x y /\ owns (cim m') Line (Z.of_nat l) x y).
Proof. exact (protection_kept original gradient maxValue m0 since lost m s c m' s' l e). Qed.
Print Assumptions C82_kept.

(** edge 2 of the thorn has no flag, edge 3 has one, and both together are protected *)
Example C82_case : shistory grey steep 255 thornMap thornMap (fun _ _ => False) thornMap t0 /\ faceAllowed (cim thornMap) (CMergeEdges (Dart 5 3 0)) /\ edgeProtected t0 2 = Ok false /\ edgeProtected t0 3 = Ok true /\
  match statExec grey steep 255 thornMap t0 (CMergeEdges (Dart 5 3 0)) with Ok (_, s) => edgeProtected s 2 = Ok true /\ option_map (fun r => (flags (fst r), snd r)) (match protectEdge s 2 2 false with Ok r => Some r | _ => None end) = Some ([1; 1; 0; 0], true) | _ => False end.
Proof. split; [apply t0_history|]. split; [apply isDartB_holds; vm_compute; reflexivity|]. split; [vm_compute; reflexivity|]. split; [vm_compute; reflexivity|]. vm_compute. split; reflexivity. Qed.

(** C82: a flag of more than one bit is not cleared if only some of its bits are set: the others are set. *)
Theorem C82_bits_refuted : exists original gradient maxValue m0 since lost m s l e flag s' b f f', shistory original gradient maxValue m0 since lost m s /\ isEdge m l e /\ protectEdge s (Z.of_nat l) flag false = Ok (s', b) /\
  nth_error (flags s) l = Some f /\ nth_error (flags s') l = Some f' /\ Z.land f flag <> 0 /\ Z.land f' flag <> 0.
Proof. exact two_bits_refuted. Qed.
Print Assumptions C82_bits_refuted.

(** C83: lastChanges() covers every pixel of the cell image that was changed since it was cleared. *)
Theorem C83_changes original gradient maxValue m0 since lost m s : shistory original gradient maxValue m0 since lost m s ->
  forall x y, 0 <= x < iw (cim m) -> 0 <= y < ih (cim m) -> ipix (cim m) x y <> ipix (cim since) x y -> inRect (lastChanges s) x y.
Proof. exact (changes original gradient maxValue m0 since lost m s). Qed.
Print Assumptions C83_changes.

(** C83: cleared before a call, it is the smallest rectangle around the cell that the call returns. *)
Theorem C83_call original gradient maxValue m0 since lost m s c m' s' : shistory original gradient maxValue m0 since lost m s -> faceAllowed (cim m) c -> statExec original gradient maxValue m (fst (clearLastChanges s)) c = Ok (m', s') ->
  exists k, cexec m c = Ok (m', k) /\ exactRect (owns (cim m') (match c with CMergeEdges _ => Line | _ => Region end) k) (lastChanges s').
Proof. exact (cleared_call original gradient maxValue m0 since lost m s c m' s'). Qed.
Print Assumptions C83_call.

(** the bridge goes after clearing, and the changes are within the second room *)
Example C83_case : (exists m' s', shistory grey steep 255 r0 r0 (fun x y => False \/ (vertexAt (cim r0) x y /\ ptype (ipix (cim m') x y) = Region)) m' s' /\ lastChanges s' = Rect 5 2 11 7 /\ ipix (cim m') 8 5 = Pix Region 2 /\ ipix (cim r0) 8 5 = Pix Line 4).
Proof.
  assert (Q : match statExec grey steep 255 r0 (fst (clearLastChanges s0)) (CRemoveBridge (Dart 7 5 0)) with Ok (m', s') => (lastChanges s', ipix (cim m') 8 5) | _ => (Rect 0 0 0 0, Pix Line 0) end = (Rect 5 2 11 7, Pix Region 2)) by (vm_compute; reflexivity).
  destruct (statExec grey steep 255 r0 (fst (clearLastChanges s0)) (CRemoveBridge (Dart 7 5 0))) as [[m' s']| | |] eqn:E; [|discriminate Q..]. exists m', s'.
  split; [apply (sh_call grey steep 255 r0 r0 _ r0 (fst (clearLastChanges s0)) (CRemoveBridge (Dart 7 5 0))); [apply (sh_clear grey steep 255 r0 r0), s0_history|apply isDartB_holds; vm_compute; reflexivity|exact E]|].
  revert Q. generalize (lastChanges s') (ipix (cim m') 8 5). intros a b Q. injection Q as -> ->. split; [reflexivity|]. split; [reflexivity|vm_compute; reflexivity].
Qed.

(** C83: with the hooks of the statistics a call returns, or is refused, as it is without them. *)
Theorem C83_same original gradient maxValue m0 since lost m s c : shistory original gradient maxValue m0 since lost m s -> faceAllowed (cim m) c ->
  (forall m' k, cexec m c = Ok (m', k) -> exists s', statExec original gradient maxValue m s c = Ok (m', s')) /\ (cexec m c = Exn -> statExec original gradient maxValue m s c = Exn).
Proof. exact (calls_same original gradient maxValue m0 since lost m s c). Qed.
Print Assumptions C83_same.

(** C83: nothing outside of the vectors and images is read, and every loop ends. *)
Theorem C83_returns original gradient maxValue m0 since lost m s c : phistory m0 -> shistory original gradient maxValue m0 since lost m s -> faceAllowed (cim m) c ->
  (exists m' s', statExec original gradient maxValue m s c = Ok (m', s')) \/ statExec original gradient maxValue m s c = Exn.
Proof.
  intros P H A. assert (Pm : phistory m) by (clear A c; induction H as [p s since|since lost m s c m' s' H IH A E| | |]; auto; destruct (CellStats_Main.exec_call _ _ _ _ _ _ _ _ E) as (k & Ek); exact (ph_call m c m' k IH A Ek)).
  destruct (C83_same original gradient maxValue m0 since lost m s c H A) as (X & Y). destruct (calls_return m (phistory_khistory m Pm) c A) as [(m' & k & E)|E]; [left; destruct (X m' k E) as (s' & Q); eauto|right; apply Y, E].
Qed.
Print Assumptions C83_returns.

Example C83_returns_case : phistory thornMap /\ shistory grey steep 255 thornMap thornMap (fun _ _ => False) thornMap t0 /\ faceAllowed (cim thornMap) (CMergeFaces (Dart 5 3 0)) /\ statExec grey steep 255 thornMap t0 (CMergeFaces (Dart 5 3 0)) = Exn.
Proof. split; [exact thorn_history|]. split; [apply t0_history|]. split; [apply isDartB_holds; vm_compute; reflexivity|vm_compute; reflexivity]. Qed.
