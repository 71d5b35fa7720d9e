(** Statistics of a map to try the statements on, and statements that do not hold. *)
From Coq Require Import Lia.
From Verif Require Import Base CellMap_Model CellMap_Spec CellMap_Scan CellMap_Proofs CellMap_Main CellMap_Init CellMap_InitProofs CellMap_Check CellMap_Examples
  CellSigma_Spec CellSigma_Proofs CellSigma_Results CellLink_Spec CellLink_Proofs CellLink_Check CellSigma_Examples CellFace_Spec CellFace_Walk CellFace_Step CellFace_Results CellFace_Examples CellPlane_Spec CellPlane_Results CellPlane_Examples
  CellStats_Model CellStats_Spec CellStats_Step CellStats_Main CellStats_Chain CellStats_Inv CellStats_Start CellStats_Results.
Local Open Scope Z_scope.

(** ** Counting by computing *)
Definition ownsB (im : img) (t : ctype) (l x y : Z) : bool := (0 <=? x) && (x <? iw im) && (0 <=? y) && (y <? ih im) && ctypeEqb (ptype (ipix im x y)) t && (plabel (ipix im x y) =? l).
Lemma ownsB_is im t l x y : ownsB im t l x y = true <-> owns im t l x y.
Proof.
  unfold ownsB. rewrite !andb_true_iff, !Z.leb_le, !Z.ltb_lt, CellSigma_Proofs.ctypeEqb_eq, Z.eqb_eq. split; [intros (((((A & B) & C) & D) & T) & P); split; [lia|]; split; [lia|]; apply pix_mk; assumption|].
  intros (X & Y & P). rewrite P. cbn [ptype plabel]. repeat split; lia.
Qed.
Definition baseB (im : img) (x y : Z) : bool := (2 <=? x) && (x <? iw im - 2) && (2 <=? y) && (y <? ih im - 2).
Lemma baseB_is im x y : baseB im x y = true <-> inBase im x y.
Proof. unfold baseB, inBase. rewrite !andb_true_iff, !Z.leb_le, !Z.ltb_lt. lia. Qed.
Definition found (im : img) (t : ctype) (l : Z) : list (Z * Z) := filter (fun p => ownsB im t l (fst p) (snd p) && baseB im (fst p) (snd p)) (allPoints im).
Lemma found_in im t l x y : In (x, y) (found im t l) <-> owns im t l x y /\ inBase im x y.
Proof.
  unfold found. rewrite filter_In. cbn [fst snd]. rewrite andb_true_iff, ownsB_is, baseB_is. split; [tauto|]. intros (O & B). split; [|auto]. apply rectPoints_in. unfold inRect. cbn. destruct O as (X & Y & _). lia.
Qed.
Lemma found_amount im t l v g : amount v g (fun x y => owns im t l x y /\ inBase im x y) (total v g (found im t l)).
Proof. exists (found im t l). split; [apply NoDup_filter, rectPoints_NoDup|]. split; [apply found_in|reflexivity]. Qed.
Definition foundStat (v : vimg) (im : img) (t : ctype) (l : Z) : stat := let ps := found im t l in Stat (total v (fun _ => 1) ps) (total v (fun a => a) ps) (total v (fun a => a * a) ps).
Definition foundAvg (v : vimg) (im : img) (t : ctype) (l : Z) : avg := let ps := found im t l in Avg (total v (fun _ => 1) ps) (total v (fun a => a) ps).
Lemma foundStat_is v im t l a : statOf v (fun x y => owns im t l x y /\ inBase im x y) a <-> a = foundStat v im t l.
Proof.
  split; [|intros ->; split; [|split]; apply found_amount]. intros (A & B & C). destruct a as [n s q]. unfold foundStat. cbn in *. f_equal; (eapply amount_unique; [eassumption|apply found_amount]).
Qed.
Lemma foundAvg_is v im t l a : avgOf v (fun x y => owns im t l x y /\ inBase im x y) a <-> a = foundAvg v im t l.
Proof. split; [|intros ->; split; apply found_amount]. intros (A & B). destruct a as [n s]. unfold foundAvg. cbn in *. f_equal; (eapply amount_unique; [eassumption|apply found_amount]). Qed.
Definition outerB (im : img) (l : Z) : bool := existsb (fun p => existsb (fun k => ownsB im Line l (fst p) (snd p) && ownsB im Region 0 (fst p + dirX k) (snd p + dirY k)) [0; 2; 4; 6]) (allPoints im).
Lemma outerB_is im l : outerB im l = true <-> outerEdge im l.
Proof.
  unfold outerB, outerEdge. rewrite existsb_exists. split.
  - intros ((x, y) & _ & Q). apply existsb_exists in Q. destruct Q as (k & K & Q). apply andb_true_iff in Q. rewrite !ownsB_is in Q. exists x, y, k. tauto.
  - intros (x & y & k & K & A & B). exists (x, y). split; [apply rectPoints_in; unfold inRect; cbn; destruct A as (X & Y & _); lia|]. apply existsb_exists. exists k. split; [exact K|]. apply andb_true_iff. rewrite !ownsB_is. auto.
Qed.

(** ** Statistics of a map, and calls after one another *)
Section Data.
Variables v g : vimg.
Fixpoint sreplay (m : cmap) (s : cstats) (cs : list ccall) : option (cmap * cstats) :=
  match cs with
  | [] => Some (m, s)
  | c :: t => if faceAllowedB (cim m) c then match statExec v g 255 m s c with Ok (m', s') => sreplay m' s' t | _ => None end else None
  end.
Lemma sreplay_history m0 cs : forall m s m' s' since lost, shistory v g 255 m0 since lost m s -> sreplay m s cs = Some (m', s') -> exists lost', shistory v g 255 m0 since lost' m' s'.
Proof.
  induction cs as [|c t IH]; intros m s m' s' since lost H E; cbn [sreplay] in E; [injection E as <- <-; eauto|].
  destruct (faceAllowedB (cim m) c) eqn:A; [|discriminate E]. destruct (statExec v g 255 m s c) as [[m1 s1]| | |] eqn:Ex; try discriminate E.
  exact (IH m1 s1 m' s' since _ (sh_call v g 255 m0 since lost m s c m1 s1 H (faceAllowedB_holds _ _ A) Ex) E).
Qed.
Definition bigB (w : vimg) (im : img) : bool := (iw im - 4 <=? vw w) && (ih im - 4 <=? vh w).
Lemma bigB_holds w im : bigB w im = true -> bigEnough w im. Proof. unfold bigB, bigEnough. rewrite andb_true_iff, !Z.leb_le. auto. Qed.
Lemma new_history m p s since : faced m -> bigB v (cim m) && bigB g (cim m) && (length (cedges m) <=? length p)%nat = true -> newStats v g 255 m p = Ok s -> shistory v g 255 m since (fun _ _ => False) m s.
Proof.
  intros F B N. rewrite !andb_true_iff in B. destruct B as ((B1 & B2) & B3). apply Nat.leb_le in B3. apply (sh_new v g 255 m p s since); auto; apply bigB_holds; assumption.
Qed.
End Data.
Definition got {A} (r : option (cmap * A)) (d : A) : A := match r with Some (_, s) => s | None => d end.
Definition mapGot {A} (r : option (cmap * A)) (d : cmap) : cmap := match r with Some (m, _) => m | None => d end.
Lemma got_is {A} (r : option (cmap * A)) m s : (match r with Some _ => true | None => false end) = true -> r = Some (mapGot r m, got r s). Proof. destruct r as [(a, b)|]; [reflexivity|discriminate]. Qed.

(** ** The rooms of CellMap_Examples.v *)
Definition grey : vimg := VImg 9 5 (fun x y => x + 10 * y).
Definition steep : vimg := VImg 9 5 (fun x y => 3 * x + y).
Definition newOf (v g : vimg) (m : cmap) (p : list Z) : cstats := match newStats v g 255 m p with Ok s => s | _ => CStats [] [] [] (Rect 0 0 0 0) [] end.
Definition s0 : cstats := Eval vm_compute in newOf grey steep r0 [0; 0; 4; 0; 0].
Lemma s0_new : newStats grey steep 255 r0 [0; 0; 4; 0; 0] = Ok s0. Proof. vm_compute. reflexivity. Qed.
Lemma s0_history since : shistory grey steep 255 r0 since (fun _ _ => False) r0 s0.
Proof. apply (new_history grey steep r0 [0; 0; 4; 0; 0]); [exact r0_faced|vm_compute; reflexivity|exact s0_new]. Qed.
Lemma r0_zeroOut : zeroOut (cim r0).
Proof. intros x y O B. assert (Q : found (cim r0) Region 0 = []) by (vm_compute; reflexivity). pose proof (proj2 (found_in (cim r0) Region 0 x y) (conj O B)) as J. rewrite Q in J. destruct J. Qed.
Example s0_is : s0 = CStats [Stat 0 0 0; Stat 10 205 6205; Stat 26 641 21449; Stat 0 0 0] [Avg 1 255; Avg 1 255; Avg 1 255; Avg 5 40; Avg 1 21; Avg 0 0] [0; 1; 2; 3; 4; 5] (Rect 0 0 13 9) [1; 1; 5; 0; 0].
Proof. vm_compute. reflexivity. Qed.

Definition runRooms (cs : list ccall) : option (cmap * cstats) := sreplay grey steep r0 s0 cs.
Lemma rooms_after cs : (match runRooms cs with Some _ => true | None => false end) = true -> forall since, exists lost, shistory grey steep 255 r0 since lost (mapGot (runRooms cs) r0) (got (runRooms cs) s0).
Proof. intros Q since. exact (sreplay_history grey steep r0 cs r0 s0 _ _ since _ (s0_history since) (got_is _ r0 s0 Q)). Qed.
(** the wall between the two rooms is taken away and the edges along the frame are joined *)
Definition joining : list ccall := [CMergeFaces (Dart 4 1 6); CMergeEdges (Dart 4 1 0); CMergeEdges (Dart 4 7 4)].
Example joined_stats : option_map (fun r => (faceStats (snd r), edgeStats (snd r), mergedEdges (snd r), flags (snd r))) (runRooms joining) = Some
  ([Stat 0 0 0; Stat 10 205 6205; Stat 41 956 31074; Stat 0 0 0], [Avg 1 255; Avg 1 255; Avg 1 255; Avg 5 40; Avg 1 21; Avg 0 0], [2; 0; 2; 3; 4; 5], [1; 1; 5; 0; 0]).
Proof. vm_compute. reflexivity. Qed.
(** the statistics of the second room are those of all its pixels, those of the wall among them *)
Example joined_face : option_map (fun r => foundStat grey (cim (fst r)) Region 2) (runRooms joining) = Some (Stat 41 956 31074).
Proof. vm_compute. reflexivity. Qed.
(** the frame is edge 1 now, and made of the edges 0, 1 and 2; clearing the third flag finds it at edge 2 *)
Example joined_flags : option_map (fun r => (edgeProtected (snd r) 1, match protectEdge (snd r) 1 4 false with Ok (s, b) => Some (flags s, b) | _ => None end, match protectEdge (snd r) 1 4 true with Ok (s, b) => Some (flags s, b) | _ => None end)) (runRooms joining) =
  Some (Ok true, Some ([1; 1; 1; 0; 0], true), Some ([5; 5; 5; 0; 0], true)).
Proof. vm_compute. reflexivity. Qed.
(** after clearLastChanges(), the changes of taking away the bridge *)
Example cleared_changes : (match statExec grey steep 255 r0 (fst (clearLastChanges s0)) (CRemoveBridge (Dart 7 5 0)) with Ok (_, s) => Some (lastChanges s) | _ => None end) = Some (Rect 5 2 11 7).
Proof. vm_compute. reflexivity. Qed.

(** ** The line through the node of three pixels of CellPlane_Examples.v *)
Definition t0 : cstats := Eval vm_compute in newOf grey steep thornMap [0; 0; 0; 2].
Lemma t0_history since : shistory grey steep 255 thornMap since (fun _ _ => False) thornMap t0.
Proof. apply (new_history grey steep thornMap [0; 0; 0; 2]); [apply (phistory_planar _ thorn_history)|vm_compute; reflexivity|vm_compute; reflexivity]. Qed.
Definition runThorn : option (cmap * cstats) := sreplay grey steep thornMap t0 [CMergeEdges (Dart 5 3 0)].
Lemma thorn_after cs : (match sreplay grey steep thornMap t0 cs with Some _ => true | None => false end) = true -> forall since, exists lost, shistory grey steep 255 thornMap since lost (mapGot (sreplay grey steep thornMap t0 cs) thornMap) (got (sreplay grey steep thornMap t0 cs) t0).
Proof. intros Q since. exact (sreplay_history grey steep thornMap cs thornMap t0 _ _ since _ (t0_history since) (got_is _ thornMap t0 Q)). Qed.
(** the edges 2 and 3 become one, and the pixels of the node are pixels of the edge *)
Example thorn_stats : (edgeStats t0, option_map (fun r => (edgeStats (snd r), mergedEdges (snd r), edgeProtected (snd r) 2, lastChanges (snd r))) runThorn) =
  ([Avg 1 255; Avg 1 255; Avg 2 5; Avg 1 13; Avg 0 0], Some ([Avg 1 255; Avg 1 255; Avg 6 43; Avg 1 13; Avg 0 0], [0; 1; 3; 3; 4], Ok true, Rect 0 0 11 8)).
Proof. vm_compute. reflexivity. Qed.
Example thorn_recount : option_map (fun r => foundAvg steep (cim (fst r)) Line 2) runThorn = Some (Avg 6 43).
Proof. vm_compute. reflexivity. Qed.

(** ** Statements that do not hold *)
Lemma live_is m t l : (match nth_error (cellsOf m t) l with Some c => initialized c | None => false end) = true -> exists c, isCell m t l c.
Proof. intros Q. destruct (nth_error (cellsOf m t) l) as [c|] eqn:E; [|discriminate Q]. exists c. split; assumption. Qed.
(** the pixels of a node that is removed are not added to the face *)
Lemma lost_refuted : exists original gradient maxValue m0 since lost m s l c a, shistory original gradient maxValue m0 since lost m s /\ zeroOut (cim m0) /\ isCell m Region l c /\ nth_error (faceStats s) l = Some a /\
  ~ statOf original (fun x y => owns (cim m) Region (Z.of_nat l) x y /\ inBase (cim m) x y) a.
Proof.
  set (r := runRooms [CRemoveIsolatedNode (Dart 8 3 3)]). destruct (rooms_after [CRemoveIsolatedNode (Dart 8 3 3)] ltac:(vm_compute; reflexivity) r0) as (lost & H). fold r in H.
  destruct (live_is (mapGot r r0) Region 2) as (c & C); [vm_compute; reflexivity|]. exists grey, steep, 255, r0, r0, lost, (mapGot r r0), (got r s0), 2%nat, c, (Stat 26 641 21449).
  split; [exact H|]. split; [exact r0_zeroOut|]. split; [exact C|]. split; [vm_compute; reflexivity|]. rewrite foundStat_is. vm_compute. intros Q. discriminate Q.
Qed.
(** an edge that comes to lie along the infinite face keeps its statistics and is not protected *)
Lemma border_refuted : exists original gradient maxValue m0 since lost m s l e, shistory original gradient maxValue m0 since lost m s /\ isEdge m l e /\ outerEdge (cim m) (Z.of_nat l) /\ nth_error (edgeStats s) l <> Some (Avg 1 maxValue) /\
  edgeProtected s (Z.of_nat l) = Ok false.
Proof.
  set (cs := [CMergeFaces (Dart 1 1 0)]). set (r := runRooms cs). destruct (rooms_after cs ltac:(vm_compute; reflexivity) r0) as (lost & H). fold r in H.
  destruct (live_is (mapGot r r0) Line 3) as (c & C); [vm_compute; reflexivity|]. destruct (cell_edge _ _ _ C) as (e & He & _). exists grey, steep, 255, r0, r0, lost, (mapGot r r0), (got r s0), 3%nat, e.
  split; [exact H|]. split; [exact He|]. split; [apply outerB_is; vm_compute; reflexivity|]. split; [vm_compute; intros Q; discriminate Q|vm_compute; reflexivity].
Qed.
(** a flag of two bits, one of which is set: clearing it sets the other *)
Lemma two_bits_refuted : exists original gradient maxValue m0 since lost m s l e flag s' b f f', shistory original gradient maxValue m0 since lost m s /\ isEdge m l e /\ protectEdge s (Z.of_nat l) flag false = Ok (s', b) /\
  nth_error (flags s) l = Some f /\ nth_error (flags s') l = Some f' /\ Z.land f flag <> 0 /\ Z.land f' flag <> 0.
Proof.
  destruct (live_is r0 Line 0) as (c & C); [vm_compute; reflexivity|]. destruct (cell_edge _ _ _ C) as (e & He & _).
  exists grey, steep, 255, r0, r0, (fun _ _ => False), r0, s0, 0%nat, e, 3, (setFlags s0 [2; 1; 5; 0; 0]), true, 1, 2. split; [apply s0_history|]. split; [exact He|]. split; [vm_compute; reflexivity|]. split; [vm_compute; reflexivity|]. split; [vm_compute; reflexivity|]. split; vm_compute; intros Q; discriminate Q.
Qed.
