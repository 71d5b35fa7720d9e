(** C37, C38, C59, C60, C61: face statistics and bounding boxes of faces. *)
From Coq Require Import QArith.
From Verif Require Import Base GeoMap_Model GeoMap_Spec GeoMap_Examples Scanlines_Model Scanlines_Spec Scanlines_Proofs LabelImage_Model LabelImage_Spec LabelImage_Examples
  FaceStats_Model FaceStats_Spec FaceStats_Main FaceStats_Examples FaceStatsCopy.
Local Open Scope Z_scope.

(** C37: whatever was done to map and statistics, the samples of a face that is not supersampled are the values of the image at the pixels of the face, each once; their number is pixelArea(). *)
Theorem C37_samples (V : Type) srt (Hsrt : sorter srt) unit debug (fs : fstate V) (s : stats V) l f : fhistory srt unit debug (fcounted unit) fs -> fsl fs = SOn s -> isFace (lg (fm fs)) l f -> ~ superSampled s l ->
  exists xs, samples s l xs /\ valuesOf (fm fs) (sOrig s) l xs /\ larea (fm fs) l = Z.of_nat (length xs).
Proof. exact (stats_samples V srt Hsrt unit debug fs s l f). Qed.
Print Assumptions C37_samples.

(** before the merge the faces have 21 and 18 samples, afterwards the survivor has 46: the pixels of both and seven pixels of the edge *)
Example C37_samples_case : fhistory isort 1 true (fcounted 1) onState /\ fhistory isort 1 true (fcounted 1) mergedState /\
  fsl onState = SOn (statsOf onState) /\ sampleCount onState 1 = Some 21%nat /\ sampleCount onState 3 = Some 18%nat /\
  fsl mergedState = SOn (statsOf mergedState) /\ sampleCount mergedState 1 = None /\ sampleCount mergedState 3 = Some 46%nat /\ ~ superSampled (statsOf mergedState) 3 /\ exists f, isFace (lg (fm mergedState)) 3 f.
Proof.
  split; [exact on_fhist|]. split; [exact merged_fhist|]. split; [apply attached; vm_compute; reflexivity|]. split; [vm_compute; reflexivity|]. split; [vm_compute; reflexivity|]. split; [apply attached; vm_compute; reflexivity|].
  split; [vm_compute; reflexivity|]. split; [vm_compute; reflexivity|]. split; [intros K; apply K; vm_compute; reflexivity | eexists; vm_compute; reflexivity].
Qed.

(** C37: there are samples exactly for the faces of the map. *)
Theorem C37_faces (V : Type) srt (Hsrt : sorter srt) unit debug (fs : fstate V) (s : stats V) l : fhistory srt unit debug (fcounted unit) fs -> fsl fs = SOn s -> ((exists xs, samples s l xs) <-> exists f, isFace (lg (fm fs)) l f).
Proof. exact (stats_live V srt Hsrt unit debug fs s l). Qed.
Print Assumptions C37_faces.

Example C37_faces_case : fhistory isort 1 true (fcounted 1) mergedState /\ fsl mergedState = SOn (statsOf mergedState) /\ map (sampleCount mergedState) [0; 1; 2; 3]%nat = [Some 40; None; None; Some 46]%nat.
Proof. split; [exact merged_fhist|]. split; [apply attached; vm_compute; reflexivity | vm_compute; reflexivity]. Qed.

(** C37: the constructor throws if there is no label image; otherwise it supersamples the finite faces with fewer than minSampleCount pixels and no others. *)
Theorem C37_attached (V : Type) srt (Hsrt : sorter srt) unit debug (fs : fstate V) (o : orig V) min extra : fhistory srt unit debug (fcounted unit) fs -> (ow o, oh o) = lsize (fm fs) ->
  match lim (fm fs) with
  | None => fexec srt unit debug fs (FStats o min extra) = Exn
  | Some _ => exists s, fexec srt unit debug fs (FStats o min extra) = Ok (mkFS (fm fs) (fbx fs) (SOn s)) /\ sOrig s = o /\
      forall l f, isFace (lg (fm fs)) l f -> (superSampled s l <-> l <> 0%nat /\ larea (fm fs) l < Z.of_nat min)
  end.
Proof. exact (stats_attach V srt Hsrt unit debug fs o min extra). Qed.
Print Assumptions C37_attached.

Example C37_attached_case : fhistory isort 1 true (fcounted 1) plainState /\ (ow photo, oh photo) = lsize (fm plainState) /\ isLive (lim (fm plainState)) = true /\ larea (fm plainState) 1 = 21 /\ larea (fm plainState) 3 = 18 /\
  level (statsOf oneState) 1 = 0%nat /\ level (statsOf oneState) 3 = 1%nat.
Proof. split; [exact plain_fhist|]. repeat split; vm_compute; reflexivity. Qed.

(** C37: the infinite face is never supersampled. *)
Theorem C37_infinite (V : Type) srt (Hsrt : sorter srt) unit debug (fs : fstate V) (s : stats V) : fhistory srt unit debug (fcounted unit) fs -> fsl fs = SOn s -> ~ superSampled s 0.
Proof. exact (stats_infinite V srt Hsrt unit debug fs s). Qed.
Print Assumptions C37_infinite.

Example C37_infinite_case : fhistory isort 1 true (fcounted 1) bothState /\ fsl bothState = SOn (statsOf bothState) /\ map (level (statsOf bothState)) [0; 1; 3]%nat = [0; 1; 2]%nat.
Proof. split; [exact both_fhist|]. split; [apply attached; vm_compute; reflexivity | vm_compute; reflexivity]. Qed.

(** C37, C60: the map underneath has one of the histories considered for maps with a label image, so the theorems about those hold of it. *)
Theorem C37_map (V : Type) srt (Hsrt : sorter srt) unit debug (fs : fstate V) : fhistory srt unit debug (fcounted unit) fs -> lhistory srt unit (counted unit) (fm fs).
Proof. exact (stats_map V srt Hsrt unit debug fs). Qed.
Print Assumptions C37_map.

Example C37_map_case : fhistory isort 1 true (fcounted 1) mergedState /\ areas (fm mergedState) = [(0%nat, 40); (3%nat, 46)].
Proof. split; [exact merged_fhist | vm_compute; reflexivity]. Qed.

(** C38: superSampledCount() is the number of supersampled faces of the map. *)
Theorem C38_count (V : Type) srt (Hsrt : sorter srt) unit debug (fs : fstate V) (s : stats V) : fhistory srt unit debug (fcounted unit) fs -> fsl fs = SOn s -> exists L, superSampledFaces (lg (fm fs)) s L /\ sCount s = Z.of_nat (length L).
Proof. exact (stats_count V srt Hsrt unit debug fs s). Qed.
Print Assumptions C38_count.

Example C38_count_case : fhistory isort 1 true (fcounted 1) bothState /\ fsl bothState = SOn (statsOf bothState) /\ superSampledFaces (lg (fm bothState)) (statsOf bothState) [1; 3]%nat /\ sCount (statsOf bothState) = 2.
Proof. split; [exact both_fhist|]. split; [apply attached; vm_compute; reflexivity|]. split; [apply superSampled_list; vm_compute; reflexivity | vm_compute; reflexivity]. Qed.

(** C38: checkConsistency() finds nothing wrong. *)
Theorem C38_consistent (V : Type) srt (Hsrt : sorter srt) unit debug (fs : fstate V) (s : stats V) : fhistory srt unit debug (fcounted unit) fs -> fsl fs = SOn s -> checkConsistency (fm fs) s = Ok true.
Proof. exact (stats_consistent V srt Hsrt unit debug fs s). Qed.
Print Assumptions C38_consistent.

Example C38_consistent_case : fhistory isort 1 true (fcounted 1) mergedBoth /\ fsl mergedBoth = SOn (statsOf mergedBoth) /\ sTab (statsOf mergedBoth) = Some [0; 1; 0; 0]%nat /\ sCount (statsOf mergedBoth) = 0.
Proof. split; [exact mergedBoth_fhist|]. split; [apply attached; vm_compute; reflexivity|]. split; vm_compute; reflexivity. Qed.

(** C38, limit: every merge whose survivor is the only supersampled face, the other face being not supersampled, reads the table after its release. *)
Theorem C38_undefined_partial (V : Type) srt (Hsrt : sorter srt) unit debug (fs : fstate V) seen lc st' : fhistory srt unit debug (fcounted unit) fs -> lallowed (fm fs) lc -> fcounted unit fs (FMap seen lc) -> lexec srt unit (fm fs) lc = Ok st' -> losesTable fs (FMap seen lc) -> fexec srt unit debug fs (FMap seen lc) = UB.
Proof. exact (stats_loses V srt Hsrt unit debug fs seen lc st'). Qed.
Print Assumptions C38_undefined_partial.

Example C38_undefined_case : fhistory isort 1 true (fcounted 1) oneState /\ losesTable oneState (asF merge2) /\ fexec isort 1 true oneState (asF merge2) = UB.
Proof. split; [exact one_fhist|]. split; [exact one_loses | vm_compute; reflexivity]. Qed.

(** C38, C60: in all other cases a call does to the map what it does without statistics: same result, same exception, no invalid access added.  Missing: the merges of C38_undefined_partial and objects destroyed while attached. *)
Theorem C38_defined_partial (V : Type) srt (Hsrt : sorter srt) unit debug (fs : fstate V) seen lc : fhistory srt unit debug (fcounted unit) fs -> lallowed (fm fs) lc -> fcounted unit fs (FMap seen lc) -> fsl fs <> SDangling -> ~ losesTable fs (FMap seen lc) ->
  match lexec srt unit (fm fs) lc with
  | Ok st' => exists fs', fexec srt unit debug fs (FMap seen lc) = Ok fs' /\ fm fs' = st'
  | Exn => fexec srt unit debug fs (FMap seen lc) = Exn
  | UB => fexec srt unit debug fs (FMap seen lc) = UB
  | NoFuel => fexec srt unit debug fs (FMap seen lc) = NoFuel
  end.
Proof. exact (stats_transparent V srt Hsrt unit debug fs seen lc). Qed.
Print Assumptions C38_defined_partial.

Example C38_defined_case : fhistory isort 1 true (fcounted 1) onState /\ fallowed onState (asF merge2) /\ fcounted 1 onState (asF merge2) /\ fsl onState <> SDangling /\ ~ losesTable onState (asF merge2) /\ isLive (match fexec isort 1 true onState (asF merge2) with Ok s => Some s | _ => None end) = true.
Proof.
  assert (A : fallowed onState (asF merge2)) by (apply fallowedb_spec; [apply (LabelImage_Main.hist_inv isort isort_sorter 1 _ (hist_tracked isort 1 _ (stats_map Z isort isort_sorter 1 true _ on_fhist))) | vm_compute; reflexivity]).
  assert (C : fcounted 1 onState (asF merge2)) by (apply fcountedb_spec; vm_compute; reflexivity). split; [exact on_fhist|]. split; [exact A|]. split; [exact C|].
  split; [rewrite (attached onState) by (vm_compute; reflexivity); discriminate|]. split; [|vm_compute; reflexivity]. intros K.
  assert (U : fexec isort 1 true onState (asF merge2) = UB) by (apply (stats_loses Z isort isort_sorter 1 true onState true (asL (YX (OMergeFaces 2))) (next (fm onState) (asL (YX (OMergeFaces 2)))) on_fhist A C); [apply next_Ok; vm_compute; reflexivity | exact K]).
  apply (f_equal (fun r => match r with Ok _ => true | _ => false end)) in U. vm_compute in U. discriminate U.
Qed.

(** C59: boundingBox() throws for the infinite face; for a finite face it returns the box kept since the last call, or else the smallest box around the polygons of the outer contour, which is kept. *)
Theorem C59_box (V : Type) srt (Hsrt : sorter srt) unit debug (fs : fstate V) l f : fhistory srt unit debug (fcounted unit) fs -> isFace (lg (fm fs)) l f ->
  if Nat.eqb l 0 then getBox (lg (fm fs)) (fbx fs) l = Exn
  else exists bx b, getBox (lg (fm fs)) (fbx fs) l = Ok (bx, b) /\ bx l = Some b /\ (forall k, k <> l -> bx k = fbx fs k) /\ (forall b0, fbx fs l = Some b0 -> b = b0) /\ (fbx fs l = None -> smallestBox (lg (fm fs)) l b).
Proof. exact (face_box V srt Hsrt unit debug fs l f). Qed.
Print Assumptions C59_box.

Example C59_box_case : exists fs : fstate Z, fhistory isort 1 true (fcounted 1) fs /\ fbx fs 3%nat = None /\ match getBox (lg (fm fs)) (fbx fs) 3 with Ok r => snd r = mkBox 5 1 9 9 | _ => False end.
Proof.
  exists (freplay true 11 11 (map (ZM true) (windows ++ [YInit [2;3;1]%nat [] false]) ++ [ZBox 1])). split; [replayed|]. split; vm_compute; reflexivity.
Qed.

(** C59: in a map with label image the box of every finite face contains the edges beside the face and, rounded, the pixels of the face, after any history. *)
Theorem C59_covers (V : Type) srt (Hsrt : sorter srt) unit debug (fs : fstate V) l f : fhistory srt unit debug (fcounted unit) fs -> lim (fm fs) <> None -> isFace (lg (fm fs)) l f -> l <> 0%nat ->
  exists b, getBox (lg (fm fs)) (fbx fs) l = Ok (fbx fs, b) /\ edgesInside (lg (fm fs)) l b /\
    forall x y, showsFace (fm fs) x y l -> intPos unit (bx0 b) <= x <= intPos unit (bx1 b) /\ intPos unit (by0 b) <= y <= intPos unit (by1 b).
Proof. exact (face_box_covers V srt Hsrt unit debug fs l f). Qed.
Print Assumptions C59_covers.

Example C59_covers_case : fhistory isort 1 true (fcounted 1) mergedState /\ isLive (lim (fm mergedState)) = true /\ fbx mergedState 3%nat = Some (mkBox 1 1 9 9).
Proof. split; [exact merged_fhist|]. split; vm_compute; reflexivity. Qed.

(** C38 is false: the table is read after its release. *)
Theorem C38_refuted : exists (fs : fstate Z) s seen lc st', fhistory isort 1 true (fcounted 1) fs /\ fsl fs = SOn s /\ sCount s = 1 /\ lallowed (fm fs) lc /\ fcounted 1 fs (FMap seen lc) /\
  lexec isort 1 (fm fs) lc = Ok st' /\ fexec isort 1 true fs (FMap seen lc) = UB.
Proof. exact (table_refuted). Qed.
Print Assumptions C38_refuted.

(** C38 is false: the table may stay when no face is supersampled any more. *)
Theorem C38_release_refuted : exists (fs : fstate Z) s, fhistory isort 1 true (fcounted 1) fs /\ fsl fs = SOn s /\ superSampledFaces (lg (fm fs)) s [] /\ sCount s = 0 /\ sTab s <> None.
Proof. exact (release_refuted). Qed.
Print Assumptions C38_release_refuted.

(** C59, limit: when a node is moved the box kept does not follow. *)
Theorem C59_moved_refuted : exists (fs : fstate Z) l bx b ps p d, fhistory isort 1 true anyFCall fs /\ getBox (lg (fm fs)) (fbx fs) l = Ok (bx, b) /\ leftLabel (lg (fm fs)) d = Ok (Some l) /\ ptsOf (lg (fm fs)) d ps /\ In p ps /\ ~ inBox b p.
Proof. exact (box_refuted). Qed.
Print Assumptions C59_moved_refuted.

(** C60 is false: the map calls into an object that was destroyed without detachHooks(). *)
Theorem C60_destroyed_refuted : exists (fs : fstate Z) lc st', fhistory isort 1 true (fcounted 1) fs /\ lallowed (fm fs) lc /\ fcounted 1 fs (FMap true lc) /\ lexec isort 1 (fm fs) lc = Ok st' /\ fexec isort 1 true fs (FMap true lc) = UB.
Proof. exact (dangling_refuted). Qed.
Print Assumptions C60_destroyed_refuted.

(** C61: right after copying both objects give the same answers. *)
Theorem C61_same (V : Type) (h : fheap V) o l : readObj V h (copyObj o) l = readObj V h o l.
Proof. exact (copy_same V h o l). Qed.
Print Assumptions C61_same.

Example C61_same_case : readObj Z (fun a => if Nat.eqb a 5 then Some [7] else None) (copyObj (mkFO [None; Some 5%nat] None)) 1 = Ok [7].
Proof. reflexivity. Qed.

(** C61, limit: every sample given to one of them is seen by the other. *)
Theorem C61_shared_partial (V : Type) (h : fheap V) o l v h' xs : readObj V h (copyObj o) l = Ok xs -> feedObj V h o l v = Ok h' -> readObj V h' (copyObj o) l = Ok (v :: xs).
Proof. exact (copy_shares V h o l v h' xs). Qed.
Print Assumptions C61_shared_partial.

Example C61_shared_case : let h := fun a => if Nat.eqb a 5 then Some [7] else None in let o := mkFO [None; Some 5%nat] None in readObj Z h (copyObj o) 1 = Ok [7] /\ match feedObj Z h o 1 8 with Ok h' => readObj Z h' (copyObj o) 1 = Ok [8; 7] | _ => False end.
Proof. split; reflexivity. Qed.

(** C61, limit: after one of them is destroyed no functor of the other can be read. *)
Theorem C61_dangling_partial (V : Type) (h : fheap V) o l h' xs : readObj V h o l = Ok xs -> destroyObj V h (copyObj o) = Ok h' -> readObj V h' o l = UB.
Proof. exact (copy_dangles V h o l h' xs). Qed.
Print Assumptions C61_dangling_partial.

Example C61_dangling_case : let h := fun a => if Nat.eqb a 5 then Some [7] else None in let o := mkFO [None; Some 5%nat] None in match destroyObj Z h (copyObj o) with Ok h' => readObj Z h' o 1 = UB | _ => False end.
Proof. reflexivity. Qed.

(** C61, limit: destroying both is undefined, for every object with at least one functor. *)
Theorem C61_destroyed_twice_partial (V : Type) (h : fheap V) o l h' xs : readObj V h o l = Ok xs -> destroyObj V h (copyObj o) = Ok h' -> destroyObj V h' o = UB.
Proof. exact (copy_destroyed_twice V h o l h' xs). Qed.
Print Assumptions C61_destroyed_twice_partial.

Example C61_destroyed_twice_case : let h := fun a => if Nat.eqb a 5 then Some [7] else None in let o := mkFO [None; Some 5%nat] None in match destroyObj Z h (copyObj o) with Ok h' => destroyObj Z h' o = UB | _ => False end.
Proof. reflexivity. Qed.

(** C61: an object that was not copied can be destroyed. *)
Theorem C61_single (V : Type) (h : fheap V) o : (forall a, In (Some a) (oPtr o) -> h a <> None) -> (forall i j a, nth_error (oPtr o) i = Some (Some a) -> nth_error (oPtr o) j = Some (Some a) -> i = j) -> exists h', destroyObj V h o = Ok h'.
Proof. exact (destroy_ok V h o). Qed.
Print Assumptions C61_single.

Example C61_single_case : exists h', destroyObj Z (fun a => if Nat.ltb a 6 then Some [7] else None) (mkFO [None; Some 5%nat; Some 4%nat] None) = Ok h'.
Proof. eexists. reflexivity. Qed.

