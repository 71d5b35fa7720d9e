(** C19, C20, C21, C42, C58: the label image of a GeoMap. *)
From Coq Require Import QArith Sorted.
From Verif Require Import Base GeoMap_Model GeoMap_Spec GeoMap_Results GeoMap_Examples Scanlines_Model Scanlines_Spec Scanlines_Proofs ScanPoly_Model ScanPoly_Spec LabelLUT_Model
  LabelImage_Model LabelImage_Spec LabelImage_Main LabelImage_Examples.
Local Open Scope Z_scope.

(** C19: a pixel crossed by k > 0 edges holds -k; any other reads as a face of the map. *)
Theorem C19_counts srt (Hsrt : sorter srt) unit st x y v : lhistory srt unit tracked st -> pixel st x y v ->
  exists L, edgesAcross unit (lg st) x y L /\ (L <> [] -> v = - Z.of_nat (length L)) /\
    (L = [] -> 0 <= v /\ exists f fc, isFace (lg st) f fc /\ showsFace st x y f).
Proof. exact (edge_counts srt Hsrt unit st x y v). Qed.
Print Assumptions C19_counts.

(** two rectangles with a common side and a hanging edge: four edges meet at (5, 1), three at (5, 9) *)
Example C19_counts_case : lhistory isort 1 tracked windowsMap /\ sorter isort /\ pixel windowsMap 5 1 (-4) /\ pixel windowsMap 5 9 (-3) /\ pixel windowsMap 7 2 3.
Proof. split; [exact windows_hist|]. split; [exact isort_sorter|]. repeat split; apply pixel_at; vm_compute; reflexivity. Qed.

(** C19: the image has the size given to the constructor. *)
Theorem C19_size srt (Hsrt : sorter srt) unit st x y : lhistory srt unit tracked st -> lim st <> None -> (within st x y <-> 0 <= x < fst (lsize st) /\ 0 <= y < snd (lsize st)).
Proof. exact (image_size srt Hsrt unit st x y). Qed.
Print Assumptions C19_size.

Example C19_size_case : lhistory isort 1 tracked windowsMap /\ lim windowsMap <> None /\ lsize windowsMap = (11, 11).
Proof. split; [exact windows_hist|]. split; [apply image_at; vm_compute; reflexivity | vm_compute; reflexivity]. Qed.

(** C19: removeBridge gives exactly the pixels crossed by no other edge to the face and reports each once. *)
Theorem C19_bridge srt (Hsrt : sorter srt) unit hk st d st' f out : lhistory srt unit tracked st -> lim st <> None -> lremoveBridge srt unit hk st d = Ok (st', Some f, out) ->
  NoDup out /\ (forall x y, In (x, y) out <-> within st x y /\ edgesAcross unit (lg st) x y [elab d]) /\
  (forall x y g, showsFace st' x y g <-> showsFace st x y g \/ (In (x, y) out /\ g = f)) /\
  (exists fc, isFace (lg st') f fc) /\ leftLabel (lg st) d = Ok (Some f) /\ larea st' f = larea st f + Z.of_nat (length out) /\ (forall g, g <> f -> larea st' g = larea st g).
Proof. exact (bridge_pixels srt Hsrt unit hk st d st' f out). Qed.
Print Assumptions C19_bridge.

Example C19_bridge_case : exists st', lhistory isort 1 tracked windowsMap /\ lim windowsMap <> None /\ lremoveBridge isort 1 yes windowsMap 4 = Ok (st', Some 3%nat, [(6, 2); (7, 3); (8, 4)]).
Proof. eexists. split; [exact windows_hist|]. split; [apply image_at; vm_compute; reflexivity | vm_compute; reflexivity]. Qed.

(** C19: mergeFaces gives the pixels of the merged face and those crossed by no other edge to the survivor, and reports exactly the latter, each once. *)
Theorem C19_merge srt (Hsrt : sorter srt) unit hk st d st' s out : lhistory srt unit tracked st -> lim st <> None -> lmergeFaces srt unit hk st d = Ok (st', Some s, out) ->
  exists d' mm, (d' = d \/ d' = - d) /\ leftLabel (lg st) d' = Ok (Some s) /\ leftLabel (lg st) (- d') = Ok (Some mm) /\ s <> mm /\
  NoDup out /\ (forall x y, In (x, y) out <-> within st x y /\ edgesAcross unit (lg st) x y [elab d]) /\
  (forall x y g, showsFace st' x y g <-> (showsFace st x y g /\ g <> mm) \/ (g = s /\ (showsFace st x y mm \/ In (x, y) out))) /\
  (exists fc, isFace (lg st') s fc) /\ (forall fc, ~ isFace (lg st') mm fc) /\
  larea st' s = larea st s + larea st mm + Z.of_nat (length out) /\ (forall g, g <> s -> larea st' g = larea st g).
Proof. exact (merge_pixels srt Hsrt unit hk st d st' s out). Qed.
Print Assumptions C19_merge.

Example C19_merge_case : exists st', lhistory isort 1 tracked windowsMap /\ lim windowsMap <> None /\
  lmergeFaces isort 1 yes windowsMap 2 = Ok (st', Some 3%nat, [(5, 2); (5, 3); (5, 4); (5, 5); (5, 6); (5, 7); (5, 8)]).
Proof. eexists. split; [exact windows_hist|]. split; [apply image_at; vm_compute; reflexivity | vm_compute; reflexivity]. Qed.

(** C19: the same for removeEdge. *)
Theorem C19_remove srt (Hsrt : sorter srt) unit hk st d st' f out : lhistory srt unit tracked st -> lim st <> None -> isDart (lg st) d -> lremoveEdge srt unit hk st d = Ok (st', Some f, out) ->
  NoDup out /\ (forall x y, In (x, y) out <-> within st x y /\ edgesAcross unit (lg st) x y [elab d]) /\ (forall x y, In (x, y) out -> showsFace st' x y f).
Proof. exact (remove_pixels srt Hsrt unit hk st d st' f out). Qed.
Print Assumptions C19_remove.

Example C19_remove_case : exists st' out, lhistory isort 1 tracked nestedMap /\ lim nestedMap <> None /\ isDart (lg nestedMap) 1 /\ lremoveEdge isort 1 yes nestedMap 1 = Ok (st', Some 3%nat, out) /\ length out = 8%nat.
Proof.
  eexists. eexists. split; [exact nested_hist|]. split; [apply image_at; vm_compute; reflexivity|]. split; [split; [lia|]; eexists; vm_compute; reflexivity|]. split; [vm_compute; reflexivity | reflexivity].
Qed.

(** C19: a removal that a hook forbids changes no pixel. *)
Theorem C19_veto srt (Hsrt : sorter srt) unit hk st d st' out : lhistory srt unit tracked st -> lremoveBridge srt unit hk st d = Ok (st', None, out) \/ lmergeFaces srt unit hk st d = Ok (st', None, out) ->
  out = [] /\ lim st' = lim st /\ larea st' = larea st /\ (forall x y g, showsFace st' x y g <-> showsFace st x y g).
Proof. exact (veto_pixels srt Hsrt unit hk st d st' out). Qed.
Print Assumptions C19_veto.

Definition noMerge : hooks := {| hkNode := fun _ _ => true; hkMergeEdges := fun _ _ => true; hkBridge := fun _ _ => true; hkMergeFaces := fun _ _ => false |}.
Example C19_veto_case : exists st', lhistory isort 1 tracked windowsMap /\ lmergeFaces isort 1 noMerge windowsMap 2 = Ok (st', None, []).
Proof. eexists. split; [exact windows_hist | vm_compute; reflexivity]. Qed.

(** C19: the other operations (splitEdge and mergeEdges among them) leave every pixel of a face alone. *)
Theorem C19_kept srt (Hsrt : sorter srt) unit st c st' : lhistory srt unit tracked st -> lallowed st c -> tracked st c -> keepsFaces c -> lexec srt unit st c = Ok st' ->
  (forall x y g, showsFace st' x y g <-> showsFace st x y g) /\ larea st' = larea st.
Proof. exact (faces_kept srt Hsrt unit st c st'). Qed.
Print Assumptions C19_kept.

Example C19_kept_case : exists st', lhistory isort 1 tracked windowsMap /\ lallowed windowsMap (LCall yes (OSplitEdge 3 1 (9, 5) true)) /\ tracked windowsMap (LCall yes (OSplitEdge 3 1 (9, 5) true)) /\
  lexec isort 1 windowsMap (LCall yes (OSplitEdge 3 1 (9, 5) true)) = Ok st' /\ rows st' <> rows windowsMap.
Proof.
  exists (next windowsMap (LCall yes (OSplitEdge 3 1 (9, 5) true))). split; [exact windows_hist|]. split; [apply (lallowedb_spec windowsMap (YX (OSplitEdge 3 1 (9, 5) true))); [apply (hist_inv isort isort_sorter 1 windowsMap windows_hist) | vm_compute; reflexivity]|].
  split; [apply (trackedb_spec windowsMap (YX (OSplitEdge 3 1 (9, 5) true))); vm_compute; reflexivity|]. split; [apply next_Ok; vm_compute; reflexivity | vm_compute; discriminate].
Qed.

(** C19: with a label image no access is outside it, every loop ends, and the map changes as it does without image.  Missing: the two calls named by hazard. *)
Theorem C19_safe_partial srt (Hsrt : sorter srt) unit st c : lhistory srt unit tracked st -> lallowed st c -> tracked st c -> ~ hazard st c ->
  (exists st', lexec srt unit st c = Ok st' /\ mapPart st c st' /\ lsize st' = lsize st) \/ lexec srt unit st c = Exn.
Proof. exact (no_undefined srt Hsrt unit st c). Qed.
Print Assumptions C19_safe_partial.

Example C19_safe_case : lhistory isort 1 tracked windowsMap /\ lallowed windowsMap (LCall yes (OMergeEdges 1)) /\ tracked windowsMap (LCall yes (OMergeEdges 1)) /\ ~ hazard windowsMap (LCall yes (OMergeEdges 1)).
Proof. split; [exact windows_hist|]. split; [split; exact I|]. split; [exact I|]. intros [H _]. revert H. apply image_at. vm_compute. reflexivity. Qed.

(** C19: initializeMap paints every pixel crossed by no edge with the last contour around it. *)
Theorem C19_init srt (Hsrt : sorter srt) unit st ord par st' : lhistory srt unit tracked st -> lallowed st (LInit ord par true) -> lexec srt unit st (LInit ord par true) = Ok st' ->
  lim st' <> None /\ forall x y f, showsFace st' x y f <-> within st' x y /\ edgesAcross unit (lg st') x y [] /\
    ((exists a b, ord = a ++ f :: b /\ around unit (lg st') f x y /\ forall k, In k b -> ~ around unit (lg st') k x y) \/ (f = 0%nat /\ forall k, In k ord -> ~ around unit (lg st') k x y)).
Proof. exact (init_paints srt Hsrt unit st ord par st'). Qed.
Print Assumptions C19_init.

Example C19_init_case : lhistory isort 1 tracked pinGraph /\ lallowed pinGraph (LInit [2; 1]%nat (parTable []) true) /\ lexec isort 1 pinGraph (LInit [2; 1]%nat (parTable []) true) = Ok pinMap.
Proof.
  assert (H : lhistory isort 1 tracked pinGraph) by (apply lreplay_hist; [lia | lia | vm_compute; reflexivity]). split; [exact H|].
  split; [apply (lallowedb_spec pinGraph (YInit [2; 1]%nat [] true)); [apply (hist_inv isort isort_sorter 1 pinGraph H) | vm_compute; reflexivity] | vm_compute; reflexivity].
Qed.

(** C19 is false if the scanlines of an edge are asked for before splitEdge and the image is switched on later. *)
Theorem C19_stale_refuted : exists st x y v L, lhistory isort 1 anyLCall st /\ pixel st x y v /\ edgesAcross 1 (lg st) x y L /\ L <> [] /\ v <> - Z.of_nat (length L).
Proof. exact (stale_refuted). Qed.
Print Assumptions C19_stale_refuted.

(** C19 is false if splitEdge inserts a point beside the segment. *)
Theorem C19_beside_refuted : exists st c st' x y L f, lhistory isort 1 tracked st /\ lallowed st c /\ lexec isort 1 st c = Ok st' /\ edgesAcross 1 (lg st') x y L /\ L <> [] /\ showsFace st' x y f.
Proof. exact (beside_refuted). Qed.
Print Assumptions C19_beside_refuted.

(** mergeEdges without label image dereferences a null pointer if the scanlines of one of the edges have been asked for. *)
Theorem C19_merge_undefined_refuted : exists st d, lhistory isort 1 tracked st /\ lallowed st (LCall yes (OMergeEdges d)) /\ tracked st (LCall yes (OMergeEdges d)) /\ lexec isort 1 st (LCall yes (OMergeEdges d)) = UB.
Proof. exact (merge_undefined_refuted). Qed.
Print Assumptions C19_merge_undefined_refuted.

(** setHasLabelImage(true) before initializeMap is undefined. *)
Theorem C19_switch_undefined_refuted : exists st, lhistory isort 1 tracked st /\ lexec isort 1 st (LSetImage true) = UB.
Proof. exact (switch_undefined_refuted). Qed.
Print Assumptions C19_switch_undefined_refuted.

(** C20: changeFaceLabels with distinct new labels below the maximum renames faces, left labels, pixels and areas. *)
Theorem C20_relabel srt (Hsrt : sorter srt) unit st new mx : lhistory srt unit tracked st -> nth_error new 0 = Some 0%nat -> length new = length (faces (lg st)) -> faces (lg st) <> [] ->
  (forall l f, isFace (lg st) l f -> (nth l new 0 < mx)%nat) -> (forall l k f g, isFace (lg st) l f -> isFace (lg st) k g -> nth l new 0%nat = nth k new 0%nat -> l = k) ->
  exists st', changeFaceLabels st new mx = Ok st' /\
    (forall l f, isFace (lg st) l f -> isFace (lg st') (nth l new 0%nat) f) /\ (forall k f, isFace (lg st') k f -> exists l, isFace (lg st) l f /\ nth l new 0%nat = k) /\
    (forall d, isDart (lg st) d <-> isDart (lg st') d) /\
    (forall d, isDart (lg st) d -> exists a, leftLabel (lg st) d = Ok (Some a) /\ leftLabel (lg st') d = Ok (Some (nth a new 0%nat))) /\
    (forall x y v, v < 0 -> (pixel st x y v <-> pixel st' x y v)) /\
    (forall l f x y, isFace (lg st) l f -> (showsFace st x y l <-> showsFace st' x y (nth l new 0%nat))) /\
    (forall l f, isFace (lg st) l f -> larea st' (nth l new 0%nat) = larea st l) /\ nodes (lg st') = nodes (lg st) /\ sg (lg st') = sg (lg st).
Proof. exact (relabel_renames srt Hsrt unit st new mx). Qed.
Print Assumptions C20_relabel.

(** after a merge, so that the lookup table is not the identity *)
Definition mergedMap : lmap := next windowsMap (LCall yes (OMergeFaces 2)).
Example C20_case : lhistory isort 1 tracked mergedMap /\ nth_error [0; 2; 3; 4]%nat 0 = Some 0%nat /\ length [0; 2; 3; 4]%nat = length (faces (lg mergedMap)) /\ faces (lg mergedMap) <> [] /\
  faceLabels mergedMap = [0; 3]%nat /\ labelAt mergedMap 2 2 = Ok 3 /\ pixel mergedMap 2 2 1.
Proof.
  split; [|split; [reflexivity|]; split; [vm_compute; reflexivity|]; split; [vm_compute; discriminate|]; split; [vm_compute; reflexivity|]; split; [vm_compute; reflexivity | apply pixel_at; vm_compute; reflexivity]].
  apply (lh_call isort 1 tracked windowsMap (LCall yes (OMergeFaces 2)) mergedMap windows_hist); [split; exact I | exact I | apply next_Ok; vm_compute; reflexivity].
Qed.

(** changeFaceLabels accepts a table that takes label 0 away from the infinite face. *)
Theorem C20_infinite_refuted : exists st new mx st' f, lhistory isort 1 tracked st /\ changeFaceLabels st new mx = Ok st' /\
  (forall l k g h, isFace (lg st) l g -> isFace (lg st) k h -> nth l new 0%nat = nth k new 0%nat -> l = k) /\ isFace (lg st) 3 f /\ isFace (lg st') 0 f.
Proof. exact (infinite_refuted). Qed.
Print Assumptions C20_infinite_refuted.

(** C21 is false: the faces before the offending one keep their new labels. *)
Theorem C21_rejected_refuted : exists st new mx f, lhistory isort 1 tracked st /\ changeFaceLabels st new mx = Exn /\ isFace (lg st) 1 f /\ nth 1 (heldLabels st new mx) 0%nat <> 1%nat.
Proof. exact (rejected_refuted). Qed.
Print Assumptions C21_rejected_refuted.

(** C21, what holds: exactly the faces in front of the first offending one bear their new label, the others the old one. *)
Theorem C21_rejected_partial st new mx : faces (lg st) <> [] -> length new = length (faces (lg st)) -> changeFaceLabels st new mx = Exn ->
  exists k f, isFace (lg st) k f /\ ((mx <= nth k new 0)%nat \/ exists l g, (l < k)%nat /\ isFace (lg st) l g /\ nth l new 0%nat = nth k new 0%nat) /\
    (forall l g, (l < k)%nat -> isFace (lg st) l g -> nth l (heldLabels st new mx) 0%nat = nth l new 0%nat) /\
    (forall l g, (k <= l)%nat -> isFace (lg st) l g -> nth l (heldLabels st new mx) 0%nat = l).
Proof. exact (relabel_rejected st new mx). Qed.
Print Assumptions C21_rejected_partial.

Example C21_case : faces (lg nestedMap) <> [] /\ length [0; 2; 0; 2; 0]%nat = length (faces (lg nestedMap)) /\ changeFaceLabels nestedMap [0; 2; 0; 2; 0]%nat 5 = Exn /\ heldLabels nestedMap [0; 2; 0; 2; 0]%nat 5 = [0; 2; 2; 3; 4]%nat.
Proof. split; [vm_compute; discriminate|]. repeat split; vm_compute; reflexivity. Qed.

(** C42 is false: inner faces with a smaller label than the face around them vanish, and the area of the infinite face is added up. *)
Theorem C42_refuted : exists st st1 st2, lhistory isort 1 tracked st /\ lim st <> None /\ lexec isort 1 st (LSetImage false) = Ok st1 /\ lexec isort 1 st1 (LSetImage true) = Ok st2 /\
  (exists x y f fc, isFace (lg st) f fc /\ showsFace st x y f /\ ~ showsFace st2 x y f /\ larea st2 f <> larea st f) /\ larea st2 0%nat = 2 * larea st 0%nat /\ larea st 0%nat <> 0.
Proof. exact (switch_refuted). Qed.
Print Assumptions C42_refuted.

(** C42, what holds for every image: the counts of the edges, and the pixels whose face has the greatest label of the faces around them. *)
Theorem C42_off_on_partial srt (Hsrt : sorter srt) unit st st1 st2 : lhistory srt unit tracked st -> lim st <> None -> lexec srt unit st (LSetImage false) = Ok st1 -> lexec srt unit st1 (LSetImage true) = Ok st2 ->
  lg st2 = lg st /\ (forall x y v, v < 0 -> (pixel st2 x y v <-> pixel st x y v)) /\
  (forall x y f, showsFace st x y f -> (showsFace st2 x y f <->
     (around unit (lg st) f x y /\ forall k, around unit (lg st) k x y -> (k <= f)%nat) \/ (f = 0%nat /\ forall k, ~ around unit (lg st) k x y))).
Proof. exact (switch_off_on srt Hsrt unit st st1 st2). Qed.
Print Assumptions C42_off_on_partial.

Example C42_off_on_case : exists st1 st2, lhistory isort 1 tracked windowsMap /\ lim windowsMap <> None /\ lexec isort 1 windowsMap (LSetImage false) = Ok st1 /\ lexec isort 1 st1 (LSetImage true) = Ok st2 /\ rows st2 = rows windowsMap.
Proof.
  exists (next windowsMap (LSetImage false)), (next (next windowsMap (LSetImage false)) (LSetImage true)). split; [exact windows_hist|]. split; [apply image_at; vm_compute; reflexivity|].
  split; [apply next_Ok; vm_compute; reflexivity|]. split; [apply next_Ok; vm_compute; reflexivity | vm_compute; reflexivity].
Qed.

(** C42, what holds for images made by setHasLabelImage: the same image and the same areas, except that of the infinite face. *)
Theorem C42_again_partial srt (Hsrt : sorter srt) unit st st1 st2 st3 : lhistory srt unit tracked st -> lim st = None -> lexec srt unit st (LSetImage true) = Ok st1 -> lexec srt unit st1 (LSetImage false) = Ok st2 -> lexec srt unit st2 (LSetImage true) = Ok st3 ->
  lg st3 = lg st1 /\ (forall x y v, pixel st3 x y v <-> pixel st1 x y v) /\ (forall x y f, showsFace st3 x y f <-> showsFace st1 x y f) /\
  (forall f fc, isFace (lg st) f fc -> f <> 0%nat -> larea st3 f = larea st1 f).
Proof. exact (switch_again srt Hsrt unit st st1 st2 st3). Qed.
Print Assumptions C42_again_partial.

Example C42_again_case : exists st st1, lhistory isort 1 tracked st /\ lim st = None /\ lexec isort 1 st (LSetImage true) = Ok st1 /\ larea st1 3%nat = 17.
Proof.
  assert (H : lhistory isort 1 tracked (next nestedMap (LSetImage false))) by (apply (lh_call isort 1 tracked nestedMap (LSetImage false) _ nested_hist I I); apply next_Ok; vm_compute; reflexivity).
  exists (next nestedMap (LSetImage false)), (next (next nestedMap (LSetImage false)) (LSetImage true)). split; [exact H|]. split; [vm_compute; reflexivity|]. split; [apply next_Ok; vm_compute; reflexivity | vm_compute; reflexivity].
Qed.

(** What setHasLabelImage(true) does: every pixel crossed by no edge reads as the face with the greatest label around it. *)
Theorem C42_on srt (Hsrt : sorter srt) unit st st' : lhistory srt unit tracked st -> lim st = None -> lexec srt unit st (LSetImage true) = Ok st' ->
  lg st' = lg st /\ lim st' <> None /\
  (forall x y f, showsFace st' x y f <-> within st' x y /\ edgesAcross unit (lg st) x y [] /\
     ((around unit (lg st) f x y /\ forall k, around unit (lg st) k x y -> (k <= f)%nat) \/ (f = 0%nat /\ forall k, ~ around unit (lg st) k x y))) /\
  (forall f fc, isFace (lg st) f fc -> f <> 0%nat -> exists ps, pixelsOf st' f ps /\ larea st' f = Z.of_nat (length ps)) /\
  (exists ps, pixelsOf st' 0 ps /\ larea st' 0%nat = larea st 0%nat + Z.of_nat (length ps)).
Proof. exact (switched_on srt Hsrt unit st st'). Qed.
Print Assumptions C42_on.

Example C42_on_case : exists st st1, lhistory isort 1 tracked st /\ lim st = None /\ lexec isort 1 st (LSetImage true) = Ok st1 /\ labelAt st1 5 5 = Ok 3.
Proof.
  assert (H : lhistory isort 1 tracked (next nestedMap (LSetImage false))) by (apply (lh_call isort 1 tracked nestedMap (LSetImage false) _ nested_hist I I); apply next_Ok; vm_compute; reflexivity).
  exists (next nestedMap (LSetImage false)), (next (next nestedMap (LSetImage false)) (LSetImage true)). split; [exact H|]. split; [vm_compute; reflexivity|]. split; [apply next_Ok; vm_compute; reflexivity | vm_compute; reflexivity].
Qed.

(** C58: pixelArea() is the number of pixels that read as the face.  Missing: images drawn by initializeMap where a contour crosses the interior of a face drawn later, and setHasLabelImage(true) with areas counted before. *)
Theorem C58_areas_partial srt (Hsrt : sorter srt) unit st f fc : lhistory srt unit (counted unit) st -> lim st <> None -> isFace (lg st) f fc -> exists ps, pixelsOf st f ps /\ larea st f = Z.of_nat (length ps).
Proof. exact (pixel_areas srt Hsrt unit st f fc). Qed.
Print Assumptions C58_areas_partial.

Example C58_case : exists f, sorter isort /\ lhistory isort 1 (counted 1) pinMap /\ lim pinMap <> None /\ isFace (lg pinMap) 1 f /\ larea pinMap 1%nat = 22.
Proof. eexists. split; [exact isort_sorter|]. split; [exact pin_counted|]. split; [apply image_at; vm_compute; reflexivity|]. split; vm_compute; reflexivity. Qed.

