(** C48: copying a GeoMap. *)
From Verif Require Import Base GeoMap_Model GeoMap_Examples Scanlines_Model Scanlines_Spec Scanlines_Proofs Map2D_Spec LabelImage_Model LabelImage_Spec LabelImage_Examples
  Copy_Model Copy_Spec Copy_Results Copy_Main.
Local Open Scope Z_scope.

(** C48: the copy constructor succeeds; original and copy answer every query as the original did, and nearestNode names a nearest node.  The copy is a map reached by a history, so the theorems about histories hold of it. *)
Theorem C48_copy srt (Hsrt : sorter srt) unit h o st : lhistory srt unit tracked st -> represents h o st ->
  exists h' n, copyMap h o = Ok (h', n) /\ n <> o /\ represents h' o st /\ represents h' n (copyOf st) /\ lhistory srt unit tracked (copyOf st) /\
  (forall q, (forall p b, q <> QNearest p b) -> ask h' n q = ask h o q /\ ask h' o q = ask h o q) /\
  (forall p b, exists r r', ask h' n (QNearest p b) = Ok (ANearest r) /\ ask h o (QNearest p b) = Ok (ANearest r') /\
     nearestLive (posTable st) p b r /\ nearestLive (posTable st) p b r').
Proof. exact (copied srt Hsrt unit h o st). Qed.
Print Assumptions C48_copy.

(** a map with label image; the copy is asked for a pixel, a face and an edge, then a face is removed from the copy and an edge from the original *)
Example C48_copy_case : lhistory isort 1 tracked windowsMap /\ sorter isort /\ exists h o h' n w, represents h o windowsMap /\ copyMap h o = Ok (h', n) /\
  performsAll isort 1 o n (fun s => if s then windowsMap else copyOf windowsMap) twoCalls (bothMaps h' o n) w /\
  (* before *) ask h' n (QPixel 5 1) = Ok (ALabel (-4)) /\ ask h' n (QFace 1) = Ok (AFace 1 true [(true, 1)] 0 (Some 64) 21) /\
  ask h' n (QEdge 4) = Ok (AEdge 4 true (mkEdge 0 2 (Some 3%nat) (Some 3%nat) [(5,1); (8,4)] 0)) /\
  (* after *) ask (wh w) n (QFace 1) = Ok ANull /\ ask (wh w) n (QEdge 2) = Ok ANull /\ ask (wh w) n (QPixel 5 5) = Ok (ALabel 3) /\ ask (wh w) n (QPixel 7 3) = Ok (ALabel (-1)) /\
  ask (wh w) o (QFace 1) = Ok (AFace 1 true [(true, 1)] 0 (Some 64) 21) /\ ask (wh w) o (QEdge 4) = Ok ANull /\ ask (wh w) o (QPixel 5 5) = Ok (ALabel (-1)) /\ ask (wh w) o (QPixel 7 3) = Ok (ALabel 3).
Proof. split; [exact windows_hist|]. split; [exact isort_sorter | exact two_maps_case]. Qed.

(** C48: in the models that treat a map as a value, the copy is the same map with the same image. *)
Theorem C48_same_map srt (Hsrt : sorter srt) unit st : lhistory srt unit tracked st ->
  lg (copyOf st) = lg st /\ lsize (copyOf st) = lsize st /\ lim (copyOf st) = lim st /\ larea (copyOf st) = larea st /\ (forall x y, labelAt (copyOf st) x y = labelAt st x y) /\
  (forall x y f, showsFace (copyOf st) x y f <-> showsFace st x y f).
Proof. exact (same_map srt Hsrt unit st). Qed.
Print Assumptions C48_same_map.

Example C48_same_map_case : lhistory isort 1 tracked windowsMap /\ isLive (lim windowsMap) = true.
Proof. split; [exact windows_hist | vm_compute; reflexivity]. Qed.

(** C48: whatever a program does that knows the one map and what can be reached from it, no object of the other map changes, nor does any answer; at any time after the copy, with both maps being worked on in turn. *)
Theorem C48_independent h o st h' n w w' s : represents h o st -> copyMap h o = Ok (h', n) -> turns (bothMaps h' o n) w -> turn s w w' ->
  (forall l, reach (wh w) (rootOf o n (negb s)) l -> hat (wh w') l = hat (wh w) l) /\ forall q, ask (wh w') (rootOf o n (negb s)) q = ask (wh w) (rootOf o n (negb s)) q.
Proof. exact (not_affected h o st h' n w w' s). Qed.
Print Assumptions C48_independent.

Example C48_independent_case : exists h o h' n w w', represents h o windowsMap /\ copyMap h o = Ok (h', n) /\ turns (bothMaps h' o n) w /\ turn true w w' /\
  ask (wh w) o (QEdge 4) <> ask (wh w') o (QEdge 4) /\ ask (wh w) n (QEdge 4) = Ok (AEdge 4 true (mkEdge 0 2 (Some 3%nat) (Some 3%nat) [(5,1); (8,4)] 0)).
Proof. exact turns_case. Qed.

(** C48: no object can be reached from both maps. *)
Theorem C48_no_common_objects h o st h' n l : represents h o st -> copyMap h o = Ok (h', n) -> reach h' o l -> reach h' n l -> False.
Proof. exact (no_common_objects h o st h' n l). Qed.
Print Assumptions C48_no_common_objects.

Example C48_no_common_objects_case : exists h o h' n, represents h o windowsMap /\ copyMap h o = Ok (h', n) /\ reach h' o o /\ reach h' n n.
Proof. destruct two_maps_case as (h & o & h' & n & w & R & E & _). exists h, o, h', n. split; [exact R|]. split; [exact E|]. split; apply re_here. Qed.

(** C48: when programs carry out calls on both maps in any order, each map ends up as its own calls alone would leave it. *)
Theorem C48_own_histories srt unit h o st h' n cs w : represents h o st -> copyMap h o = Ok (h', n) ->
  performsAll srt unit o n (fun s => if s then st else copyOf st) cs (bothMaps h' o n) w ->
  exists st1 st2, callAll srt unit st (callsOf true cs) = Ok st1 /\ callAll srt unit (copyOf st) (callsOf false cs) = Ok st2 /\ represents (wh w) o st1 /\ represents (wh w) n st2.
Proof. exact (own_histories srt unit h o st h' n cs w). Qed.
Print Assumptions C48_own_histories.

Example C48_own_histories_case : exists h o h' n w, represents h o windowsMap /\ copyMap h o = Ok (h', n) /\
  performsAll isort 1 o n (fun s => if s then windowsMap else copyOf windowsMap) twoCalls (bothMaps h' o n) w.
Proof. exact two_maps. Qed.

(** The hypotheses of the theorems above can be met for every map: its objects exist, and a program can turn the objects of one map into those of any other. *)
Theorem C48_programs_exist srt (Hsrt : sorter srt) unit st : lhistory srt unit tracked st ->
  (exists h o, represents h o st) /\
  (forall h K o st0, represents h o st0 -> In o K -> exists h' K', acts (h, K) (h', K') /\ represents h' o st).
Proof. exact (programs_exist srt Hsrt unit st). Qed.
Print Assumptions C48_programs_exist.

(** C48, limit: after a rejected changeFaceLabels the copy lacks a face. *)
Theorem C48_mislabelled_refuted : exists st new mx h' n, lhistory isort 1%positive tracked st /\ changeFaceLabels st new mx = Exn /\
  let h := lay st (heldLabels st new mx) [] in
  copyMap h 0%nat = Ok (h', n) /\ ask h 0%nat (QFace 1) <> Ok ANull /\ ask h' n (QFace 1) = Ok ANull /\ ask h' n QCounts = ask h 0%nat QCounts.
Proof. exact (mislabelled_refuted). Qed.
Print Assumptions C48_mislabelled_refuted.

(** C48, limit: callbacks connected to the original (an edge protection, say) are not connected to the copy. *)
Theorem C48_hooks_refuted : exists st h o h' n mo mo', lhistory isort 1%positive tracked st /\ represents h o st /\ copyMap h o = Ok (h', n) /\ hat h o = Some (OMap mo) /\ mextra mo <> [] /\ hat h' n = Some (OMap mo') /\ mextra mo' = [].
Proof. exact (hooks_refuted). Qed.
Print Assumptions C48_hooks_refuted.

