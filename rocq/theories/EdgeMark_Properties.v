(** C94: edges drawn into label images. *)
From Coq Require Import Lia.
From Verif Require Import Base Scanlines_Model Scanlines_Spec Image_Model EdgeMark_Model EdgeMark_Spec EdgeMark_Proofs.
Local Open Scope Z_scope.

(** two edges in an image of 4 x 3 pixels that have the pixel (2, 1) in common; both reach out of the image *)
Definition across : scanlines := mkSL 1 [[mkSeg (-2) 0 3]].
Definition down : scanlines := mkSL (-1) [[mkSeg 2 0 3]; [mkSeg 2 0 3]; [mkSeg 2 0 3]; [mkSeg 2 0 9]; [mkSeg 2 0 3]].
Definition sevens : image := newImg 4 3 7.

(** C94: markEdgeInLabelImage() never reads or writes outside: a pixel covered by segments of the scanlines gets the number of them, negative, or as many more if it is negative; all others are as before. *)
Theorem C94_mark s im : exists im', markEdge s im = Ok im' /\ iw im' = iw im /\ ih im' = ih im /\
  forall x y, inside im x y -> (times s x y = 0 -> ipx im' x y = ipx im x y) /\ (0 < times s x y -> 0 <= ipx im x y -> ipx im' x y = - times s x y) /\ (ipx im x y < 0 -> ipx im' x y = ipx im x y - times s x y).
Proof. exact (mark_is s im). Qed.
Print Assumptions C94_mark.

(** C94: removeEdgeFromLabelImage() never reads or writes outside; the pixels whose count reaches 0 get the label given, and those are returned, each once. *)
Theorem C94_remove s im k : 0 <= k -> exists im' ps, removeEdge s im k = Ok (im', ps) /\ iw im' = iw im /\ ih im' = ih im /\ NoDup ps /\
  (forall x y, In (x, y) ps <-> inside im x y /\ ipx im x y < 0 <= ipx im x y + times s x y) /\
  forall x y, inside im x y -> (0 <= ipx im x y \/ ipx im x y + times s x y < 0 -> ipx im' x y = ipx im x y + times s x y) /\
    (ipx im x y < 0 <= ipx im x y + times s x y -> ipx im' x y = k + (ipx im x y + times s x y)).
Proof. exact (remove_is s im k). Qed.
Print Assumptions C94_remove.

(** C94: whatever edges are marked and removed again, in any order: a pixel is negative exactly if one of the edges that are left covers it, and is then minus the number of segments that do. *)
Theorem C94_edges im0 on im : (forall x y, inside im0 x y -> 0 <= ipx im0 x y) -> drawn im0 on im -> iw im = iw im0 /\ ih im = ih im0 /\
  forall x y, inside im0 x y -> (0 < timesAll on x y -> ipx im x y = - timesAll on x y) /\ (timesAll on x y = 0 -> 0 <= ipx im x y).
Proof. exact (drawn_is im0 on im). Qed.
Print Assumptions C94_edges.

(** C94: the removal of one of the edges returns the pixels covered by this edge and no other one that is left, each once, and they get the label given; pixels without an edge keep their label. *)
Theorem C94_freed im0 a s b im k : (forall x y, inside im0 x y -> 0 <= ipx im0 x y) -> drawn im0 (a ++ s :: b) im -> 0 <= k ->
  exists im' ps, removeEdge s im k = Ok (im', ps) /\ NoDup ps /\ (forall x y, In (x, y) ps <-> inside im0 x y /\ 0 < times s x y /\ timesAll (a ++ b) x y = 0) /\
    forall x y, inside im0 x y -> (In (x, y) ps -> ipx im' x y = k) /\ (timesAll (a ++ s :: b) x y = 0 -> ipx im' x y = ipx im x y).
Proof. exact (freed im0 a s b im k). Qed.
Print Assumptions C94_freed.

Example C94_case : (forall x y, inside sevens x y -> 0 <= ipx sevens x y) /\ exists im, drawn sevens ([down] ++ across :: []) im /\
  map (fun p => ipx im (fst p) (snd p)) [(0, 1); (2, 1); (3, 1); (2, 0); (2, 2); (3, 2)] = [-1; -2; 7; -1; -1; -1] /\
  exists im', removeEdge across im 5 = Ok (im', [(0, 1); (1, 1)]).
Proof.
  split; [intros x y _; cbn; lia|]. destruct (markEdge across sevens) as [im1| | |] eqn:E1; try (vm_compute in E1; discriminate E1). destruct (markEdge down im1) as [im2| | |] eqn:E2; try (vm_compute in E1; injection E1 as <-; vm_compute in E2; discriminate E2).
  exists im2. split; [exact (dr_mark _ _ _ _ _ (dr_mark _ _ _ _ _ (dr_start _) E1) E2)|]. vm_compute in E1. injection E1 as <-. vm_compute in E2. injection E2 as <-. split; [vm_compute; reflexivity|]. eexists. vm_compute. reflexivity.
Qed.

(** C94: an edge that is not marked must not be removed: the labels of its pixels are changed, and no pixel is returned. *)
Theorem C94_unmarked_refuted : exists s im k im' x y, (forall x y, inside im x y -> 0 <= ipx im x y) /\ 0 <= k /\ removeEdge s im k = Ok (im', []) /\ inside im x y /\ 0 <= ipx im' x y /\ ipx im' x y <> ipx im x y /\ ipx im' x y <> k.
Proof.
  exists across, sevens, 5. destruct (removeEdge across sevens 5) as [[im' ps]| | |] eqn:E; try (vm_compute in E; discriminate E). exists im', 0, 1. split; [intros x y _; cbn; lia|]. split; [lia|].
  vm_compute in E. injection E as <- <-. split; [reflexivity|]. split; [unfold inside; cbn; lia|]. vm_compute. repeat split; discriminate.
Qed.
Print Assumptions C94_unmarked_refuted.

(** C94: scanlines[i] is row i from startIndex() to endIndex() and IndexError elsewhere; negative indices do not count from the end. *)
Theorem C94_row s i : scanlineAt s i = if (sl_start s <=? i) && (i <? endIndex s) then Ok (lineOf s i) else Exn.
Proof. exact (row_is s i). Qed.
Print Assumptions C94_row.

(** C94: so "for row in scanlines" leaves out the rows above 0, and all of them if startIndex() is greater than 0. *)
Theorem C94_iterate fuel s : (length (sl_lines s) < fuel)%nat -> iterateRows fuel s 0 = Ok (if sl_start s <=? 0 then skipn (Z.to_nat (- sl_start s)) (sl_lines s) else []).
Proof. exact (iterate_is fuel s). Qed.
Print Assumptions C94_iterate.
Theorem C94_iterate_refuted : exists s, sl_lines s <> [] /\ forall fuel r, iterateRows fuel s 0 = Ok r -> r = [].
Proof. exists across. split; [discriminate|]. intros [|fuel] r H; [discriminate H|]. cbn in H. injection H as <-. reflexivity. Qed.
Print Assumptions C94_iterate_refuted.
Example C94_iterate_case : iterateRows 6 down 0 = Ok [[mkSeg 2 0 3]; [mkSeg 2 0 3]; [mkSeg 2 0 9]; [mkSeg 2 0 3]].
Proof. reflexivity. Qed.
