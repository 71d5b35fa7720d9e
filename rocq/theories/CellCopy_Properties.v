(** C89: copies of the pixel based map. *)
From Verif Require Import Base CellMap_Model CellMap_Proofs CellMap_Main CellMap_Examples CellCopy_Model CellCopy_Spec CellCopy_Proofs CellCopy_Examples.
Local Open Scope Z_scope.

(** C89: the assignment succeeds, makes the target equal to the source, all darts of its cells its own, and changes no other map; also when a map is assigned to itself. *)
Theorem C89_assign h this other : separate h -> (exists t, hobj h this = Some t) -> parented h other ->
  exists h', deepCopy h this other = Ok h' /\ separate h' /\ parented h' this /\ view h' this = view h other /\ (forall a, a <> this -> sameMap h h' a).
Proof. intros S (t & Ht) P. destruct (deepCopy_all h this other t S Ht P) as (h' & t' & E & S' & P' & V & K & _). exists h'. auto. Qed.
Print Assumptions C89_assign.

(** C89: so does the copy constructor. *)
Theorem C89_construct h this other : separate h -> hobj h this = None -> parented h other ->
  exists h', copyConstruct h this other = Ok h' /\ separate h' /\ parented h' this /\ view h' this = view h other /\ (forall a, a <> this -> sameMap h h' a).
Proof. exact (construct_all h this other). Qed.
Print Assumptions C89_construct.

(** C89: a map that is left alone in this sense has the same value and the same darts. *)
Theorem C89_same h h' a : sameMap h h' a -> view h' a = view h a /\ (parented h a -> parented h' a).
Proof. intros S. split; [exact (same_view h h' a S)|exact (same_parented h h' a S)]. Qed.
Print Assumptions C89_same.

(** C89: writing a pixel through a dart of a cell of one map changes that pixel of that map and no other map. *)
Theorem C89_write h a o d x y v h' : separate h -> hobj h a = Some o -> parented h a -> liveDart o d -> writePtr h (Ptr (pbuf (pcen d)) x y) v = Ok h' ->
  separate h' /\ (forall b, b <> a -> sameMap h h' b) /\
  exists m im', view h a = Some m /\ writePix (cim m) x y v = Ok im' /\ view h' a = Some (setIm m im').
Proof.
  intros S Ho (o' & Ho' & _ & D) L H. assert (o' = o) as -> by congruence. destruct (D d L) as [Hb _].
  destruct (write_apart h a o (Ptr (pbuf (pcen d)) x y) v h' S Ho Hb H) as (S' & K & i & i' & Ei & Ew & Ho2 & Ei2). split; [exact S'|]. split; [exact K|].
  unfold view. rewrite Ho, Ei, Ho2, Ei2. eexists _, i'. split; [reflexivity|]. split; [exact Ew|reflexivity].
Qed.
Print Assumptions C89_write.

(** C89: the copy outlives the original. *)
Theorem C89_outlives h b : separate h -> (exists o, hobj h b = Some o) -> exists h', destroy h b = Ok h' /\ separate h' /\ hobj h' b = None /\ forall a, a <> b -> sameMap h h' a.
Proof. exact (destroy_apart h b). Qed.
Print Assumptions C89_outlives.

(** C89: a pointer into the image of the target, got before the assignment, points to the new pixels if the images have the same size; otherwise it must not be used any more. *)
Theorem C89_stale h this other t it o io p : separate h -> hobj h this = Some t -> parented h other -> this <> other -> hbuf h (gbuf t) = Some it -> hobj h other = Some o -> hbuf h (gbuf o) = Some io -> pbuf p = gbuf t ->
  exists h', deepCopy h this other = Ok h' /\ ((iw it = iw io /\ ih it = ih io) -> readPtr h' p = readPix io (ppx p) (ppy p)) /\ (~ (iw it = iw io /\ ih it = ih io) -> readPtr h' p = UB).
Proof. exact (stale_pointer h this other t it o io p). Qed.
Print Assumptions C89_stale.

(** C89: the entries of cells that have been removed keep darts of the original, and these dangle when it is gone. *)
Theorem C89_dead_refuted : exists h this other h' h'' o d, separate h /\ hobj h this = None /\ parented h other /\ copyConstruct h this other = Ok h' /\ destroy h' other = Ok h'' /\
  hobj h'' this = Some o /\ anyDart o d /\ pseg d = Some other /\ readPtr h'' (pcen d) = UB.
Proof. exact dead_refuted. Qed.
Print Assumptions C89_dead_refuted.

(** any two maps of CellMap_Model can be on a heap *)
Example C89_any m n : separate (twoMaps m n) /\ parented (twoMaps m n) 0 /\ parented (twoMaps m n) 1 /\ view (twoMaps m n) 0 = Some m /\ view (twoMaps m n) 1 = Some n.
Proof. exact (twoMaps_good m n). Qed.
Example C89_case : exists h', deepCopy (twoMaps withDead r1) 1 0 = Ok h' /\ view h' 1 = Some withDead /\ view h' 0 = Some withDead /\ readPtr h' (Ptr 1 2 2) = UB.
Proof. exact assign_case. Qed.
