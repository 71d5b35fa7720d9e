(** C93: indices of the Python module. *)
From Verif Require Import Base GeoMap_Model Polygon_Model PyIndex_Model PyIndex_Spec PyIndex_Proofs.
Local Open Scope Z_scope.

(** C93: a[i] is the element a Python list would give, and IndexError where a list raises it. *)
Theorem C93_get {A} (a : list A) i : isInt i -> Z.of_nat (length a) <= 2 ^ 31 ->
  match pyPos i (length a) with Some k => exists x, nth_error a k = Some x /\ pyGet a i = Ok x | None => pyGet a i = Exn end.
Proof. exact (get_is a i). Qed.
Print Assumptions C93_get.

(** C93: a[i] = v changes this element and no other. *)
Theorem C93_set {A} (a : list A) i v : isInt i -> Z.of_nat (length a) <= 2 ^ 31 ->
  match pyPos i (length a) with
  | Some k => exists b, pySet a i v = Ok b /\ length b = length a /\ nth_error b k = Some v /\ forall k', k' <> k -> nth_error b k' = nth_error a k'
  | None => pySet a i v = Exn
  end.
Proof. exact (set_is a i v). Qed.
Print Assumptions C93_set.
Theorem C93_setPoint p i v : isInt i -> Z.of_nat (length (ppts p)) <= 2 ^ 31 ->
  match pyPos i (length (ppts p)) with
  | Some k => exists p', polySet p i v = Ok p' /\ length (ppts p') = length (ppts p) /\ nth_error (ppts p') k = Some v /\ forall k', k' <> k -> nth_error (ppts p') k' = nth_error (ppts p) k'
  | None => polySet p i v = Exn
  end.
Proof. exact (polySet_is p i v). Qed.
Print Assumptions C93_setPoint.

(** C93: dart[i] counts along the dart, whatever its direction. *)
Theorem C93_dart {A} (pts : list A) (forward : bool) i : isInt i -> Z.of_nat (length pts) <= 2 ^ 31 ->
  match pyPos i (length pts) with Some k => exists x, nth_error (if forward then pts else rev pts) k = Some x /\ dartGet pts forward i = Ok x | None => dartGet pts forward i = Exn end.
Proof. exact (dart_is pts forward i). Qed.
Print Assumptions C93_dart.

(** C93: polygon.split(i) cuts at the point with this index; both parts have it. *)
Theorem C93_split p i : isInt i -> Z.of_nat (length (ppts p)) <= 2 ^ 31 ->
  match pyPos i (length (ppts p)) with Some k => exists a b, polySplit p i = Ok (a, b) /\ ppts a = firstn (S k) (ppts p) /\ ppts b = skipn k (ppts p) | None => polySplit p i = Exn end.
Proof. exact (split_is p i). Qed.
Print Assumptions C93_split.

(** C93: polygon.insert(i, x) is that of a list for i from 0 to the length; in general it counts positions in the longer polygon. *)
Theorem C93_insert p i x : 0 <= i <= Z.of_nat (length (ppts p)) -> Z.of_nat (length (ppts p)) < 2 ^ 31 ->
  exists p', polyInsert p i x = Ok p' /\ ppts p' = firstn (pyInsertPos i (length (ppts p))) (ppts p) ++ x :: skipn (pyInsertPos i (length (ppts p))) (ppts p).
Proof. exact (insert_right p i x). Qed.
Print Assumptions C93_insert.
Theorem C93_insert_at p i x : isInt i -> Z.of_nat (length (ppts p)) < 2 ^ 31 ->
  match pyPos i (S (length (ppts p))) with Some k => exists p', polyInsert p i x = Ok p' /\ ppts p' = firstn k (ppts p) ++ x :: skipn k (ppts p) | None => polyInsert p i x = Exn end.
Proof. exact (insert_is p i x). Qed.
Print Assumptions C93_insert_at.
(** C93: with a negative index it is not: insert(-1, x) appends x. *)
Theorem C93_insert_refuted : exists p i x p', isInt i /\ polyInsert p i x = Ok p' /\ ppts p' <> firstn (pyInsertPos i (length (ppts p))) (ppts p) ++ x :: skipn (pyInsertPos i (length (ppts p))) (ppts p).
Proof.
  destruct (insert_is (ofPoints [(1, 1); (2, 2)]) (-1) (5, 5)) as (p' & E & P); [unfold isInt; lia|cbn; lia|]. exists (ofPoints [(1, 1); (2, 2)]), (-1), (5, 5), p'. split; [unfold isInt; lia|]. split; [exact E|]. rewrite P. vm_compute. discriminate.
Qed.
Print Assumptions C93_insert_refuted.

(** C93: del polygon[i] removes the point for i from 0 up to the last. *)
Theorem C93_delete p i : 0 <= i < Z.of_nat (length (ppts p)) -> Z.of_nat (length (ppts p)) < 2 ^ 31 -> exists p', polyErase p i = Ok p' /\ ppts p' = firstn (Z.to_nat i) (ppts p) ++ skipn (S (Z.to_nat i)) (ppts p).
Proof. exact (erase_right p i). Qed.
Print Assumptions C93_delete.
(** C93: all indices: they count positions in a polygon with one point more, and the last of these is none. *)
Theorem C93_delete_at p i : isInt i -> Z.of_nat (length (ppts p)) < 2 ^ 31 ->
  match pyPos i (S (length (ppts p))) with
  | Some k => if (k <? length (ppts p))%nat then exists p', polyErase p i = Ok p' /\ ppts p' = firstn k (ppts p) ++ skipn (S k) (ppts p) else polyErase p i = UB
  | None => polyErase p i = Exn
  end.
Proof. exact (erase_is p i). Qed.
Print Assumptions C93_delete_at.
(** C93: del polygon[-1] is undefined behaviour, for every polygon, and so is del polygon[len(polygon)]. *)
Theorem C93_delete_last p : Z.of_nat (length (ppts p)) < 2 ^ 31 -> polyErase p (-1) = UB /\ polyErase p (Z.of_nat (length (ppts p))) = UB.
Proof. exact (erase_last p). Qed.
Print Assumptions C93_delete_last.
Theorem C93_delete_refuted : exists p i, isInt i /\ pyPos i (length (ppts p)) <> None /\ polyErase p i = UB.
Proof. exists (ofPoints [(1, 1); (2, 2)]), (-1). split; [unfold isInt; lia|]. split; [cbn; discriminate|]. apply (erase_last (ofPoints [(1, 1); (2, 2)])). cbn. lia. Qed.
Print Assumptions C93_delete_refuted.
(** C93: other negative indices are one off: del polygon[i - 1] removes polygon[i]. *)
Theorem C93_delete_off p i k : isInt i -> i < 0 -> Z.of_nat (length (ppts p)) < 2 ^ 31 -> pyPos i (length (ppts p)) = Some k -> i - 1 >= - 2 ^ 31 ->
  exists p', polyErase p (i - 1) = Ok p' /\ ppts p' = firstn k (ppts p) ++ skipn (S k) (ppts p).
Proof. exact (erase_off p i k). Qed.
Print Assumptions C93_delete_off.

(** C93: with more than 2^31 elements the check does not work: a[-1] is undefined behaviour. *)
Theorem C93_large_refuted : exists a : list bool, pyPos (-1) (length a) <> None /\ pyGet a (-1) = UB.
Proof.
  destruct (Z_of_nat_complete (2 ^ 31 + 1)) as (n & N); [lia|]. symmetry in N. exists (repeat true n). pose proof (repeat_length true n) as L.
  split; [|apply large_last; rewrite L, N; lia]. rewrite L. unfold pyPos. change (0 <=? -1) with false. cbn [andb]. replace ((- Z.of_nat n <=? -1) && (-1 <? 0)) with true by (symmetry; rewrite andb_true_iff, Z.leb_le, Z.ltb_lt; lia). discriminate.
Qed.
Print Assumptions C93_large_refuted.

Example C93_case_get : isInt (-2) /\ pyGet [10; 20; 30] (-2) = Ok 20 /\ pyGet [10; 20; 30] 2 = Ok 30 /\ pyGet [10; 20; 30] 3 = Exn /\ pyGet [10; 20; 30] (-4) = Exn.
Proof. unfold isInt. repeat split; vm_compute; congruence. Qed.
Example C93_case_dart : dartGet [10; 20; 30] false 0 = Ok 30 /\ dartGet [10; 20; 30] false (-1) = Ok 10.
Proof. vm_compute. auto. Qed.
Example C93_case_split : exists a b, polySplit (ofPoints [(1, 1); (2, 2); (3, 3)]) (-2) = Ok (a, b) /\ ppts a = [(1, 1); (2, 2)] /\ ppts b = [(2, 2); (3, 3)].
Proof. refine (split_is (ofPoints [(1, 1); (2, 2); (3, 3)]) (-2) _ _); [unfold isInt; lia|cbn; lia]. Qed.
Example C93_case_delete : exists p, polyErase (ofPoints [(1, 1); (2, 2); (3, 3)]) (-2) = Ok p /\ ppts p = [(1, 1); (2, 2)].
Proof. refine (erase_off (ofPoints [(1, 1); (2, 2); (3, 3)]) (-1) 2 _ _ _ _ _); [unfold isInt; lia|lia|cbn; lia|reflexivity|lia]. Qed.
