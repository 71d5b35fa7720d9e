(** Proofs about the indices of the Python module. *)
From Verif Require Import Base GeoMap_Model Polygon_Model PyIndex_Model PyIndex_Spec.
Local Open Scope Z_scope.

Lemma check_is i n : isInt i -> Z.of_nat n <= 2 ^ 31 ->
  checkPythonIndex i (toUnsigned (Z.of_nat n)) = match pyPos i n with Some k => Ok (Z.of_nat k) | None => Exn end.
Proof.
  intros I L. assert (U : toUnsigned (Z.of_nat n) = Z.of_nat n) by (apply Z.mod_small; lia). rewrite U. unfold isInt in I. unfold checkPythonIndex, pyPos. destruct (i <? 0) eqn:N; [apply Z.ltb_lt in N|apply Z.ltb_ge in N].
  - replace (0 <=? i) with false by (symmetry; apply Z.leb_gt; lia). cbn [andb]. assert (T : toUnsigned i = i + 2 ^ 32) by (symmetry; apply (Z.mod_unique _ _ (-1)); lia). rewrite T. unfold toInt.
    destruct (- Z.of_nat n <=? i) eqn:B; [apply Z.leb_le in B|apply Z.leb_gt in B]; cbn [andb].
    + replace ((i + 2 ^ 32 + Z.of_nat n) mod 2 ^ 32) with (i + Z.of_nat n) by (apply (Z.mod_unique _ _ 1); lia). replace (i + Z.of_nat n <? 2 ^ 31) with true by (symmetry; apply Z.ltb_lt; lia).
      unfold toUnsigned. rewrite Z.mod_small by lia. replace (Z.of_nat n <=? _) with false by (symmetry; apply Z.leb_gt; lia). rewrite Z2Nat.id by lia. reflexivity.
    + rewrite (Z.mod_small (i + 2 ^ 32 + Z.of_nat n)) by lia. replace (i + 2 ^ 32 + Z.of_nat n <? 2 ^ 31) with false by (symmetry; apply Z.ltb_ge; lia).
      unfold toUnsigned. replace ((i + 2 ^ 32 + Z.of_nat n - 2 ^ 32) mod 2 ^ 32) with (i + 2 ^ 32 + Z.of_nat n) by (apply (Z.mod_unique _ _ (-1)); lia). replace (Z.of_nat n <=? _) with true by (symmetry; apply Z.leb_le; lia). reflexivity.
  - replace (0 <=? i) with true by (symmetry; apply Z.leb_le; lia). cbn [andb]. unfold toUnsigned. rewrite Z.mod_small by lia. destruct (i <? Z.of_nat n) eqn:B; [apply Z.ltb_lt in B|apply Z.ltb_ge in B].
    + replace (Z.of_nat n <=? i) with false by (symmetry; apply Z.leb_gt; lia). rewrite Z2Nat.id by lia. reflexivity.
    + replace (Z.of_nat n <=? i) with true by (symmetry; apply Z.leb_le; lia). rewrite andb_false_r. reflexivity.
Qed.
Lemma pyPos_small i n k : pyPos i n = Some k -> (k < n)%nat.
Proof.
  unfold pyPos. destruct ((0 <=? i) && _) eqn:A; [intros E; injection E as <-|destruct ((- Z.of_nat n <=? i) && _) eqn:B; [intros E; injection E as <-|discriminate]]; rewrite andb_true_iff, ?Z.leb_le, ?Z.ltb_lt in *; lia.
Qed.
Lemma position_nat k : position (Z.of_nat k) = Ok k.
Proof. unfold position. replace (_ <? 0) with false by (symmetry; apply Z.ltb_ge; lia). rewrite Nat2Z.id. reflexivity. Qed.
Lemma vget_in {A} (a : list A) k : (k < length a)%nat -> exists x, nth_error a k = Some x /\ vget a k = Ok x.
Proof. intros L. unfold vget. destruct (nth_error a k) as [x|] eqn:E; [exists x; auto|apply nth_error_None in E; lia]. Qed.

Lemma get_is {A} (a : list A) i : isInt i -> Z.of_nat (length a) <= 2 ^ 31 ->
  match pyPos i (length a) with Some k => exists x, nth_error a k = Some x /\ pyGet a i = Ok x | None => pyGet a i = Exn end.
Proof.
  intros I L. unfold pyGet, usize. rewrite (check_is i _ I L). destruct (pyPos i (length a)) as [k|] eqn:E; [|reflexivity]. cbn [bind]. rewrite position_nat. cbn [bind]. apply vget_in, (pyPos_small _ _ _ E).
Qed.
Lemma set_is {A} (a : list A) i v : isInt i -> Z.of_nat (length a) <= 2 ^ 31 ->
  match pyPos i (length a) with
  | Some k => exists b, pySet a i v = Ok b /\ length b = length a /\ nth_error b k = Some v /\ forall k', k' <> k -> nth_error b k' = nth_error a k'
  | None => pySet a i v = Exn
  end.
Proof.
  intros I L. unfold pySet, usize. rewrite (check_is i _ I L). destruct (pyPos i (length a)) as [k|] eqn:E; [|reflexivity]. cbn [bind]. rewrite position_nat. cbn [bind]. pose proof (pyPos_small _ _ _ E) as K.
  unfold vset. rewrite (proj2 (Nat.ltb_lt _ _) K). eexists. split; [reflexivity|]. split; [apply list_upd_length|]. split; [apply nth_error_upd_eq, K|]. intros k' N. apply nth_error_upd_neq. congruence.
Qed.
Lemma setPoint_returns p k v : (k < length (ppts p))%nat -> exists p', setPoint p k v = Ok p' /\ ppts p' = list_upd (ppts p) k v.
Proof.
  intros K. unfold setPoint. destruct (vget_in (ppts p) k K) as (old & _ & ->). cbn [bind].
  destruct (plenV p); [|cbn [bind]; eexists; split; reflexivity].
  destruct (0 <? k)%nat eqn:A.
  - apply Nat.ltb_lt in A. destruct (vget_in (ppts p) (k - 1)) as (a & _ & ->); [lia|]. cbn [bind]. destruct (k <? length (ppts p) - 1)%nat eqn:B; [|cbn [bind]; eexists; split; reflexivity].
    apply Nat.ltb_lt in B. destruct (vget_in (ppts p) (k + 1)) as (b & _ & ->); [lia|]. cbn [bind]. eexists. split; reflexivity.
  - cbn [bind]. destruct (k <? length (ppts p) - 1)%nat eqn:B; [|cbn [bind]; eexists; split; reflexivity]. apply Nat.ltb_lt in B. destruct (vget_in (ppts p) (k + 1)) as (b & _ & ->); [lia|]. cbn [bind]. eexists. split; reflexivity.
Qed.
Lemma insertPt_returns p k x : (k <= length (ppts p))%nat -> exists p', insertPt p k x = Ok p' /\ ppts p' = firstn k (ppts p) ++ x :: skipn k (ppts p).
Proof.
  intros K. unfold insertPt. replace (length (ppts p) <? k)%nat with false by (symmetry; apply Nat.ltb_ge; exact K). destruct (plenV p); [|cbn [bind]; eexists; split; reflexivity].
  destruct (0 <? k)%nat eqn:A.
  - apply Nat.ltb_lt in A. destruct (vget_in (ppts p) (k - 1)) as (a & _ & E); [lia|]. rewrite E. cbn [bind]. destruct (k <? length (ppts p))%nat eqn:B; [|cbn [bind]; eexists; split; reflexivity].
    apply Nat.ltb_lt in B. destruct (vget_in (ppts p) k B) as (b & _ & ->). cbn [bind]. eexists. split; reflexivity.
  - cbn [bind]. destruct (k <? length (ppts p))%nat eqn:B; [|cbn [bind]; eexists; split; reflexivity]. apply Nat.ltb_lt in B. destruct (vget_in (ppts p) k B) as (b & _ & ->). cbn [bind]. eexists. split; reflexivity.
Qed.
Lemma erasePt_returns p k : (k < length (ppts p))%nat -> exists p', erasePt p k = Ok p' /\ ppts p' = firstn k (ppts p) ++ skipn (S k) (ppts p).
Proof.
  intros K. unfold erasePt. destruct (vget_in (ppts p) k K) as (old & _ & ->). cbn [bind]. eexists. split; reflexivity.
Qed.
Lemma polySet_is p i v : isInt i -> Z.of_nat (length (ppts p)) <= 2 ^ 31 ->
  match pyPos i (length (ppts p)) with
  | Some k => exists p', polySet p i v = Ok p' /\ length (ppts p') = length (ppts p) /\ nth_error (ppts p') k = Some v /\ forall k', k' <> k -> nth_error (ppts p') k' = nth_error (ppts p) k'
  | None => polySet p i v = Exn
  end.
Proof.
  intros I L. unfold polySet, usize. rewrite (check_is i _ I L). destruct (pyPos i _) as [k|] eqn:E; [|reflexivity]. cbn [bind]. rewrite position_nat. cbn [bind]. pose proof (pyPos_small _ _ _ E) as K.
  destruct (setPoint_returns p k v K) as (p' & R & P). exists p'. split; [exact R|]. rewrite P. split; [apply list_upd_length|]. split; [apply nth_error_upd_eq, K|]. intros k' N. apply nth_error_upd_neq. congruence.
Qed.
Lemma checkS p i : isInt i -> Z.of_nat (length (ppts p)) < 2 ^ 31 -> checkPythonIndex i (toUnsigned (Z.of_nat (length (ppts p)) + 1)) = match pyPos i (S (length (ppts p))) with Some k => Ok (Z.of_nat k) | None => Exn end.
Proof. intros I L. rewrite <- (check_is i (S (length (ppts p))) I) by lia. replace (Z.of_nat (S (length (ppts p)))) with (Z.of_nat (length (ppts p)) + 1) by lia. reflexivity. Qed.
Lemma insert_is p i x : isInt i -> Z.of_nat (length (ppts p)) < 2 ^ 31 ->
  match pyPos i (S (length (ppts p))) with Some k => exists p', polyInsert p i x = Ok p' /\ ppts p' = firstn k (ppts p) ++ x :: skipn k (ppts p) | None => polyInsert p i x = Exn end.
Proof.
  intros I L. unfold polyInsert. rewrite (checkS p i I L). destruct (pyPos i _) as [k|] eqn:E; [|reflexivity]. cbn [bind]. rewrite position_nat. cbn [bind]. apply insertPt_returns. pose proof (pyPos_small _ _ _ E). lia.
Qed.
Lemma insert_right p i x : 0 <= i <= Z.of_nat (length (ppts p)) -> Z.of_nat (length (ppts p)) < 2 ^ 31 -> exists p', polyInsert p i x = Ok p' /\ ppts p' = firstn (pyInsertPos i (length (ppts p))) (ppts p) ++ x :: skipn (pyInsertPos i (length (ppts p))) (ppts p).
Proof.
  intros I L. pose proof (insert_is p i x) as H. unfold isInt in H. specialize (H ltac:(lia) L). unfold pyPos in H. replace ((0 <=? i) && (i <? Z.of_nat (S (length (ppts p))))) with true in H by (symmetry; rewrite andb_true_iff, Z.leb_le, Z.ltb_lt; lia).
  unfold pyInsertPos. replace (i <? 0) with false by (symmetry; apply Z.ltb_ge; lia). replace (Z.min i _) with i by lia. exact H.
Qed.
Lemma erase_is p i : isInt i -> Z.of_nat (length (ppts p)) < 2 ^ 31 ->
  match pyPos i (S (length (ppts p))) with
  | Some k => if (k <? length (ppts p))%nat then exists p', polyErase p i = Ok p' /\ ppts p' = firstn k (ppts p) ++ skipn (S k) (ppts p) else polyErase p i = UB
  | None => polyErase p i = Exn
  end.
Proof.
  intros I L. unfold polyErase. rewrite (checkS p i I L). destruct (pyPos i _) as [k|] eqn:E; [|reflexivity]. cbn [bind]. rewrite position_nat. cbn [bind]. destruct (k <? length (ppts p))%nat eqn:K; [apply Nat.ltb_lt in K|apply Nat.ltb_ge in K].
  - apply erasePt_returns, K.
  - unfold erasePt, vget. replace (nth_error (ppts p) k) with (@None point) by (symmetry; apply nth_error_None; exact K). reflexivity.
Qed.
Lemma erase_right p i : 0 <= i < Z.of_nat (length (ppts p)) -> Z.of_nat (length (ppts p)) < 2 ^ 31 -> exists p', polyErase p i = Ok p' /\ ppts p' = firstn (Z.to_nat i) (ppts p) ++ skipn (S (Z.to_nat i)) (ppts p).
Proof.
  intros I L. pose proof (erase_is p i) as H. unfold isInt in H. specialize (H ltac:(lia) L). unfold pyPos in H. replace ((0 <=? i) && (i <? Z.of_nat (S (length (ppts p))))) with true in H by (symmetry; rewrite andb_true_iff, Z.leb_le, Z.ltb_lt; lia).
  replace (Z.to_nat i <? length (ppts p))%nat with true in H by (symmetry; apply Nat.ltb_lt; lia). exact H.
Qed.
(** del polygon[-1] *)
Lemma erase_last p : Z.of_nat (length (ppts p)) < 2 ^ 31 -> polyErase p (-1) = UB /\ polyErase p (Z.of_nat (length (ppts p))) = UB.
Proof.
  intros L. split.
  - pose proof (erase_is p (-1)) as H. unfold isInt in H. specialize (H ltac:(lia) L). unfold pyPos in H. change (0 <=? -1) with false in H. cbn [andb] in H.
    replace ((- Z.of_nat (S (length (ppts p))) <=? -1) && (-1 <? 0)) with true in H by (symmetry; rewrite andb_true_iff, Z.leb_le, Z.ltb_lt; lia).
    replace (Z.to_nat (-1 + Z.of_nat (S (length (ppts p)))) <? length (ppts p))%nat with false in H by (symmetry; apply Nat.ltb_ge; lia). exact H.
  - pose proof (erase_is p (Z.of_nat (length (ppts p)))) as H. unfold isInt in H. specialize (H ltac:(lia) L). unfold pyPos in H.
    replace ((0 <=? Z.of_nat (length (ppts p))) && (Z.of_nat (length (ppts p)) <? Z.of_nat (S (length (ppts p))))) with true in H by (symmetry; rewrite andb_true_iff, Z.leb_le, Z.ltb_lt; lia).
    replace (Z.to_nat (Z.of_nat (length (ppts p))) <? length (ppts p))%nat with false in H by (symmetry; apply Nat.ltb_ge; lia). exact H.
Qed.
(** del polygon[-i - 1] does what del polygon[-i] should *)
Lemma erase_off p i k : isInt i -> i < 0 -> Z.of_nat (length (ppts p)) < 2 ^ 31 -> pyPos i (length (ppts p)) = Some k -> i - 1 >= - 2 ^ 31 ->
  exists p', polyErase p (i - 1) = Ok p' /\ ppts p' = firstn k (ppts p) ++ skipn (S k) (ppts p).
Proof.
  intros I N L E B. pose proof (pyPos_small _ _ _ E) as K. pose proof (erase_is p (i - 1)) as H. unfold isInt in *. specialize (H ltac:(lia) L).
  assert (Q : pyPos (i - 1) (S (length (ppts p))) = Some k).
  { unfold pyPos in *. replace (0 <=? i) with false in E by (symmetry; apply Z.leb_gt; lia). replace (0 <=? i - 1) with false by (symmetry; apply Z.leb_gt; lia). cbn [andb] in *.
    destruct ((- Z.of_nat (length (ppts p)) <=? i) && (i <? 0)) eqn:C; [|discriminate E]. rewrite andb_true_iff, Z.leb_le, Z.ltb_lt in C. injection E as <-.
    replace ((- Z.of_nat (S (length (ppts p))) <=? i - 1) && (i - 1 <? 0)) with true by (symmetry; rewrite andb_true_iff, Z.leb_le, Z.ltb_lt; lia). f_equal. lia. }
  rewrite Q in H. rewrite (proj2 (Nat.ltb_lt _ _) K) in H. exact H.
Qed.
Lemma split_is p i : isInt i -> Z.of_nat (length (ppts p)) <= 2 ^ 31 ->
  match pyPos i (length (ppts p)) with Some k => exists a b, polySplit p i = Ok (a, b) /\ ppts a = firstn (S k) (ppts p) /\ ppts b = skipn k (ppts p) | None => polySplit p i = Exn end.
Proof.
  intros I L. unfold polySplit, usize. rewrite (check_is i _ I L). destruct (pyPos i _) as [k|] eqn:E; [|reflexivity]. cbn [bind]. rewrite position_nat. cbn [bind]. pose proof (pyPos_small _ _ _ E) as K.
  unfold splitPoly. rewrite (proj2 (Nat.ltb_lt _ _) K). destruct (Nat.eqb k 0) eqn:Z0; [apply Nat.eqb_eq in Z0; subst k|].
  - destruct (ppts p) as [|f l] eqn:P; [cbn in K; lia|]. cbn. eexists _, _. split; [reflexivity|]. cbn. split; [reflexivity|auto].
  - eexists _, _. split; [reflexivity|]. split; reflexivity.
Qed.
Lemma dart_is {A} (pts : list A) (forward : bool) i : isInt i -> Z.of_nat (length pts) <= 2 ^ 31 ->
  match pyPos i (length pts) with Some k => exists x, nth_error (if forward then pts else rev pts) k = Some x /\ dartGet pts forward i = Ok x | None => dartGet pts forward i = Exn end.
Proof.
  intros I L. unfold dartGet, usize. rewrite (check_is i _ I L). destruct (pyPos i (length pts)) as [k|] eqn:E; [|reflexivity]. cbn [bind]. pose proof (pyPos_small _ _ _ E) as K. destruct forward.
  - rewrite position_nat. cbn [bind]. apply vget_in, K.
  - replace (Z.of_nat (length pts) - 1 - Z.of_nat k) with (Z.of_nat (length pts - S k)) by lia. rewrite position_nat. cbn [bind]. destruct (vget_in pts (length pts - S k)) as (x & N & V); [lia|]. exists x. split; [|exact V].
    assert (G : forall d : A, nth k (rev pts) d = x) by (intros d; rewrite rev_nth by exact K; apply nth_error_nth, N). rewrite (nth_error_nth' (rev pts) x) by (rewrite rev_length; exact K). f_equal. apply G.
Qed.
(** arrays of more than 2^31 elements *)
Lemma large_last {A} (a : list A) : 2 ^ 31 < Z.of_nat (length a) < 2 ^ 32 -> pyGet a (-1) = UB.
Proof.
  intros L. unfold pyGet, usize, checkPythonIndex. cbn [Z.ltb Z.compare]. change (toUnsigned (-1)) with (2 ^ 32 - 1). unfold toUnsigned. rewrite (Z.mod_small (Z.of_nat (length a))) by lia. unfold toInt.
  replace ((2 ^ 32 - 1 + Z.of_nat (length a)) mod 2 ^ 32) with (Z.of_nat (length a) - 1) by (apply (Z.mod_unique _ _ 1); lia). replace (Z.of_nat (length a) - 1 <? 2 ^ 31) with false by (symmetry; apply Z.ltb_ge; lia).
  replace ((Z.of_nat (length a) - 1 - 2 ^ 32) mod 2 ^ 32) with (Z.of_nat (length a) - 1) by (apply (Z.mod_unique _ _ (-1)); lia). replace (Z.of_nat (length a) <=? Z.of_nat (length a) - 1) with false by (symmetry; apply Z.leb_gt; lia).
  cbn [bind]. unfold position. replace (Z.of_nat (length a) - 1 - 2 ^ 32 <? 0) with true by (symmetry; apply Z.ltb_lt; lia). reflexivity.
Qed.
