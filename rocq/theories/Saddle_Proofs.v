(** Proofs about findSaddles. *)
From Verif Require Import Base Image_Model Image_Proofs Saddle_Model Saddle_Spec.
Local Open Scope Z_scope.

Lemma step_small i : -1 <= stepX i <= 1 /\ -1 <= stepY i <= 1.
Proof. unfold stepX, stepY. split; repeat match goal with |- context [match ?z with _ => _ end] => destruct z end; lia. Qed.
Definition diff (f : Z -> Z -> Z) (x y i : Z) : Z := f (x + stepX i) (y + stepY i) - f x y.
Lemma differences_ok im x y : 1 <= x < iw im - 1 -> 1 <= y < ih im - 1 -> forall n i, differences n i im x y = Ok (map (fun k => diff (ipx im) x y (i + Z.of_nat k)) (seq 0 n)).
Proof.
  intros X Y. induction n as [|n IH]; intros i; [reflexivity|]. cbn [differences]. pose proof (step_small i) as [A B]. rewrite getPx_Ok by lia. cbn [bind]. rewrite getPx_Ok by lia. cbn [bind]. rewrite IH. cbn [bind seq map].
  f_equal. f_equal; [unfold diff; rewrite Z.add_0_r; reflexivity|]. rewrite <- seq_shift, map_map. apply map_ext. intros k. f_equal. lia.
Qed.
(** only whether the neighbours are higher matters *)
Lemma step_up a b up : (if 0 <? a * b then up else if 0 <? a then up + 1 else up) = up + (if (0 <? a) && negb (0 <? b) then 1 else 0).
Proof.
  destruct (0 <? a) eqn:A; [apply Z.ltb_lt in A|apply Z.ltb_ge in A]; destruct (0 <? b) eqn:B; [apply Z.ltb_lt in B|apply Z.ltb_ge in B|apply Z.ltb_lt in B|apply Z.ltb_ge in B]; cbn [andb negb].
  - assert (0 <? a * b = true) as -> by (apply Z.ltb_lt; nia). lia.
  - assert (0 <? a * b = false) as -> by (apply Z.ltb_ge; nia). lia.
  - destruct (0 <? a * b); lia.
  - destruct (0 <? a * b); lia.
Qed.
Definition rise (a b : bool) : Z := if a && negb b then 1 else 0.
Lemma countUp_ok a b c d e f g h : countUp 8 0 [a; b; c; d; e; f; g; h] 0 =
  Ok (rise (0 <? a) (0 <? h) + rise (0 <? b) (0 <? a) + rise (0 <? c) (0 <? b) + rise (0 <? d) (0 <? c) + rise (0 <? e) (0 <? d) + rise (0 <? f) (0 <? e) + rise (0 <? g) (0 <? f) + rise (0 <? h) (0 <? g)).
Proof.
  assert (forall n i l up a b, vget l (Z.to_nat i) = Ok a -> vget l (Z.to_nat ((i + 7) mod 8)) = Ok b -> countUp (Datatypes.S n) i l up = countUp n (i + 1) l (up + rise (0 <? a) (0 <? b))) as ST
    by (intros n i l up a' b' A B; cbn [countUp]; rewrite A; cbn [bind]; rewrite B; cbn [bind]; rewrite step_up; reflexivity).
  do 8 (erewrite ST; [|reflexivity|reflexivity]). cbn [countUp]. f_equal.
Qed.

Definition nthB (l : list bool) (i : nat) : bool := nth i l false.
(** all choices of four directions in order *)
Definition fours : list (nat * nat * nat * nat) :=
  flat_map (fun i => flat_map (fun j => flat_map (fun k => map (fun l => (i, j, k, l)) (filter (fun l => k <? l)%nat (seq 0 8))) (filter (fun k => j <? k)%nat (seq 0 8))) (filter (fun j => i <? j)%nat (seq 0 8))) (seq 0 8).
Definition alternate (v : list bool) (q : nat * nat * nat * nat) : bool :=
  let '(i, j, k, l) := q in Bool.eqb (nthB v i) (nthB v k) && Bool.eqb (nthB v j) (nthB v l) && negb (Bool.eqb (nthB v i) (nthB v j)).
Lemma rises_alternate a b c d e f g h : (1 <? rise a h + rise b a + rise c b + rise d c + rise e d + rise f e + rise g f + rise h g) = existsb (alternate [a; b; c; d; e; f; g; h]) fours.
Proof. destruct a, b, c, d, e, f, g, h; vm_compute; reflexivity. Qed.
Lemma fours_in i j k l : In (i, j, k, l) fours <-> (i < j /\ j < k /\ k < l /\ l < 8)%nat.
Proof.
  unfold fours. rewrite in_flat_map. split.
  - intros (i' & Hi & H). apply in_flat_map in H. destruct H as (j' & Hj & H). apply in_flat_map in H. destruct H as (k' & Hk & H). apply in_map_iff in H. destruct H as (l' & E & Hl).
    apply filter_In in Hj, Hk, Hl. destruct Hj as [_ Hj], Hk as [_ Hk], Hl as [Hl1 Hl]. apply Nat.ltb_lt in Hj, Hk, Hl. apply in_seq in Hl1. injection E as <- <- <- <-. lia.
  - intros H. exists i. split; [apply in_seq; lia|]. apply in_flat_map. exists j. split; [apply filter_In; split; [apply in_seq; lia|apply Nat.ltb_lt; lia]|]. apply in_flat_map. exists k. split; [apply filter_In; split; [apply in_seq; lia|apply Nat.ltb_lt; lia]|].
    apply in_map_iff. exists l. split; [reflexivity|]. apply filter_In; split; [apply in_seq; lia|apply Nat.ltb_lt; lia].
Qed.
Lemma step_neighbour f x y i : 0 <= i < 8 -> f (x + stepX i) (y + stepY i) = neighbour f x y i.
Proof. intros I. assert (i = 0 \/ i = 1 \/ i = 2 \/ i = 3 \/ i = 4 \/ i = 5 \/ i = 6 \/ i = 7) as H by lia. repeat destruct H as [->|H]; [..|subst i]; reflexivity. Qed.
Lemma higher_is f x y i : 0 <= i < 8 -> (0 <? diff f x y i) = true <-> higherAt f x y i.
Proof. intros I. unfold diff, higherAt. rewrite Z.ltb_lt, (step_neighbour f x y i I). lia. Qed.
Lemma higher_not f x y i : 0 <= i < 8 -> (0 <? diff f x y i) = false <-> ~ higherAt f x y i.
Proof. intros I. rewrite <- (higher_is f x y i I). destruct (0 <? diff f x y i); split; congruence. Qed.
Definition bits (f : Z -> Z -> Z) (x y : Z) : list bool := map (fun k => 0 <? diff f x y (Z.of_nat k)) (seq 0 8).
Lemma bits_nth f x y i : (i < 8)%nat -> nthB (bits f x y) i = (0 <? diff f x y (Z.of_nat i)).
Proof. intros H. do 8 (destruct i as [|i]; [reflexivity|]). lia. Qed.
Lemma alternate_saddle f x y : existsb (alternate (bits f x y)) fours = true <-> saddle f x y.
Proof.
  rewrite existsb_exists. split.
  - intros ([[[i j] k] l] & I & A). apply fours_in in I. cbn [alternate] in A. rewrite !bits_nth in A by lia. apply andb_true_iff in A. destruct A as [A N]. apply andb_true_iff in A. destruct A as [A1 A2]. apply eqb_prop in A1, A2. apply negb_true_iff in N.
    exists (Z.of_nat i), (Z.of_nat j), (Z.of_nat k), (Z.of_nat l). split; [lia|]. split; [lia|]. split; [lia|]. rewrite <- !higher_not, <- !higher_is, <- A1, <- A2 by lia.
    destruct (0 <? diff f x y (Z.of_nat i)), (0 <? diff f x y (Z.of_nat j)); cbn in N; try discriminate N; [left|right]; repeat split.
  - intros (i & j & k & l & Hi & Hj & Hl & H). exists (Z.to_nat i, Z.to_nat j, Z.to_nat k, Z.to_nat l). split; [apply fours_in; lia|]. cbn [alternate]. rewrite !bits_nth by lia. rewrite !Z2Nat.id by lia.
    rewrite <- !higher_not, <- !higher_is in H by lia. destruct H as [(-> & -> & -> & ->)|(-> & -> & -> & ->)]; reflexivity.
Qed.

Lemma saddlePixel_ok src marker x y dest : 1 <= x < iw src - 1 -> 1 <= y < ih src - 1 -> iw src <= iw dest -> ih src <= ih dest ->
  saddlePixel src marker x y dest = Ok (if existsb (alternate (bits (ipx src) x y)) fours then setPx dest x y marker else dest).
Proof.
  intros X Y W H. unfold saddlePixel. rewrite differences_ok by assumption. cbn [bind]. cbn [seq map]. rewrite countUp_ok. cbn [bind]. rewrite rises_alternate.
  change [0 <? diff (ipx src) x y (0 + Z.of_nat 0); 0 <? diff (ipx src) x y (0 + Z.of_nat 1); 0 <? diff (ipx src) x y (0 + Z.of_nat 2); 0 <? diff (ipx src) x y (0 + Z.of_nat 3); 0 <? diff (ipx src) x y (0 + Z.of_nat 4); 0 <? diff (ipx src) x y (0 + Z.of_nat 5); 0 <? diff (ipx src) x y (0 + Z.of_nat 6); 0 <? diff (ipx src) x y (0 + Z.of_nat 7)] with (bits (ipx src) x y).
  destruct (existsb _ fours); [apply putPx_Ok; lia|reflexivity].
Qed.

Definition inner (im : image) (x y : Z) : Prop := 1 <= x < iw im - 1 /\ 1 <= y < ih im - 1.
Lemma findSaddles_ok src dest marker : iw src <= iw dest -> ih src <= ih dest ->
  exists d, findSaddles src dest marker = Ok d /\ iw d = iw dest /\ ih d = ih dest /\
    (forall x y, inner src x y -> saddle (ipx src) x y -> ipx d x y = marker) /\ (forall x y, ~ (inner src x y /\ saddle (ipx src) x y) -> ipx d x y = ipx dest x y).
Proof.
  intros W H. unfold findSaddles.
  destruct (Z_lt_le_dec (ih src - 1) 1) as [Small|Hy].
  { exists dest. unfold forZ at 1. replace (Z.to_nat (ih src - 1 - 1)) with 0%nat by lia. split; [reflexivity|]. split; [reflexivity|]. split; [reflexivity|]. split; [intros x y [_ K]; lia|reflexivity]. }
  destruct (Z_lt_le_dec (iw src - 1) 1) as [Small|Hx].
  { exists dest. split; [|split; [reflexivity|split; [reflexivity|split; [intros x y [K _]; lia|reflexivity]]]].
    destruct (forZ_inv image (fun _ s => s = dest) (fun y d => forZ 1 (iw src - 1) (fun x d => saddlePixel src marker x y d) d) 1 (ih src - 1) dest Hy eq_refl) as (s & E & ->); [|exact E].
    intros i s _ ->. exists dest. split; [|reflexivity]. unfold forZ. replace (Z.to_nat (iw src - 1 - 1)) with 0%nat by lia. reflexivity. }
  destruct (forRows_pointwise (fun x y d => saddlePixel src marker x y d) (fun x y v => if existsb (alternate (bits (ipx src) x y)) fours then marker else v) 1 (iw src - 1) 1 (ih src - 1) dest Hx Hy) as (d & E & Wd & Hd & P).
  { intros x y im' X Y W' H' V. rewrite saddlePixel_ok by lia. eexists. split; [reflexivity|]. destruct (existsb _ fours); cbn [setPx iw ih ipx]; (split; [exact W'|split; [exact H'|]]); intros a b; [reflexivity|].
    destruct ((a =? x) && (b =? y)) eqn:Eab; [|reflexivity]. apply andb_true_iff in Eab. rewrite !Z.eqb_eq in Eab. destruct Eab as [-> ->]. exact V. }
  exists d. split; [exact E|]. split; [exact Wd|]. split; [exact Hd|].
  assert (forall x y, (1 <=? x) && (x <? iw src - 1) && (1 <=? y) && (y <? ih src - 1) = true <-> inner src x y) as IN by (intros x y; rewrite !andb_true_iff, !Z.leb_le, !Z.ltb_lt; unfold inner; tauto).
  split.
  - intros x y I S. rewrite P, (proj2 (IN x y) I). rewrite (proj2 (alternate_saddle _ _ _) S). reflexivity.
  - intros x y N. rewrite P. destruct ((1 <=? x) && _ && _ && _) eqn:EI; [|reflexivity]. apply IN in EI. destruct (existsb _ fours) eqn:EA; [|reflexivity]. apply alternate_saddle in EA. exfalso. apply N. auto.
Qed.

(** brightness and contrast do not matter *)
Lemma saddle_monotone f g x y : (forall a b, a < b <-> g a < g b) -> saddle (fun x y => g (f x y)) x y <-> saddle f x y.
Proof.
  intros M. assert (forall i, higherAt (fun x y => g (f x y)) x y i <-> higherAt f x y i) as K by (intros i; unfold higherAt, neighbour; rewrite <- M; tauto).
  unfold saddle. split; intros (i & j & k & l & A & B & C & D); exists i, j, k, l; (split; [exact A|split; [exact B|split; [exact C|]]]); rewrite !K in *; exact D.
Qed.
Lemma saddle_negated f x y : (forall i, 0 <= i < 8 -> neighbour f x y i <> f x y) -> saddle (fun x y => - f x y) x y <-> saddle f x y.
Proof.
  intros M. assert (forall i, 0 <= i < 8 -> (higherAt (fun x y => - f x y) x y i <-> ~ higherAt f x y i)) as K by (intros i I; specialize (M i I); unfold higherAt, neighbour in *; lia).
  assert (forall i, 0 <= i < 8 -> (~ higherAt (fun x y => - f x y) x y i <-> higherAt f x y i)) as K' by (intros i I; specialize (M i I); unfold higherAt, neighbour in *; lia).
  unfold saddle. split; intros (i & j & k & l & A & B & C & D); exists i, j, k, l; (split; [exact A|split; [exact B|split; [exact C|]]]); pose proof (K i ltac:(lia)); pose proof (K j ltac:(lia)); pose proof (K k ltac:(lia)); pose proof (K l ltac:(lia)); pose proof (K' i ltac:(lia)); pose proof (K' j ltac:(lia)); pose proof (K' k ltac:(lia)); pose proof (K' l ltac:(lia)); clear K K' M; tauto.
Qed.
