(** Proofs about the bit packings (C34, C35). *)
From Verif Require Import Base Pack_Model.
Local Open Scope Z_scope.

Lemma u32_id z : 0 <= z < 2 ^ 32 -> u32 z = z.
Proof. intros H. unfold u32. apply Z.mod_small. exact H. Qed.

Lemma testbit_high z n i : 0 <= z < 2 ^ n -> n <= i -> Z.testbit z i = false.
Proof.
  intros Hz Hi. destruct (Z_lt_ge_dec n 0) as [N|N]; [rewrite Z.pow_neg_r in Hz by lia; lia|].
  destruct (Z.eq_dec z 0) as [->|Nz]; [apply Z.bits_0|]. apply Z.bits_above_log2; [lia|]. apply Z.log2_lt_pow2; [lia|].
  assert (2 ^ n <= 2 ^ i) by (apply Z.pow_le_mono_r; lia). lia.
Qed.
(** low bits and high bits do not overlap *)
Lemma lor_low h l n : 0 <= n -> 0 <= l < 2 ^ n -> Z.lor (Z.shiftl h n) l = h * 2 ^ n + l.
Proof.
  intros Hn Hl. rewrite <- (Z.shiftl_mul_pow2 h n Hn).
  assert (D : Z.land (Z.shiftl h n) l = 0).
  { apply Z.bits_inj'. intros i Hi. rewrite Z.land_spec, Z.bits_0.
    destruct (Z_lt_ge_dec i n) as [L|L]; [rewrite Z.shiftl_spec_low by lia; reflexivity|].
    rewrite (testbit_high l n i Hl) by lia. apply andb_false_r. }
  rewrite Z.add_nocarry_lxor by exact D. rewrite Z.lxor_lor by exact D. reflexivity.
Qed.
Lemma land_ones_mod z n : 0 <= n -> Z.land z (2 ^ n - 1) = z mod 2 ^ n.
Proof. intros Hn. rewrite <- Z.land_ones by exact Hn. rewrite Z.ones_equiv. f_equal. Qed.

Lemma lor_low3 z t : 0 <= t < 4 -> Z.lor (Z.shiftl z 2) t = 4 * z + t.
Proof. intros H. rewrite (lor_low z t 2) by (cbn; lia). change (2 ^ 2) with 4. lia. Qed.
Lemma shl2 z : Z.shiftl z 2 = 4 * z.
Proof. rewrite Z.shiftl_mul_pow2 by lia. change (2 ^ 2) with 4. lia. Qed.
Lemma u32_shl2 z : u32 (Z.shiftl z 2) = Z.shiftl (z mod 2 ^ 30) 2.
Proof. rewrite !shl2. unfold u32. change (2 ^ 32) with (4 * 2 ^ 30). rewrite Z.mul_mod_distr_l by lia. reflexivity. Qed.

Lemma mkPixel_val type label : 0 <= type < 4 -> mkPixel type label = 4 * (label mod 2 ^ 30) + type.
Proof. intros H. unfold mkPixel. rewrite u32_shl2, lor_low3 by exact H. reflexivity. Qed.
Lemma pixType_val p : pixType p = p mod 4.
Proof. unfold pixType. change 3 with (2 ^ 2 - 1). rewrite land_ones_mod by lia. reflexivity. Qed.
Lemma pixLabel_val p : pixLabel p = p / 4.
Proof. unfold pixLabel. rewrite Z.shiftr_div_pow2 by lia. reflexivity. Qed.

Theorem pixel_truncated type label : 0 <= type < 4 -> 0 <= label < 2 ^ 32 ->
  pixLabel (mkPixel type label) = label mod 2 ^ 30 /\ pixType (mkPixel type label) = type.
Proof.
  intros Ht Hl. rewrite pixLabel_val, pixType_val, mkPixel_val by exact Ht. split.
  - rewrite Z.mul_comm, Z.div_add_l by lia. rewrite Z.div_small by lia. lia.
  - rewrite Z.add_comm, Z.mul_comm, Z.mod_add by lia. apply Z.mod_small. lia.
Qed.
Lemma pixel_range type label : 0 <= type < 4 -> 0 <= mkPixel type label < 2 ^ 32.
Proof. intros Ht. rewrite mkPixel_val by exact Ht. pose proof (Z.mod_pos_bound label (2 ^ 30) ltac:(lia)). change (2 ^ 32) with (4 * 2 ^ 30). lia. Qed.
Theorem pixel_lossless type label : 0 <= type < 4 -> 0 <= label < 2 ^ 30 ->
  pixType (mkPixel type label) = type /\ pixLabel (mkPixel type label) = label /\ 0 <= mkPixel type label < 2 ^ 32.
Proof.
  intros Ht Hl. destruct (pixel_truncated type label Ht ltac:(lia)) as [E1 E2]. rewrite Z.mod_small in E1 by exact Hl.
  split; [exact E2|]. split; [exact E1|apply pixel_range, Ht].
Qed.
Lemma pixType_range p : 0 <= pixType p < 4.
Proof. rewrite pixType_val. apply Z.mod_pos_bound. lia. Qed.
Lemma pixLabel_range p : 0 <= p < 2 ^ 32 -> 0 <= pixLabel p < 2 ^ 30.
Proof. intros H. rewrite pixLabel_val. split; [apply Z.div_pos; lia|]. apply Z.div_lt_upper_bound; [lia|]. change (4 * 2 ^ 30) with (2 ^ 32). lia. Qed.
Theorem setType_ok p type : 0 <= p < 2 ^ 32 -> 0 <= type < 4 ->
  pixType (setType p type) = type /\ pixLabel (setType p type) = pixLabel p /\ 0 <= setType p type < 2 ^ 32.
Proof. intros Hp Ht. exact (pixel_lossless type (pixLabel p) Ht (pixLabel_range p Hp)). Qed.
Theorem setLabel_ok p label : 0 <= p < 2 ^ 32 -> 0 <= label < 2 ^ 30 ->
  pixLabel (setLabel p label) = label /\ pixType (setLabel p label) = pixType p /\ 0 <= setLabel p label < 2 ^ 32.
Proof.
  intros Hp Hl. destruct (pixel_lossless (pixType p) label (pixType_range p) Hl) as (A & B & C). exact (conj B (conj A C)).
Qed.
Theorem pixel_equal p q : p = q <-> pixType p = pixType q /\ pixLabel p = pixLabel q.
Proof.
  split; [intros ->; split; reflexivity|]. rewrite !pixType_val, !pixLabel_val. intros [E1 E2].
  rewrite (Z.div_mod p 4), (Z.div_mod q 4) by lia. rewrite E1, E2. reflexivity.
Qed.
Theorem pixInt_roundtrip p : 0 <= p < 2 ^ 32 -> - 2 ^ 31 <= pixToInt p < 2 ^ 31 /\ pixOfInt (pixToInt p) = p.
Proof.
  intros H. unfold pixToInt, pixOfInt, s32. rewrite (u32_id p H). destruct (p <? 2 ^ 31) eqn:E.
  - apply Z.ltb_lt in E. split; [lia|apply u32_id, H].
  - apply Z.ltb_ge in E. split; [lia|]. unfold u32. replace (p - 2 ^ 32) with (p + (-1) * 2 ^ 32) by lia. rewrite Z.mod_add by lia. apply Z.mod_small, H.
Qed.
Theorem search_types : exists label, 0 <= label < 2 ^ 30 /\
  pixType (mkPixel cellTypeVertexOrLine label) <> cellTypeVertexOrLine /\ pixLabel (mkPixel cellTypeVertexOrLine label) <> label /\
  pixType (mkPixel cellTypeErrorOrLine label) <> cellTypeErrorOrLine /\ pixLabel (mkPixel cellTypeErrorOrLine label) <> label.
Proof. exists 2. split; [lia|]. repeat split; vm_compute; discriminate. Qed.

(** ** Darts *)
Lemma shlInt_ok z n m : 0 <= n -> 0 <= m -> m + n <= 31 -> 0 <= z < 2 ^ m -> shlInt z n = Ok (Z.shiftl z n).
Proof.
  intros Hn Hm H Hz. unfold shlInt. destruct (0 <=? z) eqn:E1; [|apply Z.leb_gt in E1; lia]. cbn [andb].
  destruct (Z.shiftl z n <? 2 ^ 31) eqn:E2; [reflexivity|exfalso]. apply Z.ltb_ge in E2. rewrite Z.shiftl_mul_pow2 in E2 by exact Hn.
  assert (P : 0 < 2 ^ n) by (apply Z.pow_pos_nonneg; lia).
  assert (z * 2 ^ n < 2 ^ m * 2 ^ n) by (apply Z.mul_lt_mono_pos_r; lia). rewrite <- Z.pow_add_r in H0 by lia.
  assert (2 ^ (m + n) <= 2 ^ 31) by (apply Z.pow_le_mono_r; lia). lia.
Qed.

Lemma lor_range a b n : 0 <= n -> 0 <= a < 2 ^ n -> 0 <= b < 2 ^ n -> 0 <= Z.lor a b < 2 ^ n.
Proof.
  intros Hn Ha Hb.
  assert (E : Z.land (Z.lor a b) (Z.ones n) = Z.lor a b) by (rewrite Z.land_lor_distr_l, !Z.land_ones, !Z.mod_small by assumption; reflexivity).
  rewrite <- E, Z.land_ones by exact Hn. apply Z.mod_pos_bound, Z.pow_pos_nonneg; lia.
Qed.
Lemma shl_range z n m : 0 <= n -> 0 <= m -> 0 <= z < 2 ^ m -> 0 <= Z.shiftl z n < 2 ^ (m + n).
Proof.
  intros Hn Hm Hz. rewrite Z.shiftl_mul_pow2 by exact Hn. assert (0 < 2 ^ n) by (apply Z.pow_pos_nonneg; lia). rewrite Z.pow_add_r by lia.
  split; [apply Z.mul_nonneg_nonneg; lia|apply Z.mul_lt_mono_pos_r; lia].
Qed.

Lemma serialize_val dir x y : 0 <= dir < 8 -> 0 <= x < 2 ^ 17 -> 0 <= y < 2 ^ 17 ->
  let s := Z.lor (Z.lor (Z.shiftl dir 28) (Z.shiftl x 14)) y in serialize dir x y = Ok s /\ 0 <= s < 2 ^ 31.
Proof.
  intros Hd Hx Hy s. assert (R : 0 <= s < 2 ^ 31).
  { apply lor_range; [lia| |lia]. apply lor_range; [lia|apply (shl_range dir 28 3); lia|apply (shl_range x 14 17); lia]. }
  split; [|exact R]. unfold serialize. rewrite (shlInt_ok dir 28 3), (shlInt_ok x 14 17) by lia. cbn [bind]. rewrite u32_id by (fold s; lia). reflexivity.
Qed.

Lemma testbit_mask z n i : 0 <= n -> 0 <= i -> Z.testbit (Z.land z (2 ^ n - 1)) i = if i <? n then Z.testbit z i else false.
Proof.
  intros Hn Hi. rewrite Z.land_spec. replace (2 ^ n - 1) with (Z.ones n) by (rewrite Z.ones_equiv; lia).
  rewrite Z.testbit_ones_nonneg by assumption. destruct (i <? n); [apply andb_true_r|apply andb_false_r].
Qed.

(** putting the fields of a code together again *)
Lemma reassemble s : 0 <= s -> let '(d, x, y) := deserialize s in Z.lor (Z.lor (Z.shiftl d 28) (Z.shiftl x 14)) y = s.
Proof.
  intros Hs. unfold deserialize. apply Z.bits_inj'. intros i Hi. rewrite !Z.lor_spec. change 16383 with (2 ^ 14 - 1).
  rewrite (testbit_mask s 14 i) by lia. rewrite !Z.shiftl_spec by lia.
  destruct (Z.ltb_spec i 14) as [L1|L1].
  - rewrite !(Z.testbit_neg_r _ (i - _)) by lia. reflexivity.
  - rewrite testbit_mask by lia. rewrite orb_false_r.
    destruct (Z.ltb_spec (i - 14) 14) as [L2|L2].
    + rewrite (Z.testbit_neg_r _ (i - 28)) by lia. cbn [orb]. rewrite Z.shiftr_spec by lia. f_equal. lia.
    + rewrite Z.shiftr_spec by lia. rewrite orb_false_r. f_equal. lia.
Qed.
Lemma fields_range s : 0 <= s < 2 ^ 31 -> let '(d, x, y) := deserialize s in 0 <= d < 8 /\ 0 <= x < 2 ^ 14 /\ 0 <= y < 2 ^ 14.
Proof.
  intros Hs. unfold deserialize. change 16383 with (2 ^ 14 - 1). rewrite !land_ones_mod by lia.
  split; [rewrite Z.shiftr_div_pow2 by lia; split; [apply Z.div_pos; lia|apply Z.div_lt_upper_bound; [lia|]; change (2 ^ 28 * 8) with (2 ^ 31); lia]|].
  split; apply Z.mod_pos_bound; lia.
Qed.

Theorem serialize_roundtrip dir x y : 0 <= dir < 8 -> 0 <= x < 2 ^ 14 -> 0 <= y < 2 ^ 14 ->
  exists s, serialize dir x y = Ok s /\ 0 <= s < 2 ^ 31 /\ deserialize s = (dir, x, y).
Proof.
  intros Hd Hx Hy. destruct (serialize_val dir x y Hd ltac:(lia) ltac:(lia)) as [E R]. cbn zeta in *.
  eexists. split; [exact E|]. split; [exact R|].
  assert (V : Z.lor (Z.lor (Z.shiftl dir 28) (Z.shiftl x 14)) y = dir * 2 ^ 28 + x * 2 ^ 14 + y).
  { rewrite <- Z.lor_assoc. rewrite (lor_low x y 14) by lia. rewrite (lor_low dir _ 28) by (change (2 ^ 28) with (2 ^ 14 * 2 ^ 14); nia). lia. }
  rewrite V. unfold deserialize. change 16383 with (2 ^ 14 - 1). rewrite !land_ones_mod by lia. rewrite !Z.shiftr_div_pow2 by lia.
  assert (D1 : (dir * 2 ^ 28 + x * 2 ^ 14 + y) / 2 ^ 14 = dir * 2 ^ 14 + x).
  { replace (dir * 2 ^ 28 + x * 2 ^ 14 + y) with ((dir * 2 ^ 14 + x) * 2 ^ 14 + y) by lia. rewrite Z.div_add_l, Z.div_small by lia. lia. }
  rewrite D1. replace ((dir * 2 ^ 28 + x * 2 ^ 14 + y) mod 2 ^ 14) with y.
  2:{ replace (dir * 2 ^ 28 + x * 2 ^ 14 + y) with (y + (dir * 2 ^ 14 + x) * 2 ^ 14) by lia. rewrite Z.mod_add by lia. symmetry. apply Z.mod_small. lia. }
  replace ((dir * 2 ^ 14 + x) mod 2 ^ 14) with x by (rewrite Z.add_comm, Z.mod_add by lia; symmetry; apply Z.mod_small; lia).
  replace ((dir * 2 ^ 28 + x * 2 ^ 14 + y) / 2 ^ 28) with dir; [reflexivity|].
  replace (dir * 2 ^ 28 + x * 2 ^ 14 + y) with (dir * 2 ^ 28 + (x * 2 ^ 14 + y)) by lia.
  rewrite Z.div_add_l, Z.div_small by (try lia; change (2 ^ 28) with (2 ^ 14 * 2 ^ 14); nia). lia.
Qed.
Theorem serialize_injective dir x y dir' x' y' s : 0 <= dir < 8 -> 0 <= x < 2 ^ 14 -> 0 <= y < 2 ^ 14 ->
  0 <= dir' < 8 -> 0 <= x' < 2 ^ 14 -> 0 <= y' < 2 ^ 14 ->
  serialize dir x y = Ok s -> serialize dir' x' y' = Ok s -> (dir, x, y) = (dir', x', y').
Proof.
  intros H1 H2 H3 H1' H2' H3' E E'. destruct (serialize_roundtrip dir x y H1 H2 H3) as (t & Et & _ & D).
  destruct (serialize_roundtrip dir' x' y' H1' H2' H3') as (t' & Et' & _ & D'). congruence.
Qed.
Theorem serialize_collides dir x y : 0 <= dir < 8 -> 0 <= x < 2 ^ 17 -> 0 <= y < 2 ^ 17 -> 2 ^ 14 <= x \/ 2 ^ 14 <= y ->
  exists s dir' x' y', serialize dir x y = Ok s /\ serialize dir' x' y' = Ok s /\ deserialize s = (dir', x', y') /\
    0 <= dir' < 8 /\ 0 <= x' < 2 ^ 14 /\ 0 <= y' < 2 ^ 14 /\ (dir', x', y') <> (dir, x, y).
Proof.
  intros Hd Hx Hy Hb. destruct (serialize_val dir x y Hd Hx Hy) as [E R]. cbn zeta in *. set (s := Z.lor _ y) in *.
  pose proof (fields_range s R) as F. pose proof (reassemble s ltac:(lia)) as A. destruct (deserialize s) as [[dir' x'] y'] eqn:D.
  destruct F as (F1 & F2 & F3). exists s, dir', x', y'. split; [exact E|]. split.
  { destruct (serialize_val dir' x' y' F1 ltac:(lia) ltac:(lia)) as [E' _]. cbn zeta in E'. rewrite A in E'. exact E'. }
  split; [exact D|]. split; [exact F1|]. split; [exact F2|]. split; [exact F3|]. intros [= -> -> ->]. lia.
Qed.
Theorem serialize_overflow dir x y : 0 <= dir < 8 -> 2 ^ 17 <= x -> serialize dir x y = UB.
Proof.
  intros Hd Hx. unfold serialize. rewrite (shlInt_ok dir 28 3) by lia. cbn [bind]. unfold shlInt.
  destruct (0 <=? x) eqn:E1; [|reflexivity]. cbn [andb]. destruct (Z.shiftl x 14 <? 2 ^ 31) eqn:E2; [exfalso|reflexivity].
  apply Z.ltb_lt in E2. rewrite Z.shiftl_mul_pow2 in E2 by lia. change (2 ^ 31) with (2 ^ 17 * 2 ^ 14) in E2. lia.
Qed.
