(** Digital straight lines: mirrors and growth (C36). *)
From Coq Require Import Znumtheory.
From Verif Require Import Base Dsl_Model Dsl_Spec.
Local Open Scope Z_scope.

Lemma onLine_iff eight d x y : onLine eight d x y <-> 0 <= da d * x - db d * y - dp d < width eight d.
Proof. unfold onLine, dslContains, dslAt. rewrite andb_true_iff, Z.leb_le, Z.ltb_lt. reflexivity. Qed.

(** ** Symmetries *)
Theorem mirrorX_points eight d x y : onLine eight (mirrorX d) x y <-> onLine eight d (- x) y.
Proof.
  rewrite !onLine_iff. unfold mirrorX, width. cbn [da db dp]. rewrite Z.abs_opp.
  replace (- da d * x - db d * y - dp d) with (da d * - x - db d * y - dp d) by ring. reflexivity.
Qed.
Theorem mirrorXY_points eight d x y : onLine eight (mirrorXY eight d) x y <-> onLine eight d (- x) (- y).
Proof.
  rewrite !onLine_iff. unfold mirrorXY. cbn [da db dp].
  replace (width eight (mkDsl (da d) (db d) (1 - width eight d - dp d))) with (width eight d) by reflexivity.
  replace (da d * - x - db d * - y - dp d) with (- (da d * x - db d * y) - dp d) by ring. lia.
Qed.
Theorem mirrorY_points eight d x y : onLine eight (mirrorY eight d) x y <-> onLine eight d x (- y).
Proof. unfold mirrorY. rewrite mirrorXY_points, mirrorX_points, Z.opp_involutive. reflexivity. Qed.

Lemma width_mirrorX eight d : width eight (mirrorX d) = width eight d.
Proof. unfold width, mirrorX. cbn [da db]. rewrite Z.abs_opp. reflexivity. Qed.
Theorem mirrors_involutive eight d : mirrorX (mirrorX d) = d /\ mirrorXY eight (mirrorXY eight d) = d /\ mirrorY eight (mirrorY eight d) = d.
Proof.
  destruct d as [a b p]. split; [|split].
  - unfold mirrorX. cbn [da db dp]. f_equal. ring.
  - unfold mirrorXY. cbn [da db dp]. f_equal. unfold width. cbn [da db]. lia.
  - unfold mirrorY, mirrorXY, mirrorX. cbn [da db dp]. f_equal; [ring|]. unfold width. cbn [da db]. rewrite !Z.abs_opp. lia.
Qed.
Theorem four_points d x y : 0 <= da d <= db d -> onLine false (convertToFourConnected true d) x y <-> onLine true d (x + y) y.
Proof.
  intros H. rewrite !onLine_iff. unfold convertToFourConnected, width. cbn [da db dp].
  rewrite !Z.abs_eq, Z.max_r by lia.
  replace (da d * x - (db d - da d) * y - dp d) with (da d * (x + y) - db d * y - dp d) by ring. lia.
Qed.
Theorem four_refuted : exists d x y, onLine false (convertToFourConnected true d) x y /\ ~ onLine true d (x + y) y.
Proof. exists (mkDsl 3 1 0), 1, 0. split; [reflexivity|]. rewrite onLine_iff. cbn. lia. Qed.

(** ** Growth *)
Lemma octant_line d x y : octant d -> onLine true d x y <-> 0 <= da d * x - db d * y - dp d < db d.
Proof. intros (H1 & H2 & _). rewrite onLine_iff. unfold width. rewrite !Z.abs_eq, Z.max_r by lia. reflexivity. Qed.

Lemma rem_div a b : b <> 0 -> Z.rem a b =? 0 = true <-> (b | a).
Proof. intros Hb. rewrite Z.eqb_eq. apply Z.rem_divide. exact Hb. Qed.

Lemma findK_spec a b dv : b <> 0 -> forall n k j, k <= j < k + Z.of_nat n -> (b | a * j - dv) ->
  k <= findK n a b dv k <= j /\ (b | a * findK n a b dv k - dv).
Proof.
  intros Hb. induction n as [|n IH]; intros k j Hj Hd; [lia|]. cbn [findK].
  destruct (Z.rem (a * k - dv) b =? 0) eqn:E; [apply (rem_div _ _ Hb) in E; split; [lia|exact E]|].
  assert (k <> j) by (intros ->; apply (rem_div _ _ Hb) in Hd; congruence).
  destruct (IH (k + 1) j ltac:(lia) Hd) as [A B]. split; [lia|exact B].
Qed.

(** the leaning point in the columns below [x] that addPoint takes *)
Lemma find_leaning a b dv x : 0 < b -> (exists i j, 0 <= i <= x - 1 /\ a * i - b * j = dv) ->
  let k := findK (Z.to_nat b) a b dv 0 in let l := Z.quot (a * k - dv) b in 0 <= k < b /\ k < x /\ a * k - b * l = dv.
Proof.
  intros Hb (i & j & Hi & E). cbn zeta.
  assert (Hm : 0 <= i mod b < b) by (apply Z.mod_pos_bound; lia).
  assert (Hd : (b | a * (i mod b) - dv)).
  { exists (j - a * (i / b)). rewrite Z.mod_eq by lia.
    replace (a * (i - b * (i / b)) - dv) with (a * i - dv - a * b * (i / b)) by ring. rewrite <- E. ring. }
  destruct (findK_spec a b dv ltac:(lia) (Z.to_nat b) 0 (i mod b) ltac:(lia) Hd) as [[A1 A2] (q & A3)].
  assert (i mod b <= i) by (apply Z.mod_le; lia).
  split; [lia|]. split; [lia|]. rewrite A3, Z.quot_mul by lia. lia.
Qed.

Lemma columns b b' k x i r f : 0 <= k < b -> b' = x - k -> 0 < b' -> 0 <= i < x -> b * f = b' * r + (i - k) ->
  (0 <= r < b <-> 0 <= f < b').
Proof.
  intros Hk Hb' Hp Hi E. split.
  - intros [R1 R2]. assert (L : 0 <= b' * r) by nia. assert (U : b' * r <= b' * (b - 1)) by nia. split; nia.
  - intros [F1 F2]. split.
    + destruct (Z_le_gt_dec 0 r) as [|N]; [assumption|exfalso]. assert (b' * r <= b' * -1) by nia. nia.
    + destruct (Z_lt_ge_dec r b) as [|N]; [assumption|exfalso]. assert (b' * b <= b' * r) by nia.
      assert (b * f <= b * (b' - 1)) by nia. nia.
Qed.

Lemma det_coprime a b a' b' : a' * b - a * b' = 1 \/ a * b' - a' * b = 1 -> Zis_gcd a' b' 1.
Proof.
  intros H. apply bezout_rel_prime.
  destruct H as [H|H]; [apply Bezout_intro with (u := b) (v := - a)|apply Bezout_intro with (u := - b) (v := a)]; lia.
Qed.
Lemma period a b n m : 0 < b -> 0 < n -> Zis_gcd a b 1 -> a * n = b * m -> b <= n.
Proof.
  intros Hb Hn G E. assert (D : (b | n)).
  { apply (Gauss b a n); [exists m; lia|]. apply Zis_gcd_sym. exact G. }
  apply Z.divide_pos_le; assumption.
Qed.

Definition leaning (d : dsl) (lo hi : Z) : Prop :=
  (exists i j, lo <= i <= hi /\ da d * i - db d * j = dp d) /\ (exists i j, lo <= i <= hi /\ da d * i - db d * j = dp d + db d - 1).

(** the column in which the remainder takes a given value *)
Lemma residue_col a b c k : 0 < b -> Zis_gcd a b 1 -> exists i j, k <= i < k + b /\ a * i - b * j = c.
Proof.
  intros Hb G. destruct (rel_prime_bezout a b G) as [u v E].
  set (i := k + (u * c - k) mod b). assert (Hi : 0 <= (u * c - k) mod b < b) by (apply Z.mod_pos_bound; lia).
  exists i, (- (v * c) - a * ((u * c - k) / b)). split; [unfold i; lia|].
  unfold i. rewrite Z.mod_eq by lia.
  replace (a * (k + (u * c - k - b * ((u * c - k) / b))) - b * (- (v * c) - a * ((u * c - k) / b))) with (c * (u * a + v * b)) by ring.
  rewrite E. ring.
Qed.

(** a boundary point between two others *)
Lemma fits_orders d lo hi : fits d lo hi ->
  (lo < hi -> (exists k m, lo <= k < m /\ m <= hi /\ upperAt d k /\ lowerAt d m) /\ (exists k m, lo <= m < k /\ k <= hi /\ upperAt d k /\ lowerAt d m)) /\
  leaning d lo hi.
Proof.
  intros ((O1 & O2 & O3) & Hl & H). destruct (Z.eq_dec (db d) 1) as [E1|E1].
  - assert (U : forall i, upperAt d i) by (intros i; exists (da d * i - dp d); rewrite E1; ring).
    assert (L : forall i, lowerAt d i) by (intros i; exists (da d * i - dp d); rewrite E1; ring).
    split; [intros Hlt; split; [exists lo, (lo + 1)|exists (lo + 1), lo]; repeat split; auto; lia|].
    split; [destruct (U lo) as [j E]|destruct (L lo) as [j E]]; exists lo, j; (split; [lia|exact E]).
  - destruct H as [H|(k & Hk1 & Hk2 & H)]; [lia|].
    assert (U2 : forall i, upperAt d i -> upperAt d (i + db d)) by (intros i [j E]; exists (j + da d); rewrite <- E; ring).
    assert (L2 : forall i, lowerAt d i -> lowerAt d (i + db d)) by (intros i [j E]; exists (j + da d); rewrite <- E; ring).
    assert (NB : forall i, upperAt d i -> lowerAt d i -> False).
    { intros i [j E] [j' E']. assert (db d * (j - j') = db d - 1) by lia. assert (j - j' = 0 \/ j - j' <= -1 \/ 1 <= j - j') as [D|[D|D]] by lia; nia. }
    destruct H as [H|H].
    + destruct (residue_col (da d) (db d) (dp d + db d - 1) k O2 O3) as (m & j & Hm & E).
      assert (Lm : lowerAt d m) by (exists j; exact E).
      assert (m <> k) by (intros ->; exact (NB _ H Lm)).
      split.
      * intros _. split; [exists k, m|exists (k + db d), m]; repeat split; auto; lia.
      * split; [destruct H as [j0 E0]; exists k, j0; split; [lia|exact E0]|exists m, j; split; [lia|exact E]].
    + destruct (residue_col (da d) (db d) (dp d) k O2 O3) as (m & j & Hm & E).
      assert (Lm : upperAt d m) by (exists j; exact E).
      assert (m <> k) by (intros ->; exact (NB _ Lm H)).
      split.
      * intros _. split; [exists m, (k + db d)|exists m, k]; repeat split; auto; lia.
      * split; [exists m, j; split; [lia|exact E]|destruct H as [j0 E0]; exists k, j0; split; [lia|exact E0]].
Qed.

(** the new line when the point lies one above (increasing slope) or one below the line *)
Lemma grow_inc d x y k l : fits d 0 (x - 1) -> da d < db d -> 0 < x -> 0 <= k < db d -> k < x -> da d * k - db d * l = dp d ->
  da d * x - db d * y = dp d - 1 ->
  let d' := mkDsl (y - l) (x - k) ((y - l) * x - (x - k) * y) in
  fits d' 0 x /\ (forall i j, 0 <= i < x -> onLine true d' i j <-> onLine true d i j) /\ onLine true d' x y.
Proof.
  intros HF Hab Hx Hk Hkx EU EP. destruct d as [a b p]. cbn [da db dp] in *. cbn zeta.
  pose proof HF as (O & _ & _). pose proof O as O0. destruct O as (O1 & O2 & O3). cbn [da db dp] in *.
  assert (Det : (y - l) * b - a * (x - k) = 1) by lia.
  assert (A1 : 1 <= y - l) by nia. assert (A2 : y - l <= x - k) by nia.
  assert (O' : octant (mkDsl (y - l) (x - k) ((y - l) * x - (x - k) * y))).
  { split; [cbn; lia|]. split; [cbn; lia|]. cbn. apply (det_coprime a b). left. exact Det. }
  assert (F : forall i j, b * ((y - l) * i - (x - k) * j - ((y - l) * x - (x - k) * y)) = (x - k) * (a * i - b * j - p) + (i - k)).
  { intros i j. rewrite <- EU.
    replace (b * ((y - l) * i - (x - k) * j - ((y - l) * x - (x - k) * y))) with (((y - l) * b) * (i - k) - b * (x - k) * (j - l)) by ring.
    replace ((y - l) * b) with (a * (x - k) + 1) by lia. ring. }
  split; [|split].
  - split; [exact O'|]. split; [lia|]. right. exists k. cbn [db]. split; [lia|]. split; [lia|]. left.
    exists l. cbn [da db dp]. ring.
  - intros i j Hi. rewrite (octant_line _ i j O'), (octant_line _ i j O0). cbn [da db dp].
    symmetry. apply (columns b (x - k) k x i); auto; lia.
  - rewrite (octant_line _ x y O'). cbn [da db dp]. lia.
Qed.

Lemma grow_dec d x y k l : fits d 0 (x - 1) -> 0 < da d -> 0 < x -> 0 <= k < db d -> k < x -> da d * k - db d * l = dp d + db d - 1 ->
  da d * x - db d * y = dp d + db d ->
  let d' := mkDsl (y - l) (x - k) ((y - l) * x - (x - k) * y - (x - k) + 1) in
  fits d' 0 x /\ (forall i j, 0 <= i < x -> onLine true d' i j <-> onLine true d i j) /\ onLine true d' x y.
Proof.
  intros HF Hab Hx Hk Hkx EU EP. destruct d as [a b p]. cbn [da db dp] in *. cbn zeta.
  pose proof HF as (O & _ & _). pose proof O as O0. destruct O as (O1 & O2 & O3). cbn [da db dp] in *.
  assert (Det : a * (x - k) - (y - l) * b = 1) by lia.
  assert (A1 : 0 <= y - l) by nia. assert (A2 : y - l <= x - k) by nia.
  assert (O' : octant (mkDsl (y - l) (x - k) ((y - l) * x - (x - k) * y - (x - k) + 1))).
  { split; [cbn; lia|]. split; [cbn; lia|]. cbn. apply (det_coprime a b). right. exact Det. }
  assert (F : forall i j, b * ((y - l) * x - (x - k) * y - ((y - l) * i - (x - k) * j)) = (x - k) * (p + b - 1 - (a * i - b * j)) + (i - k)).
  { intros i j. rewrite <- EU.
    replace (b * ((y - l) * x - (x - k) * y - ((y - l) * i - (x - k) * j))) with (((y - l) * b) * (k - i) - b * (x - k) * (l - j)) by ring.
    replace ((y - l) * b) with (a * (x - k) - 1) by lia. ring. }
  split; [|split].
  - split; [exact O'|]. split; [lia|]. right. exists k. cbn [db]. split; [lia|]. split; [lia|]. right.
    exists l. cbn [da db dp]. ring.
  - intros i j Hi. rewrite (octant_line _ i j O'), (octant_line _ i j O0). cbn [da db dp].
    pose proof (columns b (x - k) k x i (p + b - 1 - (a * i - b * j)) _ Hk eq_refl ltac:(lia) Hi (F i j)) as Cl. lia.
  - rewrite (octant_line _ x y O'). cbn [da db dp]. lia.
Qed.

Lemma addPoint_false d x y : octant d -> let v := da d * x - db d * y - dp d in v < -1 \/ db d < v -> addPoint true d x y = (Returned false, d).
Proof.
  intros ((H1 & H2) & H3 & _). cbn zeta. intros Hv. unfold addPoint. cbn [andb].
  destruct (da d <=? db d) eqn:E1; [|apply Z.leb_gt in E1; lia]. destruct (0 <=? da d) eqn:E2; [|apply Z.leb_gt in E2; lia].
  cbn [andb negb]. unfold dslAt.
  destruct (0 <=? da d * x - db d * y - dp d) eqn:E3; [apply Z.leb_le in E3|apply Z.leb_gt in E3]; cbn [andb].
  - destruct (da d * x - db d * y - dp d <? db d) eqn:E4; [apply Z.ltb_lt in E4; lia|].
    destruct (da d * x - db d * y - dp d =? -1) eqn:E5; [apply Z.eqb_eq in E5; lia|].
    destruct (da d * x - db d * y - dp d =? db d) eqn:E6; [apply Z.eqb_eq in E6; lia|]. reflexivity.
  - destruct (da d * x - db d * y - dp d =? -1) eqn:E5; [apply Z.eqb_eq in E5; lia|].
    destruct (da d * x - db d * y - dp d =? db d) eqn:E6; [apply Z.eqb_eq in E6; lia|]. reflexivity.
Qed.
Lemma addPoint_in d x y : octant d -> onLine true d x y -> addPoint true d x y = (Returned true, d).
Proof.
  intros O. rewrite (octant_line d x y O). destruct O as ((H1 & H2) & H3 & _). intros Hv. unfold addPoint. cbn [andb].
  destruct (da d <=? db d) eqn:E1; [|apply Z.leb_gt in E1; lia]. destruct (0 <=? da d) eqn:E2; [|apply Z.leb_gt in E2; lia].
  cbn [andb negb]. unfold dslAt.
  destruct (0 <=? da d * x - db d * y - dp d) eqn:E3; [|apply Z.leb_gt in E3; lia].
  destruct (da d * x - db d * y - dp d <? db d) eqn:E4; [|apply Z.ltb_ge in E4; lia]. reflexivity.
Qed.

(** the computation of the new line *)
Lemma addPoint_new d x y : octant d -> let v := da d * x - db d * y - dp d in v = -1 \/ v = db d -> (x <? 0) = (y <? 0) ->
  addPoint true d x y =
    (let above := v =? -1 in
     let pos := if x <? 0 then 1 - db d - dp d else dp d in
     let divPos := if (if x <? 0 then negb above else above) then pos else pos + db d - 1 in
     let k := findK (Z.to_nat (db d)) (da d) (db d) divPos 0 in
     let l := Z.quot (da d * k - divPos) (db d) in
     let d' := mkDsl (Z.abs y - l) (Z.abs x - k)
       (if above then (Z.abs y - l) * x - (Z.abs x - k) * y else (Z.abs y - l) * x - (Z.abs x - k) * y - (Z.abs x - k) + 1) in
     if dslContains true d' x y then (Returned true, d') else (Thrown, d')).
Proof.
  intros ((H1 & H2) & H3 & _). cbn zeta. intros Hv Hs. unfold addPoint. cbn [andb].
  destruct (da d <=? db d) eqn:E1; [|apply Z.leb_gt in E1; lia]. destruct (0 <=? da d) eqn:E2; [|apply Z.leb_gt in E2; lia].
  cbn [andb negb]. unfold dslAt.
  destruct ((0 <=? da d * x - db d * y - dp d) && (da d * x - db d * y - dp d <? db d)) eqn:E3.
  { apply andb_true_iff in E3 as [E3 E4]. apply Z.leb_le in E3. apply Z.ltb_lt in E4. lia. }
  destruct (negb (da d * x - db d * y - dp d =? -1) && negb (da d * x - db d * y - dp d =? db d)) eqn:E4.
  { apply andb_true_iff in E4 as [E4 E5]. rewrite !negb_true_iff, !Z.eqb_neq in *. lia. }
  rewrite Hs, Bool.eqb_reflx. cbn [negb]. destruct (db d =? 0) eqn:E5; [apply Z.eqb_eq in E5; lia|]. reflexivity.
Qed.

(** ** A refused point fits no line *)
Lemma flat_line e x y : flat e -> onLine true e x y <-> 0 <= da e * x - db e * y - dp e < db e.
Proof. intros (H1 & H2). rewrite onLine_iff. unfold width. rewrite (Z.abs_eq (db e)), Z.max_r by lia. reflexivity. Qed.

Lemma reach a b x m k w t s1 s2 : 0 < b -> Zis_gcd a b 1 -> k < m -> 1 <= x - m <= b -> 2 <= w ->
  a * (x - m) = b * s1 - (w - 1) * t -> a * (m - k) = b * s2 - t -> x - k <= w * (m - k).
Proof.
  intros Hb G Hk Hx Hw E1 E2.
  assert (D : (b | (x - m) - (w - 1) * (m - k))).
  { apply (Gauss b a); [|apply Zis_gcd_sym; exact G]. exists (s1 - (w - 1) * s2).
    replace (a * (x - m - (w - 1) * (m - k))) with (a * (x - m) - (w - 1) * (a * (m - k))) by ring. rewrite E1, E2. ring. }
  destruct (Z_le_gt_dec (x - m) ((w - 1) * (m - k))) as [L|L]; [lia|exfalso].
  apply Z.divide_pos_le in D; [|lia]. assert (0 < (w - 1) * (m - k)) by nia. lia.
Qed.

(** three points of a line: the middle one is not below the chord by a whole unit, nor above *)
Lemma chord_low e k ju m jl x y : flat e -> k < m < x -> onLine true e k ju -> onLine true e m jl -> onLine true e x y ->
  (x - m) * ju + (m - k) * y - (x - k) * jl < x - k.
Proof.
  intros F H. rewrite !(flat_line _ _ _ F). destruct e as [a b p]. cbn [da db dp]. intros H1 H2 H3.
  set (X := x - k). set (M := m - k). assert (HX : 0 < X) by (unfold X; lia). assert (HM : 0 < M < X) by (unfold M, X; lia).
  set (f1 := a * k - b * ju - p) in *. set (f2 := a * m - b * jl - p) in *. set (f3 := a * x - b * y - p) in *.
  assert (E : X * f2 = (X - M) * f1 + M * f3 + b * ((X - M) * ju + M * y - X * jl)).
  { unfold X, M, f1, f2, f3. ring. }
  replace (x - m) with (X - M) by (unfold X, M; lia).
  destruct (Z_lt_ge_dec ((X - M) * ju + M * y - X * jl) X) as [L|L]; [exact L|exfalso].
  destruct F as [_ Fb]. cbn [db] in Fb.
  clearbody f1 f2 f3 X M.
  assert (0 <= (X - M) * f1) by (apply Z.mul_nonneg_nonneg; lia). assert (0 <= M * f3) by (apply Z.mul_nonneg_nonneg; lia).
  assert (b * X <= b * ((X - M) * ju + M * y - X * jl)) by (apply Z.mul_le_mono_nonneg_l; lia).
  assert (X * f2 < X * b) by (apply Z.mul_lt_mono_pos_l; lia). lia.
Qed.
Lemma chord_high e k jl m ju x y : flat e -> k < m < x -> onLine true e k jl -> onLine true e m ju -> onLine true e x y ->
  (x - k) * ju - (x - m) * jl - (m - k) * y < x - k.
Proof.
  intros F H. rewrite !(flat_line _ _ _ F). destruct e as [a b p]. cbn [da db dp]. intros H1 H2 H3.
  set (X := x - k). set (M := m - k). assert (HX : 0 < X) by (unfold X; lia). assert (HM : 0 < M < X) by (unfold M, X; lia).
  set (f1 := a * k - b * jl - p) in *. set (f2 := a * m - b * ju - p) in *. set (f3 := a * x - b * y - p) in *.
  assert (E : X * f2 = (X - M) * f1 + M * f3 - b * (X * ju - (X - M) * jl - M * y)).
  { unfold X, M, f1, f2, f3. ring. }
  replace (x - m) with (X - M) by (unfold X, M; lia).
  destruct (Z_lt_ge_dec (X * ju - (X - M) * jl - M * y) X) as [L|L]; [exact L|exfalso].
  destruct F as [_ Fb]. cbn [db] in Fb.
  clearbody f1 f2 f3 X M.
  assert ((X - M) * f1 <= (X - M) * (b - 1)) by (apply Z.mul_le_mono_nonneg_l; lia). assert (M * f3 <= M * (b - 1)) by (apply Z.mul_le_mono_nonneg_l; lia).
  assert (b * X <= b * (X * ju - (X - M) * jl - M * y)) by (apply Z.mul_le_mono_nonneg_l; lia). assert (0 <= X * f2) by (apply Z.mul_nonneg_nonneg; lia).
  assert ((X - M) * (b - 1) + M * (b - 1) = b * X - X) by ring. lia.
Qed.

(** the last column before [x] in which the remainder has the value it has in column [m] *)
Lemma last_col a b c m j x : 0 < b -> m < x -> a * m - b * j = c -> exists m' j', m <= m' < x /\ x - m' <= b /\ a * m' - b * j' = c.
Proof.
  intros Hb Hm E. set (t := (x - 1 - m) / b). exists (m + b * t), (j + a * t).
  pose proof (Z.mod_pos_bound (x - 1 - m) b Hb) as P. pose proof (Z.div_mod (x - 1 - m) b ltac:(lia)) as Q. fold t in Q.
  assert (0 <= t) by (apply Z.div_pos; lia). assert (0 <= b * t) by (apply Z.mul_nonneg_nonneg; lia).
  split; [lia|]. split; [lia|]. rewrite <- E. ring.
Qed.

Theorem refused d x y : fits d 0 (x - 1) -> 0 < x -> stepRight d x y ->
  (let v := da d * x - db d * y - dp d in v < -1 \/ db d < v) -> impossible d 0 (x - 1) x y.
Proof.
  intros F Hx (y' & L' & Hy') Hv e Fe He Hxy. cbn zeta in Hv. pose proof F as (O & _ & Hb1).
  pose proof (proj1 (octant_line d (x - 1) y' O) L') as V'. pose proof O as ((A0 & AB) & B0 & G).
  assert (Ev : da d * x - db d * y - dp d = (da d * (x - 1) - db d * y' - dp d) + da d - db d * (y - y')) by ring.
  destruct (Z.eq_dec x 1) as [->|Nx].
  { assert (B1 : db d = 1) by (destruct Hb1 as [B|(k & K1 & K2 & _)]; lia). rewrite B1 in *. lia. }
  destruct (proj1 (fits_orders _ _ _ F) ltac:(lia)) as [(k & m & K1 & K2 & (ju & U) & (jl & L)) (k' & m' & K1' & K2' & (ju' & U') & (jl' & L'0))].
  assert (InU : forall i j, 0 <= i <= x - 1 -> da d * i - db d * j = dp d -> onLine true e i j).
  { intros i j Hi E. apply He; [lia|]. apply (octant_line d i j O). lia. }
  assert (InL : forall i j, 0 <= i <= x - 1 -> da d * i - db d * j = dp d + db d - 1 -> onLine true e i j).
  { intros i j Hi E. apply He; [lia|]. apply (octant_line d i j O). lia. }
  set (v := da d * x - db d * y - dp d) in *.
  destruct Hv as [Hv|Hv].
  - destruct (last_col (da d) (db d) _ m jl x B0 ltac:(lia) L) as (m1 & j1 & M1 & M2 & M3).
    pose proof (chord_low e k ju m1 j1 x y Fe ltac:(lia) (InU k ju ltac:(lia) U) (InL m1 j1 ltac:(lia) M3) Hxy) as C.
    assert (R : x - k <= - v * (m1 - k)).
    { apply (reach (da d) (db d) x m1 k (- v) 1 (y - j1 - 1) (j1 - ju + 1) B0 G); unfold v in *; lia. }
    assert (E : db d * ((x - m1) * ju + (m1 - k) * y - (x - k) * j1) = (x - k) * (db d - 1) - (m1 - k) * v).
    { unfold v. replace (dp d) with (da d * k - db d * ju) by lia.
      replace (db d - 1) with (da d * m1 - db d * j1 - (da d * k - db d * ju)) by lia. ring. }
    assert (db d * ((x - m1) * ju + (m1 - k) * y - (x - k) * j1) <= db d * (x - k - 1)) by (apply Z.mul_le_mono_nonneg_l; lia). lia.
  - destruct (last_col (da d) (db d) _ k' ju' x B0 ltac:(lia) U') as (m1 & j1 & M1 & M2 & M3).
    pose proof (chord_high e m' jl' m1 j1 x y Fe ltac:(lia) (InL m' jl' ltac:(lia) L'0) (InU m1 j1 ltac:(lia) M3) Hxy) as C.
    assert (R : x - m' <= (v - db d + 1) * (m1 - m')).
    { apply (reach (da d) (db d) x m1 m' (v - db d + 1) (-1) (y - j1 + 1) (j1 - jl' - 1) B0 G); unfold v in *; lia. }
    assert (E : db d * ((x - m') * j1 - (x - m1) * jl' - (m1 - m') * y) = (x - m1) * (db d - 1) + (m1 - m') * v).
    { unfold v. replace (dp d) with (da d * m1 - db d * j1) by lia.
      replace (db d - 1) with (da d * m' - db d * jl' - (da d * m1 - db d * j1)) by lia. ring. }
    assert (db d * ((x - m') * j1 - (x - m1) * jl' - (m1 - m') * y) <= db d * (x - m' - 1)) by (apply Z.mul_le_mono_nonneg_l; lia). lia.
Qed.

Lemma fits_wider d lo hi lo' hi' : fits d lo hi -> lo' <= lo -> hi <= hi' -> fits d lo' hi'.
Proof.
  intros (O & Hl & H) H1 H2. split; [exact O|]. split; [lia|]. destruct H as [H|(k & K1 & K2 & K3)]; [left; exact H|right].
  exists k. repeat split; [lia|lia|exact K3].
Qed.
Theorem addPoint_right d x y : fits d 0 (x - 1) -> 0 < x -> 0 <= y -> stepRight d x y ->
  (exists d', addPoint true d x y = (Returned true, d') /\ fits d' 0 x /\ extends d d' 0 (x - 1) x y) \/
  (addPoint true d x y = (Returned false, d) /\ impossible d 0 (x - 1) x y).
Proof.
  intros F Hx Hy (y' & L' & Hy'). pose proof F as (O & _). destruct (proj2 (fits_orders _ _ _ F)) as [LU LL]. pose proof (proj1 (octant_line d (x - 1) y' O) L') as V'.
  pose proof O as ((A0 & AB) & B0 & G).
  set (v := da d * x - db d * y - dp d).
  assert (Ev : v = (da d * (x - 1) - db d * y' - dp d) + da d - db d * (y - y')) by (unfold v; ring).
  destruct (Z_lt_ge_dec v (-1)) as [N1|N1].
  { right. split; [apply addPoint_false; [exact O|left; exact N1]|]. apply refused; [exact F|exact Hx|exists y'; split; assumption|cbn zeta; fold v; lia]. }
  destruct (Z_lt_ge_dec (db d) v) as [N2|N2].
  { right. split; [apply addPoint_false; [exact O|right; exact N2]|]. apply refused; [exact F|exact Hx|exists y'; split; assumption|cbn zeta; fold v; lia]. }
  left. assert (Sx : (x <? 0) = false) by (apply Z.ltb_ge; lia). assert (Sy : (y <? 0) = false) by (apply Z.ltb_ge; lia).
  destruct (Z.eq_dec v (-1)) as [Em|Em]; [|destruct (Z.eq_dec v (db d)) as [Eb|Eb]].
  - assert (Hlt : da d < db d) by (assert (y - y' = 1 \/ y - y' = 0) as [D|D] by lia; rewrite D in Ev; lia).
    rewrite (addPoint_new d x y O) by (fold v; lia || congruence). cbn zeta. fold v. rewrite Em, Sx. cbn [Z.eqb Pos.eqb negb].
    destruct (find_leaning (da d) (db d) (dp d) x B0 LU) as (K1 & K2 & K3).
    set (k := findK _ _ _ _ _) in *. set (l := Z.quot _ _) in *. rewrite (Z.abs_eq x), (Z.abs_eq y) by lia.
    destruct (grow_inc d x y k l F Hlt Hx K1 K2 K3 ltac:(unfold v in Em; lia)) as (G1 & G2 & G3).
    unfold onLine in G3. rewrite G3. eexists. split; [reflexivity|]. split; [exact G1|]. split; [intros i j Hi; apply G2; lia|exact G3].
  - assert (Hlt : 0 < da d) by (assert (y - y' = 1 \/ y - y' = 0) as [D|D] by lia; rewrite D in Ev; lia).
    rewrite (addPoint_new d x y O) by (fold v; lia || congruence). cbn zeta. fold v. rewrite Sx.
    destruct (v =? -1) eqn:E1; [apply Z.eqb_eq in E1; lia|]. cbn [negb].
    destruct (find_leaning (da d) (db d) (dp d + db d - 1) x B0 LL) as (K1 & K2 & K3).
    set (k := findK _ _ _ _ _) in *. set (l := Z.quot _ _) in *. rewrite (Z.abs_eq x), (Z.abs_eq y) by lia.
    destruct (grow_dec d x y k l F Hlt Hx K1 K2 K3 ltac:(unfold v in Eb; lia)) as (G1 & G2 & G3).
    unfold onLine in G3. rewrite G3. eexists. split; [reflexivity|]. split; [exact G1|]. split; [intros i j Hi; apply G2; lia|exact G3].
  - assert (L : onLine true d x y) by (rewrite (octant_line d x y O); fold v; lia).
    exists d. split; [apply addPoint_in; assumption|]. split; [|split; [reflexivity|exact L]].
    apply (fits_wider d 0 (x - 1)); [exact F|lia|lia].
Qed.

(** the mirrored line *)
Lemma octant_mirror d : octant d -> mirrorXY true d = mkDsl (da d) (db d) (1 - db d - dp d) /\ octant (mirrorXY true d).
Proof.
  intros (H1 & H2 & H3). assert (E : mirrorXY true d = mkDsl (da d) (db d) (1 - db d - dp d)).
  { unfold mirrorXY, width. rewrite !Z.abs_eq, Z.max_r by lia. reflexivity. }
  split; [exact E|]. rewrite E. split; [exact H1|]. split; [exact H2|exact H3].
Qed.
Lemma fits_mirror d lo hi : fits d lo hi -> fits (mirrorXY true d) (- hi) (- lo).
Proof.
  intros (O & Hl & H). destruct (octant_mirror d O) as [E O'].
  split; [exact O'|]. split; [lia|]. rewrite E. unfold upperAt, lowerAt. cbn [da db dp].
  destruct H as [H|(k & K1 & K2 & K3)]; [left; exact H|right]. exists (- k - db d). split; [lia|]. split; [lia|].
  destruct K3 as [(j & K3)|(j & K3)].
  - right. exists (- j - da d). lia.
  - left. exists (- j - da d). lia.
Qed.
Lemma mirror_mirror d : mirrorXY true (mirrorXY true d) = d.
Proof. apply (mirrors_involutive true d). Qed.

Lemma refused_left d x y : fits d (x + 1) 0 -> x < 0 -> stepLeft d x y ->
  (let v := da d * x - db d * y - dp d in v < -1 \/ db d < v) -> impossible d (x + 1) 0 x y.
Proof.
  intros F Hx (y' & L' & Hy') Hv e Fe He Hxy. pose proof F as (O & _). destruct (octant_mirror d O) as [EM OM].
  pose proof (fits_mirror d _ _ F) as FM. replace (- (x + 1)) with (- x - 1) in FM by lia. change (-0) with 0 in FM.
  apply (refused (mirrorXY true d) (- x) (- y) FM ltac:(lia)) with (e := mirrorXY true e).
  - exists (- y'). split; [|lia]. apply mirrorXY_points. rewrite Z.opp_involutive. replace (- (- x - 1)) with (x + 1) by lia. exact L'.
  - cbn zeta in *. rewrite EM. cbn [da db dp]. lia.
  - destruct Fe as [F1 F2]. split; [exact F1|exact F2].
  - intros i j Hi. rewrite !mirrorXY_points. apply He. lia.
  - apply mirrorXY_points. rewrite !Z.opp_involutive. exact Hxy.
Qed.

Theorem addPoint_left d x y : fits d (x + 1) 0 -> x < 0 -> y < 0 \/ onLine true d x y -> stepLeft d x y ->
  (exists d', addPoint true d x y = (Returned true, d') /\ fits d' x 0 /\ extends d d' (x + 1) 0 x y) \/
  (addPoint true d x y = (Returned false, d) /\ impossible d (x + 1) 0 x y).
Proof.
  intros F Hx HY (y' & L' & Hy'). pose proof F as (O & _). destruct (proj2 (fits_orders _ _ _ F)) as [LU LL]. pose proof (proj1 (octant_line d (x + 1) y' O) L') as V'.
  pose proof O as ((A0 & AB) & B0 & G). destruct (octant_mirror d O) as [EM OM].
  pose proof (fits_mirror d _ _ F) as FM. replace (- (x + 1)) with (- x - 1) in FM by lia. change (-0) with 0 in FM.
  set (v := da d * x - db d * y - dp d).
  assert (Ev : v = (da d * (x + 1) - db d * y' - dp d) - da d + db d * (y' - y)) by (unfold v; ring).
  destruct (Z_lt_ge_dec v (-1)) as [N1|N1].
  { right. split; [apply addPoint_false; [exact O|left; exact N1]|]. apply refused_left; [exact F|exact Hx|exists y'; split; assumption|cbn zeta; fold v; lia]. }
  destruct (Z_lt_ge_dec (db d) v) as [N2|N2].
  { right. split; [apply addPoint_false; [exact O|right; exact N2]|]. apply refused_left; [exact F|exact Hx|exists y'; split; assumption|cbn zeta; fold v; lia]. }
  left.
  destruct (Z_lt_ge_dec v 0) as [In|In]; [|destruct (Z_lt_ge_dec v (db d)) as [In'|In']].
  2:{ assert (L : onLine true d x y) by (rewrite (octant_line d x y O); fold v; lia).
      exists d. split; [apply addPoint_in; assumption|]. split; [|split; [reflexivity|exact L]].
      apply (fits_wider d (x + 1) 0); [exact F|lia|lia]. }
  - (* above: below the mirrored line *)
    assert (Em : v = -1) by lia. assert (Hy : y < 0).
    { destruct HY as [HY|HY]; [exact HY|]. rewrite (octant_line d x y O) in HY. fold v in HY. lia. }
    assert (Sx : (x <? 0) = true) by (apply Z.ltb_lt; lia). assert (Sy : (y <? 0) = true) by (apply Z.ltb_lt; lia).
    assert (Hlt : 0 < da d) by (assert (y' - y = 1 \/ y' - y = 0) as [D|D] by lia; rewrite D in Ev; lia).
    rewrite (addPoint_new d x y O) by (fold v; lia || congruence). cbn zeta. fold v. rewrite Em, Sx. cbn [Z.eqb Pos.eqb negb].
    pose proof (proj2 (proj2 (fits_orders _ _ _ FM))) as LLM. rewrite EM in LLM. cbn [da db dp] in LLM.
    destruct (find_leaning (da d) (db d) (1 - db d - dp d + db d - 1) (- x) B0 LLM) as (K1 & K2 & K3).
    set (k := findK _ _ _ _ _) in *. set (l := Z.quot _ _) in *. rewrite (Z.abs_neq x), (Z.abs_neq y) by lia.
    assert (GR := grow_dec (mirrorXY true d) (- x) (- y) k l FM). rewrite EM in GR. cbn [da db dp] in GR. rewrite <- EM in GR.
    destruct (GR Hlt ltac:(lia) K1 K2 K3 ltac:(unfold v in Em; lia)) as (G1 & G2 & G3). clear GR.
    set (dm := mkDsl _ _ _) in G1, G2, G3.
    assert (Ed : mkDsl (- y - l) (- x - k) ((- y - l) * x - (- x - k) * y) = mirrorXY true dm).
    { rewrite (proj1 (octant_mirror dm (proj1 G1))). unfold dm. cbn [da db dp]. f_equal. lia. }
    rewrite Ed. assert (C : onLine true (mirrorXY true dm) x y) by (apply mirrorXY_points; exact G3).
    pose proof C as C'. unfold onLine in C'. rewrite C'. eexists. split; [reflexivity|]. split.
    + pose proof (fits_mirror _ _ _ G1) as FF. rewrite Z.opp_involutive in FF. change (-0) with 0 in FF. exact FF.
    + split; [|exact C]. intros i j Hi. rewrite mirrorXY_points, (G2 (- i) (- j) ltac:(lia)), mirrorXY_points, !Z.opp_involutive. reflexivity.
  - assert (Em : v = db d) by lia. assert (Hy : y < 0).
    { destruct HY as [HY|HY]; [exact HY|]. rewrite (octant_line d x y O) in HY. fold v in HY. lia. }
    assert (Sx : (x <? 0) = true) by (apply Z.ltb_lt; lia). assert (Sy : (y <? 0) = true) by (apply Z.ltb_lt; lia).
    assert (Hlt : da d < db d) by (assert (y' - y = 1 \/ y' - y = 0) as [D|D] by lia; rewrite D in Ev; lia).
    rewrite (addPoint_new d x y O) by (fold v; lia || congruence). cbn zeta. fold v. rewrite Sx.
    destruct (v =? -1) eqn:E1; [apply Z.eqb_eq in E1; lia|]. cbn [negb].
    pose proof (proj1 (proj2 (fits_orders _ _ _ FM))) as LUM. rewrite EM in LUM. cbn [da db dp] in LUM.
    destruct (find_leaning (da d) (db d) (1 - db d - dp d) (- x) B0 LUM) as (K1 & K2 & K3).
    set (k := findK _ _ _ _ _) in *. set (l := Z.quot _ _) in *. rewrite (Z.abs_neq x), (Z.abs_neq y) by lia.
    assert (GR := grow_inc (mirrorXY true d) (- x) (- y) k l FM). rewrite EM in GR. cbn [da db dp] in GR. rewrite <- EM in GR.
    destruct (GR Hlt ltac:(lia) K1 K2 K3 ltac:(unfold v in Em; lia)) as (G1 & G2 & G3). clear GR.
    set (dm := mkDsl _ _ _) in G1, G2, G3.
    assert (Ed : mkDsl (- y - l) (- x - k) ((- y - l) * x - (- x - k) * y - (- x - k) + 1) = mirrorXY true dm).
    { rewrite (proj1 (octant_mirror dm (proj1 G1))). unfold dm. cbn [da db dp]. f_equal. lia. }
    rewrite Ed. assert (C : onLine true (mirrorXY true dm) x y) by (apply mirrorXY_points; exact G3).
    pose proof C as C'. unfold onLine in C'. rewrite C'. eexists. split; [reflexivity|]. split.
    + pose proof (fits_mirror _ _ _ G1) as FF. rewrite Z.opp_involutive in FF. change (-0) with 0 in FF. exact FF.
    + split; [|exact C]. intros i j Hi. rewrite mirrorXY_points, (G2 (- i) (- j) ltac:(lia)), mirrorXY_points, !Z.opp_involutive. reflexivity.
Qed.

(** what addPoint guarantees for every line and point *)
Theorem addPoint_always eight d x y : match addPoint eight d x y with
  | (Returned true, d') => onLine eight d' x y
  | (Returned false, d') => d' = d
  | _ => True end.
Proof.
  unfold addPoint. destruct (negb (eight && (da d <=? db d) && (0 <=? da d))) eqn:E0; [exact I|]. cbn zeta.
  apply negb_false_iff in E0. apply andb_true_iff in E0 as [E0 E1]. apply andb_true_iff in E0 as [-> E0].
  apply Z.leb_le in E0, E1.
  destruct ((0 <=? dslAt d x y - dp d) && (dslAt d x y - dp d <? db d)) eqn:E.
  { rewrite onLine_iff. apply andb_true_iff in E. rewrite Z.leb_le, Z.ltb_lt in E. unfold dslAt in E. unfold width. lia. }
  destruct (negb _ && negb _); [reflexivity|]. destruct (negb (Bool.eqb _ _)); [exact I|]. destruct (db d =? 0); [exact I|].
  match goal with |- context [dslContains true ?q x y] => destruct (dslContains true q x y) eqn:E2 end; [exact E2|exact I].
Qed.
(** a point next to the line may make the postcondition fail, the line having been changed *)
Theorem addPoint_refuted : exists d x y d', octant d /\ onLine true d 0 0 /\ addPoint true d x y = (Thrown, d') /\ d' <> d.
Proof.
  exists (mkDsl 2 5 (-3)), 1, 0, (mkDsl (-1) (-2) 2). split.
  { split; [cbn; lia|]. split; [cbn; lia|]. apply bezout_rel_prime. apply Bezout_intro with (u := -2) (v := 1). reflexivity. }
  split; [reflexivity|]. split; [reflexivity|discriminate].
Qed.
