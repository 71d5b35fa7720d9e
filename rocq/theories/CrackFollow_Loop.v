(** followEdge: the in-place flags and the walk. *)
From Verif Require Import Base Image_Model Image_Proofs Crack_Model Crack_Spec Crack_Proofs GeoMap_Model CrackFollow_Model CrackFollow_Static.
Local Open Scope Z_scope.

Definition bitOf d : Z := match d with East => 0 | South => 1 | West => 2 | North => 3 end.

Lemma hasBit_pow c i : 0 <= i -> hasBit c (2 ^ i) = Z.testbit c i.
Proof.
  intros Hi. unfold hasBit. destruct (Z.testbit c i) eqn:E.
  - destruct (Z.eqb_spec (Z.land c (2 ^ i)) 0) as [Q|]; [|reflexivity]. exfalso.
    assert (T : Z.testbit (Z.land c (2 ^ i)) i = true) by (rewrite Z.land_spec, E, Z.pow2_bits_true by lia; reflexivity).
    rewrite Q, Z.bits_0 in T. discriminate.
  - destruct (Z.eqb_spec (Z.land c (2 ^ i)) 0) as [|Q]; [reflexivity|]. exfalso; apply Q.
    apply Z.bits_inj'. intros n Hn. rewrite Z.land_spec, Z.bits_0.
    destruct (Z.eq_dec n i) as [->|N]; [rewrite E; reflexivity|]. rewrite Z.pow2_bits_false by lia. apply andb_false_r.
Qed.
Lemma hasBit_conn c d : hasBit c (connOf d) = Z.testbit c (bitOf d).
Proof. destruct d; [exact (hasBit_pow c 0 ltac:(lia))|exact (hasBit_pow c 3 ltac:(lia))|exact (hasBit_pow c 2 ltac:(lia))|exact (hasBit_pow c 1 ltac:(lia))]. Qed.
Lemma hasBit_diag c : hasBit c CONN_DIAG = Z.testbit c 4 || Z.testbit c 5.
Proof.
  rewrite <- (hasBit_pow c 4), <- (hasBit_pow c 5) by lia. unfold hasBit.
  change CONN_DIAG with (Z.lor (2 ^ 4) (2 ^ 5)). rewrite Z.land_lor_distr_r.
  destruct (Z.eqb_spec (Z.land c (2 ^ 4)) 0) as [E|E]; [rewrite E, Z.lor_0_l; reflexivity|].
  cbn [negb orb]. destruct (Z.eqb_spec (Z.lor (Z.land c (2 ^ 4)) (Z.land c (2 ^ 5))) 0) as [Q|Q]; [|reflexivity].
  apply Z.lor_eq_0_iff in Q. destruct Q; contradiction.
Qed.
Lemma hasBit_ul c : hasBit c CONN_DIAG_UPLEFT = Z.testbit c 4. Proof. exact (hasBit_pow c 4 ltac:(lia)). Qed.
Lemma hasBit_node c : hasBit c CONN_NODE = Z.testbit c 6. Proof. exact (hasBit_pow c 6 ltac:(lia)). Qed.
Lemma hasBit_may c : hasBit c CONN_MAYBE_NODE = Z.testbit c 7. Proof. exact (hasBit_pow c 7 ltac:(lia)). Qed.

Lemma testbit_clear c i n : 0 <= i -> 0 <= n -> Z.testbit (Z.land c (Z.lnot (2 ^ i))) n = Z.testbit c n && negb (n =? i).
Proof.
  intros Hi Hn. rewrite Z.land_spec, Z.lnot_spec by lia. f_equal. f_equal. rewrite Z.pow2_bits_eqb by lia. apply Z.eqb_sym.
Qed.
Lemma connOf_pow d : connOf d = 2 ^ bitOf d. Proof. destruct d; reflexivity. Qed.
Lemma bitOf_range d : 0 <= bitOf d < 4. Proof. destruct d; cbn; lia. Qed.
Lemma bitOf_inj a b : bitOf a = bitOf b -> a = b. Proof. destruct a, b; cbn; intros; try reflexivity; lia. Qed.

Lemma land15_zero c : (Z.land c 15 =? 0) = negb (Z.testbit c 0 || Z.testbit c 1 || Z.testbit c 2 || Z.testbit c 3).
Proof.
  pose proof (hasBit_pow c 0 ltac:(lia)) as H0. pose proof (hasBit_pow c 1 ltac:(lia)) as H1.
  pose proof (hasBit_pow c 2 ltac:(lia)) as H2. pose proof (hasBit_pow c 3 ltac:(lia)) as H3.
  rewrite <- H0, <- H1, <- H2, <- H3. unfold hasBit.
  change 15 with (Z.lor (Z.lor (Z.lor (2 ^ 0) (2 ^ 1)) (2 ^ 2)) (2 ^ 3)). rewrite !Z.land_lor_distr_r.
  destruct (Z.eqb_spec (Z.land c (2 ^ 0)) 0) as [E0|E0], (Z.eqb_spec (Z.land c (2 ^ 1)) 0) as [E1|E1],
    (Z.eqb_spec (Z.land c (2 ^ 2)) 0) as [E2|E2], (Z.eqb_spec (Z.land c (2 ^ 3)) 0) as [E3|E3]; cbn [negb orb];
    first [ apply Z.eqb_eq; rewrite E0, E1, E2, E3; reflexivity
          | apply Z.eqb_neq; intro Q; apply Z.lor_eq_0_iff in Q; destruct Q as [Q ?]; apply Z.lor_eq_0_iff in Q;
            destruct Q as [Q ?]; apply Z.lor_eq_0_iff in Q; destruct Q; contradiction ].
Qed.

Section Loop.
Variables (src : image) (eight : bool).
Notation crk := (crk src). Notation crkD := (crkD src). Notation isN := (isN src eight). Notation isD := (isD src eight).
Notation isM := (isM src eight). Notation mate := (mate src eight). Notation nxt := (nxt src eight). Notation corner := (corner src).
Notation chain := (chain src eight).

Definition px (im : image) (p : Z * Z) : Z := ipx im (fst p) (snd p).

(** the flags in crackConnections, given the cracks [P] that have been passed at corners without node *)
Record ccInv (cc : image) (P : dart -> Prop) : Prop := {
  ci_w : iw cc = iw src + 1;
  ci_h : ih cc = ih src + 1;
  ci_ul : forall p, corner p -> Z.testbit (px cc p) 4 = isUL src eight p;
  ci_ur : forall p, corner p -> Z.testbit (px cc p) 5 = isUR src eight p;
  ci_n : forall p, corner p -> Z.testbit (px cc p) 6 = isN p;
  ci_plain : forall p, corner p -> isD p = false -> forall d, Z.testbit (px cc p) (bitOf d) = crk p d;
  ci_diag1 : forall p, corner p -> isD p = true -> forall d, Z.testbit (px cc p) (bitOf d) = true -> ~ P (p, d);
  ci_diag0 : forall p, corner p -> isD p = true -> forall d, Z.testbit (px cc p) (bitOf d) = false -> P (p, d);
  ci_may : forall p, corner p -> Z.testbit (px cc p) 7 = true -> isM p = true /\ (isD p = false -> forall d, ~ P (p, d));
  ci_gone : forall p, corner p -> isM p = true -> Z.testbit (px cc p) 7 = false -> forall d, crk p d = true -> P (p, d) }.

Lemma ccInv_start cc : iw cc = iw src + 1 -> ih cc = ih src + 1 ->
  (forall x y, isCorner src x y -> ipx cc x y = cornerBits src eight x y) -> ccInv cc (fun _ => False).
Proof.
  intros W H V. assert (B : forall p, corner p -> px cc p = cornerBits src eight (fst p) (snd p)) by (intros p C; apply V, C).
  constructor; auto; intros p C; rewrite (B p C);
    destruct (cornerBits_testbits src eight (fst p) (snd p)) as (B0 & B1 & B2 & B3 & B4 & B5 & B6 & B7); auto.
  - intros _ []; assumption.
  - intros D d. destruct (isD_four src eight p D) as (E & S & W' & N & _). unfold crk in *.
    destruct d; cbn [bitOf]; intros F; exfalso; cbn in E, S, W', N; congruence.
  - intros M. split; [unfold isM; congruence|auto].
  - intros M F. unfold CrackFollow_Static.isM in M. congruence.
Qed.

Lemma ccInv_ext cc (P Q : dart -> Prop) : (forall x, P x <-> Q x) -> ccInv cc P -> ccInv cc Q.
Proof.
  intros E [A1 A2 A3 A4 A5 A6 A7 A8 A9 A10]. constructor; auto.
  - intros p C D d T. rewrite <- E. apply A7; auto.
  - intros p C D d T. rewrite <- E. apply A8; auto.
  - intros p C T. destruct (A9 p C T) as [M N]. split; auto. intros D d. rewrite <- E. auto.
  - intros p C M T d K. rewrite <- E. apply A10; auto.
Qed.

Definition addPass (P : dart -> Prop) (q : Z * Z) (c c' : dir4) : dart -> Prop := fun x => P x \/ x = (q, c) \/ x = (q, c').

Lemma px_set cc q v p : px (setPx cc (fst q) (snd q) v) p = if (fst p =? fst q) && (snd p =? snd q) then v else px cc p.
Proof. reflexivity. Qed.
Lemma same_corner (p q : Z * Z) : (fst p =? fst q) && (snd p =? snd q) = true <-> p = q.
Proof.
  destruct p as [a b], q as [c e]; cbn [fst snd]. rewrite andb_true_iff, !Z.eqb_eq. split; [intros [-> ->]; reflexivity|intros H; injection H; auto].
Qed.

(** a corner is rewritten with a new value *)
Lemma ccInv_set cc P q c c' v : ccInv cc P -> corner q ->
  Z.testbit v 4 = isUL src eight q -> Z.testbit v 5 = isUR src eight q -> Z.testbit v 6 = isN q ->
  (isD q = false -> forall d, Z.testbit v (bitOf d) = crk q d) ->
  (isD q = true -> forall d, Z.testbit v (bitOf d) = true -> ~ addPass P q c c' (q, d)) ->
  (isD q = true -> forall d, Z.testbit v (bitOf d) = false -> addPass P q c c' (q, d)) ->
  (Z.testbit v 7 = true -> isM q = true /\ (isD q = false -> forall d, ~ addPass P q c c' (q, d))) ->
  (isM q = true -> Z.testbit v 7 = false -> forall d, crk q d = true -> addPass P q c c' (q, d)) ->
  ccInv (setPx cc (fst q) (snd q) v) (addPass P q c c').
Proof.
  intros [A1 A2 A3 A4 A5 A6 A7 A8 A9 A10] Cq B3 B4 B5 B6 B7 B8 B9 B10.
  assert (O : forall p d, p <> q -> (addPass P q c c' (p, d) <-> P (p, d))).
  { intros p d N. unfold addPass. split; [|auto]. intros [H|[H|H]]; auto; injection H; intros; contradiction. }
  constructor; auto.
  - intros p C. rewrite px_set. destruct (_ && _) eqn:E; [apply same_corner in E; subst; assumption|auto].
  - intros p C. rewrite px_set. destruct (_ && _) eqn:E; [apply same_corner in E; subst; assumption|auto].
  - intros p C. rewrite px_set. destruct (_ && _) eqn:E; [apply same_corner in E; subst; assumption|auto].
  - intros p C. rewrite px_set. destruct (_ && _) eqn:E; [apply same_corner in E; subst; assumption|auto].
  - intros p C. rewrite px_set. destruct (_ && _) eqn:E; [apply same_corner in E; subst; assumption|].
    intros D d T. rewrite O; [auto|]. intros Q; apply same_corner in Q; congruence.
  - intros p C. rewrite px_set. destruct (_ && _) eqn:E; [apply same_corner in E; subst; assumption|].
    intros D d T. rewrite O; [auto|]. intros Q; apply same_corner in Q; congruence.
  - intros p C. rewrite px_set. destruct (_ && _) eqn:E; [apply same_corner in E; subst; assumption|].
    intros T. destruct (A9 p C T) as [M N]. split; auto. intros D d. rewrite O; [auto|]. intros Q; apply same_corner in Q; congruence.
  - intros p C. rewrite px_set. destruct (_ && _) eqn:E; [apply same_corner in E; subst; assumption|].
    intros M T d K. rewrite O; [auto|]. intros Q; apply same_corner in Q; congruence.
Qed.

(** the value written when a diagonal corner is passed *)
Definition passedDiag (conn : Z) (c c' : dir4) : Z :=
  let conn := Z.land (Z.land conn (Z.lnot (connOf c))) (Z.lnot (connOf c')) in
  if Z.land conn CONN_ALL4 =? 0 then Z.land conn (Z.lnot CONN_MAYBE_NODE) else conn.

Lemma pass_diag cc P q c c' : ccInv cc P -> corner q -> isD q = true ->
  ccInv (setPx cc (fst q) (snd q) (passedDiag (px cc q) c c')) (addPass P q c c').
Proof.
  intros I C D. pose proof I as [A1 A2 A3 A4 A5 A6 A7 A8 A9 A10].
  set (u := Z.land (Z.land (px cc q) (Z.lnot (connOf c))) (Z.lnot (connOf c'))).
  assert (U : forall n, 0 <= n -> Z.testbit u n = Z.testbit (px cc q) n && negb (n =? bitOf c) && negb (n =? bitOf c')).
  { intros n Hn. unfold u. rewrite !connOf_pow, !testbit_clear by (try apply bitOf_range; lia). reflexivity. }
  assert (Hi : forall n, 4 <= n -> Z.testbit u n = Z.testbit (px cc q) n).
  { intros n Hn. rewrite U by lia. pose proof (bitOf_range c). pose proof (bitOf_range c').
    destruct (Z.eqb_spec n (bitOf c)); [lia|]. destruct (Z.eqb_spec n (bitOf c')); [lia|]. rewrite !andb_true_r. reflexivity. }
  set (v := passedDiag (px cc q) c c').
  assert (V : forall n, 0 <= n -> n <> 7 -> Z.testbit v n = Z.testbit u n).
  { intros n Hn N7. unfold v, passedDiag. fold u. destruct (_ =? 0); [|reflexivity].
    change CONN_MAYBE_NODE with (2 ^ 7). rewrite testbit_clear by lia. destruct (Z.eqb_spec n 7); [lia|]. apply andb_true_r. }
  assert (Vd : forall d, Z.testbit v (bitOf d) = Z.testbit (px cc q) (bitOf d) && negb (bitOf d =? bitOf c) && negb (bitOf d =? bitOf c')).
  { intros d. pose proof (bitOf_range d). rewrite V by lia. apply U; lia. }
  assert (V7 : Z.testbit v 7 = false -> Z.testbit (px cc q) 7 = false \/ forall d, Z.testbit v (bitOf d) = false).
  { intros F. unfold v, passedDiag in F. fold u in F. destruct (Z.land u CONN_ALL4 =? 0) eqn:E.
    - right. intros d. pose proof (bitOf_range d). rewrite V by lia. change CONN_ALL4 with 15 in E. rewrite land15_zero in E.
      apply negb_true_iff in E. rewrite !orb_false_iff in E. destruct d; cbn [bitOf]; tauto.
    - left. rewrite Hi in F by lia. exact F. }
  assert (K : forall d, Z.testbit v (bitOf d) = false -> addPass P q c c' (q, d)).
  { intros d T. rewrite Vd in T. unfold addPass.
    destruct (Z.testbit (px cc q) (bitOf d)) eqn:E; [|left; apply A8; auto].
    destruct (Z.eqb_spec (bitOf d) (bitOf c)) as [E1|E1]; [apply bitOf_inj in E1; subst; auto|].
    destruct (Z.eqb_spec (bitOf d) (bitOf c')) as [E2|E2]; [apply bitOf_inj in E2; subst; auto|]. discriminate T. }
  apply ccInv_set; auto; fold v.
  - rewrite V, Hi by lia. auto.
  - rewrite V, Hi by lia. auto.
  - rewrite V, Hi by lia. auto.
  - congruence.
  - intros _ d T. rewrite Vd in T. apply andb_true_iff in T as [T T3]. apply andb_true_iff in T as [T1 T2].
    intros [H|[H|H]].
    + exact (A7 q C D d T1 H).
    + injection H as ->. rewrite Z.eqb_refl in T2. discriminate.
    + injection H as ->. rewrite Z.eqb_refl in T3. discriminate.
  - intros _. split; [apply (isD_four src eight q D)|congruence].
  - intros M T d Kd. destruct (V7 T) as [F|F]; [left; apply A10; auto|apply K, F].
Qed.

(** passing over another corner without node *)
Lemma pass_plain cc P q c : ccInv cc P -> corner q -> isD q = false -> isN q = false -> crk q c = true ->
  let cc' := if hasBit (px cc q) CONN_MAYBE_NODE then setPx cc (fst q) (snd q) (Z.land (px cc q) (Z.lnot CONN_MAYBE_NODE)) else cc in
  ccInv cc' (addPass P q c (mate q c)).
Proof.
  intros I C D N Kc cc'. pose proof I as [A1 A2 A3 A4 A5 A6 A7 A8 A9 A10].
  destruct (mate_spec src eight q c N Kc) as (M1 & M2 & M3 & M4).
  assert (All : forall d, crk q d = true -> addPass P q c (mate q c) (q, d)).
  { intros d Kd. destruct (M4 D d Kd) as [->|E]; unfold addPass; auto. rewrite E; auto. }
  unfold cc'. rewrite hasBit_may. destruct (Z.testbit (px cc q) 7) eqn:E7.
  - assert (V : forall n, 0 <= n -> n <> 7 -> Z.testbit (Z.land (px cc q) (Z.lnot CONN_MAYBE_NODE)) n = Z.testbit (px cc q) n).
    { intros n Hn N7. change CONN_MAYBE_NODE with (2 ^ 7). rewrite testbit_clear by lia. destruct (Z.eqb_spec n 7); [lia|]. apply andb_true_r. }
    assert (V7 : Z.testbit (Z.land (px cc q) (Z.lnot CONN_MAYBE_NODE)) 7 = false).
    { change CONN_MAYBE_NODE with (2 ^ 7). rewrite testbit_clear by lia. cbn [Z.eqb Pos.eqb negb]. apply andb_false_r. }
    apply ccInv_set; auto.
    + rewrite V by lia. auto.
    + rewrite V by lia. auto.
    + rewrite V by lia. auto.
    + intros _ d. pose proof (bitOf_range d). rewrite V by lia. auto.
    + congruence.
    + congruence.
    + rewrite V7. discriminate.
  - assert (O : forall p d, p <> q -> (addPass P q c (mate q c) (p, d) <-> P (p, d))).
    { intros p d Np. unfold addPass. split; [|auto]. intros [H|[H|H]]; auto; injection H; intros; contradiction. }
    assert (Q : forall p, {p = q} + {p <> q}) by (intros p; decide equality; apply Z.eq_dec).
    constructor; auto.
    + intros p Cp Dp d T. destruct (Q p) as [->|Np]; [congruence|]. rewrite O by exact Np. auto.
    + intros p Cp Dp d T. destruct (Q p) as [->|Np]; [congruence|]. rewrite O by exact Np. auto.
    + intros p Cp T. destruct (Q p) as [->|Np]; [congruence|]. destruct (A9 p Cp T) as [M5 M6]. split; auto.
      intros Dp d. rewrite O by exact Np. auto.
    + intros p Cp Mp T d Kd. destruct (Q p) as [->|Np]; [apply All, Kd|]. rewrite O by exact Np. auto.
Qed.

(** routing *)
Lemma turnWhile_mate cc P q d : ccInv cc P -> corner q -> isD q = false -> isN q = false -> crk q (opposite d) = true ->
  turnWhile 4 (px cc q) (turnRight d) = Ok (mate q (opposite d)).
Proof.
  intros I C D N K. pose proof (ci_plain _ _ I q C D) as B.
  assert (T : forall e, (Z.land (px cc q) (connOf e) =? 0) = negb (crk q e)).
  { intros e. rewrite <- B, <- hasBit_conn. unfold hasBit. rewrite negb_involutive. reflexivity. }
  assert (U : isUL src eight q = false /\ isUR src eight q = false).
  { unfold CrackFollow_Static.isD in D. apply orb_false_iff, D. }
  unfold CrackFollow_Static.mate. destruct U as [-> ->]. rewrite opposite_opposite. cbn [turnWhile]. rewrite !T.
  assert (R : turnLeft (turnRight d) = d) by (destruct d; reflexivity). rewrite R.
  assert (L : turnLeft (turnLeft d) = opposite d) by (destruct d; reflexivity). rewrite L.
  destruct (crk q (turnRight d)); [reflexivity|]. cbn [negb]. destruct (crk q d); [reflexivity|]. cbn [negb].
  destruct (crk q (turnLeft d)); [reflexivity|]. rewrite K. reflexivity.
Qed.

Lemma diag_mate cc P q d : ccInv cc P -> corner q -> isD q = true ->
  (if (if hasBit (px cc q) CONN_DIAG_UPLEFT then match d with North | South => true | _ => false end
       else match d with East | West => true | _ => false end) then turnLeft d else turnRight d) = mate q (opposite d).
Proof.
  intros I C D. rewrite hasBit_ul, (ci_ul _ _ I q C). unfold CrackFollow_Static.mate. unfold CrackFollow_Static.isD in D.
  destruct (isUL src eight q), (isUR src eight q); try discriminate D; destruct d; reflexivity.
Qed.

(** ** The walk *)
Definition pt (p : Z * Z) : point := (2 * fst p - 1, 2 * snd p - 1).
(** cracks passed by a walk: all but the first and, reversed, all but the last *)
Definition passes (w : list dart) (x : dart) : Prop := In x (tl w) \/ In (rv x) (removelast w).
Definition walkPts (w : list dart) : list point := map (fun x => pt (fst x)) w ++ [pt (tgt (last w ((0, 0), East)))].

Lemma dirPt_mv : forall p d, (fst (pt p) + 2 * fst (dirVector d), snd (pt p) + 2 * snd (dirVector d)) = pt (mv p d).
Proof. intros [x y] []; unfold pt, mv; cbn [dirVector dirDiff fst snd]; f_equal; lia. Qed.

Lemma tgt_corner x : crkD x = true -> corner (tgt x).
Proof. intros K. rewrite <- crkD_rv in K. apply (crk_corner src _ _ K). Qed.

Lemma chain_app s w a b : chain s (w ++ [a]) -> link src eight s a b -> chain s (w ++ [a; b]).
Proof.
  induction w as [|u w IH]; cbn [app CrackFollow_Static.chain]; intros C L; [auto|].
  destruct w as [|v w]; cbn [app] in *; [split; [apply C|]; split; [exact L|exact I]|].
  split; [apply C|]. apply IH; [apply C|exact L].
Qed.

Lemma followLoop_spec (s : Z * Z) (U : dart -> Prop) :
  (forall y, crkD y = true -> ~ U y -> isN (tgt y) = false -> tgt y <> s -> ~ U (nxt y)) ->
  forall n w x cc P acc,
  ccInv cc P -> chain s (w ++ [x]) -> (forall y, hd_error (w ++ [x]) = Some y -> fst y = s) ->
  (forall y, In y (w ++ [x]) -> crkD y = true /\ ~ U y) ->
  acc = map (fun y => pt (fst y)) (w ++ [x]) ->
  (length (allDarts src) < n + length w)%nat ->
  exists w2 cc', let W := w ++ x :: w2 in let l := last (x :: w2) x in
    followLoop n cc (fst s) (snd s) (fst (fst x)) (snd (fst x)) (pt (fst x)) (snd x) acc
      = Ok (cc', tgt l, opposite (snd l), map (fun y => pt (fst y)) W ++ [pt (tgt l)]) /\
    chain s W /\ (tgt l = s \/ isN (tgt l) = true) /\ (forall y, In y W -> crkD y = true /\ ~ U y) /\
    ccInv cc' (fun y => P y \/ passes (x :: w2) y).
Proof.
  intros Hfree. induction n as [|n IH]; intros w x cc P acc I Cw H0 Kw Eacc Hn.
  { exfalso. destruct (chain_simple src eight s (w ++ [x]) Cw) as [ND _]; auto.
    { intros y Hy; apply Kw, Hy. }
    assert (Len : (length (w ++ [x]) <= length (allDarts src))%nat).
    { apply NoDup_incl_length; auto. intros y Hy. apply allDarts_In, Kw, Hy. }
    rewrite app_length in Len. cbn in Len. lia. }
  assert (Kx : crkD x = true) by (apply Kw, in_or_app; right; left; reflexivity).
  assert (Ux : ~ U x) by (apply (Kw x), in_or_app; right; left; reflexivity).
  pose proof (tgt_corner x Kx) as Cq. set (q := tgt x) in *.
  cbn [followLoop].
  rewrite (dirPt_mv (fst x) (snd x)). change (mv (fst x) (snd x)) with q.
  change (fst (fst x) + fst (dirDiff (snd x))) with (fst q). change (snd (fst x) + snd (dirDiff (snd x))) with (snd q).
  assert (Stop : forall cc0, ccInv cc0 P -> (q = s \/ isN q = true) ->
    exists w2 cc', let W := w ++ x :: w2 in let l := last (x :: w2) x in
    Ok (cc0, (fst q, snd q), opposite (snd x), acc ++ [pt q])
      = Ok (cc', tgt l, opposite (snd l), map (fun y => pt (fst y)) W ++ [pt (tgt l)]) /\
    chain s W /\ (tgt l = s \/ isN (tgt l) = true) /\ (forall y, In y W -> crkD y = true /\ ~ U y) /\
    ccInv cc' (fun y => P y \/ passes (x :: w2) y)).
  { intros cc0 I0 Hq. exists [], cc0. cbn zeta. cbn [last]. fold q. rewrite Eacc, <- (surjective_pairing q).
    split; [reflexivity|]. split; [exact Cw|]. split; [exact Hq|]. split; [exact Kw|].
    eapply ccInv_ext; [|exact I0]. intros y. unfold passes; cbn. tauto. }
  destruct ((fst q =? fst s) && (snd q =? snd s)) eqn:Es.
  { apply Stop; [exact I|]. left. apply same_corner, Es. }
  assert (Nqs : q <> s) by (intro; apply same_corner in H; congruence).
  rewrite getPx_Ok by (rewrite ?(ci_w _ _ I), ?(ci_h _ _ I); destruct Cq; lia). cbn [bind].
  change (ipx cc (fst q) (snd q)) with (px cc q).
  rewrite hasBit_diag, (ci_ul _ _ I q Cq), (ci_ur _ _ I q Cq). change (isUL src eight q || isUR src eight q) with (isD q).
  assert (Kc : crk q (opposite (snd x)) = true).
  { pose proof Kx as K2. rewrite <- crkD_rv in K2. exact K2. }
  (* the step to the next crack *)
  assert (Go : forall cc1, isN q = false -> ccInv cc1 (addPass P q (opposite (snd x)) (mate q (opposite (snd x)))) ->
    exists w2 cc', let W := w ++ x :: w2 in let l := last (x :: w2) x in
    followLoop n cc1 (fst s) (snd s) (fst q) (snd q) (pt q) (mate q (opposite (snd x))) (acc ++ [pt q])
      = Ok (cc', tgt l, opposite (snd l), map (fun y => pt (fst y)) W ++ [pt (tgt l)]) /\
    chain s W /\ (tgt l = s \/ isN (tgt l) = true) /\ (forall y, In y W -> crkD y = true /\ ~ U y) /\
    ccInv cc' (fun y => P y \/ passes (x :: w2) y)).
  { intros cc1 Nq I1. set (x' := nxt x).
    assert (Ex : x' = (q, mate q (opposite (snd x)))) by reflexivity.
    destruct (IH (w ++ [x]) x' cc1 _ (acc ++ [pt q]) I1) as (w2 & cc' & E & C2 & T2 & K2 & I2).
    - rewrite <- app_assoc. apply chain_app; [exact Cw|]. split; [exact Nq|]. split; [exact Nqs|reflexivity].
    - intros y Hy. apply H0. destruct w; exact Hy.
    - intros y Hy. apply in_app_or in Hy as [Hy|[<-|[]]]; [apply Kw, Hy|]. split.
      + apply crk_nxt; auto.
      + apply Hfree; auto.
    - rewrite map_app. cbn [map]. rewrite Ex; cbn [fst]. rewrite <- Eacc. reflexivity.
    - rewrite app_length. cbn [length]. lia.
    - exists (x' :: w2), cc'. cbn zeta.
      assert (EL : last (x :: x' :: w2) x = last (x' :: w2) x').
      { change (last (x :: x' :: w2) x) with (last (x' :: w2) x). clear. revert x'. induction w2 as [|a w2 IH]; intros b; [reflexivity|].
        change (last (a :: w2) x = last (a :: w2) b). destruct w2; [reflexivity|]. apply IH. }
      assert (EW : (w ++ [x]) ++ x' :: w2 = w ++ x :: x' :: w2) by (rewrite <- app_assoc; reflexivity).
      rewrite EL. rewrite EW in *. split; [exact E|]. split; [exact C2|]. split; [exact T2|]. split; [exact K2|].
      eapply ccInv_ext; [|exact I2]. intros y. unfold addPass, passes. cbn [tl].
      change (removelast (x :: x' :: w2)) with (x :: removelast (x' :: w2)). cbn [In].
      rewrite <- Ex.
      assert (R : y = (q, opposite (snd x)) <-> x = rv y).
      { change (q, opposite (snd x)) with (rv x). split; [intros ->; rewrite rv_rv; reflexivity|intros E2; rewrite E2, rv_rv; reflexivity]. }
      rewrite R. split; [intros [[A|[A|A]]|[A|A]]; auto|intros [A|[[A|A]|[A|A]]]; auto]. }
  destruct (isD q) eqn:D.
  - rewrite (diag_mate cc P q (snd x) I Cq D).
    rewrite putPx_Ok by (rewrite ?(ci_w _ _ I), ?(ci_h _ _ I); destruct Cq; lia). cbn [bind].
    apply Go; [apply (isD_four src eight q D)|].
    change (ccInv (setPx cc (fst q) (snd q) (passedDiag (px cc q) (opposite (snd x)) (mate q (opposite (snd x)))))
      (addPass P q (opposite (snd x)) (mate q (opposite (snd x))))).
    apply pass_diag; auto.
  - rewrite hasBit_node, (ci_n _ _ I q Cq).
    destruct (isN q) eqn:N; [apply Stop; auto|].
    rewrite putPx_Ok by (rewrite ?(ci_w _ _ I), ?(ci_h _ _ I); destruct Cq; lia).
    pose proof (pass_plain cc P q (opposite (snd x)) I Cq D N Kc) as I1. cbn zeta in I1.
    set (cc1 := if hasBit (px cc q) CONN_MAYBE_NODE then _ else cc) in I1.
    assert (E1 : (if hasBit (px cc q) CONN_MAYBE_NODE
      then Ok (setPx cc (fst q) (snd q) (Z.land (px cc q) (Z.lnot CONN_MAYBE_NODE))) else Ok cc) = Ok cc1).
    { unfold cc1. destruct (hasBit _ _); reflexivity. }
    rewrite E1. cbn [bind].
    rewrite (turnWhile_mate cc P q (snd x) I Cq D N Kc). cbn [bind].
    apply Go; auto.
Qed.

(** followEdge started with an unused crack of corner [s] *)
Lemma followEdge_spec (s : Z * Z) d (U : dart -> Prop) cc P : 0 <= iw src -> 0 <= ih src ->
  ccInv cc P -> crk s d = true -> ~ U (s, d) ->
  (forall y, crkD y = true -> ~ U y -> isN (tgt y) = false -> tgt y <> s -> ~ U (nxt y)) ->
  exists w2 cc', let W := (s, d) :: w2 in let l := last W (s, d) in
    followEdge cc (fst s) (snd s) d = Ok (cc', tgt l, opposite (snd l), map (fun y => pt (fst y)) W ++ [pt (tgt l)]) /\
    chain s W /\ (tgt l = s \/ isN (tgt l) = true) /\ (forall y, In y W -> crkD y = true /\ ~ U y) /\
    ccInv cc' (fun y => P y \/ passes W y).
Proof.
  intros Hw Hh I K Us Hfree. unfold followEdge.
  destruct (followLoop_spec s U Hfree (followFuel cc) [] (s, d) cc P [pt s]) as (w2 & cc' & H); auto.
  - cbn; exact Logic.I.
  - intros y Hy. injection Hy as <-. reflexivity.
  - intros y [<-|[]]. split; assumption.
  - unfold followFuel. rewrite allDarts_length by assumption. rewrite (ci_w _ _ I), (ci_h _ _ I). cbn [length]. lia.
  - exists w2, cc'. exact H.
Qed.
End Loop.
