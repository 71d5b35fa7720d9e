(** Directed cracks, the pairing of cracks at corners that need no node, and chains of paired cracks. *)
From Verif Require Import Base Image_Model Image_Proofs Crack_Model Crack_Spec Crack_Proofs GeoMap_Model CrackFollow_Model.
Local Open Scope Z_scope.

Notation dart := ((Z * Z) * dir4)%type.
Definition mv (p : Z * Z) (d : dir4) : Z * Z := (fst p + fst (dirDiff d), snd p + snd (dirDiff d)).
Definition tgt (x : dart) : Z * Z := mv (fst x) (snd x).
Definition rv (x : dart) : dart := (tgt x, opposite (snd x)).

Lemma opposite_opposite d : opposite (opposite d) = d. Proof. destruct d; reflexivity. Qed.
Lemma opposite_inj a b : opposite a = opposite b -> a = b. Proof. destruct a, b; cbn; congruence. Qed.
Lemma mv_opposite p d : mv (mv p d) (opposite d) = p.
Proof. destruct p as [x y]; destruct d; unfold mv; cbn; f_equal; lia. Qed.
Lemma rv_rv x : rv (rv x) = x.
Proof. destruct x as [p d]. unfold rv, tgt; cbn [fst snd]. rewrite mv_opposite, opposite_opposite. reflexivity. Qed.
Lemma rv_inj x y : rv x = rv y -> x = y.
Proof. intros H. rewrite <- (rv_rv x), <- (rv_rv y), H. reflexivity. Qed.
Lemma fst_rv x : fst (rv x) = tgt x. Proof. reflexivity. Qed.
Lemma tgt_rv x : tgt (rv x) = fst x. Proof. unfold rv, tgt; cbn [fst snd]. apply mv_opposite. Qed.
Lemma mv_neq p d : mv p d <> p.
Proof. destruct p as [x y]; destruct d; unfold mv; cbn; intros H; injection H; lia. Qed.
Lemma rv_neq x : rv x <> x.
Proof. intros H. apply (mv_neq (fst x) (snd x)). change (tgt x = fst x). rewrite <- fst_rv, H. reflexivity. Qed.
Lemma dir4_eq_dec (a b : dir4) : {a = b} + {a <> b}. Proof. decide equality. Qed.

Section Static.
Variables (src : image) (eight : bool).

Definition corner (p : Z * Z) : Prop := isCorner src (fst p) (snd p).
Definition crk (p : Z * Z) (d : dir4) : bool :=
  match d with
  | East => crackEast src (fst p) (snd p) | South => crackSouth src (fst p) (snd p)
  | West => crackWest src (fst p) (snd p) | North => crackNorth src (fst p) (snd p)
  end.
Definition crkD (x : dart) : bool := crk (fst x) (snd x).
Definition isN p := needsNode src eight (fst p) (snd p).
Definition isUL p := joinsUpLeft src eight (fst p) (snd p).
Definition isUR p := joinsUpRight src eight (fst p) (snd p).
Definition isD p := isUL p || isUR p.
Definition isM p := mayStart src eight (fst p) (snd p).

Lemma crkD_rv x : crkD (rv x) = crkD x.
Proof.
  destruct x as [[a b] d]. unfold crkD, rv, tgt, mv; cbn [fst snd].
  destruct d; cbn [dirDiff opposite fst snd crk].
  - rewrite (proj1 (crack_shared src a b)). f_equal; lia.
  - pose proof (proj2 (crack_shared src a (b + -1))) as E. replace (a + 0) with a by lia. rewrite E. f_equal; lia.
  - pose proof (proj1 (crack_shared src (a + -1) b)) as E.
    replace (b + 0) with b by lia. rewrite E. f_equal; lia.
  - rewrite (proj2 (crack_shared src a b)). f_equal; lia.
Qed.

Lemma crk_corner p d : crk p d = true -> corner p.
Proof.
  destruct p as [x y]. unfold corner, isCorner; cbn [fst snd].
  assert (A : forall a b c e, differ (labelAt src a b) (labelAt src c e) = true ->
     (0 <= a < iw src /\ 0 <= b < ih src) \/ (0 <= c < iw src /\ 0 <= e < ih src)).
  { intros a b c e H.
    assert (Q : forall u v, {0 <= u < iw src /\ 0 <= v < ih src} + {~ (0 <= u < iw src /\ 0 <= v < ih src)}).
    { intros u v. destruct (Z_le_dec 0 u), (Z_lt_dec u (iw src)), (Z_le_dec 0 v), (Z_lt_dec v (ih src)); try (right; lia); left; lia. }
    destruct (Q a b); [left; assumption|]. destruct (Q c e); [right; assumption|].
    rewrite !labelAt_out in H by assumption. discriminate. }
  destruct d; cbn [crk fst snd]; intros H; apply A in H; lia.
Qed.

(** the crack by which a chain arriving through crack [d] leaves *)
Definition mate (p : Z * Z) (d : dir4) : dir4 :=
  if isUL p then match d with North => East | East => North | South => West | West => South end
  else if isUR p then match d with North => West | West => North | South => East | East => South end
  else let c := opposite d in
       if crk p (turnRight c) then turnRight c else if crk p c then c else if crk p (turnLeft c) then turnLeft c else d.

Lemma isD_four p : isD p = true -> crk p East = true /\ crk p South = true /\ crk p West = true /\ crk p North = true /\ isN p = false /\ isM p = true.
Proof.
  unfold isD, isUL, isUR, isN, isM, crk.
  rewrite (proj1 (joins_diagonal src eight (fst p) (snd p))). intros H.
  assert (C : cracksAt src (fst p) (snd p) = 4).
  { apply andb_true_iff in H; destruct H as [_ H]. unfold diagonalAt in H. apply andb_true_iff in H; destruct H as [H _].
    apply Z.eqb_eq, H. }
  unfold mayStart, needsNode. rewrite H. cbn [negb]. rewrite andb_false_r, orb_true_r. cbn [negb andb].
  unfold cracksAt in C.
  destruct (crackEast _ _ _), (crackSouth _ _ _), (crackWest _ _ _), (crackNorth _ _ _); repeat split; lia.
Qed.

Lemma notN_two p : isN p = false -> isD p = false -> cracksAt src (fst p) (snd p) <= 2.
Proof.
  unfold isN, isD, isUL, isUR, needsNode. rewrite (proj1 (joins_diagonal src eight (fst p) (snd p))). intros H1 H2.
  rewrite H2 in H1. cbn [negb] in H1. rewrite andb_true_r in H1. apply Z.leb_gt in H1. lia.
Qed.

Lemma mate_spec p d : isN p = false -> crk p d = true ->
  crk p (mate p d) = true /\ mate p d <> d /\ mate p (mate p d) = d /\
  (isD p = false -> forall e, crk p e = true -> e = d \/ e = mate p d).
Proof.
  intros HN Hd. destruct (isD p) eqn:HD.
  - destruct (isD_four p HD) as (E & S & W & N & _). unfold isD in HD. unfold mate.
    destruct (isUL p), (isUR p); try discriminate HD; destruct d; repeat split; auto; try discriminate.
  - pose proof (notN_two p HN HD) as C2. pose proof (cracksAt_cases src (fst p) (snd p)) as C4.
    assert (U : isUL p = false /\ isUR p = false) by (unfold isD in HD; destruct (isUL p), (isUR p); auto).
    unfold mate. destruct U as [-> ->]. unfold crk in *. unfold cracksAt in *.
    destruct (crackEast _ _ _), (crackSouth _ _ _), (crackWest _ _ _), (crackNorth _ _ _); cbn in C2, C4; try lia;
      try (exfalso; intuition lia); destruct d; try discriminate Hd; cbn; repeat split; auto; try discriminate;
      intros _ [] ?; auto; discriminate.
Qed.

(** ** Chains *)
Definition nxt (x : dart) : dart := (tgt x, mate (tgt x) (opposite (snd x))).
Definition link (s : Z * Z) (a b : dart) : Prop := isN (tgt a) = false /\ tgt a <> s /\ b = nxt a.
Fixpoint chain (s : Z * Z) (l : list dart) : Prop :=
  match l with
  | a :: ((b :: _) as t) => link s a b /\ chain s t
  | _ => True
  end.

Lemma crk_nxt x : crkD x = true -> isN (tgt x) = false -> crkD (nxt x) = true.
Proof.
  intros Hx HN. rewrite <- crkD_rv in Hx. unfold crkD, rv in Hx; cbn [fst snd] in Hx.
  unfold crkD, nxt; cbn [fst snd]. apply (mate_spec _ _ HN Hx).
Qed.
(** going back *)
Lemma nxt_rv_nxt x : crkD x = true -> isN (tgt x) = false -> nxt (rv (nxt x)) = rv x.
Proof.
  intros Hx HN. rewrite <- crkD_rv in Hx. unfold crkD, rv in Hx; cbn [fst snd] in Hx.
  unfold nxt at 1. rewrite tgt_rv. unfold rv at 1; cbn [snd]. rewrite opposite_opposite. unfold nxt; cbn [fst snd].
  rewrite (proj1 (proj2 (proj2 (mate_spec _ _ HN Hx)))). reflexivity.
Qed.
Lemma nxt_inj x y : crkD x = true -> crkD y = true -> isN (tgt x) = false -> isN (tgt y) = false -> nxt x = nxt y -> x = y.
Proof.
  intros Hx Hy Nx Ny E. apply rv_inj. rewrite <- (nxt_rv_nxt x Hx Nx), <- (nxt_rv_nxt y Hy Ny), E. reflexivity.
Qed.
Lemma nxt_not_rv x : crkD x = true -> isN (tgt x) = false -> nxt x <> rv x.
Proof.
  intros Hx HN E. rewrite <- crkD_rv in Hx. unfold crkD, rv in Hx; cbn [fst snd] in Hx.
  apply (proj1 (proj2 (mate_spec _ _ HN Hx))). unfold nxt, rv in E. injection E as E. exact E.
Qed.

Lemma chain_nth s l : chain s l -> forall i a b, nth_error l i = Some a -> nth_error l (S i) = Some b -> link s a b.
Proof.
  induction l as [|u t IH]; intros C i a b Ha Hb; [destruct i; discriminate|].
  destruct i as [|i].
  - cbn in Ha. injection Ha as <-. destruct t as [|v t']; [discriminate|]. cbn in Hb. injection Hb as <-. apply C.
  - cbn [nth_error] in Ha, Hb. destruct t as [|v t']; [destruct i; discriminate|]. apply (IH (proj2 C) i); assumption.
Qed.

Lemma nth_pred {A} (l : list A) i b : nth_error l (S i) = Some b -> exists a, nth_error l i = Some a.
Proof.
  intros H. destruct (nth_error l i) eqn:E; [eauto|]. apply nth_error_None in E.
  assert (S i < length l)%nat by (apply nth_error_Some; congruence). lia.
Qed.

Lemma chain_simple s l : chain s l -> (forall x, In x l -> crkD x = true) -> (forall x, hd_error l = Some x -> fst x = s) ->
  NoDup l /\ forall a b, In a l -> In b l -> a <> rv b.
Proof.
  intros C K H0.
  assert (D : forall i j a, (i < j)%nat -> nth_error l i = Some a -> nth_error l j = Some a -> False).
  { induction i as [|i IH]; intros j a Hij Ha Hb.
    - destruct j as [|j]; [lia|]. destruct (nth_pred _ _ _ Hb) as [b Eb].
      destruct (chain_nth s l C j b a Eb Hb) as (N & T & E).
      apply T. rewrite <- (H0 a). { rewrite E; reflexivity. } { destruct l; [discriminate|exact Ha]. }
    - destruct j as [|j]; [lia|]. destruct (nth_pred _ _ _ Ha) as [a1 E1]. destruct (nth_pred _ _ _ Hb) as [b1 E2].
      destruct (chain_nth s l C i a1 a E1 Ha) as (N1 & T1 & X1). destruct (chain_nth s l C j b1 a E2 Hb) as (N2 & T2 & X2).
      assert (a1 = b1). { apply nxt_inj; auto; try congruence; apply K; eapply nth_error_In; eassumption. }
      subst b1. apply (IH j a1); auto; lia. }
  assert (R : forall k i j a b, (j = i + k)%nat -> nth_error l i = Some a -> nth_error l j = Some b -> a = rv b -> False).
  { intros k. induction k as [k IH] using lt_wf_ind. intros i j a b Hj Ha Hb E.
    destruct k as [|[|k]].
    - replace j with i in Hb by lia. rewrite Ha in Hb; injection Hb as ->. symmetry in E; exact (rv_neq b E).
    - replace j with (S i) in Hb by lia. destruct (chain_nth s l C i a b Ha Hb) as (N & T & X).
      apply (nxt_not_rv a); auto. { apply K; eapply nth_error_In; eassumption. }
      rewrite <- X, E, rv_rv. reflexivity.
    - assert (Hlen : (j < length l)%nat) by (apply nth_error_Some; congruence).
      destruct (nth_error l (S i)) as [a'|] eqn:Ea'; [|apply nth_error_None in Ea'; lia].
      destruct j as [|j]; [lia|]. destruct (nth_pred _ _ _ Hb) as [b' Eb'].
      destruct (chain_nth s l C i a a' Ha Ea') as (N & T & X). destruct (chain_nth s l C j b' b Eb' Hb) as (N2 & T2 & X2).
      assert (Q : a' = rv b').
      { rewrite X, E, X2. apply nxt_rv_nxt; [apply K; eapply nth_error_In; eassumption|exact N2]. }
      apply (IH k ltac:(lia) (S i) j a' b'); auto; lia. }
  split.
  - apply NoDup_nth_error. intros i j Hi E. destruct (nth_error l i) as [a|] eqn:Ea; [|apply nth_error_None in Ea; lia].
    destruct (Nat.lt_trichotomy i j) as [L|[L|L]]; auto; exfalso.
    + apply (D i j a); auto.
    + apply (D j i a); auto.
  - intros a b Ha Hb E. apply In_nth_error in Ha as [i Ei]. apply In_nth_error in Hb as [j Ej].
    destruct (Nat.le_ge_cases i j).
    + apply (R (j - i)%nat i j a b); auto; lia.
    + apply (R (i - j)%nat j i b a); auto; [lia|]. rewrite E, rv_rv; reflexivity.
Qed.

(** there are finitely many directed cracks *)
Fixpoint zseq (a : Z) (n : nat) : list Z := match n with O => [] | S k => a :: zseq (a + 1) k end.
Lemma zseq_In n : forall a x, In x (zseq a n) <-> a <= x < a + Z.of_nat n.
Proof. induction n as [|n IH]; intros a x; cbn [zseq In]; [lia|]. rewrite IH. lia. Qed.
Lemma zseq_length n : forall a, length (zseq a n) = n.
Proof. induction n; intros; cbn; auto. Qed.
Definition allDarts : list dart :=
  flat_map (fun x => flat_map (fun y => map (fun d => ((x, y), d)) [East; North; West; South])
     (zseq 0 (Z.to_nat (ih src + 1)))) (zseq 0 (Z.to_nat (iw src + 1))).

Lemma flat_map_const_length {A B} (f : A -> list B) k l : (forall a, length (f a) = k) -> length (flat_map f l) = (length l * k)%nat.
Proof. intros H. induction l as [|a l IH]; cbn; [reflexivity|]. rewrite app_length, IH, H. lia. Qed.
Lemma allDarts_length : 0 <= iw src -> 0 <= ih src -> length allDarts = Z.to_nat (4 * ((iw src + 1) * (ih src + 1))).
Proof.
  intros Hw Hh. unfold allDarts. rewrite (flat_map_const_length _ (Z.to_nat (ih src + 1) * 4)%nat).
  - rewrite zseq_length. nia.
  - intros a. rewrite (flat_map_const_length _ 4%nat); [|reflexivity]. rewrite zseq_length. reflexivity.
Qed.
Lemma allDarts_In x : crkD x = true -> In x allDarts.
Proof.
  intros H. pose proof (crk_corner _ _ H) as [Hx Hy]. destruct x as [[a b] d]; cbn [fst snd] in *.
  unfold allDarts. apply in_flat_map. exists a. split; [apply zseq_In; lia|].
  apply in_flat_map. exists b. split; [apply zseq_In; lia|]. apply in_map_iff. exists d. split; [reflexivity|].
  destruct d; cbn; auto.
Qed.
End Static.
