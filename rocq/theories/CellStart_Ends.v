(** The two ends of a line, and what lies beside it. *)
From Verif Require Import Base CellMap_Model CellMap_Spec CellSigma_Spec CellSigma_Proofs CellSigma_Results CellLink_Spec CellLink_Proofs CellFace_Spec CellStart_Spec CellStart_Walk.
Local Open Scope Z_scope.

Section Ends.
Variable im : img.
Hypothesis Fr : framed im.
Hypothesis Sl : slim im.
Hypothesis Sm : smooth im.
Hypothesis Pl : plain im.
Let forths := forths im.
Let half := half im.
Let runs := runs im.
Let lineTo := lineTo im.

Definition far (n : nat) (d : dart) : dart := back (forths n d).

Lemma line_facts d n : isDart im d -> lineTo d n ->
  link im (forths n d) /\ lineAt im (dcx (forths n d)) (dcy (forths n d)) /\ vertexAt im (tx (forths n d)) (ty (forths n d)).
Proof.
  intros D (N & R & V). pose proof (runs_link im Fr Sl Sm n d D R) as Lk. split; [exact Lk|].
  assert (LC : lineAt im (dcx (forths n d)) (dcy (forths n d))).
  { destruct n as [|n]; [lia|]. unfold forths. cbn [CellStart_Walk.forths]. destruct (forth_half im Fr Sl Sm _ (R n ltac:(lia))) as (_ & -> & -> & _). apply (R n). lia. }
  split; [exact LC|]. apply (line_is_inner im Fr) in LC. pose proof (dirX_bound (ddir (forths n d))). pose proof (dirY_bound (ddir (forths n d))).
  rewrite type_ahead in V by apply Lk. split; [unfold tx; fold forths; lia|]. split; [unfold ty; fold forths; lia|exact V].
Qed.
Lemma far_dart d n : isDart im d -> lineTo d n -> isDart im (far n d).
Proof.
  intros D L. destruct (line_facts d n D L) as (Lk & LC & V). assert (B : link im (back (forths n d))) by (apply link_back; [exact Lk|destruct LC as (_ & _ & ->); discriminate]).
  split; [exact V|]. split; [apply back_range|]. split; [|apply B]. unfold far. rewrite type_ahead by apply back_range. destruct (back_target (forths n d) (proj1 Lk)) as [-> ->]. apply LC.
Qed.
Lemma jump_to d n : isDart im d -> lineTo d n -> (n <= length (allStates im))%nat -> jumpToOpposite (walkFuel im) im d = Ok (far n d).
Proof.
  intros D L B. pose proof L as (N & R & V).
  assert (G : forall f i, (i < n)%nat -> (n - i <= f)%nat -> jumpToOpposite f im (forths i d) = Ok (far n d)).
  { induction f as [|f IH]; intros i I F; [lia|]. cbn [jumpToOpposite]. destruct (forth_spec im Fr Sl Sm (forths i d) (R i I)) as (k & _ & _ & _ & E & _). rewrite E. cbn [bind fst snd].
    change (forth im (forths i d)) with (forths (Datatypes.S i) d). destruct (Nat.eq_dec (Datatypes.S i) n) as [->|Q].
    - change (forths n d) with (CellStart_Walk.forths im n d) at 1. rewrite V. cbn [ctypeEqb]. rewrite back_swap; [reflexivity|]. apply (runs_link im Fr Sl Sm n d D R).
    - assert (H : half (forths (Datatypes.S i) d)) by (apply R; lia). rewrite type_ahead by apply H. destruct H as (_ & (_ & _ & ->) & _). cbn [ctypeEqb]. apply IH; lia. }
  apply (G (walkFuel im) O); [exact N|]. assert (S : stateOK im d) by (apply place_state, dart_place, D). pose proof (states_fuel im d S). lia.
Qed.

Lemma forth_rev h : half h -> half (back (forth im h)) /\ forth im (back (forth im h)) = back h.
Proof.
  intros H. destruct (forth_spec im Fr Sl Sm h H) as (k & E & K & Nk & _ & _ & J). destruct (forth_half im Fr Sl Sm h H) as (Lk & X & Y & _). pose proof (proj1 Lk) as Rk.
  destruct (back_target (forth im h) Rk) as [BX BY].
  assert (HB : half (back (forth im h))).
  { pose proof H as (_ & Ln & _). split; [apply link_back; [exact Lk|rewrite X, Y; destruct Ln as (_ & _ & ->); discriminate]|]. rewrite BX, BY, X, Y. split; [exact Ln|].
    cbn [back dcx dcy]. rewrite <- type_ahead by exact Rk. apply Lk. }
  split; [exact HB|]. destruct (forth_spec im Fr Sl Sm _ HB) as (j & E' & _ & Nj & _ & _ & J').
  rewrite back_back in Nj, J' by exact Rk. rewrite BX, BY, X, Y in *. assert (link im (Dart (tx h) (ty h) j)) as Lj by (apply J'; auto). apply J in Lj.
  rewrite E'. rewrite E in Nj. cbn [ddir] in Nj. change (back h) with (Dart (tx h) (ty h) (ddir (back h))). destruct Lj as [->|Q]; [reflexivity|contradiction].
Qed.
Lemma reversed d n : isDart im d -> lineTo d n -> forall i, (i <= n)%nat -> forths i (far n d) = back (forths (n - i) d).
Proof.
  intros D (N & R & V). induction i as [|i IH]; intros I; [rewrite Nat.sub_0_r; reflexivity|]. unfold forths. cbn [CellStart_Walk.forths]. fold forths. rewrite IH by lia.
  replace (n - i)%nat with (Datatypes.S (n - Datatypes.S i)) by lia. apply forth_rev. apply R. lia.
Qed.
Lemma moved h : 0 <= ddir h < 8 -> ~ (dcx h = tx h /\ dcy h = ty h).
Proof. intros D [X Y]. unfold tx, ty in *. destruct (dir8 _ D) as [E|[E|[E|[E|[E|[E|[E|E]]]]]]]; rewrite E in X, Y; cbn in X, Y; lia. Qed.
Lemma far_other d n : isDart im d -> lineTo d n -> far n d <> d.
Proof.
  intros D L Q. pose proof (reversed d n D L) as Rv. rewrite Q in Rv. pose proof L as (N & R & V).
  destruct (Nat.Even_or_Odd n) as [[j J]|[j J]].
  - specialize (Rv j ltac:(lia)). replace (n - j)%nat with j in Rv by lia. assert (link im (forths j d)) as Lj by (apply (runs_link im Fr Sl Sm j d D); intros q Hq; apply R; lia).
    apply (moved (forths j d) (proj1 Lj)). rewrite Rv at 1 3. split; reflexivity.
  - specialize (Rv (Datatypes.S j) ltac:(lia)). replace (n - Datatypes.S j)%nat with j in Rv by lia. destruct (forth_spec im Fr Sl Sm (forths j d) (R j ltac:(lia))) as (k & E & _ & Nk & _).
    unfold forths in Rv. cbn [CellStart_Walk.forths] in Rv. fold forths in Rv. rewrite E in Rv. apply (f_equal ddir) in Rv. cbn [ddir] in Rv. contradiction.
Qed.

(** ** All pixels of the edge lie on the line *)
Lemma covers d n u v : isDart im d -> lineTo d n -> along im (tx d) (ty d) u v -> exists i, (i < n)%nat /\ tx (forths i d) = u /\ ty (forths i d) = v.
Proof.
  intros D (N & R & V) A. induction A as [|u v k A IH Lk Ln].
  - exists O. split; [exact N|]. split; reflexivity.
  - destruct IH as (i & I & <- & <-). destruct (forth_spec im Fr Sl Sm (forths i d) (R i I)) as (q & E & _ & _ & _ & _ & J). apply J in Lk. destruct Lk as [->| ->].
    + destruct (back_target (forths i d) (proj1 (proj1 (R i I)))) as [BX BY]. unfold tx at 1 in BX. unfold ty at 1 in BY. cbn [back dcx dcy] in BX, BY. rewrite BX, BY in *.
      destruct i as [|i]; [exfalso; destruct D as ((_ & _ & T) & _); destruct Ln as (_ & _ & T'); cbn in T'; congruence|].
      exists i. split; [lia|]. unfold forths. cbn [CellStart_Walk.forths]. destruct (forth_half im Fr Sl Sm _ (R i ltac:(lia))) as (_ & -> & -> & _). auto.
    + assert (tx (forths (Datatypes.S i) d) = tx (forths i d) + dirX q /\ ty (forths (Datatypes.S i) d) = ty (forths i d) + dirY q) as [X Y].
      { unfold forths at 1 3. cbn [CellStart_Walk.forths]. fold forths. rewrite E. split; reflexivity. }
      destruct (Nat.eq_dec (Datatypes.S i) n) as [Q|Q]; [|exists (Datatypes.S i); split; [lia|split; assumption]].
      exfalso. rewrite <- Q in V. rewrite type_ahead in V by (apply (runs_link im Fr Sl Sm (Datatypes.S i) d D); rewrite Q; exact R). fold forths in V. rewrite X, Y in V. destruct Ln as (_ & _ & T). congruence.
Qed.
Lemma line_along d n : isDart im d -> lineTo d n -> forall i, (i < n)%nat -> along im (tx d) (ty d) (tx (forths i d)) (ty (forths i d)).
Proof.
  intros D (N & R & V). induction i as [|i IH]; intros I; [constructor|]. specialize (IH ltac:(lia)). destruct (forth_half im Fr Sl Sm _ (R i ltac:(lia))) as (Lk & X & Y & _).
  unfold tx at 2, ty at 2. change (forths (Datatypes.S i) d) with (forth im (forths i d)). fold forths in X, Y. rewrite X, Y. apply al_on; auto.
  - rewrite <- X, <- Y. fold forths in Lk; destruct (forth im (forths i d)); exact Lk.
  - rewrite <- X at 1. rewrite <- Y at 1. apply (R (Datatypes.S i) I).
Qed.
Lemma dart_pixel d : isDart im d -> lineAt im (tx d) (ty d). Proof. intros D. apply (dart_half im Fr d D). Qed.
Lemma two_ends d n : drawn im -> isDart im d -> lineTo d n -> twoEnds im (edgeOf im d) d (far n d).
Proof.
  intros (Dr1 & Dr2 & _) D L. split; [intros Q; exact (far_other d n D L (eq_sym Q))|]. intros e. split.
  - intros (De & Ee). assert (along im (tx d) (ty d) (tx e) (ty e)) as A.
    { apply (Dr2 (edgeOf im d)); [apply dart_owns; auto|]. rewrite <- Ee. apply dart_owns; auto. }
    destruct (covers d n _ _ D L A) as (i & I & X & Y). pose proof L as (N & R & V). destruct (forth_spec im Fr Sl Sm (forths i d) (R i I)) as (q & E & _ & _ & _ & _ & J).
    pose proof (dart_half im Fr e De) as (Lk & _ & C). pose proof (link_back im e Lk C) as B. unfold back in B. rewrite <- X, <- Y in B. apply J in B. destruct B as [B|B].
    + assert (e = forths i d) as -> by (apply back_range_eq; auto; [apply Lk|apply (R i I)]). destruct i as [|i]; [left; reflexivity|]. exfalso.
      pose proof (runs_center im Fr Sl Sm (Datatypes.S i) d D ltac:(intros j Hj; apply R; lia) ltac:(lia)) as T. destruct De as ((_ & _ & T') & _). fold forths in T. congruence.
    + assert (back e = forths (Datatypes.S i) d) as Be. { unfold forths. cbn [CellStart_Walk.forths]. fold forths. rewrite E. unfold back. rewrite <- X, <- Y, B. reflexivity. }
      right. destruct (Nat.eq_dec (Datatypes.S i) n) as [<-|Q].
      * unfold far. rewrite <- Be. rewrite back_back; [reflexivity|apply Lk].
      * exfalso. assert (H : half (forths (Datatypes.S i) d)) by (apply R; lia). destruct H as (_ & (_ & _ & T) & _). fold forths in T. rewrite <- Be in T. destruct (back_target e (proj1 Lk)) as [X' Y']. rewrite X', Y' in T.
        destruct De as ((_ & _ & T') & _). congruence.
  - intros [->| ->]; [split; auto|]. split; [apply far_dart; auto|]. destruct (line_facts d n D L) as (Lk & _ & _). pose proof L as (N & R & V).
    change (edgeOf im (far n d)) with (plabel (ipix im (tx (back (forths n d))) (ty (back (forths n d))))). destruct (back_target (forths n d) (proj1 Lk)) as [-> ->].
    destruct n as [|n]; [lia|]. destruct (forth_half im Fr Sl Sm _ (R n ltac:(lia))) as (_ & X & Y & _). change (forths (Datatypes.S n) d) with (forth im (forths n d)). fold forths in X, Y. rewrite X, Y.
    apply (Dr1 (tx d) (ty d)); [apply dart_pixel, D|]. apply (line_along d (Datatypes.S n) D L). lia.
Qed.

(** ** What lies beside the line *)
Hypothesis Fi : filled im.
Hypothesis Ai : airy im.
Definition labR (x y k : Z) : Z := plabel (ipix im (x + dirX (k mod 8)) (y + dirY (k mod 8))).
Lemma around_step k : 0 <= k < 8 -> exists j, In j [0; 2; 4; 6] /\ dirX ((k + 1) mod 8) = dirX k + dirX j /\ dirY ((k + 1) mod 8) = dirY k + dirY j.
Proof.
  intros K. destruct (dir8 _ K) as [->|[->|[->|[->|[->|[->|[->| ->]]]]]]]; cbn;
  [exists 2|exists 4|exists 4|exists 6|exists 6|exists 0|exists 0|exists 2]; cbn; intuition lia.
Qed.
Lemma lab_step x y k : inner im x y -> rg (ringOf im x y) k = true -> rg (ringOf im x y) (k + 1) = true -> labR x y (k + 1) = labR x y k.
Proof.
  intros (X & Y) A B. rewrite ring_at in A, B. apply CellSigma_Proofs.ctypeEqb_eq in A, B. unfold labR. pose proof (Z.mod_pos_bound k 8 ltac:(lia)) as K.
  destruct (around_step (k mod 8) K) as (j & J & EX & EY). rewrite Zplus_mod_idemp_l in EX, EY. rewrite EX, EY in *. rewrite !Z.add_assoc in *.
  pose proof (dirX_bound (k mod 8)). pose proof (dirY_bound (k mod 8)). pose proof (dirX_bound ((k + 1) mod 8)). pose proof (dirY_bound ((k + 1) mod 8)).
  apply Fi; auto; try lia. split; [lia|]. split; [lia|]. rewrite <- A. destruct (ipix im _ _); reflexivity.
Qed.
Lemma lab_mod x y a b : (a - b) mod 8 = 0 -> labR x y a = labR x y b.
Proof. intros H. unfold labR. replace (a mod 8) with (b mod 8); [reflexivity|]. replace a with (b + (a - b)) by lia. rewrite Zplus_mod, H, Z.add_0_r, Z.mod_mod by lia. reflexivity. Qed.
Lemma lab_arc x y a b : inner im x y -> arcR (ringOf im x y) a b = true -> labR x y a = labR x y b.
Proof.
  intros I H. unfold arcR in H. apply existsb_exists in H. destruct H as (len & Hl & H). apply andb_true_iff in H. destruct H as [E H]. apply Z.eqb_eq in E. rewrite forallb_forall in H.
  assert (0 <= len < 8) as Rl by (unfold dirs in Hl; cbn in Hl; lia).
  assert (G : forall i : nat, (Z.of_nat i <= len) -> labR x y (a + Z.of_nat i) = labR x y a).
  { induction i as [|i IH]; intros Hi; [rewrite Z.add_0_r; reflexivity|]. rewrite <- IH by lia. replace (a + Z.of_nat (Datatypes.S i)) with (a + Z.of_nat i + 1) by lia.
    assert (Q : forall j, 0 <= j <= len -> rg (ringOf im x y) (a + j) = true).
    { intros j J. specialize (H j (dirs_in j ltac:(lia))). destruct (Z.leb_spec j len); [exact H|lia]. }
    apply lab_step; auto; [apply Q; lia|]. replace (a + Z.of_nat i + 1) with (a + (Z.of_nat i + 1)) by lia. apply Q. lia. }
  rewrite <- (G (Z.to_nat len)) by lia. rewrite Z2Nat.id by lia. apply lab_mod. exact E.
Qed.
Lemma lab_join x y a b : inner im x y -> joinR (ringOf im x y) a b = true -> labR x y a = labR x y b.
Proof. intros I H. unfold joinR in H. apply orb_true_iff in H. destruct H as [H|H]; [|symmetry]; apply lab_arc; auto. Qed.

Lemma side_out n h : sideOf im n h = labR (dcx h) (dcy h) (outR (ringOf im (dcx h) (dcy h)) n (ddir h)).
Proof. unfold sideOf, outR. rewrite ring_type. destruct (rg _ _); reflexivity. Qed.
Lemma side_in n h : way n -> link im h -> sideOf im n h = labR (tx h) (ty h) (inR (ringOf im (tx h) (ty h)) n (ddir (back h))).
Proof.
  intros Wn (D & _ & S). destruct h as [x y k]. cbn [ddir] in *.
  assert (P : forall a b, dirX ((k + a) mod 8) = dirX k + dirX (b mod 8) -> dirY ((k + a) mod 8) = dirY k + dirY (b mod 8) ->
    labelAt im (Dart x y k) a = labR (x + dirX k) (y + dirY k) b /\ ctypeEqb (typeAt im (Dart x y k) a) Region = rg (ringOf im (x + dirX k) (y + dirY k)) b).
  { intros a b EX EY. rewrite ring_at. unfold labelAt, labR, typeAt. cbn [dcx dcy ddir]. rewrite EX, EY, !Z.add_assoc. auto. }
  unfold sideOf, inR, back, tx, ty. cbn [dcx dcy ddir]. replace (Z.odd ((k + 4) mod 8)) with (Z.odd k) by (destruct (dir8 _ D) as [->|[->|[->|[->|[->|[->|[->| ->]]]]]]]; reflexivity).
  destruct (Z.odd k) eqn:O.
  - assert (typeAt im (Dart x y k) n = Region) as -> by (destruct Wn as [->| ->]; apply S; reflexivity). cbn [ctypeEqb].
    apply P; destruct Wn as [->| ->], (odd_dirs k D O) as [->|[->|[->| ->]]]; reflexivity.
  - destruct (P n ((k + 4) mod 8 - 2 * n)) as [P1 P2]; [destruct Wn as [->| ->], (even_dirs k D O) as [->|[->|[->| ->]]]; reflexivity..|].
    destruct (P (2 * n) ((k + 4) mod 8 - n)) as [P3 P4]; [destruct Wn as [->| ->], (even_dirs k D O) as [->|[->|[->| ->]]]; reflexivity..|].
    rewrite P2. destruct (rg _ ((k + 4) mod 8 - 2 * n)); assumption.
Qed.
Lemma side_on n h : way n -> half h -> sideOf im n (forth im h) = sideOf im n h.
Proof.
  intros Wn H. destruct (forth_spec im Fr Sl Sm h H) as (k & E & K & _ & _ & S & _). pose proof H as (Lk & Ln & _). rewrite (side_in n h Wn Lk), side_out, E. cbn [dcx dcy ddir]. symmetry.
  destruct (ring_facts _ _ k (ring_length im (tx h) (ty h)) (back_range h) K S (smooth_ring im Sm _ _ Ln)) as (_ & F & _). apply lab_join; [apply (line_is_inner im Fr), Ln|apply F, Wn].
Qed.
Lemma side_run d : isDart im d -> forall i, runs i d -> forall w, way w -> sideOf im w (forths i d) = sideOf im w d.
Proof.
  intros D. induction i as [|i IH]; intros R w Ww; [reflexivity|]. unfold forths. cbn [CellStart_Walk.forths]. fold forths. rewrite side_on by (auto; apply R; lia). apply IH; auto. intros j J. apply R. lia.
Qed.
Lemma dart_airy d n : way n -> isDart im d -> Z.odd (ddir d) = false -> typeAt im d n = Region \/ typeAt im d (2 * n) = Region.
Proof. intros Wn (V & D & T & _) O. apply Ai; auto. destruct (even_dirs _ D O) as [->|[->|[->| ->]]]; cbn; auto. Qed.
Lemma side_far d n w : way w -> isDart im d -> lineTo d n -> sideOf im (- w) (far n d) = sideOf im w d.
Proof.
  intros Ww D L. pose proof (far_dart d n D L) as Df. destruct (line_facts d n D L) as (Lk & _ & V). rewrite <- (side_run d D n (proj1 (proj2 L)) w Ww). rewrite (side_in w (forths n d) Ww Lk), side_out.
  unfold far in *. set (h := forths n d) in *. cbn [back dcx dcy]. change (ddir (back h)) with ((ddir h + 4) mod 8) in *. fold (back h) in *.
  change ((ddir h + 4) mod 8) with (ddir (back h)) in *. assert (I : inner im (tx h) (ty h)) by (apply (vertex_inner im Fr), V).
  set (b := ddir (back h)) in *. set (r := ringOf im (tx h) (ty h)) in *. unfold outR, inR. replace (b + - w) with (b - w) by lia. replace (b + 2 * - w) with (b - 2 * w) by lia.
  assert (T : forall a, ctypeEqb (typeAt im (back h) a) Region = rg r (b + a)) by (intros a; rewrite ring_type; reflexivity).
  destruct (Z.odd b) eqn:O.
  - pose proof Df as (_ & _ & _ & S). destruct (S O) as [S1 S2]. assert (rg r (b - w) = true) as ->; [|reflexivity].
    replace (b - w) with (b + - w) by lia. rewrite <- T. destruct Ww as [->| ->]; [change (Z.opp 1) with (-1); rewrite S2|change (- -1) with 1; rewrite S1]; reflexivity.
  - assert (rg r (b - w) = true \/ rg r (b - 2 * w) = true) as Q.
    { replace (b - w) with (b + - w) by lia. replace (b - 2 * w) with (b + 2 * - w) by lia. rewrite <- !T. destruct (dart_airy (back h) (- w) (way_opp w Ww) Df O) as [-> | ->]; auto. }
    destruct (rg r (b - w)) eqn:E1, (rg r (b - 2 * w)) eqn:E2; try reflexivity; [|destruct Q; discriminate].
    destruct Ww as [->| ->].
    + replace (b - 1) with (b - 2 * 1 + 1) by lia. apply lab_step; auto. replace (b - 2 * 1 + 1) with (b - 1) by lia. exact E1.
    + symmetry. replace (b - 2 * -1) with (b - -1 + 1) by lia. apply lab_step; auto. replace (b - -1 + 1) with (b - 2 * -1) by lia. exact E2.
Qed.
Lemma line_facing d n : isDart im d -> lineTo d n -> facing im d (far n d).
Proof.
  intros D L. split; symmetry; [apply (side_far d n 1); auto; left; reflexivity|]. change 1 with (- (-1)) at 1. apply (side_far d n (-1)); auto. right. reflexivity.
Qed.
Lemma line_bordered d n : drawn im -> isDart im d -> lineTo d n -> bordered im (edgeOf im d) d.
Proof.
  intros (Dr1 & Dr2 & _) D L x y k K O X Y T. assert (along im (tx d) (ty d) x y) as A by (apply (Dr2 (edgeOf im d)); [apply dart_owns; auto|exact O]).
  destruct (covers d n _ _ D L A) as (i & I & EX & EY). pose proof L as (N & R & V). destruct (forth_spec im Fr Sl Sm (forths i d) (R i I)) as (q & E & Kq & _ & _ & S & _). fold forths in E, S. rewrite EX, EY in *.
  assert (Ln : lineAt im x y) by (destruct O as (O1 & O2 & O3); split; [exact O1|]; split; [exact O2|]; rewrite O3; reflexivity).
  destruct (ring_facts _ _ q (ring_length im x y) (back_range _) Kq S (smooth_ring im Sm _ _ Ln)) as (_ & _ & F).
  assert (Dk : k mod 8 = k) by (apply Z.mod_small; cbn in K; lia).
  destruct (F k K) as [J|J]; [rewrite ring_at, Dk, T; reflexivity|left|right]; apply (lab_join x y) in J; try (apply (line_is_inner im Fr), Ln); unfold labR at 1 in J; rewrite Dk in J; rewrite J;
    rewrite <- (side_run d D (Datatypes.S i)) by (try (intros j Hj; apply R; lia); (left; reflexivity) || (right; reflexivity));
    unfold forths; cbn [CellStart_Walk.forths]; fold forths; rewrite E, side_out; reflexivity.
Qed.
End Ends.
