(** nextSigma and prevSigma go around the node, one dart at a time. *)
From Coq Require Import Lia.
From Verif Require Import Base CellMap_Model CellMap_Spec CellSigma_Spec.
Local Open Scope Z_scope.

Lemma ctypeEqb_eq a b : ctypeEqb a b = true <-> a = b.
Proof. destruct a, b; cbn; split; congruence. Qed.
Lemma ctypeEqb_ne a b : ctypeEqb a b = false <-> a <> b.
Proof. destruct a, b; cbn; split; congruence. Qed.

Lemma dir8 k : 0 <= k < 8 -> k = 0 \/ k = 1 \/ k = 2 \/ k = 3 \/ k = 4 \/ k = 5 \/ k = 6 \/ k = 7.
Proof. lia. Qed.
Lemma dirX_bound k : -1 <= dirX k <= 1.
Proof. destruct k as [|p|p]; cbn; try lia. do 3 (destruct p as [p|p|]; cbn; try lia). Qed.
Lemma dirY_bound k : -1 <= dirY k <= 1.
Proof. destruct k as [|p|p]; cbn; try lia. do 3 (destruct p as [p|p|]; cbn; try lia). Qed.
Lemma mod8 k : 0 <= k mod 8 < 8.
Proof. apply Z.mod_pos_bound. lia. Qed.

(** a list with a repetition shows it *)
Lemma dup_shows (l : list dart) : ~ NoDup l -> exists i j a, (i < j)%nat /\ nth_error l i = Some a /\ nth_error l j = Some a.
Proof.
  assert (Dec : forall a b : dart, {a = b} + {a <> b}) by (intros [x y k] [x' y' k']; decide equality; apply Z.eq_dec).
  induction l as [|h t IH]; intros N; [exfalso; apply N; constructor|].
  destruct (in_dec Dec h t) as [I|I].
  - apply In_nth_error in I. destruct I as (j & J). exists O, (S j), h. split; [lia|]. auto.
  - destruct IH as (i & j & a & IJ & A & B).
    + intros H. apply N. constructor; auto.
    + exists (S i), (S j), a. split; [lia|]. auto.
Qed.
Lemma seq_nth_some s n i x : nth_error (seq s n) i = Some x -> x = (s + i)%nat.
Proof.
  intros H. assert (I : (i < n)%nat) by (rewrite <- (seq_length n s); apply nth_error_Some; congruence).
  apply (nth_error_nth _ _ O) in H. rewrite seq_nth in H by exact I. auto.
Qed.

Section Sigma.
Variable im : img.
Hypothesis Fr : framed im.

Lemma vertex_inner x y : vertexAt im x y -> 0 < x < iw im - 1 /\ 0 < y < ih im - 1.
Proof.
  intros (X & Y & T).
  assert (x <> 0 /\ x <> iw im - 1 /\ y <> 0 /\ y <> ih im - 1).
  { repeat split; intros E; rewrite (Fr x y X Y) in T by auto; discriminate T. }
  lia.
Qed.
Lemma neighbor_in x y k : vertexAt im x y -> 0 <= x + dirX k < iw im /\ 0 <= y + dirY k < ih im.
Proof. intros V. apply vertex_inner in V. pose proof (dirX_bound k). pose proof (dirY_bound k). lia. Qed.
Lemma neighbor_read d n : vertexAt im (dcx d) (dcy d) ->
  neighborPix im d n = Ok (ipix im (dcx d + dirX ((ddir d + n) mod 8)) (dcy d + dirY ((ddir d + n) mod 8))).
Proof.
  intros V. unfold neighborPix, readPix, insideImg. pose proof (neighbor_in _ _ ((ddir d + n) mod 8) V) as (A & B).
  replace ((0 <=? dcx d + dirX ((ddir d + n) mod 8)) && _ && _ && _)%bool with true; auto.
  symmetry. rewrite !Bool.andb_true_iff, !Z.leb_le, !Z.ltb_lt. lia.
Qed.
Lemma neighbor_type d n p : vertexAt im (dcx d) (dcy d) -> neighborPix im d n = Ok p -> ptype p = typeAt im d n.
Proof. intros V. rewrite neighbor_read by auto. injection 1 as <-. reflexivity. Qed.
Lemma neighbor_vertex d n : vertexAt im (dcx d) (dcy d) -> typeAt im d n = Vertex ->
  vertexAt im (dcx d + dirX ((ddir d + n) mod 8)) (dcy d + dirY ((ddir d + n) mod 8)).
Proof. intros V T. pose proof (neighbor_in _ _ ((ddir d + n) mod 8) V) as (A & B). repeat split; try lia. exact T. Qed.

Definition badAt (d : dart) : bool :=
  Z.odd (ddir d) && ctypeEqb (typeAt im d 0) Line && (negb (ctypeEqb (typeAt im d 1) Region) || negb (ctypeEqb (typeAt im d (-1)) Region)).
Lemma bad_read d : vertexAt im (dcx d) (dcy d) -> badDiagonalConfig im d = Ok (badAt d).
Proof.
  intros V. unfold badDiagonalConfig, badAt, isDiagonal. destruct (Z.odd (ddir d)); cbn [andb]; auto.
  rewrite !neighbor_read by auto. cbn [bind]. fold (typeAt im d 0) (typeAt im d 1) (typeAt im d (-1)).
  destruct (ctypeEqb (typeAt im d 0) Line); cbn [andb]; auto.
  destruct (ctypeEqb (typeAt im d 1) Region); cbn [negb orb]; auto.
Qed.
Definition tryOf (n : Z) (d : dart) : dart := let d1 := turn n d in if badAt d1 then turn n d1 else d1.
Lemma try_read n d : vertexAt im (dcx d) (dcy d) -> trySigma im n d = Ok (tryOf n d).
Proof. intros V. unfold trySigma, tryOf. cbn zeta. rewrite bad_read by exact V. cbn [bind]. reflexivity. Qed.

(** one round of the loop *)
Definition round (n : Z) (d : dart) : dart := tryOf n (if ctypeEqb (typeAt im d 0) Vertex then turn n (swapCenterNeighbor d) else d).
Definition stateOK (d : dart) : Prop := vertexAt im (dcx d) (dcy d) /\ 0 <= ddir d < 8.
Lemma turn_ok n d : stateOK d -> stateOK (turn n d).
Proof. intros (V & _). split; [exact V|apply mod8]. Qed.
Lemma try_ok n d : stateOK d -> stateOK (tryOf n d).
Proof. intros V. unfold tryOf. cbn zeta. destruct (badAt _); repeat apply turn_ok; auto. Qed.
Lemma swap_ok d : stateOK d -> typeAt im d 0 = Vertex -> stateOK (swapCenterNeighbor d).
Proof.
  intros (V & D) T. pose proof (neighbor_vertex d 0 V T) as W. split; [|apply mod8].
  unfold swapCenterNeighbor, moveCenterToNeighbor, turn. cbn [dcx dcy]. rewrite Z.add_0_r in W. exact W.
Qed.
Lemma round_ok n d : stateOK d -> stateOK (round n d).
Proof.
  intros S. unfold round. destruct (ctypeEqb _ Vertex) eqn:E; apply try_ok; auto. apply turn_ok, swap_ok; auto. apply ctypeEqb_eq; auto.
Qed.
Lemma loop_eq k n d : stateOK d ->
  sigmaLoop (Datatypes.S k) im n d = if ctypeEqb (typeAt im d 0) Line then Ok d else sigmaLoop k im n (round n d).
Proof.
  intros S. cbn [sigmaLoop]. rewrite neighbor_read by apply S. cbn [bind]. fold (typeAt im d 0).
  destruct (ctypeEqb (typeAt im d 0) Line); auto.
  assert (S' : stateOK (if ctypeEqb (typeAt im d 0) Vertex then turn n (swapCenterNeighbor d) else d)).
  { destruct (ctypeEqb _ Vertex) eqn:E; auto. apply turn_ok, swap_ok; auto. apply ctypeEqb_eq; auto. }
  rewrite try_read by apply S'. reflexivity.
Qed.

(** the loop from [d] stops at [r] *)
Inductive stops (n : Z) : dart -> dart -> Prop :=
| stops_here d : typeAt im d 0 = Line -> stops n d d
| stops_on d r : typeAt im d 0 <> Line -> stops n (round n d) r -> stops n d r.

(** the loop has fuel enough *)
Fixpoint rounds (k : nat) (n : Z) (d : dart) : dart := match k with O => d | Datatypes.S k' => rounds k' n (round n d) end.
Lemma stops_rounds n d r : stops n d r -> exists k, rounds k n d = r /\ typeAt im r 0 = Line /\ forall j, (j < k)%nat -> typeAt im (rounds j n d) 0 <> Line.
Proof.
  induction 1 as [d T|d r T S (k & E & L & N)].
  - exists O. split; [reflexivity|]. split; auto. lia.
  - exists (Datatypes.S k). split; [exact E|]. split; auto. intros [|j] J; [exact T|]. apply N. lia.
Qed.
Lemma rounds_add a b n d : rounds (a + b) n d = rounds b n (rounds a n d).
Proof. revert d. induction a; intros d; cbn; auto. Qed.
Lemma rounds_ok k n d : stateOK d -> stateOK (rounds k n d).
Proof. revert d. induction k; intros d S; cbn; auto. apply IHk, round_ok, S. Qed.
Lemma loop_rounds k f n d r : stateOK d -> rounds k n d = r -> typeAt im r 0 = Line -> (forall j, (j < k)%nat -> typeAt im (rounds j n d) 0 <> Line) ->
  (k < f)%nat -> sigmaLoop f im n d = Ok r.
Proof.
  revert f d. induction k; intros f d S E L N K; (destruct f as [|f]; [lia|]); rewrite loop_eq by auto.
  - cbn in E. subst r. rewrite (proj2 (ctypeEqb_eq _ _) L). reflexivity.
  - pose proof (N O ltac:(lia)) as N0. cbn [rounds] in N0. rewrite (proj2 (ctypeEqb_ne _ _) N0). apply IHk; auto; [apply round_ok, S| |lia].
    intros j J. apply (N (Datatypes.S j)). lia.
Qed.

Definition allStates : list dart :=
  flat_map (fun x => flat_map (fun y => map (fun k => Dart (Z.of_nat x) (Z.of_nat y) (Z.of_nat k)) (seq 0 8)) (seq 0 (Z.to_nat (ih im)))) (seq 0 (Z.to_nat (iw im))).
Lemma states_length : length allStates = (Z.to_nat (iw im) * (Z.to_nat (ih im) * 8))%nat.
Proof.
  assert (G : forall {A B} (g : A -> list B) c l, (forall a, length (g a) = c) -> length (flat_map g l) = (length l * c)%nat).
  { intros A B g c l H. induction l; cbn; auto. rewrite app_length, IHl, H. reflexivity. }
  unfold allStates. rewrite (G _ _ _ (Z.to_nat (ih im) * 8)%nat); [rewrite seq_length; reflexivity|].
  intros a. rewrite (G _ _ _ 8%nat); [rewrite seq_length; reflexivity|]. intros b. rewrite map_length, seq_length. reflexivity.
Qed.
Lemma states_in d : stateOK d -> In d allStates.
Proof.
  intros ((X & Y & _) & D). destruct d as [x y k]. cbn [dcx dcy ddir] in *. unfold allStates.
  apply in_flat_map. exists (Z.to_nat x). split; [apply in_seq; lia|].
  apply in_flat_map. exists (Z.to_nat y). split; [apply in_seq; lia|].
  apply in_map_iff. exists (Z.to_nat k). split; [f_equal; lia|apply in_seq; lia].
Qed.
Lemma states_fuel d : stateOK d -> (length allStates < walkFuel im)%nat.
Proof.
  intros ((X & Y & _) & _). rewrite states_length. unfold walkFuel.
  rewrite !Z2Nat.inj_mul by nia. change (Z.to_nat 8) with 8%nat.
  replace (Z.to_nat (iw im) * (Z.to_nat (ih im) * 8))%nat with (8 * (Z.to_nat (iw im) * Z.to_nat (ih im)))%nat by ring. lia.
Qed.
Lemma stops_distinct k n d : (forall j, (j < k)%nat -> typeAt im (rounds j n d) 0 <> Line) -> typeAt im (rounds k n d) 0 = Line ->
  NoDup (map (fun j => rounds j n d) (seq 0 k)).
Proof.
  intros N L. apply NoDup_nth_error. intros i j I E. rewrite map_length, seq_length in I.
  assert (J : (j < k)%nat).
  { destruct (Nat.lt_ge_cases j k); auto. rewrite (proj2 (nth_error_None _ j)) in E by (rewrite map_length, seq_length; lia).
    apply nth_error_None in E. rewrite map_length, seq_length in E. lia. }
  assert (M : forall i, (i < k)%nat -> nth_error (map (fun j => rounds j n d) (seq 0 k)) i = Some (rounds i n d)).
  { intros a A. rewrite nth_error_map, (nth_error_nth' _ O) by (rewrite seq_length; lia). rewrite seq_nth by lia. reflexivity. }
  rewrite !M in E by auto. injection E as E.
  assert (C : forall a b, (a < b)%nat -> (b < k)%nat -> rounds a n d = rounds b n d -> False).
  { intros a b A B E'. apply (N (a + (k - b))%nat); [lia|]. rewrite rounds_add, E', <- rounds_add.
    replace (b + (k - b))%nat with k by lia. exact L. }
  destruct (Nat.lt_trichotomy i j) as [T|[T|T]]; auto; exfalso; [apply (C i j)|apply (C j i)]; auto.
Qed.
Lemma stops_loop n d r : stateOK d -> stops n d r -> sigmaLoop (walkFuel im) im n d = Ok r.
Proof.
  intros S H. destruct (stops_rounds _ _ _ H) as (k & E & L & N).
  apply (loop_rounds k); auto.
  assert (K : (k <= length allStates)%nat).
  { subst r. pose proof (stops_distinct k n d N L) as D.
    assert (I : incl (map (fun j => rounds j n d) (seq 0 k)) allStates).
    { intros z Z. apply in_map_iff in Z. destruct Z as (j & <- & _). apply states_in, rounds_ok, S. }
    pose proof (NoDup_incl_length D I) as Q. rewrite map_length, seq_length in Q. exact Q. }
  pose proof (states_fuel _ S). lia.
Qed.

(** ** From place to place *)
Lemma typeAt_turn d a b : typeAt im (turn a d) b = typeAt im d (a + b).
Proof. unfold typeAt, turn. cbn [dcx dcy ddir]. rewrite Z.add_mod_idemp_l by lia. rewrite Z.add_assoc. reflexivity. Qed.
Lemma odd_turn d a : Z.odd (ddir (turn a d)) = xorb (Z.odd (ddir d)) (Z.odd a).
Proof.
  unfold turn. cbn [ddir]. rewrite <- Z.odd_add. rewrite (Z.div_mod (ddir d + a) 8) at 2 by lia.
  rewrite Z.odd_add, Z.odd_mul. cbn [Z.odd andb]. rewrite Bool.xorb_false_l. reflexivity.
Qed.
Lemma even_dirs k : 0 <= k < 8 -> Z.odd k = false -> k = 0 \/ k = 2 \/ k = 4 \/ k = 6.
Proof. intros K O. destruct (dir8 k K) as [->|[->|[->|[->|[->|[->|[->| ->]]]]]]]; cbn in O; auto; discriminate O. Qed.
Lemma odd_dirs k : 0 <= k < 8 -> Z.odd k = true -> k = 1 \/ k = 3 \/ k = 5 \/ k = 7.
Proof. intros K O. destruct (dir8 k K) as [->|[->|[->|[->|[->|[->|[->| ->]]]]]]]; cbn in O; auto; discriminate O. Qed.

Lemma place_state d : isPlace im d -> stateOK d.
Proof. intros (V & D & _). split; auto. Qed.
Lemma dart_place d : isDart im d -> isPlace im d.
Proof.
  intros (V & D & L & O). split; auto. split; auto. split; [congruence|]. intros H. destruct (O H). split; congruence.
Qed.

Definition way (n : Z) : Prop := n = 1 \/ n = -1.

(** all the equations between coordinates: the directions are numbers *)
Ltac compass D O := first [destruct (even_dirs _ D O) as [->|[->|[->| ->]]] | destruct (odd_dirs _ D O) as [->|[->|[->| ->]]]].
Lemma go_back n d : way n -> stateOK d -> Z.odd (ddir d) = false ->
  let t := go d n (- (2 * n)) in
  Z.odd (ddir t) = false /\ typeAt im t 0 = typeAt im d 0 /\ go t (- n) (2 * n) = d /\ typeAt im t (- n) = ptype (ipix im (dcx d) (dcy d)) /\
  turn n (swapCenterNeighbor (turn n d)) = t.
Proof.
  intros W (V & D) O. destruct d as [x y c]. cbn [dcx dcy ddir] in *. cbn zeta.
  destruct W as [-> | ->]; compass D O; (repeat match goal with |- _ /\ _ => split end); unfold typeAt, go, turn, swapCenterNeighbor, moveCenterToNeighbor; cbn; first [reflexivity | apply (f_equal ptype); apply f_equal2; lia | apply f_equal3; lia].
Qed.
Lemma go_ahead n d : way n -> stateOK d -> Z.odd (ddir d) = false ->
  let t := go d (2 * n) 0 in
  Z.odd (ddir t) = false /\ typeAt im t 0 = typeAt im d n /\ go t (- (2 * n)) 0 = d /\ typeAt im t (- n) = typeAt im d 0 /\
  typeAt im t (- (2 * n)) = ptype (ipix im (dcx d) (dcy d)) /\ turn n (turn n (swapCenterNeighbor (turn n (turn n d)))) = t.
Proof.
  intros W (V & D) O. destruct d as [x y c]. cbn [dcx dcy ddir] in *. cbn zeta.
  destruct W as [-> | ->]; compass D O; (repeat match goal with |- _ /\ _ => split end); unfold typeAt, go, turn, swapCenterNeighbor, moveCenterToNeighbor; cbn; first [reflexivity | apply (f_equal ptype); apply f_equal2; lia | apply f_equal3; lia].
Qed.

Lemma line_inner d n : vertexAt im (dcx d) (dcy d) -> typeAt im d n = Line ->
  0 < dcx d + dirX ((ddir d + n) mod 8) < iw im - 1 /\ 0 < dcy d + dirY ((ddir d + n) mod 8) < ih im - 1.
Proof.
  intros V T. pose proof (neighbor_in _ _ ((ddir d + n) mod 8) V) as (X & Y). unfold typeAt in T.
  set (x := dcx d + _) in *. set (y := dcy d + _) in *.
  assert (x <> 0 /\ x <> iw im - 1 /\ y <> 0 /\ y <> ih im - 1).
  { repeat split; intros E; rewrite (Fr x y X Y) in T by auto; discriminate T. }
  lia.
Qed.

Hypothesis Ne : neat im.

Lemma neat_side n d : way n -> stateOK d -> Z.odd (ddir d) = false -> typeAt im d n = Vertex -> typeAt im d 0 <> Line.
Proof.
  intros W (V & D) O A L. destruct (line_inner _ _ V L) as (X & Y).
  pose proof (Ne _ _ ((ddir d + 3 - n) mod 8) X Y) as Q.
  destruct V as (_ & _ & V). destruct d as [x y c]. unfold typeAt in *. cbn [dcx dcy ddir] in *.
  destruct W as [-> | ->]; compass D O; cbn in *;
    (refine (Q _ _ _ _); [tauto|exact L| |]; first [rewrite <- V; apply (f_equal ptype); apply f_equal2; lia | rewrite <- A; apply (f_equal ptype); apply f_equal2; lia]).
Qed.

Lemma even_not_bad d : Z.odd (ddir d) = false -> badAt d = false.
Proof. intros O. unfold badAt. rewrite O. reflexivity. Qed.
Lemma not_line_not_bad d : typeAt im d 0 <> Line -> badAt d = false.
Proof. intros L. unfold badAt. rewrite (proj2 (ctypeEqb_ne _ _) L). rewrite Bool.andb_false_r. reflexivity. Qed.
Lemma odd_way n : way n -> Z.odd n = true.
Proof. intros [-> | ->]; reflexivity. Qed.
Lemma turn_turn a b d : turn a (turn b d) = turn (b + a) d.
Proof. unfold turn. cbn [dcx dcy ddir]. rewrite Z.add_mod_idemp_l by lia. rewrite Z.add_assoc. reflexivity. Qed.
Lemma turn_0 d : 0 <= ddir d < 8 -> turn 0 d = d.
Proof. intros D. unfold turn. rewrite Z.add_0_r, Z.mod_small by lia. destruct d; reflexivity. Qed.
Lemma bad_not_dart d : stateOK d -> typeAt im d 0 = Line -> (badAt d = false <-> isDart im d).
Proof.
  intros (V & D) L. unfold badAt, isDart. rewrite L. cbn [ctypeEqb]. rewrite Bool.andb_true_r. destruct (Z.odd (ddir d)) eqn:O; cbn [andb].
  - rewrite Bool.orb_false_iff, !Bool.negb_false_iff, !ctypeEqb_eq. intuition.
  - intuition; discriminate.
Qed.

(** a place leads to a place, and back *)
Lemma type_sides d n : way n -> (typeAt im d 1 <> Vertex /\ typeAt im d (-1) <> Vertex) <-> (typeAt im d n <> Vertex /\ typeAt im d (- n) <> Vertex).
Proof. intros [-> | ->]; cbn; tauto. Qed.
Lemma place_next n d : way n -> isPlace im d -> isPlace im (placeNext im n d) /\ placeNext im (- n) (placeNext im n d) = d.
Proof.
  intros W P. pose proof (place_state _ P) as S. destruct P as (V & D & T & C). unfold placeNext at 1 3.
  destruct (Z.odd (ddir d)) eqn:O.
  - specialize (C eq_refl). rewrite (type_sides d n W) in C. destruct C as (C1 & C2).
    assert (O' : Z.odd (ddir (turn n d)) = false) by (rewrite odd_turn, O, odd_way by auto; reflexivity).
    split; [split; [exact V|split; [apply mod8|split]]|].
    + rewrite typeAt_turn, Z.add_0_r. exact C1.
    + rewrite O'. discriminate.
    + unfold placeNext. rewrite O', !typeAt_turn.
      replace (n + - n) with 0 by lia. replace (n + 2 * - n) with (- n) by lia.
      rewrite (proj2 (ctypeEqb_ne _ _) T), (proj2 (ctypeEqb_ne _ _) C2), turn_turn.
      replace (n + - n) with 0 by lia. apply turn_0, D.
  - destruct (ctypeEqb (typeAt im d n) Vertex) eqn:A.
    + apply ctypeEqb_eq in A. destruct (go_back n d W S O) as (O' & T' & B & V' & _). set (t := go d n (- (2 * n))) in *.
      split; [split; [exact (neighbor_vertex d n V A)|split; [apply mod8|split]]|].
      * congruence.
      * rewrite O'. discriminate.
      * unfold placeNext. rewrite O', V'. destruct V as (_ & _ & V). rewrite V. cbn [ctypeEqb].
        replace (- (2 * - n)) with (2 * n) by lia. exact B.
    + apply ctypeEqb_ne in A. destruct (ctypeEqb (typeAt im d (2 * n)) Vertex) eqn:B.
      * apply ctypeEqb_eq in B. destruct (go_ahead n d W S O) as (O' & T' & G & V1 & V2 & _). set (t := go d (2 * n) 0) in *.
        split; [split; [exact (neighbor_vertex d (2 * n) V B)|split; [apply mod8|split]]|].
        -- congruence.
        -- rewrite O'. discriminate.
        -- unfold placeNext. rewrite O', V1. rewrite (proj2 (ctypeEqb_ne _ _) T). replace (2 * - n) with (- (2 * n)) by lia.
           rewrite V2. destruct V as (_ & _ & V). rewrite V. cbn [ctypeEqb]. exact G.
      * apply ctypeEqb_ne in B.
        assert (O' : Z.odd (ddir (turn n d)) = true) by (rewrite odd_turn, O, odd_way by auto; reflexivity).
        split; [split; [exact V|split; [apply mod8|split]]|].
        -- rewrite typeAt_turn, Z.add_0_r. exact A.
        -- intros _. rewrite (type_sides _ n W), !typeAt_turn. replace (n + n) with (2 * n) by lia. replace (n + - n) with 0 by lia. auto.
        -- unfold placeNext. rewrite O', turn_turn. replace (n + - n) with 0 by lia. apply turn_0, D.
Qed.

(** the loop from one place to the next *)
Lemma round_plain n d : typeAt im d 0 <> Vertex -> round n d = tryOf n d.
Proof. intros T. unfold round. rewrite (proj2 (ctypeEqb_ne _ _) T). reflexivity. Qed.
Lemma round_vertex n d : typeAt im d 0 = Vertex -> round n d = tryOf n (turn n (swapCenterNeighbor d)).
Proof. intros T. unfold round. rewrite T. reflexivity. Qed.
Lemma one_place n d : way n -> isPlace im d ->
  let t := placeNext im n d in
  (isDart im t /\ stops n (tryOf n d) t) \/ (~ isDart im t /\ forall r, stops n (tryOf n t) r -> stops n (tryOf n d) r).
Proof.
  intros W P. cbn zeta. pose proof (place_next n d W P) as (P' & _). pose proof (place_state _ P) as S.
  (* the loop is at the place itself *)
  assert (AT : forall t, isPlace im t -> badAt t = false -> forall s, (forall r, stops n t r -> stops n s r) ->
            (isDart im t /\ stops n s t) \/ (~ isDart im t /\ forall r, stops n (tryOf n t) r -> stops n s r)).
  { intros t Pt Bt s H. destruct (ctypeEqb (typeAt im t 0) Line) eqn:L.
    - apply ctypeEqb_eq in L. left. split; [apply bad_not_dart; auto; apply place_state; auto|]. apply H. constructor. exact L.
    - apply ctypeEqb_ne in L. right. split; [intros (_ & _ & X & _); auto|]. intros r R. apply H. apply stops_on; auto.
      rewrite round_plain; auto. apply Pt. }
  revert P'. destruct P as (V & D & T & C). unfold placeNext. destruct (Z.odd (ddir d)) eqn:O.
  - intros P'. assert (O' : Z.odd (ddir (turn n d)) = false) by (rewrite odd_turn, O, odd_way by auto; reflexivity).
    apply AT; auto; [apply even_not_bad, O'|]. unfold tryOf. cbn zeta. rewrite even_not_bad by exact O'. auto.
  - assert (O' : Z.odd (ddir (turn n d)) = true) by (rewrite odd_turn, O, odd_way by auto; reflexivity).
    assert (O2 : Z.odd (ddir (turn n (turn n d))) = false) by (rewrite odd_turn, O', odd_way by auto; reflexivity).
    destruct (ctypeEqb (typeAt im d n) Vertex) eqn:A.
    + apply ctypeEqb_eq in A. intros P'. destruct (go_back n d W S O) as (_ & T' & _ & _ & B). right.
      pose proof (neat_side n d W S O A) as NL. split; [intros (_ & _ & X & _); congruence|].
      intros r R. assert (A0 : typeAt im (turn n d) 0 = Vertex) by (rewrite typeAt_turn, Z.add_0_r; exact A).
      assert (Bd : badAt (turn n d) = false) by (apply not_line_not_bad; congruence).
      unfold tryOf at 1. cbn zeta. rewrite Bd. apply stops_on; [congruence|]. rewrite round_vertex by exact A0. rewrite B. exact R.
    + apply ctypeEqb_ne in A. destruct (ctypeEqb (typeAt im d (2 * n)) Vertex) eqn:B.
      * apply ctypeEqb_eq in B. intros P'. destruct (go_ahead n d W S O) as (Ot & T' & _ & _ & _ & G).
        apply AT; auto; [apply even_not_bad, Ot|]. intros r R.
        assert (B0 : typeAt im (turn n (turn n d)) 0 = Vertex) by (rewrite turn_turn, typeAt_turn, Z.add_0_r; replace (n + n) with (2 * n) by lia; exact B).
        assert (Q : stops n (turn n (turn n d)) r).
        { apply stops_on; [congruence|]. rewrite round_vertex by exact B0. unfold tryOf. cbn zeta. rewrite G.
          rewrite even_not_bad by exact Ot. exact R. }
        unfold tryOf. cbn zeta. destruct (badAt (turn n d)) eqn:Bd; auto.
        apply stops_on.
        -- intros L. apply (bad_not_dart _ (turn_ok _ _ S)) in Bd; auto. destruct Bd as (_ & _ & _ & Z). specialize (Z O').
           rewrite !typeAt_turn in Z. replace (2 * n) with (n + n) in B by lia. destruct W as [-> | ->]; destruct Z; cbn in *; congruence.
        -- rewrite round_plain by (rewrite typeAt_turn, Z.add_0_r; exact A). unfold tryOf. cbn zeta. rewrite even_not_bad by exact O2. exact Q.
      * intros P'. destruct (badAt (turn n d)) eqn:Bd.
        -- right. assert (L : typeAt im (turn n d) 0 = Line).
           { unfold badAt in Bd. destruct (ctypeEqb (typeAt im (turn n d) 0) Line) eqn:L; [apply ctypeEqb_eq; auto|]. rewrite Bool.andb_false_r in Bd. discriminate Bd. }
           split.
           ++ intros I. apply (bad_not_dart _ (turn_ok _ _ S) L) in I. congruence.
           ++ intros r. unfold tryOf. cbn zeta. rewrite Bd. rewrite even_not_bad by exact O2. auto.
        -- apply AT; auto. unfold tryOf. cbn zeta. rewrite Bd. auto.
Qed.

(** ** The walk *)
Lemma places_S k n d : places (Datatypes.S k) im n d = placeNext im n (places k im n d).
Proof. revert d. induction k; intros d; auto. cbn [places] in *. rewrite <- IHk. reflexivity. Qed.
Lemma places_add a b n d : places (a + b) im n d = places b im n (places a im n d).
Proof. revert d. induction a; intros d; cbn; auto. Qed.
Lemma places_ok k n d : way n -> isPlace im d -> isPlace im (places k im n d).
Proof. intros W. revert d. induction k; intros d P; cbn; auto. apply IHk. apply place_next; auto. Qed.
Lemma way_opp n : way n -> way (- n).
Proof. intros [-> | ->]; [right|left]; reflexivity. Qed.
Lemma places_inv k n d : way n -> isPlace im d -> places k im (- n) (places k im n d) = d.
Proof.
  intros W. revert d. induction k; intros d P; auto. rewrite (places_S k n). cbn [places].
  rewrite (proj2 (place_next n _ W (places_ok k n d W P))). apply IHk, P.
Qed.
Lemma places_return n d : way n -> isPlace im d -> exists k, (0 < k)%nat /\ places k im n d = d.
Proof.
  intros W P. set (l := map (fun j => places j im n d) (seq 0 (S (length allStates)))).
  assert (I : incl l allStates).
  { intros z Z. apply in_map_iff in Z. destruct Z as (j & <- & _). apply states_in, place_state, places_ok; auto. }
  assert (N : ~ NoDup l).
  { intros H. pose proof (NoDup_incl_length H I) as Q. unfold l in Q. rewrite map_length, seq_length in Q. lia. }
  assert (X : exists i j, (i < j)%nat /\ places i im n d = places j im n d).
  { destruct (dup_shows l N) as (i & j & a & IJ & A & B).
    unfold l in A, B. rewrite nth_error_map in A, B. exists i, j. split; auto.
    destruct (nth_error (seq 0 _) i) as [i'|] eqn:Ei; [|discriminate A]. destruct (nth_error (seq 0 _) j) as [j'|] eqn:Ej; [|discriminate B].
    assert (i' = i) by (apply seq_nth_some in Ei; exact Ei). assert (j' = j) by (apply seq_nth_some in Ej; exact Ej). subst. cbn in A, B. congruence. }
  destruct X as (i & j & IJ & E). exists (j - i)%nat. split; [lia|].
  replace j with ((j - i) + i)%nat in E by lia. rewrite places_add in E.
  apply (f_equal (places i im (- n))) in E. rewrite !places_inv in E by (auto; apply places_ok; auto). symmetry. exact E.
Qed.
End Sigma.
