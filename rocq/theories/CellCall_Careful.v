(** carefulNextSigma() returns. *)
From Coq Require Import Lia.
From Verif Require Import Base CellMap_Model CellMap_Spec CellMap_Main CellSigma_Spec CellSigma_Proofs CellSigma_Results CellLink_Spec CellLink_Proofs CellLink_Main.
Local Open Scope Z_scope.

Section Back.
Variable im : img.
Hypothesis Fr : framed im.
Hypothesis Ne : neat im.

(** the loop does not pass over this place *)
Definition noticed (t : dart) : Prop := badAt im t = false /\ (Z.odd (ddir t) = false -> typeAt im t (-1) <> Vertex).
Lemma one_reach d : isPlace im d -> let t := placeNext im 1 d in
  (exists k, rounds im k 1 (tryOf im 1 d) = t) \/ (~ noticed t /\ exists k, rounds im k 1 (tryOf im 1 d) = tryOf im 1 t).
Proof.
  intros P. assert (W : way 1) by (left; reflexivity). cbn zeta. pose proof (place_next im Fr 1 d W P) as (P' & _). pose proof (place_state im _ P) as S.
  revert P'. destruct P as (V & D & T & C). unfold placeNext. destruct (Z.odd (ddir d)) eqn:O.
  - intros P'. assert (O' : Z.odd (ddir (turn 1 d)) = false) by (rewrite odd_turn, O, odd_way by auto; reflexivity).
    left. exists 0%nat. cbn [rounds]. unfold tryOf. cbn zeta. rewrite even_not_bad by exact O'. reflexivity.
  - assert (O' : Z.odd (ddir (turn 1 d)) = true) by (rewrite odd_turn, O, odd_way by auto; reflexivity).
    assert (O2 : Z.odd (ddir (turn 1 (turn 1 d))) = false) by (rewrite odd_turn, O', odd_way by auto; reflexivity).
    destruct (ctypeEqb (typeAt im d 1) Vertex) eqn:A.
    + apply CellSigma_Proofs.ctypeEqb_eq in A. intros P'. destruct (go_back im 1 d W S O) as (Ot & T' & _ & Vt & B). right. split.
      * intros (_ & N). apply N; [exact Ot|]. transitivity (ptype (ipix im (dcx d) (dcy d))); [exact Vt|apply V].
      * assert (A0 : typeAt im (turn 1 d) 0 = Vertex) by (rewrite typeAt_turn, Z.add_0_r; exact A).
        assert (Bd : badAt im (turn 1 d) = false) by (apply not_line_not_bad; congruence).
        exists 1%nat. cbn [rounds]. unfold tryOf at 1. cbn zeta. rewrite Bd. rewrite round_vertex by exact A0. rewrite B. reflexivity.
    + apply CellSigma_Proofs.ctypeEqb_ne in A. destruct (ctypeEqb (typeAt im d (2 * 1)) Vertex) eqn:B.
      * apply CellSigma_Proofs.ctypeEqb_eq in B. intros P'. destruct (go_ahead im 1 d W S O) as (Ot & T' & _ & _ & _ & G). left.
        assert (B0 : typeAt im (turn 1 (turn 1 d)) 0 = Vertex) by (rewrite turn_turn, typeAt_turn; exact B).
        assert (Q : round im 1 (turn 1 (turn 1 d)) = go d (2 * 1) 0).
        { rewrite round_vertex by exact B0. unfold tryOf. cbn zeta. rewrite G. rewrite even_not_bad by exact Ot. reflexivity. }
        unfold tryOf. cbn zeta. destruct (badAt im (turn 1 d)) eqn:Bd; [exists 1%nat; exact Q|].
        exists 2%nat. cbn [rounds]. rewrite (round_plain im 1 (turn 1 d)) by (rewrite typeAt_turn, Z.add_0_r; exact A). unfold tryOf. cbn zeta. rewrite even_not_bad by exact O2. exact Q.
      * intros P'. destruct (badAt im (turn 1 d)) eqn:Bd.
        -- right. split; [intros (X & _); congruence|]. exists 0%nat. cbn [rounds]. unfold tryOf. cbn zeta. rewrite Bd. rewrite even_not_bad by exact O2. reflexivity.
        -- left. exists 0%nat. cbn [rounds]. unfold tryOf. cbn zeta. rewrite Bd. reflexivity.
Qed.
Lemma reach_back a : isPlace im a -> noticed a -> forall k d, isPlace im d -> places (Datatypes.S k) im 1 d = a -> exists j, rounds im j 1 (tryOf im 1 d) = a \/ typeAt im (rounds im j 1 (tryOf im 1 d)) 0 = Line.
Proof.
  intros Pa Na. assert (W : way 1) by (left; reflexivity). induction k as [|k IH]; intros d P E.
  - cbn [places] in E. destruct (one_reach d P) as [(j & J)|(N & _)]; [|exfalso; apply N; rewrite E; exact Na]. exists j. left. congruence.
  - change (places (Datatypes.S k) im 1 (placeNext im 1 d) = a) in E. set (t := placeNext im 1 d) in *. assert (Pt : isPlace im t) by (apply place_next; auto).
    destruct (IH t Pt E) as (i & I).
    assert (R : (exists j, rounds im j 1 (tryOf im 1 d) = tryOf im 1 t) \/ exists j, typeAt im (rounds im j 1 (tryOf im 1 d)) 0 = Line).
    { destruct (one_reach d P) as [(j & J)|(_ & j & J)]; fold t in J; [|left; exists j; exact J]. destruct (ctypeEqb (typeAt im t 0) Line) eqn:L.
      - right. exists j. rewrite J. apply CellSigma_Proofs.ctypeEqb_eq, L.
      - left. exists (j + 1)%nat. rewrite rounds_add, J. cbn [rounds]. apply round_plain, Pt. }
    destruct R as [(j & J)|(j & J)]; [|exists j; right; exact J]. exists (j + i)%nat. rewrite rounds_add, J. exact I.
Qed.
Lemma careful_go a : stateOK im a -> forall k f d, stateOK im d -> (rounds im k 1 d = a /\ (0 < k)%nat) \/ typeAt im (rounds im k 1 d) 0 = Line -> (k < f)%nat -> exists r, carefulLoop f im a d = Ok r.
Proof.
  intros Sa. induction k as [|k IH]; intros f d S H K; (destruct f as [|f]; [lia|]); rewrite careful_eq by auto.
  - destruct H as [(_ & H)|H]; [lia|]. cbn [rounds] in H. rewrite H. exists d. reflexivity.
  - destruct (ctypeEqb (typeAt im d 0) Line); [eauto|]. destruct (dartEqb (round im 1 d) a) eqn:E; [eauto|]. apply IH; [apply round_ok; auto| |lia]. cbn [rounds] in H.
    destruct H as [(H & _)|H]; [|auto]. destruct k; [|left; split; [exact H|lia]]. exfalso. cbn [rounds] in H. rewrite H in E. unfold dartEqb in E. rewrite !Z.eqb_refl in E. discriminate E.
Qed.
Lemma careful_ends a : isPlace im a -> typeAt im a 0 <> Line -> (exists k, (0 < k)%nat /\ (rounds im k 1 a = a \/ typeAt im (rounds im k 1 a) 0 = Line)) ->
  exists r, carefulNextSigma im a = Ok r.
Proof.
  intros P L Ex. assert (W : way 1) by (left; reflexivity). pose proof (place_state im a P) as S.
  set (Q := fun k => rounds im k 1 a = a \/ typeAt im (rounds im k 1 a) 0 = Line).
  destruct Ex as (k0 & K0 & Q0). fold (Q k0) in Q0. destruct (least Q) with (k := k0) as (k & K & Qk & Lk); auto.
  { intros k. unfold Q. destruct (dart_eq_dec (rounds im k 1 a) a); [tauto|]. destruct (ctypeEqb (typeAt im (rounds im k 1 a) 0) Line) eqn:E; [apply CellSigma_Proofs.ctypeEqb_eq in E|apply CellSigma_Proofs.ctypeEqb_ne in E]; tauto. }
  unfold carefulNextSigma. apply (careful_go a S k); auto; [unfold Q in Qk; tauto|].
  assert (B : (k <= length (allStates im))%nat).
  { assert (D : NoDup (map (fun j => rounds im j 1 a) (seq 0 k))).
    { apply NoDup_nth_error. intros i j I E. rewrite map_length, seq_length in I.
      assert (J : (j < k)%nat).
      { destruct (Nat.lt_ge_cases j k); auto. rewrite (proj2 (nth_error_None _ j)) in E by (rewrite map_length, seq_length; lia). apply nth_error_None in E. rewrite map_length, seq_length in E. lia. }
      assert (M : forall i, (i < k)%nat -> nth_error (map (fun j => rounds im j 1 a) (seq 0 k)) i = Some (rounds im i 1 a)).
      { intros x X. rewrite nth_error_map, (nth_error_nth' _ O) by (rewrite seq_length; lia). rewrite seq_nth by lia. reflexivity. }
      rewrite !M in E by auto. injection E as E.
      assert (C : forall x y, (x < y)%nat -> (y < k)%nat -> rounds im x 1 a = rounds im y 1 a -> False).
      { intros x y X Y E'. apply (Lk (x + (k - y))%nat); [lia|]. unfold Q. rewrite rounds_add, E', <- rounds_add. replace (y + (k - y))%nat with k by lia. exact Qk. }
      destruct (Nat.lt_trichotomy i j) as [T|[T|T]]; auto; exfalso; [apply (C i j)|apply (C j i)]; auto. }
    assert (I : incl (map (fun j => rounds im j 1 a) (seq 0 k)) (allStates im)).
    { intros z Hz. apply in_map_iff in Hz. destruct Hz as (j & <- & _). apply states_in, rounds_ok; auto. }
    pose proof (NoDup_incl_length D I) as X. rewrite map_length, seq_length in X. exact X. }
  pose proof (states_fuel im _ S). lia.
Qed.
Lemma careful_total a : isPlace im a -> noticed a -> typeAt im a 0 <> Line -> exists r, carefulNextSigma im a = Ok r.
Proof.
  intros P N L. assert (W : way 1) by (left; reflexivity). apply careful_ends; auto.
  destruct (places_return im Fr 1 a W P) as (k & K & E). destruct k as [|k]; [lia|]. destruct (reach_back a P N k a P E) as (j & J).
  exists (Datatypes.S j). split; [lia|]. cbn [rounds]. rewrite round_plain by apply P. exact J.
Qed.
(** a dart is noticed *)
Lemma dart_noticed d : isDart im d -> noticed d.
Proof.
  intros D. pose proof (dart_place im d D) as P. split; [apply bad_not_dart; [apply place_state, P|apply D|exact D]|]. intros O V. apply (neat_side im Fr Ne (-1) d); auto; [right; reflexivity|apply place_state, P|apply D].
Qed.
End Back.
