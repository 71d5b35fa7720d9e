(** C68: the regions met when walking around a node. *)
From Coq Require Import Lia.
From Verif Require Import Base CellMap_Model CellMap_Spec CellMap_Main CellSigma_Spec CellSigma_Proofs CellSigma_Results CellLink_Spec CellLink_Proofs CellFace_Spec.
Local Open Scope Z_scope.

Ltac compass D O := first [destruct (even_dirs _ D O) as [->|[->|[->| ->]]] | destruct (odd_dirs _ D O) as [->|[->|[->| ->]]]].

Section Walk.
Variable im : img.
Hypothesis Fr : framed im.
Hypothesis Ne : neat im.
Hypothesis Pl : plain im.
Hypothesis Ai : airy im.
Hypothesis Fi : filled im.

Lemma labelAt_turn d a b : labelAt im (turn a d) b = labelAt im d (a + b).
Proof. unfold labelAt, turn. cbn [dcx dcy ddir]. rewrite Z.add_mod_idemp_l by lia. rewrite Z.add_assoc. reflexivity. Qed.
Lemma even_in d : 0 <= ddir d < 8 -> Z.odd (ddir d) = false -> In (ddir d) [0; 2; 4; 6].
Proof. intros D O. destruct d as [x y c]. cbn [ddir] in *. compass D O; cbn; auto. Qed.

Lemma place_types d : isPlace im d -> typeAt im d 0 = Region \/ typeAt im d 0 = Line.
Proof.
  intros (V & D & T & _). destruct (typeAt im d 0) eqn:E; auto; [congruence|]. exfalso.
  destruct (neighbor_in im Fr _ _ ((ddir d + 0) mod 8) V) as (X & Y). apply (Pl _ _ X Y). exact E.
Qed.
(** a place that points to no region is a dart or lies next to one *)
Lemma near_dart d : isPlace im d -> typeAt im d 0 <> Region ->
  isDart im d \/ (isDart im (placeNext im 1 d) \/ isDart im (placeNext im (-1) d)).
Proof.
  intros P R. pose proof (place_types d P) as [T|T]; [contradiction|]. destruct (isDart_dec im d) as [I|I]; auto. right.
  destruct P as (V & D & NV & C). destruct (Z.odd (ddir d)) eqn:O.
  2:{ exfalso. apply I. split; auto. split; auto. split; auto. congruence. }
  unfold placeNext. rewrite O. specialize (C eq_refl). destruct C as (C1 & C2).
  assert (O1 : forall n, way n -> Z.odd (ddir (turn n d)) = false) by (intros n W; rewrite odd_turn, O, odd_way by exact W; reflexivity).
  assert (Q : forall n, way n -> typeAt im d n <> Vertex -> typeAt im d n = Region \/ isDart im (turn n d)).
  { intros n W Vn. assert (P' : isPlace im (turn n d)).
    { split; [exact V|]. split; [apply mod8|]. rewrite typeAt_turn, Z.add_0_r. split; [exact Vn|]. rewrite O1 by exact W. discriminate. }
    destruct (place_types _ P') as [X|X]; rewrite typeAt_turn, Z.add_0_r in X; auto. right. split; [exact V|]. split; [apply mod8|].
    rewrite typeAt_turn, Z.add_0_r. split; auto. rewrite O1 by exact W. discriminate. }
  destruct (Q 1 (or_introl eq_refl) C1) as [X1|X1]; auto. destruct (Q (-1) (or_intror eq_refl) C2) as [X2|X2]; auto.
  exfalso. apply I. split; auto.
Qed.

(** two places one after the other that point to regions *)
Lemma side_step n d : way n -> isPlace im d -> typeAt im d 0 = Region -> typeAt im (placeNext im n d) 0 = Region -> labelAt im (placeNext im n d) 0 = labelAt im d 0.
Proof.
  intros W P T T'. destruct P as (V & D & NV & C).
  assert (F : forall x y x' y', 0 <= x < iw im -> 0 <= y < ih im -> 0 <= x' < iw im -> 0 <= y' < ih im ->
            (exists k, In k [0; 2; 4; 6] /\ x' = x + dirX k /\ y' = y + dirY k) -> ptype (ipix im x y) = Region -> ptype (ipix im x' y') = Region -> plabel (ipix im x' y') = plabel (ipix im x y)).
  { intros x y x' y' X Y X' Y' (k & K & -> & ->) A B. apply (Fi x y k _ K); auto. split; auto. split; auto. destruct (ipix im x y). cbn in *. subst. reflexivity. }
  pose proof (neighbor_in im Fr _ _ ((ddir d + 0) mod 8) V) as (X0 & Y0). pose proof (neighbor_in im Fr _ _ ((ddir d + n) mod 8) V) as (X1 & Y1).
  unfold placeNext in *. destruct (Z.odd (ddir d)) eqn:O.
  - rewrite typeAt_turn, Z.add_0_r in T'. rewrite labelAt_turn, Z.add_0_r. apply F; auto.
    destruct d as [x y c]; cbn [dcx dcy ddir] in *. destruct W as [-> | ->]; compass D O; cbn;
      first [exists 0; split; [tauto|cbn; lia] | exists 2; split; [tauto|cbn; lia] | exists 4; split; [tauto|cbn; lia] | exists 6; split; [tauto|cbn; lia]].
  - assert (S : stateOK im d) by (split; auto). destruct (ctypeEqb (typeAt im d n) Vertex).
    + destruct d as [x y c]; cbn [dcx dcy ddir] in *. unfold labelAt, go. cbn [dcx dcy ddir].
      destruct W as [-> | ->]; compass D O; cbn; apply (f_equal plabel); apply f_equal2; lia.
    + destruct (ctypeEqb (typeAt im d (2 * n)) Vertex).
      * replace (labelAt im (go d (2 * n) 0) 0) with (labelAt im d n).
        2:{ destruct d as [x y c]; cbn [dcx dcy ddir] in *. unfold labelAt, go. cbn [dcx dcy ddir]. destruct W as [-> | ->]; compass D O; cbn; apply (f_equal plabel); apply f_equal2; lia. }
        replace (typeAt im (go d (2 * n) 0) 0) with (typeAt im d n) in T' by (symmetry; apply (go_ahead im n d W S O)). apply F; auto.
        destruct d as [x y c]; cbn [dcx dcy ddir] in *. destruct W as [-> | ->]; compass D O; cbn;
          first [exists 0; split; [tauto|cbn; lia] | exists 2; split; [tauto|cbn; lia] | exists 4; split; [tauto|cbn; lia] | exists 6; split; [tauto|cbn; lia]].
      * rewrite typeAt_turn, Z.add_0_r in T'. rewrite labelAt_turn, Z.add_0_r. apply F; auto.
        destruct d as [x y c]; cbn [dcx dcy ddir] in *. destruct W as [-> | ->]; compass D O; cbn;
          first [exists 0; split; [tauto|cbn; lia] | exists 2; split; [tauto|cbn; lia] | exists 4; split; [tauto|cbn; lia] | exists 6; split; [tauto|cbn; lia]].
Qed.

(** beside a dart there is a place that points to the region the functions read *)
Lemma side_first n d : way n -> isDart im d ->
  (typeAt im (placeNext im n d) 0 = Region /\ labelAt im (placeNext im n d) 0 = sideOf im n d) \/
  (typeAt im (placeNext im n d) 0 = Line /\ ~ isDart im (placeNext im n d) /\
   typeAt im (placeNext im n (placeNext im n d)) 0 = Region /\ labelAt im (placeNext im n (placeNext im n d)) 0 = sideOf im n d).
Proof.
  intros W I. pose proof (dart_place im d I) as P. destruct I as (V & D & L & C). destruct (place_next im Fr n d W P) as (P1 & _).
  assert (S : stateOK im d) by (split; auto). unfold sideOf. remember (placeNext im n d) as t eqn:Et. unfold placeNext in Et. destruct (Z.odd (ddir d)) eqn:O.
  - specialize (C eq_refl). left. subst t. rewrite typeAt_turn, labelAt_turn, Z.add_0_r. assert (T : typeAt im d n = Region) by (destruct W as [-> | ->]; apply C).
    rewrite T. auto.
  - destruct (ctypeEqb (typeAt im d n) Vertex) eqn:A.
    { apply CellSigma_Proofs.ctypeEqb_eq in A. exfalso. apply (neat_side im Fr Ne n d W S O A L). }
    destruct (Ai d n V (even_in d D O) W L) as [R|R].
    + left. rewrite R. cbn [ctypeEqb]. destruct (ctypeEqb (typeAt im d (2 * n)) Vertex); subst t.
      * split; [rewrite <- R; apply (go_ahead im n d W S O)|].
        destruct d as [x y c]; cbn [dcx dcy ddir] in *. unfold labelAt, go. cbn [dcx dcy ddir]. destruct W as [-> | ->]; compass D O; cbn; apply (f_equal plabel); apply f_equal2; lia.
      * rewrite typeAt_turn, labelAt_turn, Z.add_0_r. auto.
    + rewrite R in *. cbn [ctypeEqb] in *. subst t. destruct (place_types _ P1) as [T|T]; rewrite typeAt_turn, Z.add_0_r in T.
      * left. rewrite typeAt_turn, labelAt_turn, Z.add_0_r, T. auto.
      * right. rewrite T. cbn [ctypeEqb]. rewrite typeAt_turn, Z.add_0_r. split; auto.
        assert (O1 : Z.odd (ddir (turn n d)) = true) by (rewrite odd_turn, O, odd_way by exact W; reflexivity).
        split; [|unfold placeNext; rewrite O1, turn_turn, typeAt_turn, labelAt_turn, !Z.add_0_r; replace (n + n) with (2 * n) by lia; auto].
        intros (_ & _ & _ & Q). specialize (Q O1). rewrite !typeAt_turn in Q. destruct Q as (Q1 & Q2). destruct W as [-> | ->]; cbn in Q1, Q2; congruence.
Qed.

(** no dart among the places from [d] on but [d]: the ones that point to regions have the label beside [d] *)
Lemma side_chain n d k : way n -> isDart im d -> (0 < k)%nat -> (forall j, (0 < j <= k)%nat -> ~ isDart im (places j im n d)) ->
  typeAt im (places k im n d) 0 = Region -> labelAt im (places k im n d) 0 = sideOf im n d.
Proof.
  intros W I K N T.
  assert (Pj : forall j, isPlace im (places j im n d)) by (intros j; apply places_ok; auto; apply dart_place, I).
  assert (Wm : way (- n)) by (apply way_opp, W).
  assert (Bk : forall j, placeNext im (- n) (places (Datatypes.S j) im n d) = places j im n d) by (intros j; rewrite places_S; apply place_next; auto).
  (* in between *)
  assert (R : forall j, (2 <= j <= k)%nat -> typeAt im (places j im n d) 0 = Region).
  { intros j J. destruct (Nat.eq_dec j k) as [->|Jk]; auto. destruct (place_types _ (Pj j)) as [X|X]; auto. exfalso.
    destruct j as [|[|j]]; try lia.
    assert (Up : placeNext im n (places (Datatypes.S (Datatypes.S j)) im n d) = places (Datatypes.S (Datatypes.S (Datatypes.S j))) im n d) by (symmetry; apply places_S).
    assert (Q : isDart im (places (Datatypes.S (Datatypes.S j)) im n d) \/ isDart im (placeNext im n (places (Datatypes.S (Datatypes.S j)) im n d)) \/ isDart im (placeNext im (- n) (places (Datatypes.S (Datatypes.S j)) im n d))).
    { destruct (near_dart _ (Pj (Datatypes.S (Datatypes.S j)))) as [Y|[Y|Y]]; [congruence| | |]; auto; destruct W as [-> | ->]; auto. }
    rewrite Up, Bk in Q. destruct Q as [Y|[Y|Y]]; [apply (N (Datatypes.S (Datatypes.S j)))|apply (N (Datatypes.S (Datatypes.S (Datatypes.S j))))|apply (N (Datatypes.S j))]; auto; lia. }
  assert (Ch : forall i j, (i <= j <= k)%nat -> (forall t, (i <= t <= j)%nat -> typeAt im (places t im n d) 0 = Region) -> labelAt im (places j im n d) 0 = labelAt im (places i im n d) 0).
  { intros i j. induction j; intros J Rg; [replace i with O by lia; reflexivity|]. destruct (Nat.eq_dec i (Datatypes.S j)) as [->|X]; auto.
    rewrite <- IHj; [|lia|intros t Ht; apply Rg; lia]. rewrite places_S. apply side_step; auto; [apply Rg; lia|]. rewrite <- places_S. apply Rg. lia. }
  destruct (side_first n d W I) as [(T1 & E1)|(T1 & _ & T2 & E2)].
  - rewrite <- E1. apply (Ch 1%nat k); [lia|]. intros t Ht. destruct (Nat.eq_dec t 1) as [->|X]; [exact T1|]. apply R. lia.
  - destruct (Nat.eq_dec k 1) as [->|X]; [cbn in T; congruence|]. rewrite <- E2. apply (Ch 2%nat k); [lia|]. intros t Ht. apply R. lia.
Qed.

(** the same face lies beside a dart and the next one around the node *)
Lemma side_next n d d' : way n -> isDart im d -> nextDart im n d d' -> sideOf im (- n) d' = sideOf im n d.
Proof.
  intros W I (I' & k & K & E & N). assert (Wm : way (- n)) by (apply way_opp, W).
  assert (B : forall j, (j <= k)%nat -> places j im (- n) d' = places (k - j) im n d).
  { intros j J. rewrite <- E. replace k with ((k - j) + j)%nat at 1 by lia. rewrite places_add. apply places_inv; auto. apply places_ok; auto. apply dart_place, I. }
  (* a place between the two that points to a region *)
  assert (X : exists j, (0 < j < k)%nat /\ typeAt im (places j im n d) 0 = Region).
  { destruct (side_first n d W I) as [(T1 & E1)|(T1 & N1 & T2 & E2)].
    - exists 1%nat. split; auto. destruct (Nat.eq_dec k 1) as [->|]; [|lia]. exfalso. cbn in E. rewrite E in T1. destruct I' as (_ & _ & L & _). congruence.
    - exists 2%nat. split; auto. destruct (Nat.eq_dec k 1) as [->|]; [exfalso; cbn in E; rewrite E in N1; auto|]. destruct (Nat.eq_dec k 2) as [->|]; [|lia].
      exfalso. cbn in E. rewrite E in T2. destruct I' as (_ & _ & L & _). congruence. }
  destruct X as (j & J & T). transitivity (labelAt im (places j im n d) 0).
  - symmetry. replace j with (k - (k - j))%nat in T |- * by lia. rewrite <- B in T |- * by lia. apply side_chain; auto; [lia|].
    intros t Ht. rewrite B by lia. apply N. lia.
  - apply side_chain; auto; [lia|]. intros t Ht. apply N. lia.
Qed.

Hypothesis Jo : joined im.
Lemma places_label k n d : way n -> isPlace im d -> nodeOf im (places k im n d) = nodeOf im d.
Proof.
  intros W P. pose proof (places_node im Fr Jo k n d _ W P (vertex_owns im _ _ (proj1 P))) as (_ & _ & Q). unfold nodeOf. rewrite Q. reflexivity.
Qed.
Hypothesis Ri : ringed im.
(** the regions around a node with darts *)
Lemma side_any d a : isPlace im d -> typeAt im d 0 = Region -> isDart im a -> nodeOf im a = nodeOf im d ->
  exists b, isDart im b /\ nodeOf im b = nodeOf im d /\ labelAt im d 0 = sideOf im 1 b.
Proof.
  intros P T A En. assert (W : way (-1)) by (right; reflexivity). assert (W1 : way 1) by (left; reflexivity).
  destruct (Ri a d (dart_place im a A) P En) as (k & K).
  assert (K0 : (0 < k)%nat) by (destruct k; [cbn in K; subst a; destruct A as (_ & _ & L & _); congruence|lia]).
  assert (Kb : places k im (-1) d = a) by (rewrite <- K; apply (places_inv im Fr k 1 a W1 (dart_place im a A))).
  destruct (least (fun j => isDart im (places j im (-1) d)) (fun j => isDart_dec im _) k K0) as (i & Hi & Di & Li); [rewrite Kb; exact A|].
  exists (places i im (-1) d). split; auto. split; [apply places_label; auto|].
  assert (B : forall j, (j <= i)%nat -> places j im 1 (places i im (-1) d) = places (i - j) im (-1) d).
  { intros j J. replace i with ((i - j) + j)%nat at 1 by lia. rewrite places_add. apply (places_inv im Fr j (-1)); auto. apply places_ok; auto. }
  assert (E : places i im 1 (places i im (-1) d) = d) by (apply (places_inv im Fr i (-1)); auto).
  rewrite <- E at 1. apply side_chain; auto; [lia| |rewrite E; exact T].
  intros j Hj. rewrite B by lia. destruct (Nat.eq_dec j i) as [->|X]; [rewrite Nat.sub_diag; cbn; intros (_ & _ & L & _); congruence|]. apply Li. lia.
Qed.
(** and around one without *)
Lemma side_alone d d' : isPlace im d -> isPlace im d' -> nodeOf im d = nodeOf im d' -> (forall e, isDart im e -> nodeOf im e <> nodeOf im d) ->
  typeAt im d 0 = Region /\ labelAt im d' 0 = labelAt im d 0.
Proof.
  intros P P' En No. assert (W1 : way 1) by (left; reflexivity).
  assert (R : forall e, isPlace im e -> nodeOf im e = nodeOf im d -> typeAt im e 0 = Region).
  { intros e Pe Ee. destruct (place_types e Pe) as [T|T]; auto. exfalso.
    destruct (near_dart e Pe) as [Y|[Y|Y]]; [congruence| | |]; apply (No _ Y); auto; rewrite <- Ee.
    - apply (places_label 1 1 e); auto.
    - apply (places_label 1 (-1) e); auto. right. reflexivity. }
  split; auto. destruct (Ri d d' P P' En) as (k & <-). clear P' En. induction k; [reflexivity|]. rewrite places_S. rewrite <- IHk.
  assert (Pk : isPlace im (places k im 1 d)) by (apply places_ok; auto).
  apply side_step; auto; apply R; auto; [apply places_label; auto|apply place_next; auto|]. rewrite <- places_S. apply places_label; auto.
Qed.

(** ** The functions *)
Lemma leftFace_is d : vertexAt im (dcx d) (dcy d) -> leftFaceLabel im d = Ok (sideOf im 1 d).
Proof.
  intros V. unfold leftFaceLabel. rewrite !neighbor_read by auto. cbn [bind]. fold (typeAt im d 1). unfold sideOf, labelAt. destruct (ctypeEqb (typeAt im d 1) Region); reflexivity.
Qed.
Lemma rightFace_is d : vertexAt im (dcx d) (dcy d) -> rightFaceLabel im d = Ok (sideOf im (-1) d).
Proof.
  intros V. unfold rightFaceLabel. rewrite !neighbor_read by auto. cbn [bind]. fold (typeAt im d (-1)). unfold sideOf, labelAt. destruct (ctypeEqb (typeAt im d (-1)) Region); reflexivity.
Qed.
(** beside a dart there is indeed a region *)
Lemma side_region n d : way n -> isDart im d -> exists x y, owns im Region (sideOf im n d) x y.
Proof.
  intros W (V & D & L & C). assert (Q : typeAt im d n = Region \/ typeAt im d (2 * n) = Region).
  { destruct (Z.odd (ddir d)) eqn:O; [left; destruct W as [-> | ->]; apply C; reflexivity|]. apply Ai; auto. apply even_in; auto. }
  assert (G : forall k, typeAt im d k = Region -> exists x y, owns im Region (labelAt im d k) x y).
  { intros k T. destruct (neighbor_in im Fr _ _ ((ddir d + k) mod 8) V) as (X & Y). eexists _, _. split; [exact X|]. split; [exact Y|].
    unfold typeAt in T. unfold labelAt. destruct (ipix im _ _). cbn in *. subst. reflexivity. }
  unfold sideOf. destruct (ctypeEqb (typeAt im d n) Region) eqn:E; apply G; [apply CellSigma_Proofs.ctypeEqb_eq, E|].
  destruct Q as [Q|Q]; auto. rewrite Q in E. discriminate E.
Qed.
End Walk.
