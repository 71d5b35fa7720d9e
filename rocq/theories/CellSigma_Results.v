(** C65: nextSigma and prevSigma are the neighbours in the cyclic order of the darts around a node. *)
From Coq Require Import Lia.
From Verif Require Import Base CellMap_Model CellMap_Spec CellMap_Main CellSigma_Spec CellSigma_Proofs.
Local Open Scope Z_scope.

(** ** The first dart *)
Definition isDartB (im : img) (d : dart) : bool :=
  (0 <=? dcx d) && (dcx d <? iw im) && (0 <=? dcy d) && (dcy d <? ih im) && ctypeEqb (ptype (ipix im (dcx d) (dcy d))) Vertex &&
  (0 <=? ddir d) && (ddir d <? 8) && ctypeEqb (typeAt im d 0) Line &&
  (negb (Z.odd (ddir d)) || (ctypeEqb (typeAt im d 1) Region && ctypeEqb (typeAt im d (-1)) Region)).
Lemma isDartB_holds im d : isDartB im d = true <-> isDart im d.
Proof.
  unfold isDartB, isDart, vertexAt. rewrite !Bool.andb_true_iff, Bool.orb_true_iff, Bool.negb_true_iff, Bool.andb_true_iff, !Z.leb_le, !Z.ltb_lt, !ctypeEqb_eq.
  destruct (Z.odd (ddir d)); intuition congruence.
Qed.
Lemma isDart_dec im d : {isDart im d} + {~ isDart im d}.
Proof. destruct (isDartB im d) eqn:E; [left; apply isDartB_holds, E|right; intros H; apply isDartB_holds in H; congruence]. Qed.

Lemma least (P : nat -> Prop) (dec : forall j, {P j} + {~ P j}) k : (0 < k)%nat -> P k -> exists i, (0 < i <= k)%nat /\ P i /\ forall j, (0 < j < i)%nat -> ~ P j.
Proof.
  revert P dec. induction k as [|k IH]; intros P dec K H; [lia|].
  destruct (dec 1%nat) as [Y|N].
  - exists 1%nat. split; [lia|]. split; auto. lia.
  - destruct k as [|k]; [contradiction|].
    destruct (IH (fun j => P (S j)) (fun j => dec (S j)) ltac:(lia) H) as (i & I & Hi & L).
    exists (S i). split; [lia|]. split; auto. intros [|[|j]] J; [lia|exact N|]. apply L. lia.
Qed.

Section First.
Variable im : img.
Hypothesis Fr : framed im.

Lemma next_exists n d : way n -> isDart im d -> exists d', nextDart im n d d'.
Proof.
  intros W D. destruct (places_return im Fr n d W (dart_place im d D)) as (k & K & E).
  destruct (least (fun j => isDart im (places j im n d)) (fun j => isDart_dec im _) k K) as (i & I & H & L); [rewrite E; exact D|].
  exists (places i im n d). split; auto. exists i. split; [lia|]. auto.
Qed.
Lemma next_unique n d a b : nextDart im n d a -> nextDart im n d b -> a = b.
Proof.
  intros (Da & i & I & Ea & La) (Db & j & J & Eb & Lb). subst a b.
  destruct (Nat.lt_trichotomy i j) as [T|[T|T]]; [|congruence|]; exfalso; [apply (Lb i)|apply (La j)]; auto; lia.
Qed.
Lemma next_back n d d' : way n -> isDart im d -> nextDart im n d d' -> nextDart im (- n) d' d.
Proof.
  intros W D (D' & k & K & E & L). split; auto. exists k. split; auto. subst d'.
  assert (B : forall j, (j <= k)%nat -> places j im (- n) (places k im n d) = places (k - j) im n d).
  { intros j J. replace k with ((k - j) + j)%nat at 1 by lia. rewrite places_add. apply places_inv; auto. apply places_ok; auto. apply dart_place, D. }
  split; [rewrite B by lia; rewrite Nat.sub_diag; reflexivity|]. intros j J. rewrite B by lia. apply L. lia.
Qed.

Hypothesis Ne : neat im.
Lemma stops_next n d k : way n -> isPlace im d -> isDart im (places k im n d) -> (0 < k)%nat -> (forall j, (0 < j < k)%nat -> ~ isDart im (places j im n d)) ->
  stops im n (tryOf im n d) (places k im n d).
Proof.
  intros W. revert d. induction k as [|k IH]; intros d P H K L; [lia|]. cbn [places] in *.
  pose proof (proj1 (place_next im Fr n d W P)) as P'.
  destruct (one_place im Fr Ne n d W P) as [(I & S)|(I & S)].
  - destruct k; auto. exfalso. apply (L 1%nat); [lia|]. exact I.
  - destruct k; [contradiction|]. apply S. apply IH; auto; [lia|]. intros j J. apply (L (Datatypes.S j)). lia.
Qed.
Lemma sigma_next n d d' : way n -> isDart im d -> nextDart im n d d' -> sigmaStep im n d = Ok d'.
Proof.
  intros W D (D' & k & K & E & L). pose proof (dart_place im d D) as P. subst d'.
  unfold sigmaStep, isSingular. rewrite neighbor_read by (auto; apply D). cbn [bind]. fold (typeAt im d 0).
  destruct D as (V & R & T & C). rewrite T. cbn [ctypeEqb negb].
  rewrite try_read by auto. cbn [bind]. apply stops_loop; auto; [apply try_ok, place_state, P|]. apply stops_next; auto.
Qed.
Theorem sigma_defined n d : way n -> isDart im d -> exists d', sigmaStep im n d = Ok d' /\ nextDart im n d d' /\ sigmaStep im (- n) d' = Ok d.
Proof.
  intros W D. destruct (next_exists n d W D) as (d' & N). exists d'. split; [apply sigma_next; auto|]. split; auto.
  apply sigma_next; auto; [apply way_opp, W|apply N|]. apply next_back; auto.
Qed.

(** the walk stays at the node *)
Hypothesis Jo : joined im.
Lemma place_node n d l : way n -> isPlace im d -> owns im Vertex l (dcx d) (dcy d) -> owns im Vertex l (dcx (placeNext im n d)) (dcy (placeNext im n d)).
Proof.
  intros W P O. pose proof (proj1 (place_next im Fr n d W P)) as (V & _). revert V. unfold placeNext.
  destruct (Z.odd (ddir d)); auto. destruct (ctypeEqb (typeAt im d n) Vertex).
  { intros V. apply Jo; auto. apply mod8. }
  destruct (ctypeEqb (typeAt im d (2 * n)) Vertex); auto. intros V. apply Jo; auto. apply mod8.
Qed.
Lemma places_node k n d l : way n -> isPlace im d -> owns im Vertex l (dcx d) (dcy d) -> owns im Vertex l (dcx (places k im n d)) (dcy (places k im n d)).
Proof. intros W. revert d. induction k; intros d P O; cbn [places]; auto. apply IHk; [apply place_next|apply place_node]; auto. Qed.
Lemma next_node n d d' : way n -> isDart im d -> nextDart im n d d' -> startNodeLabel im d' = startNodeLabel im d.
Proof.
  intros W D (D' & k & K & E & L). pose proof (dart_place im d D) as P.
  assert (R : forall e l, owns im Vertex l (dcx e) (dcy e) -> startNodeLabel im e = Ok l).
  { intros e l (X & Y & T). unfold startNodeLabel, centerPix, readPix, insideImg.
    replace ((0 <=? dcx e) && _ && _ && _)%bool with true by (symmetry; rewrite !Bool.andb_true_iff, !Z.leb_le, !Z.ltb_lt; lia). cbn [bind]. rewrite T. reflexivity. }
  assert (O : owns im Vertex (plabel (ipix im (dcx d) (dcy d))) (dcx d) (dcy d)).
  { destruct D as ((X & Y & T) & _). split; auto. split; auto. destruct (ipix im (dcx d) (dcy d)); cbn in *; congruence. }
  rewrite (R _ _ O). apply R. subst d'. apply places_node; auto.
Qed.
End First.

(** ** The operations keep it so *)
Definition tame (im : img) : Prop := neat im /\ joined im.

(** [im'] arises from [im] by giving all pixels of the types and labels in [gone] the type [t] and the label [l] *)
Lemma tame_taken m m' t l gone : framed (cim m) -> takenOver m m' t l gone -> tame (cim m) ->
  (t = Region \/ (t = Line /\ forall u k, In (u, k) gone -> u = Line \/ u = Vertex)) -> tame (cim m').
Proof.
  intros Fr (W & H & P & _) (Ne & Jo) T.
  set (im := cim m) in *. set (im' := cim m') in *.
  assert (TV : t <> Vertex) by (destruct T as [->|(-> & _)]; discriminate).
  (* node pixels were node pixels *)
  assert (VV : forall x y, 0 <= x < iw im -> 0 <= y < ih im -> ptype (ipix im' x y) = Vertex ->
             ipix im' x y = ipix im x y /\ ~ In (ptype (ipix im x y), plabel (ipix im x y)) gone).
  { intros x y X Y V. destruct (P x y X Y) as (A & B).
    assert (N : ~ In (ptype (ipix im x y), plabel (ipix im x y)) gone) by (intros I; rewrite (A I) in V; cbn in V; congruence).
    split; auto. }
  split.
  - intros x y k X Y K L V1 V2. rewrite W, H in *.
    assert (NX : forall k, 0 <= x + dirX k < iw im /\ 0 <= y + dirY k < ih im) by (intros j; pose proof (dirX_bound j); pose proof (dirY_bound j); lia).
    destruct (VV _ _ (proj1 (NX _)) (proj2 (NX _)) V1) as (E1 & N1). destruct (VV _ _ (proj1 (NX _)) (proj2 (NX _)) V2) as (E2 & N2).
    rewrite E1 in V1. rewrite E2 in V2. destruct (P x y ltac:(lia) ltac:(lia)) as (A & B).
    destruct (in_dec (fun a b : ctype * Z => ltac:(decide equality; [apply Z.eq_dec|decide equality]) : {a = b} + {a <> b}) (ptype (ipix im x y), plabel (ipix im x y)) gone) as [I|I].
    + rewrite (A I) in L. cbn in L. destruct T as [->|(_ & T)]; [discriminate L|].
      destruct (ptype (ipix im x y)) eqn:Pt.
      * destruct (T _ _ I); discriminate.
      * apply (Ne x y k); auto.
      * (* the pixel belonged to the node *)
        apply N1. assert (O : owns im Vertex (plabel (ipix im x y)) x y) by (repeat split; try lia; destruct (ipix im x y); cbn in *; congruence).
        assert (K8 : 0 <= k < 8) by (cbn in K; intuition lia).
        destruct (Jo x y k _ K8 O ltac:(split; [apply NX|split; [apply NX|exact V1]])) as (_ & _ & Q). rewrite Q. exact I.
      * destruct (T _ _ I); discriminate.
    + rewrite (B I) in L. apply (Ne x y k); auto.
  - intros x y k j K (X & Y & O) (X' & Y' & V). fold im' in O, V. rewrite W, H in *.
    assert (V0 : ptype (ipix im' x y) = Vertex) by (rewrite O; reflexivity).
    destruct (VV x y X Y V0) as (E & N). destruct (VV _ _ X' Y' V) as (E' & N').
    split; [rewrite W; exact X'|]. split; [rewrite H; exact Y'|]. rewrite E'. rewrite E in O. rewrite E' in V.
    apply (Jo x y k j K); [split; auto|split; auto].
Qed.

Lemma tidy_history m : chistory tidy m -> tidy m.
Proof.
  induction 1 as [m H|m c m' s H IH A E]; auto. destruct IH as (So & Ne & Jo).
  assert (T : tame (cim m)) by (split; auto). assert (Fr : framed (cim m)) by apply So.
  assert (R : sound m' /\ callEffect m m' c s) by (apply cexec_sound; auto). destruct R as (So' & Ef). split; auto.
  destruct c as [d|d|d|d]; cbn [callEffect] in Ef.
  - destruct Ef as (n & _ & _ & Q). apply (tame_taken _ _ _ _ _ Fr Q T). auto.
  - destruct Ef as (e & f & l & r & _ & _ & _ & _ & Q). apply (tame_taken _ _ _ _ _ Fr Q T). auto.
  - destruct Ef as (e & _ & _ & _ & Q). apply (tame_taken _ _ _ _ _ Fr Q T). auto.
  - destruct Ef as (n & e & d1 & _ & _ & _ & Q). apply (tame_taken _ _ _ _ _ Fr Q T). right. split; auto.
    intros u k [X|[X|[]]]; injection X as <- <-; auto.
Qed.

Theorem sigma_around m d : chistory tidy m -> isDart (cim m) d ->
  exists d', nextSigma (cim m) d = Ok d' /\ nextDart (cim m) 1 d d' /\ prevSigma (cim m) d' = Ok d /\ startNodeLabel (cim m) d' = startNodeLabel (cim m) d.
Proof.
  intros H D. destruct (tidy_history m H) as ((_ & Fr & _) & Ne & Jo). assert (W : way 1) by (left; auto).
  destruct (sigma_defined (cim m) Fr Ne 1 d W D) as (d' & A & B & C). exists d'. repeat (split; auto). eapply next_node; eauto.
Qed.
Theorem sigma_back m d : chistory tidy m -> isDart (cim m) d ->
  exists d', prevSigma (cim m) d = Ok d' /\ nextDart (cim m) (-1) d d' /\ nextSigma (cim m) d' = Ok d /\ startNodeLabel (cim m) d' = startNodeLabel (cim m) d.
Proof.
  intros H D. destruct (tidy_history m H) as ((_ & Fr & _) & Ne & Jo). assert (W : way (-1)) by (right; auto).
  destruct (sigma_defined (cim m) Fr Ne (-1) d W D) as (d' & A & B & C). exists d'. repeat (split; auto). eapply next_node; eauto.
Qed.
