(** C66, C67 and the test of degrees, anchors and edge ends in checkConsistency(). *)
From Coq Require Import Lia.
From Verif Require Import Base CellMap_Model CellMap_Spec CellMap_Main CellMap_Check CellSigma_Spec CellSigma_Proofs CellSigma_Results CellLink_Spec CellLink_Proofs CellLink_Main CellLink_Results.
Local Open Scope Z_scope.

(** foureightsegmentation.cxx 511-513: do { ++realDegree; } while(dart.nextSigma() != it->anchor) *)
Fixpoint recountLoop (fuel : nat) (im : img) (a d : dart) (c : Z) : res Z :=
  match fuel with
  | O => NoFuel
  | Datatypes.S k =>
      let c' := (c + 1) mod 2 ^ 32 in d' <- nextSigma im d ;; q <- dartEq im d' a ;; if q : bool then Ok c' else recountLoop k im a d' c'
  end.
(** 499-525; the list of the sigma successors is only printed if the test fails and is left out *)
Definition checkNode (im : img) (n : ninfo) : res bool :=
  c <- centerPix im (nanchor n) ;; s <- isSingular im (nanchor n) ;;
  g <- (if negb s then recountLoop (walkFuel im) im (nanchor n) (nanchor n) 0 else Ok 0) ;;
  Ok (ctypeEqb (ptype c) Vertex && (g =? ndegree n)).
(** 554-580 *)
Definition checkEdge (im : img) (e : einfo) : res bool :=
  c1 <- centerPix im (estart e) ;; l1 <- edgeLabel im (estart e) ;; c2 <- centerPix im (eend e) ;; l2 <- edgeLabel im (eend e) ;;
  Ok (ctypeEqb (ptype c1) Vertex && (l1 =? clabel (einf e)) && ctypeEqb (ptype c2) Vertex && (l2 =? clabel (einf e))).
(** the loops 497-538 and 541-581 without the bounds, which [checkBounds] tests; the iterators skip cells that are not initialized *)
Fixpoint checkAll {A} (live : A -> bool) (f : A -> res bool) (l : list A) : res bool :=
  match l with
  | [] => Ok true
  | h :: t => if live h then b <- f h ;; b' <- checkAll live f t ;; Ok (b && b') else checkAll live f t
  end.
Definition checkDarts (m : cmap) : res bool :=
  a <- checkAll (fun n => initialized (ninf n)) (checkNode (cim m)) (cnodes m) ;;
  b <- checkAll (fun e => initialized (einf e)) (checkEdge (cim m)) (cedges m) ;; Ok (a && b).

(** ** The invariant *)
Lemma call_tidy m c m' s : tidy m -> callAllowed m c -> cexec m c = Ok (m', s) -> tidy m'.
Proof. intros T A E. apply tidy_history. apply (ch_call tidy m c m' s); auto. apply ch_start, T. Qed.
(** the two darts at the node that mergeEdges() takes away *)
Lemma join_facts m d m' s : wired m -> isDart (cim m) d -> mergeEdges m d = Ok (m', s) -> callEffect m m' (CMergeEdges d) s ->
  exists n ml d2 d3 a1 a2, takenOver m m' Line s [(Vertex, n); (Line, ml)] /\ cinit m' = cinit m /\ map ends (cedges m') = list_upd (map ends (cedges m)) (Z.to_nat s) (a1, a2) /\
    map hubI (cnodes m') = map hubI (cnodes m) /\ isDart (cim m) d2 /\ isDart (cim m) d3 /\ nextDart (cim m) 1 d2 d3 /\ nextDart (cim m) 1 d3 d2 /\
    nodeOf (cim m) d2 = n /\ nodeOf (cim m) d3 = n /\ edgeOf (cim m) d2 = ml /\ edgeOf (cim m) d3 = s /\ s <> ml /\ nextAlpha m d3 = Ok a1 /\ nextAlpha m d2 = Ok a2 /\
    (forall x, isDart (cim m) x -> nodeOf (cim m) x = n -> x = d2 \/ x = d3) /\ nodeOf (cim m) d = n.
Proof.
  intros Wi Dd E Ef. assert (Ti : tidy m) by apply Wi. assert (So : sound m) by apply Ti. assert (Fr : framed (cim m)) by apply So. cbn [callEffect] in Ef.
  destruct (mergeEdges_view _ _ _ _ E) as (d1 & d2 & d3 & a1 & a2 & b & ml & S1 & Sb & S3 & Q & L3 & L2 & Dl & A1 & A2 & Ps & Ci & Ee & Hh).
  destruct Ef as (n & e & d1' & S1' & En & Le & Ta). assert (d1' = d1) by congruence. subst d1'.
  destruct Ti as (_ & Ne & Jo). assert (W1 : way 1) by (left; auto).
  assert (St : forall x y, isDart (cim m) x -> nextSigma (cim m) x = Ok y -> isDart (cim m) y /\ nextDart (cim m) 1 x y /\ nodeOf (cim m) y = nodeOf (cim m) x).
  { intros x y Dx Sx. destruct (sigma_defined (cim m) Fr Ne 1 x W1 Dx) as (y' & U & V & _). unfold nextSigma in Sx. assert (y' = y) by congruence. subst y'.
    pose proof (next_node (cim m) Fr Jo 1 x y W1 Dx V) as N. split; [apply V|]. split; auto. rewrite !nodeLabel_dart in N by (apply Dx || apply V). congruence. }
  assert (Two : isDart (cim m) d2 /\ isDart (cim m) d3 /\ nextDart (cim m) 1 d2 d3 /\ nextDart (cim m) 1 d3 d2 /\ nodeOf (cim m) d3 = nodeOf (cim m) d2 /\ nodeOf (cim m) d2 = nodeOf (cim m) d /\
                ((d2 = d /\ d3 = d1) \/ (d2 = d1 /\ d3 = d))).
  { destruct (St _ _ Dd S1) as (D1 & N1 & No1). destruct b.
    - destruct (St _ _ D1 Sb) as (D2 & N2 & No2). unfold dartEq in Q. rewrite singular_dart in Q by auto. cbn [bind negb] in Q. injection Q as Q.
      apply dart_ext in Q; [|apply D2|apply Dd]. subst d2. assert (d3 = d1) by congruence. subst d3. repeat (split; [assumption || congruence|]). left. auto.
    - subst d2. destruct (St _ _ D1 S3) as (D3 & N3 & No3). unfold dartEq in Q. rewrite singular_dart in Q by auto. cbn [bind negb] in Q. injection Q as Q.
      apply dart_ext in Q; [|apply D3|apply Dd]. subst d3. repeat (split; [assumption || congruence|]). right. auto. }
  destruct Two as (D2 & D3 & N23 & N32 & No3 & No2 & Wh).
  assert (D1 : isDart (cim m) d1) by (destruct Wh as [(_ & <-)|(<- & _)]; auto).
  assert (Nn : nodeOf (cim m) d = n).
  { destruct En as [En|En]; rewrite nodeLabel_dart in En by (apply Dd || apply D1); injection En as En; auto.
    destruct Wh as [(X & Y)|(X & Y)]; subst; congruence. }
  rewrite edgeLabel_dart in L2, L3 by (auto; apply D2 || apply D3). injection L2 as L2. injection L3 as L3.
  assert (Df : s <> ml).
  { intros X. destruct (edge_nth m s So d3 D3 L3) as (se & Se & _ & Pz). apply (Dl se se); [apply at_Ok; auto|rewrite <- X; apply at_Ok; auto|reflexivity]. }
  assert (Em : e = ml).
  { rewrite !edgeLabel_dart in Le by (auto; apply Dd || apply D1). destruct Le as [(U & V)|(U & V)]; injection U as U; injection V as V; destruct Wh as [(X & Y)|(X & Y)]; subst; congruence. }
  subst e. exists n, ml, d2, d3, a1, a2. repeat (split; [assumption || congruence|]).
  split; [|exact Nn]. intros x Dx Nx. apply (two_around (cim m) d2 d3); auto; [apply Wi|congruence].
Qed.
Lemma wired_step m c m' s : wired m -> dartAllowed m c -> cexec m c = Ok (m', s) -> wired m'.
Proof.
  intros Wi (A & Dd) E. assert (Ti : tidy m) by apply Wi. pose proof (call_tidy _ _ _ _ Ti A E) as Ti'.
  assert (So : sound m) by apply Ti. assert (Fr : framed (cim m)) by apply So. destruct (cexec_sound m c m' s So A E) as (_ & Ef).
  destruct c as [d|d|d|d]; cbn [callEffect cexec] in Ef, E, Dd.
  - destruct Ef as (n & En & _ & Ta). apply (alone_wired m m' s n Wi Ti' Ta); [eapply removeIsolatedNode_view, E|].
    destruct A as (n0 & f & O & _). assert (N0 : nodeOf (cim m) d = n) by (rewrite nodeLabel_dart in En; [congruence|]; destruct O as (X & Y & P); split; auto; split; auto; rewrite P; reflexivity).
    intros e D. rewrite <- N0. auto.
  - destruct Ef as (e & f & l & r & Ee & _ & _ & _ & Ta). rewrite edgeLabel_dart in Ee by (auto; apply Dd). injection Ee as Ee.
    destruct (mergeFaces_view _ _ _ _ E) as (rd & el & Rd & El & Cu).
    assert (El' : el = e).
    { destruct Rd as [->|Rd]; [rewrite edgeLabel_dart in El by (auto; apply Dd); congruence|].
      destruct (alpha_ends m d Wi Dd) as (i & a & b & _ & _ & _ & _ & T & Q & Al & _). assert (b = rd) by congruence. subst b.
      assert (Dr : isDart (cim m) rd /\ edgeOf (cim m) rd = edgeOf (cim m) d) by (apply T; auto). destruct Dr as (Dr & Er).
      rewrite edgeLabel_dart in El by (auto; apply Dr). congruence. }
    subst el. apply (cut_wired m m' s e [(Line, e); (Region, f)]); auto; [left; reflexivity| |exists d; auto].
    intros u k [X|[X|[]]]; injection X as <- <-; auto.
  - destruct Ef as (e & Ee & _ & _ & Ta). destruct (removeBridge_view _ _ _ _ E) as (el & El & Cu). assert (el = e) by congruence. subst el.
    rewrite edgeLabel_dart in Ee by (auto; apply Dd). injection Ee as Ee.
    apply (cut_wired m m' s e [(Line, e)]); auto; [left; reflexivity| |exists d; auto].
    intros u k [X|[]]; injection X as <- <-; auto.
  - destruct (join_facts m d m' s Wi Dd E Ef) as (n & ml & d2 & d3 & a1 & a2 & Ta & Ci & Ee & Hh & D2 & D3 & _ & _ & N2 & N3 & L2 & L3 & Df & A1 & A2 & On & _).
    apply (join_wired m m' s n ml d2 d3 a1 a2); auto.
Qed.
Lemma dhistory_wired m : dhistory m -> wired m.
Proof. induction 1 as [m H|m c m' s H IH A E]; auto. exact (wired_step m c m' s IH A E). Qed.

(** ** C66 *)
Theorem alpha_opposite m d : dhistory m -> isDart (cim m) d ->
  exists d', nextAlpha m d = Ok d' /\ isDart (cim m) d' /\ d' <> d /\ nextAlpha m d' = Ok d /\
    forall x, isDart (cim m) x -> (edgeLabel (cim m) x = edgeLabel (cim m) d <-> x = d \/ x = d').
Proof.
  intros H D. apply dhistory_wired in H. assert (Fr : framed (cim m)) by apply H.
  destruct (alpha_ends m d H D) as (e & a & b & _ & _ & Ce & Ie & T & Q & Al & En). subst a. destruct T as (Df & T). exists b.
  assert (Db : isDart (cim m) b /\ edgeOf (cim m) b = edgeOf (cim m) d) by (apply T; auto). destruct Db as (Db & Eb).
  split; auto. split; auto. split; [congruence|]. split.
  - destruct (alpha_ends m b H Db) as (e' & a & b' & _ & _ & Ce' & Ie' & T' & Q' & Al' & En'). subst a. rewrite Eb in *. assert (e' = e) by congruence. subst e'.
    destruct En as [(X & Y)|(X & Y)], En' as [(X' & Y')|(X' & Y')]; congruence.
  - intros x Dx. rewrite !edgeLabel_dart by (auto; apply D || apply Dx). rewrite <- T. unfold dartOfEdge. split; [intros X; injection X; auto|]. intros (_ & ->). reflexivity.
Qed.
Theorem phi_around m d : dhistory m -> isDart (cim m) d ->
  exists d' b, nextPhi m d = Ok d' /\ isDart (cim m) d' /\ nextSigma (cim m) d' = Ok b /\ nextAlpha m b = Ok d.
Proof.
  intros H D. destruct (alpha_opposite m d H D) as (b & A & Db & _ & A' & _). apply dhistory_wired in H.
  destruct H as (_ & ((_ & Fr & _) & Ne & Jo) & _). assert (W : way (-1)) by (right; auto).
  destruct (sigma_defined (cim m) Fr Ne (-1) b W Db) as (d' & U & V & X). exists d', b. split; [unfold nextPhi; rewrite A; exact U|]. split; [apply V|]. split; [exact X|exact A'].
Qed.
Theorem phi_onto m d' : dhistory m -> isDart (cim m) d' -> exists d, isDart (cim m) d /\ nextPhi m d = Ok d'.
Proof.
  intros H D. pose proof (dhistory_wired m H) as (_ & ((_ & Fr & _) & Ne & Jo) & _). assert (W : way 1) by (left; auto).
  destruct (sigma_defined (cim m) Fr Ne 1 d' W D) as (b & U & V & X). destruct (alpha_opposite m b H (proj1 V)) as (d & A & Dd & _ & A' & _).
  exists d. split; auto. unfold nextPhi. rewrite A'. exact X.
Qed.

(** ** C67 *)
Section Turn.
Variable im : img.
Hypothesis Fr : framed im.
Hypothesis Ne : neat im.
Hypothesis Jo : joined im.
Hypothesis Ri : ringed im.
Fixpoint sigmas (k : nat) (d : dart) : res dart := match k with O => Ok d | Datatypes.S j => d' <- nextSigma im d ;; sigmas j d' end.
Let W1 : way 1. Proof. left. reflexivity. Qed.
Lemma sigmas_ok k : forall d, isDart im d -> exists x, sigmas k d = Ok x /\ isDart im x /\ nodeOf im x = nodeOf im d.
Proof.
  induction k; intros d D; cbn [sigmas]; [exists d; auto|]. destruct (sigma_defined im Fr Ne 1 d W1 D) as (x & U & V & _). unfold nextSigma. rewrite U. cbn [bind].
  pose proof (next_node im Fr Jo 1 d x W1 D V) as N. rewrite !nodeLabel_dart in N by (apply D || apply V). injection N as N. rewrite <- N. apply IHk, V.
Qed.
Lemma sigmas_add j : forall k d x, sigmas j d = Ok x -> sigmas (j + k) d = sigmas k x.
Proof.
  induction j; intros k d x; cbn [sigmas Nat.add]; [intros H; injection H as ->; reflexivity|]. intros H. bnd H y Ey. rewrite Ey. cbn [bind]. apply IHj, H.
Qed.
Lemma sigmas_inj j : forall a b x, isDart im a -> isDart im b -> sigmas j a = Ok x -> sigmas j b = Ok x -> a = b.
Proof.
  induction j; intros a b x A B; cbn [sigmas]; [congruence|]. destruct (sigma_defined im Fr Ne 1 a W1 A) as (y & U & V & P). destruct (sigma_defined im Fr Ne 1 b W1 B) as (z & U' & V' & P').
  unfold nextSigma. rewrite U, U'. cbn [bind]. intros X Y. assert (y = z) by (apply (IHj y z x); auto; apply V || apply V'). subst z. congruence.
Qed.
Lemma sigmas_reach k : forall a, isDart im a -> isDart im (places k im 1 a) -> exists i, (i <= k)%nat /\ (0 < k -> 0 < i)%nat /\ sigmas i a = Ok (places k im 1 a).
Proof.
  induction k as [k IH] using lt_wf_ind. intros a A D. destruct (Nat.eq_dec k 0) as [->|K]; [exists O; repeat split; auto; lia|].
  destruct (sigma_defined im Fr Ne 1 a W1 A) as (b & U & (Db & j & J & E & L) & _).
  destruct (Nat.lt_ge_cases k j) as [Q|Q]; [exfalso; apply (L k); auto; lia|].
  replace k with (j + (k - j))%nat in D |- * by lia. rewrite places_add, E in D |- *.
  destruct (IH (k - j)%nat ltac:(lia) b Db D) as (i & I & _ & R). exists (Datatypes.S i). split; [lia|]. split; [lia|]. cbn [sigmas]. unfold nextSigma. rewrite U. exact R.
Qed.
Lemma res_dec (a b : res dart) : {a = b} + {a <> b}.
Proof. decide equality. apply dart_eq_dec. Qed.
(** the first return, and what has been seen till then *)
Lemma sigma_turn a : isDart im a -> exists r ds, (0 < r)%nat /\ sigmas r a = Ok a /\ (forall j, (0 < j < r)%nat -> sigmas j a <> Ok a) /\
  length ds = r /\ NoDup ds /\ (forall d, In d ds <-> dartOfNode im (nodeOf im a) d).
Proof.
  intros A. destruct (places_return im Fr 1 a W1 (dart_place im a A)) as (k & K & E).
  assert (D : isDart im (places k im 1 a)) by (rewrite E; exact A). destruct (sigmas_reach k a A D) as (i & _ & I & R). rewrite E in R. specialize (I K).
  destruct (least (fun j => sigmas j a = Ok a) (fun j => res_dec _ _) i I R) as (r & (Pr & _) & Er & Lr).
  set (at' := fun j => match sigmas j a with Ok x => x | _ => a end).
  assert (At : forall j, sigmas j a = Ok (at' j) /\ isDart im (at' j) /\ nodeOf im (at' j) = nodeOf im a) by (intros j; unfold at'; destruct (sigmas_ok j a A) as (x & -> & Dx); auto).
  exists r, (map at' (seq 0 r)). split; auto. split; auto. split; auto. split; [rewrite map_length, seq_length; reflexivity|].
  assert (Mod : forall j, exists j', (j' < r)%nat /\ sigmas j a = sigmas j' a).
  { intros j. induction j as [j IH] using lt_wf_ind. destruct (Nat.lt_ge_cases j r) as [Q|Q]; [exists j; auto|]. destruct (IH (j - r)%nat ltac:(lia)) as (j' & J' & E').
    exists j'. split; auto. rewrite <- E'. replace j with (r + (j - r))%nat at 1 by lia. apply sigmas_add, Er. }
  split.
  - assert (Gen : forall x y, (x < y < r)%nat -> at' x <> at' y).
    { intros x y H Q. destruct (At x) as (Sx & _). destruct (At y) as (Sy & _). destruct (At (y - x)%nat) as (Sd & Dd & _).
      apply (Lr (y - x)%nat); [lia|]. rewrite Sd. f_equal. apply (sigmas_inj x _ _ (at' x) Dd A); auto.
      rewrite <- (sigmas_add (y - x) x a _ Sd). replace (y - x + x)%nat with y by lia. rewrite Sy, Q. reflexivity. }
    apply NoDup_nth_error. rewrite map_length, seq_length. intros i' j' Hi Q.
    assert (Nth : forall j, nth_error (map at' (seq 0 r)) j = if (j <? r)%nat then Some (at' j) else None).
    { intros j. destruct (Nat.ltb_spec j r) as [J|J].
      - rewrite (map_nth_error at' j (seq 0 r) (d := j)); auto. rewrite (nth_error_nth' _ O) by (rewrite seq_length; lia). rewrite seq_nth by exact J. reflexivity.
      - apply nth_error_None. rewrite map_length, seq_length. exact J. }
    rewrite !Nth in Q. destruct (Nat.ltb_spec i' r) as [J1|J1]; [|lia]. destruct (Nat.ltb_spec j' r) as [J2|J2]; [|discriminate Q]. injection Q as Q.
    destruct (Nat.lt_trichotomy i' j') as [X|[X|X]]; auto; exfalso; [apply (Gen i' j'); auto; lia|apply (Gen j' i'); auto; lia].
  - intros d. rewrite in_map_iff. split.
    + intros (j & <- & _). destruct (At j) as (_ & Dj & Nj). split; auto.
    + intros (Dd & Nd). destruct (Ri a d (dart_place im a A) (dart_place im d Dd) (eq_sym Nd)) as (q & Q). assert (Dq : isDart im (places q im 1 a)) by (rewrite Q; exact Dd).
      destruct (sigmas_reach q a A Dq) as (i' & _ & _ & Ri'). rewrite Q in Ri'. destruct (Mod i') as (j & J & Ej). exists j. split; [|apply in_seq; lia].
      destruct (At j) as (Sj & _). congruence.
Qed.
Lemma degree_loop a r f : isDart im a -> (r < f)%nat -> (forall j, (0 < j < r)%nat -> sigmas j a <> Ok a) -> (0 < r)%nat -> sigmas r a = Ok a -> Z.of_nat r < 2 ^ 32 ->
  recountLoop f im a a 0 = Ok (Z.of_nat r).
Proof.
  intros A Hf L Pr E B.
  assert (G : forall k f i d, (k + i = r)%nat -> (0 < k)%nat -> (k < f)%nat -> sigmas i a = Ok d -> recountLoop f im a d (Z.of_nat i) = Ok (Z.of_nat r)).
  { clear f Hf. induction k as [|k IH]; intros f i d K Kp Hf Sd; [lia|]. destruct f as [|f]; [lia|]. cbn [recountLoop].
    destruct (sigmas_ok i a A) as (d0 & S0 & D0 & _). assert (d0 = d) by congruence. subst d0.
    destruct (sigma_defined im Fr Ne 1 d W1 D0) as (x & U & V & _). unfold nextSigma. rewrite U. cbn [bind].
    assert (Dx : isDart im x) by apply V. unfold dartEq. rewrite singular_dart by auto. cbn [bind negb].
    assert (Sx : sigmas (Datatypes.S i) a = Ok x).
    { replace (Datatypes.S i) with (i + 1)%nat by lia. rewrite (sigmas_add i 1 a d Sd). cbn [sigmas]. unfold nextSigma. rewrite U. reflexivity. }
    replace ((Z.of_nat i + 1) mod 2 ^ 32) with (Z.of_nat (Datatypes.S i)) by (rewrite Z.mod_small; lia).
    destruct (Nat.eq_dec k 0) as [->|Kz].
    - replace (Datatypes.S i) with r in * by lia. assert (x = a) by congruence. subst x. unfold dartEqb. rewrite !Z.eqb_refl. reflexivity.
    - destruct (dartEqb x a) eqn:Q.
      + apply dart_ext in Q; [|apply Dx|apply A]. subst x. exfalso. apply (L (Datatypes.S i)); auto. lia.
      + apply IH; auto; lia. }
  apply (G r f O a); auto; lia.
Qed.
Lemma turn_fuel (ds : list dart) : NoDup ds -> (forall d, In d ds -> isDart im d) -> ds <> [] -> (length ds < walkFuel im)%nat.
Proof.
  intros N D X. apply Nat.le_lt_trans with (length (allStates im)).
  - apply NoDup_incl_length; auto. intros d I. apply states_in. apply place_state, dart_place, D, I.
  - destruct ds as [|d t]; [contradiction|]. apply (states_fuel im d). apply place_state, dart_place, D. left. reflexivity.
Qed.
End Turn.

Theorem degree_is m l n : dhistory m -> isNode m l n ->
  manyDarts (fun d => isDart (cim m) d /\ startNodeLabel (cim m) d = Ok (Z.of_nat l)) (ndegree n) /\
  startNodeLabel (cim m) (nanchor n) = Ok (Z.of_nat l) /\ (0 < ndegree n -> isDart (cim m) (nanchor n)) /\ (ndegree n = 0 -> isSingular (cim m) (nanchor n) = Ok true).
Proof.
  intros H (C & I). apply dhistory_wired in H. pose proof (proj2 (proj2 (proj2 (proj2 (proj2 H)))) l n C I) as (G & M & P & N & D & Z0). assert (Fr : framed (cim m)) by apply H.
  split; [|split; [rewrite nodeLabel_dart by apply P; congruence|]].
  - revert M. apply many_ext. intros d. unfold dartOfNode. split; intros (X & Y); split; auto; rewrite nodeLabel_dart in * by apply X; congruence.
  - split; auto. intros Hz. unfold isSingular. rewrite neighbor_read by (auto; apply P). cbn [bind]. fold (typeAt (cim m) (nanchor n) 0).
    specialize (Z0 Hz). apply CellSigma_Proofs.ctypeEqb_ne in Z0. rewrite Z0. reflexivity.
Qed.

Lemma check_node m l n : dhistory m -> isNode m l n -> checkNode (cim m) n = Ok true.
Proof.
  intros H C. destruct (degree_is m l n H C) as (_ & _ & _ & Hz). apply dhistory_wired in H.
  destruct H as (_ & ((_ & Fr & _) & Ne & Jo) & Ri & _ & _ & No). destruct C as (C & I). pose proof (No l n C I) as (G & M & P & N & D & _).
  unfold checkNode, centerPix, readPix, insideImg. pose proof (proj1 P) as (X & Y & T).
  replace ((0 <=? dcx (nanchor n)) && _ && _ && _)%bool with true by (symmetry; rewrite !Bool.andb_true_iff, !Z.leb_le, !Z.ltb_lt; lia). cbn [bind]. rewrite T.
  destruct (Z.eq_dec (ndegree n) 0) as [Q|Q].
  - rewrite (Hz Q). cbn [bind negb]. rewrite Q. reflexivity.
  - assert (Da : isDart (cim m) (nanchor n)) by (apply D; lia). rewrite singular_dart by auto. cbn [bind negb].
    destruct (sigma_turn (cim m) Fr Ne Jo Ri _ Da) as (r & ds & Pr & Er & Lr & Le & Nd & In_).
    assert (Ge : ndegree n = Z.of_nat r).
    { destruct M as (ds' & Nd' & In' & Le'). rewrite <- Le', <- Le. f_equal. rewrite N in In_. apply Nat.le_antisymm; apply NoDup_incl_length; auto; intros d Hd; [apply In_, In'|apply In', In_]; exact Hd. }
    rewrite (degree_loop (cim m) Fr Ne Jo _ r); auto.
    + cbn [bind]. rewrite Ge, Z.eqb_refl. reflexivity.
    + rewrite <- Le. apply turn_fuel; auto; [intros d Hd; apply In_ in Hd; apply Hd|]. intros ->. cbn in Le. lia.
    + lia.
Qed.
Lemma check_edge m l e : dhistory m -> isEdge m l e -> checkEdge (cim m) e = Ok true.
Proof.
  intros H (C & I). apply dhistory_wired in H. destruct H as (_ & (So & Ne & Jo) & Ri & _ & Ed & _). pose proof (Ed l e C I) as (_ & T).
  assert (D1 : dartOfEdge (cim m) (Z.of_nat l) (estart e)) by (apply T; auto). assert (D2 : dartOfEdge (cim m) (Z.of_nat l) (eend e)) by (apply T; auto).
  assert (Fr : framed (cim m)) by apply So.
  assert (L : clabel (einf e) = Z.of_nat l) by (destruct So as (_ & _ & R & _); apply (R Line l); auto; cbn [cellsOf]; apply map_nth_error, C).
  assert (R : forall d, isDart (cim m) d -> exists p, centerPix (cim m) d = Ok p /\ ptype p = Vertex).
  { intros d ((X & Y & V) & _). unfold centerPix, readPix, insideImg.
    replace ((0 <=? dcx d) && _ && _ && _)%bool with true by (symmetry; rewrite !Bool.andb_true_iff, !Z.leb_le, !Z.ltb_lt; lia). eauto. }
  destruct D1 as (D1 & E1), D2 as (D2 & E2). destruct (R _ D1) as (p1 & P1 & T1), (R _ D2) as (p2 & P2 & T2).
  unfold checkEdge. rewrite P1, P2, !edgeLabel_dart by (auto; apply D1 || apply D2). cbn [bind]. rewrite T1, T2, E1, E2, L, Z.eqb_refl. reflexivity.
Qed.
Lemma checkAll_true {A} (live : A -> bool) f (l : list A) : (forall i a, nth_error l i = Some a -> live a = true -> f a = Ok true) -> checkAll live f l = Ok true.
Proof.
  induction l as [|h t IH]; intros H; [reflexivity|]. cbn [checkAll]. assert (R : checkAll live f t = Ok true) by (apply IH; intros i a; apply (H (Datatypes.S i) a)).
  destruct (live h) eqn:L; auto. rewrite (H O h eq_refl L), R. reflexivity.
Qed.
Theorem darts_check m : dhistory m -> checkDarts m = Ok true.
Proof.
  intros H. unfold checkDarts. rewrite !checkAll_true; [reflexivity| |].
  - intros i a C I. apply (check_edge m i); auto. split; auto.
  - intros i a C I. apply (check_node m i); auto. split; auto.
Qed.
