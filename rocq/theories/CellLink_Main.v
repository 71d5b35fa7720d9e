(** C66, C67: the operations keep the darts of edges and nodes in order. *)
From Coq Require Import Lia.
From Verif Require Import Base CellMap_Model CellMap_Spec CellMap_Main CellSigma_Spec CellSigma_Proofs CellSigma_Results CellLink_Spec CellLink_Proofs.
Local Open Scope Z_scope.

(** ** carefulNextSigma *)
Section Careful.
Variable im : img.
Hypothesis Fr : framed im.
Hypothesis Ne : neat im.
Hypothesis Jo : joined im.

Lemma careful_eq k nend d : stateOK im d ->
  carefulLoop (Datatypes.S k) im nend d =
  if ctypeEqb (typeAt im d 0) Line then Ok d else if dartEqb (round im 1 d) nend then Ok (round im 1 d) else carefulLoop k im nend (round im 1 d).
Proof.
  intros S. cbn [carefulLoop]. rewrite neighbor_read by (auto; apply S). cbn [bind]. fold (typeAt im d 0).
  destruct (ctypeEqb (typeAt im d 0) Line); auto.
  assert (S' : stateOK im (if ctypeEqb (typeAt im d 0) Vertex then turn 1 (swapCenterNeighbor d) else d)).
  { destruct (ctypeEqb _ Vertex) eqn:E; auto. apply turn_ok, swap_ok; auto. apply CellSigma_Proofs.ctypeEqb_eq; auto. }
  rewrite try_read by (auto; apply S'). reflexivity.
Qed.
Lemma careful_rounds f nend d a : stateOK im nend -> stateOK im d -> carefulLoop f im nend d = Ok a ->
  exists k, rounds im k 1 d = a /\ (forall j, (j < k)%nat -> typeAt im (rounds im j 1 d) 0 <> Line) /\ (typeAt im a 0 = Line \/ (a = nend /\ (0 < k)%nat)).
Proof.
  intros Sn. revert d. induction f as [|f IH]; intros d S H; [discriminate H|]. rewrite careful_eq in H by exact S.
  destruct (ctypeEqb (typeAt im d 0) Line) eqn:L.
  - injection H as <-. apply CellSigma_Proofs.ctypeEqb_eq in L. exists O. split; [reflexivity|]. split; [lia|auto].
  - apply CellSigma_Proofs.ctypeEqb_ne in L. pose proof (round_ok im Fr 1 d S) as S'. destruct (dartEqb (round im 1 d) nend) eqn:E.
    + injection H as <-. apply dart_ext in E; [|apply S'|apply Sn]. exists 1%nat. split; [reflexivity|]. split; [intros [|j] J; [exact L|lia]|]. right. split; [exact E|lia].
    + destruct (IH _ S' H) as (k & R & N & Q). exists (Datatypes.S k). split; [exact R|]. split; [intros [|j] J; [exact L|apply N; lia]|]. intuition lia.
Qed.
Lemma try_node n d : nodeOf im (tryOf im n d) = nodeOf im d.
Proof. unfold tryOf. cbn zeta. destruct (badAt _ _); reflexivity. Qed.
Lemma round_node d : stateOK im d -> nodeOf im (round im 1 d) = nodeOf im d.
Proof.
  intros (V & D). unfold round. rewrite try_node. destruct (ctypeEqb (typeAt im d 0) Vertex) eqn:E; auto. apply CellSigma_Proofs.ctypeEqb_eq in E.
  pose proof (neighbor_vertex im Fr d 0 V E) as W. pose proof (Jo _ _ _ _ (mod8 _) (vertex_owns im _ _ V) W) as (_ & _ & Q).
  unfold nodeOf, turn, swapCenterNeighbor, moveCenterToNeighbor, turn. cbn [dcx dcy]. rewrite Z.add_0_r in Q. rewrite Q. reflexivity.
Qed.
Lemma rounds_node k d : stateOK im d -> nodeOf im (rounds im k 1 d) = nodeOf im d.
Proof. revert d. induction k; intros d S; cbn [rounds]; auto. rewrite IHk by (apply (round_ok im Fr), S). apply round_node, S. Qed.
Lemma try_good n d : way n -> stateOK im d -> badAt im (tryOf im n d) = false.
Proof.
  intros W S. unfold tryOf. cbn zeta. destruct (badAt im (turn n d)) eqn:B; auto. apply even_not_bad.
  assert (O : Z.odd (ddir (turn n d)) = true) by (unfold badAt in B; destruct (Z.odd (ddir (turn n d))); auto).
  rewrite odd_turn, O, odd_way by exact W. reflexivity.
Qed.
Lemma careful_result d a : isPlace im d -> typeAt im d 0 <> Line -> carefulNextSigma im d = Ok a ->
  (isDart im a /\ nodeOf im a = nodeOf im d) \/ (a = d /\ forall k, (0 < k)%nat -> ~ isDart im (places k im 1 d)).
Proof.
  intros P L H. pose proof (place_state im d P) as S. unfold carefulNextSigma in H.
  destruct (careful_rounds _ _ _ _ S S H) as (k & R & N & Q).
  assert (Q' : typeAt im a 0 = Line \/ (typeAt im a 0 <> Line /\ a = d /\ (0 < k)%nat)).
  { destruct (ctypeEqb (typeAt im a 0) Line) eqn:E; [left; apply CellSigma_Proofs.ctypeEqb_eq, E|]. apply CellSigma_Proofs.ctypeEqb_ne in E. right. tauto. }
  destruct Q' as [T|(T & -> & K)].
  - left. split; [|subst a; apply rounds_node, S].
    apply (bad_not_dart im a); auto; [subst a; apply rounds_ok; auto|]. subst a. destruct k as [|k]; [contradiction|].
    replace (Datatypes.S k) with (k + 1)%nat by lia. rewrite rounds_add. cbn [rounds].
    unfold round. set (e := rounds im k 1 d). assert (Se : stateOK im e) by (apply rounds_ok; auto).
    destruct (ctypeEqb (typeAt im e 0) Vertex) eqn:E; apply try_good; auto; try (left; reflexivity).
    apply turn_ok, swap_ok; auto. apply CellSigma_Proofs.ctypeEqb_eq, E.
  - right. split; auto. intros j J I.
    destruct (least (fun j => isDart im (places j im 1 d)) (fun j => isDart_dec im _) j J I) as (i & Hi & Di & Li).
    assert (W : way 1) by (left; reflexivity).
    assert (St : stops im 1 d (places i im 1 d)).
    { apply stops_on; auto. rewrite round_plain by apply P. apply stops_next; auto. lia. }
    destruct (stops_rounds im 1 _ _ St) as (k0 & R0 & L0 & N0).
    destruct (Nat.lt_ge_cases k0 k) as [X|X]; [apply (N k0 X); rewrite R0; exact L0|].
    apply (N0 (k0 - k)%nat); [lia|]. rewrite <- L0, <- R0. replace k0 with (k + (k0 - k))%nat at 2 by lia. rewrite rounds_add, R. reflexivity.
Qed.

Hypothesis Ri : ringed im.
(** an anchor: somewhere at the node; if it points to a line pixel it is a dart *)
Definition fair (l : Z) (a : dart) : Prop := isPlace im a /\ nodeOf im a = l /\ (typeAt im a 0 = Line -> isDart im a).
Lemma careful_fair l d a : fair l d -> typeAt im d 0 <> Line -> carefulNextSigma im d = Ok a ->
  fair l a /\ ((exists e, dartOfNode im l e) -> isDart im a).
Proof.
  intros (P & El & Q) L H. destruct (careful_result d a P L H) as [(D & E)|(-> & N)].
  - split; auto. split; [apply dart_place, D|]. split; [congruence|auto].
  - split; [split; auto|]. intros (e & De & Ee). exfalso.
    destruct (Ri d e P (dart_place im e De)) as (k & K); [congruence|].
    destruct k as [|k]; [cbn in K; subst e; apply L; apply De|]. apply (N (Datatypes.S k)); [lia|]. rewrite K. exact De.
Qed.
Lemma fair_single l d : fair l d -> isSingular im d = Ok (negb (ctypeEqb (typeAt im d 0) Line)).
Proof. intros ((V & _) & _). unfold isSingular. rewrite neighbor_read by auto. reflexivity. Qed.
End Careful.

(** ** What the operations do to darts and degrees *)
Definition ends (e : einfo) : dart * dart := (estart e, eend e).
Definition hubI (n : ninfo) : dart * Z := (nanchor n, ndegree n).
Definition keeps (m m' : cmap) : Prop := cinit m' = cinit m /\ map ends (cedges m') = map ends (cedges m) /\ map hubI (cnodes m') = map hubI (cnodes m).
Lemma keeps_refl m : keeps m m. Proof. repeat split. Qed.
Lemma keeps_trans a b c : keeps a b -> keeps b c -> keeps a c.
Proof. intros (A & B & C) (D & E & F). repeat split; congruence. Qed.
Lemma map_same_upd {A B} (f : A -> B) v i a b : nth_error v i = Some a -> f b = f a -> map f (list_upd v i b) = map f v.
Proof. intros H E. rewrite map_upd, E. apply upd_same. apply map_nth_error, H. Qed.
Lemma keeps_face m l f m' : updFace m l f = Ok m' -> keeps m m'.
Proof. unfold updFace. intros H. bnd H n E. bnd H v Ev. injection H as <-. repeat split. Qed.
Lemma keeps_edge m l g m' : updEdge m l (onEdge g) = Ok m' -> keeps m m'.
Proof.
  unfold updEdge. intros H. bnd H n E. bnd H v Ev. injection H as <-. apply put_Ok in Ev. apply at_Ok in E. subst v. repeat split. cbn.
  apply (map_same_upd ends _ _ n); [apply E|reflexivity].
Qed.
Lemma keeps_node m l g m' : updNode m l (onNode g) = Ok m' -> keeps m m'.
Proof.
  unfold updNode. intros H. bnd H n E. bnd H v Ev. injection H as <-. apply put_Ok in Ev. apply at_Ok in E. subst v. repeat split. cbn.
  apply (map_same_upd hubI _ _ n); [apply E|reflexivity].
Qed.
Lemma keeps_relabel m t l p m' : relabelCell m t l p = Ok m' -> keeps m m'.
Proof. unfold relabelCell. intros H. bnd H c E. bnd H im Ei. injection H as <-. repeat split. Qed.
Lemma keeps_counts m a b c : keeps m (addCounts m a b c). Proof. repeat split. Qed.
Lemma keeps_leave m fl l m' : leaveNode m fl l = Ok m' -> keeps m m' /\ cim m' = cim m /\ cedges m' = cedges m.
Proof.
  unfold leaveNode. intros H. bnd H f E. bnd H cs Ec. split; [eapply keeps_face; exact H|]. unfold updFace in H. bnd H n E'. bnd H v Ev. injection H as <-. split; reflexivity.
Qed.

Lemma removeIsolatedNode_view m d m' s : removeIsolatedNode m d = Ok (m', s) -> keeps m m'.
Proof.
  unfold removeIsolatedNode. intros H. bnd H sg Esg. destruct (negb sg); [discriminate H|].
  bnd H nl Enl. bnd H n En. bnd H fl Efl. bnd H f Ef. bnd H i Ei. bnd H m1 Em1. bnd H m2 Em2. bnd H m3 Em3. bnd H m4 Em4. injection H as <- <-.
  apply keeps_face in Em1, Em3. apply keeps_relabel in Em2. apply keeps_node in Em4.
  eauto using keeps_trans, keeps_counts.
Qed.
(** one edge is taken away *)
Definition cutOff (m m' : cmap) (el : Z) : Prop :=
  exists e n1 n2 ma mb mc, at_ (cedges m) el = Ok e /\ startNodeLabel (cim m) (estart e) = Ok n1 /\ startNodeLabel (cim m) (eend e) = Ok n2 /\
    keeps m ma /\ cim ma = cim m' /\ dropDegree ma n1 = Ok mb /\ dropDegree mb n2 = Ok mc /\ keeps mc m'.
Lemma image_face m l f m' : updFace m l f = Ok m' -> cim m' = cim m.
Proof. unfold updFace. intros H. bnd H n E. bnd H v Ev. injection H as <-. reflexivity. Qed.
Lemma image_edge m l f m' : updEdge m l f = Ok m' -> cim m' = cim m.
Proof. unfold updEdge. intros H. bnd H n E. bnd H v Ev. injection H as <-. reflexivity. Qed.
Lemma image_drop m l m' : dropDegree m l = Ok m' -> cim m' = cim m.
Proof. intros H. apply dropDegree_same in H. apply H. Qed.
Lemma removeBridge_view m d m' s : removeBridge m d = Ok (m', s) -> exists el, edgeLabel (cim m) d = Ok el /\ cutOff m m' el.
Proof.
  unfold removeBridge. intros H. bnd H sg Esg. destruct sg; [discriminate H|].
  bnd H el Eel. bnd H e Ee. bnd H fl Efl. bnd H f Ef. bnd H n1 En1. bnd H x1 Ex1. bnd H n2 En2. bnd H x2 Ex2. bnd H rl Erl.
  destruct (negb (clabel (finf f) =? rl)); [discriminate H|].
  bnd H a1 Ea1. bnd H a2 Ea2. bnd H c Ec. bnd H m1 Em1. bnd H m2 Em2. bnd H m3 Em3. bnd H m4 Em4. bnd H m5 Em5. bnd H m6 Em6. injection H as <- <-.
  exists el. split; [exact Eel|]. exists e, n1, n2, m2, m3, m4. split; [exact Ee|]. split; [exact En1|]. split; [exact En2|].
  split; [apply keeps_face in Em1; apply keeps_relabel in Em2; eauto using keeps_trans|].
  split; [cbn [addCounts cim]; rewrite (image_edge _ _ _ _ Em6), (image_face _ _ _ _ Em5), (image_drop _ _ _ Em4), (image_drop _ _ _ Em3); reflexivity|].
  split; [exact Em3|]. split; [exact Em4|]. apply keeps_face in Em5. apply keeps_edge in Em6. eauto using keeps_trans, keeps_counts.
Qed.
Lemma mergeFaces_view m d m' s : mergeFaces m d = Ok (m', s) ->
  exists rd el, (rd = d \/ nextAlpha m d = Ok rd) /\ edgeLabel (cim m) rd = Ok el /\ cutOff m m' el.
Proof.
  unfold mergeFaces. intros H. bnd H ll Ell. bnd H lf Elf. bnd H rl Erl. bnd H rf Erf. bnd H rd Erd. bnd H el Eel. bnd H e Ee.
  bnd H sl Esl. bnd H sf Esf. bnd H ml Eml. bnd H mf Emf. bnd H n1 En1. bnd H x1 Ex1. bnd H n2 En2. bnd H x2 Ex2.
  destruct (clabel (finf sf) =? clabel (finf mf)); [discriminate H|].
  bnd H c1 Ec1. bnd H c2 Ec2. bnd H a1 Ea1. bnd H a2 Ea2. bnd H a Ea. bnd H la Ela.
  destruct ((la =? clabel (einf e)) && negb (clabel (ninf x1) =? clabel (ninf x2)))%bool; [discriminate H|].
  bnd H m1 Em1. bnd H m2 Em2. bnd H m3 Em3. bnd H m4 Em4. bnd H m5 Em5. bnd H m6 Em6. bnd H m7 Em7. bnd H m8 Em8. injection H as <- <-.
  exists rd, el. split; [destruct (rectArea _ <? rectArea _); [right; exact Erd|left; congruence]|]. split; [exact Eel|].
  exists e, n1, n2, m3, m4, m5. split; [exact Ee|]. split; [exact En1|]. split; [exact En2|].
  split; [apply keeps_face in Em1; apply keeps_relabel in Em2, Em3; eauto using keeps_trans|].
  split; [cbn [addCounts cim]; rewrite (image_face _ _ _ _ Em8), (image_edge _ _ _ _ Em7), (image_face _ _ _ _ Em6), (image_drop _ _ _ Em5), (image_drop _ _ _ Em4); reflexivity|].
  split; [exact Em4|]. split; [exact Em5|]. apply keeps_face in Em6, Em8. apply keeps_edge in Em7. eauto using keeps_trans, keeps_counts.
Qed.
Lemma alpha_same m m' d : cim m' = cim m -> cedges m' = cedges m -> cinit m' = cinit m -> nextAlpha m' d = nextAlpha m d.
Proof. intros A B C. unfold nextAlpha. rewrite A, B, C. reflexivity. Qed.
Lemma mergeEdges_view m d m' s : mergeEdges m d = Ok (m', s) ->
  exists d1 d2 d3 a1 a2 (b : bool) ml, nextSigma (cim m) d = Ok d1 /\ (if b then nextSigma (cim m) d1 = Ok d2 else d2 = d1) /\ nextSigma (cim m) d2 = Ok d3 /\
    dartEq (cim m) (if b then d2 else d3) d = Ok true /\ edgeLabel (cim m) d3 = Ok s /\ edgeLabel (cim m) d2 = Ok ml /\
    (forall se me, at_ (cedges m) s = Ok se -> at_ (cedges m) ml = Ok me -> clabel (einf se) <> clabel (einf me)) /\
    nextAlpha m d3 = Ok a1 /\ nextAlpha m d2 = Ok a2 /\ 0 <= s /\
    cinit m' = cinit m /\ map ends (cedges m') = list_upd (map ends (cedges m)) (Z.to_nat s) (a1, a2) /\ map hubI (cnodes m') = map hubI (cnodes m).
Proof.
  intros H. unfold mergeEdges in H.
  bnd H d1 Ed1. bnd H l0 El0. bnd H e0 Ee0. bnd H l1 El1. bnd H e1 Ee1.
  set (fs := rectArea (cbounds (einf e0)) <? rectArea (cbounds (einf e1))) in *.
  bnd H d2 Ed2. bnd H ml Eml. bnd H me Eme. bnd H nl Enl. bnd H n En. bnd H d3 Ed3. bnd H sl Esl. bnd H se Ese. bnd H q Eqq.
  destruct q; [|discriminate H]. cbn [negb] in H.
  destruct (Z.eqb_spec (clabel (einf se)) (clabel (einf me))) as [|Hne]; [discriminate H|].
  bnd H fl Efl. bnd H nl1 Enl1. bnd H m1 Em1. bnd H fr Efr. bnd H m2 Em2. bnd H a1 Ea1. bnd H a2 Ea2.
  bnd H m3 Em3. bnd H m4 Em4. bnd H m5 Em5. bnd H m6 Em6. bnd H m7 Em7. bnd H m8 Em8. injection H as <- <-.
  assert (K2 : keeps m m2 /\ cim m2 = cim m /\ cedges m2 = cedges m).
  { destruct (keeps_leave _ _ _ _ Em1) as (A & B & C). destruct (fl =? fr).
    - injection Em2 as <-. auto.
    - destruct (keeps_leave _ _ _ _ Em2) as (A' & B' & C'). repeat split; try congruence; try apply (keeps_trans _ _ _ A A'). }
  destruct K2 as (K & I & E). rewrite (alpha_same m m2) in Ea1, Ea2 by (auto; apply K).
  exists d1, d2, d3, a1, a2, fs, ml. split; [exact Ed1|]. split; [destruct fs; [exact Ed2|congruence]|]. split; [exact Ed3|]. split; [exact Eqq|].
  split; [exact Esl|]. split; [exact Eml|]. split; [intros x y X Y; congruence|]. split; [exact Ea1|]. split; [exact Ea2|].
  assert (Z0 : 0 <= sl) by (apply at_Ok in Ese; apply Ese). split; [exact Z0|].
  apply keeps_relabel in Em4, Em5. apply keeps_edge in Em6, Em8. apply keeps_node in Em7.
  assert (K3 : keeps m3 (addCounts m8 (-1) (-1) 0)) by eauto using keeps_trans, keeps_counts.
  destruct K3 as (Ki & Ke & Kn). destruct K as (Gi & Ge & Gn).
  unfold updEdge in Em3. bnd Em3 x Ex. bnd Em3 v Ev. injection Em3 as <-. apply put_Ok in Ev. subst v. cbn [setEdges cinit cedges cnodes] in *.
  split; [congruence|]. split; [|congruence]. rewrite Ke, map_upd, Ge. reflexivity.
Qed.

(** ** The degree goes down by one *)
Lemma careful_drop m l n m' : framed (cim m) -> neat (cim m) -> joined (cim m) -> ringed (cim m) -> at_ (cnodes m) l = Ok n -> fair (cim m) l (nanchor n) ->
  0 < ndegree n < 2 ^ 16 -> dropDegree m l = Ok m' ->
  exists a, cim m' = cim m /\ cinit m' = cinit m /\ cedges m' = cedges m /\ map hubI (cnodes m') = list_upd (map hubI (cnodes m)) (Z.to_nat l) (a, ndegree n - 1) /\
    fair (cim m) l a /\ (ndegree n - 1 <> 0 -> (exists e, dartOfNode (cim m) l e) -> isDart (cim m) a).
Proof.
  intros Fr Ne Jo Ri En Fa G H. unfold dropDegree in H. rewrite En in H. cbn [bind] in H. rewrite Z.mod_small in H by lia.
  bnd H a Ea. unfold updNode in H. rewrite En in H. cbn [bind] in H. bnd H v Ev. injection H as <-. apply put_Ok in Ev. subst v. exists a.
  split; [reflexivity|]. split; [reflexivity|]. split; [reflexivity|]. cbn [setNodes cnodes]. rewrite map_upd. split; [reflexivity|].
  destruct (Z.eqb_spec (ndegree n - 1) 0) as [Z0|Z0]; [injection Ea as <-; split; [exact Fa|contradiction]|].
  rewrite (fair_single _ Fr l) in Ea by exact Fa. cbn [bind] in Ea. destruct (ctypeEqb (typeAt (cim m) (nanchor n) 0) Line) eqn:T; cbn [negb] in Ea.
  - injection Ea as <-. split; [exact Fa|]. intros _ _. apply Fa. apply CellSigma_Proofs.ctypeEqb_eq, T.
  - apply CellSigma_Proofs.ctypeEqb_ne in T. destruct (careful_fair _ Fr Ne Jo Ri l _ _ Fa T Ea) as (A & B). split; [exact A|]. intros _. exact B.
Qed.
Lemma hub_nth m l n : nth_error (map hubI (cnodes m)) l = Some n -> exists x, nth_error (cnodes m) l = Some x /\ n = hubI x.
Proof. rewrite nth_error_map. destruct (nth_error (cnodes m) l) as [x|]; [|discriminate]. intros H. injection H as <-. exists x. auto. Qed.

(** ** Counting darts *)
Lemma many_ext (P Q : dart -> Prop) n : (forall d, P d <-> Q d) -> manyDarts P n -> manyDarts Q n.
Proof. intros E (ds & N & I & L). exists ds. split; auto. split; auto. intros d. rewrite I. apply E. Qed.
Lemma remove_length (a : dart) ds : NoDup ds -> In a ds -> length ds = Datatypes.S (length (remove dart_eq_dec a ds)).
Proof.
  induction ds as [|h t IH]; intros N I; [destruct I|]. inversion N as [|x y Nh Nt]. subst x y. cbn [remove]. destruct (dart_eq_dec a h) as [->|E].
  - rewrite notin_remove by exact Nh. reflexivity.
  - destruct I as [->|I]; [congruence|]. cbn [length]. rewrite (IH Nt I). reflexivity.
Qed.
Lemma remove_nodup (a : dart) ds : NoDup ds -> NoDup (remove dart_eq_dec a ds).
Proof.
  induction ds as [|h t IH]; intros N; [constructor|]. inversion N as [|x y Nh Nt]. subst x y. cbn [remove]. destruct (dart_eq_dec a h); auto.
  constructor; auto. intros I. apply in_remove in I. tauto.
Qed.
Lemma many_less (P : dart -> Prop) n a : manyDarts P n -> P a -> manyDarts (fun d => P d /\ d <> a) (n - 1).
Proof.
  intros (ds & N & I & L) A. exists (remove dart_eq_dec a ds). split; [apply remove_nodup, N|]. split.
  - intros d. split; [intros H; apply in_remove in H; rewrite <- I; exact H|]. intros (H & E). apply in_in_remove; auto. apply I, H.
  - apply I in A. rewrite (remove_length a ds N A) in L. lia.
Qed.
Lemma many_pos (P : dart -> Prop) n : manyDarts P n -> 0 <= n.
Proof. intros (ds & _ & _ & L). lia. Qed.
Lemma many_some (P : dart -> Prop) n : manyDarts P n -> 0 < n -> exists d, P d.
Proof. intros (ds & N & I & L) H. destruct ds as [|d t]; [cbn in L; lia|]. exists d. apply I. left. reflexivity. Qed.
Lemma many_in (P : dart -> Prop) n d : manyDarts P n -> P d -> 0 < n.
Proof. intros (ds & N & I & L) H. apply I in H. destruct ds; [destruct H|]. cbn in L. lia. Qed.

(** ** nextAlpha *)
Lemma edge_nth m e : sound m -> forall d, isDart (cim m) d -> edgeOf (cim m) d = e ->
  exists c, nth_error (cedges m) (Z.to_nat e) = Some c /\ initialized (einf c) = true /\ 0 <= e.
Proof.
  intros (Wf & Fr & (_ & Li & _)) d D E. pose proof (dart_owns _ Fr d D) as O. rewrite E in O. assert (NE : Line <> ErrorType) by discriminate.
  destruct (Li Line e _ _ O NE) as (c & C & I). cbn [cellsOf] in C. rewrite nth_error_map in C.
  destruct (nth_error (cedges m) (Z.to_nat e)) as [x|]; [|discriminate C]. injection C as <-. exists x. split; auto. split; auto.
  destruct Wf as ((_ & _ & _ & B) & _). destruct O as (X & Y & P). specialize (B _ _ X Y). rewrite P in B. cbn in B. lia.
Qed.
Lemma node_nth m n : sound m -> forall x y, vertexAt (cim m) x y -> plabel (ipix (cim m) x y) = n ->
  exists c, nth_error (cnodes m) (Z.to_nat n) = Some c /\ initialized (ninf c) = true /\ 0 <= n.
Proof.
  intros (Wf & Fr & (_ & Li & _)) x y V E. pose proof (vertex_owns _ _ _ V) as O. rewrite E in O. assert (NE : Vertex <> ErrorType) by discriminate.
  destruct (Li Vertex n _ _ O NE) as (c & C & I). cbn [cellsOf] in C. rewrite nth_error_map in C.
  destruct (nth_error (cnodes m) (Z.to_nat n)) as [z|]; [|discriminate C]. injection C as <-. exists z. split; auto. split; auto.
  destruct Wf as ((_ & _ & _ & B) & _). destruct O as (X & Y & P). specialize (B _ _ X Y). rewrite P in B. cbn in B. lia.
Qed.
Lemma alpha_ends m d : wired m -> isDart (cim m) d -> exists e a b, at_ (cedges m) (edgeOf (cim m) d) = Ok e /\ 0 <= edgeOf (cim m) d /\
  nth_error (cedges m) (Z.to_nat (edgeOf (cim m) d)) = Some e /\ initialized (einf e) = true /\
  twoEnds (cim m) (edgeOf (cim m) d) a b /\ d = a /\ nextAlpha m d = Ok b /\ ((estart e = a /\ eend e = b) \/ (estart e = b /\ eend e = a)).
Proof.
  intros (Ci & (So & _) & _ & _ & Ed & _) D. destruct (edge_nth m _ So d D eq_refl) as (c & C & I & P).
  pose proof (Ed _ _ C I) as T. rewrite Z2Nat.id in T by exact P. assert (Fr : framed (cim m)) by apply So.
  assert (A : at_ (cedges m) (edgeOf (cim m) d) = Ok c) by (apply at_Ok; auto).
  assert (Na : forall x, x = estart c \/ x = eend c -> isDart (cim m) x) by (intros x X; apply T in X; apply X).
  assert (Al : nextAlpha m d = Ok (if dartEqb d (estart c) then eend c else estart c)).
  { unfold nextAlpha. rewrite singular_dart by auto. cbn [bind]. rewrite Ci. rewrite edgeLabel_dart by (auto; apply D). cbn [bind]. rewrite A. cbn [bind].
    unfold dartEq. rewrite singular_dart by auto. cbn [bind negb]. reflexivity. }
  assert (De : d = estart c \/ d = eend c) by (apply T; split; auto).
  destruct (dartEqb d (estart c)) eqn:Q.
  - apply dart_ext in Q; [|apply D|apply (Na (estart c)); auto]. exists c, (estart c), (eend c). rewrite Q in *. auto 10.
  - exists c, (eend c), (estart c). assert (X : d <> estart c) by (intros X; rewrite X in Q; unfold dartEqb in Q; rewrite !Z.eqb_refl in Q; discriminate Q).
    assert (Y : d = eend c) by tauto. assert (T' : twoEnds (cim m) (edgeOf (cim m) d) (eend c) (estart c)) by (destruct T as (T1 & T2); split; [congruence|intros z; rewrite T2; tauto]).
    auto 12.
Qed.
