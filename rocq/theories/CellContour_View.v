(** C71: what the calls do to the anchors of the faces. *)
From Coq Require Import Lia.
From Verif Require Import Base CellMap_Model CellMap_Spec CellMap_Main CellSigma_Spec CellLink_Spec CellLink_Proofs CellLink_Main.
Local Open Scope Z_scope.

Definition anchors (m : cmap) : list (list dart) := map fcontours (cfaces m).
Lemma anchors_face m l g m' : updFace m l (onFace g) = Ok m' -> anchors m' = anchors m.
Proof.
  unfold updFace. intros H. bnd H n E. bnd H v Ev. injection H as <-. apply put_Ok in Ev. apply at_Ok in E. subst v. unfold anchors. cbn.
  apply (map_same_upd fcontours _ _ n); [apply E|reflexivity].
Qed.
Lemma anchors_set m l cs m' : updFace m l (setContours cs) = Ok m' -> anchors m' = list_upd (anchors m) (Z.to_nat l) cs /\ cim m' = cim m /\ cedges m' = cedges m /\ cinit m' = cinit m.
Proof.
  unfold updFace. intros H. bnd H n E. bnd H v Ev. injection H as <-. apply put_Ok in Ev. subst v. unfold anchors. cbn. rewrite map_upd. auto.
Qed.
Lemma anchors_edge m l g m' : updEdge m l g = Ok m' -> anchors m' = anchors m.
Proof. unfold updEdge. intros H. bnd H n E. bnd H v Ev. injection H as <-. reflexivity. Qed.
Lemma anchors_node m l g m' : updNode m l g = Ok m' -> anchors m' = anchors m.
Proof. unfold updNode. intros H. bnd H n E. bnd H v Ev. injection H as <-. reflexivity. Qed.
Lemma anchors_relabel m t l p m' : relabelCell m t l p = Ok m' -> anchors m' = anchors m.
Proof. unfold relabelCell. intros H. bnd H c E. bnd H im Ei. injection H as <-. reflexivity. Qed.
Lemma anchors_drop m l m' : dropDegree m l = Ok m' -> anchors m' = anchors m.
Proof. unfold dropDegree. intros H. bnd H n E. bnd H a Ea. apply anchors_node in H. exact H. Qed.
Lemma phi_same m m' d : cim m' = cim m -> cedges m' = cedges m -> cinit m' = cinit m -> nextPhi m' d = nextPhi m d.
Proof. intros A B C. unfold nextPhi. rewrite (alpha_same m m') by auto. rewrite A. reflexivity. Qed.
Lemma leave_same m m' l cs : cim m' = cim m -> cedges m' = cedges m -> cinit m' = cinit m -> removeNodeFromContours m' cs l = removeNodeFromContours m cs l.
Proof. intros A B C. induction cs as [|c t IH]; cbn; [reflexivity|]. rewrite IH, A, (phi_same m m') by auto. reflexivity. Qed.

Lemma isolated_anchors m d m' s : removeIsolatedNode m d = Ok (m', s) ->
  exists f i, leftFaceLabel (cim m) d = Ok s /\ at_ (cfaces m) s = Ok f /\ findComponentAnchor m (fcontours f) d = Ok i /\
    anchors m' = list_upd (anchors m) (Z.to_nat s) (eraseAt i (fcontours f)).
Proof.
  unfold removeIsolatedNode. intros H. bnd H sg Esg. destruct (negb sg); [discriminate H|].
  bnd H nl Enl. bnd H n En. bnd H fl Efl. bnd H f Ef. bnd H i Ei. bnd H m1 Em1. bnd H m2 Em2. bnd H m3 Em3. bnd H m4 Em4. injection H as <- <-.
  exists f, i. split; [exact Efl|]. split; [exact Ef|]. split; [exact Ei|]. change (anchors (addCounts m4 (-1) 0 0)) with (anchors m4).
  rewrite (anchors_node _ _ _ _ Em4), (anchors_face _ _ _ _ Em3), (anchors_relabel _ _ _ _ _ Em2). apply anchors_set in Em1. apply Em1.
Qed.
Lemma merge_anchors m d m' s : mergeFaces m d = Ok (m', s) ->
  exists rd el e ml sf mf c1 c2 a1 a2 a, (rd = d \/ nextAlpha m d = Ok rd) /\ edgeLabel (cim m) rd = Ok el /\ at_ (cedges m) el = Ok e /\
    leftFaceLabel (cim m) rd = Ok s /\ rightFaceLabel (cim m) rd = Ok ml /\ at_ (cfaces m) s = Ok sf /\ at_ (cfaces m) ml = Ok mf /\
    clabel (finf sf) <> clabel (finf mf) /\ findComponentAnchor m (fcontours sf) rd = Ok c1 /\ findComponentAnchor m (fcontours mf) rd = Ok c2 /\
    nth_error (fcontours sf) c1 = Some a1 /\ nth_error (fcontours mf) c2 = Some a2 /\ mergedAnchor m (clabel (einf e)) a1 a2 = Ok a /\
    anchors m' = list_upd (anchors m) (Z.to_nat s) (list_upd (fcontours sf) c1 a ++ eraseAt c2 (fcontours mf)).
Proof.
  unfold mergeFaces. intros H. bnd H ll Ell. bnd H lf Elf. bnd H rl Erl. bnd H rf Erf. bnd H rd Erd. bnd H el Eel. bnd H e Ee.
  bnd H sl Esl. bnd H sf Esf. bnd H ml Eml. bnd H mf Emf. bnd H n1 En1. bnd H x1 Ex1. bnd H n2 En2. bnd H x2 Ex2.
  destruct (Z.eqb_spec (clabel (finf sf)) (clabel (finf mf))) as [|Nf]; [discriminate H|].
  bnd H c1 Ec1. bnd H c2 Ec2. bnd H a1 Ea1. bnd H a2 Ea2. bnd H a Ea. bnd H la Ela.
  destruct ((la =? clabel (einf e)) && negb (clabel (ninf x1) =? clabel (ninf x2)))%bool; [discriminate H|].
  bnd H m1 Em1. bnd H m2 Em2. bnd H m3 Em3. bnd H m4 Em4. bnd H m5 Em5. bnd H m6 Em6. bnd H m7 Em7. bnd H m8 Em8. injection H as <- <-.
  exists rd, el, e, ml, sf, mf, c1, c2, a1, a2, a. split; [destruct (rectArea _ <? rectArea _); [right; exact Erd|left; congruence]|].
  split; [exact Eel|]. split; [exact Ee|]. split; [exact Esl|]. split; [exact Eml|]. split; [exact Esf|]. split; [exact Emf|]. split; [exact Nf|]. split; [exact Ec1|]. split; [exact Ec2|].
  split; [apply vget_Ok, Ea1|]. split; [apply vget_Ok, Ea2|]. split; [exact Ea|]. change (anchors (addCounts m8 0 (-1) (-1))) with (anchors m8).
  rewrite (anchors_face _ _ _ _ Em8), (anchors_edge _ _ _ _ Em7), (anchors_face _ _ _ _ Em6), (anchors_drop _ _ _ Em5), (anchors_drop _ _ _ Em4), (anchors_relabel _ _ _ _ _ Em3), (anchors_relabel _ _ _ _ _ Em2).
  apply anchors_set in Em1. apply Em1.
Qed.
Lemma bridge_anchors m d m' s : removeBridge m d = Ok (m', s) ->
  exists el e f a1 a2 c, edgeLabel (cim m) d = Ok el /\ at_ (cedges m) el = Ok e /\ leftFaceLabel (cim m) d = Ok s /\ at_ (cfaces m) s = Ok f /\
    prevSigma (cim m) (estart e) = Ok a1 /\ prevSigma (cim m) (eend e) = Ok a2 /\ findComponentAnchor m (fcontours f) d = Ok c /\
    anchors m' = list_upd (anchors m) (Z.to_nat s) (list_upd (fcontours f) c a1 ++ [a2]).
Proof.
  unfold removeBridge. intros H. bnd H sg Esg. destruct sg; [discriminate H|].
  bnd H el Eel. bnd H e Ee. bnd H fl Efl. bnd H f Ef. bnd H n1 En1. bnd H x1 Ex1. bnd H n2 En2. bnd H x2 Ex2. bnd H rl Erl.
  destruct (negb (clabel (finf f) =? rl)); [discriminate H|].
  bnd H a1 Ea1. bnd H a2 Ea2. bnd H c Ec. bnd H m1 Em1. bnd H m2 Em2. bnd H m3 Em3. bnd H m4 Em4. bnd H m5 Em5. bnd H m6 Em6. injection H as <- <-.
  exists el, e, f, a1, a2, c. split; [exact Eel|]. split; [exact Ee|]. split; [exact Efl|]. split; [exact Ef|]. split; [exact Ea1|]. split; [exact Ea2|]. split; [exact Ec|].
  change (anchors (addCounts m6 0 (-1) 0)) with (anchors m6).
  rewrite (anchors_edge _ _ _ _ Em6), (anchors_face _ _ _ _ Em5), (anchors_drop _ _ _ Em4), (anchors_drop _ _ _ Em3), (anchors_relabel _ _ _ _ _ Em2). apply anchors_set in Em1. apply Em1.
Qed.
(** the anchors of a face after a node was left *)
Lemma leave_anchors m fl l m' : leaveNode m fl l = Ok m' ->
  exists f cs, at_ (cfaces m) fl = Ok f /\ removeNodeFromContours m (fcontours f) l = Ok cs /\ anchors m' = list_upd (anchors m) (Z.to_nat fl) cs /\
    cim m' = cim m /\ cedges m' = cedges m /\ cinit m' = cinit m.
Proof. unfold leaveNode. intros H. bnd H f E. bnd H cs Ec. exists f, cs. apply anchors_set in H. auto. Qed.
Lemma edges_anchors m d m' s : mergeEdges m d = Ok (m', s) ->
  exists d1 d2 d3 fl fr nl (b : bool) m2, nextSigma (cim m) d = Ok d1 /\ (if b then nextSigma (cim m) d1 = Ok d2 else d2 = d1) /\ nextSigma (cim m) d2 = Ok d3 /\ edgeLabel (cim m) d3 = Ok s /\
    leftFaceLabel (cim m) d3 = Ok fl /\ rightFaceLabel (cim m) d3 = Ok fr /\ startNodeLabel (cim m) d3 = Ok nl /\ anchors m' = anchors m2 /\
    forall i cs, nth_error (anchors m2) i = Some cs -> exists cs0, nth_error (anchors m) i = Some cs0 /\
      if Z.of_nat i =? fl then removeNodeFromContours m cs0 nl = Ok cs else if Z.of_nat i =? fr then removeNodeFromContours m cs0 nl = Ok cs else cs = cs0.
Proof.
  intros H. unfold mergeEdges in H.
  bnd H d1 Ed1. bnd H l0 El0. bnd H e0 Ee0. bnd H l1 El1. bnd H e1 Ee1.
  set (fs := rectArea (cbounds (einf e0)) <? rectArea (cbounds (einf e1))) in *.
  bnd H d2 Ed2. bnd H ml Eml. bnd H me Eme. bnd H nl Enl. bnd H n En. bnd H d3 Ed3. bnd H sl Esl. bnd H se Ese. bnd H q Eqq.
  destruct q; [|discriminate H]. cbn [negb] in H.
  destruct (Z.eqb_spec (clabel (einf se)) (clabel (einf me))) as [|Hne]; [discriminate H|].
  bnd H fl Efl. bnd H nl1 Enl1. bnd H m1 Em1. bnd H fr Efr. bnd H m2 Em2. bnd H a1 Ea1. bnd H a2 Ea2.
  bnd H m3 Em3. bnd H m4 Em4. bnd H m5 Em5. bnd H m6 Em6. bnd H m7 Em7. bnd H m8 Em8. injection H as <- <-.
  exists d1, d2, d3, fl, fr, nl1, fs, m2. split; [exact Ed1|]. split; [destruct fs; [exact Ed2|congruence]|]. split; [exact Ed3|]. split; [exact Esl|]. split; [exact Efl|]. split; [exact Efr|]. split; [exact Enl1|].
  split.
  { change (anchors (addCounts m8 (-1) (-1) 0)) with (anchors m8).
    rewrite (anchors_edge _ _ _ _ Em8), (anchors_node _ _ _ _ Em7), (anchors_edge _ _ _ _ Em6), (anchors_relabel _ _ _ _ _ Em5), (anchors_relabel _ _ _ _ _ Em4), (anchors_edge _ _ _ _ Em3). reflexivity. }
  destruct (leave_anchors _ _ _ _ Em1) as (f1 & cs1 & F1 & R1 & An1 & Im1 & Eg1 & Ci1).
  assert (G1 : forall i cs, nth_error (anchors m1) i = Some cs -> exists cs0, nth_error (anchors m) i = Some cs0 /\ if Z.of_nat i =? fl then removeNodeFromContours m cs0 nl1 = Ok cs else cs = cs0).
  { intros i cs I. rewrite An1 in I. apply at_Ok in F1. destruct F1 as (P1 & F1). pose proof (map_nth_error fcontours _ _ F1) as F1'. fold (anchors m) in F1'. destruct (Z.eqb_spec (Z.of_nat i) fl) as [E|E].
    - assert (Z.to_nat fl = i) by lia. subst i. rewrite nth_error_upd_eq in I by (apply nth_error_Some; congruence). injection I as <-. exists (fcontours f1). auto.
    - rewrite nth_error_upd_neq in I by lia. exists cs. auto. }
  destruct (Z.eqb_spec fl fr) as [Q|Q].
  - injection Em2 as <-. intros i cs I. destruct (G1 i cs I) as (cs0 & I0 & G). exists cs0. split; auto. rewrite <- Q. destruct (Z.of_nat i =? fl); auto.
  - destruct (leave_anchors _ _ _ _ Em2) as (f2 & cs2 & F2 & R2 & An2 & _). intros i cs I. rewrite An2 in I. apply at_Ok in F2. destruct F2 as (P2 & F2). pose proof (map_nth_error fcontours _ _ F2) as F2'. fold (anchors m1) in F2'.
    destruct (Nat.eq_dec (Z.to_nat fr) i) as [E|E].
    + subst i. rewrite nth_error_upd_eq in I by (apply nth_error_Some; congruence). injection I as <-. destruct (G1 _ _ F2') as (cs0 & I0 & G). exists cs0. split; auto.
      rewrite Z2Nat.id in G |- * by exact P2. destruct (Z.eqb_spec fr fl) as [|_]; [congruence|]. rewrite Z.eqb_refl. subst cs0. rewrite (leave_same m m1) in R2 by auto. exact R2.
    + rewrite nth_error_upd_neq in I by auto. destruct (G1 i cs I) as (cs0 & I0 & G). exists cs0. split; auto. destruct (Z.of_nat i =? fl); auto. destruct (Z.eqb_spec (Z.of_nat i) fr); [lia|exact G].
Qed.
