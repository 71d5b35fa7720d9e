(** C72: what the calls answer. *)
From Coq Require Import Lia.
From Verif Require Import Base CellMap_Model CellMap_Spec CellMap_Proofs CellMap_Main CellSigma_Spec CellSigma_Proofs CellSigma_Results CellLink_Spec CellLink_Proofs CellLink_Main CellLink_Results CellLink_Check CellFace_Spec CellFace_Walk CellFace_Main CellFace_Step CellContour_Orbit CellContour_Spec CellContour_Phi CellContour_Find CellContour_View CellContour_Cut CellContour_Step CellContour_Leave CellCall_Careful CellCall_Base.
Local Open Scope Z_scope.

(** ** What the labels read belong to *)
Lemma face_at m x y l : sound m -> owns (cim m) Region l x y -> exists f, at_ (cfaces m) l = Ok f /\ isFace m (Z.to_nat l) f /\ isCell m Region (Z.to_nat l) (finf f) /\ clabel (finf f) = l /\ 0 <= l < 2 ^ 30 /\ here m Region l.
Proof.
  intros So O. destruct (pixel_live m x y Region l So O ltac:(discriminate)) as (B & c & C). pose proof C as (Q & I). cbn [cellsOf] in Q. rewrite nth_error_map in Q.
  destruct (nth_error (cfaces m) (Z.to_nat l)) as [f|] eqn:E; [|discriminate Q]. injection Q as <-. exists f. split; [apply at_Ok; split; [lia|exact E]|]. split; [split; auto|]. split; [exact C|].
  split; [|split; [exact B|apply (here_cell _ _ _ _ (proj1 C)); lia]]. destruct (live_facts m _ _ _ So C) as (L & _). rewrite L. apply Z2Nat.id. lia.
Qed.
Lemma side_at m n d : faced m -> way n -> isDart (cim m) d -> exists f, at_ (cfaces m) (sideOf (cim m) n d) = Ok f /\ isFace m (Z.to_nat (sideOf (cim m) n d)) f /\ isCell m Region (Z.to_nat (sideOf (cim m) n d)) (finf f) /\
  clabel (finf f) = sideOf (cim m) n d /\ 0 <= sideOf (cim m) n d < 2 ^ 30 /\ here m Region (sideOf (cim m) n d).
Proof.
  intros Fa W D. pose proof Fa as (Wi & _ & Ai & _). assert (Fr : framed (cim m)) by apply Wi. assert (So : sound m) by apply Wi.
  destruct (side_region (cim m) Fr Ai n d W D) as (x & y & O). apply (face_at m x y); auto.
Qed.
Lemma edge_at m d : wired m -> isDart (cim m) d -> exists e, at_ (cedges m) (edgeOf (cim m) d) = Ok e /\ isCell m Line (Z.to_nat (edgeOf (cim m) d)) (einf e) /\ clabel (einf e) = edgeOf (cim m) d /\ 0 <= edgeOf (cim m) d < 2 ^ 30 /\ here m Line (edgeOf (cim m) d).
Proof.
  intros Wi D. assert (Fr : framed (cim m)) by apply Wi. assert (So : sound m) by apply Wi. destruct (edge_nth m _ So d D eq_refl) as (e & E & I & P). exists e. split; [apply at_Ok; auto|].
  assert (C : isCell m Line (Z.to_nat (edgeOf (cim m) d)) (einf e)) by (split; auto; cbn [cellsOf]; apply map_nth_error, E). split; [exact C|].
  destruct (live_facts m _ _ _ So C) as (L & B & _). rewrite Z2Nat.id in L, B by exact P. split; [exact L|]. split; [lia|apply (here_cell _ _ _ _ (proj1 C) P)].
Qed.
Lemma node_at m d : sound m -> vertexAt (cim m) (dcx d) (dcy d) -> exists n, at_ (cnodes m) (nodeOf (cim m) d) = Ok n /\ isCell m Vertex (Z.to_nat (nodeOf (cim m) d)) (ninf n) /\ clabel (ninf n) = nodeOf (cim m) d /\ 0 <= nodeOf (cim m) d < 2 ^ 30 /\ here m Vertex (nodeOf (cim m) d).
Proof.
  intros So V. destruct (node_nth m _ So _ _ V eq_refl) as (e & E & I & P). fold (nodeOf (cim m) d) in E, P. exists e. split; [apply at_Ok; auto|].
  assert (C : isCell m Vertex (Z.to_nat (nodeOf (cim m) d)) (ninf e)) by (split; auto; cbn [cellsOf]; apply map_nth_error, E). split; [exact C|].
  destruct (live_facts m _ _ _ So C) as (L & B & _). rewrite Z2Nat.id in L, B by exact P. split; [exact L|]. split; [lia|apply (here_cell _ _ _ _ (proj1 C) P)].
Qed.
(** the anchor of a node with darts is one *)
Lemma anchor_dart m d n : wired m -> isDart (cim m) d -> at_ (cnodes m) (nodeOf (cim m) d) = Ok n -> isDart (cim m) (nanchor n).
Proof.
  intros Wi D E. assert (So : sound m) by apply Wi. destruct (node_at m d So (proj1 D)) as (n' & E' & (_ & I) & _ & B & _). assert (n' = n) by congruence. subst n'.
  apply at_Ok in E. destruct E as (P & E). destruct Wi as (_ & _ & _ & _ & _ & Hu). specialize (Hu _ _ E I). rewrite Z2Nat.id in Hu by exact P.
  destruct Hu as (_ & Mn & _ & _ & H & _). apply H. apply (many_in _ _ d Mn). split; auto.
Qed.

(** ** removeIsolatedNode() *)
Lemma lonely_owns m d : faced m -> lonely (cim m) d -> exists x y, owns (cim m) Region (labelAt (cim m) d 0) x y.
Proof.
  intros Fa L. assert (Fr : framed (cim m)) by apply Fa. pose proof (lonely_region m Fa d L) as T. unfold typeAt in T. unfold labelAt. pose proof (neighbor_in (cim m) Fr _ _ ((ddir d + 0) mod 8) (proj1 (proj1 L))) as (X & Y).
  eexists. eexists. split; [exact X|]. split; [exact Y|]. destruct (ipix (cim m) _ _). cbn in *. congruence.
Qed.
Lemma isolated_total m d : contoured m -> faceAllowed (cim m) (CRemoveIsolatedNode d) -> exists r, removeIsolatedNode m d = Ok r.
Proof.
  intros Con (Pd & Be & Nd). pose proof Con as (Fa & Co). pose proof Fa as (Wi & Pl & Ai & Fi & _). assert (Fr : framed (cim m)) by apply Wi. assert (So : sound m) by apply Wi.
  assert (Ld : lonely (cim m) d) by (split; auto). assert (V : vertexAt (cim m) (dcx d) (dcy d)) by apply Pd.
  unfold removeIsolatedNode. rewrite (single_lonely m Fa d Ld). cbn [bind negb]. rewrite (nodeLabel_dart (cim m) d V). cbn [bind].
  destruct (node_at m d So V) as (n & En & Cn & Ln & Bn & Hn). rewrite En. cbn [bind]. rewrite (lonely_left m Fa d Ld Be). cbn [bind].
  destruct (lonely_owns m d Fa Ld) as (x & y & O). destruct (face_at m x y _ So O) as (f & Ef & If & Cf & Lf & Bf & Hf). rewrite Ef. cbn [bind].
  destruct (Co _ _ If) as (A & B). rewrite Z2Nat.id in A, B by lia. destruct (B d) as (i & a & I & C & Un); [right; auto|].
  rewrite (find_lonely m Fa (fcontours f) d i a); auto. 2: { intros z Z. destruct (A z Z) as (Q & _). apply (border_known _ _ _ Q). }
  cbn [bind]. destruct (face_total m (labelAt (cim m) d 0) (setContours (eraseAt i (fcontours f))) Hf) as (m1 & E1 & Z1 & I1). rewrite E1. cbn [bind].
  pose proof (contours_same _ _ _ _ E1) as (_ & S1 & _). rewrite Lf.
  destruct (paint_total m m1 Vertex (nodeOf (cim m) d) (ninf n) Region (labelAt (cim m) d 0) So Cn) as (m2 & E2 & _ & S2 & _); auto; [lia|rewrite I1; tauto|]. rewrite E2. cbn [bind].
  apply sized_same in S2. edestruct (face_total m2) as (m3 & E3 & Z3 & _); [exact (sized_here _ _ _ _ S2 Hf)|]. rewrite E3. cbn [bind].
  edestruct (node_total m3) as (m4 & E4 & Z4 & _); [exact (sized_here _ _ _ _ (sized_trans _ _ _ S2 Z3) Hn)|]. rewrite E4. cbn [bind]. eauto.
Qed.

(** ** removeBridge() *)
Lemma find_some m l f d : contoured m -> isFace m l f -> isDart (cim m) d -> sideOf (cim m) 1 d = Z.of_nat l -> exists i, findComponentAnchor m (fcontours f) d = Ok i.
Proof.
  intros (Fa & Co) If Dd Sd. assert (Wi : wired m) by apply Fa. assert (Fr : framed (cim m)) by apply Wi. destruct (Co l f If) as (A & B).
  assert (K : known m (fcontours f)) by (intros y Y; destruct (A y Y) as (Q & _); exact (border_known _ _ _ Q)). destruct (B d) as (i & a & I & C & _); [left; auto|].
  unfold findComponentAnchor. destruct (Nat.eqb (length (fcontours f)) 1); [eauto|]. rewrite (singular_dart (cim m) Fr d Dd). cbn [bind]. rewrite (edgeLabel_dart (cim m) Fr d (proj1 Dd)) by apply Dd. cbn [bind].
  destruct (find_edge m Fa (fcontours f) (edgeOf (cim m) d) K 0%nat) as (o & Eo & Q). rewrite Eo. cbn [bind]. destruct o as [k|]; [eauto|].
  destruct (find_contour m Fa (fcontours f) (edgeOf (cim m) d) K Q 0%nat) as (o & Eo' & Q'). rewrite Eo'. cbn [bind]. destruct o as [k|]; cbn [orFail]; [eauto|].
  exfalso. apply (Q' a d); auto. eapply nth_error_In, I.
Qed.
Lemma bridge_total m d : contoured m -> isDart (cim m) d -> sideOf (cim m) 1 d = sideOf (cim m) (-1) d -> exists r, removeBridge m d = Ok r.
Proof.
  intros Con Dd Sd. pose proof Con as (Fa & Co). pose proof Fa as (Wi & Pl & Ai & Fi & _). assert (Fr : framed (cim m)) by apply Wi. assert (Ne : neat (cim m)) by apply Wi. assert (Jo : joined (cim m)) by apply Wi. assert (So : sound m) by apply Wi.
  destruct (side_at m 1 d Fa (or_introl eq_refl) Dd) as (f & Ef & If & Cf & Lf & Bf & Hf). destruct (edge_at m d Wi Dd) as (e & Ee & Ce & Le & Be & He).
  destruct (alpha_ends m d Wi Dd) as (e' & d' & b & Ee' & _ & _ & _ & T & <- & Ab & Ends). destruct (alpha_darts m d b Wi Dd Ab) as (Db & _). assert (e' = e) by congruence. subst e'.
  assert (Ds : isDart (cim m) (estart e) /\ isDart (cim m) (eend e)) by (destruct Ends as [(-> & ->)|(-> & ->)]; auto). destruct Ds as (Ds & De).
  destruct (node_at m (estart e) So (proj1 Ds)) as (n1 & En1 & _ & _ & Bn1 & Hn1). destruct (node_at m (eend e) So (proj1 De)) as (n2 & En2 & _ & _ & Bn2 & Hn2).
  unfold removeBridge. rewrite (singular_dart (cim m) Fr d Dd). cbn [bind]. rewrite (edgeLabel_dart (cim m) Fr d (proj1 Dd)) by apply Dd. cbn [bind]. rewrite Ee. cbn [bind].
  rewrite (leftFace_is (cim m) Fr d (proj1 Dd)). cbn [bind]. rewrite Ef. cbn [bind]. rewrite !(nodeLabel_dart (cim m)) by (apply Ds || apply De). cbn [bind]. rewrite En1. cbn [bind]. rewrite En2. cbn [bind].
  rewrite (rightFace_is (cim m) Fr d (proj1 Dd)). cbn [bind]. replace (clabel (finf f) =? sideOf (cim m) (-1) d) with true by (symmetry; apply Z.eqb_eq; congruence). cbn [negb].
  destruct (sigma_defined (cim m) Fr Ne (-1) (estart e) (or_intror eq_refl) Ds) as (a1 & A1 & _). destruct (sigma_defined (cim m) Fr Ne (-1) (eend e) (or_intror eq_refl) De) as (a2 & A2 & _).
  change (prevSigma (cim m) (estart e) = Ok a1) in A1. change (prevSigma (cim m) (eend e) = Ok a2) in A2. rewrite A1. cbn [bind]. rewrite A2. cbn [bind].
  destruct (find_some m _ f d Con If Dd) as (i & Ei); [rewrite Z2Nat.id by lia; reflexivity|].
  rewrite Ei. cbn [bind].
  edestruct (face_total m) as (m1 & E1 & Z1 & I1); [exact Hf|]. rewrite E1. cbn [bind]. pose proof (contours_same _ _ _ _ E1) as (_ & S1 & _). rewrite Lf.
  destruct (paint_total m m1 Line (edgeOf (cim m) d) (einf e) Region (sideOf (cim m) 1 d) So Ce) as (m2 & E2 & P2 & S2 & Nd2 & _); auto; [lia|rewrite I1; tauto|]. rewrite E2. cbn [bind]. rewrite I1 in P2.
  pose proof (repaint_one _ _ _ _ _ _ P2) as Re. assert (Fr2 : framed (cim m2)) by (apply (repainted_framed _ _ _ _ _ _ Fr) with (2 := P2); discriminate). pose proof (sized_same _ _ S2) as Z2.
  assert (Nd1 : cnodes m1 = cnodes m) by (unfold updFace in E1; bnd E1 fi Efi; bnd E1 v Ev; injection E1 as <-; reflexivity). rewrite Nd1 in Nd2.
  assert (Gd : forall z n, isDart (cim m) z -> at_ (cnodes m2) (nodeOf (cim m) z) = Ok n -> good (cim m2) (nanchor n)).
  { intros z n Dz Zn. rewrite Nd2 in Zn. pose proof (anchor_dart m z n Wi Dz Zn) as Dn. apply (good_after (cim m) (cim m2) Region (sideOf (cim m) 1 d) [(Line, edgeOf (cim m) d)]); auto; [discriminate|].
    apply (vertex_after _ _ _ _ _ Re); [discriminate|]. split; [apply Dn|]. intros [Q|[]]. discriminate Q. }
  destruct (drops_total m2 (nodeOf (cim m) (estart e)) (nodeOf (cim m) (eend e)) Fr2) as (m3 & m4 & E3 & E4 & Z4 & _).
  { apply (sized_here _ _ _ _ Z2 Hn1). } { apply (sized_here _ _ _ _ Z2 Hn2). } { intros n [Q|Q]; [apply (Gd (estart e))|apply (Gd (eend e))]; auto. }
  rewrite E3. cbn [bind]. rewrite E4. cbn [bind]. pose proof (sized_trans _ _ _ Z2 Z4) as Z04.
  edestruct (face_total m4) as (m5 & E5 & Z5 & _); [exact (sized_here _ _ _ _ Z04 Hf)|]. rewrite E5. cbn [bind]. pose proof (sized_trans _ _ _ Z04 Z5) as Z05.
  edestruct (edge_total m5) as (m6 & E6 & _); [exact (sized_here _ _ _ _ Z05 He)|]. rewrite E6. cbn [bind]. eauto.
Qed.
(** it is not applied to other edges *)
Lemma bridge_exn m d : contoured m -> isDart (cim m) d -> sideOf (cim m) 1 d <> sideOf (cim m) (-1) d -> removeBridge m d = Exn.
Proof.
  intros Con Dd N. pose proof Con as (Fa & Co). pose proof Fa as (Wi & Pl & Ai & Fi & _). assert (Fr : framed (cim m)) by apply Wi. assert (So : sound m) by apply Wi.
  destruct (side_at m 1 d Fa (or_introl eq_refl) Dd) as (f & Ef & If & Cf & Lf & Bf & Hf).
  destruct (alpha_ends m d Wi Dd) as (e & d' & b & Ee & _ & _ & _ & T & <- & Ab & Ends). destruct (alpha_darts m d b Wi Dd Ab) as (Db & _).
  assert (Ds : isDart (cim m) (estart e) /\ isDart (cim m) (eend e)) by (destruct Ends as [(-> & ->)|(-> & ->)]; auto). destruct Ds as (Ds & De).
  destruct (node_at m (estart e) So (proj1 Ds)) as (n1 & En1 & _ & _ & Bn1 & Hn1). destruct (node_at m (eend e) So (proj1 De)) as (n2 & En2 & _ & _ & Bn2 & Hn2).
  unfold removeBridge. rewrite (singular_dart (cim m) Fr d Dd). cbn [bind]. rewrite (edgeLabel_dart (cim m) Fr d (proj1 Dd)) by apply Dd. cbn [bind]. rewrite Ee. cbn [bind].
  rewrite (leftFace_is (cim m) Fr d (proj1 Dd)). cbn [bind]. rewrite Ef. cbn [bind]. rewrite !(nodeLabel_dart (cim m)) by (apply Ds || apply De). cbn [bind]. rewrite En1. cbn [bind]. rewrite En2. cbn [bind].
  rewrite (rightFace_is (cim m) Fr d (proj1 Dd)). cbn [bind]. rewrite Lf. replace (sideOf (cim m) 1 d =? sideOf (cim m) (-1) d) with false by (symmetry; apply Z.eqb_neq; exact N). reflexivity.
Qed.

(** ** mergeFaces() *)
Lemma merged_total m el a1 a2 : wired m -> isDart (cim m) a1 -> isDart (cim m) a2 -> exists c, mergedAnchor m el a1 a2 = Ok c.
Proof.
  intros Wi D1 D2. assert (Fr : framed (cim m)) by apply Wi. unfold mergedAnchor. rewrite (edgeLabel_dart (cim m) Fr a1) by apply D1. cbn [bind]. destruct (_ =? el); [|eauto].
  destruct (phi_ok m Wi a1 D1) as (-> & D3). cbn [bind]. rewrite (edgeLabel_dart (cim m) Fr (phi m a1)) by apply D3. cbn [bind]. destruct (_ =? el); [|eauto].
  rewrite (edgeLabel_dart (cim m) Fr a2) by apply D2. cbn [bind]. destruct (_ =? el); [|eauto]. destruct (phi_ok m Wi a2 D2) as (-> & _). eauto.
Qed.
(** the start of mergeFaces() *)
Lemma merge_start m d : contoured m -> isDart (cim m) d -> exists rd lf rf, isDart (cim m) rd /\
  at_ (cfaces m) (sideOf (cim m) 1 d) = Ok lf /\ at_ (cfaces m) (sideOf (cim m) (-1) d) = Ok rf /\
  (if rectArea (cbounds (finf lf)) <? rectArea (cbounds (finf rf)) then nextAlpha m d else Ok d) = Ok rd /\
  ((sideOf (cim m) 1 rd = sideOf (cim m) 1 d /\ sideOf (cim m) (-1) rd = sideOf (cim m) (-1) d /\ rectArea (cbounds (finf rf)) <= rectArea (cbounds (finf lf))) \/
   (sideOf (cim m) 1 rd = sideOf (cim m) (-1) d /\ sideOf (cim m) (-1) rd = sideOf (cim m) 1 d /\ rectArea (cbounds (finf lf)) < rectArea (cbounds (finf rf)))).
Proof.
  intros (Fa & _) Dd. assert (Wi : wired m) by apply Fa.
  destruct (side_at m 1 d Fa (or_introl eq_refl) Dd) as (lf & Elf & _). destruct (side_at m (-1) d Fa (or_intror eq_refl) Dd) as (rf & Erf & _).
  destruct (alpha_ends m d Wi Dd) as (_ & d' & b & _ & _ & _ & _ & _ & <- & Ab & _). destruct (alpha_darts m d b Wi Dd Ab) as (Db & _). destruct (faced_edge m d b Fa Dd Ab) as ((F1 & F2) & _).
  destruct (Z.ltb_spec (rectArea (cbounds (finf lf))) (rectArea (cbounds (finf rf)))) as [L|L].
  - exists b, lf, rf. rewrite (proj2 (Z.ltb_lt _ _) L). split; [exact Db|]. split; [exact Elf|]. split; [exact Erf|]. split; [exact Ab|]. right. split; [congruence|]. split; [congruence|exact L].
  - exists d, lf, rf. rewrite (proj2 (Z.ltb_ge _ _) L). split; [exact Dd|]. split; [exact Elf|]. split; [exact Erf|]. split; [reflexivity|]. left. auto.
Qed.
Lemma merge_exn m d : contoured m -> isDart (cim m) d -> sideOf (cim m) 1 d = sideOf (cim m) (-1) d -> mergeFaces m d = Exn.
Proof.
  intros Con Dd N. pose proof Con as (Fa & Co). pose proof Fa as (Wi & Pl & Ai & Fi & _). assert (Fr : framed (cim m)) by apply Wi. assert (So : sound m) by apply Wi.
  destruct (merge_start m d Con Dd) as (rd & lf & rf & Dr & Elf & Erf & Erd & Si).
  unfold mergeFaces. rewrite (leftFace_is (cim m) Fr d (proj1 Dd)). cbn [bind]. rewrite Elf. cbn [bind]. rewrite (rightFace_is (cim m) Fr d (proj1 Dd)). cbn [bind]. rewrite Erf. cbn [bind]. rewrite Erd. cbn [bind].
  rewrite (edgeLabel_dart (cim m) Fr rd (proj1 Dr)) by apply Dr. cbn [bind].
  destruct (alpha_ends m rd Wi Dr) as (e & d' & b & Ee & _ & _ & _ & T & <- & Ab & Ends). destruct (alpha_darts m rd b Wi Dr Ab) as (Db & _). rewrite Ee. cbn [bind].
  destruct (side_at m 1 rd Fa (or_introl eq_refl) Dr) as (sf & Esf & _ & _ & Ls & _). destruct (side_at m (-1) rd Fa (or_intror eq_refl) Dr) as (mf & Emf & _ & _ & Lm & _).
  rewrite (leftFace_is (cim m) Fr rd (proj1 Dr)). cbn [bind]. rewrite Esf. cbn [bind]. rewrite (rightFace_is (cim m) Fr rd (proj1 Dr)). cbn [bind]. rewrite Emf. cbn [bind].
  assert (Ds : isDart (cim m) (estart e) /\ isDart (cim m) (eend e)) by (destruct Ends as [(-> & ->)|(-> & ->)]; auto). destruct Ds as (Ds & De).
  destruct (node_at m (estart e) So (proj1 Ds)) as (n1 & En1 & _ & _ & Bn1 & Hn1). destruct (node_at m (eend e) So (proj1 De)) as (n2 & En2 & _ & _ & Bn2 & Hn2).
  rewrite !(nodeLabel_dart (cim m)) by (apply Ds || apply De). cbn [bind]. rewrite En1. cbn [bind]. rewrite En2. cbn [bind]. rewrite Ls, Lm.
  replace (sideOf (cim m) 1 rd =? sideOf (cim m) (-1) rd) with true by (symmetry; apply Z.eqb_eq; destruct Si as [(-> & -> & _)|(-> & -> & _)]; congruence). reflexivity.
Qed.
Lemma merge_total m d : contoured m -> isDart (cim m) d -> sideOf (cim m) 1 d <> sideOf (cim m) (-1) d -> exists r, mergeFaces m d = Ok r.
Proof.
  intros Con Dd N. pose proof Con as (Fa & Co). pose proof Fa as (Wi & Pl & Ai & Fi & _). assert (Fr : framed (cim m)) by apply Wi. assert (Ne : neat (cim m)) by apply Wi. assert (Jo : joined (cim m)) by apply Wi. assert (So : sound m) by apply Wi.
  destruct (merge_start m d Con Dd) as (rd & lf & rf & Dr & Elf & Erf & Erd & Si).
  unfold mergeFaces. rewrite (leftFace_is (cim m) Fr d (proj1 Dd)). cbn [bind]. rewrite Elf. cbn [bind]. rewrite (rightFace_is (cim m) Fr d (proj1 Dd)). cbn [bind]. rewrite Erf. cbn [bind]. rewrite Erd. cbn [bind]. clear Erd.
  rewrite (edgeLabel_dart (cim m) Fr rd (proj1 Dr)) by apply Dr. cbn [bind].
  destruct (edge_at m rd Wi Dr) as (e & Ee & Ce & Le & Be & He).
  destruct (alpha_ends m rd Wi Dr) as (e' & d' & b & Ee' & _ & _ & _ & T & <- & Ab & Ends). assert (e' = e) by congruence. subst e'. clear Ee'. destruct (alpha_darts m rd b Wi Dr Ab) as (Db & Nb & Ba & Eb & U). rewrite Ee. cbn [bind].
  destruct (side_at m 1 rd Fa (or_introl eq_refl) Dr) as (sf & Esf & Is & Cs & Ls & Bs & Hs). destruct (side_at m (-1) rd Fa (or_intror eq_refl) Dr) as (mf & Emf & Im & Cm & Lm & Bm & Hm).
  rewrite (leftFace_is (cim m) Fr rd (proj1 Dr)). cbn [bind]. rewrite Esf. cbn [bind]. rewrite (rightFace_is (cim m) Fr rd (proj1 Dr)). cbn [bind]. rewrite Emf. cbn [bind].
  assert (Ds : isDart (cim m) (estart e) /\ isDart (cim m) (eend e)) by (destruct Ends as [(-> & ->)|(-> & ->)]; auto). destruct Ds as (Ds & De).
  destruct (node_at m (estart e) So (proj1 Ds)) as (n1 & En1 & _ & Ln1 & Bn1 & Hn1). destruct (node_at m (eend e) So (proj1 De)) as (n2 & En2 & _ & Ln2 & Bn2 & Hn2).
  rewrite !(nodeLabel_dart (cim m)) by (apply Ds || apply De). cbn [bind]. rewrite En1. cbn [bind]. rewrite En2. cbn [bind]. rewrite Ls, Lm, Le.
  set (el := edgeOf (cim m) rd) in *. set (sl := sideOf (cim m) 1 rd) in *. set (ml := sideOf (cim m) (-1) rd) in *.
  assert (Nsm : sl <> ml) by (destruct Si as [(-> & -> & _)|(-> & -> & _)]; congruence). rewrite (proj2 (Z.eqb_neq sl ml) Nsm).
  assert (Nm0 : ml <> 0).
  { intros Q. destruct Si as [(E1 & E2 & L)|(E1 & E2 & L)].
    - assert (lf = sf) by congruence. assert (rf = mf) by congruence. subst lf rf. assert (rectArea (cbounds (finf sf)) < rectArea (cbounds (finf mf))); [|lia].
      rewrite Q in Cm. apply (face0_largest m _ (Z.to_nat sl) _ So Cm Cs). lia.
    - assert (lf = mf) by congruence. assert (rf = sf) by congruence. subst lf rf. assert (rectArea (cbounds (finf sf)) < rectArea (cbounds (finf mf))); [|lia].
      rewrite Q in Cm. apply (face0_largest m _ (Z.to_nat sl) _ So Cm Cs). lia. }
  destruct (faced_edge m rd b Fa Dr Ab) as ((S1 & S2) & _). fold sl ml in S1, S2.
  assert (Sb : sideOf (cim m) 1 b = ml) by congruence.
  assert (No : ~ orb (phi m) rd b) by (intros X; apply Nsm; rewrite <- Sb; symmetry; apply (side_orb m Fa rd b Dr X)).
  destruct (find_in m (Z.to_nat sl) sf rd rd Con Is Dr Dr eq_refl) as (i1 & a1 & Q1 & J1 & C1).
  { rewrite Z2Nat.id by lia. reflexivity. }
  { intros y Dy Ey Sy. rewrite Z2Nat.id in Sy by lia. apply (contour_dart m Wi); auto. destruct (U y Dy Ey) as [-> | ->]; [apply orb_refl|exfalso; congruence]. }
  destruct (find_in m (Z.to_nat ml) mf rd b Con Im Dr Db) as (i2 & a2 & Q2 & J2 & C2).
  { exact Eb. } { rewrite Z2Nat.id by lia. exact Sb. }
  { intros y Dy Ey Sy. rewrite Z2Nat.id in Sy by lia. apply (contour_dart m Wi); auto. destruct (U y Dy Ey) as [-> | ->]; [exfalso; apply Nsm; exact Sy|apply orb_refl]. }
  assert (D1 : isDart (cim m) a1) by (destruct C1 as [(X & _)|(_ & X & _)]; [exact X|exfalso; apply (lonely_not m rd X Dr)]).
  assert (D2 : isDart (cim m) a2) by (destruct C2 as [(X & _)|(_ & X & _)]; [exact X|exfalso; apply (lonely_not m b X Db)]).
  rewrite Q1. cbn [bind]. rewrite Q2. cbn [bind]. rewrite (proj2 (vget_Ok _ _ _) J1). cbn [bind]. rewrite (proj2 (vget_Ok _ _ _) J2). cbn [bind].
  destruct (merged_total m el a1 a2 Wi D1 D2) as (c & Ec). rewrite Ec. cbn [bind]. pose proof (merged_anchor m rd b a1 a2 c Fa Dr Ab No C1 C2 Ec) as Mc.
  assert (Dc : isDart (cim m) c) by (destruct Mc as [((X & _) & _)|(-> & _)]; [exact X|exact Db]).
  rewrite (edgeLabel_dart (cim m) Fr c (proj1 Dc)) by apply Dc. cbn [bind]. rewrite Ln1, Ln2.
  replace ((edgeOf (cim m) c =? el) && negb (nodeOf (cim m) (estart e) =? nodeOf (cim m) (eend e))) with false.
  2: { symmetry. apply andb_false_iff. destruct Mc as [((_ & X & Y) & _)|(-> & Fa1 & Fb1)].
    - left. apply Z.eqb_neq. intros E. destruct (U c Dc E); congruence.
    - right. apply negb_false_iff, Z.eqb_eq.
      assert (Q : nodeOf (cim m) rd = nodeOf (cim m) b).
      { pose proof (phi_next m Wi rd b Dr Ab) as Nx. rewrite Fa1 in Nx. pose proof (next_node (cim m) Fr Jo (-1) b rd (or_intror eq_refl) Db Nx) as Q. rewrite !(nodeLabel_dart (cim m)) in Q by (apply Dr || apply Db). congruence. }
      destruct Ends as [(-> & ->)|(-> & ->)]; congruence. }
  edestruct (face_total m) as (m1 & E1 & Z1 & I1); [exact Hs|]. rewrite E1. cbn [bind]. pose proof (contours_same _ _ _ _ E1) as (_ & Sc1 & _).
  destruct (paint_total m m1 Line el (einf e) Region sl So Ce) as (m2 & E2 & P2 & Sc2 & Nd2 & _); auto; [lia|rewrite I1; tauto|]. rewrite Le in E2. rewrite E2. cbn [bind]. rewrite I1 in P2.
  destruct (paint_total m m2 Region ml (finf mf) Region sl So Cm) as (m3 & E3 & P3 & Sc3 & Nd3 & _); auto; [lia| |].
  { intros x y. rewrite (repainted_owns _ _ _ _ _ _ P2 ltac:(discriminate)). split; [intros K; left; split; [exact K|discriminate]|intros [[K _]|[[= K] _]]; [exact K|congruence]]. }
  rewrite Lm in E3. rewrite E3. cbn [bind].
  assert (Re : repaint (cim m) (cim m3) Region sl [(Line, el); (Region, ml)]) by (apply (repaint_two _ (cim m2)); auto; congruence).
  assert (Fr2 : framed (cim m2)) by (apply (repainted_framed _ _ _ _ _ _ Fr) with (2 := P2); discriminate).
  assert (Fr3 : framed (cim m3)) by (apply (repainted_framed _ _ _ _ _ _ Fr2) with (2 := P3); congruence). pose proof (sized_same _ _ Sc3) as Z3.
  assert (Nd1 : cnodes m1 = cnodes m) by (unfold updFace in E1; bnd E1 fi Efi; bnd E1 v Ev; injection E1 as <-; reflexivity). rewrite Nd1 in Nd2. rewrite Nd2 in Nd3.
  assert (Gd : forall z n, isDart (cim m) z -> at_ (cnodes m3) (nodeOf (cim m) z) = Ok n -> good (cim m3) (nanchor n)).
  { intros z n Dz Zn. rewrite Nd3 in Zn. pose proof (anchor_dart m z n Wi Dz Zn) as Dn. apply (good_after (cim m) (cim m3) Region sl [(Line, el); (Region, ml)]); auto; [discriminate|].
    apply (vertex_after _ _ _ _ _ Re); [discriminate|]. split; [apply Dn|]. intros [Q|[Q|[]]]; discriminate Q. }
  destruct (drops_total m3 (nodeOf (cim m) (estart e)) (nodeOf (cim m) (eend e)) Fr3) as (m4 & m5 & E4 & E5 & Z5 & _).
  { apply (sized_here _ _ _ _ Z3 Hn1). } { apply (sized_here _ _ _ _ Z3 Hn2). } { intros n [Q|Q]; [apply (Gd (estart e))|apply (Gd (eend e))]; auto. }
  rewrite E4. cbn [bind]. rewrite E5. cbn [bind]. pose proof (sized_trans _ _ _ Z3 Z5) as Z05.
  edestruct (face_total m5) as (m6 & E6 & Z6 & _); [exact (sized_here _ _ _ _ Z05 Hs)|]. rewrite E6. cbn [bind]. pose proof (sized_trans _ _ _ Z05 Z6) as Z06.
  edestruct (edge_total m6) as (m7 & E7 & Z7 & _); [exact (sized_here _ _ _ _ Z06 He)|]. rewrite E7. cbn [bind]. pose proof (sized_trans _ _ _ Z06 Z7) as Z07.
  edestruct (face_total m7) as (m8 & E8 & _); [exact (sized_here _ _ _ _ Z07 Hm)|]. rewrite E8. cbn [bind]. eauto.
Qed.

(** ** mergeEdges() *)
Lemma leave_list m cs l : faced m -> (forall c, In c cs -> isDart (cim m) c \/ lonely (cim m) c) -> exists cs', removeNodeFromContours m cs l = Ok cs'.
Proof.
  intros Fa. assert (Wi : wired m) by apply Fa. induction cs as [|c cs IH]; intros H; cbn [removeNodeFromContours]; [eauto|].
  assert (V : vertexAt (cim m) (dcx c) (dcy c)) by (destruct (H c (or_introl eq_refl)) as [D|L]; [apply D|apply L]).
  rewrite (nodeLabel_dart (cim m) c V). cbn [bind]. destruct IH as (cs' & E); [intros x X; apply H; right; exact X|].
  assert (P : exists c', (if nodeOf (cim m) c =? l then nextPhi m c else Ok c) = Ok c').
  { destruct (_ =? l); [|eauto]. destruct (H c (or_introl eq_refl)) as [D|L]; [destruct (phi_ok m Wi c D) as (-> & _); eauto|rewrite (phi_lonely m Fa c L); eauto]. }
  destruct P as (c' & ->). cbn [bind]. rewrite E. cbn [bind]. eauto.
Qed.
Lemma leave_total m fl f l : contoured m -> isFace m (Z.to_nat fl) f -> 0 <= fl -> forall m1, (forall u, cellsOf m1 u = cellsOf m u) -> cim m1 = cim m -> cedges m1 = cedges m -> cinit m1 = cinit m -> at_ (cfaces m1) fl = Ok f -> here m Region fl ->
  exists m2, leaveNode m1 fl l = Ok m2 /\ (forall u, cellsOf m2 u = cellsOf m u) /\ cim m2 = cim m /\ cedges m2 = cedges m /\ cinit m2 = cinit m /\ forall k, k <> fl -> at_ (cfaces m2) k = at_ (cfaces m1) k.
Proof.
  intros (Fa & Co) If P m1 Sc Im Eg Ci E H. destruct (Co _ _ If) as (A & _).
  destruct (leave_list m (fcontours f) l Fa) as (cs & Ecs); [intros c C; destruct (A c C) as (Q & _); exact (border_known _ _ _ Q)|].
  unfold leaveNode. rewrite E. cbn [bind]. rewrite (leave_same m m1 l (fcontours f) Im Eg Ci), Ecs. cbn [bind].
  destruct (face_total m1 fl (setContours cs)) as (m2 & E2 & Z2 & I2); [apply (sized_here _ _ _ _ (sized_same _ _ Sc) H)|]. exists m2. split; [exact E2|].
  pose proof (contours_same _ _ _ _ E2) as (_ & S2 & _). split; [intros u; rewrite S2; apply Sc|]. split; [congruence|].
  unfold updFace in E2. rewrite E in E2. cbn [bind] in E2. bnd E2 v Ev. injection E2 as <-. split; [exact Eg|]. split; [exact Ci|]. intros k N. apply put_Ok in Ev. subst v. cbn [setFaces cfaces].
  unfold at_. rewrite list_upd_length. destruct ((0 <=? k) && (k <? _)) eqn:B; [|reflexivity]. apply andb_true_iff in B. destruct B as (B & _). apply Z.leb_le in B. unfold vget. rewrite nth_error_upd_neq by lia. reflexivity.
Qed.
Lemma sigma_at m d : wired m -> isDart (cim m) d -> exists d', nextSigma (cim m) d = Ok d' /\ isDart (cim m) d' /\ nodeOf (cim m) d' = nodeOf (cim m) d.
Proof.
  intros Wi D. assert (Fr : framed (cim m)) by apply Wi. assert (Ne : neat (cim m)) by apply Wi. assert (Jo : joined (cim m)) by apply Wi.
  destruct (sigma_defined (cim m) Fr Ne 1 d (or_introl eq_refl) D) as (d' & E & N & _). exists d'. split; [exact E|]. assert (D' : isDart (cim m) d') by apply N. split; [exact D'|].
  pose proof (next_node (cim m) Fr Jo 1 d d' (or_introl eq_refl) D N) as Q. rewrite !(nodeLabel_dart (cim m)) in Q by (apply D || apply D'). congruence.
Qed.
Lemma dartEqb_refl a : dartEqb a a = true. Proof. unfold dartEqb. rewrite !Z.eqb_refl. reflexivity. Qed.
Lemma edges_answer m d d1 x : contoured m -> isDart (cim m) d -> nextSigma (cim m) d = Ok d1 -> nextSigma (cim m) d1 = Ok x ->
  (x = d /\ edgeOf (cim m) d1 <> edgeOf (cim m) d /\ exists r, mergeEdges m d = Ok r) \/ (~ (x = d /\ edgeOf (cim m) d1 <> edgeOf (cim m) d) /\ mergeEdges m d = Exn).
Proof.
  intros Con Dd Ed1 Ex. pose proof Con as (Fa & Co). pose proof Fa as (Wi & Pl & Ai & Fi & _). assert (Fr : framed (cim m)) by apply Wi. assert (So : sound m) by apply Wi.
  destruct (sigma_at m d Wi Dd) as (q & Q & D1 & N1). assert (q = d1) by congruence. subst q. clear Q.
  destruct (sigma_at m d1 Wi D1) as (q & Q & Dx & Nx). assert (q = x) by congruence. subst q. clear Q.
  destruct (edge_at m d Wi Dd) as (e0 & Ee0 & _). destruct (edge_at m d1 Wi D1) as (e1 & Ee1 & _).
  unfold mergeEdges. cbv zeta. rewrite Ed1. cbn [bind]. rewrite (edgeLabel_dart (cim m) Fr d (proj1 Dd)) by apply Dd. cbn [bind]. rewrite Ee0. cbn [bind]. rewrite (edgeLabel_dart (cim m) Fr d1 (proj1 D1)) by apply D1. cbn [bind]. rewrite Ee1. cbn [bind].
  set (fs := rectArea (cbounds (einf e0)) <? rectArea (cbounds (einf e1))).
  assert (Q : exists d2 d3, (if fs then nextSigma (cim m) d1 else Ok d1) = Ok d2 /\ isDart (cim m) d2 /\ nodeOf (cim m) d2 = nodeOf (cim m) d /\ nextSigma (cim m) d2 = Ok d3 /\ isDart (cim m) d3 /\ nodeOf (cim m) d3 = nodeOf (cim m) d /\
    (if fs then d2 else d3) = x /\ (x = d -> (d2 = d /\ d3 = d1) \/ (d2 = d1 /\ d3 = d))).
  { destruct fs.
    - destruct (sigma_at m x Wi Dx) as (d3 & Q & D3 & N3). exists x, d3. split; [exact Ex|]. split; [exact Dx|]. split; [congruence|]. split; [exact Q|]. split; [exact D3|]. split; [congruence|]. split; [reflexivity|]. intros ->. left. split; congruence.
    - exists d1, x. split; [reflexivity|]. split; [exact D1|]. split; [exact N1|]. split; [exact Ex|]. split; [exact Dx|]. split; [congruence|]. split; [reflexivity|]. intros ->. right. auto. }
  destruct Q as (d2 & d3 & Ed2 & D2 & N2 & Ed3 & D3 & N3 & Te & Wh). rewrite Ed2. cbn [bind]. rewrite (edgeLabel_dart (cim m) Fr d2 (proj1 D2)) by apply D2. cbn [bind].
  destruct (edge_at m d2 Wi D2) as (me & Eme & Cme & Lme & Bme & Hme). rewrite Eme. cbn [bind]. rewrite (nodeLabel_dart (cim m) d2 (proj1 D2)). cbn [bind].
  destruct (node_at m d2 So (proj1 D2)) as (n & En & Cn & Ln & Bn & Hn). rewrite En. cbn [bind]. rewrite Ed3. cbn [bind]. rewrite (edgeLabel_dart (cim m) Fr d3 (proj1 D3)) by apply D3. cbn [bind].
  destruct (edge_at m d3 Wi D3) as (se & Ese & Cse & Lse & Bse & Hse). rewrite Ese. cbn [bind]. rewrite Te. unfold dartEq. rewrite (singular_dart (cim m) Fr x Dx). cbn [bind negb]. cbn [bind].
  destruct (dartEqb x d) eqn:Xd; cbn [negb].
  2: { right. split; [|cbn [negb]; reflexivity]. intros (-> & _). rewrite dartEqb_refl in Xd. discriminate Xd. }
  apply dart_ext in Xd; [|apply Dx|apply Dd]. clear Te. subst x. rewrite Lse, Lme.
  destruct (Z.eqb_spec (edgeOf (cim m) d3) (edgeOf (cim m) d2)) as [E|E].
  { right. split; [|reflexivity]. intros (_ & X). apply X. destruct (Wh eq_refl) as [(-> & ->)|(-> & ->)]; congruence. }
  left. split; [reflexivity|]. split; [destruct (Wh eq_refl) as [(-> & ->)|(-> & ->)]; congruence|].
  rewrite (leftFace_is (cim m) Fr d3 (proj1 D3)). cbn [bind]. rewrite (nodeLabel_dart (cim m) d3 (proj1 D3)). cbn [bind].
  destruct (side_at m 1 d3 Fa (or_introl eq_refl) D3) as (lf & Elf & Ilf & _ & _ & Blf & Hlf). destruct (side_at m (-1) d3 Fa (or_intror eq_refl) D3) as (rf & Erf & Irf & _ & _ & Brf & Hrf).
  destruct (leave_total m _ lf (nodeOf (cim m) d3) Con Ilf (proj1 Blf) m) as (m1 & E1 & Sc1 & I1 & G1 & K1 & O1); auto. rewrite E1. cbn [bind]. rewrite (rightFace_is (cim m) Fr d3 (proj1 D3)). cbn [bind].
  assert (M2 : exists m2, (if sideOf (cim m) 1 d3 =? sideOf (cim m) (-1) d3 then Ok m1 else leaveNode m1 (sideOf (cim m) (-1) d3) (nodeOf (cim m) d3)) = Ok m2 /\ (forall u, cellsOf m2 u = cellsOf m u) /\ cim m2 = cim m /\ cedges m2 = cedges m /\ cinit m2 = cinit m).
  { destruct (Z.eqb_spec (sideOf (cim m) 1 d3) (sideOf (cim m) (-1) d3)) as [Q|Q]; [exists m1; auto 6|].
    destruct (leave_total m _ rf (nodeOf (cim m) d3) Con Irf (proj1 Brf) m1) as (m2 & E2 & Sc2 & I2 & G2 & K2 & _); auto; [rewrite O1 by auto; exact Erf|]. exists m2. auto 6. }
  destruct M2 as (m2 & E2 & Sc2 & I2 & G2 & K2). rewrite E2. cbn [bind]. rewrite !(alpha_same m m2) by auto.
  destruct (alpha_ends m d3 Wi D3) as (_ & d' & a1 & _ & _ & _ & _ & _ & <- & A1 & _). destruct (alpha_ends m d2 Wi D2) as (_ & d' & a2 & _ & _ & _ & _ & _ & <- & A2 & _). rewrite A1. cbn [bind]. rewrite A2. cbn [bind].
  pose proof (sized_same _ _ Sc2) as Z2. destruct (edge_total m2 (edgeOf (cim m) d3) (fun e => EInfo (einf e) a1 a2)) as (m3 & E3 & _ & I3); [exact (sized_here _ _ _ _ Z2 Hse)|]. rewrite E3. cbn [bind].
  pose proof (darts_same _ _ _ _ _ E3) as (_ & Sc3 & _). assert (Sc03 : forall u, cellsOf m3 u = cellsOf m u) by (intros u; rewrite Sc3; apply Sc2). assert (I03 : cim m3 = cim m) by congruence.
  destruct (paint_total m m3 Vertex _ (ninf n) Line (edgeOf (cim m) d3) So Cn) as (m4 & E4 & P4 & Sc4 & _); auto; [lia|rewrite I03; tauto|]. rewrite E4. cbn [bind]. rewrite I03 in P4.
  destruct (paint_total m m4 Line _ (einf me) Line (edgeOf (cim m) d3) So Cme) as (m5 & E5 & P5 & Sc5 & _); auto; [lia| |].
  { intros u v. rewrite (repainted_owns _ _ _ _ _ _ P4 ltac:(discriminate)). split; [intros K; left; split; [exact K|discriminate]|intros [[K _]|[[= K] _]]; [exact K|congruence]]. }
  rewrite Lme in E5. rewrite E5. cbn [bind]. pose proof (sized_same _ _ Sc5) as Z5.
  edestruct (edge_total m5) as (m6 & E6 & Z6 & _); [exact (sized_here _ _ _ _ Z5 Hse)|]. rewrite E6. cbn [bind]. pose proof (sized_trans _ _ _ Z5 Z6) as Z06.
  edestruct (node_total m6) as (m7 & E7 & Z7 & _); [exact (sized_here _ _ _ _ Z06 Hn)|]. rewrite E7. cbn [bind]. pose proof (sized_trans _ _ _ Z06 Z7) as Z07.
  edestruct (edge_total m7) as (m8 & E8 & _); [exact (sized_here _ _ _ _ Z07 Hme)|]. rewrite E8. cbn [bind]. eauto.
Qed.
