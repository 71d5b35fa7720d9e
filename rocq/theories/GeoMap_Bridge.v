(** removeBridge: what it does, and that it preserves the map invariant. *)
From Verif Require Import Base Orbit GraphRank Euler Links FaceInv Conj
  GeoMap_Model GeoMap_Views GeoMap_SInv GeoMap_Remove GeoMap_MergeEdges GeoMap_Loops
  GeoMap_MInv GeoMap_Gone.
Local Open Scope Z_scope.

(** ** Lists *)

Lemma perm_remove_nth {A} (l : list A) i a : nth_error l i = Some a ->
  Permutation l (a :: remove_nth l i).
Proof.
  revert i. induction l as [|b l IH]; intros [|i] H; try discriminate.
  - injection H as ->. reflexivity.
  - simpl in H. unfold remove_nth in *. cbn [firstn skipn app].
    transitivity (b :: a :: firstn i l ++ skipn (S i) l); [constructor; apply IH; assumption | apply perm_swap].
Qed.

Lemma perm_list_upd {A} (l : list A) i a b : nth_error l i = Some a ->
  Permutation (list_upd l i b) (b :: remove_nth l i).
Proof.
  revert i. induction l as [|c l IH]; intros [|i] H; try discriminate.
  - reflexivity.
  - simpl in H. unfold remove_nth in *. cbn [list_upd firstn skipn app].
    transitivity (c :: b :: firstn i l ++ skipn (S i) l); [constructor; apply IH; assumption | apply perm_swap].
Qed.

(** ** Independence *)

Lemma bridge_links x y R K G bb :
  indep ((x, y) :: spokes x R ++ K) G -> In bb [[x; y]; [x]; [y]; []] ->
  indep (star (bb ++ R) ++ K) G.
Proof.
  intros H [<-|[<-|[<-|[<-|[]]]]].
  - exact H.
  - apply (indep_tail (x, y)). exact H.
  - apply (indep_tail (x, y)). apply (indep_geq ((x, y) :: spokes x R ++ K)); auto.
    + simpl. rewrite !app_length, !spokes_length; reflexivity.
    + cbn [app star]. rewrite <- !app_assoc.
      transitivity (spokes x R ++ (x, y) :: K ++ G); [apply geq_perm, Permutation_middle|].
      transitivity (spokes y R ++ (x, y) :: K ++ G); [apply geq_spokes, conn_edge; left; reflexivity|].
      apply geq_perm. symmetry; apply Permutation_middle.
  - apply indep_tail in H. apply indep_spokes_star in H. exact H.
Qed.

Lemma star_perm_indep A B K G : Permutation A B -> indep (star A ++ K) G -> indep (star B ++ K) G.
Proof.
  intros HP H. apply (indep_geq (star A ++ K)); auto.
  - rewrite !app_length, !star_length, (Permutation_length HP); reflexivity.
  - rewrite <- !app_assoc. apply geq_star_perm; assumption.
Qed.

Lemma bridge_indep A a R K G x y B bb :
  indep (star A ++ K) ((x, y) :: G) -> Permutation A (a :: R) -> conn ((x, y) :: G) a x ->
  rank ((x, y) :: G) = S (rank G) ->
  Permutation B (bb ++ R) -> In bb [[x; y]; [x]; [y]; []] ->
  indep (star B ++ K) G.
Proof.
  intros H HA Hc Hr HB Hbb. apply (star_perm_indep (bb ++ R)); [symmetry; assumption|].
  apply (bridge_links x y); auto.
  apply indep_bridge; auto.
  apply (star_perm_indep A (a :: R)) in H; auto. cbn [star] in H.
  apply (indep_geq (spokes a R ++ K)); auto.
  - rewrite !app_length, !spokes_length; reflexivity.
  - rewrite <- !app_assoc. apply geq_spokes. apply conn_app_r; assumption.
Qed.

(** ** What removeBridge does *)

Definition bridgeAnchors m m' d fl A pos B : Prop :=
  let a1 := sgi m d in let a2 := sgi m (- d) in
  (a1 = d /\ a2 = - d /\ B = remove_nth A pos) \/
  (a1 = d /\ a2 <> - d /\ B = list_upd A pos a2) \/
  (a1 <> d /\ a2 = - d /\ B = list_upd A pos a1) \/
  (a1 <> d /\ a2 <> - d /\ exists b1 b2,
     ((b1 = a1 /\ b2 = a2) \/ (b1 = a2 /\ b2 = a1)) /\ B = list_upd A pos b1 ++ [b2] /\
     (pos = 0%nat -> fl <> 0%nat -> exists c1 c2,
        contourArea m' b1 = Ok c1 /\ contourArea m' b2 = Ok c2 /\ c2 <= c1)).

Record Bridged m d fl m' : Prop := {
  br_gone : EdgeGone m d m';
  br_edge : forall j, eAt m' j = if Nat.eqb (elab d) j then None else eAt m j;
  br_fc : faceCount m' = faceCount m;
  br_f : exists f pos a B, fAt m fl = Some f /\ nth_error (fanchors f) pos = Some a /\
     reach (phi m) a d /\ faces m' = list_upd (faces m) fl (Some (set_anchors f B)) /\
     bridgeAnchors m m' d fl (fanchors f) pos B }.

Lemma sgi_fix m d : SI m (darts m) -> In d (darts m) -> (sgi m d = d <-> sg m d = d).
Proof.
  intros S Hd. destruct (si_perm _ _ S d Hd) as (_ & _ & A & B). split; intros E; congruence.
Qed.

(** a node all of whose darts were detached has no anchor *)
Lemma alone_anchor m d mD x : SInv m -> In d (darts m) -> detached2 m d mD -> (x = d \/ x = - d) ->
  sg m x = x -> exists n, nAt mD (stt m x) = Some n /\ nanchor n = 0.
Proof.
  intros V Hd T Hx Hsx. pose proof (sv_si _ V) as S.
  assert (HxD : In x (darts m)) by (destruct Hx as [->| ->]; [|apply darts_opp]; assumption).
  pose proof (si_node _ _ S x HxD) as Hn. pose proof (d2_pos _ _ _ T (stt m x)) as Hp.
  destruct (nAt mD (stt m x)) as [n|] eqn:En; [|destruct (nAt m (stt m x)); [discriminate | congruence]].
  exists n; split; [reflexivity|].
  assert (Hst : forall y, stt mD y = stt m y) by (intros y; unfold stt, eAt; rewrite (d2_edges _ _ _ T); reflexivity).
  destruct (si_anchor _ _ (d2_si _ _ _ T) _ _ En) as [[A _]|(A & B & _)]; [assumption|].
  exfalso. apply in_rest in A as (A1 & A2 & A3). rewrite Hst in B.
  assert (Hr : reach (sg m) x (nanchor n)) by (apply (SI_orbit m (darts m)); auto).
  assert (E : nanchor n = x).
  { revert Hr. generalize (nanchor n). apply reach_ind_r; [reflexivity|]. intros y _ ->. assumption. }
  destruct Hx as [->| ->]; congruence.
Qed.

Lemma contourArea_frame m1 m2 D a :
  SI m1 D -> SI m2 D -> (forall x, In x D -> In (- x) D) ->
  (length D + 1 <= fuel m1)%nat -> (length D + 1 <= fuel m2)%nat ->
  (forall x, In x D -> sgi m2 x = sgi m1 x) -> (forall x, In x D -> dwt m2 x = dwt m1 x) ->
  In a D -> exists c, contourArea m1 a = Ok c /\ contourArea m2 a = Ok c.
Proof.
  intros S1 S2 Ho H1 H2 Hsg Hw Ha.
  destruct (contourAreaD_spec m1 D a S1 Ho H1 Ha) as (L1 & N1 & I1 & R1).
  destruct (contourAreaD_spec m2 D a S2 Ho H2 Ha) as (L2 & N2 & I2 & R2).
  assert (Hin : forall y, reach (phi m1) a y -> In y D).
  { intros y Hy. apply (reach_in D _ _ (phiD_perm m1 D S1 Ho) a); assumption. }
  exists (sumZ (dwt m1) L1). split; auto. rewrite R2. f_equal.
  assert (HP : Permutation L2 L1).
  { apply NoDup_Permutation; auto. intros y. rewrite I1, I2.
    split; apply (reach_ext _ _ (fun z => In z D)); auto.
    - intros z Hz. unfold phi. apply Hsg, Ho; assumption.
    - intros z Hz. apply (phiD_perm m2 D S2 Ho); assumption.
    - intros z Hz. unfold phi. symmetry. apply Hsg, Ho; assumption.
    - intros z Hz. apply (phiD_perm m1 D S1 Ho); assumption. }
  rewrite (sumZ_perm _ _ _ HP). apply sumZ_ext. intros x Hx. apply Hw, Hin, I1; assumption.
Qed.

Lemma rest_fuel m d m' : length (edges m') = length (edges m) -> (length (rest m d) + 1 <= fuel m')%nat.
Proof.
  intros H. assert (K : forall x l, (length (rmz x l) <= length l)%nat).
  { intros x l. unfold rmz. induction l as [|a l IH]; simpl; [lia|]. destruct (negb _); simpl; lia. }
  pose proof (fuel_darts m). unfold fuel in *. rewrite H. unfold rest.
  pose proof (K (- d) (rmz d (darts m))). pose proof (K d (darts m)). lia.
Qed.

(** Outcome of a successful removal, [mE] being the map without isolated nodes. *)
Lemma bridged_build m d mD mE m' fl f pos a B :
  SInv m -> In d (darts m) -> detached2 m d mD -> nless mD mE ->
  m' = uninitEdge (putF mE fl (Some (set_anchors f B))) (elab d) ->
  fAt m fl = Some f -> nth_error (fanchors f) pos = Some a -> reach (phi m) a d ->
  (EdgeGone m d m' -> (forall x, In x (rest m d) -> sgi m' x = sgi mD x) ->
     (forall x, In x (rest m d) -> dwt m' x = dwt mD x) -> bridgeAnchors m m' d fl (fanchors f) pos B) ->
  Bridged m d fl m'.
Proof.
  intros V Hd T N -> Hf Hp Hr HB.
  set (m' := uninitEdge _ _) in *.
  pose proof (nl_eq _ _ N) as Eq.
  assert (EfE : faces mE = faces m) by (rewrite Eq; cbn; apply T).
  assert (EeE : edges mE = edges m) by (rewrite Eq; cbn; apply T).
  assert (Ef' : faces m' = list_upd (faces m) fl (Some (set_anchors f B))) by (cbn; rewrite EfE; reflexivity).
  assert (Ee : forall j, eAt m' j = if Nat.eqb (elab d) j then None else eAt m j).
  { intros j. unfold eAt. cbn [edges m' uninitEdge set_edgeCount putE set_edges putF set_faces].
    rewrite tget_upd_None, EeE. reflexivity. }
  assert (G : EdgeGone m d m').
  { apply (gone_build m (fun _ => False) 0%nat m mD mE m' d V Hd (relab_refl m 0) T N); try reflexivity.
    rewrite Ef'. unfold fAt in Hf. rewrite (sumf_tget alive _ _ _ _ Hf).
    cbn [faceCount m' uninitEdge set_edgeCount putE set_edges putF set_faces].
    rewrite Eq. cbn [faceCount set_nodeCount set_nodes]. rewrite (d2_fc _ _ _ T), (sv_fc _ V). simpl; lia. }
  constructor; auto.
  - cbn [faceCount m' uninitEdge set_edgeCount putE set_edges putF set_faces].
    rewrite Eq. cbn [faceCount set_nodeCount set_nodes]. apply T.
  - exists f, pos, a, B. repeat split; auto. apply HB; auto.
    + intros x _. cbn. rewrite Eq. reflexivity.
    + intros x Hx. unfold dwt. rewrite Ee. unfold eAt at 2. rewrite (d2_edges _ _ _ T). fold (eAt m (elab x)).
      apply in_rest in Hx as (A1 & A2 & A3).
      destruct (Nat.eqb_spec (elab d) (elab x)) as [E|]; [|reflexivity].
      symmetry in E; apply elab_eq in E; tauto.
Qed.

Lemma faceO_deref m d : FIm m -> In d (darts m) -> exists l f, lft m d = Some l /\ fAt m l = Some f.
Proof.
  intros F Hd. destruct (fi_cover _ _ _ _ F d Hd) as (l & A & a & E & HA & _).
  unfold fanch in HA. destruct (fAt m l) as [f|] eqn:Ef; [|discriminate]. exists l, f; auto.
Qed.

Lemma lft_eq m d e : eAt m (elab d) = Some e -> e_lf e d = lft m d /\ e_lf e (- d) = lft m (- d).
Proof. intros H. unfold lft. rewrite elab_opp, H. auto. Qed.

Lemma stt_eq m d e : eAt m (elab d) = Some e -> e_st e d = stt m d /\ e_st e (- d) = stt m (- d).
Proof. intros H. unfold stt. rewrite elab_opp, H. auto. Qed.

Lemma leftLabel_Ok m d : In d (darts m) -> leftLabel m d = Ok (lft m d).
Proof. intros H. destruct (live_edge m d H) as (e & He). unfold leftLabel. rewrite (gEdge_Ok _ _ _ He). cbn [bind]. destruct (lft_eq m d e He) as [-> _]; reflexivity. Qed.
Lemma rightLabel_Ok m d : In d (darts m) -> rightLabel m d = Ok (lft m (- d)).
Proof. intros H. destruct (live_edge m d H) as (e & He). unfold rightLabel. rewrite (gEdge_Ok _ _ _ He). cbn [bind]. destruct (lft_eq m d e He) as [_ ->]; reflexivity. Qed.
Lemma startLabel_Ok m d : In d (darts m) -> startLabel m d = Ok (stt m d).
Proof. intros H. destruct (live_edge m d H) as (e & He). unfold startLabel. rewrite (gEdge_Ok _ _ _ He). cbn [bind]. destruct (stt_eq m d e He) as [-> _]; reflexivity. Qed.
Lemma endLabel_Ok m d : In d (darts m) -> endLabel m d = Ok (stt m (- d)).
Proof. intros H. destruct (live_edge m d H) as (e & He). unfold endLabel. rewrite (gEdge_Ok _ _ _ He). cbn [bind]. destruct (stt_eq m d e He) as [_ ->]; reflexivity. Qed.

Lemma eAt_zero m d : SInv m -> eAt m (elab d) <> None -> In d (darts m).
Proof.
  intros V H. apply in_darts. split; auto. intros ->. apply H. change (elab 0) with 0%nat. apply (sv_e0 _ V).
Qed.

Lemma removeBridge_full hk m d : MInv m ->
  goodE (~ In d (darts m) \/ lft m d <> lft m (- d) \/ stt m d = stt m (- d)) (fun r => In d (darts m) /\ exists fl, lft m d = Some fl /\ lft m (- d) = Some fl /\ stt m d <> stt m (- d) /\
          ((hkBridge hk m d = false /\ snd r = None /\ fst r = m) \/
           (hkBridge hk m d = true /\ snd r = Some fl /\ Bridged m d fl (fst r)))) (removeBridge hk m d).
Proof.
  intros M. pose proof (mi_v _ M) as V. pose proof (mi_f _ M) as F. pose proof (sv_si _ V) as HS.
  unfold removeBridge.
  destruct (eAt m (elab d)) as [e|] eqn:He.
  2:{ rewrite (require_edge_None _ _ He). left; intros K; apply in_darts in K; tauto. }
  rewrite (require_edge _ _ _ He). cbn [bind].
  assert (Hd : In d (darts m)) by (apply eAt_zero; [assumption | congruence]).
  assert (Hd' : In (- d) (darts m)) by (apply darts_opp; assumption).
  assert (Hd0 : d <> 0) by (apply (si_nz _ _ HS); assumption).
  destruct (lft_eq m d e He) as [El Er]. destruct (stt_eq m d e He) as [Es Et].
  rewrite (leftLabel_Ok m d Hd), (rightLabel_Ok m d Hd), (startLabel_Ok m d Hd), (endLabel_Ok m d Hd). cbn [bind].
  destruct (faceO_deref m d F Hd) as (fl & f & Hl & Hf). destruct (faceO_deref m (- d) F Hd') as (fr & f2 & Hl2 & Hf2).
  rewrite Hl, Hl2. cbn [faceO]. rewrite (deref_face _ _ _ Hf), (deref_face _ _ _ Hf2). cbn [bind optnat_eqb].
  destruct (Nat.eqb_spec fl fr) as [<-|Hne]; cbn [negb]; [|right; left; congruence].
  destruct (nAt m (stt m d)) as [n1|] eqn:En1; [|exfalso; apply (si_node _ _ HS d Hd); assumption].
  destruct (nAt m (stt m (- d))) as [n2|] eqn:En2; [|exfalso; apply (si_node _ _ HS _ Hd'); assumption].
  rewrite (deref_node _ _ _ En1), (deref_node _ _ _ En2). cbn [bind].
  destruct (Nat.eqb_spec (stt m d) (stt m (- d))) as [Hst|Hst]; [right; right; exact Hst|].
  destruct (hkBridge hk m d); cbn [negb]; [|cbn [goodE fst snd]; split; [assumption|]; exists fl; auto 8].
  rewrite (getSi_Ok m d) by (apply (si_cap _ _ HS); assumption). cbn [bind].
  rewrite (getSi_Ok m (- d)) by (apply (si_cap _ _ HS); assumption). cbn [bind].
  set (a1 := sgi m d). set (a2 := sgi m (- d)).
  (* the contour the bridge is on *)
  destruct (fi_cover _ _ _ _ F d Hd) as (fl' & A & a0 & Hl' & HA & Ha0 & Hr0).
  assert (fl' = fl) by congruence; subst fl'. unfold fanch in HA. rewrite Hf in HA. injection HA as <-.
  assert (HfA : fanch m fl = Some (fanchors f)) by (unfold fanch; rewrite Hf; reflexivity).
  destruct (findComponentAnchor_spec m (fanchors f) d HS) as (pos & a & -> & Hpos & Hra).
  { intros x Hx. apply (fi_anchor _ _ _ _ F fl _ x HfA Hx). }
  { exists a0; auto. }
  cbn [bind].
  destruct (detach2_spec m d HS Hd) as (m1 & mD & R1 & R2 & T). rewrite R1. cbn [bind]. rewrite R2. cbn [bind].
  (* which darts are alone at their node *)
  assert (Ha1 : elab a1 = elab d -> a1 = d).
  { intros E. apply elab_eq in E as [E|E]; auto. exfalso. apply Hst.
    rewrite <- E. unfold a1. symmetry; apply (SI_st_si m (darts m)); assumption. }
  assert (Ha2 : elab a2 = elab d -> a2 = - d).
  { intros E. apply elab_eq in E as [E|E]; auto. exfalso. apply Hst.
    rewrite <- (SI_st_si m (darts m) (- d) HS Hd'). fold a2. rewrite E; reflexivity. }
  assert (Hst1 : forall mm, edges mm = edges m -> elab a1 = elab d -> startLabel mm a1 = Ok (stt m d)).
  { intros mm Hmm E. unfold startLabel.
    assert (Hee : eAt mm (elab a1) = Some e) by (unfold eAt; rewrite Hmm, E; exact He).
    rewrite (gEdge_Ok _ _ _ Hee). cbn [bind]. rewrite (Ha1 E), Es. reflexivity. }
  assert (Hst2 : forall mm, edges mm = edges m -> elab a2 = elab d -> startLabel mm a2 = Ok (stt m (- d))).
  { intros mm Hmm E. unfold startLabel.
    assert (Hee : eAt mm (elab a2) = Some e) by (unfold eAt; rewrite Hmm, E; exact He).
    rewrite (gEdge_Ok _ _ _ Hee). cbn [bind]. rewrite (Ha2 E), Et. reflexivity. }
  assert (HaD1 : In a1 (darts m)) by (apply (si_perm _ _ HS); assumption).
  assert (HaD2 : In a2 (darts m)) by (apply (si_perm _ _ HS); assumption).
  destruct (Nat.eqb_spec (elab a1) (elab d)) as [E1|E1].
  - assert (Ea1 := Ha1 E1). assert (Es1 : sg m d = d) by (apply sgi_fix; auto).
    rewrite (Hst1 mD (d2_edges _ _ _ T) E1). cbn [bind].
    destruct (alone_anchor m d mD d V Hd T (or_introl eq_refl) Es1) as (nn & Hnn & Hnn0).
    destruct (removeIsolatedNode_nless hk mD _ nn Hnn Hnn0) as (mE & b & -> & N1 & HbF & HbT). cbn [bind fst].
    assert (EeE : edges mE = edges m) by (rewrite (nl_eq _ _ N1); cbn; apply T).
    destruct (Nat.eqb_spec (elab a2) (elab d)) as [E2|E2].
    + assert (Ea2 := Ha2 E2). assert (Es2 : sg m (- d) = - d) by (apply sgi_fix; auto).
      rewrite (Hst2 mE EeE E2). cbn [bind].
      destruct (alone_anchor m d mD (- d) V Hd T (or_intror eq_refl) Es2) as (nn' & Hnn' & Hnn0').
      assert (HnE : nAt mE (stt m (- d)) = Some nn').
      { destruct b; [rewrite (HbT eq_refl)|rewrite (HbF eq_refl); assumption].
        unfold nAt, uninitNode; cbn [nodes set_nodeCount putN set_nodes]. rewrite tget_upd_None.
        destruct (Nat.eqb_spec (stt m d) (stt m (- d))); [contradiction | exact Hnn']. }
      destruct (removeIsolatedNode_nless hk mE _ nn' HnE Hnn0') as (mE' & b' & -> & N2 & _ & _). cbn [bind fst goodE snd].
      split; [assumption|]. exists fl. repeat (split; [assumption || reflexivity|]). right. split; [reflexivity|]. split; [reflexivity|].
      eapply (bridged_build m d mD mE' _ fl f pos a); eauto using nless_trans.
      intros _ _ _. unfold bridgeAnchors; cbv zeta. left. auto.
    + cbn [goodE bind fst snd]. split; [assumption|]. exists fl. repeat (split; [assumption || reflexivity|]). right. split; [reflexivity|]. split; [reflexivity|].
      eapply (bridged_build m d mD mE _ fl f pos a); eauto.
      intros _ _ _. unfold bridgeAnchors; cbv zeta. right; left. repeat split; auto. intros E. apply E2. change (elab (sgi m (- d)) = elab d).
      rewrite E. apply elab_opp.
  - assert (Hn1 : sgi m d <> d) by (intros E; apply E1; unfold a1; rewrite E; reflexivity).
    destruct (Nat.eqb_spec (elab a2) (elab d)) as [E2|E2].
    + assert (Ea2 := Ha2 E2). assert (Es2 : sg m (- d) = - d) by (apply sgi_fix; auto).
      rewrite (Hst2 mD (d2_edges _ _ _ T) E2). cbn [bind].
      destruct (alone_anchor m d mD (- d) V Hd T (or_intror eq_refl) Es2) as (nn' & Hnn' & Hnn0').
      destruct (removeIsolatedNode_nless hk mD _ nn' Hnn' Hnn0') as (mE & b & -> & N1 & _ & _). cbn [bind fst goodE snd].
      split; [assumption|]. exists fl. repeat (split; [assumption || reflexivity|]). right. split; [reflexivity|]. split; [reflexivity|].
      eapply (bridged_build m d mD mE _ fl f pos a); eauto.
      intros _ _ _. unfold bridgeAnchors; cbv zeta. right; right; left. auto.
    + assert (Hn2 : sgi m (- d) <> - d) by (intros E; apply E2; unfold a2; rewrite E; apply elab_opp).
      assert (Hin1 : In a1 (rest m d)).
      { apply in_rest. split; [assumption|]. split; [assumption|]. intros E. apply E1. rewrite E. apply elab_opp. }
      assert (Hin2 : In a2 (rest m d)).
      { apply in_rest. split; [assumption|]. split; [|assumption]. intros E. apply E2. rewrite E. reflexivity. }
      assert (HfD : (length (rest m d) + 1 <= fuel mD)%nat) by (apply rest_fuel; rewrite (d2_edges _ _ _ T); reflexivity).
      destruct (contourAreaD_spec mD (rest m d) a1 (d2_si _ _ _ T) (rest_opp m d) HfD Hin1) as (L1 & _ & _ & Rc1).
      destruct (contourAreaD_spec mD (rest m d) a2 (d2_si _ _ _ T) (rest_opp m d) HfD Hin2) as (L2 & _ & _ & Rc2).
      set (c1 := sumZ (dwt mD) L1) in *. set (c2 := sumZ (dwt mD) L2) in *.
      set (test := (Nat.eqb pos 0 && negb (Nat.eqb fl 0))%bool).
      set (sw := (test && (c1 <? c2))%bool).
      assert (Hsw : (if test then c0 <- contourArea mD a1 ;; c3 <- contourArea mD a2 ;; Ok (c0 <? c3) else Ok false) = Ok sw).
      { unfold sw. destruct test; [rewrite Rc1; cbn [bind]; rewrite Rc2; reflexivity | reflexivity]. }
      rewrite Hsw. cbn [bind goodE fst snd].
      split; [assumption|]. exists fl. repeat (split; [assumption || reflexivity|]). right. split; [reflexivity|]. split; [reflexivity|].
      eapply (bridged_build m d mD mD _ fl f pos a); eauto using nless_refl.
      intros G Hsgi Hdw. unfold bridgeAnchors; cbv zeta. right; right; right. repeat split; auto.
      exists (if sw then a2 else a1), (if sw then a1 else a2). split; [destruct sw; auto|]. split; [reflexivity|].
      intros Hp0 Hfl0.
      assert (Esw : sw = (c1 <? c2)).
      { unfold sw, test. rewrite Hp0, (proj2 (Nat.eqb_neq fl 0) Hfl0). reflexivity. }
      match goal with |- exists _ _, contourArea ?mm _ = _ /\ _ => set (m' := mm) in * end.
      assert (S' : SI m' (rest m d)).
      { apply (SI_ext m' (darts m')); [apply (eg_darts _ _ _ G) | apply (sv_si _ (eg_v _ _ _ G))]. }
      assert (Hf' : (length (rest m d) + 1 <= fuel m')%nat) by (apply rest_fuel; apply (eg_elen _ _ _ G)).
      destruct (contourArea_frame mD m' (rest m d) a1) as (k1 & Q1 & Q1'); auto; [apply T | apply rest_opp|].
      destruct (contourArea_frame mD m' (rest m d) a2) as (k2 & Q2 & Q2'); auto; [apply T | apply rest_opp|].
      assert (k1 = c1) by congruence. assert (k2 = c2) by congruence. subst k1 k2.
      rewrite Esw. destruct (Z.ltb_spec c1 c2); [exists c2, c1 | exists c1, c2]; repeat split; auto; lia.
Qed.

Lemma removeBridge_spec hk m d : MInv m ->
  good (fun r => In d (darts m) /\ exists fl, lft m d = Some fl /\ lft m (- d) = Some fl /\ stt m d <> stt m (- d) /\
          ((hkBridge hk m d = false /\ snd r = None /\ fst r = m) \/
           (hkBridge hk m d = true /\ snd r = Some fl /\ Bridged m d fl (fst r)))) (removeBridge hk m d).
Proof. intros M. exact (goodE_good _ _ _ (removeBridge_full hk m d M)). Qed.

(** ** Preservation *)

Lemma reach_fix f x y : f x = x -> reach f x y -> y = x.
Proof. intros E Hr. revert y Hr. apply reach_ind_r; [reflexivity|]. intros y _ ->. assumption. Qed.

Section Bridge.
  Variables (m m' : gmap) (d : Z) (fl : nat).
  Hypothesis M : MInv m.
  Hypothesis Hd : In d (darts m).
  Hypothesis Hl : lft m d = Some fl.
  Hypothesis Hl' : lft m (- d) = Some fl.
  Hypothesis Hst : stt m d <> stt m (- d).
  Hypothesis Br : Bridged m d fl m'.

  Let V := mi_v _ M.
  Let F := mi_f _ M.
  Let HS := sv_si _ V.
  Let G := br_gone _ _ _ _ Br.
  Let HP := phi_perm m HS.
  Let Hd' : In (- d) (darts m).
  Proof. apply darts_opp; assumption. Qed.
  Let Hd0 : d <> 0.
  Proof. apply (si_nz _ _ HS); assumption. Qed.

  Lemma br_lft x : In x (darts m') -> lft m' x = lft m x.
  Proof.
    intros Hx. unfold lft. rewrite (br_edge _ _ _ _ Br).
    destruct (eg_in _ _ _ G x Hx) as (A1 & A2 & A3).
    destruct (Nat.eqb_spec (elab d) (elab x)) as [E|]; [|reflexivity].
    symmetry in E; apply elab_eq in E; tauto.
  Qed.

  Let bits (c : Z) x : list Z := if c =? x then [] else [c].

  (* the new anchor list, up to order *)
  Let Hperm : exists f pos a B, fAt m fl = Some f /\ nth_error (fanchors f) pos = Some a /\
     reach (phi m) a d /\ faces m' = list_upd (faces m) fl (Some (set_anchors f B)) /\
     Permutation B ((bits (sgi m d) d ++ bits (sgi m (- d)) (- d)) ++ remove_nth (fanchors f) pos).
  Proof.
    destruct (br_f _ _ _ _ Br) as (f & pos & a & B & Hf & Hp & Hr & Hfs & HB).
    exists f, pos, a, B. repeat split; auto. unfold bits.
    destruct HB as [(E1 & E2 & ->)|[(E1 & E2 & ->)|[(E1 & E2 & ->)|(E1 & E2 & b1 & b2 & Hb & -> & _)]]].
    - rewrite E1, E2, !Z.eqb_refl. reflexivity.
    - rewrite E1, Z.eqb_refl. apply Z.eqb_neq in E2. rewrite E2. apply (perm_list_upd _ _ a); assumption.
    - rewrite E2, Z.eqb_refl. apply Z.eqb_neq in E1. rewrite E1. apply (perm_list_upd _ _ a); assumption.
    - apply Z.eqb_neq in E1, E2. rewrite E1, E2.
      transitivity (b2 :: b1 :: remove_nth (fanchors f) pos).
      { transitivity (b2 :: list_upd (fanchors f) pos b1); [symmetry; apply Permutation_cons_append|].
        constructor. apply (perm_list_upd _ _ a); assumption. }
      destruct Hb as [[-> ->]|[-> ->]]; [apply perm_swap | reflexivity].
  Qed.

  Let sub1 : swp (phi m) d (- d) d = sgi m d.
  Proof. rewrite swp_l. unfold phi. rewrite Z.opp_involutive. reflexivity. Qed.
  Let sub2 : swp (phi m) d (- d) (- d) = sgi m (- d).
  Proof. rewrite swp_r. reflexivity. Qed.
  Let HP1 := swp_perm (darts m) (phi m) _ d (- d) HP Hd Hd'.

  Let in_a1 : sgi m d <> d -> In (sgi m d) (darts m').
  Proof.
    intros H. apply (eg_darts _ _ _ G), in_rest. split; [apply (si_perm _ _ HS); assumption|]. split; [assumption|].
    intros E. apply Hst. rewrite <- E. symmetry; apply (SI_st_si m (darts m)); assumption.
  Qed.
  Let in_a2 : sgi m (- d) <> - d -> In (sgi m (- d)) (darts m').
  Proof.
    intros H. apply (eg_darts _ _ _ G), in_rest. split; [apply (si_perm _ _ HS); assumption|]. split; [|assumption].
    intros E. apply Hst. transitivity (stt m (sgi m (- d))); [congruence|]. apply (SI_st_si m (darts m)); assumption.
  Qed.

  Lemma br_reach : reach (phi m) d (- d).
  Proof. apply (same_face_reach m d fl); assumption. Qed.

  Lemma br_FI : FIm m'.
  Proof.
    destruct Hperm as (f & pos & a & B & Hf & Hp & Hr & Hfs & HB).
    assert (Hlen : (fl < length (faces m))%nat) by (eapply tget_lt; exact Hf).
    apply (FI_split (darts m) (darts m') (phi m) (fun x => - sg m x) (phi m') (lft m) (lft m') (fanch m) (fanch m')
             d (- d) fl (fanchors f) (remove_nth (fanchors f) pos) B (bits (sgi m d) d) (bits (sgi m (- d)) (- d)) a).
    - exact HP.
    - exact F.
    - exact Hd.
    - exact Hd'.
    - lia.
    - apply br_reach.
    - exact Hl.
    - unfold fanch. rewrite Hf. reflexivity.
    - apply perm_remove_nth; assumption.
    - exact Hr.
    - intros x. rewrite (eg_darts _ _ _ G), in_rest. reflexivity.
    - intros x y Hx Hy. apply (eg_phi_reach m m' d V Hd G x y Hx Hy).
    - intros x Hx. apply (eg_phi_in m m' d G x Hx).
    - exact br_lft.
    - unfold fanch, fAt. rewrite Hfs, tget_upd_eq by assumption. reflexivity.
    - intros l Hne. unfold fanch, fAt. rewrite Hfs, tget_upd_neq by auto. reflexivity.
    - rewrite HB, <- app_assoc. reflexivity.
    - unfold bits. destruct (Z.eqb_spec (sgi m d) d) as [E|E]; [left|right].
      + split; [reflexivity|]. intros x Hx Hrx. destruct (eg_in _ _ _ G x Hx) as (A1 & A2 & A3).
        apply A2. apply (reach_fix (swp (phi m) d (- d))); [rewrite sub1; assumption|].
        apply (reach_sym _ _ _ HP1); auto.
      + exists (sgi m d). split; [reflexivity|]. split; [apply in_a1; assumption|].
        apply (reach_sym _ _ _ HP1); auto. rewrite <- sub1. apply reach_step.
    - unfold bits. destruct (Z.eqb_spec (sgi m (- d)) (- d)) as [E|E]; [left|right].
      + split; [reflexivity|]. intros x Hx Hrx. destruct (eg_in _ _ _ G x Hx) as (A1 & A2 & A3).
        apply A3. apply (reach_fix (swp (phi m) d (- d))); [rewrite sub2; assumption|].
        apply (reach_sym _ _ _ HP1); auto.
      + exists (sgi m (- d)). split; [reflexivity|]. split; [apply in_a2; assumption|].
        apply (reach_sym _ _ _ HP1); auto. rewrite <- sub2. apply reach_step.
  Qed.

  Lemma br_rank : rank (Gm m) = S (rank (Gm m')).
  Proof.
    rewrite (eg_Gm m m' d G). apply (gone_rank_bridge m d (elabs m') M Hd).
    - apply (eg_elabs m m' d Hd G).
    - apply br_reach.
  Qed.

  Lemma br_counts : exists i, 
    sumf busy (nodes m') = sumf busy (nodes m) - i /\
    sumf ncont (faces m') = sumf ncont (faces m) + 1 - i.
  Proof.
    destruct Hperm as (f & pos & a & B & Hf & Hp & Hr & Hfs & HB).
    exists ((if sg m d =? d then 1 else 0) + (if skp (sg m) d (- d) =? - d then 1 else 0)). split.
    - rewrite (eg_busy _ _ _ G). lia.
    - rewrite Hfs. unfold fAt in Hf. rewrite (sumf_tget ncont _ _ _ _ Hf). cbn [ncont fanchors set_anchors].
      rewrite (Permutation_length (perm_remove_nth _ _ _ Hp)), (Permutation_length HB), !app_length. cbn [length].
      assert (E1 : Z.of_nat (length (bits (sgi m d) d)) = 1 - (if sg m d =? d then 1 else 0)).
      { unfold bits. destruct (Z.eqb_spec (sgi m d) d) as [E|E]; destruct (Z.eqb_spec (sg m d) d) as [E'|E']; try reflexivity; exfalso.
        - apply E', sgi_fix; auto.
        - apply E, sgi_fix; auto. }
      assert (E2 : Z.of_nat (length (bits (sgi m (- d)) (- d))) = 1 - (if skp (sg m) d (- d) =? - d then 1 else 0)).
      { assert (Es : skp (sg m) d (- d) = sg m (- d)).
        { unfold skp. destruct (Z.eqb_spec (sg m (- d)) d) as [E|E]; [|reflexivity].
          exfalso. apply Hst. rewrite <- E at 1. apply (si_st _ _ HS); assumption. }
        rewrite Es.
        unfold bits. destruct (Z.eqb_spec (sgi m (- d)) (- d)) as [E|E]; destruct (Z.eqb_spec (sg m (- d)) (- d)) as [E'|E']; try reflexivity; exfalso.
        - apply E', sgi_fix; auto.
        - apply E, sgi_fix; auto. }
      lia.
  Qed.

  Theorem br_MInv : MInv m'.
  Proof.
    constructor.
    - apply G.
    - apply br_FI.
    - destruct Hperm as (f & pos & a & B & Hf & Hp & Hr & Hfs & HB).
      unfold fAt. rewrite Hfs, tget_upd. destruct (Nat.eqb fl 0); [|apply (mi_0 _ M)].
      pose proof (tget_lt _ _ _ Hf) as Hlt. apply Nat.ltb_lt in Hlt. rewrite Hlt. discriminate.
    - destruct br_counts as (i & Hb & Hn). pose proof (mi_pl _ M). pose proof br_rank.
      rewrite Hb, Hn, (eg_alive m m' d V Hd G). lia.
    - destruct Hperm as (f & pos & a & B & Hf & Hp & Hr & Hfs & HB).
      assert (EL : links m' = tmap (fun f => star (map (stt m) (fanchors f))) (faces m')).
      { unfold links. apply tmap_ext. intros i g Hg. f_equal. apply map_ext_in. intros x Hx.
        apply (eg_stt m m' d G). apply (fi_anchor _ _ _ _ br_FI i (fanchors g) x); auto.
        unfold fanch, fAt. rewrite Hg. reflexivity. }
      destruct (tmap_upd (fun f => star (map (stt m) (fanchors f))) (faces m) fl f Hf) as (K & HK & HK').
      rewrite EL, Hfs. apply (indep_perm _ _ _ (Permutation_sym (HK' _))). cbn [fanchors set_anchors].
      pose proof (indep_perm _ _ _ HK (mi_in _ M)) as Hind.
      assert (Hge : geq (Gm m) ((stt m d, stt m (- d)) :: Gm m')).
      { rewrite (eg_Gm m m' d G). apply Gm_edge. apply (eg_elabs m m' d Hd G). }
      assert (HaD : In a (darts m)).
      { apply (fi_anchor _ _ _ _ F fl (fanchors f) a); [unfold fanch; rewrite Hf; reflexivity | eapply nth_error_In; exact Hp]. }
      apply (bridge_indep (map (stt m) (fanchors f)) (stt m a) (map (stt m) (remove_nth (fanchors f) pos)) K (Gm m')
               (stt m d) (stt m (- d)) _ (map (stt m) (bits (sgi m d) d ++ bits (sgi m (- d)) (- d)))).
      + apply (indep_geq_base _ (Gm m)); assumption.
      + change (stt m a :: map (stt m) (remove_nth (fanchors f) pos)) with (map (stt m) (a :: remove_nth (fanchors f) pos)).
        apply Permutation_map, perm_remove_nth; assumption.
      + apply Hge. apply phi_conn_m; assumption.
      + rewrite <- br_rank. symmetry. apply Hge.
      + rewrite <- map_app. apply Permutation_map; assumption.
      + unfold bits. pose proof (SI_st_si m (darts m) d HS Hd) as X1. pose proof (SI_st_si m (darts m) (- d) HS Hd') as X2.
        destruct (Z.eqb_spec (sgi m d) d); destruct (Z.eqb_spec (sgi m (- d)) (- d)); cbn [app map]; rewrite ?X1, ?X2; simpl; auto.
    - destruct Hperm as (f & pos & a & B & Hf & Hp & Hr & Hfs & HB).
      pose proof (mi_eu _ M). pose proof br_rank. rewrite (eg_alive m m' d V Hd G), Hfs.
      unfold fAt in Hf. rewrite (sumf_tget alive _ _ _ _ Hf). cbn [alive]. lia.
  Qed.
End Bridge.
