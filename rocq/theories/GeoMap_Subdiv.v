(** mergeEdges and splitEdge preserve the map invariant. *)
From Verif Require Import Base Orbit GraphRank Euler Links FaceInv Conj
  GeoMap_Model GeoMap_Views GeoMap_SInv GeoMap_Remove GeoMap_MergeEdges GeoMap_SplitEdge GeoMap_Loops
  GeoMap_MInv GeoMap_MergeFaces.
Local Open Scope Z_scope.

Lemma elab_abs x : elab (Z.abs x) = elab x.
Proof. unfold elab. lia. Qed.

Lemma Forall2_len {A B} (P : A -> B -> Prop) l l' : Forall2 P l l' -> length l = length l'.
Proof. induction 1; simpl; congruence. Qed.
Lemma Forall2_weak {A B} (P Q : A -> B -> Prop) l l' : (forall a b, P a b -> Q a b) -> Forall2 P l l' -> Forall2 Q l l'.
Proof. induction 2; constructor; auto. Qed.

Lemma geq_sym G H : geq G H -> geq H G.
Proof. intros E; symmetry; exact E. Qed.

(** [mB] has a node [stt mB d2] of degree two that [mS] does not have. *)
Section Sub.
  Variables (mB mS : gmap) (d1 d2 : Z).
  Hypothesis VB : SInv mB.
  Hypothesis G2 : Deg2 mB d1 d2.
  Hypothesis HD : forall x, In x (darts mS) <-> In x (rest mB d2).
  Hypothesis Hst : forall x, In x (rest mB d2) -> stt mS x = stt mB (tr d1 (- d2) x).

  Let w := stt mB d2.
  Let u := stt mB (- d1).
  Let v := stt mB (- d2).
  Let d10 : d1 <> 0.
  Proof. apply (si_nz _ _ (sv_si _ VB)), G2. Qed.
  Let d1in : In d1 (darts mS).
  Proof. apply HD, (g2_in1 _ _ _ G2). Qed.

  Let trid x : In x (rest mB d2) -> x <> d1 -> tr d1 (- d2) x = x.
  Proof. intros Hx N. apply in_rest in Hx. apply tr_o; tauto. Qed.

  Lemma sub_graph : exists G0,
    geq (Gm mB) ((u, w) :: (w, v) :: G0) /\ geq (Gm mS) ((u, v) :: G0) /\
    ~ In w (verts G0) /\ w <> u /\ w <> v.
  Proof.
    assert (HB : Permutation (elabs mB) (Z.abs d2 :: elabs mS)) by (apply elabs_split; [apply G2 | exact HD]).
    assert (Hin : In (Z.abs d1) (elabs mS)).
    { apply in_elabs. apply in_darts in d1in as [A B]. split; [lia|]. rewrite elab_abs. assumption. }
    apply in_split in Hin as (L1 & L2 & EL).
    assert (HS : Permutation (elabs mS) (Z.abs d1 :: L1 ++ L2)) by (rewrite EL; symmetry; apply Permutation_middle).
    clear EL. set (L := L1 ++ L2) in *. clearbody L.
    assert (HL : forall l, In l L -> In l (rest mB d2) /\ In (- l) (rest mB d2) /\ l <> d1 /\ - l <> d1).
    { intros l Hl. assert (Hi : In l (elabs mS)) by (rewrite HS; right; assumption).
      assert (HlD : In l (darts mS)) by (unfold darts; apply in_or_app; auto).
      assert (Hr : In l (rest mB d2)) by (apply HD; assumption).
      assert (Hr' : In (- l) (rest mB d2)) by (apply HD, darts_opp; assumption).
      pose proof (nodup_elabs mS) as ND. rewrite HS in ND. inversion ND; subst.
      apply in_elabs in Hi as [Hp _].
      split; [assumption|]. split; [assumption|].
      split; intros E; apply H1; [rewrite <- E, Z.abs_eq by lia | rewrite <- E, Z.abs_opp, Z.abs_eq by lia]; assumption. }
    exists (pairs (stt mB) L).
    assert (Ew : stt mB d1 = w) by (apply (g2_st mB d1 d2 VB G2)).
    assert (Hw : forall x, In x (rest mB d2) -> x <> d1 -> stt mB x <> w).
    { intros x Hx N E. apply in_rest in Hx as (Hx & N1 & N2). destruct (g2_only mB d1 d2 VB G2 x Hx E); contradiction. }
    split; [|split; [|split; [|split]]].
    - transitivity ((w, v) :: pairs (stt mB) (Z.abs d1 :: L)).
      + apply (Gm_edge mB d2 (Z.abs d1 :: L)). rewrite HB. apply perm_skip; assumption.
      + transitivity ((w, v) :: (u, w) :: pairs (stt mB) L); [|apply geq_perm, perm_swap].
        apply geq_cons. cbn [pairs map]. fold (pairs (stt mB) L). unfold u. rewrite <- Ew.
        destruct (Z.abs_spec d1) as [[_ ->]|[_ ->]]; [apply geq_flip|]. rewrite Z.opp_involutive. reflexivity.
    - transitivity ((stt mS d1, stt mS (- d1)) :: pairs (stt mS) L); [apply (Gm_edge mS d1 L HS)|].
      rewrite (Hst d1) by (apply HD; assumption). rewrite tr_l. fold v.
      assert (H1' : In (- d1) (rest mB d2)) by (apply HD, darts_opp; assumption).
      rewrite (Hst (- d1)), trid by (assumption || lia). fold u.
      replace (pairs (stt mS) L) with (pairs (stt mB) L); [apply geq_flip|].
      unfold pairs. apply map_ext_in. intros l Hl. destruct (HL l Hl) as (A & B & C & E).
      rewrite (Hst l A), (Hst (- l) B), !trid by assumption. reflexivity.
    - unfold verts, pairs. rewrite in_flat_map. intros ([a b] & Hi & Hx).
      apply in_map_iff in Hi as (l & [= <- <-] & Hl). destruct (HL l Hl) as (A & B & C & E).
      simpl in Hx. destruct Hx as [Hx|[Hx|[]]]; [apply (Hw l) in Hx | apply (Hw (- l)) in Hx]; auto.
    - intros E. apply (g2_far1 mB d1 d2 VB G2). symmetry; exact E.
    - intros E. apply (g2_far mB d1 d2 VB G2). symmetry; exact E.
  Qed.

  Lemma sub_rank : rank (Gm mB) = S (rank (Gm mS)).
  Proof.
    destruct sub_graph as (G0 & [EB _] & [ES _] & H1 & H2 & H3).
    rewrite EB, ES. apply rank_subdiv; assumption.
  Qed.

  Lemma sub_conn1 x : In x (rest mB d2) -> conn (Gm mB) (stt mB x) (stt mS x).
  Proof.
    intros Hx. rewrite (Hst x Hx). destruct (Z.eq_dec x d1) as [->|N].
    - rewrite tr_l. rewrite (g2_st mB d1 d2 VB G2). apply conn_dart, G2.
    - rewrite trid by assumption. apply conn_refl.
  Qed.

  Lemma sub_not_w x : In x (darts mS) -> stt mS x <> w.
  Proof.
    intros Hx E. assert (Hr : In x (rest mB d2)) by (apply HD; assumption).
    rewrite (Hst x Hr) in E.
    assert (HT : In (tr d1 (- d2) x) (darts mB)).
    { apply in_rest in Hr. apply tr_in; [apply G2 | apply (g2_2' mB d1 d2 G2) | tauto]. }
    destruct (g2_only mB d1 d2 VB G2 _ HT E) as [K|K]; apply in_rest in Hr as (Hr & N1 & N2).
    - unfold tr in K. destruct (Z.eqb_spec x d1) as [->|]; [apply (g2_no _ _ _ G2); auto|].
      destruct (Z.eqb_spec x (- d2)); congruence.
    - unfold tr in K. destruct (Z.eqb_spec x d1) as [->|].
      + pose proof (g2_0 mB d1 d2 VB G2). lia.
      + destruct (Z.eqb_spec x (- d2)); congruence.
  Qed.

  (** links of two face tables whose anchors correspond *)
  Definition lks (st : Z -> nat) (T : list (option face)) := tmap (fun f => star (map st (fanchors f))) T.

  Lemma lks_eq TB TS :
    length TB = length TS ->
    (forall j, match tget TB j, tget TS j with
       | Some f, Some f' => Forall2 (fun a a' => conn (Gm mB) (stt mB a) (stt mB a') /\ In a' (darts mS)) (fanchors f) (fanchors f')
       | None, None => True
       | _, _ => False end) ->
    (indep (lks (stt mB) TB) (Gm mB) <-> indep (lks (stt mS) TS) (Gm mS)).
  Proof.
    intros HL HT.
    assert (HF : Forall2 (fun p q => conn (Gm mB) (fst p) (fst q) /\ conn (Gm mB) (snd p) (snd q)) (lks (stt mB) TB) (lks (stt mS) TS)
                 /\ ~ In w (verts (lks (stt mS) TS))).
    { revert TS HL HT. induction TB as [|f TB IH]; intros [|f' TS] HL HT; try discriminate.
      { split; [constructor | intros []]. }
      destruct (IH TS) as [I1 I2]; [simpl in HL; lia | intros j; apply (HT (S j))|].
      specialize (HT 0%nat). unfold tget in HT; cbn [nth] in HT.
      unfold lks, tmap in *. cbn [flat_map].
      assert (K : forall A A', Forall2 (fun a a' => conn (Gm mB) (stt mB a) (stt mB a') /\ In a' (darts mS)) A A' ->
         Forall2 (fun p q => conn (Gm mB) (fst p) (fst q) /\ conn (Gm mB) (snd p) (snd q)) (star (map (stt mB) A)) (star (map (stt mS) A')) /\
         ~ In w (verts (star (map (stt mS) A')))).
      { assert (K0 : forall a a', conn (Gm mB) (stt mB a) (stt mB a') -> In a' (darts mS) -> conn (Gm mB) (stt mB a) (stt mS a')).
        { intros a a' Hc Ha. apply (conn_trans _ _ (stt mB a')); auto. apply sub_conn1, HD; assumption. }
        intros A A' H2. destruct H2 as [|a a' A A' [Hc Ha] H2]; [split; [constructor | intros []]|].
        cbn [map star]. split.
        - induction H2 as [|b b' B B' [Hb Hb'] H2 IH2]; cbn [map spokes]; constructor; auto. split; apply K0; assumption.
        - unfold verts. rewrite in_flat_map. intros ([p q] & Hi & Hx). unfold spokes in Hi.
          apply in_map_iff in Hi as (z & [= <- <-] & Hz). apply in_map_iff in Hz as (b & <- & Hb).
          simpl in Hx. destruct Hx as [Hx|[Hx|[]]]; [apply (sub_not_w a' Ha Hx)|].
          assert (In b (darts mS)).
          { clear -H2 Hb. induction H2 as [|x y l l' [_ H] H2 IH]; [destruct Hb|]. destruct Hb as [<-|Hb]; auto. }
          apply (sub_not_w b); assumption. }
      destruct f as [f|], f' as [f'|]; try contradiction.
      - destruct (K _ _ HT) as [K1 K2]. split; [apply Forall2_app; assumption|].
        unfold verts in *. rewrite flat_map_app, in_app_iff. tauto.
      - split; assumption. }
    destruct HF as [HF HN].
    destruct sub_graph as (G0 & EB & ES & H1 & H2 & H3).
    pose proof (geq_equiv_links _ _ _ HF) as EL.
    assert (Elen : length (lks (stt mB) TB) = length (lks (stt mS) TS)) by (exact (Forall2_len _ _ _ HF)).
    split; intros Hi.
    - apply (indep_geq_base _ _ _ (geq_sym _ _ ES)).
      apply (indep_subdiv _ _ _ _ w HN H1 H2 H3). apply (indep_geq_base _ _ _ EB).
      apply (indep_geq _ _ _ Elen EL Hi).
    - apply (indep_geq_base _ _ _ ES) in Hi.
      apply (indep_subdiv _ _ _ _ w HN H1 H2 H3) in Hi. apply (indep_geq_base _ _ _ (geq_sym _ _ EB)) in Hi.
      apply (indep_geq _ _ _ (eq_sym Elen) (geq_sym _ _ EL) Hi).
  Qed.
End Sub.

(** ** mergeEdges *)

Lemma fm_views m d2 m0 : facesMoved m d2 m0 ->
  edges m0 = edges m /\ nodes m0 = nodes m /\ darts m0 = darts m /\ elabs m0 = elabs m /\
  (forall x, stt m0 x = stt m x) /\ (forall x, lft m0 x = lft m x) /\ (forall x, phi m0 x = phi m x).
Proof.
  intros FM. assert (E : edges m0 = edges m /\ nodes m0 = nodes m /\ sgi m0 = sgi m) by (rewrite (fm_eq _ _ _ FM); repeat split).
  destruct E as (E1 & E2 & E3). split; [assumption|]. split; [assumption|].
  split; [apply tables_darts; assumption|]. split; [unfold elabs, isLive, eAt; rewrite E1; reflexivity|].
  unfold stt, lft, phi, eAt. rewrite E1, E3. auto.
Qed.

Lemma fm_SInv m d2 m0 : facesMoved m d2 m0 -> SInv m -> SInv m0.
Proof.
  intros FM V. rewrite (fm_eq _ _ _ FM). destruct V as [V1 V2 V3 V4 V5 V6 V7]. constructor; auto.
  - destruct V1; constructor; assumption.
  - cbn. rewrite (fm_alive _ _ _ FM). assumption.
Qed.

Lemma fm_fanch m d2 m0 l : facesMoved m d2 m0 ->
  match fanch m l, fanch m0 l with
  | None, None => True
  | Some A, Some A' => movedOff m d2 A A'
  | _, _ => False end.
Proof.
  intros FM. pose proof (fm_face _ _ _ FM l) as K. unfold fanch.
  destruct (fAt m l), (fAt m0 l); cbn [option_map]; tauto.
Qed.

Lemma rest_views m m0 d x : darts m0 = darts m -> (In x (rest m0 d) <-> In x (rest m d)).
Proof. intros E. rewrite !in_rest, E. reflexivity. Qed.

Lemma fm_FI m d2 m0 : SInv m -> FIm m -> facesMoved m d2 m0 -> FIm m0.
Proof.
  intros V F FM. destruct (fm_views m d2 m0 FM) as (E1 & E2 & ED & EL & Es & El & Ep).
  apply (FI_shrink (darts m) (darts m0) (phi m) (fun x => - sg m x) (phi m0) (lft m) (lft m0) (fanch m) (fanch m0)
           (phi_perm m (sv_si _ V)) F).
  - rewrite ED; auto.
  - intros x y _ _. split; apply (reach_ext _ _ (fun _ => True)); auto.
  - rewrite ED. intros x Hx. rewrite Ep. apply (phi_perm m (sv_si _ V)); assumption.
  - auto.
  - intros l. pose proof (fm_fanch m d2 m0 l FM) as K. destruct (fanch m l), (fanch m0 l); try contradiction; auto.
    unfold movedOff in K. eapply Forall2_weak; [|exact K]. cbv beta. intros a a' [Hr Hi]. split; [assumption|].
    rewrite ED. apply in_rest in Hi; tauto.
Qed.

Lemma fm_MInv m d2 m0 : MInv m -> facesMoved m d2 m0 -> MInv m0.
Proof.
  intros M FM. destruct (fm_views m d2 m0 FM) as (E1 & E2 & ED & EL & Es & El & Ep).
  pose proof (mi_v _ M) as V. pose proof (mi_f _ M) as F.
  assert (EG : Gm m0 = Gm m) by (unfold Gm, pairs; rewrite EL; apply map_ext; intros; rewrite !Es; reflexivity).
  constructor.
  - apply (fm_SInv m d2); assumption.
  - apply (fm_FI m d2); assumption.
  - pose proof (fm_face _ _ _ FM 0%nat) as K. pose proof (mi_0 _ M). destruct (fAt m 0), (fAt m0 0); congruence || contradiction.
  - rewrite EG, E1, E2, (fm_cnt _ _ _ FM). apply M.
  - rewrite EG.
    assert (HF : Forall2 (fun p q => conn (Gm m) (fst p) (fst q) /\ conn (Gm m) (snd p) (snd q)) (links m) (links m0)).
    { unfold links. pose proof (fm_len _ _ _ FM) as HL.
      assert (HT : forall j, match tget (faces m) j, tget (faces m0) j with
         | Some f, Some f' => Forall2 (fun a a' => conn (Gm m) (stt m a) (stt m a')) (fanchors f) (fanchors f')
         | None, None => True | _, _ => False end).
      { intros j. pose proof (fm_face _ _ _ FM j) as K. unfold fAt in K.
        destruct (tget (faces m) j) as [f|] eqn:Ef, (tget (faces m0) j) as [f'|]; try contradiction; auto.
        destruct K as (_ & _ & K). unfold movedOff in K.
        assert (HA : forall a, In a (fanchors f) -> In a (darts m)).
        { intros a Ha. apply (fi_anchor _ _ _ _ F j (fanchors f) a); auto. unfold fanch, fAt. rewrite Ef. reflexivity. }
        revert HA. clear -K M. induction K as [|a a' A A' [Hr _] K IH]; intros HA; constructor.
        - apply phi_conn_m; auto; [apply M|]. apply HA; left; reflexivity.
        - apply IH. intros; apply HA; right; assumption. }
      revert HL HT. generalize (faces m) (faces m0). intros T T0. revert T0.
      induction T as [|f T IH]; intros [|f' T0] HL HT; try discriminate; [constructor|].
      unfold tmap in *. cbn [flat_map]. apply Forall2_app; [|apply IH; [simpl in HL; lia | intros j; apply (HT (S j))]].
      specialize (HT 0%nat). unfold tget in HT; cbn [nth] in HT.
      destruct f as [f|], f' as [f'|]; try contradiction; [|constructor].
      destruct HT as [|a a' A A' Hc H2]; [constructor|]. cbn [map star].
      rewrite <- Es in Hc. 
      induction H2 as [|b b' B B' Hb H2 IH2]; cbn [map spokes]; constructor; auto. cbn [fst snd].
      rewrite !Es in *. auto. }
    apply (indep_geq (links m)); [exact (Forall2_len _ _ _ HF) | | apply (mi_in _ M)].
    apply geq_equiv_links; assumption.
  - rewrite EG, E1, (fm_alive _ _ _ FM). apply (mi_eu _ M).
Qed.

Section MergeEdgesInv.
  Variables (m m' : gmap) (d1 d2 : Z).
  Hypothesis M : MInv m.
  Hypothesis G2 : Deg2 m d1 d2.
  Hypothesis Hoff : forall l f a, fAt m l = Some f -> In a (fanchors f) -> In a (rest m d2).
  Hypothesis MG : Merged m d1 d2 m'.
  Let V := mi_v _ M.
  Let F := mi_f _ M.

  Lemma me_FI : FIm m'.
  Proof.
    apply (FI_shrink (darts m) (darts m') (phi m) (fun x => - sg m x) (phi m') (lft m) (lft m') (fanch m) (fanch m')
           (phi_perm m (sv_si _ V)) F).
    - intros x Hx. apply (md_darts m d1 d2 m' MG), in_rest in Hx. tauto.
    - intros x y Hx Hy. apply (md_darts m d1 d2 m' MG) in Hx, Hy. apply (md_phi_reach m d1 d2 m' V G2 MG x y Hx Hy).
    - intros x Hx. apply (phi_perm m' (sv_si _ (md_SInv m d1 d2 m' V G2 MG))); assumption.
    - intros x Hx. apply (md_darts m d1 d2 m' MG) in Hx. apply (md_lft m d1 d2 m' MG x Hx).
    - intros l. assert (E : fAt m' l = fAt m l) by (unfold fAt; rewrite (mg_faces _ _ _ _ MG); reflexivity).
      unfold fanch. rewrite E. destruct (fAt m l) as [f|] eqn:Ef; cbn [option_map]; auto.
      apply Forall2_same. intros a Ha. split; [apply reach_refl|].
      apply (md_darts m d1 d2 m' MG). apply (Hoff l f a Ef Ha).
  Qed.

  Theorem me_MInv : MInv m'.
  Proof.
    pose proof (md_darts m d1 d2 m' MG) as HD.
    pose proof (md_stt m d1 d2 m' V G2 MG) as Hst.
    constructor.
    - apply (md_SInv m d1 d2 m' V G2 MG).
    - apply me_FI.
    - unfold fAt. rewrite (mg_faces _ _ _ _ MG). apply (mi_0 _ M).
    - pose proof (sub_rank m m' d1 d2 V G2 HD Hst) as HR. pose proof (mi_pl _ M) as HPl.
      rewrite (mg_faces _ _ _ _ MG), (mg_busy _ _ _ _ MG), (mg_ealive _ _ _ _ MG). lia.
    - unfold links. rewrite (mg_faces _ _ _ _ MG).
      apply (lks_eq m m' d1 d2 V G2 HD Hst (faces m) (faces m) eq_refl); [|exact (mi_in _ M)].
      intros j. destruct (tget (faces m) j) as [f|] eqn:Ef; auto.
      apply Forall2_same. intros a Ha. split; [apply conn_refl|]. apply HD. apply (Hoff j f a Ef Ha).
    - pose proof (sub_rank m m' d1 d2 V G2 HD Hst) as HR. pose proof (mi_eu _ M) as HPl.
      rewrite (mg_faces _ _ _ _ MG), (mg_ealive _ _ _ _ MG). lia.
  Qed.
End MergeEdgesInv.

Lemma fm_off m d2 m0 : facesMoved m d2 m0 ->
  forall l f a, fAt m0 l = Some f -> In a (fanchors f) -> In a (rest m0 d2).
Proof.
  intros FM l f a Hf Ha. destruct (fm_views m d2 m0 FM) as (E1 & E2 & ED & _).
  apply (rest_views m m0 d2 a ED). pose proof (fm_face _ _ _ FM l) as K. rewrite Hf in K.
  destruct (fAt m l) as [g|]; [|contradiction]. destruct K as (_ & _ & K). unfold movedOff in K.
  clear -K Ha. induction K as [|x y l l' [_ H] K IH]; [destruct Ha|]. destruct Ha as [<-|Ha]; auto.
Qed.

Lemma fm_Deg2 m d2 m0 x y : facesMoved m d2 m0 -> Deg2 m x y -> Deg2 m0 x y.
Proof. intros FM G. rewrite (fm_eq _ _ _ FM). destruct G; constructor; assumption. Qed.

(** ** splitEdge *)
Section SplitInv.
  Variables (m : gmap) (l : nat) (e : edge) (k : nat) (pos : point) (pts : list point) (m' : gmap) (r : nat).
  Hypothesis M : MInv m.
  Hypothesis He : eAt m l = Some e.
  Hypothesis P : Split m l e k pos pts m' r.
  Let V := mi_v _ M.
  Let F := mi_f _ M.
  Let V' := sv_SInv m l e k pos pts m' r V He P.
  Let G2 := sv_Deg2 m l e k pos pts m' r V He P.
  Let dl := Z.of_nat l.
  Let dr := Z.of_nat r.

  Let HD x : In x (darts m') <-> In x (darts m) \/ x = dr \/ x = - dr.
  Proof. rewrite (sv_darts m l e k pos pts m' r V He P). apply in_D2. Qed.

  Lemma se_FI : FIm m'.
  Proof.
    destruct (sv_phi_new m l e k pos pts m' r V He P) as [N1 N2]. fold dl dr in N1, N2.
    destruct (sv_lftr m l e k pos pts m' r V He P) as [L1 L2]. fold dl dr in L1, L2.
    pose proof (sv_dl m l e k pos pts m' r V He P) as Hdl. pose proof (sv_dl' m l e k pos pts m' r V He P) as Hdl'. fold dl in Hdl, Hdl'.
    pose proof (phi_perm m' (sv_si _ V')) as HP'.
    assert (Hnew : forall x, In x (darts m') -> exists y, In y (darts m) /\ reach (phi m') y x /\ lft m' x = lft m y).
    { intros x Hx. apply HD in Hx as [Hx|[->| ->]].
      - exists x. split; [assumption|]. split; [apply reach_refl|]. apply (sv_lft m l e k pos pts m' r He P x Hx).
      - exists dl. split; [assumption|]. split; [rewrite <- N1; apply reach_step | assumption].
      - exists (- dl). split; [assumption|]. split; [|assumption].
        apply (reach_sym _ _ _ HP'); [apply HD; auto|]. rewrite <- N2. apply reach_step. }
    unfold FIm. replace (fanch m') with (fanch m).
    2:{ unfold fanch, fAt. rewrite (sp_faces _ _ _ _ _ _ _ _ P). reflexivity. }
    apply (FI_grow (darts m) (darts m') (phi m) (fun x => - sg m x) (phi m') (lft m) (lft m') (fanch m)
             (phi_perm m (sv_si _ V)) F).
    - intros x Hx; apply HD; auto.
    - intros x y Hx Hy. apply (sv_phi_reach m l e k pos pts m' r V He P x y Hx Hy).
    - exact Hnew.
    - intros x Hx. apply (sv_lft m l e k pos pts m' r He P x Hx).
    - intros x Hx. destruct (Hnew x Hx) as (y & Hy & Hr & ->).
      assert (Hpx : In (phi m' x) (darts m')) by (apply HP'; assumption).
      destruct (Hnew (phi m' x) Hpx) as (z & Hz & Hr' & ->).
      assert (Hyz : reach (phi m') y z).
      { apply (reach_trans _ _ (phi m' x)); [apply reach_step_r; assumption|].
        apply (reach_sym _ _ _ HP'); [apply HD; auto | assumption]. }
      apply (sv_phi_reach m l e k pos pts m' r V He P y z Hy Hz) in Hyz.
      apply (fi_reach (darts m) (phi m) _ (lft m) (fanch m) y z (phi_perm m (sv_si _ V)) F Hy Hyz).
  Qed.

  Theorem se_MInv : MInv m'.
  Proof.
    assert (HDr : forall x, In x (darts m) <-> In x (rest m' dr)).
    { intros x. symmetry. apply (sv_rest m l e k pos pts m' r V He P). }
    assert (Hst : forall x, In x (rest m' dr) -> stt m x = stt m' (tr (- dl) (- dr) x)).
    { intros x Hx. apply HDr in Hx.
      rewrite (sv_stt m l e k pos pts m' r V He P) by (apply (tr_D2 m l e k pos pts m' r V He P); apply in_D2; auto).
      fold dl dr. rewrite tr_invol. symmetry. apply (st2_old m l e k pos pts m' r P x Hx). }
    constructor.
    - exact V'.
    - apply se_FI.
    - unfold fAt. rewrite (sp_faces _ _ _ _ _ _ _ _ P). apply (mi_0 _ M).
    - pose proof (sub_rank m' m (- dl) dr V' G2 HDr Hst) as HR. pose proof (mi_pl _ M) as HPl.
      rewrite (sp_faces _ _ _ _ _ _ _ _ P), (sp_busy _ _ _ _ _ _ _ _ P), (sp_ealive _ _ _ _ _ _ _ _ P). lia.
    - unfold links. rewrite (sp_faces _ _ _ _ _ _ _ _ P).
      apply (lks_eq m' m (- dl) dr V' G2 HDr Hst (faces m) (faces m) eq_refl); [|exact (mi_in _ M)].
      intros j. destruct (tget (faces m) j) as [f|] eqn:Ef; auto.
      apply Forall2_same. intros a Ha. split; [apply conn_refl|].
      apply (fi_anchor _ _ _ _ F j (fanchors f) a); auto. unfold fanch, fAt. rewrite Ef. reflexivity.
    - pose proof (sub_rank m' m (- dl) dr V' G2 HDr Hst) as HR. pose proof (mi_eu _ M) as HPl.
      rewrite (sp_faces _ _ _ _ _ _ _ _ P), (sp_ealive _ _ _ _ _ _ _ _ P). lia.
  Qed.
End SplitInv.
