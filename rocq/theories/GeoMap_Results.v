(** The GeoMap properties derived from the invariants. *)
From Verif Require Import Base Orbit GraphRank Euler Links FaceInv Conj
  GeoMap_Model GeoMap_Views GeoMap_SInv GeoMap_Remove GeoMap_MergeEdges GeoMap_SplitEdge GeoMap_Loops GeoMap_MInv
  GeoMap_Gone GeoMap_Bridge GeoMap_MergeFaces GeoMap_Subdiv GeoMap_Init GeoMap_Area GeoMap_Embed GeoMap_Initialize GeoMap_Sort
  GeoMap_History GeoMap_Geometry GeoMap_AreaInv GeoMap_Spec GeoMap_Facts.
Local Open Scope Z_scope.

(** ** Histories *)

Lemma GP_empty : GP empty_map.
Proof.
  assert (D : darts empty_map = []) by reflexivity.
  constructor; [|reflexivity|rewrite D; intros x []].
  constructor; try reflexivity; try (cbn; lia). rewrite D.
  constructor; try (intros d []; fail). intros l n H. unfold nAt, tget in H. cbn in H. destruct l; discriminate.
Qed.

Lemma geo_empty : geo empty_map.
Proof. intros d []. Qed.
Lemma AInv_empty : AInv empty_map.
Proof. intros l f v H. unfold fAt, tget in H. cbn in H. destruct l; discriminate. Qed.

Theorem exec_good m c : Inv m -> allowed m c -> good (fun _ => True) (exec m c).
Proof.
  intros HI Hc. destruct c as [hk o|ord par]; cbn [exec].
  - eapply good_mono; [apply (run_op_effs hk m o HI (allowed_op_ok m hk o (Inv_SInv m HI) Hc)) | auto].
  - destruct HI as [G|M].
    + destruct (Init_spec m ord par G Hc) as [(-> & _)|(ms & m' & _ & _ & _ & _ & -> & _)]; exact I.
    + unfold initializeMap. destruct (Nat.eqb_spec (length (faces m)) 0) as [E|_]; [|exact I].
      exfalso. apply (MInv_faces m M). apply faces_len_nil; assumption.
Qed.

Lemma geometric_op m hk o : geometric m (Call hk o) -> op_geo m o.
Proof.
  destruct o; cbn; auto. intros (H1 & H2 & H3). split; [assumption|].
  split; [intros r Hr; rewrite <- posOf_eq | intros r Hr; rewrite <- posOf_eq]; auto.
Qed.

Lemma straight_op m hk o : straight m (Call hk o) -> op_area m o.
Proof.
  destruct o; cbn; auto. destruct ins; auto. intros H e a b He Ha Hb. apply isEdge_iff in He. specialize (H e a b He Ha Hb).
  unfold collinear in H. unfold tri, cross. lia.
Qed.

Lemma op_geo_any m m' o : ~ single o -> op_geo m o -> op_geo m' o.
Proof. destruct o; cbn; auto; tauto. Qed.
Lemma op_area_any m m' o : ~ single o -> op_area m o -> op_area m' o.
Proof. destruct o; cbn; auto; tauto. Qed.

Lemma relF_mono ms m m' : relF ms m' -> nodes ms = nodes m -> edges ms = edges m -> faces m = [] -> mono m m'.
Proof.
  intros R En Ee Hf. constructor.
  - rewrite (rf_nodes _ _ R), En. apply dead_refl.
  - rewrite <- Ee. apply dead_len; [apply R|]. intros i Hi. apply (rf_live _ _ R). exact Hi.
  - rewrite Hf. split; [cbn; lia|]. intros i Hi. cbn in Hi. lia.
Qed.

Theorem exec_step m c m' : Inv m -> allowed m c -> exec m c = Ok m' ->
  Inv m' /\ mono m m' /\ (geo m -> geometric m c -> geo m') /\ (geo m -> AInv m -> geometric m c -> straight m c -> AInv m').
Proof.
  intros HI Hc E. destruct c as [hk o|ord par]; cbn [exec] in E.
  - pose proof (run_op_effs hk m o HI (allowed_op_ok m hk o (Inv_SInv m HI) Hc)) as G. rewrite E in G. cbn in G.
    split; [apply (effs_Inv o m m' HI G)|]. split; [apply (effs_mono o m m' HI G)|].
    destruct G as [G|(Hs & m1 & G1 & G2)].
    + split.
      * intros H1 H2. apply (eff_geo o m m' HI H1 (geometric_op m hk o H2) G).
      * intros H1 H2 H3 H4. apply (eff_area o m m' HI H1 H2 (straight_op m hk o H4) G).
    + pose proof (eff_Inv o m m1 HI G1) as HI1. split.
      * intros H1 H2. apply (eff_geo o m1 m' HI1); [|apply (op_geo_any m); auto; apply (geometric_op m hk o H2)|assumption].
        apply (eff_geo o m m1 HI H1 (geometric_op m hk o H2) G1).
      * intros H1 H2 H3 H4. apply (eff_area o m1 m' HI1); [| |apply (op_area_any m); auto; apply (straight_op m hk o H4)|assumption].
        -- apply (eff_geo o m m1 HI H1 (geometric_op m hk o H3) G1).
        -- apply (eff_area o m m1 HI H1 H2 (straight_op m hk o H4) G1).
  - destruct HI as [G|M].
    + destruct (Init_spec m ord par G Hc) as [(R & _)|(ms & m2 & _ & Gs & En & Ee & R & Rl & M' & A & _)]; rewrite R in E; [discriminate|].
      injection E as <-. split; [right; assumption|]. split; [apply (relF_mono ms); auto; apply G|]. split.
      * intros Hg _ d Hd. rewrite (rf_darts _ _ Rl) in Hd.
        assert (Hd0 : In d (darts m)) by (unfold darts, elabs, isLive, eAt in *; rewrite Ee in Hd; exact Hd).
        destruct (live_edge _ _ Hd) as (e & Ed). pose proof (rf_edge _ _ Rl (elab d)) as K. rewrite Ed in K.
        destruct (eAt m2 (elab d)) as [e2|] eqn:E2; [|contradiction]. destruct K as (K1 & K2 & K3 & K4).
        assert (Ed0 : eAt m (elab d) = Some e) by (unfold eAt in *; rewrite <- Ee; assumption).
        destruct (Hg d Hd0) as [P1 P2]. rewrite (dpts_pts m m2 d e e2 Ed0 E2 K3). split; [assumption|].
        rewrite (rf_stt _ _ Rl). unfold pos, nAt. rewrite (rf_nodes _ _ Rl), En. rewrite P2. unfold pos, nAt, stt, eAt. rewrite Ee. reflexivity.
      * intros _ _ _ _. assumption.
    + exfalso. unfold initializeMap in E. destruct (Nat.eqb_spec (length (faces m)) 0) as [E0|_]; [|discriminate].
      apply (MInv_faces m M). apply faces_len_nil; assumption.
Qed.

Lemma history_Inv P m : history P m -> Inv m.
Proof. induction 1; [left; apply GP_empty | apply (exec_step m c m'); assumption]. Qed.

Lemma history_weaken (P Q : gmap -> call -> Prop) m : (forall m c, P m c -> Q m c) -> history P m -> history Q m.
Proof. intros H. induction 1; [constructor | econstructor; eauto]. Qed.

Lemma history_geo (P : gmap -> call -> Prop) m : (forall m c, P m c -> geometric m c) -> history P m -> geo m.
Proof.
  intros HP. induction 1; [apply geo_empty|]. pose proof (history_Inv P m H) as HI.
  destruct (exec_step m c m' HI H0 H2) as (_ & _ & G & _). apply G; auto.
Qed.

Lemma history_area m : history geometricStraight m -> AInv m.
Proof.
  induction 1; [apply AInv_empty|]. pose proof (history_Inv _ m H) as HI. destruct H1 as [G1 G2].
  destruct (exec_step m c m' HI H0 H2) as (_ & _ & _ & G). apply G; auto. apply (history_geo geometricStraight); [intros ? ? []; assumption | assumption].
Qed.

Lemma later_Inv m m' : later m m' -> Inv m -> Inv m' /\ mono m m'.
Proof.
  induction 1; intros HI; [split; [assumption | apply mono_refl]|]. destruct (exec_step m c m1 HI H H0) as (HI1 & M1 & _).
  destruct (IHlater HI1) as [H2 M2]. split; [assumption | apply (mono_trans _ m1); assumption].
Qed.

Lemma history_MInv P m : history P m -> initialised m -> MInv m.
Proof. intros H HI. destruct (history_Inv P m H) as [G|M]; [contradiction HI; apply G | assumption]. Qed.

(** ** C01 *)

Theorem rotation_permutation m : history anyCall m ->
  (forall d, isDart m d -> exists n d1 d2, startLabel m d = Ok n /\
     nextSigma m d = Ok d1 /\ isDart m d1 /\ startLabel m d1 = Ok n /\ prevSigma m d1 = Ok d /\
     prevSigma m d = Ok d2 /\ isDart m d2 /\ startLabel m d2 = Ok n /\ nextSigma m d2 = Ok d) /\
  (forall d n, isDart m d -> startLabel m d = Ok n -> exists nd, isNode m n nd /\ nanchor nd <> 0 /\ reaches (nextSigma m) (nanchor nd) d) /\
  (forall n nd, isNode m n nd ->
     (nanchor nd = 0 /\ forall d, isDart m d -> startLabel m d <> Ok n) \/
     (isDart m (nanchor nd) /\ startLabel m (nanchor nd) = Ok n)).
Proof.
  intros H. pose proof (Inv_SInv m (history_Inv _ m H)) as V. pose proof (sv_si _ V) as HS. split; [|split].
  - intros d Hd. apply isDart_iff in Hd. destruct (si_perm _ _ HS d Hd) as (A & B & C & E).
    exists (stt m d), (sg m d), (sgi m d). rewrite !isDart_iff. unfold nextSigma, prevSigma.
    rewrite !startLabel_Ok, !getS_Ok, !getSi_Ok by (auto; apply (si_cap _ _ HS); assumption).
    rewrite (si_st _ _ HS d Hd), (SI_st_si m _ d HS Hd), C, E. auto 20.
  - intros d n Hd Hn. apply isDart_iff in Hd. rewrite (startLabel_Ok m d Hd) in Hn. injection Hn as <-.
    destruct (nAt m (stt m d)) as [nd|] eqn:En; [|contradiction (si_node _ _ HS d Hd)].
    exists nd. split; [apply isNode_iff; assumption|]. destruct (si_anchor _ _ HS _ nd En) as [(_ & K)|(K1 & K2 & K3)].
    + contradiction (K d Hd eq_refl).
    + split; [apply (si_nz _ _ HS); assumption|]. apply reaches_sigma; auto.
  - intros n nd Hn. apply isNode_iff in Hn. destruct (si_anchor _ _ HS n nd Hn) as [(K0 & K)|(K1 & K2 & K3)].
    + left. split; [assumption|]. intros d Hd E. apply isDart_iff in Hd. rewrite (startLabel_Ok m d Hd) in E. injection E as E. apply (K d Hd E).
    + right. split; [apply isDart_iff; assumption|]. rewrite (startLabel_Ok m _ K1), K2. reflexivity.
Qed.

(** ** C02 *)

(** the next dart of a contour is the predecessor of the opposite dart around its start node,
    that is, it starts where the dart ends *)
Theorem contour_step m d : history anyCall m -> isDart m d ->
  exists d' n, nextPhi m d = Ok d' /\ isDart m d' /\ nextSigma m d' = Ok (- d) /\
    endLabel m d = Ok n /\ startLabel m d' = Ok n /\ prevPhi m d' = Ok d.
Proof.
  intros H Hd. pose proof (proj1 (rotation_permutation m H)) as R.
  assert (Hn : isDart m (- d)) by (destruct Hd as (K & e & He); split; [lia|]; exists e; replace (elab (- d)) with (elab d) by (unfold elab; lia); exact He).
  destruct (R (- d) Hn) as (n & _ & d2 & Hs & _ & _ & _ & _ & Hp & Hd2 & Hs2 & Hn2).
  exists d2, n. split; [exact Hp|]. split; [exact Hd2|]. split; [exact Hn2|]. split.
  - unfold endLabel. unfold startLabel in Hs. unfold gEdge in *. replace (elab (- d)) with (elab d) in Hs by (unfold elab; lia). exact Hs.
  - split; [exact Hs2|]. unfold prevPhi. unfold nextSigma in Hn2. rewrite Hn2. cbn [bind]. f_equal. lia.
Qed.

Theorem contours_partition m : history anyCall m -> initialised m ->
  (forall d, isDart m d -> exists l f a, leftLabel m d = Ok (Some l) /\ isFace m l f /\
      In a (fanchors f) /\ sameContour m a d /\
      (forall b, In b (fanchors f) -> sameContour m b d -> b = a) /\
      (forall l' f' b, isFace m l' f' -> In b (fanchors f') -> sameContour m b d -> l' = l)) /\
  (forall l f, isFace m l f -> NoDup (fanchors f)) /\
  (forall l f a d, isFace m l f -> In a (fanchors f) -> sameContour m a d -> isDart m d /\ leftLabel m d = Ok (Some l)).
Proof.
  intros H Hi. pose proof (history_MInv _ m H Hi) as M. pose proof (sv_si _ (mi_v _ M)) as HS. pose proof (mi_f _ M) as F.
  pose proof (phi_perm m HS) as HP.
  assert (FA : forall l f, isFace m l f -> fanch m l = Some (fanchors f)).
  { intros l f Hf. apply isFace_iff in Hf. unfold fanch. rewrite Hf. reflexivity. }
  assert (P3 : forall l f a d, isFace m l f -> In a (fanchors f) -> sameContour m a d -> isDart m d /\ leftLabel m d = Ok (Some l)).
  { intros l f a d Hf Ha Hc. destruct (fi_anchor _ _ _ _ F l _ a (FA l f Hf) Ha) as [Had Hal]. apply reaches_phi in Hc; auto.
    assert (Hd : In d (darts m)) by (apply (reach_in _ _ _ HP a); assumption). split; [apply isDart_iff; assumption|].
    rewrite (leftLabel_Ok m d Hd). f_equal. rewrite <- Hal. apply (fi_reach (darts m) (phi m) _ (lft m) (fanch m) a d HP F); assumption. }
  split; [|split].
  - intros d Hd. pose proof Hd as Hd0. apply isDart_iff in Hd. destruct (fi_cover _ _ _ _ F d Hd) as (l & A & a & E1 & E2 & Ha & Hr).
    unfold fanch in E2. destruct (fAt m l) as [f|] eqn:Ef; [|discriminate]. injection E2 as <-.
    assert (Hf : isFace m l f) by (apply isFace_iff; assumption).
    destruct (fi_anchor _ _ _ _ F l _ a (FA l f Hf) Ha) as [Had _].
    exists l, f, a. rewrite (leftLabel_Ok m d Hd), E1. split; [reflexivity|]. split; [assumption|]. split; [assumption|].
    split; [apply reaches_phi; assumption|]. split.
    + intros b Hb Hc. destruct (fi_anchor _ _ _ _ F l _ b (FA l f Hf) Hb) as [Hbd _]. apply reaches_phi in Hc; auto.
      apply (fi_sep _ _ _ _ F l _ b a (FA l f Hf) Hb Ha). apply (reach_trans _ b d); [assumption|]. apply (reach_sym _ _ _ HP); assumption.
    + intros l' f' b Hf' Hb Hc. destruct (P3 l' f' b d Hf' Hb Hc) as [_ K]. rewrite (leftLabel_Ok m d Hd), E1 in K. congruence.
  - intros l f Hf. apply (fi_nodup _ _ _ _ F l _ (FA l f Hf)).
  - exact P3.
Qed.

(** ** C03 *)

Lemma rank_lt m : SInv m -> darts m <> [] -> Z.of_nat (rank (Gm m)) + 1 <= sumf busy (nodes m).
Proof.
  intros V Hne. destruct (comps_count (Gm m) (busyList m) (busyList_nodup m V) (verts_Gm m V)) as (K & HK & E).
  assert (HB : length (busyList m) = length (nanchors m)) by (unfold busyList; apply map_length). pose proof (length_nanchors m) as HN.
  destruct (darts m) as [|d t] eqn:Ed; [contradiction|]. assert (Hd : In d (darts m)) by (rewrite Ed; left; reflexivity).
  destruct (creps_cover _ _ _ HK (stt m d)) as (k & Hk & _); [apply in_busyList; eauto|].
  destruct K as [|k0 K]; [contradiction|]. cbn [length] in E. lia.
Qed.

(** an upper bound for the rank of any graph on the nodes having edges *)
Lemma rank_upper m G : SInv m -> darts m <> [] -> incl (verts G) (busyList m) -> Z.of_nat (rank G) + 1 <= sumf busy (nodes m).
Proof.
  intros V Hne Hi. destruct (comps_count G (busyList m) (busyList_nodup m V) Hi) as (K & HK & E).
  assert (HB : length (busyList m) = length (nanchors m)) by (unfold busyList; apply map_length). pose proof (length_nanchors m) as HN.
  destruct (darts m) as [|d t] eqn:Ed; [contradiction|]. assert (Hd : In d (darts m)) by (rewrite Ed; left; reflexivity).
  destruct (creps_cover _ _ _ HK (stt m d)) as (k & Hk & _); [apply in_busyList; eauto|].
  destruct K as [|k0 K]; [contradiction|]. cbn [length] in E. lia.
Qed.

Definition nofilled (o : option face) : Z := match o with Some f => if (Nat.eqb (length (fanchors f)) 0) then 1 else 0 | None => 0 end.

Lemma length_links m : Z.of_nat (length (links m)) = sumf ncont (faces m) - sumf alive (faces m) + sumf nofilled (faces m).
Proof.
  unfold links. induction (faces m) as [|o t IH]; [reflexivity|].
  change (sumf ncont (o :: t)) with (ncont o + sumf ncont t). change (sumf alive (o :: t)) with (alive o + sumf alive t).
  change (sumf nofilled (o :: t)) with (nofilled o + sumf nofilled t).
  change (tmap ?g (o :: t)) with (match o with Some b => g b | None => [] end ++ tmap g t). rewrite app_length, Nat2Z.inj_add, IH.
  destruct o as [f|]; cbn [ncont alive nofilled length]; [|lia]. rewrite star_length, map_length.
  destruct (Nat.eqb_spec (length (fanchors f)) 0); lia.
Qed.

Lemma links_verts m : SInv m -> FIm m -> incl (verts (links m)) (busyList m).
Proof.
  intros V F n Hn. unfold verts in Hn. apply in_flat_map in Hn as ([a b] & Hab & Hn).
  assert (K : exists l f, fAt m l = Some f /\ In (a, b) (star (map (stt m) (fanchors f)))).
  { unfold links in Hab. clear -Hab. unfold fAt. induction (faces m) as [|o t IH]; [contradiction|].
    change (tmap ?g (o :: t)) with (match o with Some b => g b | None => [] end ++ tmap g t) in Hab. apply in_app_iff in Hab as [Hab|Hab].
    - destruct o as [f|]; [|contradiction]. exists 0%nat, f. auto.
    - destruct (IH Hab) as (l & f & H1 & H2). exists (S l), f. auto. }
  destruct K as (l & f & Hf & Hs).
  assert (HA : forall x, In x (map (stt m) (fanchors f)) -> In x (busyList m)).
  { intros x Hx. apply in_map_iff in Hx as (d & <- & Hd). apply in_busyList; auto. exists d. split; [|reflexivity].
    apply (fi_anchor _ _ _ _ F l (fanchors f) d); auto. unfold fanch. rewrite Hf. reflexivity. }
  destruct (map (stt m) (fanchors f)) as [|h t]; [contradiction|]. cbn [star] in Hs. unfold spokes in Hs. apply in_map_iff in Hs as (y & E & Hy).
  injection E as <- <-. destruct Hn as [<-|[<-|[]]]; apply HA; cbn; auto.
Qed.

(** every face of a map with edges has a contour *)
Lemma faces_filled m l f : MInv m -> fAt m l = Some f -> l <> 0%nat -> fanchors f <> [].
Proof.
  intros M Hf Hl. pose proof (mi_v _ M) as V. pose proof (mi_f _ M) as F.
  pose proof (length_links m) as HL. pose proof (mi_in _ M) as HI. unfold indep in HI. pose proof (mi_pl _ M) as Hpl. pose proof (mi_eu _ M) as Heu.
  assert (H0 : forall o, 0 <= nofilled o) by (intros [g|]; cbn; [destruct (Nat.eqb _ _)|]; lia).
  destruct (list_eq_dec Z.eq_dec (darts m) []) as [Ed|Ed].
  - exfalso. assert (Ee : sumf alive (edges m) = 0).
    { rewrite <- (sv_elabs m V). unfold darts in Ed. apply app_eq_nil in Ed as [-> _]. reflexivity. }
    assert (A : sumf alive (faces m) >= 2).
    { pose proof (mi_0 _ M) as M0. unfold fAt in *. destruct (faces m) as [|o t]; [contradiction M0; reflexivity|]. destruct o as [f0|]; [|contradiction M0; reflexivity].
      destruct l as [|l]; [contradiction|]. change (tget (Some f0 :: t) (S l)) with (tget t l) in Hf.
      change (sumf alive (Some f0 :: t)) with (1 + sumf alive t).
      pose proof (sumf_upd alive t l None (Some f)) as U. unfold tget in Hf. destruct (nth_error t l) as [o|] eqn:En; [|discriminate]. subst o.
      specialize (U eq_refl). cbn [alive] in U. assert (0 <= sumf alive (list_upd t l None)) by (apply sumf_nonneg; intros [g|]; cbn; lia). lia. }
    lia.
  - assert (Hb : Z.of_nat (rank (links m ++ Gm m)) + 1 <= sumf busy (nodes m)).
    { apply rank_upper; auto. rewrite verts_app. apply incl_app; [apply links_verts; assumption | apply verts_Gm; assumption]. }
    rewrite HI, Nat2Z.inj_add in Hb. assert (Hz : sumf nofilled (faces m) <= 0) by lia.
    intros E. unfold fAt in Hf. pose proof (sumf_upd nofilled (faces m) l None (Some f)) as U. unfold tget in Hf.
    destruct (nth_error (faces m) l) as [o|] eqn:En; [|discriminate]. subst o. specialize (U eq_refl). cbn [nofilled] in U. rewrite E in U. cbn [length Nat.eqb] in U.
    assert (0 <= sumf nofilled (list_upd (faces m) l None)) by (apply sumf_nonneg; assumption). lia.
Qed.

Theorem euler_poincare m : history anyCall m -> initialised m ->
  nonIsolatedNodes m - liveEdges m + liveFaces m - allHoles m = 1 /\
  nonIsolatedNodes m - liveEdges m + allContours m - 2 * allHoles m = 0 /\
  (forall l f, isFace m l f -> 0 <= holeCount l f).
Proof.
  intros H Hi. pose proof (history_MInv _ m H Hi) as M. pose proof (mi_pl _ M). pose proof (mi_eu _ M).
  unfold liveEdges, liveFaces. rewrite nonIsolated_sumf, !live_sumf, allContours_sumf, (allHoles_eq m (mi_0 _ M)).
  split; [lia|]. split; [lia|]. intros l f Hf. apply isFace_iff in Hf. unfold holeCount. destruct (Nat.eqb_spec l 0); [lia|].
  pose proof (faces_filled m l f M Hf n). destruct (fanchors f); [contradiction | cbn [length]; lia].
Qed.

(** ** C04 *)

Theorem counters m : history anyCall m ->
  nodeCount m = liveNodes m /\ edgeCount m = liveEdges m /\ faceCount m = liveFaces m.
Proof.
  intros H. pose proof (Inv_SInv m (history_Inv _ m H)) as V. unfold liveNodes, liveEdges, liveFaces. rewrite !live_sumf.
  split; [apply V|]. split; apply V.
Qed.

Lemma dead_query {A} (l l' : list (option A)) i : dead l l' -> nth_error l i = Some None -> nth_error l' i = Some None.
Proof.
  intros [H1 H2] E. assert (L : (i < length l)%nat) by (apply nth_error_Some; congruence).
  specialize (H2 i L). unfold tget in H2. rewrite E in H2. specialize (H2 eq_refl).
  destruct (nth_error l' i) as [[a|]|] eqn:E'; [discriminate | reflexivity |]. apply nth_error_None in E'. lia.
Qed.

Theorem labels_not_reused m m' : history anyCall m -> later m m' ->
  (forall l, nodeP m l = Ok None -> nodeP m' l = Ok None) /\
  (forall l, edgeP m l = Ok None -> edgeP m' l = Ok None) /\
  (forall l, faceP m l = Ok None -> faceP m' l = Ok None) /\
  (length (nodes m) <= length (nodes m'))%nat /\ (length (edges m) <= length (edges m'))%nat /\ (length (faces m) <= length (faces m'))%nat.
Proof.
  intros H HL. destruct (later_Inv m m' HL (history_Inv _ m H)) as [_ Mo].
  assert (K : forall A (a b : list (option A)) i, dead a b -> (match nth_error a i with Some o => Ok o | None => Exn end) = Ok None ->
      (match nth_error b i with Some o => Ok o | None => Exn end) = Ok None).
  { intros A a b i D E. destruct (nth_error a i) as [o|] eqn:Ea; [|discriminate]. injection E as ->. rewrite (dead_query a b i D Ea). reflexivity. }
  split; [intros l; apply K, Mo|]. split; [intros l; apply K, Mo|]. split; [intros l; apply K, Mo|].
  split; [apply Mo|]. split; apply Mo.
Qed.

Theorem new_labels m : history anyCall m ->
  (forall p m' l, addNode m p = (m', l) -> nodeP m l = Exn /\ exists nd, isNode m' l nd) /\
  (forall p k m' l, addNodeL m p k = (m', l) -> nodeP m l = Exn /\ exists nd, isNode m' l nd) /\
  (forall sa ea pts k m' l, anchorExists m sa -> anchorExists m ea -> addEdge m sa ea pts k = Ok (m', l) -> edgeP m l = Exn /\ exists e, isEdge m' l e) /\
  (forall k i p ins m' l e, isEdge m k e -> epts e <> [] -> splitEdge m k i p ins = Ok (m', l) -> edgeP m l = Exn /\ exists e, isEdge m' l e).
Proof.
  intros H. pose proof (Inv_SInv m (history_Inv _ m H)) as V.
  assert (N : forall A (t : list (option A)) l, (length t <= l)%nat -> (match nth_error t l with Some o => Ok o | None => Exn end) = Exn).
  { intros A t l Hl. apply nth_error_None in Hl. rewrite Hl. reflexivity. }
  assert (L : forall p k m' l, addNodeL m p k = (m', l) -> nodeP m l = Exn /\ exists nd, isNode m' l nd).
  { intros p k m' l E. unfold addNodeL, addNode in E. cbn [nodes set_nodes] in E. injection E as <- <-. split.
    - apply N. rewrite app_length. lia.
    - eexists. apply isNode_iff. unfold nAt. cbn [nodes set_nodeCount set_nodes]. apply tget_app_r. }
  split; [intros p m' l E; rewrite addNode_L in E; apply (L p 0%nat m' l E)|]. split; [exact L|]. split.
  - intros sa ea pts k m' l H1 H2 E.
    assert (S1 : sa_ok m sa) by (destruct sa; cbn in *; auto; destruct H1 as (nd & K); apply isNode_iff in K; congruence).
    assert (S2 : sa_ok m ea) by (destruct ea; cbn in *; auto; destruct H2 as (nd & K); apply isNode_iff in K; congruence).
    pose proof (addEdge_inv m sa ea pts k V S1 S2) as G. rewrite E in G. cbn [good fst snd] in G.
    destruct G as (_ & _ & _ & Hl & _ & (s & e & _ & _ & Hee) & _).
    split; [apply N; lia|]. eexists. apply isEdge_iff. rewrite Hee, Nat.eqb_refl. reflexivity.
  - intros k i p ins m' l e He Hp E. apply isEdge_iff in He. pose proof (splitEdge_spec m k e i p ins V He Hp) as G. rewrite E in G.
    destruct G as (_ & pos & _ & Sp). split; [apply N; rewrite (sp_r _ _ _ _ _ _ _ _ Sp); lia|].
    eexists. apply isEdge_iff. rewrite (sp_edge _ _ _ _ _ _ _ _ Sp), Nat.eqb_refl. reflexivity.
Qed.
