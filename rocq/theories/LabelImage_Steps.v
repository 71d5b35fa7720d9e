(** mergeEdges and splitEdge on a map with label image *)
From Coq Require Import QArith.
From Verif Require Import Base Orbit GeoMap_Model GeoMap_Views GeoMap_SInv GeoMap_MergeEdges GeoMap_SplitEdge GeoMap_MInv GeoMap_Gone GeoMap_Bridge GeoMap_MergeFaces GeoMap_Subdiv
  GeoMap_Flags GeoMap_Move GeoMap_Sort GeoMap_History GeoMap_Geometry GeoMap_Spec GeoMap_Facts GeoMap_Results
  Scanlines_Model Scanlines_Spec ScanPoly_Model ScanPoly_Spec LabelLUT_Model LabelLUT_Spec LabelLUT_Proofs
  LabelImage_Model LabelImage_Spec LabelImage_Loops LabelImage_Cover LabelImage_Cache LabelImage_Inv.
Local Open Scope Z_scope.

Section Steps.
Variable srt : list seg -> list seg.
Hypothesis Hsrt : sorter srt.
Variable unit : positive.
Notation chain := (chain unit).
Notation crossB := (crossB srt unit).
Notation ind := (ind srt unit).
Notation cnt := (cnt srt unit).
Notation LInv := (LInv srt unit).
Notation IInv := (IInv srt unit).

Lemma stepped_px st l s diff st' pts img : stepped st l s diff st' -> scans (chain pts) s -> lim st = Some img ->
  exists img', lim st' = Some img' /\ sameSize img img' /\ forall x y, insideB img x y = true -> ipx img' x y = ipx img x y + diff * b2z (crossB pts x y).
Proof.
  intros Sd Hs Hi. destruct (sd_im _ _ _ _ _ Sd img Hi) as (img' & E & Sz & Hx). exists img'. split; [exact E|]. split; [exact Sz|].
  intros x y Hin. rewrite Hx, Hin, (scans_cross srt Hsrt unit pts s x y Hs). cbn [andb]. destruct (crossB pts x y); cbn; lia.
Qed.

(** the image after the points of edge [l] have changed: [dl] is the change of the number of edges across a pixel *)
Lemma IInv_shift st img m' img' st' : IInv st img -> MInv m' -> lg st' = m' -> lsize st' = lsize st -> llut st' = llut st ->
  length (faces m') = length (faces (lg st)) -> (forall f, fAt m' f <> None <-> fAt (lg st) f <> None) -> sameSize img img' ->
  (forall x y, insideB img x y = true -> ipx img' x y = ipx img x y - (cnt m' x y - cnt (lg st) x y)) ->
  (forall x y, insideB img x y = true -> (cnt m' x y = 0 <-> cnt (lg st) x y = 0)) -> IInv st' img'.
Proof.
  intros [M Sz Lu Fr Cr] M' Eg Es El Fl Ff Ss Hx Hz. constructor.
  - rewrite Eg. exact M'.
  - destruct Ss as [-> ->]. rewrite Es. exact Sz.
  - rewrite Eg, El. apply (lutOK_keep (lg st)); [exact Lu | exact Fl | apply Ff].
  - intros x y Hin. rewrite (insideB_size _ _ _ _ Ss) in Hin. rewrite Eg. intros H0. pose proof (proj1 (Hz x y Hin) H0) as H1. rewrite (Hx x y Hin), H0, H1.
    destruct (Fr x y Hin H1) as (f & A & B & C). exists f. rewrite El. replace (ipx img x y - (0 - 0)) with (ipx img x y) by lia. split; [exact A|]. split; [exact B | apply Ff, C].
  - intros x y Hin. rewrite (insideB_size _ _ _ _ Ss) in Hin. rewrite Eg. intros H0. rewrite (Hx x y Hin).
    assert (H1 : 0 < cnt (lg st) x y). { pose proof (cnt_nn srt unit (lg st) x y). assert (cnt (lg st) x y <> 0) by (intros C; apply (Hz x y Hin) in C; lia). lia. }
    rewrite (Cr x y Hin H1). lia.
Qed.

Lemma facesMoved_live m d2 m0 f : facesMoved m d2 m0 -> (fAt m0 f <> None <-> fAt m f <> None).
Proof. intros F. pose proof (fm_face _ _ _ F f) as K. destruct (fAt m f), (fAt m0 f); split; intros; try congruence; contradiction. Qed.

Record untouched st st' : Prop := {
  ut_size : lsize st' = lsize st; ut_lut : llut st' = llut st; ut_area : larea st' = larea st;
  ut_im : match lim st, lim st' with
          | None, None => True
          | Some img, Some img' => sameSize img img' /\ (forall x y, insideB img x y = true -> cnt (lg st) x y = 0 -> ipx img' x y = ipx img x y) /\
              (forall x y, insideB img x y = true -> (cnt (lg st') x y = 0 <-> cnt (lg st) x y = 0)) /\ (forall f, fAt (lg st') f <> None <-> fAt (lg st) f <> None)
          | _, _ => False end }.

Theorem lmergeEdges_spec hk st d : LInv st ->
  goodL (lim st = None /\ (exists l s, lsc st l = Some s)) (fun r => LInv (fst r) /\ mergeEdges hk (lg st) d = Ok (lg (fst r), snd r) /\ untouched st (fst r)) (lmergeEdges srt unit hk st d).
Proof.
  intros L. set (m := lg st). pose proof (Inv_SInv m (li_inv _ _ _ L)) as V. pose proof (li_geo _ _ _ L) as G. fold m in G.
  assert (HF : faces m = [] \/ FIm m) by (destruct (li_inv _ _ _ L) as [K|K]; [left; apply K | right; apply K]).
  pose proof (mergeEdges_spec hk m d V HF) as Sp. unfold lmergeEdges. fold m. destruct (mergeEdges hk m d) as [[m' o]| | |] eqn:Em; cbn [good bind] in *; try exact I; try contradiction.
  destruct (step_base srt unit st (Call hk (OMergeEdges d)) m' L I I) as (I' & G' & M'). { cbn [exec run_op]. fold m. rewrite Em. reflexivity. }
  destruct Sp as (d1 & d2 & m0 & D2 & Fm & Ed & Sp). cbn [fst snd] in *.
  assert (Ee : edges m0 = edges m) by (rewrite (fm_eq _ _ _ Fm); reflexivity).
  destruct Sp as [(_ & -> & ->)|(_ & -> & B)]; cbn [snd].
  { cbn [goodL fst snd]. split; [|split; [reflexivity|]].
    - apply keep_LInv; auto.
      + intros l s e' _ He'. exists e'. unfold eAt in *. fold m. rewrite Ee in He'. auto.
      + fold m. rewrite Ee. lia.
      + intros _. fold m. split; [apply samePts_edges, Ee|]. split; [apply Fm|]. intros f. apply (facesMoved_live m d2 m0 f Fm).
    - constructor; try reflexivity. cbn [lim set_lg]. destruct (lim st) as [img|]; [|exact I]. split; [split; reflexivity|]. split; [reflexivity|]. cbn [lg set_lg]. split.
      + intros x y _. rewrite (samePts_cnt srt unit m m0 x y (samePts_edges _ _ Ee)). tauto.
      + intros f. apply (facesMoved_live m d2 m0 f Fm). }
  assert (V0 : SInv m0) by (apply (fm_SInv m d2); assumption). assert (D0 : Deg2 m0 d1 d2) by (apply (fm_Deg2 m d2); assumption).
  assert (G0 : geo m0) by (rewrite (fm_eq _ _ _ Fm); exact G).
  assert (Hst : forall x, stt m0 x = stt m x) by (intros x; unfold stt, eAt; rewrite Ee; reflexivity).
  assert (Ea : forall j, eAt m0 j = eAt m j) by (intros j; unfold eAt; rewrite Ee; reflexivity).
  destruct (merged_join m0 d1 d2 m' V0 D0 G0 B) as (e1 & e2 & e' & p & c & q & E1 & E2 & El & He & J1 & J2). rewrite Ea in E1, E2. rewrite Hst in J1, J2.
  assert (Hmd : mergeDarts m d = Ok (d1, d2)).
  { unfold mergeDarts. assert (Hd : In d (darts m)). { destruct ((0 <? d) && (sg m d <? 0))%bool; injection Ed as -> ->; apply D2. }
    assert (Hsd : In (sg m d) (darts m)) by (apply (si_perm _ _ (sv_si _ V)); exact Hd).
    rewrite getS_Ok by (apply (si_cap _ _ (sv_si _ V)); assumption). cbn [bind]. rewrite getS_Ok by (apply (si_cap _ _ (sv_si _ V)); assumption). cbn [bind].
    assert (Es : sg m (sg m d) = d).
    { destruct ((0 <? d) && (sg m d <? 0))%bool; injection Ed as -> ->; [pose proof (g2_12 _ _ _ D2) as Q | pose proof (g2_21 _ _ _ D2) as Q]; exact Q. }
    rewrite Es. destruct ((0 <? d) && (sg m d <? 0))%bool; rewrite Ed; reflexivity. }
  rewrite Hmd. cbn [bind]. rewrite (deref_edge _ _ _ E1), (deref_edge _ _ _ E2). cbn [bind]. rewrite (e_st_stt _ _ _ E2). set (mn := stt m d2) in *.
  set (rv := if negb (Nat.eqb (estart e1) mn) then negb (Nat.eqb (estart e2) mn) else Nat.eqb (estart e2) mn).
  assert (Ep1 : epts e1 <> []) by (apply (geo_ne m (elab d1)); assumption). assert (Ep2 : epts e2 <> []) by (apply (geo_ne m (elab d2)); assumption).
  assert (J : forall s1 s2, scans (chain (epts e1)) s1 -> scans (chain (if rv then rev (epts e2) else epts e2)) s2 -> exists s, plusAssign srt s1 s2 = Ok s /\ scans (chain (epts e')) s).
  { intros s1 s2. unfold rv. destruct J1 as [(P1 & Q1 & R1 & T1)|(P1 & Q1 & R1 & T1)].
    - rewrite Q1, Nat.eqb_refl. cbn [negb]. rewrite R1, T1, chain_join. change (chain (c :: rev p)) with (toQ unit c :: chain (rev p)). intros H1 H2.
      apply (scans_plus' srt Hsrt); [|exact H1]. destruct J2 as [(P2 & Q2 & R2)|(P2 & Q2 & R2)].
      + rewrite Q2, Nat.eqb_refl, R2 in H2. cbn [rev] in H2. rewrite chain_join in H2. exact H2.
      + destruct (Nat.eqb_spec (estart e2) mn); [contradiction|]. rewrite R2, chain_join in H2. exact H2.
    - destruct (Nat.eqb_spec (estart e1) mn); [contradiction|]. cbn [negb]. rewrite R1, T1, !chain_join. intros H1 H2.
      apply (scans_plus srt Hsrt); [exact H1|]. destruct J2 as [(P2 & Q2 & R2)|(P2 & Q2 & R2)].
      + rewrite Q2, Nat.eqb_refl, R2 in H2. exact H2.
      + destruct (Nat.eqb_spec (estart e2) mn); [contradiction|]. cbn [negb] in H2. rewrite R2, rev_app_distr, rev_involutive in H2. exact H2. }
  assert (JX : forall x y, crossB (epts e') x y = crossB (epts e1) x y || crossB (epts e2) x y).
  { intros x y. apply (crossB_or srt Hsrt).
    assert (K2 : crosses unit (epts e2) x y <-> crosses unit (c :: q) x y).
    { destruct J2 as [(_ & _ & ->)|(_ & _ & ->)]; [tauto|]. change (rev q ++ [c]) with (rev (c :: q)). apply crosses_rev. }
    destruct J1 as [(_ & _ & -> & ->)|(_ & _ & -> & ->)]; rewrite K2, crosses_join; [|tauto].
    change (rev q ++ [c]) with (rev (c :: q)). rewrite crosses_rev. tauto. }
  clearbody rv. clear J1 J2.
  assert (C1 : forall s, lsc st (elab d1) = Some s -> scans (chain (epts e1)) s) by (intros s Hs; apply (li_cache _ _ _ L (elab d1)); assumption).
  assert (C2 : forall s, lsc st (elab d2) = Some s -> scans (chain (epts e2)) s) by (intros s Hs; apply (li_cache _ _ _ L (elab d2)); assumption).
  assert (B1 : (elab d1 < length (edges m))%nat) by (apply tget_lt in E1; exact E1). assert (B2 : (elab d2 < length (edges m))%nat) by (apply tget_lt in E2; exact E2).
  assert (Elen : length (edges m') = length (edges m)) by (rewrite (mg_elen _ _ _ _ B), Ee; reflexivity).
  (* the cached scanlines after the whole operation *)
  assert (Fin : forall st4, (forall k, k <> elab d1 -> k <> elab d2 -> lsc st4 k = lsc st k) -> (forall s, lsc st4 (elab d1) = Some s -> scans (chain (epts e')) s) ->
    (forall l s e0, lsc st4 l = Some s -> eAt m' l = Some e0 -> scans (chain (epts e0)) s) /\ (forall l, (length (edges m') <= l)%nat -> lsc st4 l = None)).
  { intros st4 Hk Hs1. split.
    - intros l s e0 Hs. rewrite He. destruct (Nat.eqb_spec (elab d2) l) as [N2|N2]; [discriminate|]. destruct (Nat.eqb_spec (elab d1) l) as [N1|N1].
      + intros E. injection E as <-. subst l. apply Hs1, Hs.
      + rewrite Ea. intros E0. rewrite Hk in Hs by congruence. apply (li_cache _ _ _ L l); assumption.
    - intros l Hl. rewrite Hk by lia. apply (li_new _ _ _ L). fold m. lia. }
  destruct (lim st) as [img|] eqn:Hi.
  - destruct (rawAddOf_on srt Hsrt unit st (elab d2) e2 1 img Hi E2 Ep2 C2) as (st1 & s2 & -> & Hs2 & D1). cbn [bind].
    destruct (stepped_px _ _ _ _ _ _ _ D1 Hs2 Hi) as (img1 & Hi1 & Sz1 & Px1).
    assert (Eg1 : lg st1 = m) by apply D1.
    destruct (rawAddOf_on srt Hsrt unit st1 (elab d1) e1 1 img1 Hi1) as (st2 & s1 & -> & Hs1 & D2'); [rewrite Eg1; exact E1 | exact Ep1 | |].
    { intros s. rewrite (sd_sc _ _ _ _ _ D1). destruct (Nat.eqb_spec (elab d1) (elab d2)); [contradiction|]. apply C1. }
    cbn [bind]. destruct (stepped_px _ _ _ _ _ _ _ D2' Hs1 Hi1) as (img2 & Hi2 & Sz2 & Px2).
    assert (Eg2 : lg st2 = m) by (rewrite (sd_g _ _ _ _ _ D2'); exact Eg1).
    assert (K1 : lsc st2 (elab d1) = Some s1) by (rewrite (sd_sc _ _ _ _ _ D2'), Nat.eqb_refl; reflexivity).
    assert (K2 : lsc st2 (elab d2) = Some s2).
    { rewrite (sd_sc _ _ _ _ _ D2'). destruct (Nat.eqb_spec (elab d2) (elab d1)); [congruence|]. rewrite (sd_sc _ _ _ _ _ D1), Nat.eqb_refl. reflexivity. }
    pose proof (concat_spec srt Hsrt unit st2 (elab d1) (elab d2) e2 (epts e1) (epts e2) (epts e') rv El) as CS. rewrite Eg2 in CS.
    specialize (CS E2 eq_refl Ep2). rewrite K1, K2 in CS. specialize (CS ltac:(intros s E; congruence) ltac:(intros s E; congruence) J).
    destruct (concatScans srt unit st2 (elab d1) (elab d2) rv) as [st3| | |]; cbn [goodL bind] in *; [ | exact I | destruct CS; congruence | contradiction ].
    destruct CS as (Eg3 & Es3 & Ei3 & Elu3 & Ear3 & Hk3 & Hn3 & Hs3). specialize (Hn3 ltac:(congruence)). destruct (lsc st3 (elab d1)) as [s|] eqn:K3; [|congruence]. specialize (Hs3 s eq_refl).
    destruct (rawAddOf_cached srt unit st3 (elab d1) e1 (-1) img2 s) as (st4 & -> & D4); [congruence | rewrite Eg3; exact E1 | exact K3 | apply Hs3 |].
    cbn [bind]. rewrite <- Ei3 in Hi2. destruct (stepped_px _ _ _ _ _ _ _ D4 Hs3 Hi2) as (img4 & Hi4 & Sz4 & Px4).
    assert (Lsc : forall k, k <> elab d1 -> k <> elab d2 -> lsc st4 k = lsc st k).
    { intros k N1 N2. rewrite (sd_sc _ _ _ _ _ D4). destruct (Nat.eqb_spec k (elab d1)); [contradiction|]. rewrite Hk3 by assumption.
      rewrite (sd_sc _ _ _ _ _ D2'). destruct (Nat.eqb_spec k (elab d1)); [contradiction|]. rewrite (sd_sc _ _ _ _ _ D1). destruct (Nat.eqb_spec k (elab d2)); [contradiction | reflexivity]. }
    destruct (Fin st4 Lsc) as [Fc Fn]. { intros s0. rewrite (sd_sc _ _ _ _ _ D4), Nat.eqb_refl. intros E. injection E as <-. exact Hs3. }
    destruct (li_img _ _ _ L img Hi) as [M Szi Lu Fr Cr] eqn:Eii. pose proof (li_img _ _ _ L img Hi) as II. clear Eii.
    assert (Px : forall x y, insideB img x y = true -> ipx img4 x y = ipx img x y + b2z (crossB (epts e1) x y) + b2z (crossB (epts e2) x y) - b2z (crossB (epts e') x y)).
    { intros x y Hin. assert (I1 : insideB img1 x y = true) by (rewrite (insideB_size _ _ _ _ Sz1); exact Hin). assert (I2 : insideB img2 x y = true) by (rewrite (insideB_size _ _ _ _ Sz2); exact I1).
      rewrite (Px4 x y I2), (Px2 x y I1), (Px1 x y Hin). lia. }
    assert (Cn : forall x y, cnt m' x y = cnt m x y - b2z (crossB (epts e1) x y) - b2z (crossB (epts e2) x y) + b2z (crossB (epts e') x y)).
    { intros x y. unfold LabelImage_Cache.cnt. rewrite Elen. set (n := length (edges m)) in *.
      set (f1 := fun k => if Nat.eqb k (elab d2) then 0 else ind m x y k).
      rewrite (tot_change f1 (ind m' x y) (elab d1) n B1).
      - rewrite (tot_change (ind m x y) f1 (elab d2) n B2); [|intros k _ Nk; unfold f1; destruct (Nat.eqb_spec k (elab d2)); [contradiction | reflexivity]].
        unfold f1. rewrite Nat.eqb_refl. destruct (Nat.eqb_spec (elab d1) (elab d2)); [contradiction|]. unfold LabelImage_Cache.ind. rewrite E1, E2, He, Nat.eqb_refl.
        destruct (Nat.eqb_spec (elab d2) (elab d1)); [congruence|]. lia.
      - intros k _ Nk. unfold f1, LabelImage_Cache.ind. rewrite He, Ea. rewrite (Nat.eqb_sym (elab d2) k), (Nat.eqb_sym (elab d1) k). destruct (Nat.eqb_spec k (elab d2)); [reflexivity|].
        destruct (Nat.eqb_spec k (elab d1)); [contradiction | reflexivity]. }
    assert (Cge : forall x y, b2z (crossB (epts e1) x y) + b2z (crossB (epts e2) x y) <= cnt m x y).
    { intros x y. pose proof (tot_ge2 (ind m x y) (ind_nn srt unit m x y) (length (edges m)) (elab d1) (elab d2) B1 B2 El) as Q. unfold LabelImage_Cache.ind in Q at 1 2. rewrite E1, E2 in Q. exact Q. }
    assert (Sz : sameSize img img4) by (eapply sameSize_trans; [exact Sz1|]; eapply sameSize_trans; eassumption).
    assert (Esz : lsize st4 = lsize st) by (rewrite (sd_size _ _ _ _ _ D4), Es3, (sd_size _ _ _ _ _ D2'), (sd_size _ _ _ _ _ D1); reflexivity).
    assert (Elu : llut st4 = llut st) by (rewrite (sd_lut _ _ _ _ _ D4), Elu3, (sd_lut _ _ _ _ _ D2'), (sd_lut _ _ _ _ _ D1); reflexivity).
    assert (Ear : larea st4 = larea st) by (rewrite (sd_area _ _ _ _ _ D4), Ear3, (sd_area _ _ _ _ _ D2'), (sd_area _ _ _ _ _ D1); reflexivity).
    assert (Zr : forall x y, insideB img x y = true -> (cnt m' x y = 0 <-> cnt m x y = 0)).
    { intros x y Hin. specialize (Cge x y). rewrite Cn. pose proof (cnt_nn srt unit m x y). rewrite JX in *. destruct (crossB (epts e1) x y), (crossB (epts e2) x y); cbn in *; lia. }
    assert (Fl : forall f, fAt m' f <> None <-> fAt m f <> None) by (intros f; unfold fAt; rewrite (mg_faces _ _ _ _ B); apply (facesMoved_live m d2 m0 f Fm)).
    cbn [goodL fst snd]. split; [|split; [reflexivity|]].
    + constructor; cbn [lg lsc lim set_lg]; auto. intros im Him. rewrite Hi4 in Him. injection Him as <-.
      apply (IInv_shift st img m' img4); auto; fold m.
      * rewrite (mg_faces _ _ _ _ B). apply (fm_len _ _ _ Fm).
      * intros x y Hin. rewrite (Px x y Hin), Cn. lia.
    + constructor; cbn [lsize llut larea lim lg set_lg]; auto. rewrite Hi, Hi4. split; [exact Sz|]. split; [|split; [exact Zr | exact Fl]]. intros x y Hin H0. rewrite (Px x y Hin). fold m in H0. specialize (Cge x y).
      rewrite JX. destruct (crossB (epts e1) x y), (crossB (epts e2) x y); cbn in *; lia.
  - rewrite !rawAddOf_off by assumption. cbn [bind]. rewrite rawAddOf_off by assumption. cbn [bind].
    pose proof (concat_spec srt Hsrt unit st (elab d1) (elab d2) e2 (epts e1) (epts e2) (epts e') rv El E2 eq_refl Ep2 C1 C2 J) as CS.
    destruct (concatScans srt unit st (elab d1) (elab d2) rv) as [st3| | |]; cbn [goodL bind] in *; [ | exact I | | contradiction ].
    2:{ split; [reflexivity|]. destruct CS as [CS _]. destruct (lsc st (elab d1)) as [s|] eqn:Q; [exists (elab d1), s; exact Q | congruence]. }
    destruct CS as (Eg3 & Es3 & Ei3 & Elu3 & Ear3 & Hk3 & Hn3 & Hs3). rewrite rawAddOf_off by congruence. cbn [bind goodL fst snd].
    destruct (Fin st3 Hk3 Hs3) as [Fc Fn]. split; [|split; [reflexivity|]].
    + constructor; cbn [lg lsc lim set_lg]; auto. intros im Him. congruence.
    + constructor; cbn [lsize llut larea lim set_lg]; auto. rewrite Ei3, Hi. exact I.
Qed.

(** ** splitEdge *)
Lemma skipn_nth {A} (l : list A) : forall j p, nth_error l j = Some p -> skipn j l = p :: skipn (S j) l.
Proof. induction l as [|a l IH]; intros [|j] p H; cbn in H; try discriminate; [injection H as ->; reflexivity|]. cbn [skipn]. rewrite (IH j p H). reflexivity. Qed.
Lemma firstn_snoc {A} (l : list A) : forall j p, nth_error l j = Some p -> firstn (S j) l = firstn j l ++ [p].
Proof. induction l as [|a l IH]; intros [|j] p H; cbn in H; try discriminate; [injection H as ->; reflexivity|]. cbn [firstn app] in IH |- *. f_equal. apply IH, H. Qed.
Lemma split_cross l k a x y : (0 < k)%nat -> nth_error l k = Some a ->
  (crosses unit l x y <-> crosses unit (fst (splitPts l k)) x y \/ crosses unit (snd (splitPts l k)) x y).
Proof.
  intros Hk Ha. destruct k as [|k]; [lia|]. cbn [splitPts fst snd]. set (n := S k) in *.
  assert (E : l = firstn n l ++ a :: skipn (S n) l).
  { rewrite <- (firstn_skipn n l) at 1. f_equal. apply skipn_nth. exact Ha. }
  assert (E1 : firstn (S n) l = firstn n l ++ [a]) by (apply firstn_snoc; exact Ha).
  assert (E2 : skipn n l = a :: skipn (S n) l) by (apply skipn_nth; exact Ha).
  rewrite E1, E2. rewrite E at 1. apply crosses_join.
Qed.
Lemma insert_cross l k a p b x y : nth_error l k = Some a -> nth_error l (S k) = Some b -> onSegment a p b ->
  (crosses unit (insert_at l (S k) p) x y <-> crosses unit l x y).
Proof.
  intros Ha Hb Ho. destruct (onSegment_between unit a p b Ho) as (t & Ht & Ex & Ey).
  assert (E1 : firstn (S k) l = firstn k l ++ [a]) by (apply firstn_snoc; exact Ha).
  assert (E2 : skipn (S k) l = b :: skipn (S (S k)) l) by (apply skipn_nth; exact Hb).
  assert (E : l = firstn k l ++ a :: b :: skipn (S (S k)) l).
  { rewrite <- (firstn_skipn (S k) l) at 1. rewrite E1, E2, <- app_assoc. reflexivity. }
  unfold insert_at. rewrite E1, E2, <- app_assoc. cbn [app]. rewrite E at 3. unfold crosses. rewrite !map_app. cbn [map].
  apply (meets_insert (inPixel x y) _ _ _ t); auto. apply inPixel_respects.
Qed.

Theorem lsplitEdge_spec hk st l k p ins : LInv st -> lallowed st (LCall hk (OSplitEdge l k p ins)) -> tracked st (LCall hk (OSplitEdge l k p ins)) ->
  goodL False (fun r => LInv (fst r) /\ splitEdge (lg st) l k p ins = Ok (lg (fst r), snd r) /\ untouched st (fst r)) (lsplitEdge srt unit st l k p ins).
Proof.
  intros L [Al Ge] [To Tn]. set (m := lg st) in *. pose proof (Inv_SInv m (li_inv _ _ _ L)) as V. pose proof (li_geo _ _ _ L) as G. fold m in G.
  pose proof Al as Al0. cbn [allowed] in Al0. destruct Al0 as (e & He & Hp). apply isEdge_iff in He. cbn [geometric] in Ge.
  pose proof (splitEdge_spec m l e k p ins V He Hp) as Sp. unfold lsplitEdge. fold m. destruct (splitEdge m l k p ins) as [[m' r]| | |] eqn:Em; cbn [bind] in *; try exact I; try contradiction.
  destruct (step_base srt unit st (Call hk (OSplitEdge l k p ins)) m' L Al Ge) as (I' & G' & M'). { cbn [exec run_op]. fold m. rewrite Em. reflexivity. }
  destruct Sp as (Hk & pos0 & Hpos & Sp). cbn [fst snd] in *.
  set (pts := if ins then insert_at (epts e) (S k) p else epts e) in *. set (k' := if ins then S k else k) in *.
  assert (Hk' : (0 < k')%nat) by (unfold k'; destruct ins; [lia | destruct Ge; [discriminate | assumption]]).
  assert (Hn : nth_error pts k' = Some pos0).
  { unfold pts, k'. destruct ins; [|exact Hpos]. subst pos0. apply nth_insert. lia. }
  pose proof (sp_edge _ _ _ _ _ _ _ _ Sp) as Ee. set (pa := fst (splitPts pts k')) in *. set (pb := snd (splitPts pts k')) in *.
  pose proof (sp_r _ _ _ _ _ _ _ _ Sp) as Er. pose proof (sp_elen _ _ _ _ _ _ _ _ Sp) as Elen.
  assert (Bl : (l < length (edges m))%nat) by (apply tget_lt in He; exact He).
  set (ea := mkEdge (estart e) (length (nodes m)) (elf e) (erf e) pa (eflags e)) in *. set (eb := mkEdge (length (nodes m)) (eend e) (elf e) (erf e) pb (eflags e)) in *.
  assert (Ea : eAt m' l = Some ea) by (rewrite Ee, Nat.eqb_refl; destruct (Nat.eqb_spec r l); [lia | reflexivity]).
  assert (Eb : eAt m' r = Some eb) by (rewrite Ee, Nat.eqb_refl; reflexivity).
  pose proof (Inv_SInv m' I') as V'.
  assert (Pa : pa <> []) by (apply (geo_ne m' l ea); assumption). assert (Pb : pb <> []) by (apply (geo_ne m' r eb); assumption).
  assert (Cl : forall s, lsc st l = Some s -> scans (chain (epts e)) s) by (intros s Hs; apply (li_cache _ _ _ L l); assumption).
  assert (Nlr : l <> r) by lia.
  assert (Fin : forall st4, (forall j, j <> l -> j <> r -> lsc st4 j = lsc st j) -> (forall s, lsc st4 l = Some s -> scans (chain pa) s) -> (forall s, lsc st4 r = Some s -> scans (chain pb) s) ->
    (forall j s e0, lsc st4 j = Some s -> eAt m' j = Some e0 -> scans (chain (epts e0)) s) /\ (forall j, (length (edges m') <= j)%nat -> lsc st4 j = None)).
  { intros st4 Hj Hl Hr. split.
    - intros j s e0 Hs. rewrite Ee. destruct (Nat.eqb_spec r j) as [Q|Q].
      + intros E. injection E as <-. subst j. apply Hr, Hs.
      + destruct (Nat.eqb_spec l j) as [Q1|Q1].
        * intros E. injection E as <-. subst j. apply Hl, Hs.
        * intros E. rewrite Hj in Hs by congruence. apply (li_cache _ _ _ L j); assumption.
    - intros j Hj'. rewrite Hj by lia. apply (li_new _ _ _ L). fold m. lia. }
  destruct (lim st) as [img|] eqn:Hi.
  - destruct (rawAddOf_on srt Hsrt unit st l e 1 img Hi He Hp Cl) as (st1 & s1 & -> & Hs1 & D1). cbn [bind].
    destruct (stepped_px _ _ _ _ _ _ _ D1 Hs1 Hi) as (img1 & Hi1 & Sz1 & Px1).
    set (st2 := set_lsc (set_lg st1 m') (updN (lsc st1) r None)). set (st3 := set_lsc st2 (updN (lsc st2) l None)).
    assert (Hif : ifImage st2 (fun st _ => Ok (set_lsc st (updN (lsc st) l None))) = Ok st3). { unfold ifImage. change (lim st2) with (lim st1). rewrite Hi1. reflexivity. }
    rewrite Hif. cbn [bind].
    destruct (rawAddOf_on srt Hsrt unit st3 l ea (-1) img1 Hi1 Ea Pa) as (st4 & sa & -> & Hsa & D4). { intros s. cbn. unfold updN. rewrite Nat.eqb_refl. discriminate. }
    cbn [bind]. destruct (stepped_px _ _ _ _ _ _ _ D4 Hsa Hi1) as (img4 & Hi4 & Sz4 & Px4).
    assert (Eg4 : lg st4 = m') by apply D4.
    destruct (rawAddOf_on srt Hsrt unit st4 r eb (-1) img4 Hi4) as (st5 & sb & -> & Hsb & D5); [rewrite Eg4; exact Eb | exact Pb | |].
    { intros s. rewrite (sd_sc _ _ _ _ _ D4). cbn. unfold updN. destruct (Nat.eqb_spec r l); [lia|]. rewrite Nat.eqb_refl. discriminate. }
    cbn [bind]. destruct (stepped_px _ _ _ _ _ _ _ D5 Hsb Hi4) as (img5 & Hi5 & Sz5 & Px5).
    assert (Lsc : forall j, j <> l -> j <> r -> lsc st5 j = lsc st j).
    { intros j N1 N2. rewrite (sd_sc _ _ _ _ _ D5). destruct (Nat.eqb_spec j r); [contradiction|]. rewrite (sd_sc _ _ _ _ _ D4). destruct (Nat.eqb_spec j l); [contradiction|].
      cbn. unfold updN. destruct (Nat.eqb_spec j l); [contradiction|]. destruct (Nat.eqb_spec j r); [contradiction|]. rewrite (sd_sc _ _ _ _ _ D1). destruct (Nat.eqb_spec j l); [contradiction | reflexivity]. }
    destruct (Fin st5 Lsc) as [Fc Fn].
    { intros s. rewrite (sd_sc _ _ _ _ _ D5). destruct (Nat.eqb_spec l r); [contradiction|]. rewrite (sd_sc _ _ _ _ _ D4), Nat.eqb_refl. intros E. injection E as <-. exact Hsa. }
    { intros s. rewrite (sd_sc _ _ _ _ _ D5), Nat.eqb_refl. intros E. injection E as <-. exact Hsb. }
    pose proof (li_img _ _ _ L img Hi) as II. pose proof (ii_m _ _ _ _ II) as M.
    assert (X : forall x y, crossB (epts e) x y = crossB pa x y || crossB pb x y).
    { intros x y. apply (crossB_or srt Hsrt). unfold pa, pb. rewrite <- (split_cross pts k' pos0 x y Hk' Hn). unfold pts. destruct ins; [|tauto].
      assert (H1 : exists a, nth_error (epts e) k = Some a) by (destruct (nth_error (epts e) k) eqn:Q; [eauto | apply nth_error_None in Q; lia]).
      assert (H2 : exists b, nth_error (epts e) (S k) = Some b) by (destruct (nth_error (epts e) (S k)) eqn:Q; [eauto | apply nth_error_None in Q; lia]).
      destruct H1 as (a & Ha), H2 as (b & Hb). symmetry. apply (insert_cross (epts e) k a p b); auto. apply (Tn ltac:(discriminate) eq_refl e a b); auto. apply isEdge_iff. exact He. }
    assert (Px : forall x y, insideB img x y = true -> ipx img5 x y = ipx img x y + b2z (crossB (epts e) x y) - b2z (crossB pa x y) - b2z (crossB pb x y)).
    { intros x y Hin. assert (I1 : insideB img1 x y = true) by (rewrite (insideB_size _ _ _ _ Sz1); exact Hin). assert (I4 : insideB img4 x y = true) by (rewrite (insideB_size _ _ _ _ Sz4); exact I1).
      rewrite (Px5 x y I4), (Px4 x y I1), (Px1 x y Hin). cbn [epts ea eb]. lia. }
    assert (Cn : forall x y, cnt m' x y = cnt m x y - b2z (crossB (epts e) x y) + b2z (crossB pa x y) + b2z (crossB pb x y)).
    { intros x y. unfold LabelImage_Cache.cnt. rewrite Elen. cbn [tot]. rewrite (tot_change (ind m x y) (ind m' x y) l _ Bl).
      - unfold LabelImage_Cache.ind. rewrite He, Ea, <- Er, Eb. cbn [epts ea eb]. lia.
      - intros j Bj Nj. unfold LabelImage_Cache.ind. rewrite Ee. destruct (Nat.eqb_spec r j) as [Q|Q].
        + exfalso. lia.
        + destruct (Nat.eqb_spec l j); [congruence | reflexivity]. }
    assert (Cge : forall x y, b2z (crossB (epts e) x y) <= cnt m x y).
    { intros x y. pose proof (tot_ge (ind m x y) (ind_nn srt unit m x y) (length (edges m)) l Bl) as Q. unfold LabelImage_Cache.ind in Q at 1. rewrite He in Q. exact Q. }
    assert (Sz : sameSize img img5) by (eapply sameSize_trans; [exact Sz1|]; eapply sameSize_trans; eassumption).
    assert (Zr : forall x y, insideB img x y = true -> (cnt m' x y = 0 <-> cnt m x y = 0)).
    { intros x y Hin. specialize (Cge x y). rewrite Cn. pose proof (cnt_nn srt unit m x y). rewrite X in *. destruct (crossB pa x y), (crossB pb x y); cbn in *; lia. }
    assert (Fl : forall f, fAt m' f <> None <-> fAt m f <> None) by (intros f; unfold fAt; rewrite (sp_faces _ _ _ _ _ _ _ _ Sp); tauto).
    cbn [goodL fst snd]. assert (Eg5 : lg st5 = m') by (rewrite (sd_g _ _ _ _ _ D5); exact Eg4). split; [|split; [rewrite Eg5; reflexivity|]].
    + constructor; rewrite ?Eg5; auto. intros im Him. rewrite Hi5 in Him. injection Him as <-.
      apply (IInv_shift st img m' img5); auto; fold m.
      * rewrite (sd_size _ _ _ _ _ D5), (sd_size _ _ _ _ _ D4). apply (sd_size _ _ _ _ _ D1).
      * rewrite (sd_lut _ _ _ _ _ D5), (sd_lut _ _ _ _ _ D4). apply (sd_lut _ _ _ _ _ D1).
      * rewrite (sp_faces _ _ _ _ _ _ _ _ Sp). reflexivity.
      * intros x y Hin. rewrite (Px x y Hin), Cn. lia.
    + constructor.
      * rewrite (sd_size _ _ _ _ _ D5), (sd_size _ _ _ _ _ D4). apply (sd_size _ _ _ _ _ D1).
      * rewrite (sd_lut _ _ _ _ _ D5), (sd_lut _ _ _ _ _ D4). apply (sd_lut _ _ _ _ _ D1).
      * rewrite (sd_area _ _ _ _ _ D5), (sd_area _ _ _ _ _ D4). apply (sd_area _ _ _ _ _ D1).
      * rewrite Hi, Hi5, Eg5. split; [exact Sz|]. split; [|split; [exact Zr | exact Fl]]. intros x y Hin H0. rewrite (Px x y Hin). fold m in H0. specialize (Cge x y). rewrite X in *. destruct (crossB pa x y), (crossB pb x y); cbn in *; lia.
  - rewrite rawAddOf_off by assumption. cbn [bind]. unfold ifImage at 1. cbn [lim set_lsc set_lg]. rewrite Hi. cbn [bind]. rewrite !rawAddOf_off by assumption. cbn [bind].
    rewrite rawAddOf_off by assumption. cbn [bind goodL fst snd]. specialize (To eq_refl).
    set (st4 := set_lsc (set_lg st m') (updN (lsc st) r None)). destruct (Fin st4) as [Fc Fn].
    { intros j N1 N2. cbn. unfold updN. destruct (Nat.eqb_spec j r); [contradiction | reflexivity]. }
    { intros s. cbn. unfold updN. destruct (Nat.eqb_spec l r); [contradiction|]. rewrite To. discriminate. }
    { intros s. cbn. unfold updN. rewrite Nat.eqb_refl. discriminate. }
    split; [|split; [reflexivity|]].
    + constructor; auto. intros im Him. cbn in Him. congruence.
    + constructor; try reflexivity. cbn. rewrite Hi. exact I.
Qed.
End Steps.
