(** Vetoes, mergeFaces, geometry and area results. *)
From Verif Require Import Base Orbit GraphRank Euler Links FaceInv Conj
  GeoMap_Model GeoMap_Views GeoMap_SInv GeoMap_Remove GeoMap_MergeEdges GeoMap_SplitEdge GeoMap_Loops GeoMap_MInv
  GeoMap_Gone GeoMap_Bridge GeoMap_MergeFaces GeoMap_Subdiv GeoMap_Init GeoMap_Area GeoMap_Embed GeoMap_Initialize GeoMap_Sort
  GeoMap_History GeoMap_Geometry GeoMap_AreaInv GeoMap_Spec GeoMap_Facts GeoMap_Results.
Local Open Scope Z_scope.

(** ** C05 *)

Lemma faceArea_val m l f v : fAt m l = Some f ->
  ((exists m1, faceArea m l = Ok (m1, v)) <-> match farea f with Some a => v = a | None => sumAreas m (fanchors f) = Ok v end).
Proof.
  intros Hf. unfold faceArea. rewrite (deref_face _ _ _ Hf). cbn [bind]. destruct (farea f) as [a|].
  - split; [intros (m1 & E); congruence | intros ->; eauto].
  - destruct (sumAreas m (fanchors f)) as [w| | |]; cbn [bind]; split; try discriminate; try (intros (m1 & E); discriminate).
    + intros (m1 & E). congruence.
    + intros E. injection E as <-. eauto.
Qed.

Lemma faceP_len m m' l : length (faces m') = length (faces m) ->
  (forall f f', fAt m l = Some f -> fAt m' l = Some f' -> fflags f' = fflags f /\ Forall2 (sameContour m) (fanchors f) (fanchors f') /\
      (forall v, (exists m1, faceArea m' l = Ok (m1, v)) <-> (exists m1, faceArea m l = Ok (m1, v)))) ->
  (fAt m l = None <-> fAt m' l = None) ->
  match faceP m l, faceP m' l with
     | Ok (Some f), Ok (Some f') => fflags f' = fflags f /\ Forall2 (sameContour m) (fanchors f) (fanchors f') /\
          (forall v, (exists m1, faceArea m' l = Ok (m1, v)) <-> (exists m1, faceArea m l = Ok (m1, v)))
     | Ok None, Ok None => True
     | Exn, Exn => True
     | _, _ => False
     end.
Proof.
  intros HL H1 H2. unfold faceP. unfold fAt, tget in *.
  destruct (nth_error (faces m) l) as [o|] eqn:E1, (nth_error (faces m') l) as [o'|] eqn:E2.
  - destruct o as [f|], o' as [f'|]; auto; [destruct H2 as [_ H2] | destruct H2 as [H2 _]]; specialize (H2 eq_refl); discriminate.
  - apply nth_error_None in E2. assert (l < length (faces m))%nat by (apply nth_error_Some; congruence). lia.
  - apply nth_error_None in E1. assert (l < length (faces m'))%nat by (apply nth_error_Some; congruence). lia.
  - exact I.
Qed.

Lemma sameObs_refl m : Inv m -> sameObservations m m.
Proof.
  intros HI. constructor; auto. intros l. apply faceP_len; auto; [|tauto].
  intros f f' E1 E2. assert (f' = f) by congruence. subst f'. split; [reflexivity|]. split; [|tauto].
  apply Forall2_same. intros a _. exists 0%nat. reflexivity.
Qed.

Lemma sameObs_cached m mc : cached m mc -> sameObservations m mc.
Proof.
  intros C. pose proof (ca_eq _ _ C) as E. constructor; try (intros; rewrite E; reflexivity).
  - rewrite E. auto.
  - intros l. pose proof (ca_face _ _ C l) as K. apply faceP_len; [apply C | |].
    + intros f f' E1 E2. rewrite E1, E2 in K. destruct K as (K1 & K2 & K3). split; [assumption|]. split.
      * rewrite K1. apply Forall2_same. intros a _. exists 0%nat. reflexivity.
      * intros v. rewrite (faceArea_val mc l f' v E2), (faceArea_val m l f v E1).
        assert (X : sumAreas mc (fanchors f') = sumAreas m (fanchors f)).
        { rewrite K1. apply sumAreas_ext; rewrite E; reflexivity. }
        rewrite X. destruct K3 as [K3|(K3 & w & K4 & K5)].
        -- rewrite K3. tauto.
        -- rewrite K3, K4, K5. split; congruence.
    + destruct (fAt m l), (fAt mc l); try contradiction; split; congruence.
Qed.

Lemma sameObs_moved m d2 m0 : Inv m -> facesMoved m d2 m0 -> sameObservations m m0.
Proof.
  intros [G|M] FM.
  - rewrite (fm_nil m d2 m0 (gp_f _ G) FM). apply sameObs_refl. left; assumption.
  - pose proof (fm_MInv m d2 m0 M FM) as M0. pose proof (fm_eq _ _ _ FM) as E.
    constructor; try (intros; rewrite E; reflexivity).
    + rewrite E. auto.
    + intros l. pose proof (fm_face _ _ _ FM l) as K. apply faceP_len; [apply FM | |].
      * intros f f' E1 E2. rewrite E1, E2 in K. destruct K as (K1 & K2 & K3). split; [assumption|]. split.
        -- assert (HA : forall a, In a (fanchors f) -> In a (darts m)).
           { intros a Ha. apply (fi_anchor _ _ _ _ (mi_f _ M) l (fanchors f) a); auto. unfold fanch. rewrite E1. reflexivity. }
           unfold movedOff in K3. clear -K3 HA M. induction K3 as [|a b A B [H _] K IH]; [constructor|]. constructor.
           ++ apply reaches_phi; [apply (sv_si _ (mi_v _ M)) | apply HA; left; reflexivity | assumption].
           ++ apply IH. intros x Hx. apply HA. right; assumption.
        -- intros v. rewrite (faceArea_val m0 l f' v E2), (faceArea_val m l f v E1), K1.
           rewrite (sumAreas_faceSum m l f M E1), (sumAreas_faceSum m0 l f' M0 E2).
           rewrite (faceSum_edges m m0 l) by (rewrite E; reflexivity). tauto.
      * destruct (fAt m l), (fAt m0 l); try contradiction; split; congruence.
Qed.

Lemma Inv_FI m : Inv m -> faces m = [] \/ FIm m.
Proof. intros [G|M]; [left; apply G | right; apply M]. Qed.

Lemma leftLabel_GP m d e : GP m -> eAt m (elab d) = Some e -> d <> 0 -> e_lf e d = None.
Proof.
  intros G He Hd. assert (HD : In d (darts m)) by (apply in_darts; split; congruence).
  pose proof (gp_l _ G d HD) as K. unfold lft in K. rewrite He in K. exact K.
Qed.

Lemma removeBridge_GP hk m d : GP m -> removeBridge hk m d = Exn.
Proof.
  intros G. unfold removeBridge. destruct (eAt m (elab d)) as [e|] eqn:He.
  - rewrite (require_edge _ _ _ He). cbn [bind]. assert (Hd : In d (darts m)) by (apply eAt_zero; [apply G | congruence]).
    rewrite (leftLabel_Ok m d Hd). cbn [bind]. rewrite (gp_l _ G d Hd). reflexivity.
  - rewrite (require_edge_None _ _ He). reflexivity.
Qed.
Lemma mergeFaces_GP hk m d : GP m -> mergeFaces hk m d = Exn.
Proof.
  intros G. unfold mergeFaces. destruct (eAt m (elab d)) as [e|] eqn:He.
  - rewrite (require_edge _ _ _ He). cbn [bind]. assert (Hd : In d (darts m)) by (apply eAt_zero; [apply G | congruence]).
    unfold pickDart. rewrite (leftLabel_Ok m d Hd), (rightLabel_Ok m d Hd). cbn [bind]. rewrite (gp_l _ G d Hd). reflexivity.
  - rewrite (require_edge_None _ _ He). reflexivity.
Qed.

Theorem vetoed_unchanged m m' : history anyCall m ->
  (forall hk d, mergeEdges hk m d = Ok (m', None) -> sameObservations m m') /\
  (forall hk d, removeBridge hk m d = Ok (m', None) -> sameObservations m m') /\
  (forall hk d, mergeFaces hk m d = Ok (m', None) -> sameObservations m m') /\
  (forall hk l, removeIsolatedNode hk m l = Ok (m', false) -> sameObservations m m').
Proof.
  intros H. pose proof (history_Inv _ m H) as HI. split; [|split; [|split]].
  - intros hk d E. pose proof (mergeEdges_spec hk m d (Inv_SInv m HI) (Inv_FI m HI)) as G. rewrite E in G.
    destruct G as (d1 & d2 & m0 & _ & FM & _ & [(_ & _ & K)|(_ & K & _)]); cbn in K; [|discriminate]. subst m'.
    apply (sameObs_moved m d2); assumption.
  - intros hk d E. destruct HI as [G|M]; [rewrite (removeBridge_GP hk m d G) in E; discriminate|].
    pose proof (removeBridge_spec hk m d M) as G. rewrite E in G. destruct G as (_ & fl & _ & _ & _ & [(_ & _ & K)|(_ & K & _)]); cbn in K; [|discriminate].
    subst m'. apply sameObs_refl. right; assumption.
  - intros hk d E. destruct HI as [G|M]; [rewrite (mergeFaces_GP hk m d G) in E; discriminate|].
    pose proof (mergeFaces_spec hk m d M) as G. rewrite E in G. destruct G as (_ & mc & d' & s & mm & C & _ & _ & _ & _ & [(_ & _ & K)|(_ & K & _)]); cbn in K; [|discriminate].
    subst m'. apply sameObs_cached; assumption.
  - intros hk l E. unfold removeIsolatedNode in E. destruct (deref (nodeP m l)); cbn [bind] in E; try discriminate.
    destruct (hkNode hk m l); injection E as <-; [discriminate|]. apply sameObs_refl; assumption.
Qed.

Theorem veto_refuses m hk : history anyCall m -> refusing hk ->
  (forall d m' r, mergeEdges hk m d = Ok (m', r) -> r = None) /\
  (forall d m' r, removeBridge hk m d = Ok (m', r) -> r = None) /\
  (forall d m' r, mergeFaces hk m d = Ok (m', r) -> r = None) /\
  (forall l m' r, removeIsolatedNode hk m l = Ok (m', r) -> r = false).
Proof.
  intros H (R1 & R2 & R3 & R4). pose proof (history_Inv _ m H) as HI. split; [|split; [|split]].
  - intros d m' r E. pose proof (mergeEdges_spec hk m d (Inv_SInv m HI) (Inv_FI m HI)) as G. rewrite E in G.
    destruct G as (d1 & d2 & m0 & _ & FM & _ & [(_ & K & _)|(K & _)]); cbn in K; [assumption|]. rewrite R2 in K. discriminate.
  - intros d m' r E. destruct HI as [G|M]; [rewrite (removeBridge_GP hk m d G) in E; discriminate|].
    pose proof (removeBridge_spec hk m d M) as G. rewrite E in G. destruct G as (_ & fl & _ & _ & _ & [(_ & K & _)|(K & _)]); cbn in K; [assumption|]. congruence.
  - intros d m' r E. destruct HI as [G|M]; [rewrite (mergeFaces_GP hk m d G) in E; discriminate|].
    pose proof (mergeFaces_spec hk m d M) as G. rewrite E in G. destruct G as (_ & mc & d' & s & mm & C & _ & _ & _ & _ & [(_ & K & _)|(K & _)]); cbn in K; [assumption|].
    congruence.
  - intros l m' r E. unfold removeIsolatedNode in E. destruct (deref (nodeP m l)); cbn [bind] in E; try discriminate. rewrite R1 in E. congruence.
Qed.

(** exactly when the operations are performed *)
Theorem performed_iff m hk : history anyCall m -> accepting hk ->
  (forall d, (exists m' l, mergeEdges hk m d = Ok (m', Some l)) <->
     isDart m d /\ exists d2, nextSigma m d = Ok d2 /\ elab d2 <> elab d /\ nextSigma m d2 = Ok d) /\
  (initialised m ->
   (forall d, (exists m' l, removeBridge hk m d = Ok (m', Some l)) <->
     isDart m d /\ leftLabel m d = rightLabel m d /\ startLabel m d <> endLabel m d) /\
   (forall d, (exists m' l, mergeFaces hk m d = Ok (m', Some l)) <->
     isDart m d /\ leftLabel m d <> rightLabel m d)).
Proof.
  intros H (R1 & R2 & R3 & R4). pose proof (history_Inv _ m H) as HI. pose proof (Inv_SInv m HI) as V. pose proof (sv_si _ V) as HS. split.
  - intros d. pose proof (mergeEdges_full hk m d V (Inv_FI m HI)) as G.
    assert (Q : In d (darts m) -> nextSigma m d = Ok (sg m d) /\ In (sg m d) (darts m)) by (apply sigma_next; assumption).
    split.
    + intros (m' & l & E). rewrite E in G. cbn in G. destruct G as (d1 & d2 & m0 & G2 & _ & E12 & _).
      assert (X : In d (darts m) /\ elab (sg m d) <> elab d /\ sg m (sg m d) = d).
      { pose proof (elab12 m d1 d2 G2) as K. destruct G2 as [A1 A2 A3 A4 A5 A6]. destruct (_ && _)%bool in E12; injection E12 as E1 E2.
        - rewrite <- E1, <- E2. auto.
        - rewrite <- E2, <- E1. split; [assumption|]. split; [congruence | assumption]. }
      destruct X as (X1 & X2 & X3). split; [apply isDart_iff; assumption|]. destruct (Q X1) as [Q1 Q2].
      exists (sg m d). split; [assumption|]. split; [assumption|]. rewrite <- X3 at 2. apply sigma_next; assumption.
    + intros (Hd & d2 & E1 & E2 & E3). apply isDart_iff in Hd. destruct (Q Hd) as [Q1 Q2]. rewrite Q1 in E1. injection E1 as <-.
      destruct (sigma_next m HS (sg m d) Q2) as [Q3 _]. rewrite Q3 in E3. injection E3 as E3.
      destruct (mergeEdges hk m d) as [[m' r]| | |]; cbn in G; try contradiction.
      * destruct G as (d1 & d2 & m0 & _ & _ & _ & [(K & _)|(_ & K & _)]).
        -- rewrite R1, R2 in K. discriminate.
        -- subst. eauto.
      * exfalso. tauto.
  - intros Hi. assert (M : MInv m) by (apply (history_MInv anyCall); assumption). split; intros d.
    + pose proof (removeBridge_full hk m d M) as G. split.
      * intros (m' & l & E). rewrite E in G. cbn in G. destruct G as (Hd & fl & E1 & E2 & E3 & _). split; [apply isDart_iff; assumption|].
        rewrite leftLabel_Ok, rightLabel_Ok, startLabel_Ok, endLabel_Ok by assumption. split; congruence.
      * intros (Hd & E1 & E2). apply isDart_iff in Hd. rewrite leftLabel_Ok, rightLabel_Ok in E1 by assumption. rewrite startLabel_Ok, endLabel_Ok in E2 by assumption.
        destruct (removeBridge hk m d) as [[m' r]| | |]; cbn in G; try contradiction.
        -- destruct G as (_ & fl & _ & _ & _ & [(K & _)|(_ & K & _)]); [congruence|]. subst; eauto.
        -- exfalso. destruct G as [G|[G|G]]; congruence.
    + pose proof (mergeFaces_full hk m d M) as G. split.
      * intros (m' & l & E). rewrite E in G. cbn in G. destruct G as (Hd & mc & d' & s & mm & _ & Sv & E1 & E2 & E3 & _). split; [apply isDart_iff; assumption|].
        rewrite leftLabel_Ok, rightLabel_Ok by assumption. destruct Sv as (l1 & r1 & _ & _ & _ & _ & F1 & F2 & _ & _ & _ & _ & [(-> & -> & ->)|(-> & -> & ->)] & _); congruence.
      * intros (Hd & E1). apply isDart_iff in Hd. rewrite leftLabel_Ok, rightLabel_Ok in E1 by assumption.
        destruct (mergeFaces hk m d) as [[m' r]| | |]; cbn in G; try contradiction.
        -- destruct G as (_ & mc & d' & s & mm & _ & _ & _ & _ & _ & [(K & _)|(_ & K & _)]); [congruence|]. subst; eauto.
        -- exfalso. destruct G as [G|G]; congruence.
Qed.

(** ** C06 *)

(** Face::area() of the face stored under a label *)
Definition reportedArea m l v : Prop := exists m1, faceArea m l = Ok (m1, v).

Theorem mergeFaces_result m hk d m' s : history anyCall m -> initialised m -> mergeFaces hk m d = Ok (m', Some s) ->
  exists l r vl vr mm, leftLabel m d = Ok (Some l) /\ rightLabel m d = Ok (Some r) /\ l <> r /\
    reportedArea m l vl /\ reportedArea m r vr /\
    s = (if Nat.eqb l 0 then l else if Nat.eqb r 0 then r else if vl <? vr then r else l) /\
    mm = (if Nat.eqb s l then r else l) /\ mm <> 0%nat /\
    faceP m' mm = Ok None /\ (exists f, isFace m' s f) /\ faceCount m' = faceCount m - 1 /\
    (forall k, k <> s -> k <> mm -> (exists f, isFace m k f) <-> (exists f, isFace m' k f)) /\
    (forall x, isDart m' x <-> isDart m x /\ elab x <> elab d) /\
    (forall x k, isDart m' x -> leftLabel m x = Ok (Some k) -> leftLabel m' x = Ok (Some (if Nat.eqb k mm then s else k))) /\
    (forall x, isDart m' x -> (leftLabel m' x = Ok (Some s) <-> leftLabel m x = Ok (Some s) \/ leftLabel m x = Ok (Some mm))).
Proof.
  intros H Hi E. assert (M : MInv m) by (apply (history_MInv anyCall); assumption). pose proof (mergeFaces_spec hk m d M) as G. rewrite E in G.
  destruct G as (Hd & mc & d' & s' & mm & C & Sv & El & Er & Hne & [(_ & K & _)|(_ & K & FM)]); cbn in K; [discriminate|]. cbn [fst] in FM.
  injection K as <-.
  destruct Sv as (l & r & fl & fr & vl & vr & L1 & L2 & F1 & F2 & A1 & A2 & Hc & Hs).
  assert (Hd0 : d <> 0) by (apply in_darts in Hd; tauto).
  destruct (Hs Hne) as (Hm & Hs1 & Hs2).
  destruct (cached_views _ _ C) as (ED & _ & _ & Elf & _).
  assert (RA : forall k f v, fAt mc k = Some f -> farea f = Some v -> reportedArea m k v).
  { intros k f v Hk Hv. pose proof (ca_face _ _ C k) as K. rewrite Hk in K. destruct (fAt m k) as [f0|] eqn:E0; [|contradiction].
    apply (faceArea_val m k f0 v E0). destruct K as (_ & _ & [K|(K & w & K1 & K2)]); [rewrite <- K, Hv; reflexivity|]. rewrite K, K2. congruence. }
  assert (Hel : elab d' = elab d) by (destruct Hc as [(-> & _)|(-> & _)]; [reflexivity | apply elab_opp]).
  assert (Hlr : l <> r) by (destruct Hc as [(_ & -> & ->)|(_ & -> & ->)]; congruence).
  assert (HDm : forall x, isDart m' x <-> isDart m x /\ elab x <> elab d).
  { intros x. rewrite !isDart_iff, (eg_darts _ _ _ (mf_gone _ _ _ _ _ FM)), in_rest, ED, <- Hel. split; intros (X1 & X2).
    - split; [assumption|]. intros Ex. apply elab_eq in Ex. tauto.
    - split; [assumption|]. split; intros ->; apply X2; [reflexivity | apply elab_opp]. }
  assert (HLf : forall x, isDart m' x -> exists k, leftLabel m x = Ok (Some k) /\ leftLabel m' x = Ok (Some (if Nat.eqb k mm then s else k))).
  { intros x Hx. pose proof (proj1 (proj1 (HDm x) Hx)) as Hx0. apply isDart_iff in Hx. apply isDart_iff in Hx0.
    rewrite (leftLabel_Ok m x Hx0), (leftLabel_Ok m' x Hx), (mf_lft _ _ _ _ _ FM x Hx), Elf.
    destruct (fi_cover _ _ _ _ (mi_f _ M) x Hx0) as (k & _ & _ & -> & _). eauto. }
  destruct (mf_f _ _ _ _ _ FM) as (sf & f2 & c1 & c2 & a1 & a2 & sa & ar & G1 & G2 & _ & _ & _ & _ & _ & G8 & _).
  assert (FX : forall k, fAt m' k = if Nat.eqb mm k then None else if Nat.eqb s k then Some (mkFace (sa ++ remove_nth (fanchors f2) c2) ar (fflags sf)) else fAt mc k).
  { intros k. unfold fAt. rewrite G8. rewrite tget_upd_None. destruct (Nat.eqb mm k); [reflexivity|].
    apply tget_lt in G1. unfold tget. destruct (Nat.eqb_spec s k) as [->|Nk]; [rewrite nth_error_upd_eq by assumption; reflexivity | rewrite nth_error_upd_neq by congruence; reflexivity]. }
  exists l, r, vl, vr, mm.
  rewrite (leftLabel_Ok m d Hd), (rightLabel_Ok m d Hd), L1, L2.
  split; [reflexivity|]. split; [reflexivity|]. split; [assumption|].
  split; [apply (RA l fl); assumption|]. split; [apply (RA r fr); assumption|]. split.
  { destruct Hc as [(-> & -> & ->)|(-> & -> & ->)].
    - destruct (Nat.eqb_spec l 0); [reflexivity|]. destruct (Nat.eqb_spec r 0); [contradiction|].
      destruct (Hs1 eq_refl) as [X|X]; [|contradiction]. destruct (Z.ltb_spec vl vr); [lia | reflexivity].
    - destruct (Nat.eqb_spec l 0); [contradiction|]. destruct (Nat.eqb_spec r 0); [reflexivity|].
      destruct (Hs2 eq_refl) as [X|X]; [|contradiction]. destruct (Z.ltb_spec vl vr); [reflexivity | lia]. }
  split. { destruct Hc as [(-> & -> & ->)|(-> & -> & ->)]; [rewrite Nat.eqb_refl; reflexivity|]. destruct (Nat.eqb_spec r l); [congruence | reflexivity]. }
  split; [assumption|]. split.
  { unfold faceP. rewrite G8. apply tget_lt in G2.
    rewrite nth_error_upd_eq; [reflexivity | rewrite list_upd_length; assumption]. }
  split. { eexists. apply isFace_iff. rewrite FX. destruct (Nat.eqb_spec mm s); [congruence|]. rewrite Nat.eqb_refl. reflexivity. }
  split. { rewrite (mf_fc _ _ _ _ _ FM). rewrite (ca_eq _ _ C). reflexivity. }
  split. { intros k N1 N2. assert (Ek : fAt m' k = fAt mc k) by (rewrite FX; destruct (Nat.eqb_spec mm k); [congruence|]; destruct (Nat.eqb_spec s k); [congruence | reflexivity]).
    pose proof (ca_face _ _ C k) as Kc. split; intros (f & Hf); apply isFace_iff in Hf.
    - rewrite Hf in Kc. destruct (fAt mc k) as [f'|] eqn:E'; [|contradiction]. exists f'. apply isFace_iff. congruence.
    - rewrite Ek in Hf. rewrite Hf in Kc. destruct (fAt m k) as [f'|] eqn:E'; [|contradiction]. exists f'. apply isFace_iff. assumption. }
  split; [exact HDm|]. split.
  - intros x k Hx Hk. destruct (HLf x Hx) as (k' & K1 & K2). rewrite K1 in Hk. injection Hk as <-. assumption.
  - intros x Hx. destruct (HLf x Hx) as (k' & K1 & K2). rewrite K1, K2. destruct (Nat.eqb_spec k' mm) as [->|N].
    + split; auto.
    + split; [intros X; left; assumption|]. intros [X|X]; congruence.
Qed.

(** ** C09, C10 *)

Theorem end_points m d : history geometric m -> isDart m d ->
  exists ps n p, ptsOf m d ps /\ (2 <= length ps)%nat /\ startLabel m d = Ok n /\ posOf m n = Some p /\ hd_error ps = Some p.
Proof.
  intros H Hd. pose proof (history_geo geometric m (fun _ _ K => K) H) as Hg. apply isDart_iff in Hd.
  destruct (Hg d Hd) as [P1 P2]. pose proof (si_node _ _ (sv_si _ (Inv_SInv m (history_Inv _ m H))) d Hd) as N.
  exists (dpts m d), (stt m d). rewrite posOf_eq. unfold pos in *. destruct (nAt m (stt m d)) as [nd|]; [|contradiction].
  exists (npos nd). split; [apply ptsOf_iff; auto|]. split; [assumption|]. split; [apply startLabel_Ok; assumption|]. auto.
Qed.

Theorem area_is_enclosed m l f : history geometricStraight m -> isFace m l f ->
  exists v, reportedArea m l v /\ enclosedArea m f v /\ (forall w, reportedArea m l w -> w = v).
Proof.
  intros H Hf. pose proof (history_area m H) as A. apply isFace_iff in Hf.
  destruct (history_Inv _ m H) as [G|M]; [unfold fAt in Hf; rewrite (gp_f _ G) in Hf; destruct l; discriminate|].
  exists (faceSum m l).
  assert (X : forall w, reportedArea m l w <-> w = faceSum m l).
  { intros w. unfold reportedArea. rewrite (faceArea_val m l f w Hf). destruct (farea f) as [a|] eqn:Ea.
    - rewrite (A l f a Hf Ea). tauto.
    - rewrite (sumAreas_faceSum m l f M Hf). split; congruence. }
  split; [apply X; reflexivity|]. split; [apply (enclosed_iff m l f _ (sv_si _ (mi_v _ M)) (mi_f _ M) Hf); reflexivity|].
  intros w Hw. apply X; assumption.
Qed.

(** ** C41: no access outside the tables, no loop without end *)

Theorem calls_defined m c : history anyCall m -> allowed m c -> exec m c = Exn \/ exists m', exec m c = Ok m'.
Proof.
  intros H Hc. pose proof (exec_good m c (history_Inv _ m H) Hc) as G. destruct (exec m c); cbn in G; eauto; contradiction.
Qed.
