(** Histories of calls: every operation maps valid states to valid states. *)
From Verif Require Import Base Orbit GraphRank Euler Links FaceInv Conj
  GeoMap_Model GeoMap_Views GeoMap_SInv GeoMap_Remove GeoMap_MergeEdges GeoMap_SplitEdge GeoMap_Loops GeoMap_MInv
  GeoMap_Gone GeoMap_Bridge GeoMap_MergeFaces GeoMap_Subdiv GeoMap_Init GeoMap_Area GeoMap_Embed GeoMap_Initialize GeoMap_Sort GeoMap_Flags GeoMap_Move.
Local Open Scope Z_scope.

(** graph construction phase *)
Record GP m : Prop := {
  gp_v : SInv m;
  gp_f : faces m = [];
  gp_l : forall x, In x (darts m) -> lft m x = None }.

Definition Inv m : Prop := GP m \/ MInv m.

Lemma Inv_SInv m : Inv m -> SInv m.
Proof. intros [G|M]; [apply G | apply M]. Qed.

(** Arguments that exist: the preconditions of the C++ signatures (references to
    live cells) which the functions do not check themselves. *)
Definition op_ok m (o : op) : Prop :=
  match o with
  | OAddEdge s e _ _ => sa_ok m s /\ sa_ok m e
  | OSplitEdge l _ _ _ => exists e, eAt m l = Some e /\ epts e <> []
  | ORemoveIsolatedNode l => exists n, nAt m l = Some n /\ nanchor n = 0
  | ORemoveEdge d => In d (darts m)
  | OFaceArea l => fAt m l <> None
  | OSetFlag l _ _ => exists e, eAt m l = Some e
  | OSetPosition l _ => (exists nd, nAt m l = Some nd) /\ forall k e, eAt m k = Some e -> estart e = l \/ eend e = l -> epts e <> []
  | OSetSigma f _ _ => sigma_ok m f
  | _ => True
  end.

(** ** What a call can do to the map *)
Inductive eff : op -> gmap -> gmap -> Prop :=
| ef_same o m : eff o m m
| ef_node o m p l : eff o m (fst (addNodeL m p l))
| ef_edge m sa ea pts lab r : sa_ok m sa -> sa_ok m ea -> addEdge m sa ea pts lab = Ok r ->
    eff (OAddEdge sa ea pts lab) m (fst r)
| ef_gdel o m hk d m' : faces m = [] -> In d (darts m) -> removeEdge hk m d = Ok (m', None) -> eff o m m'
| ef_moved o m d1 d2 m0 : Deg2 m d1 d2 -> facesMoved m d2 m0 -> eff o m m0
| ef_merged o m d1 d2 m' : Deg2 m d1 d2 ->
    (forall l f a, fAt m l = Some f -> In a (fanchors f) -> In a (rest m d2)) -> Merged m d1 d2 m' -> eff o m m'
| ef_split m l k p (ins : bool) e pos m' r : eAt m l = Some e -> (k < length (epts e) - 1)%nat ->
    (if ins then pos = p else nth_error (epts e) k = Some pos) ->
    Split m l e (if ins then S k else k) pos (if ins then insert_at (epts e) (S k) p else epts e) m' r ->
    eff (OSplitEdge l k p ins) m m'
| ef_bridge o m d fl m' : In d (darts m) -> lft m d = Some fl -> lft m (- d) = Some fl -> stt m d <> stt m (- d) ->
    Bridged m d fl m' -> eff o m m'
| ef_cached o m m' : cached m m' -> eff o m m'
| ef_fmerged o m d s mm m' : In d (darts m) -> lft m d = Some s -> lft m (- d) = Some mm -> s <> mm -> mm <> 0%nat ->
    (exists f v, fAt m s = Some f /\ farea f = Some v) -> FMerged m d s mm m' -> eff o m m'
| ef_iso o m l n : nAt m l = Some n -> nanchor n = 0 -> eff o m (uninitNode m l)
| ef_flag o m m' : flagged m m' -> eff o m m'
| ef_pos m l p m' : Repos m l p m' -> eff (OSetPosition l p) m m'
| ef_sort o m m' : faces m = [] -> resorted m m' -> eff o m m'
| ef_sigma o m m' srt : faces m = [] -> SInv m' ->
    m' = mkMap (sg m') (sgi m') (cap m) (nodes m) (edges m) (faces m) (nodeCount m) (edgeCount m) (faceCount m) srt ->
    eff o m m'.

Definition single (o : op) : Prop := match o with OAddEdge _ _ _ _ | OSplitEdge _ _ _ _ | OSetPosition _ _ => True | _ => False end.
Definition effs o m m' : Prop := eff o m m' \/ (~ single o /\ exists m1, eff o m m1 /\ eff o m1 m').

Lemma good_fst {A B} (P : A -> Prop) (r : res (A * B)) : good (fun x => P (fst x)) r -> good P (x <- r ;; Ok (fst x)).
Proof. destruct r; exact (fun H => H). Qed.

Lemma mergeFaces_effs hk m d o : MInv m -> ~ single o -> good (fun r => effs o m (fst r)) (mergeFaces hk m d).
Proof.
  intros M So. eapply good_mono; [apply (mergeFaces_spec hk m d M)|].
  intros [m' r] (Hd & mc & d' & s & mm & C & Hsv & H1 & H2 & Hne & [(_ & _ & E)|(_ & _ & F)]); cbn [fst] in *.
  - subst. left. apply ef_cached; assumption.
  - right. split; [assumption|]. exists mc. split; [apply ef_cached; assumption|].
    destruct (cached_views _ _ C) as (Vd & _ & _ & Vl & _).
    destruct Hsv as (l & r0 & fl & fr & vl & vr & _ & _ & Hfl & Hfr & Hvl & Hvr & Hcase & Hn). destruct (Hn Hne) as (H0 & _).
    apply (ef_fmerged o mc d' s mm); auto.
    + rewrite Vd. destruct Hcase as [(-> & _)|(-> & _)]; [|apply darts_opp]; assumption.
    + rewrite Vl; assumption.
    + rewrite Vl; assumption.
    + destruct Hcase as [(_ & -> & _)|(_ & -> & _)]; eauto.
Qed.

Lemma removeBridge_effs hk m d o : MInv m -> good (fun r => effs o m (fst r)) (removeBridge hk m d).
Proof.
  intros M. eapply good_mono; [apply (removeBridge_spec hk m d M)|].
  intros [m' r] (Hd & fl & H1 & H2 & Hne & [(_ & _ & E)|(_ & _ & F)]); cbn [fst] in *.
  - subst. left. apply ef_same.
  - left. apply (ef_bridge o m d fl); assumption.
Qed.

Lemma addNode_L m p : addNode m p = addNodeL m p 0.
Proof. unfold addNodeL. cbn [Nat.sub repeat]. rewrite app_nil_r. destruct m; reflexivity. Qed.

Lemma faces_len_nil m : length (faces m) = 0%nat -> faces m = [].
Proof. destruct (faces m); [reflexivity | discriminate]. Qed.

Theorem run_op_effs hk m o : Inv m -> op_ok m o -> good (effs o m) (run_op hk m o).
Proof.
  intros HI Ho. pose proof (Inv_SInv m HI) as V. destruct o; cbn [run_op op_ok] in *.
  - left. rewrite addNode_L. apply ef_node.
  - left. apply ef_node.
  - apply good_fst. destruct Ho as [H1 H2]. pose proof (addEdge_inv m s e pts l V H1 H2) as G.
    destruct (addEdge m s e pts l) as [r| | |] eqn:E; cbn in *; auto. left. apply (ef_edge m s e pts l r); assumption.
  - apply good_fst. unfold removeEdge. destruct HI as [G|M].
    + destruct (removeEdge_graph_inv hk m d V (gp_f _ G) Ho) as (m' & R & _). pose proof R as R0. unfold removeEdge in R. rewrite R.
      cbn. left. apply (ef_gdel _ m hk d m'); auto. apply G.
    + destruct (Nat.eqb_spec (length (faces m)) 0) as [E|N].
      { exfalso. apply (mi_0 _ M). unfold fAt. rewrite (faces_len_nil m E). reflexivity. }
      cbn [negb]. destruct (live_edge m d Ho) as (e & Ee). rewrite (deref_edge _ _ _ Ee). cbn [bind].
      destruct (isBridge e); [apply removeBridge_effs | apply mergeFaces_effs; [|intros []]]; assumption.
  - apply good_fst. assert (HF : faces m = [] \/ FIm m) by (destruct HI as [G|M]; [left; apply G | right; apply M]).
    eapply good_mono; [apply (mergeEdges_spec hk m d V HF)|].
    intros [m' r] (d1 & d2 & m0 & D2 & FM & _ & [(_ & _ & E)|(_ & _ & E)]); cbn [fst] in *.
    + subst. left. apply (ef_moved _ m d1 d2); assumption.
    + right. split; [intros []|]. exists m0. split; [apply (ef_moved _ m d1 d2); assumption|].
      apply (ef_merged _ m0 d1 d2); auto; [apply (fm_Deg2 m d2) | apply (fm_off m)]; assumption.
  - apply good_fst. destruct Ho as (e & He & Hp). pose proof (splitEdge_spec m l e k p ins V He Hp) as G.
    destruct (splitEdge m l k p ins) as [[m' r]| | |]; cbn in *; auto.
    destruct G as (Hk & pos & Hpos & S). left. apply (ef_split m l k p ins e pos m' r); assumption.
  - apply good_fst. destruct HI as [G|M]; [|apply removeBridge_effs; assumption].
    unfold removeBridge. destruct (eAt m (elab d)) as [e|] eqn:Ee.
    2:{ rewrite (require_edge_None _ _ Ee). exact I. }
    rewrite (require_edge _ _ _ Ee). cbn [bind].
    assert (Hd : In d (darts m)) by (apply (eAt_zero m d V); congruence).
    rewrite (leftLabel_Ok m d Hd), (gp_l _ G d Hd). cbn. auto.
  - apply good_fst. destruct HI as [G|M]; [|apply mergeFaces_effs; [assumption | intros []]].
    unfold mergeFaces. destruct (eAt m (elab d)) as [e|] eqn:Ee.
    2:{ rewrite (require_edge_None _ _ Ee). exact I. }
    rewrite (require_edge _ _ _ Ee). cbn [bind].
    assert (Hd : In d (darts m)) by (apply (eAt_zero m d V); congruence).
    unfold pickDart. rewrite (leftLabel_Ok m d Hd), (rightLabel_Ok m d Hd), (gp_l _ G d Hd). cbn. auto.
  - apply good_fst. destruct Ho as (n & Hn & H0). unfold removeIsolatedNode. rewrite (deref_node _ _ _ Hn). cbn [bind].
    destruct (hkNode hk m l); cbn; left; [apply (ef_iso _ m l n); assumption | apply ef_same].
  - apply good_fst. destruct HI as [G|M].
    { exfalso. apply Ho. unfold fAt. rewrite (gp_f _ G). destruct l; reflexivity. }
    destruct (fAt m l) as [f|] eqn:Ef; [|contradiction].
    destruct (faceArea_spec m l f V (mi_f _ M) Ef) as (m' & v & -> & C & _). cbn. left. apply ef_cached; assumption.
  - destruct Ho as (e & He). destruct (setFlag_flagged m l flag onoff e He) as (m' & -> & F). left. apply ef_flag; assumption.
  - destruct Ho as ((nd & Hn) & Hp). destruct (setPosition_spec m l p nd V Hn Hp) as (m' & -> & R). left. apply ef_pos; assumption.
  - destruct (Nat.eqb_spec (length (faces m)) 0) as [E|N].
    + destruct (sortEdgesDirectly_spec m V (faces_len_nil m E)) as [(m' & -> & R)|(-> & _)]; cbn; auto.
      left. apply ef_sort; [apply faces_len_nil|]; assumption.
    + unfold sortEdgesDirectly. destruct (Nat.eqb_spec (length (faces m)) 0); [contradiction|]. exact I.
  - destruct (Nat.eqb_spec (length (faces m)) 0) as [E|N].
    + destruct (setSigmaMapping_spec m f hs srt V (faces_len_nil m E) Ho) as [->|(m' & -> & V' & E' & _)]; cbn; auto.
      left. apply (ef_sigma _ m m' srt); auto. apply faces_len_nil; assumption.
    + unfold setSigmaMapping. destruct (Nat.eqb_spec (length (faces m)) 0); [contradiction|]. exact I.
Qed.

(** ** Every effect preserves the invariant *)

Lemma fm_nil m d2 m0 : faces m = [] -> facesMoved m d2 m0 -> m0 = m.
Proof.
  intros Hf F. rewrite (fm_eq _ _ _ F). assert (E : faces m0 = []) by (apply faces_len_nil; rewrite (fm_len _ _ _ F), Hf; reflexivity).
  rewrite E. destruct m; cbn in *; subst; reflexivity.
Qed.
Lemma cached_nil m m' : faces m = [] -> cached m m' -> m' = m.
Proof.
  intros Hf F. rewrite (ca_eq _ _ F). assert (E : faces m' = []) by (apply faces_len_nil; rewrite (ca_len _ _ F), Hf; reflexivity).
  rewrite E. destruct m; cbn in *; subst; reflexivity.
Qed.

(** only the node table changed, and no dart is concerned *)
Lemma MInv_nodes m m' : MInv m -> SInv m' -> m' = set_nodeCount (set_nodes m (nodes m')) (nodeCount m') ->
  sumf busy (nodes m') = sumf busy (nodes m) -> MInv m'.
Proof.
  intros M V E Hb.
  assert (He : edges m' = edges m) by (rewrite E; reflexivity).
  assert (Hf : faces m' = faces m) by (rewrite E; reflexivity).
  assert (Hi : sgi m' = sgi m) by (rewrite E; reflexivity).
  assert (Hd : darts m' = darts m) by (apply tables_darts; assumption).
  assert (Hst : forall x, stt m' x = stt m x) by (intros; unfold stt, eAt; rewrite He; reflexivity).
  assert (Hl : forall x, lft m' x = lft m x) by (intros; unfold lft, eAt; rewrite He; reflexivity).
  assert (HG : Gm m' = Gm m) by (rewrite E; reflexivity).
  assert (Hk : links m' = links m) by (rewrite E; reflexivity).
  constructor; rewrite ?Hf, ?He, ?HG, ?Hk, ?Hb; try apply M.
  - assumption.
  - rewrite E. exact (mi_f _ M).
  - unfold fAt. rewrite Hf. apply M.
Qed.

Lemma uninit_nless m l n : nAt m l = Some n -> nanchor n = 0 -> nless m (uninitNode m l).
Proof.
  intros Hn H0. destruct (removeIsolatedNode_nless (Build_hooks (fun _ _ => true) (fun _ _ => true) (fun _ _ => true) (fun _ _ => true)) m l n Hn H0)
    as (m' & b & R & N & _ & Ht).
  unfold removeIsolatedNode in R. rewrite (deref_node _ _ _ Hn) in R. cbn in R. injection R as <- <-. assumption.
Qed.

Lemma nless_SInv m m' : nless m m' -> SInv m -> SInv m'.
Proof.
  intros N V. destruct V as [HS e0 cp ln nc ec fc].
  assert (E := nl_eq _ _ N).
  assert (He : edges m' = edges m) by (rewrite E; reflexivity).
  assert (Hf : faces m' = faces m) by (rewrite E; reflexivity).
  assert (Hsg : sg m' = sg m) by (rewrite E; reflexivity).
  assert (Hsi : sgi m' = sgi m) by (rewrite E; reflexivity).
  assert (Hc : cap m' = cap m) by (rewrite E; reflexivity).
  assert (Hd : darts m' = darts m) by (apply tables_darts; assumption).
  assert (Hst : forall x, stt m' x = stt m x) by (intros; unfold stt, eAt; rewrite He; reflexivity).
  constructor.
  - rewrite Hd. constructor.
    + rewrite Hsg, Hsi. apply HS.
    + unfold eAt. rewrite He. apply HS.
    + apply HS.
    + rewrite Hc. apply HS.
    + intros d Hd'. rewrite Hsg, !Hst. apply (si_st _ _ HS); assumption.
    + intros d Hd'. rewrite Hst. destruct (nl_at _ _ N (stt m d)) as [->|(_ & n & En & E0)]; [apply (si_node _ _ HS); assumption|].
      exfalso. destruct (si_anchor _ _ HS _ n En) as [(_ & K)|(K & _)]; [apply (K d Hd'); reflexivity|].
      apply (si_nz _ _ HS _ K E0).
    + intros l n Hn. rewrite Hsg. destruct (nl_at _ _ N l) as [El|(El & _)]; [|congruence]. rewrite El in Hn.
      destruct (si_anchor _ _ HS l n Hn) as [(K1 & K2)|(K1 & K2 & K3)].
      * left. split; [assumption|]. intros d Hd'. rewrite Hst. auto.
      * right. split; [assumption|]. rewrite Hst. split; [assumption|]. intros d Hd'. rewrite Hst. auto.
  - unfold eAt. rewrite He. assumption.
  - rewrite Hc; assumption.
  - rewrite Hc, He; assumption.
  - pose proof (nl_cnt _ _ N). lia.
  - rewrite He. assert (K : edgeCount m' = edgeCount m) by (rewrite E; reflexivity). rewrite K; assumption.
  - rewrite Hf. assert (K : faceCount m' = faceCount m) by (rewrite E; reflexivity). rewrite K; assumption.
Qed.

Lemma GP_tables m m' : GP m -> SInv m' -> edges m' = edges m -> faces m' = faces m -> GP m'.
Proof.
  intros G V He Hf. constructor; [assumption | rewrite Hf; apply G|].
  intros x. rewrite (tables_darts _ _ He). unfold lft, eAt. rewrite He. apply G.
Qed.

Lemma MInv_faces m : MInv m -> faces m <> [].
Proof. intros M E. apply (mi_0 _ M). unfold fAt. rewrite E. reflexivity. Qed.

Theorem eff_Inv o m m' : Inv m -> eff o m m' -> Inv m'.
Proof.
  intros HI E. pose proof (Inv_SInv m HI) as V. destruct E.
  - assumption.
  - destruct HI as [G|M].
    + left. apply (GP_tables m); auto. apply addNodeL_inv; assumption.
    + right. apply (MInv_nodes m); auto; [apply addNodeL_inv; assumption|].
      unfold addNodeL, addNode. cbn [fst nodes set_nodes set_nodeCount]. rewrite !sumf_app, sumf_repeat by reflexivity. cbn. lia.
  - pose proof (addEdge_inv m sa ea pts lab V H H0) as K. rewrite H1 in K. cbn [good] in K.
    destruct K as (V' & Hf' & Hf & _ & _ & (s & e & _ & _ & He) & _). destruct HI as [G|M]; [|exfalso; apply (MInv_faces m M Hf)].
    left. constructor; [assumption | congruence|]. intros x Hx. apply in_darts in Hx as [Hx0 Hx]. unfold lft. rewrite He in *.
    destruct (Nat.eqb_spec (elab x) (snd r)) as [Er|Nr]; [unfold e_lf; cbn; destruct (0 <? x); reflexivity|].
    apply (gp_l _ G x). apply in_darts; auto.
  - destruct HI as [G|M]; [|exfalso; apply (MInv_faces m M H)].
    destruct (removeEdge_graph_inv hk m d V H H0) as (m1 & R & V' & Hd & He & Hf & _). rewrite H1 in R. injection R as <-.
    left. constructor; auto. intros x Hx. pose proof Hx as Hx1. apply in_darts in Hx1 as [Hx0 Hx1]. unfold lft. rewrite He in *.
    destruct (Nat.eqb (elab d) (elab x)); [congruence|]. apply (gp_l _ G x). apply in_darts; auto.
  - destruct HI as [G|M]; [rewrite (fm_nil _ _ _ (gp_f _ G) H0); left; assumption | right; apply (fm_MInv m d2); assumption].
  - destruct HI as [G|M]; [|right; apply (me_MInv m m' d1 d2); assumption].
    left. constructor.
    + apply (md_SInv m d1 d2); auto.
    + rewrite (mg_faces _ _ _ _ H1). apply G.
    + intros x Hx. assert (Hr : In x (rest m d2)) by (apply (md_darts m d1 d2 m' H1); assumption).
      rewrite (md_lft m d1 d2 m' H1) by assumption. apply (gp_l _ G). apply in_rest in Hr. apply Hr.
  - destruct HI as [G|M]; [|right; eapply (se_MInv m l e); eassumption].
    left. constructor.
    + eapply (sv_SInv m l e); eassumption.
    + rewrite (sp_faces _ _ _ _ _ _ _ _ H2). apply G.
    + intros x Hx. eapply (sv_darts m l e) in Hx; [|eassumption..]. apply in_D2 in Hx.
      destruct Hx as [Hx|[->| ->]].
      * rewrite (sv_lft m l e _ _ _ _ _ H H2 x Hx). apply (gp_l _ G); assumption.
      * rewrite (proj1 (sv_lftr m l e _ _ _ _ _ V H H2)). apply (gp_l _ G). apply (sv_dl m l e _ _ _ _ _ V H H2).
      * rewrite (proj2 (sv_lftr m l e _ _ _ _ _ V H H2)). apply (gp_l _ G). apply (sv_dl' m l e _ _ _ _ _ V H H2).
  - destruct HI as [G|M]; [rewrite (gp_l _ G d H) in H0; discriminate | right; apply (br_MInv m m' d fl); assumption].
  - destruct HI as [G|M]; [rewrite (cached_nil _ _ (gp_f _ G) H); left; assumption | right; apply (cached_MInv m); assumption].
  - destruct HI as [G|M]; [rewrite (gp_l _ G d H) in H0; discriminate | right; apply (mf_MInv m m' d s mm); assumption].
  - pose proof (uninit_nless m l n H H0) as N. pose proof (nless_SInv _ _ N V) as V'. destruct HI as [G|M].
    + left. apply (GP_tables m); auto.
    + right. apply (MInv_nodes m); auto. apply N.
  - destruct HI as [G|M]; [|right; apply (flagged_MInv m); assumption].
    destruct (flagged_views _ _ H) as (Vd & _ & _ & Vl & _ & Vf & _). left. constructor.
    + apply (flagged_SInv m); assumption.
    + rewrite Vf. apply G.
    + intros x Hx. rewrite Vl. apply (gp_l _ G). rewrite <- Vd. assumption.
  - destruct HI as [G|M]; [|right; apply (repos_MInv m l p); assumption].
    destruct (repos_views _ _ _ _ H) as (Vd & _ & _ & Vl & Vf & _). left. constructor.
    + apply (repos_SInv m l p); assumption.
    + rewrite Vf. apply G.
    + intros x Hx. rewrite Vl. apply (gp_l _ G). rewrite <- Vd. assumption.
  - destruct HI as [G|M]; [|exfalso; apply (MInv_faces m M H)].
    left. apply (GP_tables m); auto; [apply H0 | rewrite (rs_eq _ _ H0); reflexivity..].
  - destruct HI as [G|M]; [|exfalso; apply (MInv_faces m M H)].
    left. apply (GP_tables m); auto; rewrite H1; reflexivity.
Qed.

Theorem effs_Inv o m m' : Inv m -> effs o m m' -> Inv m'.
Proof. intros HI [E|(_ & m1 & E1 & E2)]; [apply (eff_Inv o m) | apply (eff_Inv o m1), E2; apply (eff_Inv o m)]; assumption. Qed.
