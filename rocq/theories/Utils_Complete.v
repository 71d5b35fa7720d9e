(** mergeFacesCompletely and the other bulk operations: the theorems. *)
From Verif Require Import Base Orbit GraphRank Euler Links FaceInv Conj
  GeoMap_Model GeoMap_Views GeoMap_SInv GeoMap_Remove GeoMap_MergeEdges GeoMap_SplitEdge GeoMap_Loops GeoMap_MInv
  GeoMap_Gone GeoMap_Bridge GeoMap_MergeFaces GeoMap_Subdiv GeoMap_Init GeoMap_Area GeoMap_Embed GeoMap_Initialize GeoMap_Sort GeoMap_Flags
  GeoMap_History GeoMap_Geometry GeoMap_AreaInv GeoMap_Spec GeoMap_Facts GeoMap_Results GeoMap_Results2 GeoMap_Results4 GeoMap_Examples
  Utils_Model Utils_Spec Utils_Bridges Utils_Results Utils_Protect Utils_Trace Utils_Nodes Utils_Merge.
Local Open Scope Z_scope.

(** ** Views *)

Lemma liveNodes_nc m : SInv m -> liveNodes m = nodeCount m.
Proof. intros V. unfold liveNodes. rewrite (sv_nc _ V). rewrite countSome_sumf. apply sumf_ext. intros [x|] _; reflexivity. Qed.
Lemma isolated_fine m n : fine m n -> ~ isolatedAt m n.
Proof. intros F (nd & Hn & H0). apply isNode_iff in Hn. apply (F nd); assumption. Qed.
Lemma deg2_tidy m n : SInv m -> tidy2 m n -> ~ deg2At m n.
Proof.
  intros V T (d & d' & Hd & Hs & H1 & H2 & Hne). apply isDart_iff in Hd. rewrite (startLabel_Ok m d Hd) in Hs. injection Hs as Hs.
  pose proof (sv_si _ V) as S. unfold nextSigma in *. rewrite getS_Ok in H1 by (apply (si_cap _ _ S); assumption). injection H1 as <-.
  rewrite getS_Ok in H2 by (apply (si_cap _ _ S), (si_perm _ _ S); assumption). injection H2 as H2.
  destruct (T d Hd Hs H2) as [K|K]; rewrite K in Hne; [congruence | rewrite elab_opp in Hne; congruence].
Qed.
Lemma noFace_iff m l : noFace m l <-> (l < length (faces m))%nat /\ fAt m l = None.
Proof.
  unfold noFace, faceP, fAt, tget. destruct (nth_error (faces m) l) as [o|] eqn:E.
  - assert ((l < length (faces m))%nat) by (apply nth_error_Some; congruence). split; [intros K; split; congruence | intros (_ & K); congruence].
  - split; [discriminate|]. apply nth_error_None in E. lia.
Qed.
Lemma bridgeAt_iff m x : In x (darts m) -> (bridgeAt m (elab x) <-> lft m x = lft m (- x)).
Proof.
  intros Hx. destruct (live_edge m x Hx) as (e & He). pose proof (proj1 (in_darts m x) Hx) as (Nz & _).
  assert (K : (elf e = erf e) <-> lft m x = lft m (- x)).
  { unfold lft. rewrite elab_opp, He. unfold e_lf. destruct (Z.ltb_spec 0 x), (Z.ltb_spec 0 (- x)); try lia; split; congruence. }
  rewrite <- K. unfold bridgeAt. split; [intros (e' & H & K'); apply isEdge_iff in H; congruence | intros H; exists e; split; [apply isEdge_iff|]; assumption].
Qed.
Lemma common_iff m d x : SInv m -> In d (darts m) -> (commonDart m d x <-> isCommon m d x).
Proof.
  intros V Hd. unfold commonDart, isCommon. rewrite (reaches_phi m d x (sv_si _ V) Hd).
  split; intros (R & E); (split; [assumption|]); assert (Hx : In x (darts m)) by (apply (reach_in _ _ _ (phi_perm m (sv_si _ V)) d); assumption);
    rewrite (rightLabel_Ok m x Hx), (rightLabel_Ok m d Hd) in *; congruence.
Qed.
Lemma lft_face_lt m d l : MInv m -> In d (darts m) -> lft m d = Some l -> (l < length (faces m))%nat.
Proof.
  intros M Hd Hl. destruct (fi_cover _ _ _ _ (mi_f _ M) d Hd) as (l' & A & a & H1 & H2 & _). assert (l' = l) by congruence; subst l'.
  unfold fanch in H2. destruct (fAt m l) as [f|] eqn:E; [|discriminate]. apply (tget_lt _ _ _ E).
Qed.

(** ** mergeFacesCompletely *)

(** the contour of a dart that is not a bridge has no edge twice: all cases of the call *)
Lemma complete_ok hk merge2 m d : MInv m -> In d (darts m) -> lft m d <> lft m (- d) ->
  exists ds, (forall x, In x ds <-> isCommon m d x) /\
   (((exists x, In x ds /\ flagAt m (elab x) ALL_PROTECTION) /\ mergeFacesCompletely hk merge2 m d = Ok (m, None)) \/
    ((forall x, In x ds -> ~ flagAt m (elab x) ALL_PROTECTION) /\ exists m1 m' s L R,
       mergeFacesCompletely hk merge2 m d = Ok (m', s) /\ trace hk m m1 /\ trace hk m1 m' /\
       mrel (fun j => In j (map elab ds)) m m1 /\ tends m1 m' /\ (merge2 = false -> edges m' = edges m1) /\
       lft m d = Some L /\ lft m (- d) = Some R /\
       match s with
       | None => faceCount m1 = faceCount m /\ liveFacesSame m m1 /\ ~ (forall m1 d, hkMergeFaces hk m1 d = true)
       | Some s => exists mm, (s = L /\ mm = R \/ s = R /\ mm = L) /\ mm <> 0%nat /\ faceCount m1 = faceCount m - 1 /\ fAt m1 mm = None /\
                (forall l, l <> mm -> (fAt m l = None <-> fAt m1 l = None)) /\
                ((forall m1 d, hkMergeFaces hk m1 d = true) -> acc hk -> forall x, In x ds -> eAt m1 (elab x) = None)
       end /\
       ((forall m1 l, hkNode hk m1 l = true) -> forall x, In x ds -> fine m' (stt m x) /\ fine m' (stt m (- x))) /\
       (merge2 = true -> (forall m1 l, hkNode hk m1 l = true) -> (forall m1 d, hkMergeEdges hk m1 d = true) ->
          forall x, In x ds -> tidy2 m' (stt m x) /\ tidy2 m' (stt m (- x))))).
Proof.
  intros M Hd Hne. pose proof (mi_v _ M) as V. pose proof (sv_si _ V) as S. pose proof (phi_perm m S) as HP.
  destruct (collect_spec m d M Hd Hne) as (ds & o & Ec & Hin & Nd & Nn & Ho). exists ds. split; [assumption|].
  destruct (live_edge m d Hd) as (e & He). unfold mergeFacesCompletely. rewrite (deref_edge _ _ _ He). cbn [bind].
  assert (Eb : isBridge e = false).
  { unfold isBridge. destruct (optnat_eqb (elf e) (erf e)) eqn:K; [|reflexivity]. apply optnat_eqb_eq in K. exfalso. apply Hne. apply bridgeAt_iff; [assumption|].
    exists e. split; [apply isEdge_iff|]; assumption. }
  rewrite Eb, (rightLabel_Ok m d Hd). cbn [bind]. rewrite Ec. cbn [bind].
  destruct Ho as [(-> & x & e0 & Hx & He0 & Hp)|(-> & Hnp)].
  - left. split; [|reflexivity]. exists x. split; [assumption|]. apply flagAt_iff. eauto.
  - right. split. { intros x Hx K. apply flagAt_iff in K as (e0 & He0 & Hp). rewrite (Hnp x e0 Hx He0) in Hp. discriminate. }
    destruct (fi_cover _ _ _ _ (mi_f _ M) d Hd) as (L & _ & _ & HL & _). destruct (fi_cover _ _ _ _ (mi_f _ M) (- d) (darts_opp m d Hd)) as (R & _ & _ & HR & _).
    assert (HLR : L <> R) by congruence.
    assert (Hl : forall x, In x ds -> In x (darts m) /\ lft m x = Some L /\ lft m (- x) = Some R).
    { intros x Hx. apply Hin in Hx as (Rx & Lx). rewrite Lx. clear Lx. revert x Rx. apply reach_ind_r; [auto|]. intros y _ (Hy & E1 & E2).
      split; [apply (HP y Hy)|]. rewrite (fi_phi _ _ _ _ (mi_f _ M) y Hy). auto. }
    destruct (facePhase hk L R ds HLR m [] M Nd Hl) as (m1 & s & E1 & X & Hs). rewrite E1. cbn [bind app].
    pose proof (mergeCommon_tr hk ds _ _ _ _ _ _ E1) as T1. pose proof (mr_M _ _ _ X) as M1.
    destruct (tidy_ok hk merge2 (ends m ds) m1 M1) as (m' & E2 & T2 & He2 & Hf & H2).
    { intros n Hn. unfold ends in Hn. apply in_flat_map in Hn as (x & Hx & Hn). rewrite (mr_nlen _ _ _ X). destruct (Hl x Hx) as (Dx & _).
      assert (K : forall y, In y (darts m) -> (stt m y < length (nodes m))%nat).
      { intros y Hy. pose proof (si_node _ _ S y Hy) as K. destruct (nAt m (stt m y)) as [nd|] eqn:En; [|contradiction]. apply (tget_lt _ _ _ En). }
      destruct Hn as [<-|[<-|[]]]; apply K; [|apply darts_opp]; assumption. }
    rewrite E2. cbn [bind]. exists m1, m', s, L, R. split; [reflexivity|]. split; [assumption|]. split; [apply (tidyNodes_tr hk merge2 _ _ _ E2)|].
    split; [assumption|]. split; [assumption|]. split; [assumption|]. split; [assumption|]. split; [assumption|].
    assert (En : forall x, In x ds -> In (stt m x) (ends m ds) /\ In (stt m (- x)) (ends m ds)).
    { intros x Hx. unfold ends. split; apply in_flat_map; exists x; (split; [assumption|]); cbn; auto. }
    split; [|split; [intros A x Hx; split; apply Hf; try apply En; assumption | intros A0 A1 A2 x Hx; split; apply H2; try apply En; assumption]].
    destruct s as [s|]; [assumption|]. destruct Hs as (H1' & H2' & H3'). split; [assumption|]. split; [assumption|]. intros A. apply Nn, H3', A.
Qed.

Theorem mergeFacesCompletely_spec hk merge2 m d : history anyCall m -> initialised m -> isDart m d ->
  (bridgeAt m (elab d) -> mergeFacesCompletely hk merge2 m d = Exn) /\
  (~ bridgeAt m (elab d) -> (exists l, commonEdge m d l /\ flagAt m l ALL_PROTECTION) -> mergeFacesCompletely hk merge2 m d = Ok (m, None)) /\
  (~ bridgeAt m (elab d) -> (forall l, commonEdge m d l -> ~ flagAt m l ALL_PROTECTION) ->
   exists m' s, mergeFacesCompletely hk merge2 m d = Ok (m', s) /\ later m m' /\
     (* the faces *)
     match s with
     | None => liveFaces m' = liveFaces m /\ (forall l, noFace m' l <-> noFace m l)
     | Some s => exists gone, (leftLabel m d = Ok (Some s) /\ rightLabel m d = Ok (Some gone) \/ leftLabel m d = Ok (Some gone) /\ rightLabel m d = Ok (Some s)) /\
                 gone <> s /\ liveFaces m' = liveFaces m - 1 /\ (forall l, noFace m' l <-> noFace m l \/ l = gone)
     end /\
     (* nothing else is removed *)
     (merge2 = false -> forall l e, isEdge m l e -> (exists e', isEdge m' l e' /\ sameButFaces e e') \/ (noEdge m' l /\ commonEdge m d l)) /\
     (* the whole common boundary is removed *)
     (accepting hk -> s <> None /\ (forall l, commonEdge m d l -> noEdge m' l) /\
        (forall x n, commonDart m d x -> startLabel m x = Ok n \/ endLabel m x = Ok n -> ~ isolatedAt m' n /\ (merge2 = true -> ~ deg2At m' n)))).
Proof.
  intros H Hi Dd. pose proof (history_MInv _ m H Hi) as M. pose proof (mi_v _ M) as V. apply isDart_iff in Dd.
  destruct (live_edge m d Dd) as (e & He).
  split; [|].
  { intros (e0 & He0 & Eb). apply isEdge_iff in He0. assert (e0 = e) by congruence; subst e0. unfold mergeFacesCompletely. rewrite (deref_edge _ _ _ He). cbn [bind].
    replace (isBridge e) with true; [reflexivity|]. symmetry. apply optnat_eqb_eq. assumption. }
  assert (Q : ~ bridgeAt m (elab d) -> lft m d <> lft m (- d)) by (intros Nb K; apply Nb, bridgeAt_iff; assumption).
  assert (CE : forall ds, (forall x, In x ds <-> isCommon m d x) -> forall l, commonEdge m d l <-> In l (map elab ds)).
  { intros ds Hin l. rewrite in_map_iff. unfold commonEdge. split; intros (x & A & B); exists x; (split; [first [assumption | apply Hin, (common_iff m d x V Dd), A | apply (common_iff m d x V Dd), Hin, B]|]); first [assumption | apply Hin, (common_iff m d x V Dd), A]. }
  split; intros Nb; destruct (complete_ok hk merge2 m d M Dd (Q Nb)) as (ds & Hin & Hc).
  - intros (l & Hl & Hf). destruct Hc as [(_ & E)|(K & _)]; [exact E|]. exfalso. apply (CE ds Hin) in Hl. apply in_map_iff in Hl as (x & <- & Hx). apply (K x Hx Hf).
  - intros Hnp. destruct Hc as [((x & Hx & Hf) & _)|(_ & m1 & m' & s & L & R & E & T1 & T2 & X & T & He' & HL & HR & Hs & Hfi & Ht)].
    { exfalso. apply (Hnp (elab x)); [|assumption]. apply (CE ds Hin), in_map; assumption. }
    assert (Tr : trace hk m m') by (apply (tr_trans _ _ m1); assumption). destruct (tr_MInv _ _ _ Tr M) as (M' & Mo). destruct (tr_MInv _ _ _ T2 (mr_M _ _ _ X)) as (_ & Mo1).
    exists m', s. split; [assumption|]. split; [apply (tr_later hk); assumption|].
    assert (Hlen : length (faces m') = length (faces m)) by (rewrite (te_flen _ _ T); apply X).
    pose proof (mi_v _ M') as V'. rewrite (liveFaces_fc _ V'), (liveFaces_fc _ V), (te_fc _ _ T), (leftLabel_Ok m d Dd), (rightLabel_Ok m d Dd), HL, HR.
    split; [|split].
    + destruct s as [s|].
      * destruct Hs as (mm & K1 & K2 & K3 & K4 & K5 & K6). exists mm. split; [destruct K1 as [(-> & ->)|(-> & ->)]; auto|].
        assert (Lmm : (mm < length (faces m))%nat).
        { destruct K1 as [(-> & ->)|(-> & ->)]; [apply (lft_face_lt m (- d)) | apply (lft_face_lt m d)]; auto using darts_opp. }
        assert (HLR : L <> R) by (intros ->; apply (Q Nb); congruence).
        split; [destruct K1 as [(-> & ->)|(-> & ->)]; congruence|]. split; [assumption|]. intros l. rewrite !noFace_iff, Hlen, <- (te_fs _ _ T l).
        destruct (Nat.eq_dec l mm) as [->|Nl]; [split; auto|]. rewrite <- (K5 l Nl). tauto.
      * destruct Hs as (K1 & K2 & _). split; [assumption|]. intros l. rewrite !noFace_iff, Hlen, <- (te_fs _ _ T l), <- (K2 l). reflexivity.
    + intros Hm l e0 He0. apply isEdge_iff in He0. pose proof (mr_edge _ _ _ X l) as K. rewrite He0 in K.
      assert (Ea : eAt m' l = eAt m1 l) by (unfold eAt; rewrite (He' Hm); reflexivity). rewrite <- Ea in K.
      destruct (eAt m' l) as [e'|] eqn:E'.
      * left. exists e'. split; [apply isEdge_iff; assumption | exact K].
      * right. split; [|apply (CE ds Hin); assumption]. apply noEdge_iff; [|assumption]. rewrite (te_elen _ _ T), (mr_elen _ _ _ X). apply (eAt_lt _ _ _ He0).
    + intros (A1 & A2 & A3 & A4). split; [|split].
      * destruct s; [discriminate|]. destruct Hs as (_ & _ & K). contradiction.
      * intros l Hl. apply (CE ds Hin) in Hl. apply in_map_iff in Hl as (x & <- & Hx).
        assert (Dx : In x (darts m)) by (apply (reach_in _ _ _ (phi_perm m (sv_si _ V)) d); [assumption | apply Hin; assumption]).
        destruct (live_edge m x Dx) as (ex & Hex).
        apply noEdge_iff; [rewrite (te_elen _ _ T), (mr_elen _ _ _ X); apply (eAt_lt _ _ _ Hex)|]. apply (te_e _ _ T).
        destruct s; [|destruct Hs as (_ & _ & K); contradiction]. destruct Hs as (mm & _ & _ & _ & _ & _ & K). apply K; assumption.
      * intros x n Hx Hn. apply (common_iff m d x V Dd) in Hx. assert (Dx : In x (darts m)) by (apply (reach_in _ _ _ (phi_perm m (sv_si _ V)) d); [assumption | apply Hx]).
        apply Hin in Hx. rewrite (startLabel_Ok m x Dx), (endLabel_Ok m x Dx) in Hn.
        split; [apply isolated_fine | intros Hm; apply deg2_tidy; [assumption|]].
        -- destruct (Hfi A1 x Hx). destruct Hn as [Hn|Hn]; injection Hn as <-; assumption.
        -- destruct (Ht Hm A1 A2 x Hx). destruct Hn as [Hn|Hn]; injection Hn as <-; assumption.
Qed.

Theorem mergeFacesCompletely_points hk merge2 m d m' s : history geometric m -> initialised m -> isDart m d ->
  mergeFacesCompletely hk merge2 m d = Ok (m', s) -> pointsKept m (fun l => ~ commonEdge m d l) m'.
Proof.
  intros H Hi Dd E. pose proof (history_MInv _ m H Hi) as M. pose proof (mi_v _ M) as V. apply isDart_iff in Dd.
  pose proof (history_geo geometric m (fun _ _ x => x) H) as G.
  assert (Nb : lft m d <> lft m (- d)).
  { intros K. apply bridgeAt_iff in K; [|assumption]. destruct K as (e & He & Eb). apply isEdge_iff in He. unfold mergeFacesCompletely in E. rewrite (deref_edge _ _ _ He) in E. cbn [bind] in E.
    replace (isBridge e) with true in E; [discriminate|]. symmetry. apply optnat_eqb_eq. assumption. }
  destruct (complete_ok hk merge2 m d M Dd Nb) as (ds & Hin & Hc).
  destruct Hc as [(_ & E')|(_ & m1 & m2 & s' & L & R & E' & T1 & T2 & X & T & _)]; rewrite E in E'.
  - injection E' as -> ->. split; [|eauto]. intros l e He _. exists l, e. split; [assumption | apply inside_refl].
  - injection E' as <- <-. destruct (te_pts _ _ T (tr_geo hk m m1 T1 M G)) as (P1 & P2). split.
    + intros l e He Nc. apply isEdge_iff in He. pose proof (mr_edge _ _ _ X l) as K. rewrite He in K. destruct (eAt m1 l) as [e1|] eqn:E1.
      * destruct K as (_ & _ & K & _). destruct (P1 l e1 E1) as (l' & e' & E2 & I). exists l', e'. split; [apply isEdge_iff; assumption|]. rewrite <- K. assumption.
      * exfalso. apply Nc. apply in_map_iff in K as (x & <- & Hx). exists x. split; [|reflexivity]. apply common_iff; [assumption | assumption|]. apply Hin; assumption.
    + intros l' e' p He Hp. apply isEdge_iff in He. destruct (P2 l' e' p He Hp) as (l & e1 & E1 & Hp1). pose proof (mr_edge _ _ _ X l) as K. rewrite E1 in K.
      destruct (eAt m l) as [e|] eqn:E0; [|contradiction]. exists l, e. split; [apply isEdge_iff; assumption|]. destruct K as (_ & _ & K & _). congruence.
Qed.
