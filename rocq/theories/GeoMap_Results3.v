(** Splitting an edge and merging the halves again. *)
From Verif Require Import Base Orbit GraphRank Euler Links FaceInv Conj
  GeoMap_Model GeoMap_Views GeoMap_SInv GeoMap_Remove GeoMap_MergeEdges GeoMap_SplitEdge GeoMap_Loops GeoMap_MInv
  GeoMap_Gone GeoMap_Bridge GeoMap_MergeFaces GeoMap_Subdiv GeoMap_Init GeoMap_Area GeoMap_Embed GeoMap_Initialize GeoMap_Sort
  GeoMap_History GeoMap_Geometry GeoMap_AreaInv GeoMap_Spec GeoMap_Facts GeoMap_Results GeoMap_Results2.
Local Open Scope Z_scope.

Theorem split_result m l e k p ins m1 r : history anyCall m -> isEdge m l e -> epts e <> [] -> splitEdge m l k p ins = Ok (m1, r) ->
  exists n q el er, (if ins then q = p else nth_error (epts e) k = Some q) /\ nodeP m n = Exn /\ edgeP m r = Exn /\
    posOf m1 n = Some q /\ isEdge m1 l el /\ isEdge m1 r er /\
    estart el = estart e /\ eend el = n /\ estart er = n /\ eend er = eend e /\
    elf el = elf e /\ erf el = erf e /\ elf er = elf e /\ erf er = erf e /\ eflags el = eflags e /\ eflags er = eflags e /\
    epts el ++ skipn 1 (epts er) = (if ins then insert_at (epts e) (S k) p else epts e) /\
    (forall j, j <> l -> j <> r -> edgeP m1 j = edgeP m j) /\
    nextSigma m1 (- Z.of_nat l) = Ok (Z.of_nat r) /\ nextSigma m1 (Z.of_nat r) = Ok (- Z.of_nat l).
Proof.
  intros H He Hp E. pose proof (Inv_SInv m (history_Inv _ m H)) as V. apply isEdge_iff in He.
  pose proof (splitEdge_spec m l e k p ins V He Hp) as G. rewrite E in G. destruct G as (Hk & q & Hq & Sp).
  pose proof (sv_Deg2 m l e _ _ _ m1 r V He Sp) as D. pose proof (sv_SInv m l e _ _ _ m1 r V He Sp) as V1. pose proof (sv_si _ V1) as S1.
  pose proof (sv_lr m l e _ _ _ m1 r He Sp) as Hlr.
  assert (Hr : eAt m1 r = Some (mkEdge (length (nodes m)) (eend e) (elf e) (erf e) (snd (splitPts (if ins then insert_at (epts e) (S k) p else epts e) (if ins then S k else k))) (eflags e))).
  { rewrite (sp_edge _ _ _ _ _ _ _ _ Sp), Nat.eqb_refl. reflexivity. }
  assert (Hl : eAt m1 l = Some (mkEdge (estart e) (length (nodes m)) (elf e) (erf e) (fst (splitPts (if ins then insert_at (epts e) (S k) p else epts e) (if ins then S k else k))) (eflags e))).
  { rewrite (sp_edge _ _ _ _ _ _ _ _ Sp). destruct (Nat.eqb_spec r l); [lia|]. rewrite Nat.eqb_refl. reflexivity. }
  exists (length (nodes m)), q. eexists. eexists. split; [assumption|].
  split. { unfold nodeP. rewrite (proj2 (nth_error_None _ _)) by lia. reflexivity. }
  split. { unfold edgeP. rewrite (proj2 (nth_error_None _ _)) by (rewrite (sp_r _ _ _ _ _ _ _ _ Sp); lia). reflexivity. }
  split. { rewrite posOf_eq. unfold pos. destruct (sp_node _ _ _ _ _ _ _ _ Sp) as (cnd & _ & ->). rewrite Nat.eqb_refl. reflexivity. }
  split; [apply isEdge_iff; exact Hl|]. split; [apply isEdge_iff; exact Hr|].
  cbn [estart eend elf erf eflags epts]. repeat (split; [reflexivity|]).
  split. { apply splitPts_join. destruct ins; [|assumption]. unfold insert_at. destruct (firstn _ _); discriminate. }
  split. { intros j N1 N2. assert (X : eAt m1 j = eAt m j).
    { rewrite (sp_edge _ _ _ _ _ _ _ _ Sp). destruct (Nat.eqb_spec r j); [congruence|]. destruct (Nat.eqb_spec l j); [congruence | reflexivity]. }
    pose proof (sp_elen _ _ _ _ _ _ _ _ Sp) as Ln. pose proof (sp_r _ _ _ _ _ _ _ _ Sp) as Lr. unfold edgeP. unfold eAt, tget in X.
    destruct (nth_error (edges m1) j) as [o|] eqn:E1, (nth_error (edges m) j) as [o'|] eqn:E2; try reflexivity; try congruence.
    - apply nth_error_None in E2. assert (j < length (edges m1))%nat by (apply nth_error_Some; congruence). lia.
    - apply nth_error_None in E1. assert (j < length (edges m))%nat by (apply nth_error_Some; congruence). lia. }
  split; [rewrite <- (g2_12 _ _ _ D) | rewrite <- (g2_21 _ _ _ D)]; apply sigma_next; auto; apply D.
Qed.

Theorem split_then_merge m hk l e k p ins m1 r d : history anyCall m -> accepting hk -> isEdge m l e -> epts e <> [] ->
  splitEdge m l k p ins = Ok (m1, r) -> d = Z.of_nat r \/ d = - Z.of_nat l ->
  exists m2, mergeEdges hk m1 d = Ok (m2, Some l) /\
    isEdge m2 l (mkEdge (estart e) (eend e) (elf e) (erf e) (if ins then insert_at (epts e) (S k) p else epts e) (eflags e)) /\
    edgeP m2 r = Ok None /\ (forall j, j <> l -> j <> r -> edgeP m2 j = edgeP m j) /\
    (forall n nd, isNode m n nd -> exists nd', isNode m2 n nd' /\ npos nd' = npos nd) /\
    (forall n nd, isNode m2 n nd -> exists nd', isNode m n nd') /\
    nodeCount m2 = nodeCount m /\ edgeCount m2 = edgeCount m /\ faceCount m2 = faceCount m /\ sorted m2 = sorted m /\
    (forall x, isDart m2 x <-> isDart m x) /\
    (forall x, isDart m x -> nextSigma m2 x = nextSigma m x /\ prevSigma m2 x = prevSigma m x /\
        startLabel m2 x = startLabel m x /\ leftLabel m2 x = leftLabel m x) /\
    (forall j, match faceP m j, faceP m2 j with
      | Ok (Some f), Ok (Some f') => fflags f' = fflags f /\ farea f' = farea f /\ Forall2 (sameContour m) (fanchors f) (fanchors f')
      | Ok None, Ok None => True | Exn, Exn => True | _, _ => False end).
Proof.
  intros H (A1 & A2 & _) He Hp E Hd. pose proof (history_Inv _ m H) as HI. pose proof (Inv_SInv m HI) as V. apply isEdge_iff in He.
  pose proof (splitEdge_spec m l e k p ins V He Hp) as G. rewrite E in G. destruct G as (Hk & q & Hq & Sp).
  set (pts := if ins then insert_at (epts e) (S k) p else epts e) in *. set (k' := if ins then S k else k) in *.
  pose proof (sv_Deg2 m l e _ _ _ m1 r V He Sp) as D. pose proof (sv_SInv m l e _ _ _ m1 r V He Sp) as V1. pose proof (sv_si _ V1) as S1.
  pose proof (sv_lr m l e _ _ _ m1 r He Sp) as Hlr. pose proof (sv_l0 m l e _ _ _ m1 r V He Sp) as Hl0.
  set (dl := Z.of_nat l) in *. set (dr := Z.of_nat r) in *.
  assert (HF1 : faces m1 = [] \/ FIm m1).
  { destruct HI as [G|M]; [left; rewrite (sp_faces _ _ _ _ _ _ _ _ Sp); apply G | right]. apply (se_FI m l e k' q pts m1 r M He Sp). }
  pose proof (mergeEdges_full hk m1 d V1 HF1) as F.
  assert (Hdin : In d (darts m1)) by (destruct Hd as [->| ->]; apply D).
  assert (Hsd : sg m1 d = if d =? dr then - dl else dr).
  { destruct Hd as [->| ->]; [rewrite Z.eqb_refl; apply D|]. destruct (Z.eqb_spec (- dl) dr); [lia | apply D]. }
  assert (HN : elab (sg m1 d) <> elab d /\ sg m1 (sg m1 d) = d).
  { pose proof (elab12 m1 _ _ D) as K. rewrite Hsd. destruct Hd as [->| ->].
    - rewrite Z.eqb_refl. split; [congruence | apply D].
    - destruct (Z.eqb_spec (- dl) dr); [lia|]. split; [congruence | apply D]. }
  destruct (mergeEdges hk m1 d) as [[m2 o]| | |] eqn:Em; cbn [goodE fst snd] in F; try contradiction.
  2:{ exfalso. tauto. }
  destruct F as (d1 & d2 & m0 & D2 & FM & E12 & [(K & _)|(_ & K & Mg)]); [rewrite A1, A2 in K; discriminate|].
  assert (X : d1 = - dl /\ d2 = dr).
  { rewrite Hsd in E12. destruct Hd as [->| ->].
    - rewrite Z.eqb_refl in E12. destruct (Z.ltb_spec 0 dr), (Z.ltb_spec (- dl) 0); cbn [andb] in E12; try lia. injection E12 as -> ->. auto.
    - destruct (Z.eqb_spec (- dl) dr); [lia|]. destruct (Z.ltb_spec 0 (- dl)); [lia|]. cbn [andb] in E12. injection E12 as -> ->. auto. }
  destruct X as [-> ->]. subst o.
  assert (Edl : elab (- dl) = l) by (rewrite elab_opp; apply elab_of_nat). assert (Edr : elab dr = r) by apply elab_of_nat.
  rewrite Edl in *.
  destruct (fm_views _ _ _ FM) as (Ee0 & En0 & ED0 & _ & Es0 & El0 & Ep0).
  pose proof (fm_Deg2 _ _ _ _ _ FM D) as D0.
  assert (V0 : SInv m0) by (apply (fm_SInv m1 dr); assumption).
  assert (HrestD : forall x, In x (rest m0 dr) <-> In x (darts m)).
  { intros x. rewrite (rest_views m1 m0 dr x ED0). apply (sv_rest m l e k' q pts m1 r V He Sp). }
  assert (HD2 : forall x, In x (darts m2) <-> In x (darts m)).
  { intros x. rewrite (md_darts m0 (- dl) dr m2 Mg x). apply HrestD. }
  assert (Hst0 : stt m1 dr = length (nodes m)).
  { rewrite (sv_stt m l e k' q pts m1 r V He Sp) by (apply (in_D2 m r); auto). fold dl dr. rewrite tr_o by lia. unfold st2. fold dr. rewrite Z.eqb_refl. reflexivity. }
  assert (Hst1 : stt m1 (- dr) = eend e).
  { unfold stt. rewrite elab_opp, Edr, (sp_edge _ _ _ _ _ _ _ _ Sp), Nat.eqb_refl. unfold e_st. destruct (Z.ltb_spec 0 (- dr)); [lia | reflexivity]. }
  assert (Hlive : forall x nd, nAt m x = Some nd -> (x < length (nodes m))%nat) by (intros x nd Hx; apply (tget_lt _ _ _ Hx)).
  assert (Hsn : estart e <> length (nodes m)).
  { pose proof (sv_dl m l e _ _ _ m1 r V He Sp) as Hin. pose proof (si_node _ _ (sv_si _ V) _ Hin) as K. fold dl in K.
    assert (Es : stt m dl = estart e) by (unfold stt, dl; rewrite (elab_of_nat l), He; unfold e_st; destruct (Z.ltb_spec 0 (Z.of_nat l)); [reflexivity | lia]).
    rewrite Es in K. destruct (nAt m (estart e)) as [nd|] eqn:En; [|contradiction]. pose proof (Hlive _ _ En). lia. }
  assert (Hedge : forall j, eAt m2 j = if Nat.eqb r j then None else if Nat.eqb l j then
      Some (mkEdge (estart e) (eend e) (elf e) (erf e) pts (eflags e)) else eAt m j).
  { destruct (mg_edge _ _ _ _ Mg) as (e1 & e2 & G1 & G2 & G3). intros j. rewrite G3, Edl, Edr. destruct (Nat.eqb_spec r j) as [|Nr]; [reflexivity|].
    assert (Q : forall i, eAt m0 i = eAt m1 i) by (intros i; unfold eAt; rewrite Ee0; reflexivity).
    rewrite Q in G1, G2 |- *. rewrite Edl in G1. rewrite Edr in G2.
    rewrite (sp_edge _ _ _ _ _ _ _ _ Sp) in G1, G2 |- *. rewrite Nat.eqb_refl in G1, G2.
    destruct (Nat.eqb_spec r l) as [Erl|_]; [lia|]. injection G1 as <-. injection G2 as <-.
    destruct (Nat.eqb_spec r j); [contradiction|]. destruct (Nat.eqb_spec l j) as [|Nl]; [|reflexivity].
    f_equal. unfold mergedEdge. rewrite Es0, Hst0. cbn [estart eend elf erf epts eflags].
    destruct (Nat.eqb_spec (estart e) (length (nodes m))); [contradiction|]. cbn [negb].
    rewrite Nat.eqb_refl. cbn [negb concatPts]. unfold e_st. destruct (Z.ltb_spec 0 (- dr)); [lia|]. cbn [eend]. f_equal.
    apply splitPts_join. unfold pts. destruct ins; [|assumption]. unfold insert_at. destruct (firstn _ _); discriminate. }
  assert (Hsg : forall x, In x (darts m) -> sg m2 x = sg m x /\ sgi m2 x = sgi m x).
  { intros x Hx. pose proof (proj2 (HrestD x) Hx) as Hxr.
    rewrite (mg_sg _ _ _ _ Mg x Hxr), (mg_sgi _ _ _ _ Mg x Hxr).
    assert (Q : sg m0 = sg m1 /\ sgi m0 = sgi m1) by (rewrite (fm_eq _ _ _ FM); auto). destruct Q as [-> ->].
    assert (Hx2 : In (tr (- dl) (- dr) x) (GeoMap_SplitEdge.D2 m r)).
    { apply (tr_D2 m l e k' q pts m1 r V He Sp). apply (in_D2 m r). left; assumption. }
    unfold cnj. rewrite (sv_sg m l e k' q pts m1 r V He Sp _ Hx2), (sv_sgi m l e k' q pts m1 r V He Sp _ Hx2).
    unfold cnj. fold dl dr. rewrite !tr_invol. unfold ext2.
    destruct (sv_fresh m l e k' q pts m1 r Sp x Hx) as [N1 N2]. fold dr in N1, N2. apply Z.eqb_neq in N1 as ->, N2 as ->. auto. }
  assert (Hphi : forall x, In x (darts m) -> phi m2 x = phi m x).
  { intros x Hx. unfold phi. apply Hsg. apply darts_opp; assumption. }
  assert (Hcap : cap m <= cap m2).
  { rewrite (mg_cap _ _ _ _ Mg). rewrite (fm_eq _ _ _ FM). apply (sp_cap _ _ _ _ _ _ _ _ Sp). }
  assert (V2 : SInv m2) by (apply (md_SInv m0 (- dl) dr m2 V0 D0 Mg)).
  exists m2. split; [reflexivity|].
  split. { apply isEdge_iff. rewrite Hedge. destruct (Nat.eqb_spec r l); [lia|]. rewrite Nat.eqb_refl. reflexivity. }
  pose proof (mg_elen _ _ _ _ Mg) as Ln2. rewrite Ee0, (sp_elen _ _ _ _ _ _ _ _ Sp) in Ln2. pose proof (sp_r _ _ _ _ _ _ _ _ Sp) as Lr.
  assert (HP2 : forall j, j <> l -> j <> r -> edgeP m2 j = edgeP m j).
  { intros j N1 N2. assert (X : eAt m2 j = eAt m j).
    { rewrite Hedge. destruct (Nat.eqb_spec r j); [congruence|]. destruct (Nat.eqb_spec l j); [congruence | reflexivity]. }
    unfold edgeP. unfold eAt, tget in X.
    destruct (nth_error (edges m2) j) as [o|] eqn:E1, (nth_error (edges m) j) as [o'|] eqn:E2; try reflexivity; try congruence.
    - apply nth_error_None in E2. assert (j < length (edges m2))%nat by (apply nth_error_Some; congruence). lia.
    - apply nth_error_None in E1. assert (j < length (edges m))%nat by (apply nth_error_Some; congruence). lia. }
  split. { unfold edgeP. pose proof (Hedge r) as X. rewrite Nat.eqb_refl in X. unfold eAt, tget in X.
    destruct (nth_error (edges m2) r) as [o|] eqn:E1; [rewrite X; reflexivity|]. apply nth_error_None in E1. lia. }
  split; [exact HP2|].
  assert (HNn : forall n, n <> length (nodes m) -> match nAt m n, nAt m2 n with Some a, Some b => npos b = npos a | None, None => True | _, _ => False end).
  { intros n Nn. destruct (mg_node _ _ _ _ Mg) as (nd2 & G1 & G2). destruct (sp_node _ _ _ _ _ _ _ _ Sp) as (cnd & G3 & G4).
    rewrite G2, !Es0, Hst0, Hst1. rewrite Es0, Hst1 in G1. destruct (Nat.eqb_spec (length (nodes m)) n); [congruence|].
    assert (Q : forall i, nAt m0 i = nAt m1 i) by (intros i; unfold nAt; rewrite En0; reflexivity). rewrite Q in G1 |- *.
    rewrite G4 in G1 |- *. destruct (Nat.eqb_spec (length (nodes m)) n); [congruence|].
    destruct (Nat.eqb_spec (eend e) n) as [<-|N3].
    - rewrite Nat.eqb_refl in G1. destruct (Nat.eqb_spec (length (nodes m)) (eend e)); [congruence|]. injection G1 as <-. rewrite G3. reflexivity.
    - destruct (nAt m n); auto. }
  split. { intros n nd Hn. apply isNode_iff in Hn. pose proof (Hlive _ _ Hn) as Ln. specialize (HNn n ltac:(lia)). rewrite Hn in HNn.
    destruct (nAt m2 n) as [nd'|] eqn:E'; [|contradiction]. exists nd'. split; [apply isNode_iff; assumption | assumption]. }
  split. { intros n nd Hn. apply isNode_iff in Hn. destruct (Nat.eq_dec n (length (nodes m))) as [->|Nn].
    - exfalso. destruct (mg_node _ _ _ _ Mg) as (nd2 & G1 & G2). rewrite G2, !Es0, Hst0, Nat.eqb_refl in Hn. discriminate.
    - specialize (HNn n Nn). rewrite Hn in HNn. destruct (nAt m n) as [nd'|] eqn:E'; [|contradiction]. exists nd'. apply isNode_iff; assumption. }
  assert (C0 : nodeCount m0 = nodeCount m1 /\ edgeCount m0 = edgeCount m1 /\ faceCount m0 = faceCount m1 /\ sorted m0 = sorted m1) by (rewrite (fm_eq _ _ _ FM); auto).
  destruct C0 as (C1 & C2 & C3 & C4).
  rewrite (mg_nc _ _ _ _ Mg), (mg_ec _ _ _ _ Mg), (mg_fc _ _ _ _ Mg), (mg_sorted _ _ _ _ Mg), C1, C2, C3, C4,
    (sp_nc _ _ _ _ _ _ _ _ Sp), (sp_ec _ _ _ _ _ _ _ _ Sp), (sp_fc _ _ _ _ _ _ _ _ Sp), (sp_sorted _ _ _ _ _ _ _ _ Sp).
  split; [lia|]. split; [lia|]. split; [reflexivity|]. split; [reflexivity|].
  split. { intros x. rewrite !isDart_iff. apply HD2. }
  split.
  { intros x Hx. apply isDart_iff in Hx. pose proof (proj2 (HD2 x) Hx) as Hx2. destruct (Hsg x Hx) as [S2 S3].
    unfold nextSigma, prevSigma. rewrite !getS_Ok, !getSi_Ok, !startLabel_Ok, !leftLabel_Ok by (assumption || (apply (si_cap _ _ (sv_si _ V2)); assumption) || (apply (si_cap _ _ (sv_si _ V)); assumption)).
    rewrite S2, S3. split; [reflexivity|]. split; [reflexivity|].
    assert (Ee : match eAt m2 (elab x), eAt m (elab x) with Some a, Some b => estart a = estart b /\ eend a = eend b /\ elf a = elf b /\ erf a = erf b | _, _ => False end).
    { rewrite Hedge. destruct (sv_fresh m l e k' q pts m1 r Sp x Hx) as [N1 N2].
      destruct (Nat.eqb_spec r (elab x)) as [K|K]; [exfalso; rewrite <- Edr in K; symmetry in K; apply elab_eq in K; tauto|].
      destruct (Nat.eqb_spec l (elab x)) as [<-|]; [rewrite He; auto|]. destruct (live_edge _ _ Hx) as (ex & ->). auto. }
    unfold stt, lft. destruct (eAt m2 (elab x)) as [a|], (eAt m (elab x)) as [b|]; try contradiction. destruct Ee as (Q1 & Q2 & Q3 & Q4).
    unfold e_st, e_lf. rewrite Q1, Q2, Q3, Q4. auto. }
  intros j. unfold faceP. rewrite (mg_faces _ _ _ _ Mg). pose proof (fm_face _ _ _ FM j) as K. pose proof (fm_len _ _ _ FM) as Lf.
  unfold fAt, tget in K. rewrite (sp_faces _ _ _ _ _ _ _ _ Sp) in K, Lf.
  destruct (nth_error (faces m) j) as [o|] eqn:E1, (nth_error (faces m0) j) as [o'|] eqn:E2.
  - destruct o as [f|], o' as [f'|]; auto. destruct K as (K1 & K2 & K3). split; [assumption|]. split; [assumption|].
    destruct HI as [G|M]; [rewrite (gp_f _ G) in E1; destruct j; discriminate|].
    assert (HA : forall a, In a (fanchors f) -> In a (darts m)).
    { intros a Ha. apply (fi_anchor _ _ _ _ (mi_f _ M) j (fanchors f) a); auto. unfold fanch, fAt, tget. rewrite E1. reflexivity. }
    unfold movedOff in K3. clear -K3 HA V He Sp.
    induction K3 as [|a b A B [HR HB] K IH]; [constructor|]. constructor.
    + assert (Ha : In a (darts m)) by (apply HA; left; reflexivity). apply reaches_phi; [apply (sv_si _ V) | assumption|].
      apply (sv_phi_reach m l e k' q pts m1 r V He Sp); auto. apply (sv_rest m l e k' q pts m1 r V He Sp); assumption.
    + apply IH. intros x Hx. apply HA. right; assumption.
  - apply nth_error_None in E2. assert (j < length (faces m))%nat by (apply nth_error_Some; congruence). lia.
  - apply nth_error_None in E1. assert (j < length (faces m0))%nat by (apply nth_error_Some; congruence). lia.
  - exact I.
Qed.
