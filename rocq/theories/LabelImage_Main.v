(** The properties of the label image, for every history *)
From Coq Require Import QArith Sorted.
From Verif Require Import Base Orbit FaceInv GeoMap_Model GeoMap_Views GeoMap_SInv GeoMap_MergeEdges GeoMap_Bridge GeoMap_Loops GeoMap_MInv GeoMap_Init GeoMap_History GeoMap_Geometry GeoMap_Spec GeoMap_Facts GeoMap_Results
  Scanlines_Model Scanlines_Spec ScanPoly_Model ScanPoly_Spec LabelLUT_Model
  LabelImage_Model LabelImage_Spec LabelImage_Loops LabelImage_Cover LabelImage_Cache LabelImage_Inv LabelImage_Steps LabelImage_Remove LabelImage_Pass LabelImage_Contour LabelImage_Setup LabelImage_Switch LabelImage_Relabel LabelImage_Results.
Local Open Scope Z_scope.

Section Main.
Variable srt : list seg -> list seg.
Hypothesis Hsrt : sorter srt.
Variable unit : positive.
Notation cnt := (cnt srt unit).
Notation LInv := (LInv srt unit).
Notation exec := (lexec srt unit).
Notation hist := (lhistory srt unit).

Lemma new_LInv w h : LInv (newMap w h).
Proof.
  constructor; cbn [lg lsc lim newMap].
  - apply (history_Inv (fun _ _ => True)). constructor.
  - apply geo_empty.
  - intros; discriminate.
  - reflexivity.
  - intros; discriminate.
Qed.
Lemma hist_mono (P Q : lmap -> lcall -> Prop) st : (forall s c, P s c -> Q s c) -> hist P st -> hist Q st.
Proof. intros H. induction 1; [apply lh_new; assumption | eapply lh_call; eauto]. Qed.
Lemma hist_inv st : hist tracked st -> LInv st /\ 0 <= fst (lsize st) /\ 0 <= snd (lsize st).
Proof.
  induction 1 as [w h Hw Hh|st c st' _ IH Al Tr E]; [split; [apply new_LInv | auto]|].
  destruct IH as (L & H1 & H2). pose proof (lexec_spec srt Hsrt unit st c L H1 Al Tr) as S. rewrite E in S. cbn [goodL] in S. destruct S as (L' & -> & _). auto.
Qed.
Lemma hist_area st : hist (counted unit) st -> areaOK st.
Proof.
  intros H. induction H as [w h Hw Hh|st c st' H IH Al Ct E]; [apply areaOK_off; reflexivity|].
  destruct (hist_inv st (hist_mono _ _ st (fun s c (K : counted unit s c) => proj1 K) H)) as (L & H1 & H2).
  pose proof (lexec_spec srt Hsrt unit st c L H1 Al (proj1 Ct)) as S. rewrite E in S. cbn [goodL] in S. apply S; assumption.
Qed.

(** ** C19 *)
Theorem edge_counts st x y v : hist tracked st -> pixel st x y v ->
  exists L, edgesAcross unit (lg st) x y L /\ (L <> [] -> v = - Z.of_nat (length L)) /\
    (L = [] -> 0 <= v /\ exists f fc, isFace (lg st) f fc /\ showsFace st x y f).
Proof.
  intros H (img & Hi & Hx & Hy & <-). destruct (hist_inv st H) as (L & _ & _). destruct (cnt_exists srt Hsrt unit (lg st) x y) as (Lx & HL). pose proof (cnt_list srt Hsrt unit _ _ _ _ HL) as Q.
  assert (Hin : insideB img x y = true) by (apply LabelImage_Loops.insideB_iff; auto). exists Lx. split; [exact HL|]. pose proof (li_img _ _ _ L img Hi) as II. split.
  - intros N. rewrite (ii_cross _ _ _ _ II x y Hin), Q; [reflexivity|]. rewrite Q. destruct Lx; [congruence | cbn; lia].
  - intros ->. destruct (ii_free _ _ _ _ II x y Hin Q) as (f & Rf). split; [apply Rf|]. pose proof Rf as (_ & _ & Lf). destruct (fAt (lg st) f) as [fc|] eqn:Ef; [|congruence]. exists f, fc. split; [apply isFace_iff, Ef|].
    apply (R_shows srt unit st x y f L). exists img. auto.
Qed.

Lemma across_one st l x y : edgesAcross unit (lg st) x y [l] <-> LabelImage_Cache.ind srt unit (lg st) x y l = 1 /\ cnt (lg st) x y = 1.
Proof.
  split.
  - intros H. pose proof (cnt_list srt Hsrt unit _ _ _ _ H) as Q. split; [|exact Q]. apply (ind_one srt Hsrt unit), H. left. reflexivity.
  - intros [H1 H2]. apply (ind_one srt Hsrt unit) in H1. destruct (cnt_exists srt Hsrt unit (lg st) x y) as (Lx & HL). pose proof (cnt_list srt Hsrt unit _ _ _ _ HL) as Q. rewrite H2 in Q.
    pose proof HL as [N K]. apply K in H1. destruct Lx as [|a [|b Lx]]; cbn in Q; try lia. destruct H1 as [->|[]]. exact HL.
Qed.
Lemma took_out st l s ren st' out : LInv st -> tookOut srt unit st l s ren st' out -> lim st <> None ->
  forall x y, In (x, y) out <-> within st x y /\ edgesAcross unit (lg st) x y [l].
Proof.
  intros L [_ _ Ti] Hl x y. destruct (lim st) as [img|] eqn:Hi; [|congruence]. destruct (lim st'); [|contradiction]. destruct Ti as (_ & K & _). rewrite K, across_one, (within_iff st img x y Hi). reflexivity.
Qed.

Theorem bridge_pixels hk st d st' f out : hist tracked st -> lim st <> None -> lremoveBridge srt unit hk st d = Ok (st', Some f, out) ->
  NoDup out /\ (forall x y, In (x, y) out <-> within st x y /\ edgesAcross unit (lg st) x y [elab d]) /\
  (forall x y g, showsFace st' x y g <-> showsFace st x y g \/ (In (x, y) out /\ g = f)) /\
  (exists fc, isFace (lg st') f fc) /\ leftLabel (lg st) d = Ok (Some f) /\ larea st' f = larea st f + Z.of_nat (length out) /\ (forall g, g <> f -> larea st' g = larea st g).
Proof.
  intros H Hl E. destruct (hist_inv st H) as (L & _ & _). pose proof (lremoveBridge_spec srt Hsrt unit hk st d L) as S. rewrite E in S. cbn [goodL] in S. destruct S as (L' & _ & H1 & _ & Hf & Hg & W & T & A1 & A2).
  assert (Hb : (elab d < length (edges (lg st)))%nat). { unfold lft in H1. destruct (eAt (lg st) (elab d)) eqn:Q; [apply tget_lt in Q; exact Q | discriminate]. }
  split; [apply T|]. split; [apply (took_out _ _ _ _ _ _ L T Hl)|]. split; [|split; [|split; [|split; assumption]]].
  - intros x y g. rewrite !(R_shows srt unit) by assumption. rewrite (took_R srt unit st (elab d) f _ st' out L L' W Hb T). split; [intros [(h & Q & <-)|Q]; auto | intros [Q|Q]; [left; exists g; auto | right; exact Q]].
  - apply Hg in Hf. destruct (fAt (lg st') f) as [fc|] eqn:Q; [|congruence]. exists fc. apply isFace_iff, Q.
  - unfold lft in H1. destruct (eAt (lg st) (elab d)) as [e|] eqn:Q; [|discriminate]. rewrite leftLabel_Ok; [unfold lft; rewrite Q; congruence|]. apply (eAt_zero _ d (Inv_SInv _ (li_inv _ _ _ L))). congruence.
Qed.

Theorem merge_pixels hk st d st' s out : hist tracked st -> lim st <> None -> lmergeFaces srt unit hk st d = Ok (st', Some s, out) ->
  exists d' mm, (d' = d \/ d' = - d) /\ leftLabel (lg st) d' = Ok (Some s) /\ leftLabel (lg st) (- d') = Ok (Some mm) /\ s <> mm /\
  NoDup out /\ (forall x y, In (x, y) out <-> within st x y /\ edgesAcross unit (lg st) x y [elab d]) /\
  (forall x y g, showsFace st' x y g <-> (showsFace st x y g /\ g <> mm) \/ (g = s /\ (showsFace st x y mm \/ In (x, y) out))) /\
  (exists fc, isFace (lg st') s fc) /\ (forall fc, ~ isFace (lg st') mm fc) /\
  larea st' s = larea st s + larea st mm + Z.of_nat (length out) /\ (forall g, g <> s -> larea st' g = larea st g).
Proof.
  intros H Hl E. destruct (hist_inv st H) as (L & _ & _). pose proof (lmergeFaces_spec srt Hsrt unit hk st d L) as S. rewrite E in S. cbn [goodL] in S. destruct S as (L' & _ & d' & mm & Hd & H1 & H2 & Ns & Hs & Hm & Hg & W & T & A1 & A2).
  pose proof (Inv_SInv _ (li_inv _ _ _ L)) as V.
  assert (Q : elab d' = elab d) by (destruct Hd as [->| ->]; [reflexivity | apply elab_opp]).
  assert (Hb : (elab d < length (edges (lg st)))%nat) by (unfold lft in H1; rewrite Q in H1; destruct (eAt (lg st) (elab d)) eqn:Q1; [apply tget_lt in Q1; exact Q1 | discriminate]).
  assert (Dd : In d' (darts (lg st))) by (apply (eAt_zero _ d' V); unfold lft in H1; destruct (eAt (lg st) (elab d')); discriminate).
  exists d', mm. split; [exact Hd|]. rewrite !leftLabel_Ok by (try apply darts_opp; exact Dd). rewrite H1, H2. split; [reflexivity|]. split; [reflexivity|]. split; [exact Ns|].
  split; [apply T|]. split; [apply (took_out _ _ _ _ _ _ L T Hl)|]. split; [|split; [|split; [|split; [lia | exact A2]]]].
  - intros x y g. rewrite !(R_shows srt unit) by assumption. rewrite (took_R srt unit st (elab d) s _ st' out L L' W Hb T). split.
    + intros [(f & K & Ef)|[K ->]]; [|auto]. destruct (Nat.eqb_spec f mm) as [->|Nf]; [right; auto | subst f; left; auto].
    + intros [[K Ng]|[-> [K|K]]]; [left; exists g; split; [exact K|]; destruct (Nat.eqb_spec g mm); congruence | left; exists mm; rewrite Nat.eqb_refl; auto | right; auto].
  - destruct (fAt (lg st') s) as [fc|] eqn:Q1; [|exfalso; apply (proj2 (Hg s) (conj Hs Ns)); exact Q1]. exists fc. apply isFace_iff, Q1.
  - intros fc K. apply isFace_iff in K. destruct (proj1 (Hg mm)) as [_ B]; [congruence | congruence].
Qed.

Theorem remove_pixels hk st d st' f out : hist tracked st -> lim st <> None -> isDart (lg st) d -> lremoveEdge srt unit hk st d = Ok (st', Some f, out) ->
  NoDup out /\ (forall x y, In (x, y) out <-> within st x y /\ edgesAcross unit (lg st) x y [elab d]) /\ (forall x y, In (x, y) out -> showsFace st' x y f).
Proof.
  intros H Hl Hd E. destruct (hist_inv st H) as (L & _ & _). assert (Dd : In d (darts (lg st))) by (apply isDart_iff; exact Hd).
  pose proof (lremoveEdge_spec srt Hsrt unit hk st d L Dd) as S. rewrite E in S. cbn [goodL] in S. destruct S as (_ & _ & [(Ef & _)|(_ & [S|S])]).
  - exfalso. destruct (lim st) as [img|] eqn:Hi; [|congruence]. apply (mi_0 _ (ii_m _ _ _ _ (li_img _ _ _ L img Hi))). unfold fAt. rewrite Ef. reflexivity.
  - destruct (bridge_pixels hk st d st' f out H Hl S) as (A & B & C & _). split; [exact A|]. split; [exact B|]. intros x y K. apply C. auto.
  - destruct (merge_pixels hk st d st' f out H Hl S) as (d' & mm & _ & _ & _ & _ & A & B & C & _). split; [exact A|]. split; [exact B|]. intros x y K. apply C. auto.
Qed.

Theorem veto_pixels hk st d st' out : hist tracked st -> lremoveBridge srt unit hk st d = Ok (st', None, out) \/ lmergeFaces srt unit hk st d = Ok (st', None, out) ->
  out = [] /\ lim st' = lim st /\ larea st' = larea st /\ (forall x y g, showsFace st' x y g <-> showsFace st x y g).
Proof.
  intros H E. destruct (hist_inv st H) as (L & _ & _).
  assert (S : LInv st' /\ st' = set_lg st (lg st') /\ out = [] /\ (forall g, fAt (lg st') g <> None <-> fAt (lg st) g <> None)).
  { destruct E as [E|E]; [pose proof (lremoveBridge_spec srt Hsrt unit hk st d L) as S | pose proof (lmergeFaces_spec srt Hsrt unit hk st d L) as S]; rewrite E in S; cbn [goodL] in S; destruct S as (L' & _ & S1 & S2 & S3 & _); auto. }
  destruct S as (L' & E' & -> & Hg). split; [reflexivity|]. split; [rewrite E'; reflexivity|]. split; [rewrite E'; reflexivity|]. intros x y g. rewrite !(R_shows srt unit) by assumption. apply (kept_R st st' E' Hg).
Qed.

Theorem faces_kept st c st' : hist tracked st -> lallowed st c -> tracked st c -> keepsFaces c -> exec st c = Ok st' ->
  (forall x y g, showsFace st' x y g <-> showsFace st x y g) /\ larea st' = larea st.
Proof.
  intros H Al Tr K E. destruct (hist_inv st H) as (L & Hw & _). pose proof (lexec_spec srt Hsrt unit st c L Hw Al Tr) as S0. rewrite E in S0. cbn [goodL] in S0. destruct S0 as (L' & _).
  assert (HR : (forall x y g, R st' x y g <-> R st x y g) /\ larea st' = larea st).
  { destruct c as [hk o|ord par wi|onoff|new mx|l|]; cbn [keepsFaces] in K; try contradiction; cbn [lexec] in E.
    - assert (Plain : plain o -> (m <- run_op hk (lg st) o ;; Ok (set_lg st m)) = Ok st' -> (forall x y g, R st' x y g <-> R st x y g) /\ larea st' = larea st).
      { intros P E'. pose proof (pass_spec srt unit hk st o L Al Tr P) as G. destruct (run_op hk (lg st) o) as [m'| | |]; cbn [bind good] in *; try discriminate. injection E' as <-. split; [|reflexivity]. destruct G as (_ & G).
        destruct (lim st) as [img|] eqn:Hi; [|intros x y g; split; intros (i & Q & _); cbn in Q; congruence]. destruct G as (_ & _ & G); [discriminate|]. apply (kept_R st (set_lg st m') eq_refl). exact G. }
      destruct o as [p|p l|s e pts l|d|d|l k p ins|d|d|l|l|l fl b|n p| |f hs sr]; try contradiction; try (apply Plain; [exact I | exact E]).
      + pose proof (lmergeEdges_spec srt Hsrt unit hk st d L) as S. destruct (lmergeEdges srt unit hk st d) as [[s r]| | |]; cbn [goodL bind fst snd] in *; try discriminate. injection E as <-. destruct S as (_ & _ & U).
        split; [apply (untouched_R srt unit); assumption | apply U].
      + pose proof (lsplitEdge_spec srt Hsrt unit hk st l k p ins L Al Tr) as S. destruct (lsplitEdge srt unit st l k p ins) as [[s r]| | |]; cbn [goodL bind fst snd] in *; try discriminate. injection E as <-. destruct S as (_ & _ & U).
        split; [apply (untouched_R srt unit); assumption | apply U].
    - destruct Al as (e & He). apply isEdge_iff in He. destruct (edgeScan_ok srt Hsrt unit st l e (LInv_cache srt unit st L) (Inv_SInv _ (li_inv _ _ _ L)) (li_geo _ _ _ L) He) as (s & sc & E1 & _ & Sn). rewrite E1 in E. cbn [bind fst] in E. injection E as <-.
      destruct Sn as [S1 S2 S3 S4 S5 _]. split; [|exact S5]. intros x y g. unfold R. rewrite S1, S3, S4. tauto.
    - injection E as <-. split; [|reflexivity]. intros x y g. apply (copy_R srt unit); exact L. }
  destruct HR as [HR Ha]. split; [|exact Ha]. intros x y g. rewrite !(R_shows srt unit) by assumption. apply HR.
Qed.

Theorem no_undefined st c : hist tracked st -> lallowed st c -> tracked st c -> ~ hazard st c ->
  (exists st', exec st c = Ok st' /\ mapPart st c st' /\ lsize st' = lsize st) \/ exec st c = Exn.
Proof.
  intros H Al Tr Nh. destruct (hist_inv st H) as (L & Hw & _). pose proof (lexec_spec srt Hsrt unit st c L Hw Al Tr) as S. destruct (exec st c) as [st'| | |]; cbn [goodL] in S; [|auto | contradiction | contradiction].
  left. exists st'. destruct S as (_ & S1 & S2 & _). auto.
Qed.

Theorem image_size st x y : hist tracked st -> lim st <> None -> (within st x y <-> 0 <= x < fst (lsize st) /\ 0 <= y < snd (lsize st)).
Proof.
  intros H Hl. destruct (hist_inv st H) as (L & _ & _). destruct (lim st) as [img|] eqn:Hi; [|congruence]. destruct (ii_size _ _ _ _ (li_img _ _ _ L img Hi)) as [<- <-]. rewrite (within_iff st img x y Hi), LabelImage_Loops.insideB_iff. reflexivity.
Qed.

(** ** pixelArea *)
Theorem pixel_areas st f fc : hist (counted unit) st -> lim st <> None -> isFace (lg st) f fc -> exists ps, pixelsOf st f ps /\ larea st f = Z.of_nat (length ps).
Proof.
  intros H Hl Hf. apply isFace_iff in Hf. destruct (hist_inv st (hist_mono _ _ st (fun s c (K : counted unit s c) => proj1 K) H)) as (L & _ & _).
  destruct (hist_area st H Hl f ltac:(congruence)) as (ps & N & E & A). exists ps. split; [|exact A]. split; [exact N|]. intros x y. rewrite (R_shows srt unit) by exact L. apply E.
Qed.

(** ** C20 *)
Lemma relabelFaces_works old new mx : forall ls tab labels, length tab = mx -> NoDup ls ->
  (forall l, In l ls -> tget old l <> None -> (nw new l < mx)%nat /\ tget tab (nw new l) = None) ->
  (forall l1 l2, In l1 ls -> In l2 ls -> tget old l1 <> None -> tget old l2 <> None -> nw new l1 = nw new l2 -> l1 = l2) ->
  exists tab', fst (relabelFaces old new mx ls tab labels) = Some tab'.
Proof.
  induction ls as [|l ls IH]; intros tab labels Hl ND H1 H2; cbn [relabelFaces]; [eexists; reflexivity|]. inversion ND as [|? ? Nl ND']; subst.
  destruct (nth l old None) as [f|] eqn:Ef.
  - assert (Lf : tget old l <> None) by (rewrite tget_nth, Ef; discriminate). destruct (H1 l (or_introl eq_refl) Lf) as [B T]. fold (nw new l). destruct (Nat.ltb_spec (nw new l) (length tab)); [cbn [negb]|lia].
    destruct (isLive (nth (nw new l) tab None)) eqn:Q; [apply isLive_tget in Q; congruence|]. apply IH; [apply list_upd_length | exact ND' | | intros; apply H2; auto; right; assumption].
    intros k Hk Lk. destruct (H1 k (or_intror Hk) Lk) as [B' T']. split; [exact B'|]. rewrite tget_upd. destruct (Nat.eqb_spec (nw new l) (nw new k)) as [Q1|Q1]; [|exact T']. apply H2 in Q1; auto; [subst; contradiction | left; reflexivity | right; exact Hk].
  - apply IH; auto; [intros k Hk; apply H1; right; exact Hk | intros; apply H2; auto; right; assumption].
Qed.

Lemma renameEdges_noexn new : forall ls m, renameEdges m new ls = Exn -> ~ forall l, In l ls -> (l < length (edges m))%nat.
Proof.
  induction ls as [|l ls IH]; intros m Er H; cbn [renameEdges] in Er; [discriminate|].
  unfold edgeP in Er. destruct (nth_error (edges m) l) as [[e|]|] eqn:N; cbn [deref bind] in Er; [| discriminate|apply nth_error_None in N; specialize (H l (or_introl eq_refl)); lia].
  destruct (elf e) as [a|]; [|discriminate]. destruct (erf e) as [b|]; [|discriminate]. destruct (vget new a) as [a'| | |] eqn:V1; cbn [bind] in Er; try discriminate; [|exfalso; unfold vget in V1; destruct (nth_error new a); discriminate V1].
  destruct (vget new b) as [b'| | |] eqn:V2; cbn [bind] in Er; try discriminate; [|exfalso; unfold vget in V2; destruct (nth_error new b); discriminate V2]. apply (IH _ Er). intros k Hk. unfold putE. cbn [edges set_edges]. rewrite list_upd_length. apply H. right. exact Hk.
Qed.

Theorem relabel_renames st new mx : hist tracked st -> nth_error new 0 = Some 0%nat -> length new = length (faces (lg st)) -> faces (lg st) <> [] ->
  (forall l f, isFace (lg st) l f -> (nth l new 0 < mx)%nat) -> (forall l k f g, isFace (lg st) l f -> isFace (lg st) k g -> nth l new 0%nat = nth k new 0%nat -> l = k) ->
  exists st', changeFaceLabels st new mx = Ok st' /\
    (forall l f, isFace (lg st) l f -> isFace (lg st') (nth l new 0%nat) f) /\ (forall k f, isFace (lg st') k f -> exists l, isFace (lg st) l f /\ nth l new 0%nat = k) /\
    (forall d, isDart (lg st) d <-> isDart (lg st') d) /\
    (forall d, isDart (lg st) d -> exists a, leftLabel (lg st) d = Ok (Some a) /\ leftLabel (lg st') d = Ok (Some (nth a new 0%nat))) /\
    (forall x y v, v < 0 -> (pixel st x y v <-> pixel st' x y v)) /\
    (forall l f x y, isFace (lg st) l f -> (showsFace st x y l <-> showsFace st' x y (nth l new 0%nat))) /\
    (forall l f, isFace (lg st) l f -> larea st' (nth l new 0%nat) = larea st l) /\ nodes (lg st') = nodes (lg st) /\ sg (lg st') = sg (lg st).
Proof.
  intros H H0 Hn Hf Hmx Hinj. destruct (hist_inv st H) as (L & _ & _). pose proof (changeFaceLabels_spec srt unit st new mx L H0) as S.
  assert (Lv : forall l, tget (faces (lg st)) l <> None -> exists f, isFace (lg st) l f) by (intros l Hl; destruct (tget (faces (lg st)) l) as [f|] eqn:Q; [exists f; apply isFace_iff; exact Q | congruence]).
  assert (Ex : exists st', changeFaceLabels st new mx = Ok st').
  { destruct (relabelFaces_works (faces (lg st)) new mx (seq 0 (length new)) (repeat None mx) (seq 0 (length new))) as (tab & Et); [apply repeat_length | apply seq_NoDup | | |].
    - intros l _ Hl. destruct (Lv l Hl) as (f & Hff). split; [apply (Hmx l f Hff) | apply tget_repeat].
    - intros l1 l2 _ _ K1 K2 Q. destruct (Lv l1 K1) as (f1 & F1), (Lv l2 K2) as (f2 & F2). apply (Hinj l1 l2 f1 f2 F1 F2 Q).
    - unfold changeFaceLabels in *. cbv zeta in *. destruct (Nat.eqb_spec (length (faces (lg st))) 0) as [Q|_]; [destruct (faces (lg st)); [congruence | discriminate]|].
      destruct (Nat.eqb_spec (length new) (length (faces (lg st)))); [cbn [negb] in *|contradiction]. rewrite Et in *. destruct (renameEdges _ _ _) as [m1| | |] eqn:Er; cbn [bind goodL] in *; try contradiction.
      + unfold ifImage in *. cbn [lim set_larea set_lg] in *. destruct (lim st) as [img|]; [|eexists; reflexivity]. destruct (renameRow _ _ _ _ _) as [i'| | |]  eqn:Q; cbn [bind goodL] in *; try contradiction; [eexists; reflexivity|].
        exfalso. clear - Q. revert Q. generalize img at 2. induction (allPx (iw img) (ih img)) as [|[x y] ps IH]; intros im Q; cbn [renameRow] in Q; [discriminate|].
        unfold pixGet in Q at 1. destruct (insideB img x y); cbn [bind] in Q; [|discriminate]. unfold renamePixel in Q. cbn [llut set_larea set_lg] in Q. destruct (ipx img x y >=? 0).
        * unfold lookup in Q. unfold vget in Q. destruct (nth_error (labelLUT (llut st)) (Z.to_nat (ipx img x y))) as [a|]; cbn [bind] in Q; [|discriminate Q]. destruct (nth_error new a) as [b|]; cbn [bind] in Q; [|discriminate Q].
          unfold pixPut in Q. destruct (insideB im x y); cbn [bind] in Q; [|discriminate]. apply (IH _ Q).
        * cbn [bind] in Q. unfold pixPut in Q. destruct (insideB im x y); cbn [bind] in Q; [|discriminate]. apply (IH _ Q).
      + exfalso. apply (renameEdges_noexn _ _ _ Er). intros l Hl. apply liveFrom_in in Hl. destruct Hl as [_ Hl]. cbn. destruct (tget (edges (lg st)) l) eqn:Q; [apply tget_lt in Q; exact Q | congruence]. }
  destruct Ex as (st' & E). rewrite E in S. cbn [goodL] in S. destruct S as (L' & Rn & _). exists st'. split; [exact E|].
  assert (Md : forall d, isDart (lg st) d <-> isDart (lg st') d) by (intros d; rewrite !isDart_iff, (rf_darts _ _ (rn_rel _ _ _ Rn)); reflexivity).
  assert (M : MInv (lg st)) by (apply Inv_MInv; [apply L | exact Hf]).
  split; [|split; [|split; [exact Md|split; [|split; [|split; [|split; [|split]]]]]]].
  - intros l f K. apply isFace_iff in K. apply isFace_iff. apply (rn_face _ _ _ Rn _ _ K).
  - intros k f K. apply isFace_iff in K. destruct (rn_from _ _ _ Rn k) as (l & Hl & Q); [congruence|]. exists l. split; [|exact Q]. apply isFace_iff. destruct (fAt (lg st) l) as [f'|] eqn:Ef; [|congruence]. apply (rn_face _ _ _ Rn) in Ef. fold (nw new l) in Q. rewrite Q, K in Ef. congruence.
  - intros d Hd. pose proof (proj1 (Md d) Hd) as Hd'. apply isDart_iff in Hd, Hd'. rewrite !leftLabel_Ok by assumption. rewrite (rn_lft _ _ _ Rn d). destruct (fi_cover _ _ _ _ (mi_f _ M) d Hd) as (a & A & x & K & _). exists a. rewrite K. auto.
  - intros x y v Hv. pose proof (rn_im _ _ _ Rn) as Ri. destruct (lim st) as [img|] eqn:Hi, (lim st') as [img'|] eqn:Hi'; try contradiction; [|split; intros (i & Q & _); congruence]. destruct Ri as ([Sw Sh] & Neg & Rd). split.
    + intros (i & Q & X & Y & P). assert (i = img) by congruence. subst. exists img'. split; [exact Hi'|]. rewrite Sw, Sh. split; [exact X|]. split; [exact Y|]. apply Neg; [apply LabelImage_Loops.insideB_iff; auto | lia].
    + intros (i & Q & X & Y & P). assert (i = img') by congruence. subst. rewrite Sw, Sh in *. assert (Hin : insideB img x y = true) by (apply LabelImage_Loops.insideB_iff; auto). exists img. split; [exact Hi|]. split; [exact X|]. split; [exact Y|].
      destruct (Z.lt_ge_cases (ipx img x y) 0) as [P0|P0]; [symmetry; apply (Neg x y Hin P0)|]. exfalso. pose proof (li_img _ _ _ L img Hi) as II. pose proof (cnt_nn srt unit (lg st) x y) as C.
      destruct (Z.eq_dec (cnt (lg st) x y) 0) as [K|K]; [|rewrite (ii_cross _ _ _ _ II x y Hin) in P0; lia]. destruct (ii_free _ _ _ _ II x y Hin K) as (g & Rg). destruct (Rd x y g Hin Rg). lia.
  - intros l f x y K. apply isFace_iff in K. rewrite !(R_shows srt unit) by assumption. apply (renamed_R srt unit st new st' L Rn). congruence.
  - intros l f K. apply isFace_iff in K. apply (rn_area _ _ _ Rn). congruence.
  - apply (rf_nodes _ _ (rn_rel _ _ _ Rn)).
  - apply (rf_sg _ _ (rn_rel _ _ _ Rn)).
Qed.

(** ** C21 *)
Lemma nth_list_upd_eq (v : list nat) i x : (i < length v)%nat -> nth i (list_upd v i x) 0%nat = x.
Proof. intros H. apply nth_error_nth. apply nth_error_upd_eq, H. Qed.
Lemma nth_list_upd_neq (v : list nat) i j x : i <> j -> nth j (list_upd v i x) 0%nat = nth j v 0%nat.
Proof. revert i j. induction v as [|h t IH]; intros [|i] [|j] H; cbn; auto; try congruence. Qed.
Lemma relabelFaces_fails old new mx : forall n i tab labels, (i + n <= length labels)%nat -> length tab = mx ->
  fst (relabelFaces old new mx (seq i n) tab labels) = None ->
  exists k f, (i <= k < i + n)%nat /\ tget old k = Some f /\
    ((mx <= nw new k)%nat \/ tget tab (nw new k) <> None \/ exists l g, (i <= l < k)%nat /\ tget old l = Some g /\ nw new l = nw new k) /\
    forall l, nth l (snd (relabelFaces old new mx (seq i n) tab labels)) 0%nat = if (Nat.leb i l && Nat.ltb l k && isLive (nth l old None))%bool then nw new l else nth l labels 0%nat.
Proof.
  induction n as [|n IH]; intros i tab labels Hl Ht E; cbn [seq relabelFaces] in *; [discriminate|]. destruct (nth i old None) as [f|] eqn:Ef.
  - assert (Tf : tget old i = Some f) by (rewrite tget_nth; exact Ef). fold (nw new i) in *.
    assert (Stop : forall l : nat, nth l labels 0%nat = if (Nat.leb i l && Nat.ltb l i && isLive (nth l old None))%bool then nw new l else nth l labels 0%nat).
    { intros l. destruct (Nat.leb_spec i l), (Nat.ltb_spec l i); try lia; reflexivity. }
    destruct (Nat.ltb_spec (nw new i) mx) as [B|B]; cbn [negb] in *; [|exists i, f; split; [lia|]; split; [exact Tf|]; split; [left; exact B | exact Stop]].
    destruct (isLive (nth (nw new i) tab None)) eqn:Q; [exists i, f; split; [lia|]; split; [exact Tf|]; split; [right; left; apply isLive_tget; exact Q | exact Stop]|].
    destruct (IH (Datatypes.S i) (list_upd tab (nw new i) (Some f)) (list_upd labels i (nw new i)) ltac:(rewrite list_upd_length; lia) ltac:(rewrite list_upd_length; exact Ht) E) as (k & g & Hk & Tk & Why & Lab). exists k, g. split; [lia|]. split; [exact Tk|]. split.
    + destruct Why as [W|[W|(l & g' & W1 & W2 & W3)]]; [auto| |right; right; exists l, g'; split; [lia | auto]]. rewrite tget_upd in W. destruct (Nat.eqb_spec (nw new i) (nw new k)) as [Q1|Q1]; [right; right; exists i, f; split; [lia | auto] | auto].
    + intros l. rewrite Lab. destruct (Nat.eq_dec l i) as [->|Nl].
      * destruct (Nat.leb_spec (Datatypes.S i) i), (Nat.leb_spec i i), (Nat.ltb_spec i k); try lia. cbn [andb]. rewrite Ef. cbn [isLive]. rewrite nth_list_upd_eq by lia. reflexivity.
      * destruct (Nat.leb_spec (Datatypes.S i) l), (Nat.leb_spec i l); try lia; cbn [andb]; [destruct (Nat.ltb l k && isLive (nth l old None))%bool; [reflexivity|]|]; apply nth_list_upd_neq; congruence.
  - destruct (IH (Datatypes.S i) tab labels ltac:(lia) Ht E) as (k & g & Hk & Tk & Why & Lab). exists k, g. split; [lia|]. split; [exact Tk|]. split.
    + destruct Why as [W|[W|(l & g' & W1 & W2 & W3)]]; [auto | auto | right; right; exists l, g'; split; [lia | auto]].
    + intros l. rewrite Lab. destruct (Nat.eq_dec l i) as [->|Nl].
      * rewrite Ef. cbn [isLive]. rewrite !andb_false_r. reflexivity.
      * destruct (Nat.leb_spec (Datatypes.S i) l), (Nat.leb_spec i l); try lia; reflexivity.
Qed.
Lemma renameRow_noexn t new src : forall ps img, renameRow t new src img ps <> Exn.
Proof.
  induction ps as [|[x y] ps IH]; intros im Q; cbn [renameRow] in Q; [discriminate|].
  unfold pixGet in Q at 1. destruct (insideB src x y); cbn [bind] in Q; [|discriminate]. unfold renamePixel in Q. destruct (ipx src x y >=? 0).
  - unfold lookup in Q. unfold vget in Q. destruct (nth_error (labelLUT t) (Z.to_nat (ipx src x y))) as [a|]; cbn [bind] in Q; [|discriminate Q]. destruct (nth_error new a) as [b|]; cbn [bind] in Q; [|discriminate Q].
    unfold pixPut in Q. destruct (insideB im x y); cbn [bind] in Q; [|discriminate]. apply (IH _ Q).
  - cbn [bind] in Q. unfold pixPut in Q. destruct (insideB im x y); cbn [bind] in Q; [|discriminate]. apply (IH _ Q).
Qed.

Theorem relabel_rejected st new mx : faces (lg st) <> [] -> length new = length (faces (lg st)) -> changeFaceLabels st new mx = Exn ->
  exists k f, isFace (lg st) k f /\ ((mx <= nth k new 0)%nat \/ exists l g, (l < k)%nat /\ isFace (lg st) l g /\ nth l new 0%nat = nth k new 0%nat) /\
    (forall l g, (l < k)%nat -> isFace (lg st) l g -> nth l (heldLabels st new mx) 0%nat = nth l new 0%nat) /\
    (forall l g, (k <= l)%nat -> isFace (lg st) l g -> nth l (heldLabels st new mx) 0%nat = l).
Proof.
  intros Hf Hn E. unfold changeFaceLabels in E. cbv zeta in E. destruct (Nat.eqb_spec (length (faces (lg st))) 0) as [Q|_]; [destruct (faces (lg st)); [congruence | discriminate]|].
  destruct (Nat.eqb_spec (length new) (length (faces (lg st)))); [cbn [negb] in E|contradiction].
  destruct (fst (relabelFaces (faces (lg st)) new mx (seq 0 (length new)) (repeat None mx) (seq 0 (length new)))) as [tab|] eqn:Et.
  - exfalso. destruct (renameEdges _ _ _) as [m1| | |] eqn:Er; cbn [bind] in E; try discriminate.
    + unfold ifImage in E. cbn [lim set_larea set_lg] in E. destruct (lim st) as [img|]; [|discriminate]. destruct (renameRow _ _ _ _ _) as [i'| | |] eqn:Q; cbn [bind] in E; try discriminate. apply (renameRow_noexn _ _ _ _ _ Q).
    + apply (renameEdges_noexn _ _ _ Er). intros l Hl. apply liveFrom_in in Hl. destruct Hl as [_ Hl]. cbn. destruct (tget (edges (lg st)) l) eqn:Q; [apply tget_lt in Q; exact Q | congruence].
  - destruct (relabelFaces_fails (faces (lg st)) new mx (length new) 0 (repeat None mx) (seq 0 (length new)) ltac:(rewrite seq_length; lia) (repeat_length _ _) Et) as (k & f & Hk & Tk & Why & Lab). exists k, f. split; [apply isFace_iff; exact Tk|]. split; [|split].
    + destruct Why as [W|[W|(l & g & W1 & W2 & W3)]]; [left; exact W | rewrite tget_repeat in W; congruence | right; exists l, g; split; [lia|]; split; [apply isFace_iff; exact W2 | exact W3]].
    + intros l g Hl Lg. apply isFace_iff in Lg. unfold heldLabels. rewrite Lab. destruct (Nat.leb_spec 0 l), (Nat.ltb_spec l k); try lia. unfold fAt in Lg. rewrite tget_nth in Lg. rewrite Lg. reflexivity.
    + intros l g Hl Lg. apply isFace_iff in Lg. unfold heldLabels. rewrite Lab. destruct (Nat.ltb_spec l k); try lia. rewrite andb_false_r. cbn [andb]. unfold fAt in Lg. apply tget_lt in Lg. rewrite seq_nth by lia. reflexivity.
Qed.

(** ** C42 *)
Theorem switched_on st st' : hist tracked st -> lim st = None -> exec st (LSetImage true) = Ok st' ->
  lg st' = lg st /\ lim st' <> None /\
  (forall x y f, showsFace st' x y f <-> within st' x y /\ edgesAcross unit (lg st) x y [] /\
     ((around unit (lg st) f x y /\ forall k, around unit (lg st) k x y -> (k <= f)%nat) \/ (f = 0%nat /\ forall k, ~ around unit (lg st) k x y))) /\
  (forall f fc, isFace (lg st) f fc -> f <> 0%nat -> exists ps, pixelsOf st' f ps /\ larea st' f = Z.of_nat (length ps)) /\
  (exists ps, pixelsOf st' 0 ps /\ larea st' 0%nat = larea st 0%nat + Z.of_nat (length ps)).
Proof.
  intros H Hi E. destruct (hist_inv st H) as (L & Hw & _). cbn [lexec] in E. pose proof (setHasLabelImage_spec srt Hsrt unit st true L Hw) as S. rewrite E in S. cbn [goodL] in S. rewrite Hi in S. cbn in S. destruct S as (L' & img & S).
  pose proof (sh_g _ _ _ _ _ S) as Eg. pose proof (sh_im _ _ _ _ _ S) as Ei. split; [exact Eg|]. split; [congruence|]. pose proof (li_img _ _ _ L' img Ei) as II. pose proof (ii_m _ _ _ _ II) as M. rewrite Eg in M.
  assert (Zn : forall x y, edgesAcross unit (lg st) x y [] <-> cnt (lg st) x y = 0).
  { intros x y. split; [intros K; apply (cnt_list srt Hsrt unit _ _ _ _ K)|]. intros K. destruct (cnt_exists srt Hsrt unit (lg st) x y) as (Lx & HL). pose proof (cnt_list srt Hsrt unit _ _ _ _ HL) as Q. destruct Lx; [exact HL | cbn in Q; lia]. }
  assert (Rl : forall x y f, R st' x y f <-> insideB img x y = true /\ cnt (lg st) x y = 0 /\ ipx img x y = Z.of_nat f).
  { intros x y f. split.
    - intros K. pose proof K as (i & Q & Hin & P & Lk & Lf). assert (i = img) by congruence. subst. split; [exact Hin|]. assert (C0 : cnt (lg st) x y = 0) by (rewrite <- Eg; apply (R_free srt unit st' img x y L' Ei Hin); exists f; exact K). split; [exact C0|].
      destruct (sh_free _ _ _ _ _ S x y Hin C0) as [(l & Sl & _ & Ev)|(_ & Ev)]; rewrite Ev in *.
      + rewrite (sh_lut _ _ _ _ _ S), Nat2Z.id in Lk. rewrite lookup_init in Lk by (apply fAt_len; apply (surrounds_live unit _ _ _ _ Sl)). congruence.
      + rewrite (sh_lut _ _ _ _ _ S) in Lk. change (Z.to_nat 0) with 0%nat in Lk. rewrite lookup_init in Lk by (apply fAt_len; apply (mi_0 _ M)). injection Lk as <-. reflexivity.
    - intros (Hin & C0 & Ev). exists img. split; [exact Ei|]. split; [exact Hin|]. rewrite Ev. split; [lia|]. rewrite Nat2Z.id, (sh_lut _ _ _ _ _ S), Eg.
      assert (Lf : fAt (lg st) f <> None).
      { destruct (sh_free _ _ _ _ _ S x y Hin C0) as [(l & Sl & _ & Ev')|(_ & Ev')]; rewrite Ev' in Ev; [apply Nat2Z.inj in Ev; subst; apply (surrounds_live unit _ _ _ _ Sl) | assert (f = 0%nat) by lia; subst; apply (mi_0 _ M)]. }
      split; [apply lookup_init, fAt_len, Lf | exact Lf]. }
  assert (Px : forall f, pixelsOf st' f (filter (fun p => cnt (lg st) (fst p) (snd p) =? 0) (holdList img (Z.of_nat f))) /\ filter (fun p => cnt (lg st) (fst p) (snd p) =? 0) (holdList img (Z.of_nat f)) = holdList img (Z.of_nat f)).
  { intros f. destruct (holdList_ok img (Z.of_nat f)) as [N1 N2]. split.
    - split; [apply NoDup_filter, N1|]. intros x y. rewrite filter_In, N2. cbn [fst snd]. rewrite Z.eqb_eq, (R_shows srt unit st' x y f L'), Rl. tauto.
    - assert (G : forall ps, (forall x y, In (x, y) ps -> cnt (lg st) x y = 0) -> filter (fun p => cnt (lg st) (fst p) (snd p) =? 0) ps = ps).
      { induction ps as [|[x y] ps IH]; intros K; [reflexivity|]. cbn [filter fst snd]. rewrite (K x y (or_introl eq_refl)). cbn. f_equal. apply IH. intros; apply K; right; assumption. }
      apply G. intros x y K. apply N2 in K. destruct K as [Hin Ev]. pose proof (cnt_nn srt unit (lg st) x y) as C. destruct (Z.eq_dec (cnt (lg st) x y) 0); [assumption|]. rewrite (sh_cross _ _ _ _ _ S x y Hin) in Ev; lia. }
  split; [|split].
  - intros x y f. rewrite (R_shows srt unit st' x y f L'), Rl, (within_iff st' img x y Ei), Zn. pose proof (fun k => around_iff unit (lg st) k x y M) as Ai. split.
    + intros (Hin & C0 & Ev). split; [exact Hin|]. split; [exact C0|]. destruct (sh_free _ _ _ _ _ S x y Hin C0) as [(l & Sl & Mx & Ev')|(Sn & Ev')]; rewrite Ev' in Ev.
      * apply Nat2Z.inj in Ev. subst. left. split; [apply Ai, Sl | intros k K; apply Mx, Ai, K].
      * right. split; [lia|]. intros k K. apply (Sn k), Ai, K.
    + intros (Hin & C0 & K). split; [exact Hin|]. split; [exact C0|]. destruct (sh_free _ _ _ _ _ S x y Hin C0) as [(l & Sl & Mx & ->)|(Sn & ->)].
      * destruct K as [(K1 & K2)|(_ & K2)]; [|exfalso; apply (K2 l), Ai, Sl]. f_equal. specialize (K2 l (proj2 (Ai l) Sl)). specialize (Mx f (proj1 (Ai f) K1)). lia.
      * destruct K as [(K1 & _)|(-> & _)]; [exfalso; apply (Sn f), Ai, K1 | reflexivity].
  - intros f fc Hf Nf. apply isFace_iff in Hf. exists (holdList img (Z.of_nat f)). destruct (Px f) as [P1 P2]. rewrite P2 in P1. split; [exact P1|]. rewrite (sh_area _ _ _ _ _ S f) by congruence. destruct (Nat.eqb_spec f 0); [contradiction | reflexivity].
  - exists (holdList img 0). destruct (Px 0%nat) as [P1 P2]. rewrite P2 in P1. split; [exact P1|]. rewrite (sh_area _ _ _ _ _ S 0%nat) by (apply (mi_0 _ M)). reflexivity.
Qed.

Theorem switch_again st st1 st2 st3 : hist tracked st -> lim st = None -> exec st (LSetImage true) = Ok st1 -> exec st1 (LSetImage false) = Ok st2 -> exec st2 (LSetImage true) = Ok st3 ->
  lg st3 = lg st1 /\ (forall x y v, pixel st3 x y v <-> pixel st1 x y v) /\ (forall x y f, showsFace st3 x y f <-> showsFace st1 x y f) /\
  (forall f fc, isFace (lg st) f fc -> f <> 0%nat -> larea st3 f = larea st1 f).
Proof.
  intros H Hi E1 E2 E3. assert (H1 : hist tracked st1) by (apply (lh_call srt unit tracked st (LSetImage true) st1 H I I E1)). assert (H2 : hist tracked st2) by (apply (lh_call srt unit tracked st1 (LSetImage false) st2 H1 I I E2)).
  assert (H3 : hist tracked st3) by (apply (lh_call srt unit tracked st2 (LSetImage true) st3 H2 I I E3)).
  destruct (switched_on st st1 H Hi E1) as (G1 & L1 & F1 & A1 & _).
  assert (Es2 : st2 = set_lim st1 None). { cbn [lexec] in E2. unfold setHasLabelImage in E2. destruct (lim st1); [|congruence]. cbn in E2. congruence. }
  assert (Hi2 : lim st2 = None) by (rewrite Es2; reflexivity). assert (G2 : lg st2 = lg st1) by (rewrite Es2; reflexivity).
  destruct (switched_on st2 st3 H2 Hi2 E3) as (G3 & L3 & F3 & A3 & _). rewrite G2, G1 in *.
  assert (Sz : lsize st3 = lsize st1).
  { assert (lsize st2 = lsize st1) by (rewrite Es2; reflexivity). destruct (no_undefined st2 (LSetImage true) H2 I I) as [(s & Q & _ & Q1)|Q]; [|rewrite E3 in Q; injection Q as ->; congruence | congruence].
    intros [_ K]. destruct (hist_inv st1 H1) as (Lv & _). destruct (lim st1) as [img|] eqn:Q; [|congruence]. apply (mi_0 _ (ii_m _ _ _ _ (li_img _ _ _ Lv img Q))). unfold fAt. rewrite G1, <- G2, K. reflexivity. }
  assert (Wt : forall x y, within st3 x y <-> within st1 x y) by (intros x y; rewrite (image_size st3 x y H3 L3), (image_size st1 x y H1 L1), Sz; reflexivity).
  assert (Sh : forall x y f, showsFace st3 x y f <-> showsFace st1 x y f) by (intros x y f; rewrite F3, F1, Wt; reflexivity).
  split; [exact G3|]. split; [|split; [exact Sh|]].
  - destruct (hist_inv st1 H1) as (Lv1 & _), (hist_inv st3 H3) as (Lv3 & _). destruct (lim st1) as [i1|] eqn:Q1; [|congruence]. destruct (lim st3) as [i3|] eqn:Q3; [|congruence].
    assert (Pe : forall x y, within st1 x y -> ipx i3 x y = ipx i1 x y).
    { intros x y W1. pose proof (proj2 (Wt x y) W1) as W3. pose proof (proj1 (within_iff st1 i1 x y Q1) W1) as In1. pose proof (proj1 (within_iff st3 i3 x y Q3) W3) as In3.
      pose proof (li_img _ _ _ Lv1 i1 Q1) as I1. pose proof (li_img _ _ _ Lv3 i3 Q3) as I3. pose proof (cnt_nn srt unit (lg st) x y) as C.
      destruct (Z.eq_dec (cnt (lg st) x y) 0) as [K|K].
      - cbn [lexec] in E1, E3. destruct (hist_inv st H) as (L & Hw & _). destruct (hist_inv st2 H2) as (Lv2 & Hw2 & _). pose proof (setHasLabelImage_spec srt Hsrt unit st true L Hw) as S1. rewrite E1, Hi in S1. cbn in S1. destruct S1 as (_ & j1 & S1).
        pose proof (setHasLabelImage_spec srt Hsrt unit st2 true Lv2 Hw2) as S3. rewrite E3, Hi2 in S3. cbn in S3. destruct S3 as (_ & j3 & S3). pose proof (sh_im _ _ _ _ _ S1). pose proof (sh_im _ _ _ _ _ S3). assert (j1 = i1) by congruence. assert (j3 = i3) by congruence. subst j1 j3.
        pose proof (sh_free _ _ _ _ _ S3 x y In3) as Z3. rewrite G2 in Z3. specialize (Z3 K). destruct (sh_free _ _ _ _ _ S1 x y In1 K) as [(l & B1 & B2 & ->)|(B1 & ->)], Z3 as [(l' & B1' & B2' & ->)|(B1' & ->)].
        + f_equal. specialize (B2 _ B1'). specialize (B2' _ B1). lia.
        + exfalso. apply (B1' l B1).
        + exfalso. apply (B1 l' B1').
        + reflexivity.
      - pose proof (ii_cross _ _ _ _ I1 x y In1) as X1. pose proof (ii_cross _ _ _ _ I3 x y In3) as X3. rewrite G1 in X1. rewrite G3 in X3. rewrite X1, X3 by lia. reflexivity. }
    intros x y v. split; intros (i & Q & X & Y & P).
    + assert (i = i3) by congruence. subst. assert (W : within st1 x y) by (apply Wt; exists i3; auto). rewrite (Pe x y W). destruct W as (i & Q' & X' & Y'). assert (i = i1) by congruence. subst. exists i1. auto.
    + assert (i = i1) by congruence. subst. assert (W : within st1 x y) by (exists i1; auto). rewrite <- (Pe x y W). apply Wt in W. destruct W as (i & Q' & X' & Y'). assert (i = i3) by congruence. subst. exists i3. auto.
  - intros f fc Hf Nf. destruct (A1 f fc Hf Nf) as (p1 & [N1 P1] & ->). destruct (A3 f fc Hf Nf) as (p3 & [N3 P3] & ->). f_equal. apply Nat.le_antisymm; apply NoDup_incl_length; auto; intros [x y] K; [apply P3 in K; apply P1, Sh, K | apply P1 in K; apply P3, Sh, K].
Qed.

(** off and on: the numbers of edges are the same, and a face pixel is the same if its face is the one with the greatest label around it *)
Theorem switch_off_on st st1 st2 : hist tracked st -> lim st <> None -> exec st (LSetImage false) = Ok st1 -> exec st1 (LSetImage true) = Ok st2 ->
  lg st2 = lg st /\ (forall x y v, v < 0 -> (pixel st2 x y v <-> pixel st x y v)) /\
  (forall x y f, showsFace st x y f -> (showsFace st2 x y f <->
     (around unit (lg st) f x y /\ forall k, around unit (lg st) k x y -> (k <= f)%nat) \/ (f = 0%nat /\ forall k, ~ around unit (lg st) k x y))).
Proof.
  intros H Hl E1 E2. assert (H1 : hist tracked st1) by (apply (lh_call srt unit tracked st (LSetImage false) st1 H I I E1)). assert (H2 : hist tracked st2) by (apply (lh_call srt unit tracked st1 (LSetImage true) st2 H1 I I E2)).
  assert (Es : st1 = set_lim st None). { cbn [lexec] in E1. unfold setHasLabelImage in E1. destruct (lim st); [|congruence]. cbn in E1. congruence. }
  assert (Hi1 : lim st1 = None) by (rewrite Es; reflexivity). assert (G1 : lg st1 = lg st) by (rewrite Es; reflexivity).
  destruct (switched_on st1 st2 H1 Hi1 E2) as (G2 & L2 & F2 & _). rewrite G1 in *. split; [exact G2|].
  destruct (hist_inv st H) as (Lv & _), (hist_inv st2 H2) as (Lv2 & _).
  assert (Sz : lsize st2 = lsize st).
  { assert (lsize st1 = lsize st) by (rewrite Es; reflexivity). destruct (no_undefined st1 (LSetImage true) H1 I I) as [(s & Q & _ & Q1)|Q]; [|rewrite E2 in Q; injection Q as ->; congruence | congruence].
    intros [_ K]. destruct (lim st) as [img|] eqn:Q; [|congruence]. apply (mi_0 _ (ii_m _ _ _ _ (li_img _ _ _ Lv img Q))). unfold fAt. rewrite <- G1, K. reflexivity. }
  assert (Wt : forall x y, within st2 x y <-> within st x y) by (intros x y; rewrite (image_size st2 x y H2 L2), (image_size st x y H Hl), Sz; reflexivity).
  destruct (lim st) as [i0|] eqn:Q0; [|congruence]. destruct (lim st2) as [i2|] eqn:Q2; [|congruence]. pose proof (li_img _ _ _ Lv i0 Q0) as I0. pose proof (li_img _ _ _ Lv2 i2 Q2) as I2.
  split.
  - intros x y v Hv. pose proof (cnt_nn srt unit (lg st) x y) as C.
    assert (K : forall i s, lim s = Some i -> lg s = lg st -> LInv s -> pixel s x y v <-> within s x y /\ 0 < cnt (lg st) x y /\ v = - cnt (lg st) x y).
    { intros i s Qs Gs Ls. pose proof (li_img _ _ _ Ls i Qs) as Is. rewrite (within_iff s i x y Qs). split.
      - intros (j & Q & X & Y & P). assert (j = i) by congruence. subst j. assert (Hin : insideB i x y = true) by (apply LabelImage_Loops.insideB_iff; auto). split; [exact Hin|].
        destruct (Z.eq_dec (cnt (lg st) x y) 0) as [K|K]; [exfalso; destruct (ii_free _ _ _ _ Is x y Hin) as (f & F & _); [rewrite Gs; exact K | lia]|]. pose proof (ii_cross _ _ _ _ Is x y Hin) as X1. rewrite Gs in X1. split; [lia|]. rewrite <- P. apply X1. lia.
      - intros (Hin & Cp & ->). exists i. split; [exact Qs|]. pose proof (ii_cross _ _ _ _ Is x y Hin) as X1. rewrite Gs in X1. apply LabelImage_Loops.insideB_iff in Hin. split; [apply Hin|]. split; [apply Hin|]. apply X1, Cp. }
    rewrite (K i2 st2 Q2 G2 Lv2), (K i0 st Q0 eq_refl Lv), Wt. reflexivity.
  - intros x y f Sf. rewrite F2, Wt. assert (Z0 : edgesAcross unit (lg st) x y []).
    { apply (R_shows srt unit) in Sf; [|exact Lv]. pose proof Sf as (i & Q & Hin & _). assert (C0 : cnt (lg st) x y = 0) by (apply (R_free srt unit st i x y Lv Q Hin); exists f; exact Sf).
      destruct (cnt_exists srt Hsrt unit (lg st) x y) as (Lx & HL). pose proof (cnt_list srt Hsrt unit _ _ _ _ HL) as Q1. destruct Lx; [exact HL | cbn in Q1; lia]. }
    split; [tauto|]. intros K. split; [apply Sf|]. auto.
Qed.

(** ** initializeMap *)
Theorem init_paints st ord par st' : hist tracked st -> lallowed st (LInit ord par true) -> exec st (LInit ord par true) = Ok st' ->
  lim st' <> None /\ forall x y f, showsFace st' x y f <-> within st' x y /\ edgesAcross unit (lg st') x y [] /\
    ((exists a b, ord = a ++ f :: b /\ around unit (lg st') f x y /\ forall k, In k b -> ~ around unit (lg st') k x y) \/ (f = 0%nat /\ forall k, In k ord -> ~ around unit (lg st') k x y)).
Proof.
  intros H Al E. destruct (hist_inv st H) as (L & Hw & _). cbn [lexec] in E. pose proof (linit_spec srt Hsrt unit st ord par true L Hw Al) as S. rewrite E in S. cbn [goodL] in S. destruct S as (L' & _ & _ & _ & img & B).
  pose proof (bg_im _ _ _ _ _ _ B) as Ei. split; [congruence|]. pose proof (li_img _ _ _ L' img Ei) as II. pose proof (ii_m _ _ _ _ II) as M.
  assert (Zn : forall x y, edgesAcross unit (lg st') x y [] <-> cnt (lg st') x y = 0).
  { intros x y. split; [intros K; apply (cnt_list srt Hsrt unit _ _ _ _ K)|]. intros K. destruct (cnt_exists srt Hsrt unit (lg st') x y) as (Lx & HL). pose proof (cnt_list srt Hsrt unit _ _ _ _ HL) as Q. destruct Lx; [exact HL | cbn in Q; lia]. }
  intros x y f. pose proof (fun k => around_iff unit (lg st') k x y M) as Ai. rewrite (R_shows srt unit st' x y f L'), (within_iff st' img x y Ei), Zn.
  assert (Val : forall l, fAt (lg st') l <> None -> ipx img x y = Z.of_nat l -> insideB img x y = true -> R st' x y l).
  { intros l Hl Ev Hin. exists img. split; [exact Ei|]. split; [exact Hin|]. rewrite Ev. split; [lia|]. rewrite Nat2Z.id, (bg_lut _ _ _ _ _ _ B). split; [apply lookup_init, fAt_len, Hl | exact Hl]. }
  split.
  - intros K. pose proof K as (i & Q & Hin & _). assert (i = img) by congruence. subst i. assert (C0 : cnt (lg st') x y = 0) by (apply (R_free srt unit st' img x y L' Ei Hin); exists f; exact K). split; [exact Hin|]. split; [exact C0|].
    destruct (bg_free _ _ _ _ _ _ B x y Hin C0) as [(l & (a & b & -> & Sl & Nb) & Ev)|(Sn & Ev)].
    + left. assert (R st' x y l) by (apply Val; auto; apply (surrounds_live unit _ _ _ _ Sl)). assert (f = l) by (apply (R_fun st' x y); assumption). subst l. exists a, b. split; [reflexivity|]. split; [apply Ai, Sl|]. intros k Hk Q'. apply (Nb k Hk), Ai, Q'.
    + right. assert (R st' x y 0%nat) by (apply Val; auto; apply (mi_0 _ M)). split; [apply (R_fun st' x y); assumption|]. intros k Hk Q'. apply (Sn k Hk), Ai, Q'.
  - intros (Hin & C0 & K). destruct (bg_free _ _ _ _ _ _ B x y Hin C0) as [(l & Lo & Ev)|(Sn & Ev)].
    + assert (Rl : R st' x y l) by (apply Val; auto; destruct Lo as (a & b & _ & Sl & _); apply (surrounds_live unit _ _ _ _ Sl)). destruct K as [(a & b & Eo & Sf & Nb)|(-> & Nb)].
      * assert (Lo' : lastOf (surrounds unit (lg st') x y) ord f). { exists a, b. split; [exact Eo|]. split; [apply Ai, Sf|]. intros k Hk Q. apply (Nb k Hk), Ai, Q. }
        assert (f = l); [|subst; exact Rl].
        destruct Lo as (a' & b' & Eo' & Sl & Nb'), Lo' as (a2 & b2 & Eo2 & Sf2 & Nb2). rewrite Eo' in Eo2. clear - Eo2 Sl Nb' Sf2 Nb2. revert a2 Eo2. induction a' as [|z a' IH]; intros [|z' a2] Eo2; cbn in Eo2.
        -- congruence.
        -- injection Eo2 as -> ->. exfalso. apply (Nb' f); [apply in_app_iff; right; left; reflexivity | exact Sf2].
        -- injection Eo2 as -> <-. exfalso. apply (Nb2 l); [apply in_app_iff; right; left; reflexivity | exact Sl].
        -- injection Eo2 as -> Q. apply (IH a2 Q).
      * exfalso. destruct Lo as (a & b & -> & Sl & _). apply (Nb l); [apply in_app_iff; right; left; reflexivity | apply Ai, Sl].
    + destruct K as [(a & b & -> & Sf & Nb)|(-> & Nb)]; [exfalso; apply (Sn f); [apply in_app_iff; right; left; reflexivity | apply Ai, Sf] | apply Val; auto; apply (mi_0 _ M)].
Qed.
End Main.
