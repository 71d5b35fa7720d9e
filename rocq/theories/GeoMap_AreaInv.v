(** The cached face areas stay equal to the areas enclosed by the contours. *)
From Verif Require Import Base Orbit GraphRank Euler Links FaceInv Conj
  GeoMap_Model GeoMap_Views GeoMap_SInv GeoMap_Remove GeoMap_MergeEdges GeoMap_SplitEdge GeoMap_Loops GeoMap_MInv
  GeoMap_Gone GeoMap_Bridge GeoMap_MergeFaces GeoMap_Subdiv GeoMap_Init GeoMap_Area GeoMap_Embed GeoMap_Initialize GeoMap_Sort GeoMap_Flags GeoMap_Move
  GeoMap_History GeoMap_Geometry.
Local Open Scope Z_scope.

Definition AInv m : Prop := forall l f v, fAt m l = Some f -> farea f = Some v -> v = faceSum m l.

(** ** What area() computes *)

Lemma sumAreas_sum m l A : MInv m -> (forall a, In a A -> In a (darts m) /\ lft m a = Some l) -> NoDup A ->
  (forall a b, In a A -> In b A -> reach (phi m) a b -> a = b) ->
  exists L, sumAreas m A = Ok (sumZ (raw m) L) /\ NoDup L /\ forall y, In y L <-> exists a, In a A /\ reach (phi m) a y.
Proof.
  intros M. pose proof (sv_si _ (mi_v _ M)) as HS. pose proof (phi_perm m HS) as HP.
  induction A as [|a A IH]; intros HA Hnd Hsep.
  - exists []. split; [reflexivity|]. split; [constructor|]. intros y; split; [intros [] | intros (a & [] & _)].
  - inversion Hnd as [|? ? Hna HndA]; subst. cbn [sumAreas].
    destruct (HA a (or_introl eq_refl)) as [Ha Hl].
    destruct (contourArea_spec m a HS Ha) as (L1 & HL1 & HLr1 & _).
    rewrite (contourArea_raw m a L1 HS Ha HL1 HLr1).
    + cbn [bind]. destruct IH as (L2 & -> & HL2 & HLr2).
      { intros; apply HA; right; assumption. } { assumption. } { intros; apply Hsep; simpl; auto. }
      cbn [bind]. exists (L1 ++ L2). rewrite sumZ_app. split; [f_equal; lia|]. split.
      * apply NoDup_app_intro; auto. intros y H1 H2. apply HLr1 in H1. apply HLr2 in H2 as (b & Hb & Hr).
        apply Hna. replace a with b; [assumption|]. symmetry. apply Hsep; simpl; auto.
        apply (reach_trans _ a y); [assumption|]. apply (reach_sym _ _ _ HP); [|assumption]. apply (HA b); right; assumption.
      * intros y. rewrite in_app_iff, HLr1, HLr2. split.
        -- intros [H|(b & Hb & Hr)]; [exists a; simpl; auto | exists b; simpl; auto].
        -- intros (b & [<-|Hb] & Hr); [left; assumption | right; eauto].
    + intros x Hx E. assert (Hxd : In x (darts m)) by (apply (reach_in _ _ _ HP a); assumption).
      apply (reach_trans _ a x); [assumption|].
      assert (Ex : lft m x = Some l) by (rewrite <- Hl; apply (fi_reach (darts m) (phi m) _ (lft m) (fanch m) a x HP (mi_f _ M)); assumption).
      apply (same_face_reach m x l M Hxd); congruence.
Qed.

Lemma sumAreas_faceSum m l f : MInv m -> fAt m l = Some f -> sumAreas m (fanchors f) = Ok (faceSum m l).
Proof.
  intros M Hf. pose proof (mi_f _ M) as F. pose proof (sv_si _ (mi_v _ M)) as HS. pose proof (phi_perm m HS) as HP.
  assert (HA : fanch m l = Some (fanchors f)) by (unfold fanch; rewrite Hf; reflexivity).
  destruct (sumAreas_sum m l (fanchors f) M) as (L & -> & HL & HLr).
  - intros a Ha. apply (fi_anchor _ _ _ _ F l _ a HA Ha).
  - apply (fi_nodup _ _ _ _ F l _ HA).
  - intros a b Ha Hb. apply (fi_sep _ _ _ _ F l _ a b HA Ha Hb).
  - f_equal. unfold faceSum. apply sumZ_perm, NoDup_Permutation; [assumption | apply NoDup_filter, nodup_darts|].
    intros y. rewrite HLr, filter_In, onFace_eq. split.
    + intros (a & Ha & Hr). destruct (fi_anchor _ _ _ _ F l _ a HA Ha) as [H1 H2]. split; [apply (reach_in _ _ _ HP a); assumption|].
      rewrite <- H2. apply (fi_reach (darts m) (phi m) _ (lft m) (fanch m) a y HP F); assumption.
    + intros [H1 H2]. destruct (fi_cover _ _ _ _ F y H1) as (l' & A & a & E1 & E2 & Ha & Hr).
      assert (l' = l) by congruence. subst. rewrite HA in E2. injection E2 as <-. eauto.
Qed.

(** ** Sums over the remaining darts *)

Lemma rest_perm m d : In d (darts m) -> d <> 0 -> Permutation (darts m) (d :: - d :: rest m d).
Proof.
  intros Hd H0. pose proof (darts_opp _ _ Hd) as Hd'. apply NoDup_Permutation; [apply nodup_darts | |].
  - constructor; [|constructor].
    + intros [E|Hi]; [lia|]. apply in_rest in Hi as (_ & K & _). congruence.
    + intros Hi. apply in_rest in Hi as (_ & _ & K). congruence.
    + unfold rest. repeat apply NoDup_filter. apply nodup_darts.
  - intros x. cbn [In]. rewrite in_rest. split.
    + intros Hx. destruct (Z.eq_dec x d); [auto|]. destruct (Z.eq_dec x (- d)); auto.
    + intros [<-|[<-|(Hx & _)]]; assumption.
Qed.

Lemma faceSum_as m l : faceSum m l = sumZ (fun x => if onFace m l x then raw m x else 0) (darts m).
Proof. unfold faceSum. apply sumZ_filter. Qed.

Lemma faceSum_rest m d l : In d (darts m) -> d <> 0 -> faceSum m l =
  (if onFace m l d then raw m d else 0) + (if onFace m l (- d) then raw m (- d) else 0) +
  sumZ (fun x => if onFace m l x then raw m x else 0) (rest m d).
Proof.
  intros Hd H0. rewrite faceSum_as, (sumZ_perm _ _ _ (rest_perm m d Hd H0)). cbn [sumZ]. lia.
Qed.

Lemma darts_rest_perm m m' d : (forall x, In x (darts m') <-> In x (rest m d)) -> Permutation (darts m') (rest m d).
Proof. intros H. apply NoDup_Permutation; auto; [apply nodup_darts | unfold rest; repeat apply NoDup_filter; apply nodup_darts]. Qed.

Lemma gone_raw m d m' x : EdgeGone m d m' -> In x (rest m d) -> raw m' x = raw m x.
Proof.
  intros G Hx. pose proof Hx as Hx'. apply (eg_darts _ _ _ G) in Hx'. apply in_rest in Hx as (Hx & _).
  pose proof (eg_edge _ _ _ G (elab x)) as K. destruct (live_edge _ _ Hx) as (e & Ee), (live_edge _ _ Hx') as (e' & Ee').
  rewrite Ee, Ee' in K. destruct K as (_ & _ & _ & K & _). unfold raw, dartArea. rewrite Ee, Ee', K. reflexivity.
Qed.

(** ** Polylines *)

Lemma area2_app p a q : area2 (p ++ a :: q) = area2 (p ++ [a]) + area2 (a :: q).
Proof.
  induction p as [|x p IH].
  - cbn [app]. change (area2 [a]) with 0. lia.
  - destruct p as [|y p].
    + cbn [app]. change (area2 (x :: a :: q)) with (cross x a + area2 (a :: q)). change (area2 [x; a]) with (cross x a + 0). lia.
    + cbn [app] in *. change (area2 (x :: y :: p ++ a :: q)) with (cross x y + area2 (y :: p ++ a :: q)).
      change (area2 (x :: y :: p ++ [a])) with (cross x y + area2 (y :: p ++ [a])). lia.
Qed.

Lemma area2_join p q b : hd_error (rev p) = Some b -> hd_error q = Some b -> area2 (p ++ skipn 1 q) = area2 p + area2 q.
Proof.
  intros Hp Hq. destruct q as [|b' q]; [discriminate|]. cbn in Hq. injection Hq as ->. cbn [skipn].
  destruct (rev p) as [|b' t] eqn:E; [discriminate|]. cbn in Hp. injection Hp as ->.
  assert (Ep : p = rev t ++ [b]) by (rewrite <- (rev_involutive p), E; reflexivity).
  rewrite Ep, <- app_assoc. cbn [app]. apply area2_app.
Qed.

Lemma cross_anti p q : cross q p = - cross p q.
Proof. unfold cross. lia. Qed.

Lemma area2_rev l : area2 (rev l) = - area2 l.
Proof.
  induction l as [|x l IH]; [reflexivity|]. destruct l as [|y l]; [reflexivity|].
  cbn [rev] in *. rewrite <- app_assoc. cbn [app]. rewrite area2_app, IH.
  change (area2 (x :: y :: l)) with (cross x y + area2 (y :: l)). change (area2 [y; x]) with (cross y x + 0). rewrite (cross_anti x y). lia.
Qed.

Lemma raw_dpts m d : raw m d = area2 (dpts m d).
Proof.
  unfold raw, dpts, dartArea. destruct (eAt m (elab d)) as [e|]; [|reflexivity]. destruct (0 <? d); [reflexivity|].
  rewrite area2_rev. reflexivity.
Qed.

(** area swept when the point [p] is inserted between [a] and [b] *)
Definition tri a p b : Z := cross a p + cross p b - cross a b.

Lemma area2_insert l k a b p : nth_error l k = Some a -> nth_error l (S k) = Some b ->
  area2 (insert_at l (S k) p) = area2 l + tri a p b.
Proof.
  revert k. induction l as [|x l IH]; intros k Ha Hb; [destruct k; discriminate|]. destruct k as [|k].
  - cbn in Ha. injection Ha as ->. destruct l as [|y l]; [discriminate|]. cbn in Hb. injection Hb as ->.
    unfold insert_at. cbn [firstn skipn app].
    change (area2 (a :: p :: b :: l)) with (cross a p + (cross p b + area2 (b :: l))). change (area2 (a :: b :: l)) with (cross a b + area2 (b :: l)).
    unfold tri. lia.
  - cbn [nth_error] in Ha, Hb. specialize (IH k Ha Hb). unfold insert_at in *. cbn [firstn skipn app] in *.
    destruct l as [|y l]; [destruct k; discriminate|]. cbn [firstn skipn app] in *.
    change (area2 (x :: y :: firstn k l ++ p :: skipn k l)) with (cross x y + area2 (y :: firstn k l ++ p :: skipn k l)).
    change (area2 (x :: y :: l)) with (cross x y + area2 (y :: l)). lia.
Qed.

(** splitting at a point of the polyline, or at one inserted on the line through
    the neighbouring points *)
Definition op_area m (o : op) : Prop :=
  match o with
  | OSplitEdge l k p true => forall e a b, eAt m l = Some e -> nth_error (epts e) k = Some a -> nth_error (epts e) (S k) = Some b -> tri a p b = 0
  | OSetPosition _ _ => faces m = []
  | _ => True
  end.

Lemma AInv_same m m' : AInv m -> (forall l, faceSum m' l = faceSum m l) ->
  (forall l f' v, fAt m' l = Some f' -> farea f' = Some v -> exists f, fAt m l = Some f /\ farea f = Some v) -> AInv m'.
Proof. intros A H1 H2 l f' v Hf Hv. rewrite H1. destruct (H2 l f' v Hf Hv) as (f & Ef & Ev). apply (A l f v Ef Ev). Qed.

Lemma faceSum_edges m m' l : edges m' = edges m -> faceSum m' l = faceSum m l.
Proof. intros E. unfold faceSum, onFace, raw, lft, eAt, darts, elabs, isLive, eAt. rewrite E. reflexivity. Qed.

Lemma merged_faceSum m d1 d2 m' l : SInv m -> Deg2 m d1 d2 -> Merged m d1 d2 m' -> geo m ->
  lft m d2 = lft m (- d1) -> lft m (- d2) = lft m d1 -> faceSum m' l = faceSum m l.
Proof.
  intros V D H G L1 L2. pose proof (sv_si _ V) as HS.
  pose proof (g2_1 _ _ _ D) as I1. pose proof (g2_2 _ _ _ D) as I2.
  pose proof (darts_opp _ _ I1) as I1'. pose proof (darts_opp _ _ I2) as I2'.
  pose proof (si_nz _ _ HS _ I1) as N1. pose proof (si_nz _ _ HS _ I2) as N2.
  assert (Ne : d1 <> d2) by apply D. assert (No : d1 <> - d2) by apply D.
  assert (R1 : In d1 (rest m d2)) by (apply in_rest; auto).
  assert (R1' : In (- d1) (rest m d2)) by (apply in_rest; split; [assumption | split; lia]).
  assert (Hraw : raw m' (- d1) = raw m (- d1) + raw m d2).
  { rewrite !raw_dpts, (md_pts m d1 d2 m' V D H).
    destruct (G _ I1) as [_ P1]. destruct (G _ I2) as [_ P2].
    assert (Hs : stt m d1 = stt m d2) by apply (g2_st m d1 d2 V D).
    pose proof (si_node _ _ HS _ I2) as Hn. destruct (nAt m (stt m d2)) as [nd|] eqn:En; [|contradiction].
    apply (area2_join _ _ (npos nd)).
    - rewrite <- dpts_opp by lia. rewrite Z.opp_involutive, P1, Hs. unfold pos. rewrite En. reflexivity.
    - rewrite P2. unfold pos. rewrite En. reflexivity. }
  assert (Hraw1 : raw m' d1 = raw m d1 + raw m (- d2)).
  { replace (raw m' d1) with (- raw m' (- d1)) by (rewrite <- raw_opp by lia; f_equal; lia). rewrite Hraw.
    rewrite (raw_opp m d1), (raw_opp m d2) by assumption. lia. }
  rewrite (faceSum_rest m d2 l I2 N2).
  rewrite faceSum_as, (sumZ_perm _ _ _ (darts_rest_perm m m' d2 (md_darts m d1 d2 m' H))).
  assert (Hof : forall x, In x (rest m d2) -> onFace m' l x = onFace m l x) by (intros x Hx; unfold onFace; rewrite (md_lft m d1 d2 m' H x Hx); reflexivity).
  assert (Hp : exists R, Permutation (rest m d2) (d1 :: - d1 :: R) /\ forall x, In x R -> In x (rest m d2) /\ x <> d1 /\ x <> - d1).
  { destruct (in_split _ _ R1) as (u & v & E). assert (Hi : In (- d1) (u ++ v)).
    { rewrite E in R1'. apply in_app_iff in R1' as [K|[K|K]]; apply in_app_iff; auto. lia. }
    destruct (in_split _ _ Hi) as (u' & v' & E').
    assert (P : Permutation (rest m d2) (d1 :: - d1 :: u' ++ v')).
    { rewrite E, <- Permutation_middle, E', <- Permutation_middle. reflexivity. }
    exists (u' ++ v'). split; [exact P|]. assert (Hnd : NoDup (d1 :: - d1 :: u' ++ v')).
    { apply (Permutation_NoDup P). unfold rest. repeat apply NoDup_filter. apply nodup_darts. }
    inversion Hnd as [|? ? K1 K2]; subst. inversion K2 as [|? ? K3 _]; subst.
    intros x Hx. split; [apply (Permutation_in _ (Permutation_sym P)); right; right; assumption|].
    split; intros ->; [apply K1; right | apply K3]; assumption. }
  destruct Hp as (R & HR & HRx). rewrite !(sumZ_perm _ _ _ HR). cbn [sumZ].
  rewrite (sumZ_ext (fun x => if onFace m' l x then raw m' x else 0) (fun x => if onFace m l x then raw m x else 0) R).
  2:{ intros x Hx. destruct (HRx x Hx) as (Hr & X1 & X2). rewrite (Hof x Hr). apply in_rest in Hr as (_ & X3 & X4).
      replace (raw m' x) with (raw m x); [reflexivity|]. unfold raw.
      destruct (mg_edge _ _ _ _ H) as (e1 & e2 & He1 & He2 & Hn). rewrite Hn.
      destruct (Nat.eqb_spec (elab d2) (elab x)) as [E|_]; [apply elab_eq in E; lia|].
      destruct (Nat.eqb_spec (elab d1) (elab x)) as [E|_]; [apply elab_eq in E; lia | reflexivity]. }
  rewrite (Hof _ R1), (Hof _ R1').
  replace (onFace m l d2) with (onFace m l (- d1)) by (unfold onFace; rewrite L1; reflexivity).
  replace (onFace m l (- d2)) with (onFace m l d1) by (unfold onFace; rewrite L2; reflexivity).
  rewrite Hraw, Hraw1. destruct (onFace m l d1), (onFace m l (- d1)); lia.
Qed.

Lemma split_faceSum m lb e k ps pts m' r l : SInv m -> eAt m lb = Some e -> Split m lb e k ps pts m' r ->
  pts <> [] -> area2 pts = area2 (epts e) -> area2 pts = area2 (fst (splitPts pts k)) + area2 (snd (splitPts pts k)) ->
  faceSum m' l = faceSum m l.
Proof.
  intros V He H Hne Ha Has.
  pose proof (sv_dl m lb e _ _ _ _ _ V He H) as Dl. pose proof (sv_dl' m lb e _ _ _ _ _ V He H) as Dl'.
  pose proof (sv_lr m lb e _ _ _ _ _ He H) as Hlr. pose proof (sv_l0 m lb e _ _ _ _ _ V He H) as L0.
  set (dl := Z.of_nat lb) in *. set (dr := Z.of_nat r) in *.
  assert (Hdr : In dr (darts m')) by (apply (sv_darts m lb e _ _ _ _ _ V He H), in_D2; auto).
  assert (Hr0 : dr <> 0) by (unfold dr; lia).
  rewrite (faceSum_rest m' dr l Hdr Hr0).
  assert (PR : Permutation (rest m' dr) (darts m)).
  { apply NoDup_Permutation; [unfold rest; repeat apply NoDup_filter; apply nodup_darts | apply nodup_darts|].
    intros x. apply (sv_rest m lb e _ _ _ _ _ V He H). }
  rewrite (sumZ_perm _ _ _ PR). assert (Hl0 : dl <> 0) by (unfold dl; lia).
  rewrite (faceSum_rest m dl l Dl Hl0), (sumZ_perm _ _ _ (rest_perm m dl Dl Hl0)). cbn [sumZ].
  assert (Hof : forall x, In x (darts m) -> onFace m' l x = onFace m l x) by (intros x Hx; unfold onFace; rewrite (sv_lft m lb e _ _ _ _ _ He H x Hx); reflexivity).
  rewrite (sumZ_ext (fun x => if onFace m' l x then raw m' x else 0) (fun x => if onFace m l x then raw m x else 0) (rest m dl)).
  2:{ intros x Hx. apply in_rest in Hx as (Hx & X1 & X2). rewrite (Hof x Hx).
      replace (raw m' x) with (raw m x); [reflexivity|]. unfold raw. rewrite (sp_edge _ _ _ _ _ _ _ _ H).
      destruct (sv_fresh m lb e _ _ _ _ _ H x Hx) as [F1 F2].
      destruct (Nat.eqb_spec r (elab x)) as [E|_]; [unfold elab in E; lia|].
      destruct (Nat.eqb_spec lb (elab x)) as [E|_]; [unfold elab in E; lia | reflexivity]. }
  destruct (sv_lftr m lb e _ _ _ _ _ V He H) as [Q1 Q2]. fold dl dr in Q1, Q2.
  rewrite (Hof _ Dl), (Hof _ Dl').
  replace (onFace m' l dr) with (onFace m l dl) by (unfold onFace; rewrite Q1; reflexivity).
  replace (onFace m' l (- dr)) with (onFace m l (- dl)) by (unfold onFace; rewrite Q2; reflexivity).
  rewrite !(raw_opp _ dl), !(raw_opp _ dr) by assumption.
  assert (W1 : raw m' dr = area2 (snd (splitPts pts k))).
  { unfold raw. rewrite (sp_edge _ _ _ _ _ _ _ _ H). unfold dr. rewrite elab_of_nat, Nat.eqb_refl. unfold dartArea.
    destruct (Z.ltb_spec 0 (Z.of_nat r)); [reflexivity | lia]. }
  assert (W2 : raw m' dl = area2 (fst (splitPts pts k))).
  { unfold raw. rewrite (sp_edge _ _ _ _ _ _ _ _ H). unfold dl. rewrite elab_of_nat, Nat.eqb_refl. unfold dartArea.
    destruct (Nat.eqb_spec r lb); [lia|]. destruct (Z.ltb_spec 0 (Z.of_nat lb)); [reflexivity | lia]. }
  assert (W3 : raw m dl = area2 (epts e)).
  { unfold raw. unfold dl. rewrite elab_of_nat, He. unfold dartArea. destruct (Z.ltb_spec 0 (Z.of_nat lb)); [reflexivity | lia]. }
  rewrite W1, W2, W3. destruct (onFace m l dl), (onFace m l (- dl)); lia.
Qed.

Lemma splitPts_area (l : list point) k : (0 < k)%nat -> (k < length l)%nat -> area2 l = area2 (fst (splitPts l k)) + area2 (snd (splitPts l k)).
Proof.
  intros H0 Hk. destruct k as [|k]; [lia|]. cbn [splitPts fst snd].
  destruct (skipn (S k) l) as [|a t] eqn:E.
  { pose proof (skipn_length (S k) l). rewrite E in H. cbn in H. lia. }
  assert (El : l = firstn (S k) l ++ a :: t) by (rewrite <- E; symmetry; apply firstn_skipn).
  assert (Ef : firstn (S (S k)) l = firstn (S k) l ++ [a]).
  { rewrite El at 1. rewrite firstn_app, firstn_length_le by lia. rewrite firstn_all2 by (rewrite firstn_length_le; lia).
    replace (S (S k) - S k)%nat with 1%nat by lia. reflexivity. }
  rewrite Ef. rewrite El at 1. apply area2_app.
Qed.
Lemma splitPts_area0 (l : list point) k : (k < length l)%nat -> area2 l = area2 (fst (splitPts l k)) + area2 (snd (splitPts l k)).
Proof. intros H. destruct k; [destruct l; [cbn in H; lia|]; cbn [splitPts fst snd firstn]; change (area2 [p]) with 0; lia | apply splitPts_area; lia]. Qed.

Theorem eff_area o m m' : Inv m -> geo m -> AInv m -> op_area m o -> eff o m m' -> AInv m'.
Proof.
  intros HI G A Ho E. pose proof (Inv_SInv m HI) as V. destruct E.
  - assumption.
  - apply (AInv_same m); auto. intros l0 f' v Hf Hv. exists f'. auto.
  - pose proof (addEdge_inv m sa ea pts lab V H H0) as K. rewrite H1 in K. cbn [good] in K.
    destruct K as (_ & Hf' & Hf & _). intros l f v Hl. unfold fAt in Hl. rewrite Hf', Hf in Hl. destruct l; discriminate.
  - destruct (removeEdge_graph_inv hk m d V H H0) as (m1 & R & _ & _ & _ & Hf & _). rewrite H1 in R. injection R as <-.
    intros l f v Hl. unfold fAt in Hl. rewrite Hf in Hl. destruct l; discriminate.
  - apply (AInv_same m); auto.
    + intros l. apply faceSum_edges. rewrite (fm_eq _ _ _ H0). reflexivity.
    + intros l f' v Hf Hv. pose proof (fm_face _ _ _ H0 l) as K. rewrite Hf in K. destruct (fAt m l) as [f|]; [|contradiction].
      exists f. destruct K as (K & _). split; [reflexivity | congruence].
  - destruct HI as [GP0|M].
    { intros l f v Hl. unfold fAt in Hl. rewrite (mg_faces _ _ _ _ H1), (gp_f _ GP0) in Hl. destruct l; discriminate. }
    apply (AInv_same m); auto.
    + intros l. pose proof (g2_phi m d1 d2 V H) as (P1 & P2 & _). pose proof (mi_f _ M) as F.
      apply (merged_faceSum m d1 d2); auto.
      * rewrite <- P2. apply (fi_phi _ _ _ _ F). apply darts_opp, H.
      * rewrite <- P1. symmetry. apply (fi_phi _ _ _ _ F). apply darts_opp, H.
    + intros l f' v Hf Hv. exists f'. unfold fAt in *. rewrite (mg_faces _ _ _ _ H1) in Hf. auto.
  - apply (AInv_same m); auto.
    + intros l0. eapply (split_faceSum m l e); [exact V | exact H | exact H2 | | |].
      * destruct ins; [unfold insert_at; destruct (firstn (S k) (epts e)); discriminate|].
        intros K. rewrite K in H0. cbn in H0. lia.
      * destruct ins; [|reflexivity]. destruct (nth_error (epts e) k) as [a|] eqn:Ea; [|apply nth_error_None in Ea; lia].
        destruct (nth_error (epts e) (S k)) as [b|] eqn:Eb; [|apply nth_error_None in Eb; lia].
        rewrite (area2_insert _ _ a b p Ea Eb). cbn [op_area] in Ho. rewrite (Ho e a b H Ea Eb). lia.
      * apply splitPts_area0. destruct ins; [rewrite length_insert by lia; lia | lia].
    + intros l0 f' v Hf Hv. exists f'. unfold fAt in *. rewrite (sp_faces _ _ _ _ _ _ _ _ H2) in Hf. auto.
  - pose proof (br_gone _ _ _ _ H3) as EG. pose proof (si_nz _ _ (sv_si _ V) _ H) as N0.
    apply (AInv_same m); auto.
    + intros l. rewrite (faceSum_rest m d l H N0), faceSum_as, (sumZ_perm _ _ _ (darts_rest_perm m m' d (eg_darts _ _ _ EG))).
      replace ((if onFace m l d then raw m d else 0) + (if onFace m l (- d) then raw m (- d) else 0)) with 0.
      * rewrite Z.add_0_l. apply sumZ_ext. intros x Hx. rewrite (gone_raw m d m' x EG Hx). unfold onFace.
        assert (Hx' : In x (darts m')) by (apply (eg_darts _ _ _ EG); assumption).
        rewrite (br_lft m m' d fl H3 x Hx'). reflexivity.
      * unfold onFace. rewrite H0, H1, (raw_opp m d N0). destruct (optnat_eqb _ _); lia.
    + intros l f' v Hf Hv. destruct (br_f _ _ _ _ H3) as (f & ps & a & B & Ef & _ & _ & E & _). unfold fAt in *. rewrite E in Hf.
      destruct (Nat.eq_dec fl l) as [<-|N].
      * rewrite tget_upd_eq in Hf by apply (tget_lt _ _ _ Ef). injection Hf as <-. exists f. split; [assumption | exact Hv].
      * rewrite tget_upd_neq in Hf by assumption. exists f'. auto.
  - intros l f' v Hf Hv. rewrite (faceSum_edges m) by (rewrite (ca_eq _ _ H); reflexivity).
    pose proof (ca_face _ _ H l) as K. rewrite Hf in K. destruct (fAt m l) as [f|] eqn:Ef; [|contradiction].
    destruct K as (_ & _ & [K|(_ & w & K1 & K2)]); [apply (A l f v Ef); congruence|].
    destruct HI as [GP0|M]; [unfold fAt in Ef; rewrite (gp_f _ GP0) in Ef; destruct l; discriminate|].
    rewrite (sumAreas_faceSum m l f M Ef) in K2. congruence.
  - pose proof (mf_gone _ _ _ _ _ H5) as EG. pose proof (si_nz _ _ (sv_si _ V) _ H) as N0.
    destruct (mf_f _ _ _ _ _ H5) as (sf & f2 & c1 & c2 & a1 & a2 & sa & ar & Hs & Hm & _ & _ & _ & _ & _ & Ef & Har).
    destruct H4 as (sf' & va & Hs' & Hva). rewrite Hs in Hs'. injection Hs' as <-.
    destruct (Har va Hva) as (vb & Hvb & ->). clear Har.
    assert (Hsum : forall l, faceSum m' l = sumZ (fun x => if optnat_eqb (match lft m x with Some l0 => Some (if Nat.eqb l0 mm then s else l0) | None => None end) (Some l)
                     then raw m x else 0) (rest m d)).
    { intros l. rewrite faceSum_as, (sumZ_perm _ _ _ (darts_rest_perm m m' d (eg_darts _ _ _ EG))). apply sumZ_ext. intros x Hx.
      rewrite (gone_raw m d m' x EG Hx). unfold onFace. assert (Hx' : In x (darts m')) by (apply (eg_darts _ _ _ EG); assumption).
      rewrite (mf_lft _ _ _ _ _ H5 x Hx'). reflexivity. }
    intros l f v Hl Hv. unfold fAt in Hl. rewrite Ef in Hl.
    assert (Nl : l <> mm).
    { intros ->. rewrite tget_upd_None, Nat.eqb_refl in Hl. discriminate. }
    rewrite tget_upd_neq in Hl by congruence. destruct (Nat.eq_dec s l) as [<-|Ns].
    + rewrite tget_upd_eq in Hl by apply (tget_lt _ _ _ Hs). injection Hl as <-. cbn [farea] in Hv. injection Hv as <-.
      rewrite (A s sf va Hs Hva), (A mm f2 vb Hm Hvb), Hsum, !(faceSum_rest m d) by assumption.
      replace (onFace m s d) with true by (symmetry; apply onFace_eq; assumption).
      replace (onFace m mm (- d)) with true by (symmetry; apply onFace_eq; assumption).
      replace (onFace m s (- d)) with false by (symmetry; apply Bool.not_true_iff_false; rewrite onFace_eq; congruence).
      replace (onFace m mm d) with false by (symmetry; apply Bool.not_true_iff_false; rewrite onFace_eq; congruence).
      rewrite (raw_opp m d N0).
      rewrite (sumZ_ext (fun x => if optnat_eqb _ (Some s) then raw m x else 0) (fun x => (if onFace m s x then raw m x else 0) + (if onFace m mm x then raw m x else 0))).
      * rewrite sumZ_add. lia.
      * intros x _. unfold onFace. destruct (lft m x) as [q|]; cbn [optnat_eqb]; [|lia].
        destruct (Nat.eqb_spec q mm) as [->|Nq].
        -- rewrite Nat.eqb_refl. destruct (Nat.eqb_spec mm s); [congruence | lia].
        -- destruct (Nat.eqb q s); lia.
    + rewrite tget_upd_neq in Hl by assumption. rewrite (A l f v Hl Hv), Hsum, (faceSum_rest m d) by assumption.
      replace (onFace m l d) with false by (symmetry; apply Bool.not_true_iff_false; rewrite onFace_eq; congruence).
      replace (onFace m l (- d)) with false by (symmetry; apply Bool.not_true_iff_false; rewrite onFace_eq; congruence).
      cbn [Z.add]. apply sumZ_ext. intros x _. unfold onFace. destruct (lft m x) as [q|]; cbn [optnat_eqb]; [|reflexivity].
      destruct (Nat.eqb_spec q mm) as [->|Nq]; [|reflexivity].
      destruct (Nat.eqb_spec mm l), (Nat.eqb_spec s l); try congruence.
  - apply (AInv_same m); auto. intros l0 f' v Hf Hv. exists f'. auto.
  - destruct (flagged_views _ _ H) as (_ & _ & _ & _ & _ & Vf & _). apply (AInv_same m); auto.
    + intros l. apply flagged_faceSum; assumption.
    + intros l f' v Hf Hv. exists f'. unfold fAt in *. rewrite Vf in Hf. auto.
  - destruct (repos_views _ _ _ _ H) as (_ & _ & _ & _ & Vf & _). cbn [op_area] in Ho. intros j f v Hf. unfold fAt in Hf. rewrite Vf, Ho in Hf. destruct j; discriminate.
  - intros l f v Hl. unfold fAt in Hl. rewrite (rs_eq _ _ H0) in Hl. cbn [faces] in Hl. rewrite H in Hl. destruct l; discriminate.
  - intros l f v Hl. unfold fAt in Hl. rewrite H1 in Hl. cbn [faces] in Hl. rewrite H in Hl. destruct l; discriminate.
Qed.
