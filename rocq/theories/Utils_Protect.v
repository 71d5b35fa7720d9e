(** C39: while EdgeProtection is attached, protected edges survive every history of Euler operations. *)
From Verif Require Import Base Orbit GraphRank Euler Links FaceInv Conj
  GeoMap_Model GeoMap_Views GeoMap_SInv GeoMap_Remove GeoMap_MergeEdges GeoMap_SplitEdge GeoMap_Loops GeoMap_MInv
  GeoMap_Gone GeoMap_Bridge GeoMap_MergeFaces GeoMap_Subdiv GeoMap_Init GeoMap_Area GeoMap_Embed GeoMap_Initialize GeoMap_Sort GeoMap_Flags
  GeoMap_History GeoMap_Geometry GeoMap_AreaInv GeoMap_Spec GeoMap_Facts GeoMap_Results GeoMap_Results2 GeoMap_Examples Utils_Model Utils_Spec Utils_Bridges Utils_Results.
Local Open Scope Z_scope.

(** ** Containment of chains *)

Lemma inside_refl ps : inside ps ps.
Proof. exists [], []. left. rewrite app_nil_r. reflexivity. Qed.
Lemma inside_rev_r ps qs : inside ps qs -> inside ps (rev qs).
Proof.
  intros (a & b & [->| ->]); exists (rev b), (rev a); [right|left]; rewrite !rev_app_distr, <- app_assoc; [reflexivity|].
  rewrite rev_involutive. reflexivity.
Qed.
Lemma inside_rev_l ps qs : inside ps qs -> inside (rev ps) qs.
Proof. intros (a & b & [->| ->]); exists a, b; [right; rewrite rev_involutive | left]; reflexivity. Qed.
Lemma inside_app a ps b : inside ps (a ++ ps ++ b).
Proof. exists a, b. left. reflexivity. Qed.
Lemma inside_trans ps qs rs : inside ps qs -> inside qs rs -> inside ps rs.
Proof.
  intros H (a & b & [->| ->]).
  - destruct H as (c & d & [->| ->]); exists (a ++ c), (d ++ b); [left|right]; rewrite <- !app_assoc; reflexivity.
  - apply inside_rev_r in H. destruct H as (c & d & [->| ->]); exists (a ++ c), (d ++ b); [left|right]; rewrite <- !app_assoc; reflexivity.
Qed.
Lemma inside_in ps qs p : inside ps qs -> In p ps -> In p qs.
Proof. intros (a & b & [->| ->]) H; rewrite !in_app_iff; [|rewrite <- in_rev]; auto. Qed.

(** ** One operation *)

Local Notation A := ALL_PROTECTION.
(** [g]: the part of the flags that is followed *)
Section Kept.
Variable g : N -> N.
Hypothesis Hg : forall x y, g x = g y -> N.land x A = N.land y A.
Record kept m m' : Prop := {
  kp_edge : forall l e, eAt m l = Some e -> hasFlag e A = true ->
     exists l' e', eAt m' l' = Some e' /\ g (eflags e') = g (eflags e) /\ inside (epts e) (epts e');
  kp_point : forall l' e' p, eAt m' l' = Some e' -> In p (epts e') -> exists l e, eAt m l = Some e /\ g (eflags e) = g (eflags e') /\ In p (epts e) }.

Lemma kept_same m m' : edges m' = edges m -> kept m m'.
Proof.
  intros E. constructor.
  - intros l e He _. exists l, e. unfold eAt in *. rewrite E. split; [assumption|]. split; [reflexivity | apply inside_refl].
  - intros l e p He Hp. exists l, e. unfold eAt in *. rewrite <- E. auto.
Qed.
Lemma hasFlag_flags e e' : g (eflags e') = g (eflags e) -> hasFlag e' A = hasFlag e A.
Proof. intros E. unfold hasFlag, edgeFlag. rewrite (Hg _ _ E). reflexivity. Qed.
Lemma kept_trans a b c : kept a b -> kept b c -> kept a c.
Proof.
  intros X Y. constructor.
  - intros l e He Hf. destruct (kp_edge _ _ X l e He Hf) as (l1 & e1 & E1 & F1 & I1).
    destruct (kp_edge _ _ Y l1 e1 E1) as (l2 & e2 & E2 & F2 & I2); [rewrite (hasFlag_flags e); assumption|].
    exists l2, e2. split; [assumption|]. split; [congruence | apply (inside_trans _ (epts e1)); assumption].
  - intros l e p He Hp. destruct (kp_point _ _ Y l e p He Hp) as (l1 & e1 & E1 & F1 & P1).
    destruct (kp_point _ _ X l1 e1 p E1 P1) as (l2 & e2 & E2 & F2 & P2). exists l2, e2. split; [assumption|]. split; [congruence | assumption].
Qed.

Lemma pre_unprot m d e : eAt m (elab d) = Some e -> preRemoveEdge m d = true -> hasFlag e A = false.
Proof.
  intros He. unfold preRemoveEdge. rewrite (edgeP_eAt _ _ (eAt_lt _ _ _ He)), He. apply negb_true_iff.
Qed.

Lemma gone_kept m d e m' : EdgeGone m d m' -> eAt m (elab d) = Some e -> hasFlag e A = false -> kept m m'.
Proof.
  intros G He Hf. constructor.
  - intros l e0 E0 F0. pose proof (eg_edge _ _ _ G l) as K. rewrite E0 in K. destruct (eAt m' l) as [e'|] eqn:E'; [|subst l; congruence].
    destruct K as (_ & _ & _ & K1 & K2). exists l, e'. split; [assumption|]. split; [congruence|]. rewrite K1. apply inside_refl.
  - intros l e' p E' Hp. pose proof (eg_edge _ _ _ G l) as K. rewrite E' in K. destruct (eAt m l) as [e0|] eqn:E0; [|contradiction].
    destruct K as (_ & _ & _ & K1 & K2). exists l, e0. split; [assumption|]. split; [congruence|]. rewrite <- K1. assumption.
Qed.

Lemma bridge_kept hk m d r : MInv m -> removeBridge (protect hk) m d = Ok r -> kept m (fst r).
Proof.
  intros M E. pose proof (removeBridge_full (protect hk) m d M) as G. rewrite E in G. cbn [goodE] in G.
  destruct G as (Hd & fl & H1 & H2 & _ & [(_ & _ & ->)|(Hk & _ & B)]); [apply kept_same; reflexivity|].
  destruct (live_edge m d Hd) as (e & He). apply (gone_kept m d e); [apply B | assumption|]. apply (pre_unprot m d); [assumption|].
  cbn [protect hkBridge] in Hk. apply andb_true_iff in Hk. apply Hk.
Qed.

Lemma faces_kept hk m d r : MInv m -> mergeFaces (protect hk) m d = Ok r -> kept m (fst r).
Proof.
  intros M E. pose proof (mergeFaces_full (protect hk) m d M) as G. rewrite E in G. cbn [goodE] in G.
  destruct G as (Hd & mc & d' & s & mm & C & Sv & H1 & H2 & Hn & G).
  assert (Ee : edges mc = edges m) by apply (cached_same _ _ C).
  destruct G as [(_ & _ & ->)|(Hk & _ & B)]; [apply kept_same; assumption|].
  apply (kept_trans _ mc); [apply kept_same; assumption|].
  assert (Hd' : In d' (darts mc)).
  { assert (K : darts mc = darts m) by apply (cached_views _ _ C). rewrite K.
    destruct Sv as (l & r0 & fl & fr & vl & vr & _ & _ & _ & _ & _ & _ & [(-> & _)|(-> & _)] & _); [|apply darts_opp]; assumption. }
  destruct (live_edge mc d' Hd') as (e & He). apply (gone_kept mc d' e); [apply B | assumption|]. apply (pre_unprot mc d'); [assumption|].
  cbn [protect hkMergeFaces] in Hk. apply andb_true_iff in Hk. apply Hk.
Qed.

Lemma epts_dpts m d e : eAt m (elab d) = Some e -> epts e = dpts m d \/ epts e = rev (dpts m d).
Proof. intros He. unfold dpts. rewrite He. destruct (0 <? d); [left; reflexivity | right; rewrite rev_involutive; reflexivity]. Qed.

Lemma merged_inside m0 d1 d2 m' : SInv m0 -> Deg2 m0 d1 d2 -> geo m0 -> Merged m0 d1 d2 m' ->
  exists e1 e2 e', eAt m0 (elab d1) = Some e1 /\ eAt m0 (elab d2) = Some e2 /\ elab d1 <> elab d2 /\
    (forall j, eAt m' j = if Nat.eqb (elab d2) j then None else if Nat.eqb (elab d1) j then Some e' else eAt m0 j) /\
    eflags e' = eflags e1 /\ inside (epts e1) (epts e') /\ inside (epts e2) (epts e') /\ (forall p, In p (epts e') -> In p (epts e1) \/ In p (epts e2)).
Proof.
  intros V0 D0 G0 B. pose proof (md_pts m0 d1 d2 m' V0 D0 B) as Hp. destruct (mg_edge _ _ _ _ B) as (e1 & e2 & E1 & E2 & He).
  pose proof (sv_si _ V0) as S0. pose proof (si_nz _ _ S0 _ (g2_1 _ _ _ D0)) as N1. pose proof (si_nz _ _ S0 _ (g2_2 _ _ _ D0)) as N2.
  assert (El : elab d1 <> elab d2) by (intros K; apply elab_eq in K; pose proof (g2_ne _ _ _ D0); pose proof (g2_no _ _ _ D0); tauto).
  set (e' := mergedEdge d2 (stt m0 d2) e1 e2) in *.
  assert (Ee' : eAt m' (elab d1) = Some e') by (rewrite He, Nat.eqb_refl; destruct (Nat.eqb_spec (elab d2) (elab d1)); [congruence | reflexivity]).
  exists e1, e2, e'. split; [assumption|]. split; [assumption|]. split; [assumption|]. split; [assumption|].
  split; [unfold e', mergedEdge; destruct (negb _); reflexivity|]. clearbody e'.
  assert (HX : inside (dpts m0 (- d1)) (dpts m' (- d1))) by (rewrite Hp; apply (inside_app [])).
  assert (HY : inside (dpts m0 d2) (dpts m' (- d1))).
  { destruct (G0 _ (g2_1 _ _ _ D0)) as [L1 P1]. destruct (G0 _ (g2_2 _ _ _ D0)) as [L2 P2].
    rewrite Hp, dpts_opp by assumption. rewrite (g2_st m0 d1 d2 V0 D0), <- P2 in P1.
    destruct (dpts m0 d1) as [|p X]; [cbn in L1; lia|]. destruct (dpts m0 d2) as [|q Y]; [cbn in L2; lia|].
    cbn [hd_error] in P1. injection P1 as ->. cbn [rev skipn]. rewrite <- app_assoc. exists (rev X), []. left. rewrite app_nil_r. reflexivity. }
  assert (Hrev : forall ps, inside ps (dpts m' (- d1)) -> inside ps (epts e')).
  { intros ps K. rewrite <- elab_opp in Ee'. destruct (epts_dpts m' (- d1) e' Ee') as [->| ->]; [assumption | apply inside_rev_r; assumption]. }
  split; [|split].
  - apply Hrev. pose proof E1 as E1'. rewrite <- elab_opp in E1'. destruct (epts_dpts m0 (- d1) e1 E1') as [->| ->]; [|apply inside_rev_l]; assumption.
  - apply Hrev. destruct (epts_dpts m0 d2 e2 E2) as [->| ->]; [|apply inside_rev_l]; assumption.
  - intros p Hip.
    assert (Hin : In p (dpts m' (- d1))) by (pose proof Ee' as K; rewrite <- elab_opp in K; destruct (epts_dpts m' (- d1) e' K) as [Q|Q]; rewrite Q in Hip; [|apply in_rev in Hip]; assumption).
    rewrite Hp, in_app_iff in Hin. destruct Hin as [Hin|Hin].
    + left. pose proof E1 as K. rewrite <- elab_opp in K. destruct (epts_dpts m0 (- d1) e1 K) as [->| ->]; [|apply -> in_rev]; assumption.
    + right. assert (Hin' : In p (dpts m0 d2)) by (destruct (dpts m0 d2); [assumption | right; assumption]).
      destruct (epts_dpts m0 d2 e2 E2) as [->| ->]; [|apply -> in_rev]; assumption.
Qed.

Lemma edges_kept hk m d r : MInv m -> geo m -> mergeEdges (protect hk) m d = Ok r -> kept m (fst r).
Proof.
  intros M Gm E. pose proof (mi_v _ M) as V.
  pose proof (mergeEdges_full (protect hk) m d V (or_intror (mi_f _ M))) as G. rewrite E in G. cbn [goodE] in G.
  destruct G as (d1 & d2 & m0 & D & Fm & _ & G).
  assert (Ee : edges m0 = edges m) by (rewrite (fm_eq _ _ _ Fm); reflexivity).
  destruct G as [(_ & _ & ->)|(Hk & _ & B)]; [apply kept_same; assumption|].
  apply (kept_trans _ m0); [apply kept_same; assumption|].
  assert (V0 : SInv m0) by (apply (fm_SInv m d2); assumption). assert (D0 : Deg2 m0 d1 d2) by (apply (fm_Deg2 m d2); assumption).
  assert (G0 : geo m0) by (rewrite (fm_eq _ _ _ Fm); exact Gm).
  destruct (merged_inside m0 d1 d2 (fst r) V0 D0 G0 B) as (e1 & e2 & e' & E1 & E2 & El & He & Fe' & I1 & I2 & Hin).
  assert (Hfl : eflags e1 = eflags e2).
  { cbn [protect hkMergeEdges] in Hk. apply andb_true_iff in Hk as [Hk _]. apply andb_true_iff in Hk as [_ Hk].
    unfold preMergeEdges in Hk. rewrite (edgeP_eAt _ _ (eAt_lt _ _ _ E1)), E1 in Hk.
    rewrite getS_Ok in Hk by (apply (si_cap _ _ (sv_si _ V0)), D0). cbn [bind] in Hk. rewrite (g2_12 _ _ _ D0) in Hk.
    rewrite (edgeP_eAt _ _ (eAt_lt _ _ _ E2)), E2 in Hk. apply N.eqb_eq in Hk. assumption. }
  set (m' := fst r) in *.
  assert (Ee' : eAt m' (elab d1) = Some e') by (rewrite He, Nat.eqb_refl; destruct (Nat.eqb_spec (elab d2) (elab d1)); [congruence | reflexivity]).
  constructor.
  - intros l e E0 F0. destruct (Nat.eq_dec l (elab d2)) as [->|Nl2]; [|destruct (Nat.eq_dec l (elab d1)) as [->|Nl1]].
    + exists (elab d1), e'. assert (e = e2) by congruence; subst e. split; [assumption|]. split; [congruence | assumption].
    + exists (elab d1), e'. assert (e = e1) by congruence; subst e. split; [assumption|]. split; [congruence | assumption].
    + exists l, e. rewrite He. destruct (Nat.eqb_spec (elab d2) l); [congruence|]. destruct (Nat.eqb_spec (elab d1) l); [congruence|].
      split; [assumption|]. split; [reflexivity | apply inside_refl].
  - intros l e p E0 Hip. rewrite He in E0. destruct (Nat.eqb_spec (elab d2) l) as [|Nl2]; [discriminate|].
    destruct (Nat.eqb_spec (elab d1) l) as [<-|Nl1]; [|exists l, e; auto]. injection E0 as <-.
    destruct (Hin p Hip) as [K|K]; [exists (elab d1), e1 | exists (elab d2), e2]; (split; [assumption|]; split; [congruence | assumption]).
Qed.

(** ** Histories *)

Lemma step_kept (P : op -> Prop) hk o m m' : (forall o, P o -> eulerOrMark o) -> (forall l f b x, P (OSetFlag l f b) -> g (if b then N.lor x f else N.ldiff x f) = g x) ->
  MInv m -> geo m -> P o -> allowed m (Call (protect hk) o) -> run_op (protect hk) m o = Ok m' -> kept m m'.
Proof.
  intros HP HF M G Ho Ha E. pose proof (HP _ Ho) as Hq. destruct o; cbn [eulerOrMark eulerOp] in Hq; try contradiction; cbn [run_op] in E.
  - apply bind_Ok in E as (r & E & E'). injection E' as <-. unfold removeEdge in E.
    destruct (Nat.eqb_spec (length (faces m)) 0) as [K|K].
    { pose proof (mi_0 _ M) as M0. destruct (faces m) eqn:Ef; [|discriminate]. exfalso. unfold fAt in M0. rewrite Ef in M0. apply M0. reflexivity. }
    cbn [negb] in E. apply bind_Ok in E as (e & _ & E). destruct (isBridge e); [apply (bridge_kept hk m d) | apply (faces_kept hk m d)]; assumption.
  - apply bind_Ok in E as (r & E & E'). injection E' as <-. apply (edges_kept hk m d); assumption.
  - apply bind_Ok in E as (r & E & E'). injection E' as <-. apply (bridge_kept hk m d); assumption.
  - apply bind_Ok in E as (r & E & E'). injection E' as <-. apply (faces_kept hk m d); assumption.
  - apply bind_Ok in E as (r & E & E'). injection E' as <-. destruct Ha as (nd & Hn & H0). apply isNode_iff in Hn.
    destruct (removeIsolatedNode_nless (protect hk) m l nd Hn H0) as (m1 & b & E1 & _ & B1 & B2). rewrite E in E1. injection E1 as ->. cbn [fst].
    apply kept_same. destruct b; [rewrite B2 | rewrite B1]; reflexivity.
  - apply bind_Ok in E as (r & E & E'). injection E' as <-. destruct Ha as (f & Hf). apply isFace_iff in Hf.
    destruct (faceArea_spec m l f (mi_v _ M) (mi_f _ M) Hf) as (m1 & v & E1 & C & _). rewrite E in E1. injection E1 as ->. cbn [fst].
    apply kept_same. apply (cached_same _ _ C).
  - destruct Ha as (e & He). apply isEdge_iff in He. rewrite (setFlag_Ok m _ _ _ e He) in E. injection E as <-.
    assert (Hw : g (eflags (withFlag e flag onoff)) = g (eflags e)).
    { unfold withFlag. cbn [set_flags eflags]. apply (HF l flag onoff); assumption. }
    constructor.
    + intros j e0 E0 _. destruct (Nat.eq_dec l j) as [<-|Nj].
      * exists l, (withFlag e flag onoff). rewrite (eAt_put _ _ e _ _ He), Nat.eqb_refl. split; [reflexivity|]. assert (e0 = e) by congruence; subst e0.
        split; [assumption | apply inside_refl].
      * exists j, e0. rewrite (eAt_put _ _ e _ _ He). destruct (Nat.eqb_spec l j); [contradiction|]. split; [assumption|]. split; [reflexivity | apply inside_refl].
    + intros j e0 p E0 Hp. rewrite (eAt_put _ _ e _ _ He) in E0. destruct (Nat.eqb_spec l j) as [<-|Nj].
      * injection E0 as <-. exists l, e. split; [assumption|]. split; [symmetry; assumption | exact Hp].
      * exists j, e0. auto.
Qed.

Lemma guarded_kept (P : op -> Prop) m m' : (forall o, P o -> eulerOrMark o) -> (forall l f b x, P (OSetFlag l f b) -> g (if b then N.lor x f else N.ldiff x f) = g x) ->
  history geometric m -> initialised m -> guarded P m m' -> kept m m' /\ history geometric m' /\ initialised m'.
Proof.
  intros HP HF H Hi. induction 1 as [|m1 hk o m2 H1 (K & H2 & H3) Ho Ha E]; [split; [apply kept_same; reflexivity | auto]|].
  pose proof (history_MInv _ m1 H2 H3) as M1. pose proof (history_geo geometric m1 (fun _ _ x => x) H2) as G1.
  split; [apply (kept_trans _ m1); [assumption|]; apply (step_kept P hk o); assumption|].
  split.
  - apply (h_call _ m1 (Call (protect hk) o)); auto. pose proof (HP _ Ho) as Hq. destruct o; try contradiction; exact I.
  - assert (L : later m1 m2) by (apply (lt_call m1 (Call (protect hk) o) m2); [assumption | exact E | apply lt_refl]).
    destruct (labels_not_reused m1 m2 (history_weaken geometric anyCall m1 (fun _ _ _ => I) H2) L) as (_ & _ & _ & _ & _ & Lf).
    unfold initialised in *. destruct (faces m1); [congruence|]. destruct (faces m2); [cbn in Lf; lia | discriminate].
Qed.
End Kept.

(** the flags themselves, when only Euler operations are called *)
Theorem protection m m' : history geometric m -> initialised m -> guarded eulerOp m m' ->
  (forall l e, isEdge m l e -> N.land (eflags e) A <> 0%N -> exists l' e', isEdge m' l' e' /\ eflags e' = eflags e /\ inside (epts e) (epts e')) /\
  (forall F p, N.land F A <> 0%N -> (pointWith m F p <-> pointWith m' F p)).
Proof.
  intros H Hi G. destruct (guarded_kept (fun x => x) (fun x y e => f_equal (fun z => N.land z A) e) eulerOp m m') as (K & _ & _); auto.
  { intros o Ho. destruct o; try contradiction; exact I. } { intros l f b x []. }
  split.
  - intros l e He Hf. apply isEdge_iff in He. destruct (kp_edge _ _ _ K l e He) as (l' & e' & E' & F' & I'); [apply hasFlag_iff; assumption|].
    exists l', e'. split; [apply isEdge_iff; assumption | auto].
  - intros F p HF. unfold pointWith. split.
    + intros (l & e & He & Hf & Hp). apply isEdge_iff in He. subst F. destruct (kp_edge _ _ _ K l e He) as (l' & e' & E' & F' & I'); [apply hasFlag_iff; assumption|].
      exists l', e'. split; [apply isEdge_iff; assumption|]. split; [assumption | apply (inside_in (epts e)); assumption].
    + intros (l & e & He & Hf & Hp). apply isEdge_iff in He. destruct (kp_point _ _ _ K l e p He Hp) as (l' & e' & E' & F' & I').
      exists l', e'. split; [apply isEdge_iff; assumption|]. split; [congruence | assumption].
Qed.

(** the protection flags, when other flags are set in between, as the bulk operations do *)
Theorem protection_marks m m' : history geometric m -> initialised m -> guarded eulerOrMark m m' ->
  (forall l e, isEdge m l e -> N.land (eflags e) A <> 0%N ->
     exists l' e', isEdge m' l' e' /\ N.land (eflags e') A = N.land (eflags e) A /\ inside (epts e) (epts e')) /\
  (forall F p, F <> 0%N -> (pointProtected m F p <-> pointProtected m' F p)).
Proof.
  intros H Hi G. destruct (guarded_kept (fun x => N.land x A) (fun x y e => e) eulerOrMark m m') as (K & _ & _); auto.
  { intros l f b x Hf. cbn [eulerOrMark] in Hf. destruct b; apply N.bits_inj; intros i; pose proof (f_equal (fun z => N.testbit z i) Hf) as Q;
      cbv beta in Q; rewrite N.land_spec, N.bits_0 in Q; rewrite !N.land_spec, ?N.lor_spec, ?N.ldiff_spec;
      destruct (N.testbit x i), (N.testbit f i), (N.testbit A i); cbn in *; congruence. }
  split.
  - intros l e He Hf. apply isEdge_iff in He. destruct (kp_edge _ _ _ K l e He) as (l' & e' & E' & F' & I'); [apply hasFlag_iff; assumption|].
    exists l', e'. split; [apply isEdge_iff; assumption | auto].
  - intros F p HF. unfold pointProtected. split.
    + intros (l & e & He & Hf & Hp). apply isEdge_iff in He. subst F. destruct (kp_edge _ _ _ K l e He) as (l' & e' & E' & F' & I'); [apply hasFlag_iff; assumption|].
      exists l', e'. split; [apply isEdge_iff; assumption|]. split; [assumption | apply (inside_in (epts e)); assumption].
    + intros (l & e & He & Hf & Hp). apply isEdge_iff in He. destruct (kp_point _ _ _ K l e p He Hp) as (l' & e' & E' & F' & I').
      exists l', e'. split; [apply isEdge_iff; assumption|]. split; [congruence | assumption].
Qed.

(** the protection flags are the eight lowest ones *)
Theorem protection_flags F : N.land F ALL_PROTECTION <> 0%N <-> exists k, (k < 8)%N /\ N.testbit F k = true.
Proof.
  assert (T : forall k, N.testbit ALL_PROTECTION k = (k <? 8)%N).
  { intros k. change ALL_PROTECTION with (N.ones 8). destruct (N.ltb_spec k 8); [apply N.ones_spec_low | apply N.ones_spec_high]; assumption. }
  split.
  - intros H. exists (N.log2 (N.land F ALL_PROTECTION)). pose proof (N.bit_log2 _ H) as K. rewrite N.land_spec, T in K. apply andb_true_iff in K as [K1 K2].
    apply N.ltb_lt in K2. auto.
  - intros (k & Hk & Hb) E. assert (K : N.testbit (N.land F ALL_PROTECTION) k = true) by (rewrite N.land_spec, T, Hb; apply N.ltb_lt; assumption).
    rewrite E in K. rewrite N.bits_0 in K. discriminate.
Qed.
