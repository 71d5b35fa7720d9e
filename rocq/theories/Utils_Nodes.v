(** Removing isolated nodes and merging edges at nodes of degree two, node by node. *)
From Verif Require Import Base Orbit Conj Links FaceInv
  GeoMap_Model GeoMap_Views GeoMap_SInv GeoMap_Remove GeoMap_MergeEdges GeoMap_Loops GeoMap_MInv
  GeoMap_Gone GeoMap_Bridge GeoMap_MergeFaces GeoMap_Subdiv GeoMap_Area GeoMap_History GeoMap_Geometry
  GeoMap_Spec GeoMap_Facts GeoMap_Results GeoMap_Results4
  Utils_Model Utils_Spec Utils_Bridges Utils_Results Utils_Protect Utils_Trace.
Local Open Scope Z_scope.

Definition liveFacesSame m m' : Prop := forall l, fAt m l = None <-> fAt m' l = None.

(** ** Traces keep the invariants *)

Lemma euler_geometric m hk o : eulerOrMark o -> geometric m (Call hk o).
Proof. destruct o; cbn; auto; contradiction. Qed.
Lemma tr_MInv hk m m' : trace hk m m' -> MInv m -> MInv m' /\ mono m m'.
Proof.
  intros T M. destruct (later_Inv m m' (tr_later hk m m' T) (or_intror M)) as [[G|M'] Mo]; [|split; assumption].
  exfalso. apply (mi_0 _ M). unfold fAt. destruct (mo_f _ _ Mo) as (L & _). rewrite (gp_f _ G) in L. destruct (faces m); [reflexivity | cbn in L; lia].
Qed.
Lemma tr_geo hk m m' : trace hk m m' -> MInv m -> geo m -> geo m'.
Proof.
  intros T M G. induction T as [|m1 o m2 T IH Ho Ha E]; [assumption|]. destruct (tr_MInv _ _ _ T M) as (M1 & _).
  destruct (exec_step m1 (Call hk o) m2 (or_intror M1) Ha E) as (_ & _ & K & _). apply K; [assumption | apply euler_geometric; assumption].
Qed.

(** ** Degree two *)

(** no two different edges meet, alone, in [n] *)
Definition tidy2 m n : Prop := forall x, In x (darts m) -> stt m x = n -> sg m (sg m x) = x -> sg m x = x \/ sg m x = - x.
(** [n] is gone, or some edge ends there *)
Definition fine m n : Prop := forall nd, nAt m n = Some nd -> nanchor nd <> 0.

Lemma two_orbit m a x : sg m (sg m a) = a -> reach (sg m) a x -> x = a \/ x = sg m a.
Proof.
  intros E. revert x. apply reach_ind_r; [left; reflexivity|]. intros y _ [->| ->]; [right; reflexivity | left; assumption].
Qed.
Lemma hasDegree2 m n nd : SInv m -> nAt m n = Some nd -> exists b, hasDegree m nd 2 = Ok b /\
  (if b then In (nanchor nd) (darts m) /\ stt m (nanchor nd) = n /\ sg m (sg m (nanchor nd)) = nanchor nd /\ sg m (nanchor nd) <> nanchor nd /\
             (forall x, In x (darts m) -> stt m x = n -> x = nanchor nd \/ x = sg m (nanchor nd))
   else tidy2 m n).
Proof.
  intros V Hn. pose proof (sv_si _ V) as S. unfold hasDegree.
  destruct (si_anchor _ _ S n nd Hn) as [(K0 & K)|(K1 & K2 & K3)].
  - rewrite K0. cbn. exists false. split; [reflexivity|]. intros x Hx Hs. exfalso. apply (K x Hx Hs).
  - assert (A0 : nanchor nd =? 0 = false) by (apply Z.eqb_neq, (si_nz _ _ S); assumption). rewrite A0. set (a := nanchor nd) in *.
    destruct (min_period _ _ _ a (si_perm _ _ S) K1) as (N & HN & HL). pose proof (pe_pos _ _ _ HN) as Np. pose proof (fuel_darts m).
    exists (Nat.eqb (2 + 0) N). split; [apply (hasDegreeLoop_ok m a N S K1 HN (fuel m) 0 2); lia|].
    destruct (Nat.eqb_spec (2 + 0) N) as [EN|EN].
    + subst N. assert (Es : sg m (sg m a) = a) by apply (pe_ret _ _ _ HN).
      split; [assumption|]. split; [assumption|]. split; [assumption|]. split; [apply (pe_min _ _ _ HN 1%nat); lia|].
      intros x Hx Hs. apply two_orbit; auto.
    + intros x Hx Hs E. destruct (Z.eq_dec (sg m x) x) as [|Ne]; [left; assumption|]. exfalso. apply EN.
      assert (R : reach (sg m) x a) by (apply (reach_sym _ _ _ (si_perm _ _ S)); auto).
      assert (Ea : sg m (sg m a) = a /\ sg m a <> a) by (destruct (two_orbit m x a E R) as [->| ->]; split; congruence).
      destruct Ea as (Ea & Nea). destruct (Nat.lt_trichotomy N 2) as [L|[L|L]]; [|lia|].
      * assert (N = 1%nat) by lia. subst N. exfalso. apply Nea, (pe_ret _ _ _ HN).
      * exfalso. apply (pe_min _ _ _ HN 2%nat); [lia | exact Ea].
Qed.

(** ** What the two kinds of steps keep *)

Record tends m m' : Prop := {
  te_elen : length (edges m') = length (edges m);
  te_nlen : length (nodes m') = length (nodes m);
  te_flen : length (faces m') = length (faces m);
  te_fc : faceCount m' = faceCount m;
  te_fs : liveFacesSame m m';
  te_e : forall l, eAt m l = None -> eAt m' l = None;
  te_n : forall l, nAt m l = None -> nAt m' l = None;
  te_b : forall l, fine m l -> fine m' l;
  te_cnt : nodeCount m' - edgeCount m' <= nodeCount m - edgeCount m;
  te_pts : geo m -> (forall l e, eAt m l = Some e -> exists l' e', eAt m' l' = Some e' /\ inside (epts e) (epts e')) /\
                    (forall l e' p, eAt m' l = Some e' -> In p (epts e') -> exists l0 e, eAt m l0 = Some e /\ In p (epts e));
  te_2 : forall n, tidy2 m n -> tidy2 m' n }.

Lemma tends_refl m : tends m m.
Proof.
  constructor; auto; [intros l; reflexivity | lia|]. intros _. split; [|eauto]. intros l e E. exists l, e. split; [assumption | apply inside_refl].
Qed.
Lemma inside_trans a b c : inside a b -> inside b c -> inside a c.
Proof.
  intros (x & y & H1) (u & v & H2).
  destruct H2 as [->| ->]; destruct H1 as [->| ->].
  - exists (u ++ x), (y ++ v). left. rewrite <- !app_assoc. reflexivity.
  - exists (u ++ x), (y ++ v). right. rewrite <- !app_assoc. reflexivity.
  - exists (u ++ rev y), (rev x ++ v). right. rewrite !rev_app_distr, <- !app_assoc. reflexivity.
  - exists (u ++ rev y), (rev x ++ v). left. rewrite !rev_app_distr, rev_involutive, <- !app_assoc. reflexivity.
Qed.
Lemma tends_trans a b c : (geo a -> geo b) -> tends a b -> tends b c -> tends a c.
Proof.
  intros Hg X Y. constructor.
  - rewrite (te_elen _ _ Y); apply X.
  - rewrite (te_nlen _ _ Y); apply X.
  - rewrite (te_flen _ _ Y); apply X.
  - rewrite (te_fc _ _ Y); apply X.
  - intros l. rewrite (te_fs _ _ X l). apply Y.
  - intros l H. apply Y, X, H.
  - intros l H. apply Y, X, H.
  - intros l H. apply Y, X, H.
  - pose proof (te_cnt _ _ X). pose proof (te_cnt _ _ Y). lia.
  - intros G. destruct (te_pts _ _ X G) as (A1 & A2). destruct (te_pts _ _ Y (Hg G)) as (B1 & B2). split.
    + intros l e E. destruct (A1 l e E) as (l1 & e1 & E1 & I1). destruct (B1 l1 e1 E1) as (l2 & e2 & E2 & I2). exists l2, e2. split; [assumption | apply (inside_trans _ (epts e1)); assumption].
    + intros l e p E H. destruct (B2 l e p E H) as (l1 & e1 & E1 & H1). apply (A2 l1 e1 p); assumption.
  - intros n H. apply Y, X, H.
Qed.

Lemma tends_moved m d2 m0 : facesMoved m d2 m0 -> tends m m0.
Proof.
  intros F. pose proof (fm_eq _ _ _ F) as E. destruct (fm_views _ _ _ F) as (V1 & V2 & V3 & V4 & V5 & V6 & _).
  assert (Ea : forall l, eAt m0 l = eAt m l) by (intros l; unfold eAt; rewrite V1; reflexivity).
  assert (Na : forall l, nAt m0 l = nAt m l) by (intros l; unfold nAt; rewrite V2; reflexivity).
  assert (Sg : sg m0 = sg m) by (rewrite E; reflexivity).
  constructor; try congruence.
  - apply F.
  - rewrite E; reflexivity.
  - intros l. pose proof (fm_face _ _ _ F l) as K. destruct (fAt m l), (fAt m0 l); try contradiction; split; congruence.
  - intros l H nd Hn. apply (H nd). congruence.
  - rewrite E. cbn. lia.
  - intros _. split; [|intros l e p H Hp; exists l, e; split; congruence]. intros l e H. exists l, e. split; [congruence | apply inside_refl].
  - intros n H x. rewrite V3, V5, Sg. apply H.
Qed.

Lemma tends_node m m' : nless m m' -> nodeCount m' <= nodeCount m -> tends m m'.
Proof.
  intros N Hc. pose proof (nl_eq _ _ N) as E.
  assert (V1 : edges m' = edges m) by (rewrite E; reflexivity).
  assert (Ea : forall l, eAt m' l = eAt m l) by (intros l; unfold eAt; rewrite V1; reflexivity).
  assert (Fa : forall l, fAt m' l = fAt m l) by (intros l; rewrite E; reflexivity).
  assert (Sg : sg m' = sg m) by (rewrite E; reflexivity).
  assert (Dd : darts m' = darts m) by (apply tables_darts; assumption).
  constructor; try congruence.
  - apply N.
  - rewrite E; reflexivity.
  - rewrite E; reflexivity.
  - intros l. rewrite Fa. reflexivity.
  - intros l H. destruct (nl_at _ _ N l) as [K|(K & _)]; congruence.
  - intros l H nd Hn. destruct (nl_at _ _ N l) as [K|(K & _)]; [|congruence]. apply H. congruence.
  - assert (edgeCount m' = edgeCount m) by (rewrite E; reflexivity). lia.
  - intros _. split; [|intros l e p H Hp; exists l, e; split; congruence]. intros l e H. exists l, e. split; [congruence | apply inside_refl].
  - intros n H x. rewrite Dd, Sg. replace (stt m' x) with (stt m x) by (unfold stt; rewrite Ea; reflexivity). apply H.
Qed.

Lemma tends_merged m d1 d2 m' : SInv m -> Deg2 m d1 d2 -> Merged m d1 d2 m' -> tends m m'.
Proof.
  intros V D B. pose proof (sv_si _ V) as S.
  constructor; try apply B.
  - rewrite (mg_faces _ _ _ _ B). reflexivity.
  - intros l. unfold fAt. rewrite (mg_faces _ _ _ _ B). reflexivity.
  - intros l H. destruct (mg_edge _ _ _ _ B) as (e1 & e2 & E1 & E2 & He). rewrite He. destruct (Nat.eqb_spec (elab d2) l); [reflexivity|].
    destruct (Nat.eqb_spec (elab d1) l); [congruence | assumption].
  - intros l H. destruct (mg_node _ _ _ _ B) as (nd & E1 & He). rewrite He. destruct (Nat.eqb_spec (stt m d2) l); [reflexivity|].
    destruct (Nat.eqb_spec (stt m (- d2)) l); [congruence | assumption].
  - intros l H nd'. destruct (mg_node _ _ _ _ B) as (nd & E1 & He). rewrite He. destruct (Nat.eqb_spec (stt m d2) l); [discriminate|].
    destruct (Nat.eqb_spec (stt m (- d2)) l); [|apply H]. intros E. injection E as <-. cbn. apply (si_nz _ _ S), D.
  - rewrite (mg_nc _ _ _ _ B), (mg_ec _ _ _ _ B). lia.
  - intros G. destruct (merged_inside m d1 d2 m' V D G B) as (e1 & e2 & e' & E1 & E2 & El & He & _ & I1 & I2 & Hin).
    assert (Ee' : eAt m' (elab d1) = Some e') by (rewrite He, Nat.eqb_refl; destruct (Nat.eqb_spec (elab d2) (elab d1)); [congruence | reflexivity]).
    split.
    + intros l e E. destruct (Nat.eq_dec l (elab d2)) as [->|N2]; [exists (elab d1), e'; split; [assumption|]; congruence|].
      destruct (Nat.eq_dec l (elab d1)) as [->|N1]; [exists (elab d1), e'; split; [assumption|]; congruence|].
      exists l, e. rewrite He. destruct (Nat.eqb_spec (elab d2) l); [congruence|]. destruct (Nat.eqb_spec (elab d1) l); [congruence|]. split; [assumption | apply inside_refl].
    + intros l e p E Hp. rewrite He in E. destruct (Nat.eqb_spec (elab d2) l); [discriminate|]. destruct (Nat.eqb_spec (elab d1) l) as [_|].
      * injection E as <-. destruct (Hin p Hp); eauto.
      * eauto.
  - intros n H x Hx Hs E. apply (md_darts m d1 d2 m' B) in Hx. rewrite (md_stt m d1 d2 m' V D B x Hx) in Hs.
    pose proof (md_tr m d1 d2 D x Hx) as Ht.
    pose proof (proj1 (md_perm m d1 d2 V D x Hx)) as Hx2.
    rewrite (mg_sg _ _ _ _ B x Hx) in *. rewrite (mg_sg _ _ _ _ B _ Hx2) in E. unfold cnj in *. rewrite tr_invol in E.
    set (y := tr d1 (- d2) x) in *. assert (Exy : x = tr d1 (- d2) y) by (unfold y; rewrite tr_invol; reflexivity).
    assert (Ey : sg m (sg m y) = y) by (rewrite Exy in E; apply (f_equal (tr d1 (- d2))) in E; rewrite !tr_invol in E; assumption).
    pose proof (g2_12 _ _ _ D) as G1. pose proof (g2_21 _ _ _ D) as G2. pose proof (g2_ne _ _ _ D) as Gn. pose proof (g2_no _ _ _ D) as Go.
    destruct (H y Ht Hs Ey) as [K|K]; [left; rewrite K; congruence|]. right. rewrite K. apply in_rest in Hx as (Hx & X1 & X2).
    assert (Nz : d1 <> 0) by (apply (si_nz _ _ S), D).
    assert (Y1 : y <> - d2) by (intros Q; rewrite Q, Z.opp_involutive in K; rewrite Q in Ey; rewrite K, G2 in Ey; congruence).
    assert (Y2 : y <> - d1) by (intros Q; rewrite Q, Z.opp_involutive in K; rewrite Q in Ey; rewrite K, G1 in Ey; lia).
    assert (Y3 : y <> d1) by (intros Q; rewrite Q in K; rewrite K in G1; lia).
    assert (Y4 : y = x) by (rewrite Exy; rewrite tr_o; [reflexivity | assumption | assumption]).
    rewrite Y4. apply tr_o; rewrite <- ?Y4; lia.
Qed.

(** ** One node *)

Lemma node_step hk m n nd : MInv m -> nAt m n = Some nd -> nanchor nd = 0 ->
  exists m' b, removeIsolatedNode hk m n = Ok (m', b) /\ tends m m' /\ edges m' = edges m /\
    (b = true -> nAt m' n = None) /\ ((forall m1 l, hkNode hk m1 l = true) -> b = true) /\ Z.b2z b = nodeCount m - nodeCount m' /\
    (forall l, l <> n -> nAt m' l = nAt m l).
Proof.
  intros M Hn H0. destruct (removeIsolatedNode_nless hk m n nd Hn H0) as (m' & b & E & N & B1 & B2). exists m', b. split; [assumption|].
  assert (Hc : Z.b2z b = nodeCount m - nodeCount m') by (destruct b; [rewrite B2 by reflexivity; cbn; lia | rewrite B1 by reflexivity; cbn; lia]).
  split; [apply tends_node; [assumption|]; destruct b; cbn in Hc; lia|]. split; [rewrite (nl_eq _ _ N); reflexivity|].
  split; [|split; [|split; [assumption|]]].
  - intros Hb. rewrite (B2 Hb). unfold nAt, uninitNode. cbn [nodes set_nodeCount putN set_nodes]. rewrite tget_upd_None, Nat.eqb_refl. reflexivity.
  - intros A. unfold removeIsolatedNode in E. rewrite (deref_node _ _ _ Hn) in E. cbn [bind] in E. rewrite A in E. injection E; auto.
  - intros l Hl. destruct b; [rewrite (B2 eq_refl) | rewrite (B1 eq_refl); reflexivity].
    unfold nAt, uninitNode. cbn [nodes set_nodeCount putN set_nodes]. rewrite tget_upd_None. destruct (Nat.eqb_spec n l); [congruence | reflexivity].
Qed.

Definition isSome {A} (o : option A) : Z := match o with Some _ => 1 | None => 0 end.

Lemma merge_step hk m n a : MInv m -> In a (darts m) -> stt m a = n -> sg m (sg m a) = a -> sg m a <> a -> stt m (- a) <> n ->
  exists m' r, mergeEdges hk m a = Ok (m', r) /\ tends m m' /\ isSome r = nodeCount m - nodeCount m' /\ isSome r = edgeCount m - edgeCount m' /\
    ((forall m1 l, hkNode hk m1 l = true) -> (forall m1 d, hkMergeEdges hk m1 d = true) -> nAt m' n = None /\ tidy2 m' n).
Proof.
  intros M Ha Hs Hss Hsn Hl. pose proof (mi_v _ M) as V. pose proof (sv_si _ V) as S.
  pose proof (mergeEdges_full hk m a V (or_intror (mi_f _ M))) as G. destruct (mergeEdges hk m a) as [[m' r]| | |]; cbn [goodE] in G; try contradiction.
  2:{ exfalso. destruct G as [G|[G|G]]; [contradiction| |contradiction]. apply elab_eq in G as [G|G]; [contradiction|].
      apply Hl. rewrite <- G, (si_st _ _ S a Ha). assumption. }
  destruct G as (d1 & d2 & m0 & D & Fm & Ed & G). cbn [fst snd] in G.
  assert (T0 : tends m m0) by (apply (tends_moved m d2); assumption).
  assert (C0 : nodeCount m0 = nodeCount m /\ edgeCount m0 = edgeCount m) by (rewrite (fm_eq _ _ _ Fm); auto).
  exists m', r. split; [reflexivity|]. destruct G as [(Hk & -> & ->)|(Hk & -> & B)].
  - split; [assumption|]. split; [cbn; lia|]. split; [cbn; lia|]. intros A1 A2. rewrite A1, A2 in Hk. discriminate.
  - assert (V0 : SInv m0) by (apply (fm_SInv m d2); assumption). assert (D0 : Deg2 m0 d1 d2) by (apply (fm_Deg2 m d2); assumption).
    pose proof (tends_merged m0 d1 d2 m' V0 D0 B) as T1.
    split; [apply (tends_trans _ m0); [intros Gm; rewrite (fm_eq _ _ _ Fm); exact Gm | assumption | assumption]|].
    rewrite (mg_nc _ _ _ _ B), (mg_ec _ _ _ _ B). split; [cbn; lia|]. split; [cbn; lia|]. intros _ _.
    assert (Hn : nAt m' n = None).
    { destruct (mg_node _ _ _ _ B) as (nd & _ & He). rewrite He. assert (E2 : stt m0 d2 = n).
      { destruct (fm_views _ _ _ Fm) as (_ & _ & _ & _ & V5 & _). rewrite V5. destruct ((0 <? a) && (sg m a <? 0))%bool; injection Ed as -> ->; [assumption|].
        rewrite (si_st _ _ S a Ha). assumption. }
      rewrite E2, Nat.eqb_refl. reflexivity. }
    split; [assumption|]. intros x Hx Hs'. exfalso. pose proof (md_SInv m0 d1 d2 m' V0 D0 B) as V'. apply (si_node _ _ (sv_si _ V') x Hx). congruence.
Qed.

(** ** tidyNodes *)

Lemma tidy_ok hk merge2 ns : forall m, MInv m -> (forall n, In n ns -> (n < length (nodes m))%nat) ->
  exists m', tidyNodes hk merge2 m ns = Ok m' /\ tends m m' /\ (merge2 = false -> edges m' = edges m) /\
    ((forall m1 l, hkNode hk m1 l = true) -> forall n, In n ns -> fine m' n) /\
    (merge2 = true -> (forall m1 l, hkNode hk m1 l = true) -> (forall m1 d, hkMergeEdges hk m1 d = true) -> forall n, In n ns -> tidy2 m' n).
Proof.
  induction ns as [|n t IH]; intros m M Hr.
  { exists m. cbn. split; [reflexivity|]. split; [apply tends_refl|]. split; [reflexivity|]. split; [intros _ n [] | intros _ _ _ n []]. }
  cbn [tidyNodes]. rewrite (nodeP_nAt m n) by (apply Hr; left; reflexivity). cbn [bind].
  (* one node *)
  assert (St : exists m1, (match nAt m n with None => Ok m | Some nd =>
            m0 <- (if nanchor nd =? 0 then r <- removeIsolatedNode hk m n ;; Ok (fst r) else Ok m) ;;
            two <- (if merge2 then hasDegree m0 nd 2 else Ok false) ;;
            (if (two : bool) then d <- nodeAnchor nd ;; e <- endLabel m0 d ;; if Nat.eqb e n then Ok m0 else r <- mergeEdges hk m0 d ;; Ok (fst r) else Ok m0) end) = Ok m1 /\
     tends m m1 /\ trace hk m m1 /\ (merge2 = false -> edges m1 = edges m) /\ ((forall m1 l, hkNode hk m1 l = true) -> fine m1 n) /\
     (merge2 = true -> (forall m1 l, hkNode hk m1 l = true) -> (forall m1 d, hkMergeEdges hk m1 d = true) -> tidy2 m1 n)).
  { destruct (nAt m n) as [nd|] eqn:En.
    2:{ exists m. split; [reflexivity|]. split; [apply tends_refl|]. split; [apply tr_refl|]. split; [reflexivity|]. split; [intros _ nd H; congruence|].
        intros _ _ _ x Hx Hs. exfalso. apply (si_node _ _ (sv_si _ (mi_v _ M)) x Hx). congruence. }
    assert (L : (n < length (nodes m))%nat) by (apply Hr; left; reflexivity).
    destruct (Z.eqb_spec (nanchor nd) 0) as [E0|E0].
    - destruct (node_step hk m n nd M En E0) as (m1 & b & E & T & Ee & Hb & Ha & _). rewrite E. cbn [bind fst].
      assert (Tr : trace hk m m1) by (change m1 with (fst (m1, b)); apply (tr_node hk m n nd); [rewrite (nodeP_nAt m n L), En; reflexivity | apply Z.eqb_eq; assumption | assumption]).
      assert (E2 : (if merge2 then hasDegree m1 nd 2 else Ok false) = Ok false) by (destruct merge2; [|reflexivity]; unfold hasDegree; rewrite E0; reflexivity).
      rewrite E2. cbn [bind]. exists m1. split; [reflexivity|]. split; [assumption|]. split; [assumption|]. split; [intros _; assumption|].
      split; [intros A nd' H; rewrite Hb in H by auto; discriminate|]. intros _ _ _. apply T. intros x Hx Hs.
      destruct (si_anchor _ _ (sv_si _ (mi_v _ M)) n nd En) as [(_ & K)|(K & _)]; [exfalso; apply (K x Hx Hs)|]. exfalso. apply (si_nz _ _ (sv_si _ (mi_v _ M)) _ K E0).
    - cbn [bind]. destruct merge2.
      + destruct (hasDegree2 m n nd (mi_v _ M) En) as (b & E & Hb). rewrite E. cbn [bind]. destruct b.
        * destruct Hb as (H1 & H2 & H3 & H4 & H5). unfold nodeAnchor. destruct (Z.eqb_spec (nanchor nd) 0); [contradiction|]. cbn [bind].
          rewrite (endLabel_Ok m _ H1). cbn [bind]. destruct (Nat.eqb_spec (stt m (- nanchor nd)) n) as [El|El].
          -- exists m. split; [reflexivity|]. split; [apply tends_refl|]. split; [apply tr_refl|]. split; [reflexivity|]. split; [intros _ nd' H; congruence|].
             intros _ _ _ x Hx Hs Ex. pose proof (si_nz _ _ (sv_si _ (mi_v _ M)) _ H1).
             destruct (H5 (- nanchor nd) (darts_opp m _ H1) El) as [K|K]; [lia|]. destruct (H5 x Hx Hs) as [->| ->]; right; [congruence|]. rewrite H3, <- K. lia.
          -- destruct (merge_step hk m n (nanchor nd) M H1 H2 H3 H4 El) as (m1 & r & E1 & T & _ & _ & Hd). rewrite E1. cbn [bind fst].
             exists m1. split; [reflexivity|]. split; [assumption|]. split; [apply (tr_edges hk m (nanchor nd) (m1, r)); assumption|]. split; [discriminate|].
             split; [intros A; apply T; intros nd' H; congruence|]. intros _ A1 A2. apply Hd; assumption.
        * exists m. split; [reflexivity|]. split; [apply tends_refl|]. split; [apply tr_refl|]. split; [reflexivity|]. split; [intros _ nd' H; congruence|]. intros; assumption.
      + cbn [bind]. exists m. split; [reflexivity|]. split; [apply tends_refl|]. split; [apply tr_refl|]. split; [reflexivity|]. split; [intros _ nd' H; congruence | discriminate]. }
  destruct St as (m1 & E & T & Tr & He & Hf & H2). destruct (tr_MInv _ _ _ Tr M) as (M1 & _).
  destruct (IH m1 M1) as (m' & E' & T' & He' & Hf' & H2'). { intros k Hk. rewrite (te_nlen _ _ T). apply Hr. right; assumption. }
  exists m'. split.
  - rewrite <- E'. destruct (nAt m n) as [nd|]; [|injection E as <-; reflexivity].
    apply bind_Ok in E as (m0 & E0 & E). rewrite E0. cbn [bind]. apply bind_Ok in E as (two & E1 & E). rewrite E1. cbn [bind]. rewrite E. reflexivity.
  - split; [apply (tends_trans _ m1); [apply (tr_geo hk); assumption | assumption | assumption]|]. split; [intros Hm; rewrite (He' Hm); auto|].
    split; [intros A k [<-|Hk]; [apply T', Hf; assumption | apply Hf'; assumption]|].
    intros Hm A1 A2 k [<-|Hk]; [apply T', H2; assumption | apply H2'; assumption].
Qed.

(** ** removeIsolatedNodes and mergeDegree2Nodes *)

Lemma isolated_ok hk ns : forall m c, MInv m -> (forall n, In n ns -> (n < length (nodes m))%nat) ->
  exists m' k, isolatedLoop hk m ns c = Ok (m', (c + k)%nat) /\ tends m m' /\ edges m' = edges m /\ Z.of_nat k = nodeCount m - nodeCount m' /\
    (forall l, nAt m' l = nAt m l \/ (In l ns /\ nAt m' l = None /\ exists nd, nAt m l = Some nd /\ nanchor nd = 0)) /\
    ((forall m1 l, hkNode hk m1 l = true) -> forall n, In n ns -> fine m' n).
Proof.
  induction ns as [|n t IH]; intros m c M Hr.
  { exists m, 0%nat. cbn. rewrite Nat.add_0_r. split; [reflexivity|]. split; [apply tends_refl|]. split; [reflexivity|]. split; [lia|]. split; [auto | intros _ n []]. }
  assert (L : (n < length (nodes m))%nat) by (apply Hr; left; reflexivity).
  assert (Hrt : forall k, In k t -> (k < length (nodes m))%nat) by (intros; apply Hr; right; assumption).
  cbn [isolatedLoop]. rewrite (nodeP_nAt m n L). cbn [bind].
  assert (Skip : fine m n -> exists m' k, isolatedLoop hk m t c = Ok (m', (c + k)%nat) /\ tends m m' /\ edges m' = edges m /\ Z.of_nat k = nodeCount m - nodeCount m' /\
    (forall l, nAt m' l = nAt m l \/ (In l (n :: t) /\ nAt m' l = None /\ exists nd, nAt m l = Some nd /\ nanchor nd = 0)) /\
    ((forall m1 l, hkNode hk m1 l = true) -> forall n', In n' (n :: t) -> fine m' n')).
  { intros F. destruct (IH m c M Hrt) as (m' & k & E & T & Ee & Hc & Hn & Hf). exists m', k. split; [assumption|]. split; [assumption|]. split; [assumption|]. split; [assumption|].
    split; [intros l; destruct (Hn l) as [K|(K1 & K2)]; [left; assumption | right; split; [right|]; assumption]|].
    intros A k' [<-|Hk]; [apply T, F | apply Hf; assumption]. }
  destruct (nAt m n) as [nd|] eqn:En; [|apply Skip; intros nd H; congruence].
  destruct (Z.eqb_spec (nanchor nd) 0) as [E0|E0]; [|apply Skip; intros nd' H; congruence].
  destruct (node_step hk m n nd M En E0) as (m1 & b & E & T & Ee & Hb & Ha & Hc & Ho). rewrite E. cbn [bind fst snd].
  assert (Tr : trace hk m m1) by (change m1 with (fst (m1, b)); apply (tr_node hk m n nd); [rewrite (nodeP_nAt m n L), En; reflexivity | apply Z.eqb_eq; assumption | assumption]).
  destruct (tr_MInv _ _ _ Tr M) as (M1 & _).
  destruct (IH m1 (if b then S c else c) M1) as (m' & k & E' & T' & Ee' & Hc' & Hn' & Hf'). { intros j Hj. rewrite (te_nlen _ _ T). auto. }
  exists m', (if b then S k else k). rewrite E'. split; [f_equal; f_equal; destruct b; lia|].
  split; [apply (tends_trans _ m1); [apply (tr_geo hk); assumption | assumption | assumption]|]. split; [congruence|]. split; [destruct b; cbn in Hc; lia|]. split.
  - intros l. destruct (Nat.eq_dec l n) as [->|Nl].
    + destruct (nAt m' n) as [nd'|] eqn:En'; [|right; split; [left; reflexivity|]; split; [reflexivity|]; eauto].
      destruct (Hn' n) as [K|(_ & K & _)]; [|congruence]. left. rewrite <- En', K.
      destruct b; [rewrite (Hb eq_refl) in K; congruence|]. unfold removeIsolatedNode in E. rewrite (deref_node _ _ _ En) in E. cbn [bind] in E.
      destruct (hkNode hk m n); [discriminate | injection E as <-; reflexivity].
    + rewrite <- (Ho l Nl). destruct (Hn' l) as [K|(K1 & K2)]; [left; assumption | right; split; [right|]; assumption].
  - intros A j [<-|Hj]; [|apply Hf'; assumption]. apply T'. intros nd' H. rewrite Hb in H by auto. discriminate.
Qed.

Lemma degree2_ok hk ns : forall m c, MInv m -> (forall n, In n ns -> (n < length (nodes m))%nat) ->
  exists m' k, degree2Loop hk m ns c = Ok (m', (c + k)%nat) /\ tends m m' /\
    Z.of_nat k = nodeCount m - nodeCount m' /\ Z.of_nat k = edgeCount m - edgeCount m' /\
    ((forall m1 l, hkNode hk m1 l = true) -> (forall m1 d, hkMergeEdges hk m1 d = true) -> forall n, In n ns -> tidy2 m' n).
Proof.
  induction ns as [|n t IH]; intros m c M Hr.
  { exists m, 0%nat. cbn. rewrite Nat.add_0_r. split; [reflexivity|]. split; [apply tends_refl|]. split; [lia|]. split; [lia | intros _ _ n []]. }
  assert (L : (n < length (nodes m))%nat) by (apply Hr; left; reflexivity).
  assert (Hrt : forall k, In k t -> (k < length (nodes m))%nat) by (intros; apply Hr; right; assumption).
  cbn [degree2Loop]. rewrite (nodeP_nAt m n L). cbn [bind].
  assert (Skip : tidy2 m n -> exists m' k, degree2Loop hk m t c = Ok (m', (c + k)%nat) /\ tends m m' /\
    Z.of_nat k = nodeCount m - nodeCount m' /\ Z.of_nat k = edgeCount m - edgeCount m' /\
    ((forall m1 l, hkNode hk m1 l = true) -> (forall m1 d, hkMergeEdges hk m1 d = true) -> forall n', In n' (n :: t) -> tidy2 m' n')).
  { intros F. destruct (IH m c M Hrt) as (m' & k & E & T & Hc & He & Hf). exists m', k. split; [assumption|]. split; [assumption|]. split; [assumption|]. split; [assumption|].
    intros A1 A2 k' [<-|Hk]; [apply T, F | apply Hf; assumption]. }
  destruct (nAt m n) as [nd|] eqn:En.
  2:{ apply Skip. intros x Hx Hs. exfalso. apply (si_node _ _ (sv_si _ (mi_v _ M)) x Hx). congruence. }
  destruct (hasDegree2 m n nd (mi_v _ M) En) as (b & E & Hb). rewrite E. cbn [bind]. destruct b; [|apply Skip; assumption].
  destruct Hb as (H1 & H2 & H3 & H4 & H5). pose proof (si_nz _ _ (sv_si _ (mi_v _ M)) _ H1) as Nz.
  unfold nodeAnchor. destruct (Z.eqb_spec (nanchor nd) 0); [contradiction|]. cbn [bind].
  destruct (live_edge m _ H1) as (e & He). rewrite (deref_edge _ _ _ He). cbn [bind].
  assert (Eq : Nat.eqb (estart e) (eend e) = Nat.eqb (stt m (- nanchor nd)) n).
  { rewrite <- H2. unfold stt. rewrite elab_opp, He. unfold e_st. destruct (Z.ltb_spec 0 (nanchor nd)), (Z.ltb_spec 0 (- nanchor nd)); try lia; [apply Nat.eqb_sym | reflexivity]. }
  rewrite Eq. destruct (Nat.eqb_spec (stt m (- nanchor nd)) n) as [El|El].
  - apply Skip. intros x Hx Hs Ex. destruct (H5 (- nanchor nd) (darts_opp m _ H1) El) as [K|K]; [lia|]. destruct (H5 x Hx Hs) as [->| ->]; right; [congruence|]. rewrite H3, <- K. lia.
  - destruct (merge_step hk m n (nanchor nd) M H1 H2 H3 H4 El) as (m1 & r & E1 & T & Hc & Hce & Hd). rewrite E1. cbn [bind fst snd].
    assert (Tr : trace hk m m1) by (apply (tr_edges hk m (nanchor nd) (m1, r)); assumption). destruct (tr_MInv _ _ _ Tr M) as (M1 & _).
    destruct (IH m1 (match r with Some _ => S c | None => c end) M1) as (m' & k & E' & T' & Hc' & He' & Hf'). { intros j Hj. rewrite (te_nlen _ _ T). auto. }
    exists m', (match r with Some _ => S k | None => k end). rewrite E'. split; [f_equal; f_equal; destruct r; lia|].
    split; [apply (tends_trans _ m1); [apply (tr_geo hk); assumption | assumption | assumption]|]. split; [destruct r; cbn in Hc; lia|]. split; [destruct r; cbn in Hce; lia|].
    intros A1 A2 j [<-|Hj]; [apply T', Hd; assumption | apply Hf'; assumption].
Qed.
