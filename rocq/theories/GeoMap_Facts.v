(** From the invariants to the vocabulary of GeoMap_Spec.v. *)
From Coq Require Import QArith.
From Verif Require Import Base Orbit GraphRank Euler Links FaceInv Conj
  GeoMap_Model GeoMap_Views GeoMap_SInv GeoMap_Remove GeoMap_MergeEdges GeoMap_SplitEdge GeoMap_Loops GeoMap_MInv
  GeoMap_Gone GeoMap_Bridge GeoMap_MergeFaces GeoMap_Subdiv GeoMap_Init GeoMap_Area GeoMap_Embed GeoMap_Initialize GeoMap_Sort
  GeoMap_History GeoMap_Geometry GeoMap_AreaInv GeoMap_Spec.
Local Open Scope Z_scope.

(** ** Tables *)

Lemma tab_some {A} (l : list (option A)) i a : (match nth_error l i with Some o => Ok o | None => Exn end) = Ok (Some a) <-> tget l i = Some a.
Proof. unfold tget. destruct (nth_error l i) as [[b|]|]; split; congruence. Qed.

Lemma isEdge_iff m l e : isEdge m l e <-> eAt m l = Some e.
Proof. apply tab_some. Qed.
Lemma isNode_iff m l e : isNode m l e <-> nAt m l = Some e.
Proof. apply tab_some. Qed.
Lemma isFace_iff m l e : isFace m l e <-> fAt m l = Some e.
Proof. apply tab_some. Qed.

Lemma isDart_iff m d : isDart m d <-> In d (darts m).
Proof.
  rewrite in_darts. unfold isDart. split; intros [H0 H]; split; auto.
  - destruct H as (e & He). apply isEdge_iff in He. congruence.
  - destruct (eAt m (elab d)) as [e|] eqn:E; [|contradiction]. exists e. apply isEdge_iff; assumption.
Qed.

Lemma posOf_eq m n : posOf m n = pos m n.
Proof. unfold posOf, pos, nodeP, nAt, tget. destruct (nth_error (nodes m) n) as [[nd|]|]; reflexivity. Qed.

Lemma ptsOf_iff m d ps : In d (darts m) -> (ptsOf m d ps <-> ps = dpts m d).
Proof.
  intros Hd. destruct (live_edge m d Hd) as (e & Ee). unfold ptsOf, dpts. rewrite Ee. split.
  - intros (e' & He & ->). apply isEdge_iff in He. assert (e' = e) by congruence. subst. reflexivity.
  - intros ->. exists e. split; [apply isEdge_iff; assumption | reflexivity].
Qed.

(** ** Walks *)

Lemma walk_iter (next : Z -> res Z) f (D : list Z) : (forall x, In x D -> next x = Ok (f x) /\ In (f x) D) ->
  forall n x, In x D -> walk next n x = Ok (iter n f x).
Proof.
  intros H. induction n as [|n IH]; intros x Hx; [reflexivity|]. cbn [walk]. destruct (H x Hx) as [-> Hf]. cbn [bind].
  rewrite (IH _ Hf), <- iter_S_r. reflexivity.
Qed.

Lemma reaches_iff (next : Z -> res Z) f (D : list Z) a d : (forall x, In x D -> next x = Ok (f x) /\ In (f x) D) ->
  In a D -> (reaches next a d <-> reach f a d).
Proof.
  intros H Ha. split; intros (n & E); exists n.
  - rewrite (walk_iter next f D H n a Ha) in E. congruence.
  - rewrite (walk_iter next f D H n a Ha). congruence.
Qed.

Lemma sigma_next m : SI m (darts m) -> forall x, In x (darts m) -> nextSigma m x = Ok (sg m x) /\ In (sg m x) (darts m).
Proof. intros HS x Hx. split; [apply getS_Ok, (si_cap _ _ HS); assumption | apply (si_perm _ _ HS x Hx)]. Qed.

Lemma phi_next m : SI m (darts m) -> forall x, In x (darts m) -> nextPhi m x = Ok (phi m x) /\ In (phi m x) (darts m).
Proof.
  intros HS x Hx. split; [apply getSi_Ok; rewrite Z.abs_opp; apply (si_cap _ _ HS); assumption | apply (phi_perm m HS x Hx)].
Qed.

Lemma reaches_sigma m a d : SI m (darts m) -> In a (darts m) -> (reaches (nextSigma m) a d <-> reach (sg m) a d).
Proof. intros HS. apply reaches_iff, sigma_next; assumption. Qed.

Lemma reaches_phi m a d : SI m (darts m) -> In a (darts m) -> (sameContour m a d <-> reach (phi m) a d).
Proof. intros HS. apply reaches_iff, phi_next; assumption. Qed.

(** ** Counting *)

Lemma countSome_sumf {A} (p : A -> bool) l :
  countSome p l = sumf (fun o => match o with Some a => if p a then 1 else 0 | None => 0 end) l.
Proof.
  unfold countSome. induction l as [|[a|] l IH]; [reflexivity| |].
  - cbn [filter]. change (sumf ?f (Some a :: l)) with (f (Some a) + sumf f l). cbv beta iota. rewrite <- IH.
    destruct (p a); cbn [length]; lia.
  - cbn [filter]. change (sumf ?f (None :: l)) with (f None + sumf f l). cbv beta iota. rewrite <- IH. lia.
Qed.

Lemma live_sumf {A} (l : list (option A)) : countSome (fun _ => true) l = sumf alive l.
Proof. rewrite countSome_sumf. apply sumf_ext. intros [a|] _; reflexivity. Qed.

Lemma nonIsolated_sumf m : nonIsolatedNodes m = sumf busy (nodes m).
Proof. unfold nonIsolatedNodes. rewrite countSome_sumf. apply sumf_ext. intros [a|] _; [|reflexivity]. cbn. destruct (nanchor a =? 0); reflexivity. Qed.

Lemma allContours_sumf m : allContours m = sumf ncont (faces m).
Proof.
  unfold allContours. induction (faces m) as [|[f|] t IH]; [reflexivity| |].
  - cbn [flat_map]. rewrite app_length, Nat2Z.inj_add, IH. reflexivity.
  - exact IH.
Qed.

Lemma sumHoles_eq fs : forall l, l <> 0%nat -> sumHoles l fs = sumf ncont fs - sumf alive fs.
Proof.
  induction fs as [|o fs IH]; intros l Hl; [reflexivity|]. cbn [sumHoles].
  change (sumf ncont (o :: fs)) with (ncont o + sumf ncont fs). change (sumf alive (o :: fs)) with (alive o + sumf alive fs).
  rewrite (IH (S l)) by lia. destruct o as [f|]; cbn [ncont alive]; [|lia]. unfold holeCount. destruct (Nat.eqb_spec l 0); [contradiction|]. lia.
Qed.

Lemma allHoles_eq m : fAt m 0 <> None -> allHoles m = sumf ncont (faces m) - (sumf alive (faces m) - 1).
Proof.
  unfold allHoles, fAt. destruct (faces m) as [|o fs]; [intros H; contradiction H; reflexivity|]. intros H. cbn [sumHoles].
  rewrite sumHoles_eq by lia.
  change (sumf ncont (o :: fs)) with (ncont o + sumf ncont fs). change (sumf alive (o :: fs)) with (alive o + sumf alive fs).
  destruct o as [f|]; [|contradiction H; reflexivity]. cbn [ncont alive]. unfold holeCount. cbn [Nat.eqb]. lia.
Qed.

(** ** Connectivity *)

Lemma in_Gm m e l : eAt m l = Some e -> l <> 0%nat -> In (estart e, eend e) (Gm m).
Proof.
  intros He Hl. unfold Gm, pairs. apply in_map_iff. exists (Z.of_nat l). split.
  - unfold stt. rewrite elab_opp, elab_of_nat, He. unfold e_st.
    destruct (Z.ltb_spec 0 (Z.of_nat l)); [|lia]. destruct (Z.ltb_spec 0 (- Z.of_nat l)); [lia|]. reflexivity.
  - apply in_elabs. rewrite elab_of_nat. split; [lia | congruence].
Qed.

Lemma Gm_in m a b : In (a, b) (Gm m) -> exists l e, eAt m l = Some e /\ estart e = a /\ eend e = b.
Proof.
  unfold Gm, pairs. intros H. apply in_map_iff in H as (z & E & Hz). apply in_elabs in Hz as [Hp Hn].
  destruct (eAt m (elab z)) as [e|] eqn:Ee; [|contradiction]. exists (elab z), e. split; [assumption|].
  unfold stt in E. rewrite elab_opp, Ee in E. unfold e_st in E.
  destruct (Z.ltb_spec 0 z); [|lia]. destruct (Z.ltb_spec 0 (- z)); [lia|]. injection E as -> ->. auto.
Qed.

Lemma connected_trans m a b c : connected m a b -> connected m b c -> connected m a c.
Proof. induction 1; intros H'; [assumption | eapply cn_edge; eauto | eapply cn_back; eauto]. Qed.
Lemma connected_sym m a b : connected m a b -> connected m b a.
Proof.
  induction 1; [apply cn_refl| |].
  - apply (connected_trans m _ (eend e)); [assumption|]. eapply cn_back; [eassumption | apply cn_refl].
  - apply (connected_trans m _ (estart e)); [assumption|]. eapply cn_edge; [eassumption | apply cn_refl].
Qed.

Lemma connected_iff m a b : SInv m -> (connected m a b <-> conn (Gm m) a b).
Proof.
  intros V. split.
  - induction 1; [apply conn_refl| |].
    + apply (conn_trans _ _ (eend e)); [|assumption]. apply conn_edge. apply isEdge_iff in H. apply (in_Gm m e l H).
      intros ->. rewrite (sv_e0 _ V) in H. discriminate.
    + apply (conn_trans _ _ (estart e)); [|assumption]. apply conn_sym, conn_edge. apply isEdge_iff in H. apply (in_Gm m e l H).
      intros ->. rewrite (sv_e0 _ V) in H. discriminate.
  - induction 1; [apply cn_refl | | apply connected_sym; assumption | eapply connected_trans; eassumption].
    apply Gm_in in H as (l & e & He & <- & <-). apply isEdge_iff in He. eapply cn_edge; [exact He | apply cn_refl].
Qed.

(** ** Areas *)

Lemma area2_shoelace ps : area2 ps = shoelace ps.
Proof.
  unfold shoelace. induction ps as [|p [|q t] IH]; [reflexivity | reflexivity|].
  change (area2 (p :: q :: t)) with (cross p q + area2 (q :: t)). rewrite IH. unfold cross. cbn [tl combine map fold_right fst snd]. lia.
Qed.

Lemma swept_sum m L : (forall x, In x L -> In x (darts m)) -> forall v, sweptArea m L v <-> v = sumZ (raw m) L.
Proof.
  induction L as [|d L IH]; intros HD v.
  - split; [intros H; inversion H; reflexivity | intros ->; constructor].
  - assert (Hd : In d (darts m)) by (apply HD; left; reflexivity).
    assert (HL : forall x, In x L -> In x (darts m)) by (intros; apply HD; right; assumption).
    change (sumZ (raw m) (d :: L)) with (raw m d + sumZ (raw m) L). split.
    + intros H. inversion H as [|? ? ps w Hp Hw]; subst. apply (ptsOf_iff m d ps Hd) in Hp. subst. apply IH in Hw; auto. subst.
      rewrite raw_dpts, area2_shoelace. reflexivity.
    + intros ->. rewrite raw_dpts, area2_shoelace. constructor; [apply ptsOf_iff; auto | apply IH; auto].
Qed.

Lemma contourDarts_iff m a L : SI m (darts m) -> In a (darts m) ->
  (contourDarts m a L <-> NoDup L /\ forall y, In y L <-> reach (phi m) a y).
Proof.
  intros HS Ha. unfold contourDarts. split; intros [H1 H2]; split; auto; intros y; rewrite H2; [|symmetry];
    apply reaches_phi; assumption.
Qed.

Lemma contourDarts_ex m a : SI m (darts m) -> In a (darts m) -> exists L, contourDarts m a L.
Proof.
  intros HS Ha. pose proof (phi_perm m HS) as HP.
  exists (filter (fun x => reachb (darts m) (phi m) a x) (darts m)). apply contourDarts_iff; auto.
  split; [apply NoDup_filter, nodup_darts|]. intros y. rewrite filter_In. split.
  - intros [_ E]. apply (reachb_spec _ _ _ HP) in E; auto.
  - intros Hr. split; [apply (reach_in _ _ _ HP a); auto | apply (reachb_spec _ _ _ HP); auto].
Qed.

Lemma contourAreaIs_iff m a v : SI m (darts m) -> In a (darts m) -> (contourAreaIs m a v <-> v = carea m a).
Proof.
  intros HS Ha. pose proof (phi_perm m HS) as HP.
  assert (K : forall L, contourDarts m a L -> (forall x, In x L -> In x (darts m)) /\ carea m a = sumZ (raw m) L).
  { intros L HL. apply contourDarts_iff in HL as [H1 H2]; auto. split.
    - intros x Hx. apply H2 in Hx. apply (reach_in _ _ _ HP a); assumption.
    - apply carea_sum; assumption. }
  split.
  - intros (L & HL & Hs). destruct (K L HL) as [K1 K2]. apply swept_sum in Hs; auto. congruence.
  - intros ->. destruct (contourDarts_ex m a HS Ha) as (L & HL). destruct (K L HL) as [K1 K2]. exists L. split; [assumption|].
    apply swept_sum; assumption.
Qed.

Lemma enclosed_iff m l f v : SI m (darts m) -> FIm m -> fAt m l = Some f -> (enclosedArea m f v <-> v = faceSum m l).
Proof.
  intros HS F Hf. pose proof (phi_perm m HS) as HP.
  assert (HA : fanch m l = Some (fanchors f)) by (unfold fanch; rewrite Hf; reflexivity).
  assert (HD : forall a, In a (fanchors f) -> In a (darts m)) by (intros a Ha; apply (fi_anchor _ _ _ _ F l _ a HA Ha)).
  assert (Hsum : faceSum m l = fold_right Z.add 0 (map (carea m) (fanchors f))).
  { assert (K : forall A, (forall a, In a A -> In a (fanchors f)) -> NoDup A -> exists L, NoDup L /\
        (forall y, In y L <-> exists a, In a A /\ reach (phi m) a y) /\ sumZ (raw m) L = fold_right Z.add 0 (map (carea m) A)).
    { induction A as [|a A IH]; intros HA0 Hnd.
      - exists []. split; [constructor|]. split; [|reflexivity]. intros y; split; [intros [] | intros (a & [] & _)].
      - inversion Hnd as [|? ? Hna HndA]; subst. destruct IH as (L2 & N2 & I2 & S2); auto; [intros; apply HA0; right; assumption|].
        assert (Ha : In a (darts m)) by (apply HD, HA0; left; reflexivity).
        destruct (contourDarts_ex m a HS Ha) as (L1 & HL1). apply contourDarts_iff in HL1 as [N1 I1]; auto.
        exists (L1 ++ L2). split; [|split].
        + apply NoDup_app_intro; auto. intros y H1 H2. apply I1 in H1. apply I2 in H2 as (b & Hb & Hr). apply Hna.
          replace a with b; [assumption|]. symmetry. apply (fi_sep _ _ _ _ F l _ a b HA).
          * apply HA0; left; reflexivity.
          * apply HA0; right; assumption.
          * apply (reach_trans _ a y); [assumption|]. apply (reach_sym _ _ _ HP); [|assumption]. apply HD, HA0; right; assumption.
        + intros y. rewrite in_app_iff, I1, I2. split.
          * intros [H|(b & Hb & Hr)]; [exists a; simpl; auto | exists b; simpl; auto].
          * intros (b & [<-|Hb] & Hr); [left; assumption | right; eauto].
        + rewrite sumZ_app, S2. cbn [map fold_right]. rewrite (carea_sum m a L1 HS Ha N1 I1). reflexivity. }
    destruct (K (fanchors f)) as (L & N & I & <-); auto; [apply (fi_nodup _ _ _ _ F l _ HA)|].
    unfold faceSum. apply sumZ_perm, NoDup_Permutation; [apply NoDup_filter, nodup_darts | assumption|].
    intros y. rewrite I, filter_In, onFace_eq. split.
    - intros [H1 H2]. destruct (fi_cover _ _ _ _ F y H1) as (l' & A & a & E1 & E2 & Ha & Hr).
      assert (l' = l) by congruence. subst. rewrite HA in E2. injection E2 as <-. eauto.
    - intros (a & Ha & Hr). destruct (fi_anchor _ _ _ _ F l _ a HA Ha) as [H1 H2]. split; [apply (reach_in _ _ _ HP a); assumption|].
      rewrite <- H2. apply (fi_reach (darts m) (phi m) _ (lft m) (fanch m) a y HP F); assumption. }
  rewrite Hsum. unfold enclosedArea. split.
  - intros (vs & H & ->). f_equal. clear Hsum HA Hf. revert vs H. induction (fanchors f) as [|a A IH]; intros vs H; inversion H as [|? w ? ws H1 H2]; subst; [reflexivity|].
    cbn [map]. f_equal; [apply contourAreaIs_iff in H1; auto; apply HD; left; reflexivity | apply IH; auto; intros; apply HD; right; assumption].
  - intros ->. exists (map (carea m) (fanchors f)). split; [|reflexivity]. clear Hsum HA Hf.
    induction (fanchors f) as [|a A IH]; cbn [map]; constructor.
    + apply contourAreaIs_iff; auto. apply HD; left; reflexivity.
    + apply IH. intros; apply HD; right; assumption.
Qed.

(** ** Planar drawings *)

Lemma creps_rank G V R : NoDup V -> incl (verts G) V -> creps G V R -> (length R + rank G = length V)%nat.
Proof.
  intros HV HG HR. destruct (comps_count G V HV HG) as (R' & HR' & E). rewrite (creps_unique G V R R' HR HR'). assumption.
Qed.

Definition busyList m : list nat := map (stt m) (nanchors m).

Lemma nodup_map_inj {A B} (f : A -> B) l : (forall x y, In x l -> In y l -> f x = f y -> x = y) -> NoDup l -> NoDup (map f l).
Proof.
  intros Hf H. induction H as [|a l Hn Hnd IH]; cbn [map]; constructor.
  - intros Hi. apply in_map_iff in Hi as (b & E & Hb). apply Hn. replace a with b; [assumption|]. apply Hf; simpl; auto.
  - apply IH. intros; apply Hf; simpl; auto.
Qed.

Lemma busyList_nodup m : SInv m -> NoDup (busyList m).
Proof.
  intros V. pose proof (reps_nanchors m V) as R. unfold busyList. apply nodup_map_inj; [|apply R].
  intros x y Hx Hy E. apply (reps_sep _ _ _ R); auto. apply (SI_orbit m (darts m)); auto; [apply V | apply R; assumption | apply R; assumption].
Qed.

Lemma in_busyList m n : SInv m -> (In n (busyList m) <-> exists d, In d (darts m) /\ stt m d = n).
Proof.
  intros V. pose proof (reps_nanchors m V) as R. unfold busyList. rewrite in_map_iff. split.
  - intros (x & E & Hx). exists x. split; [apply R; assumption | assumption].
  - intros (d & Hd & E). destruct (reps_cover _ _ _ R d Hd) as (r & Hr & Hre). exists r. split; [|assumption]. rewrite <- E.
    apply (SI_orbit m (darts m) r d (sv_si _ V) (reps_incl _ _ _ R r Hr) Hd); assumption.
Qed.

Lemma verts_Gm m : SInv m -> incl (verts (Gm m)) (busyList m).
Proof.
  intros V n Hn. unfold verts in Hn. apply in_flat_map in Hn as ([a b] & Hab & Hn). unfold Gm, pairs in Hab. apply in_map_iff in Hab as (z & E & Hz).
  injection E as <- <-. assert (Hd : In z (darts m)) by (unfold darts; apply in_app_iff; left; assumption).
  apply in_busyList; auto. destruct Hn as [<-|[<-|[]]]; cbn [fst snd]; [exists z | exists (- z)]; split; auto. apply darts_opp; assumption.
Qed.

Lemma planarDrawing_drawn m : SInv m -> planarDrawing m -> drawn m.
Proof.
  intros V P. pose proof (sv_si _ V) as HS. pose proof (phi_perm m HS) as HP. constructor.
  - destruct (pd_euler _ P) as (C & K & (C1 & C2 & C3 & C4) & (K1 & K2 & K3 & K4) & E).
    assert (HC : reps (phi m) (darts m) C).
    { constructor; auto.
      - intros r Hr. apply isDart_iff, C2; assumption.
      - intros x Hx. destruct (C4 x) as (a & Ha & Hc); [apply isDart_iff; assumption|]. exists a. split; [assumption|].
        apply reaches_phi in Hc; auto. apply isDart_iff, C2; assumption.
      - intros r s Hr Hs Hrs. apply C3; auto. apply reaches_phi; auto. apply isDart_iff, C2; assumption. }
    assert (HK : creps (Gm m) (busyList m) K).
    { constructor; auto.
      - intros n Hn. destruct (K2 n Hn) as (d & Hd & En). apply isDart_iff in Hd. rewrite (startLabel_Ok m d Hd) in En. injection En as <-.
        apply in_busyList; eauto.
      - intros x Hx. apply in_busyList in Hx as (d & Hd & <-); auto. destruct (K4 d (stt m d)) as (k & Hk & Hc); [apply isDart_iff; assumption | apply startLabel_Ok; assumption|].
        exists k. split; [assumption | apply connected_iff; assumption].
      - intros r s Hr Hs Hc. apply K3; auto. apply connected_iff; assumption. }
    exists C. split; [assumption|].
    pose proof (creps_rank _ _ _ (busyList_nodup m V) (verts_Gm m V) HK) as Er. unfold busyList in Er. rewrite map_length in Er.
    pose proof (length_nanchors m). rewrite nonIsolated_sumf in E. unfold liveEdges in E. rewrite live_sumf in E. lia.
  - intros a b Ha Hb H1 H2 Hc. apply (reaches_phi m a b HS Ha).
    apply (pd_exterior _ P a b (stt m a) (stt m b) (carea m a) (carea m b)); auto;
      try (apply isDart_iff; assumption); try (apply startLabel_Ok; assumption); try (apply contourAreaIs_iff; auto; fail).
    apply connected_iff; assumption.
Qed.

Lemma drawn_planarDrawing m : SInv m -> drawn m -> planarDrawing m.
Proof.
  intros V P. pose proof (sv_si _ V) as HS. pose proof (phi_perm m HS) as HP. constructor.
  - destruct (dr_planar _ P) as (C & HC & E).
    destruct (comps_count (Gm m) (busyList m) (busyList_nodup m V) (verts_Gm m V)) as (K & HK & Er). exists C, K.
    split; [|split].
    + split; [apply HC|]. split; [|split].
      * intros a Ha. apply isDart_iff, HC; assumption.
      * intros a b Ha Hb Hc. apply (reps_sep _ _ _ HC); auto. apply reaches_phi in Hc; auto. apply HC; assumption.
      * intros d Hd. apply isDart_iff in Hd. destruct (reps_cover _ _ _ HC d Hd) as (r & Hr & Hre). exists r. split; [assumption|].
        apply reaches_phi; auto. apply HC; assumption.
    + split; [apply HK|]. split; [|split].
      * intros n Hn. apply (creps_incl _ _ _ HK), in_busyList in Hn as (d & Hd & <-); auto. exists d. split; [apply isDart_iff; assumption | apply startLabel_Ok; assumption].
      * intros n n' Hn Hn' Hc. apply (creps_sep _ _ _ HK); auto. apply connected_iff; assumption.
      * intros d n Hd En. apply isDart_iff in Hd. rewrite (startLabel_Ok m d Hd) in En. injection En as <-.
        destruct (creps_cover _ _ _ HK (stt m d)) as (k & Hk & Hc); [apply in_busyList; eauto|]. exists k. split; [assumption | apply connected_iff; assumption].
    + unfold busyList in Er. rewrite map_length in Er. pose proof (length_nanchors m). rewrite nonIsolated_sumf. unfold liveEdges. rewrite live_sumf. lia.
  - intros a b n n' v w Ha Hb En En' Hc Hv Hw H1 H2. apply isDart_iff in Ha. apply isDart_iff in Hb.
    rewrite (startLabel_Ok m a Ha) in En. rewrite (startLabel_Ok m b Hb) in En'. injection En as <-. injection En' as <-.
    apply contourAreaIs_iff in Hv; auto. apply contourAreaIs_iff in Hw; auto. subst. apply reaches_phi; auto.
    apply (dr_ext _ P); auto. apply connected_iff; assumption.
Qed.

(** ** Preconditions *)

Lemma allowed_op_ok m hk o : SInv m -> allowed m (Call hk o) -> op_ok m o.
Proof.
  intros V. pose proof (sv_si _ V) as HS. destruct o; cbn [allowed op_ok]; auto.
  - intros [H1 H2]. split; [destruct s | destruct e]; cbn in *; auto; [destruct H1 as (nd & K) | destruct H2 as (nd & K)];
      apply isNode_iff in K; congruence.
  - apply isDart_iff.
  - intros (e & He & Hn). exists e. split; [apply isEdge_iff; assumption | assumption].
  - intros (nd & Hn & H0). exists nd. split; [apply isNode_iff; assumption | assumption].
  - intros (f & Hf). apply isFace_iff in Hf. congruence.
  - intros (e & He). exists e. apply isEdge_iff; assumption.
  - intros ((nd & Hn) & Hp). split; [exists nd; apply isNode_iff; assumption|]. intros k e He. apply isEdge_iff in He. apply (Hp k e He).
  - intros (F1 & F2 & F3 & F4). split; [|split; [|split]].
    + intros d Hd. apply isDart_iff, F1, isDart_iff; assumption.
    + intros d d' Hd Hd'. apply F2; apply isDart_iff; assumption.
    + intros d Hd. pose proof Hd as Hd0. apply isDart_iff in Hd0. specialize (F3 d Hd0). apply F1, isDart_iff in Hd0.
      rewrite (startLabel_Ok m d Hd), (startLabel_Ok m _ Hd0) in F3. congruence.
    + intros d d' Hd Hd' E. destruct (F4 d d') as (n & W); [apply isDart_iff; assumption..| |].
      * rewrite !startLabel_Ok by assumption. congruence.
      * exists n. rewrite (walk_iter (fun x => Ok (f x)) f (darts m)) in W; [congruence | | assumption].
        intros x Hx. split; [reflexivity|]. apply isDart_iff, F1, isDart_iff; assumption.
Qed.

(** ** Initialisation *)

Lemma sortedMap_spec m ms : GP m -> sortedMap m = Ok ms -> sorted ms = true /\ GP ms /\
  nodes ms = nodes m /\ edges ms = edges m /\ (sorted m = true -> ms = m).
Proof.
  intros G. unfold sortedMap. destruct (sorted m) eqn:Es.
  - intros E. injection E as <-. auto.
  - intros E. destruct (sortEdgesDirectly_spec m (gp_v _ G) (gp_f _ G)) as [(m' & R & S)|(R & _)]; [|congruence].
    rewrite R in E. injection E as <-. pose proof (rs_eq _ _ S) as Eq.
    assert (En : nodes m' = nodes m) by (rewrite Eq; reflexivity). assert (Ee : edges m' = edges m) by (rewrite Eq; reflexivity).
    split; [rewrite Eq; reflexivity|]. split; [|auto]. apply (GP_tables m); auto; [apply S | rewrite Eq; reflexivity].
    split; [assumption|]. split; [assumption|]. discriminate.
Qed.

Lemma initializeMap_sorted ord par m : faces m = [] -> initializeMap ord par m = (ms <- sortedMap m ;; initializeMap ord par ms).
Proof.
  intros Hf. unfold sortedMap, initializeMap at 1. rewrite Hf. cbn [length Nat.eqb negb]. destruct (sorted m) eqn:Es.
  - cbn [bind]. unfold initializeMap. rewrite Hf, Es. reflexivity.
  - destruct (sortEdgesDirectly m) as [ms| | |] eqn:E; try reflexivity. cbn [bind].
    unfold initializeMap.
    assert (K : faces ms = [] /\ sorted ms = true).
    { unfold sortEdgesDirectly in E. rewrite Hf in E. cbn [length Nat.eqb negb] in E.
      destruct (sortNodes m (seq 0 (length (nodes m)))) as [m1| | |] eqn:E1; try discriminate. cbn [bind] in E. injection E as <-.
      split; [|reflexivity]. cbn [faces set_sorted].
      assert (Hw : forall t m a q p m', writeOrder m a q p t = Ok m' -> faces m' = faces m).
      { induction t as [|[q d] t IH]; intros m2 a q0 p m3 W; cbn [writeOrder] in W.
        - unfold putS, putSi in W. destruct (inCap m2 p); [|discriminate]. cbn [bind] in W. destruct (inCap _ a); [|discriminate]. injection W as <-. reflexivity.
        - destruct (Qeq_bool q0 q); [discriminate|]. unfold putS, putSi in W. destruct (inCap m2 p); [|discriminate]. cbn [bind] in W.
          destruct (inCap _ d); [|discriminate]. cbn [bind] in W. apply IH in W. exact W. }
      assert (Hn : forall m l m', sortNode m l = Ok m' -> faces m' = faces m).
      { intros m2 l m3 W. unfold sortNode in W. destruct (nodeP m2 l) as [[nd|]| | |]; try discriminate; cbn [bind] in W; [|congruence].
        destruct (nanchor nd =? 0); [congruence|].
        destruct (collectAngles _ _ _ _) as [L| | |]; try discriminate. cbn [bind] in W. destruct (sortPairs L) as [|[q d] t]; [discriminate || congruence|].
        apply Hw in W. exact W. }
      assert (Hns : forall ls m m', sortNodes m ls = Ok m' -> faces m' = faces m).
      { induction ls as [|l ls IH]; intros m2 m3 W; cbn [sortNodes] in W; [congruence|].
        destruct (sortNode m2 l) as [m4| | |] eqn:E4; try discriminate. cbn [bind] in W. rewrite (IH _ _ W). apply (Hn _ _ _ E4). }
      rewrite (Hns _ _ _ E1). assumption. }
    destruct K as [-> ->]. reflexivity.
Qed.

Lemma Init_spec m ord par : GP m -> allowed m (Init ord par) ->
  (initializeMap ord par m = Exn /\ sortFails m) \/
  exists ms m', sortedMap m = Ok ms /\ GP ms /\ nodes ms = nodes m /\ edges ms = edges m /\
    initializeMap ord par m = Ok m' /\ relF ms m' /\ MInv m' /\ AInv m' /\
    (forall l f, fAt m' l = Some f -> l <> 0%nat -> exists a H, fanchors f = a :: H /\ 0 < carea m' a /\
        forall h, In h H -> carea m' h <= 0) /\
    (forall f, fAt m' 0 = Some f -> forall h, In h (fanchors f) -> carea m' h <= 0).
Proof.
  intros G (Hp & Hs & Hpar). pose proof (gp_f _ G) as Hf. rewrite (initializeMap_sorted ord par m Hf).
  destruct (sortedMap m) as [ms| | |] eqn:Es.
  - right. destruct (sortedMap_spec m ms G Es) as (Hso & Gs & En & Ee & _). pose proof (gp_v _ Gs) as Vs.
    destruct (initContours_spec ms Vs (gp_f _ Gs) (gp_l _ Gs)) as (m1 & R1 & C1 & Hall).
    destruct (Hs ms m1 eq_refl R1) as (eps & Heps & Hperm & Hord).
    assert (Hso' : forall m2, initContours ms = Ok m2 -> sort_ok eps m2 ord).
    { intros m2 E2. rewrite R1 in E2. injection E2 as <-. split; [assumption|]. intros A B E p e Hp0 He0.
      pose proof (ci_rel _ _ C1) as Rl. pose proof (rf_SI _ _ Rl (sv_si _ Vs)) as S1. pose proof (CI_FI ms m1 Vs C1 Hall) as F1.
      assert (Hin : forall l, In l ord -> exists f, fAt m1 l = Some f).
      { intros l Hl. apply (Permutation_in _ Hperm) in Hl. apply in_seq in Hl. destruct (ci_faces _ _ C1 l) as (a & Ea & _); [lia|]. eauto. }
      destruct (Hin p) as (fp & Efp); [rewrite E; apply in_app_iff; auto|]. destruct (Hin e) as (fe & Efe); [rewrite E; apply in_app_iff; auto|].
      apply (Hord A B E p e fp fe); auto; try (apply isFace_iff; assumption).
      - apply (enclosed_iff m1 p fp _ S1 F1 Efp); reflexivity.
      - apply (enclosed_iff m1 e fe _ S1 F1 Efe); reflexivity. }
    assert (Hpo : par_ok par).
    { intros m2 a H0. destruct (fAt m2 0) as [f0|] eqn:E0; [|contradiction]. destruct (Hpar m2 a) as (f & Hfx); [exists f0; apply isFace_iff; assumption|].
      apply isFace_iff in Hfx. congruence. }
    destruct (initializeMap_spec ms eps ord par Vs (gp_f _ Gs) Hso (gp_l _ Gs) (planarDrawing_drawn ms Vs (Hp ms eq_refl)) Heps Hso' Hpo)
      as (m' & R & Rl & M & A & O1 & O2 & _).
    exists ms, m'. cbn [bind].
    assert (Ec : forall a, carea m' a = carea ms a).
    { intros a. unfold carea. rewrite (rf_darts _ _ Rl), (rf_phi _ _ Rl). apply sumZ_ext. intros; apply rf_raw; assumption. }
    split; [reflexivity|]. split; [assumption|]. split; [assumption|]. split; [assumption|]. split; [exact R|]. split; [assumption|].
    split; [assumption|]. split; [exact A|]. split.
    + intros l f Hl Hl0. destruct (O1 l f Hl Hl0) as (a & H & E1 & E2 & E3). exists a, H. rewrite Ec. split; [assumption|]. split; [assumption|].
      intros h Hh. rewrite Ec. auto.
    + intros f Hl h Hh. rewrite Ec. eauto.
  - left. split; [reflexivity|]. unfold sortedMap in Es. destruct (sorted m); [discriminate|].
    destruct (sortEdgesDirectly_spec m (gp_v _ G) Hf) as [(m' & R & _)|(_ & F)]; [congruence | assumption].
  - exfalso. unfold sortedMap in Es. destruct (sorted m); [discriminate|].
    destruct (sortEdgesDirectly_spec m (gp_v _ G) Hf) as [(m' & R & _)|(R & _)]; congruence.
  - exfalso. unfold sortedMap in Es. destruct (sorted m); [discriminate|].
    destruct (sortEdgesDirectly_spec m (gp_v _ G) Hf) as [(m' & R & _)|(R & _)]; congruence.
Qed.
