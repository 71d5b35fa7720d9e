(** Angular sorting, outer contours after initialisation, and concrete maps on
    which a property fails. *)
From Coq Require Import QArith Sorted.
From Verif Require Import Base Orbit GraphRank Euler Links FaceInv Conj
  GeoMap_Model GeoMap_Views GeoMap_SInv GeoMap_Remove GeoMap_MergeEdges GeoMap_SplitEdge GeoMap_Loops GeoMap_MInv
  GeoMap_Gone GeoMap_Bridge GeoMap_MergeFaces GeoMap_Subdiv GeoMap_Init GeoMap_Area GeoMap_Embed GeoMap_Initialize GeoMap_Sort
  GeoMap_History GeoMap_Geometry GeoMap_AreaInv GeoMap_Spec GeoMap_Facts GeoMap_Results GeoMap_Results2 GeoMap_Examples.
Local Open Scope Z_scope.

(** ** C29 *)

(** pseudo-angle of the first segment of a dart; the y axis points down *)
Definition angleOf m d (q : Q) : Prop :=
  exists p0 p1 t, ptsOf m d (p0 :: p1 :: t) /\ q = angleTheta (snd p0 - snd p1) (fst p1 - fst p0).
Definition angleBefore m d d' : Prop := exists q q', angleOf m d q /\ angleOf m d' q' /\ (q < q')%Q.
(** two different darts leave a node at the same angle *)
Definition sameAngle m : Prop := exists d d' n q q', isDart m d /\ isDart m d' /\ d <> d' /\
  startLabel m d = Ok n /\ startLabel m d' = Ok n /\ angleOf m d q /\ angleOf m d' q' /\ (q == q')%Q.
Definition tooShort m : Prop := exists d ps, isDart m d /\ ptsOf m d ps /\ (length ps < 2)%nat.

Lemma dartAngle_angleOf m d q : In d (darts m) -> (dartAngle m d = Ok q <-> angleOf m d q).
Proof.
  intros Hd. destruct (live_edge m d Hd) as (e & He). unfold dartAngle. rewrite (gEdge_Ok _ _ _ He). cbn [bind].
  assert (E : dartPts e d = dpts m d) by (unfold dartPts, dpts; rewrite He; reflexivity). rewrite E. split.
  - intros K. destruct (dpts m d) as [|p0 [|p1 t]] eqn:Ep; try discriminate. injection K as <-. exists p0, p1, t. split; [apply ptsOf_iff; auto|].
    f_equal. lia.
  - intros (p0 & p1 & t & Hp & ->). apply (ptsOf_iff m d _ Hd) in Hp. rewrite <- Hp. f_equal. f_equal. lia.
Qed.
Lemma dartAngle_Exn m d : In d (darts m) -> dartAngle m d = Exn -> exists ps, ptsOf m d ps /\ (length ps < 2)%nat.
Proof.
  intros Hd. destruct (live_edge m d Hd) as (e & He). unfold dartAngle. rewrite (gEdge_Ok _ _ _ He). cbn [bind].
  assert (E : dartPts e d = dpts m d) by (unfold dartPts, dpts; rewrite He; reflexivity). rewrite E. intros K. exists (dpts m d).
  split; [apply ptsOf_iff; auto|]. destruct (dpts m d) as [|p0 [|p1 t]]; cbn; [lia | lia | discriminate].
Qed.

(** [W] is walked cyclically by [next] *)
Definition cyclicWalk (next : Z -> res Z) (W : list Z) : Prop :=
  forall i x, nth_error W i = Some x -> exists y, nth_error W (if Nat.eqb (S i) (length W) then 0%nat else S i) = Some y /\ next x = Ok y.

Lemma cyc_walk m W : (forall x, In x W -> nextSigma m x = Ok (sg m x)) -> cyc (sg m) W -> cyclicWalk (nextSigma m) W.
Proof.
  intros Hs C i x Hx. destruct W as [|w t]; [destruct i; discriminate|]. unfold cyc in C.
  assert (Hi : (i < length (w :: t))%nat) by (apply nth_error_Some; congruence).
  exists (sg m x). split; [|apply Hs; apply (nth_error_In _ _ Hx)].
  assert (E : nth_error (t ++ [w]) i = Some (sg m x)) by (rewrite <- C, nth_error_map, Hx; reflexivity).
  cbn [length] in *. destruct (Nat.eqb_spec (S i) (S (length t))) as [Ei|Ni].
  - rewrite nth_error_app2 in E by lia. replace (i - length t)%nat with 0%nat in E by lia. exact E.
  - rewrite nth_error_app1 in E by lia. exact E.
Qed.

Theorem sort_result m : history anyCall m -> ~ initialised m ->
  (exists m', sortEdgesDirectly m = Ok m' /\ sorted m' = true /\ ~ sameAngle m /\
     (forall l, nodeP m' l = nodeP m l) /\ (forall l, edgeP m' l = edgeP m l) /\
     (nodeCount m' = nodeCount m /\ edgeCount m' = edgeCount m /\ faceCount m' = faceCount m) /\
     forall l nd, isNode m l nd -> exists W, NoDup W /\ (forall x, In x W <-> isDart m x /\ startLabel m x = Ok l) /\
       StronglySorted (angleBefore m) W /\ cyclicWalk (nextSigma m') W) \/
  (sortEdgesDirectly m = Exn /\ (sameAngle m \/ tooShort m)).
Proof.
  intros H Hi. assert (Hf : faces m = []) by (unfold initialised in Hi; destruct (faces m); [reflexivity | exfalso; apply Hi; discriminate]).
  pose proof (Inv_SInv m (history_Inv _ m H)) as V. pose proof (sv_si _ V) as HS.
  destruct (sortEdgesDirectly_spec m V Hf) as [(m' & R & S)|(R & F)].
  - left. exists m'. split; [assumption|]. pose proof (rs_eq _ _ S) as E.
    assert (En : nodes m' = nodes m) by (rewrite E; reflexivity). assert (Ee : edges m' = edges m) by (rewrite E; reflexivity).
    assert (Eat : forall l, eAt m' l = eAt m l) by (intros; unfold eAt; rewrite Ee; reflexivity).
    assert (ED : darts m' = darts m) by (apply tables_darts; assumption).
    assert (Est : forall x, stt m' x = stt m x) by (intros x; unfold stt; rewrite Eat; reflexivity).
    assert (EA : forall x, dartAngle m' x = dartAngle m x) by (intros x; unfold dartAngle, gEdge, edgeP; rewrite Ee; reflexivity).
    split; [rewrite E; reflexivity|]. split.
    { intros (d & d' & n & q & q' & Hd & Hd' & Hne & N1 & N2 & A1 & A2 & Q12). apply isDart_iff in Hd. apply isDart_iff in Hd'.
      apply (dartAngle_angleOf m d q Hd) in A1. apply (dartAngle_angleOf m d' q' Hd') in A2.
      rewrite (startLabel_Ok m d Hd) in N1. rewrite (startLabel_Ok m d' Hd') in N2. injection N1 as <-. injection N2 as Hst.
      destruct (rs_at _ _ S (stt m d) (si_node _ _ HS d Hd)) as (W & _ & H2 & H3 & _).
      assert (Hi1 : In d W) by (apply H2; rewrite ED, Est; auto).
      assert (Hi2 : In d' W) by (apply H2; rewrite ED, Est; auto).
      assert (K : angLt m' d d' \/ angLt m' d' d).
      { clear -H3 Hi1 Hi2 Hne. induction H3 as [|u W _ IH HF]; [destruct Hi1|]. rewrite Forall_forall in HF.
        destruct Hi1 as [->|Hi], Hi2 as [->|Hi']; [contradiction|left; auto|right; auto|auto]. }
      destruct K as [(p & r & K1 & K2 & K3)|(p & r & K1 & K2 & K3)]; rewrite EA in K1, K2; rewrite A1 in *; rewrite A2 in *;
        injection K1 as <-; injection K2 as <-; rewrite Q12 in K3; apply (Qlt_irrefl _ K3). }
    split; [intros; unfold nodeP; rewrite En; reflexivity|]. split; [intros; unfold edgeP; rewrite Ee; reflexivity|].
    split; [rewrite E; auto|]. intros l nd Hn. apply isNode_iff in Hn.
    destruct (rs_at _ _ S l) as (W & H1 & H2 & H3 & H4); [congruence|]. exists W. split; [assumption|].
    assert (HW : forall x, In x W <-> In x (darts m) /\ stt m x = l) by (intros x; rewrite H2, ED, Est; reflexivity).
    split; [|split].
    + intros x. rewrite HW, isDart_iff. split; intros [X Y]; split; auto; rewrite (startLabel_Ok m x X) in *; congruence.
    + assert (HWi : forall x, In x W -> In x (darts m)) by (intros x Hx; apply HW; assumption). clear -H3 EA HWi.
      induction H3 as [|u W _ IH HF]; constructor; [apply IH; intros; apply HWi; right; assumption|].
      apply Forall_forall. intros y Hy. rewrite Forall_forall in HF. destruct (HF y Hy) as (p & r & K1 & K2 & K3). rewrite EA in K1, K2.
      exists p, r. split; [apply dartAngle_angleOf; auto; apply HWi; left; reflexivity|]. split; [apply dartAngle_angleOf; auto; apply HWi; right; assumption | assumption].
    + apply cyc_walk; [|assumption]. intros x Hx. apply (sigma_next m' (sv_si _ (rs_inv _ _ S))). apply H2 in Hx. apply Hx.
  - right. split; [assumption|]. destruct F as [(d & Hd & Ed)|(d & d' & q & q' & Hd & Hd' & Hne & Est & Eq & Eq' & Hq)].
    + right. destruct (dartAngle_Exn m d Hd Ed) as (ps & P1 & P2). exists d, ps. split; [apply isDart_iff; assumption | auto].
    + left. exists d, d', (stt m d), q, q'. split; [apply isDart_iff; assumption|]. split; [apply isDart_iff; assumption|]. split; [assumption|].
      split; [apply startLabel_Ok; assumption|]. split; [rewrite Est; apply startLabel_Ok; assumption|].
      split; [apply dartAngle_angleOf; assumption|]. split; [apply dartAngle_angleOf; assumption | assumption].
Qed.

(** ** C07 *)

(** contour() is the exterior contour, all other contours are holes *)
Definition outerFirst m : Prop :=
  (forall l f, isFace m l f -> l <> 0%nat -> exists a H, fanchors f = a :: H /\
     (exists v, contourAreaIs m a v /\ 0 < v) /\ forall h, In h H -> exists v, contourAreaIs m h v /\ v <= 0) /\
  (forall f, isFace m 0 f -> forall h, In h (fanchors f) -> exists v, contourAreaIs m h v /\ v <= 0).

Lemma contourArea_of m l f a : SI m (darts m) -> FIm m -> fAt m l = Some f -> In a (fanchors f) -> contourAreaIs m a (carea m a).
Proof.
  intros HS F Hf Ha. apply contourAreaIs_iff; auto. assert (Hl : fanch m l = Some (fanchors f)) by (unfold fanch; rewrite Hf; reflexivity).
  apply (fi_anchor _ _ _ _ F l _ a Hl Ha).
Qed.

Theorem init_outerFirst m ord par m' : history anyCall m -> allowed m (Init ord par) -> exec m (Init ord par) = Ok m' -> outerFirst m'.
Proof.
  intros H Ha E. cbn [exec] in E. destruct (history_Inv _ m H) as [G|M].
  - destruct (Init_spec m ord par G Ha) as [(E' & _)|(ms & m1 & _ & _ & _ & _ & E' & _ & M & _ & O1 & O2)]; [congruence|].
    rewrite E' in E. injection E as ->. pose proof (sv_si _ (mi_v _ M)) as HS. pose proof (mi_f _ M) as F. split.
    + intros l f Hf Hl. apply isFace_iff in Hf. destruct (O1 l f Hf Hl) as (a & Hs & E1 & E2 & E3). exists a, Hs. split; [assumption|]. split.
      * exists (carea m' a). split; [|assumption]. apply (contourArea_of m' l f); auto. rewrite E1. left; reflexivity.
      * intros h Hh. exists (carea m' h). split; [|auto]. apply (contourArea_of m' l f); auto. rewrite E1. right; assumption.
    + intros f Hf h Hh. apply isFace_iff in Hf. exists (carea m' h). split; [|apply (O2 f); assumption]. apply (contourArea_of m' 0 f); auto.
  - exfalso. pose proof (mi_0 _ M) as M0. unfold fAt, tget in M0. unfold initializeMap in E. destruct (faces m); [cbn in M0; congruence|]. discriminate.
Qed.

(** *** a thin ring around a disc *)

Definition ringGraph : list xcall := [ XCall (OAddNode (0,0)); XCall (OAddNode (10,0)); XCall (OAddNode (-1,-1));
   XCall (OAddEdge (SAnode 0) (SAnode 1) [(0,0);(10,0)] 0);
   XCall (OAddEdge (SAnode 0) (SAnode 1) [(0,0);(0,10);(10,10);(10,0)] 0);
   XCall (OAddEdge (SAnode 2) (SAnode 2) [(-1,-1);(11,-1);(11,11);(-1,11);(-1,-1)] 0) ].
Definition ringCalls : list xcall := ringGraph ++ [XInit [3;4;1;2]%nat [(1, 4%nat)]].
Definition ringMap : gmap := replay true ringCalls.
Lemma ring_replays : replays true ringCalls = true.
Proof. vm_compute. reflexivity. Qed.
Lemma ring_history : history geometricStraight ringMap.
Proof. exact (replay_history true ringCalls ring_replays). Qed.
Lemma ring_faces : faces ringMap = [Some (mkFace [3] None 0); None; Some (mkFace [-1] (Some 200) 0); None; Some (mkFace [-3; 1] (Some 88) 0)].
Proof. vm_compute. reflexivity. Qed.

Lemma mergedRing : exists m', mergeFaces yes ringMap 1 = Ok (m', Some 2%nat) /\ history geometricStraight m' /\
  isFace m' 2 (mkFace [2; -3] (Some 288) 0) /\ carea m' 2 = 0 /\ carea m' (-3) = 288.
Proof.
  assert (E : match mergeFaces yes ringMap 1 with
    | Ok (m', Some 2%nat) => isFace m' 2 (mkFace [2; -3] (Some 288) 0) /\ carea m' 2 = 0 /\ carea m' (-3) = 288
    | _ => False end) by (vm_compute; repeat split).
  destruct (mergeFaces yes ringMap 1) as [[m' [[|[|[|?]]]|]]| | |] eqn:Em; try contradiction.
  exists m'. split; [reflexivity|]. split; [|exact E]. apply (h_call _ ringMap (Call yes (OMergeFaces 1))); [apply ring_history | exact I | split; exact I|].
  cbn [exec run_op]. rewrite Em. reflexivity.
Qed.

Lemma outer_unique m a v w : SI m (darts m) -> In a (darts m) -> contourAreaIs m a v -> contourAreaIs m a w -> v = w.
Proof. intros HS Ha Hv Hw. apply contourAreaIs_iff in Hv; auto. apply contourAreaIs_iff in Hw; auto. congruence. Qed.

Theorem mergeFaces_outerFirst_refuted : exists m d m' s, history geometricStraight m /\ initialised m /\ outerFirst m /\
  mergeFaces yes m d = Ok (m', Some s) /\ ~ outerFirst m'.
Proof.
  destruct mergedRing as (m' & Em & Hh & Hf & C1 & C2). exists ringMap, 1, m', 2%nat. split; [apply ring_history|].
  split; [unfold initialised; rewrite ring_faces; discriminate|]. split.
  - set (g := replay true ringGraph). assert (Eg : replays true ringGraph = true) by (vm_compute; reflexivity).
    apply (init_outerFirst g [3;4;1;2]%nat (parTable [(1, 4%nat)])).
    + apply (replay_any true ringGraph Eg).
    + apply (allowedb_spec g (XInit [3;4;1;2]%nat [(1, 4%nat)])); [apply (history_Inv anyCall), (replay_any true ringGraph Eg) | vm_compute; reflexivity].
    + vm_compute. reflexivity.
  - split; [assumption|]. intros [O _]. destruct (O 2%nat _ Hf) as (a & H & E1 & (v & Hv & Hp) & _); [lia|]. cbn [fanchors] in E1. injection E1 as <- _.
    assert (Hm : MInv m') by (apply (history_MInv geometricStraight); [assumption|]; unfold initialised; intros K; apply isFace_iff in Hf; unfold fAt in Hf; rewrite K in Hf; discriminate).
    pose proof (sv_si _ (mi_v _ Hm)) as HS. apply isFace_iff in Hf. assert (Ha : contourAreaIs m' 2 (carea m' 2)) by (apply (contourArea_of m' 2 _ _ HS (mi_f _ Hm) Hf); left; reflexivity).
    assert (Hd : In 2 (darts m')).
    { assert (Hl : fanch m' 2 = Some [2; -3]) by (unfold fanch; rewrite Hf; reflexivity). apply (fi_anchor _ _ _ _ (mi_f _ Hm) 2%nat _ 2 Hl). left; reflexivity. }
    pose proof (outer_unique m' 2 _ _ HS Hd Hv Ha). lia.
Qed.

(** ** C10 without the straightness condition *)

Definition bentCalls : list xcall := ringCalls ++ [XCall (OSplitEdge 3 0 (5, -5) true)].
Theorem bent_area_refuted : exists m l f v w, history geometric m /\ isFace m l f /\ reportedArea m l v /\ enclosedArea m f w /\ v <> w.
Proof.
  assert (Eb : replays false bentCalls = true) by (vm_compute; reflexivity).
  pose proof (replay_history false bentCalls Eb) as H. cbn [rule] in H. set (m := replay false bentCalls) in *.
  exists m, 4%nat, (mkFace [-3; 1] (Some 88) 0), 88, (faceSum m 4).
  assert (Hf : isFace m 4 (mkFace [-3; 1] (Some 88) 0)) by (vm_compute; reflexivity).
  assert (Hm : MInv m) by (apply (history_MInv geometric); [assumption | vm_compute; discriminate]).
  split; [assumption|]. split; [assumption|]. split; [|split].
  - exists m. unfold faceArea. unfold isFace in Hf. rewrite Hf. reflexivity.
  - apply (enclosed_iff m 4 _ _ (sv_si _ (mi_v _ Hm)) (mi_f _ Hm)); [apply isFace_iff; assumption | reflexivity].
  - vm_compute. discriminate.
Qed.

(** ** removeIsolatedNode does not check that the node is isolated *)

Theorem remove_used_node_refuted : exists m l nd m' d, history anyCall m /\ isNode m l nd /\
  removeIsolatedNode yes m l = Ok (m', true) /\ isDart m' d /\ startLabel m' d = Ok l /\ ~ exists nd', isNode m' l nd'.
Proof.
  set (cs := [XCall (OAddNode (0,0)); XCall (OAddNode (4,0)); XCall (OAddEdge (SAnode 0) (SAnode 1) [(0,0);(4,0)] 0)]).
  assert (Ec : replays true cs = true) by (vm_compute; reflexivity).
  exists (replay true cs), 0%nat, (mkNode (0,0) 1).
  destruct (removeIsolatedNode yes (replay true cs) 0) as [[m' [|]]| | |] eqn:E; try (vm_compute in E; discriminate).
  exists m', 1. split; [apply (replay_any true cs Ec)|]. split; [vm_compute; reflexivity|]. split; [reflexivity|].
  vm_compute in E. injection E as <-. split; [split; [discriminate|]; eexists; vm_compute; reflexivity|]. split; [vm_compute; reflexivity|].
  intros (nd' & K). vm_compute in K. discriminate.
Qed.
