(** Detaching both darts of an edge; removeEdge before faces exist. *)
From Verif Require Import Base Orbit Conj GeoMap_Model GeoMap_Views GeoMap_SInv.
Local Open Scope Z_scope.

Lemma SI_frame m m' D :
  SI m D -> cap m <= cap m' ->
  (forall x, In x D -> sg m' x = sg m x /\ sgi m' x = sgi m x) ->
  (forall x, In x D -> stt m' x = stt m x) ->
  (forall x, In x D -> eAt m' (elab x) <> None) ->
  (forall x, In x D -> nAt m' (stt m x) <> None) ->
  (forall l n, nAt m' l = Some n -> exists n0, nAt m l = Some n0 /\ nanchor n0 = nanchor n) ->
  SI m' D.
Proof.
  intros S Hc Hx Hst He Hn Ha. constructor; auto.
  - intros x Hi. destruct (si_perm _ _ S x Hi) as (A & B & C & E).
    destruct (Hx x Hi) as [-> ->]. repeat split; auto.
    + destruct (Hx _ A) as [_ ->]; assumption.
    + destruct (Hx _ B) as [-> _]; assumption.
  - apply (si_nz _ _ S).
  - intros d Hd. pose proof (si_cap _ _ S d Hd); lia.
  - intros d Hd. destruct (Hx d Hd) as [-> _].
    rewrite !Hst; [apply (si_st _ _ S); assumption | assumption | apply (si_perm _ _ S); assumption].
  - intros d Hd. rewrite Hst by assumption. auto.
  - intros l n Hl. destruct (Ha l n Hl) as (n0 & Hn0 & E0). rewrite <- E0.
    destruct (si_anchor _ _ S l n0 Hn0) as [[A B]|(A & B & C)]; [left|right].
    + split; auto. intros d Hd; rewrite Hst by assumption; auto.
    + rewrite Hst by assumption. repeat split; auto. intros d Hd; rewrite Hst by assumption; intros E.
      apply (reach_ext (sg m) (sg m') (fun z => In z D)); auto.
      * intros z Hz; symmetry; apply Hx; assumption.
      * intros z Hz; apply (si_perm _ _ S); assumption.
Qed.

Definition rest m d : list Z := rmz (- d) (rmz d (darts m)).

Lemma in_rest m d x : In x (rest m d) <-> In x (darts m) /\ x <> d /\ x <> - d.
Proof. unfold rest; rewrite !in_rmz; tauto. Qed.

Lemma rest_opp m d x : In x (rest m d) -> In (- x) (rest m d).
Proof.
  rewrite !in_rest, darts_opp_iff; intros (A & B & C). repeat split; auto; lia.
Qed.

Record detached2 m d m' : Prop := {
  d2_edges : edges m' = edges m;
  d2_faces : faces m' = faces m;
  d2_cap : cap m' = cap m;
  d2_nc : nodeCount m' = nodeCount m;
  d2_ec : edgeCount m' = edgeCount m;
  d2_fc : faceCount m' = faceCount m;
  d2_sorted : sorted m' = sorted m;
  d2_nlen : length (nodes m') = length (nodes m);
  d2_alive : sumf alive (nodes m') = sumf alive (nodes m);
  d2_busy : sumf busy (nodes m') = sumf busy (nodes m) - (if sg m d =? d then 1 else 0)
              - (if skp (sg m) d (- d) =? - d then 1 else 0);
  d2_pos : forall l, option_map npos (nAt m' l) = option_map npos (nAt m l);
  d2_node : forall l, l <> stt m d -> l <> stt m (- d) -> nAt m' l = nAt m l;
  d2_si : SI m' (rest m d);
  d2_sg : forall x, In x (rest m d) -> sg m' x = skp (skp (sg m) d) (- d) x;
  d2_sgi : forall x, In x (rest m d) -> sgi m' x = skp (skp (sgi m) d) (- d) x }.

Lemma detach2_spec m d : SI m (darts m) -> In d (darts m) ->
  exists m1 m2, detachDart m d = Ok m1 /\ detachDart m1 (- d) = Ok m2 /\ detached2 m d m2.
Proof.
  intros S Hd.
  destruct (detach_spec m (darts m) d S Hd) as (m1 & R1 & S1 & T1 & G1 & I1).
  assert (Hd0 : d <> 0) by (apply (si_nz _ _ S); assumption).
  assert (Hd' : In (- d) (rmz d (darts m))) by (apply in_rmz; split; [apply darts_opp; assumption | lia]).
  destruct (detach_spec m1 _ (- d) S1 Hd') as (m2 & R2 & S2 & T2 & G2 & I2).
  exists m1, m2. split; [assumption|]. split; [assumption|].
  assert (Est : forall x, stt m1 x = stt m x) by (intros x; unfold stt, eAt; rewrite (dt_edges _ _ _ T1); reflexivity).
  apply in_rmz in Hd' as [Hd'1 Hd'2].
  constructor.
  - rewrite (dt_edges _ _ _ T2); apply T1.
  - rewrite (dt_faces _ _ _ T2); apply T1.
  - rewrite (dt_cap _ _ _ T2); apply T1.
  - rewrite (dt_nc _ _ _ T2); apply T1.
  - rewrite (dt_ec _ _ _ T2); apply T1.
  - rewrite (dt_fc _ _ _ T2); apply T1.
  - rewrite (dt_sorted _ _ _ T2); apply T1.
  - rewrite (dt_nlen _ _ _ T2); apply T1.
  - rewrite (dt_alive _ _ _ T2); apply T1.
  - rewrite (dt_busy _ _ _ T2), (dt_busy _ _ _ T1), (G1 (- d)) by assumption. reflexivity.
  - intros l; rewrite (dt_pos _ _ _ T2); apply T1.
  - intros l H1 H2. rewrite (dt_node _ _ _ T2) by (rewrite Est; assumption). apply T1; assumption.
  - exact S2.
  - intros x Hx. apply in_rest in Hx as (A & B & C).
    assert (Hx1 : In x (rmz d (darts m))) by (apply in_rmz; auto).
    rewrite (G2 x Hx1 C). unfold skp at 1 2. rewrite !G1; auto.
  - intros x Hx. apply in_rest in Hx as (A & B & C).
    assert (Hx1 : In x (rmz d (darts m))) by (apply in_rmz; auto).
    rewrite (I2 x Hx1 C). unfold skp at 1 2. rewrite !I1; auto.
Qed.

(** ** Removing the edge record *)

Lemma eAt_uninit m l j : eAt (uninitEdge m l) j = if Nat.eqb l j then None else eAt m j.
Proof. apply tget_upd_None. Qed.

Lemma darts_uninit m d x :
  In x (darts (uninitEdge m (elab d))) <-> In x (rest m d).
Proof.
  rewrite in_rest, !in_darts, eAt_uninit.
  destruct (Nat.eqb_spec (elab d) (elab x)) as [E|E].
  - split; [intros [_ H]; congruence|]. intros (_ & A & B). symmetry in E. apply elab_eq in E. tauto.
  - split; [|tauto]. intros [A B]. repeat split; auto; intros ->; apply E; [reflexivity | symmetry; apply elab_opp].
Qed.

(** Facts about a map whose edge [d] has been taken out of the rotation and the
    table, given the map before ([m]) and the map between ([m2]). *)
Lemma removed_SInv m d m2 m' :
  SInv m -> In d (darts m) -> SI m2 (rest m d) ->
  cap m' = cap m -> cap m2 = cap m -> sg m' = sg m2 -> sgi m' = sgi m2 ->
  length (edges m') = length (edges m) ->
  (forall l, eAt m' l = None <-> l = elab d \/ eAt m l = None) ->
  (forall x, In x (rest m d) -> stt m' x = stt m2 x) ->
  (forall x, In x (rest m d) -> nAt m' (stt m2 x) <> None) ->
  (forall l n, nAt m' l = Some n -> exists n0, nAt m2 l = Some n0 /\ nanchor n0 = nanchor n) ->
  nodeCount m' = sumf alive (nodes m') ->
  edgeCount m' = sumf alive (edges m') ->
  faceCount m' = sumf alive (faces m') ->
  SInv m' /\ (forall x, In x (darts m') <-> In x (rest m d)).
Proof.
  intros V Hd S2 Hc Hc2 Hsg Hsgi Hlen He Hst Hn Ha Hnc Hec Hfc.
  assert (HD : forall x, In x (darts m') <-> In x (rest m d)).
  { intros x. rewrite in_rest, !in_darts, He.
    split.
    - intros [A B]. repeat split; auto; try tauto; intros ->; apply B; left; [reflexivity | apply elab_opp].
    - intros ((A & B) & C & E). split; auto. intros [F|F]; [|contradiction].
      apply elab_eq in F. tauto. }
  split; [|exact HD]. constructor; auto.
  - apply (SI_ext m' (rest m d)); [intros x; symmetry; apply HD|].
    apply (SI_frame m2); auto; try lia.
    + intros x _. rewrite Hsg, Hsgi; auto.
    + intros x Hx. rewrite He. apply in_rest in Hx as (A & B & C). apply in_darts in A as [A1 A2].
      intros [F|F]; [|contradiction]. apply elab_eq in F. tauto.
  - apply He; right; apply (sv_e0 _ V).
  - rewrite Hc; apply (sv_cap _ V).
  - rewrite Hlen, Hc; apply (sv_len _ V).
Qed.

Lemma uninitEdge_count m d : In d (darts m) ->
  sumf alive (edges (uninitEdge m (elab d))) = sumf alive (edges m) - 1.
Proof.
  intros Hd. destruct (live_edge m d Hd) as (e & He).
  unfold uninitEdge; cbn [edges set_edgeCount putE set_edges].
  rewrite (sumf_tget alive _ _ _ _ He). simpl; lia.
Qed.

(** removeEdge while there are no faces *)
Lemma removeEdge_graph_inv hk m d : SInv m -> faces m = [] -> In d (darts m) ->
  exists m', removeEdge hk m d = Ok (m', None) /\ SInv m' /\
    (forall x, In x (darts m') <-> In x (rest m d)) /\
    (forall l, eAt m' l = if Nat.eqb (elab d) l then None else eAt m l) /\
    faces m' = [] /\ edgeCount m' = edgeCount m - 1 /\ nodeCount m' = nodeCount m /\
    length (edges m') = length (edges m) /\ length (nodes m') = length (nodes m) /\
    (forall l, option_map npos (nAt m' l) = option_map npos (nAt m l)).
Proof.
  intros V Hf Hd.
  destruct (detach2_spec m d (sv_si _ V) Hd) as (m1 & m2 & R1 & R2 & T).
  destruct (live_edge m d Hd) as (e & He).
  assert (He2 : eAt m2 (elab d) = Some e) by (unfold eAt; rewrite (d2_edges _ _ _ T); exact He).
  exists (uninitEdge m2 (elab d)). split.
  { unfold removeEdge. rewrite Hf. cbn [length Nat.eqb negb]. rewrite R1. cbn [bind].
    rewrite R2. cbn [bind]. rewrite (deref_edge _ _ _ He2). reflexivity. }
  assert (EE : forall l, eAt (uninitEdge m2 (elab d)) l = if Nat.eqb (elab d) l then None else eAt m l).
  { intros l. rewrite eAt_uninit. unfold eAt; rewrite (d2_edges _ _ _ T); reflexivity. }
  assert (Hlen : length (edges (uninitEdge m2 (elab d))) = length (edges m)).
  { unfold uninitEdge; cbn [edges set_edgeCount putE set_edges]. rewrite list_upd_length, (d2_edges _ _ _ T); reflexivity. }
  assert (Hd2 : In d (darts m2)) by (rewrite (tables_darts m m2); [assumption | apply T]).
  destruct (removed_SInv m d m2 (uninitEdge m2 (elab d))) as [V' HD]; auto.
  - apply T.
  - apply T.
  - apply T.
  - intros l. rewrite EE. destruct (Nat.eqb_spec (elab d) l); split; intuition congruence.
  - intros x Hx. unfold stt. rewrite EE. unfold eAt at 2; rewrite (d2_edges _ _ _ T). fold (eAt m (elab x)).
    apply in_rest in Hx as (A & B & C).
    destruct (Nat.eqb_spec (elab d) (elab x)) as [E|]; [|reflexivity].
    symmetry in E; apply elab_eq in E; tauto.
  - intros x Hx. apply (si_node _ _ (d2_si _ _ _ T)); assumption.
  - intros l n Hn; exists n; auto.
  - cbn [nodeCount nodes uninitEdge set_edgeCount putE set_edges].
    rewrite (d2_nc _ _ _ T), (d2_alive _ _ _ T). apply (sv_nc _ V).
  - rewrite (uninitEdge_count m2 d Hd2). cbn [edgeCount uninitEdge set_edgeCount].
    rewrite (d2_ec _ _ _ T), (d2_edges _ _ _ T), (sv_ec _ V); reflexivity.
  - cbn [faceCount faces uninitEdge set_edgeCount putE set_edges].
    rewrite (d2_fc _ _ _ T), (d2_faces _ _ _ T). apply (sv_fc _ V).
  - split; [assumption|]. split; [assumption|]. split; [assumption|].
    cbn [faces edgeCount nodeCount nodes uninitEdge set_edgeCount putE set_edges].
    rewrite (d2_faces _ _ _ T), (d2_ec _ _ _ T), (d2_nc _ _ _ T), (d2_nlen _ _ _ T).
    repeat split; auto. intros l; apply T.
Qed.
