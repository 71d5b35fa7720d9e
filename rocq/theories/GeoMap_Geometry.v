(** Labels, end points and areas along a history. *)
From Verif Require Import Base Orbit GraphRank Euler Links FaceInv Conj
  GeoMap_Model GeoMap_Views GeoMap_SInv GeoMap_Remove GeoMap_MergeEdges GeoMap_SplitEdge GeoMap_Loops GeoMap_MInv
  GeoMap_Gone GeoMap_Bridge GeoMap_MergeFaces GeoMap_Subdiv GeoMap_Init GeoMap_Area GeoMap_Embed GeoMap_Initialize GeoMap_Sort GeoMap_Flags GeoMap_Move
  GeoMap_History.
Local Open Scope Z_scope.

(** ** Labels *)

Definition dead {A} (l l' : list (option A)) : Prop :=
  (length l <= length l')%nat /\ forall i, (i < length l)%nat -> tget l i = None -> tget l' i = None.
Record mono m m' : Prop := {
  mo_n : dead (nodes m) (nodes m');
  mo_e : dead (edges m) (edges m');
  mo_f : dead (faces m) (faces m') }.

Lemma dead_refl {A} (l : list (option A)) : dead l l.
Proof. split; auto. Qed.
Lemma dead_trans {A} (a b c : list (option A)) : dead a b -> dead b c -> dead a c.
Proof. intros [L1 H1] [L2 H2]. split; [lia|]. intros i Hi E. apply H2; [lia | auto]. Qed.
Lemma mono_refl m : mono m m.
Proof. split; apply dead_refl. Qed.
Lemma mono_trans a b c : mono a b -> mono b c -> mono a c.
Proof. intros [] []; split; eapply dead_trans; eassumption. Qed.

Lemma dead_eq {A} (l l' : list (option A)) : l' = l -> dead l l'.
Proof. intros ->; apply dead_refl. Qed.
Lemma dead_len {A} (l l' : list (option A)) : length l' = length l -> (forall i, tget l i = None -> tget l' i = None) -> dead l l'.
Proof. intros E H. split; [lia | auto]. Qed.
Lemma dead_upd {A} (l : list (option A)) i x a : tget l i = Some a -> dead l (list_upd l i x).
Proof.
  intros E. apply dead_len; [apply list_upd_length|]. intros j Hj. destruct (Nat.eq_dec i j) as [->|N]; [congruence|].
  rewrite tget_upd_neq by assumption. assumption.
Qed.

Lemma fm_faces_dead m d2 m0 : facesMoved m d2 m0 -> dead (faces m) (faces m0).
Proof.
  intros F. apply dead_len; [apply F|]. intros i Hi. pose proof (fm_face _ _ _ F i) as K. unfold fAt in K. rewrite Hi in K.
  destruct (tget (faces m0) i); [contradiction | reflexivity].
Qed.
Lemma ca_faces_dead m m' : cached m m' -> dead (faces m) (faces m').
Proof.
  intros F. apply dead_len; [apply F|]. intros i Hi. pose proof (ca_face _ _ F i) as K. unfold fAt in K. rewrite Hi in K.
  destruct (tget (faces m') i); [contradiction | reflexivity].
Qed.
Lemma eg_dead m d m' : EdgeGone m d m' -> dead (nodes m) (nodes m') /\ dead (edges m) (edges m').
Proof.
  intros G. split.
  - apply dead_len; [apply G|]. intros i Hi. pose proof (eg_node _ _ _ G i) as K. unfold nAt in K. rewrite Hi in K.
    destruct (tget (nodes m') i); [contradiction | reflexivity].
  - apply dead_len; [apply G|]. intros i Hi. pose proof (eg_edge _ _ _ G i) as K. unfold eAt in K. rewrite Hi in K.
    destruct (tget (edges m') i); [contradiction | reflexivity].
Qed.
Lemma npos_dead m m' : length (nodes m') = length (nodes m) ->
  (forall l, option_map npos (nAt m' l) = option_map npos (nAt m l)) -> dead (nodes m) (nodes m').
Proof.
  intros L H. apply dead_len; [assumption|]. intros i Hi. specialize (H i). unfold nAt in H. rewrite Hi in H.
  destruct (tget (nodes m') i); [discriminate | reflexivity].
Qed.

Theorem eff_mono o m m' : Inv m -> eff o m m' -> mono m m'.
Proof.
  intros HI E. pose proof (Inv_SInv m HI) as V. destruct E.
  - apply mono_refl.
  - unfold addNodeL, addNode. split; cbn [fst nodes edges faces set_nodes set_nodeCount]; try apply dead_refl.
    split; [rewrite !app_length; lia|]. intros i Hi E. rewrite tget_app_l by (rewrite app_length; lia).
    rewrite tget_repeat. assumption.
  - pose proof (addEdge_inv m sa ea pts lab V H H0) as K. rewrite H1 in K. cbn [good] in K.
    destruct K as (V' & Hf' & Hf & Hl & _ & (s & e & _ & _ & He) & _ & Hln & Hp & Hle). split.
    + apply npos_dead; assumption.
    + split; [lia|]. intros i Hi E. specialize (He i). unfold eAt in He. rewrite He. destruct (Nat.eqb_spec i (snd r)); [lia | assumption].
    + rewrite Hf'. apply dead_refl.
  - destruct (removeEdge_graph_inv hk m d V H H0) as (m1 & R & V' & Hd & He & Hf & _ & _ & Hle & Hln & Hp). rewrite H1 in R. injection R as <-.
    split; [apply npos_dead; assumption | | rewrite H, Hf; apply dead_refl].
    apply dead_len; [assumption|]. intros i E. specialize (He i). unfold eAt in He. rewrite He. destruct (Nat.eqb (elab d) i); auto.
  - rewrite (fm_eq _ _ _ H0). split; cbn [nodes edges faces set_faces]; try apply dead_refl. apply (fm_faces_dead m d2); assumption.
  - split.
    + apply dead_len; [apply H1|]. intros i Hi. destruct (mg_node _ _ _ _ H1) as (nd & Hnd & Hn). specialize (Hn i). unfold nAt in *.
      rewrite Hn. destruct (Nat.eqb_spec (stt m d2) i); [reflexivity|]. destruct (Nat.eqb_spec (stt m (- d2)) i); [congruence | assumption].
    + apply dead_len; [apply H1|]. intros i Hi. destruct (mg_edge _ _ _ _ H1) as (e1 & e2 & He1 & He2 & Hn). specialize (Hn i). unfold eAt in *.
      rewrite Hn. destruct (Nat.eqb_spec (elab d2) i); [reflexivity|]. destruct (Nat.eqb_spec (elab d1) i); [congruence | assumption].
    + rewrite (mg_faces _ _ _ _ H1). apply dead_refl.
  - split.
    + split; [rewrite (sp_nlen _ _ _ _ _ _ _ _ H2); lia|]. intros i Hi Ei. destruct (sp_node _ _ _ _ _ _ _ _ H2) as (nd & Hnd & Hn). specialize (Hn i).
      unfold nAt in *. rewrite Hn. destruct (Nat.eqb_spec (length (nodes m)) i); [lia|]. destruct (Nat.eqb_spec (eend e) i); [congruence | assumption].
    + split; [rewrite (sp_elen _ _ _ _ _ _ _ _ H2); lia|]. intros i Hi Ei. pose proof (sp_edge _ _ _ _ _ _ _ _ H2 i) as K.
      rewrite (sp_r _ _ _ _ _ _ _ _ H2) in K. unfold eAt in *. rewrite K.
      destruct (Nat.eqb_spec (length (edges m)) i); [lia|]. destruct (Nat.eqb_spec l i); [congruence | assumption].
    + rewrite (sp_faces _ _ _ _ _ _ _ _ H2). apply dead_refl.
  - destruct (eg_dead _ _ _ (br_gone _ _ _ _ H3)) as [D1 D2]. split; auto.
    destruct (br_f _ _ _ _ H3) as (f & pos & a & B & Hf & _ & _ & -> & _). apply (dead_upd _ _ _ f); assumption.
  - rewrite (ca_eq _ _ H). split; cbn [nodes edges faces set_faces]; try apply dead_refl. apply ca_faces_dead; assumption.
  - destruct (eg_dead _ _ _ (mf_gone _ _ _ _ _ H5)) as [D1 D2]. split; auto.
    destruct (mf_f _ _ _ _ _ H5) as (sf & f2 & c1 & c2 & a1 & a2 & sa & ar & Hs & Hm & _ & _ & _ & _ & _ & -> & _).
    apply (dead_trans _ (list_upd (faces m) s (Some {| fanchors := sa ++ remove_nth (fanchors f2) c2; farea := ar; fflags := fflags sf |}))).
    + apply (dead_upd _ _ _ sf); assumption.
    + apply (dead_upd _ _ _ f2). rewrite tget_upd_neq; assumption.
  - split; cbn [nodes edges faces uninitNode set_nodeCount putN set_nodes]; try apply dead_refl. apply (dead_upd _ _ _ n); assumption.
  - destruct (flagged_views _ _ H) as (_ & _ & _ & _ & Vn & Vf & _). split; [apply dead_eq; assumption | | apply dead_eq; assumption].
    apply dead_len; [apply H|]. intros i Hi. pose proof (fg_edge _ _ H i) as K. unfold eAt in K. rewrite Hi in K.
    destruct (tget (edges m') i); [contradiction | reflexivity].
  - destruct (repos_views _ _ _ _ H) as (_ & _ & _ & _ & Vf & _ & _ & _ & _ & _ & _ & Vn). split.
    + apply dead_len; [apply H|]. intros i Hi. specialize (Vn i). unfold nAt in Vn. rewrite Hi in Vn. destruct (tget (nodes m') i); [discriminate | reflexivity].
    + apply dead_len; [apply H|]. intros i Hi. pose proof (rp_edge _ _ _ _ H i) as K. unfold eAt in K. rewrite K, Hi. reflexivity.
    + apply dead_eq; assumption.
  - rewrite (rs_eq _ _ H0). split; apply dead_refl.
  - rewrite H1. split; apply dead_refl.
Qed.

Theorem effs_mono o m m' : Inv m -> effs o m m' -> mono m m'.
Proof.
  intros HI [E|(_ & m1 & E1 & E2)]; [apply (eff_mono o); assumption|].
  apply (mono_trans _ m1); [apply (eff_mono o) | apply (eff_mono o); [apply (eff_Inv o m)|]]; assumption.
Qed.

(** ** End points *)

Definition pos m l : option point := option_map npos (nAt m l).
Definition geo m : Prop := forall d, In d (darts m) -> (2 <= length (dpts m d))%nat /\ hd_error (dpts m d) = pos m (stt m d).

(** New edges are drawn from node to node with at least one segment; edges are cut
    at an interior point. *)
Definition op_geo m (o : op) : Prop :=
  match o with
  | OAddEdge s e pts _ => (2 <= length pts)%nat /\
      (forall r, resolveSA m s = Ok r -> hd_error pts = pos m (sa_node r)) /\
      (forall r, resolveSA m e = Ok r -> hd_error (rev pts) = pos m (sa_node r))
  | OSplitEdge _ k _ ins => ins = true \/ (0 < k)%nat
  | _ => True
  end.

Lemma dpts_opp m d : d <> 0 -> dpts m (- d) = rev (dpts m d).
Proof.
  intros Hd. unfold dpts. rewrite elab_opp. destruct (eAt m (elab d)) as [e|]; [|reflexivity].
  destruct (Z.ltb_spec 0 d), (Z.ltb_spec 0 (- d)); try lia; [reflexivity | rewrite rev_involutive; reflexivity].
Qed.
Lemma dpts_eq m m' d : eAt m' (elab d) = eAt m (elab d) -> dpts m' d = dpts m d.
Proof. intros E. unfold dpts. rewrite E. reflexivity. Qed.
Lemma dpts_pts m m' d e e' : eAt m (elab d) = Some e -> eAt m' (elab d) = Some e' -> epts e' = epts e -> dpts m' d = dpts m d.
Proof. intros E E' H. unfold dpts. rewrite E, E', H. reflexivity. Qed.

Lemma hd_skip {A} (p q : list A) : (1 <= length p)%nat -> hd_error (p ++ q) = hd_error p.
Proof. destruct p; [cbn; lia | reflexivity]. Qed.
Lemma rev_skip1 {A} (l : list A) : (2 <= length l)%nat -> hd_error (rev (skipn 1 l)) = hd_error (rev l).
Proof.
  destruct l as [|a [|b l]]; cbn [length skipn]; try lia. intros _. cbn [rev]. rewrite (hd_skip _ [a]); [reflexivity|].
  rewrite app_length. cbn. lia.
Qed.

Lemma hd_upd0 {A} (l : list A) x : (1 <= length l)%nat -> hd_error (list_upd l 0 x) = Some x.
Proof. destruct l; cbn; [lia | reflexivity]. Qed.
Lemma rev_upd_last {A} (l : list A) x : (1 <= length l)%nat -> rev (list_upd l (length l - 1) x) = list_upd (rev l) 0 x.
Proof.
  intros H. destruct (@exists_last _ l) as (a & b & ->); [intros ->; cbn in H; lia|]. rewrite app_length. cbn [length]. replace (length a + 1 - 1)%nat with (length a) by lia.
  replace (list_upd (a ++ [b]) (length a) x) with (a ++ [x]); [rewrite !rev_unit; reflexivity|]. clear H. induction a; cbn; f_equal; auto.
Qed.
Lemma rev_upd0 {A} (l : list A) x : (1 <= length l)%nat -> rev (list_upd l 0 x) = list_upd (rev l) (length l - 1) x.
Proof.
  intros H. rewrite <- (rev_involutive (list_upd (rev l) (length l - 1) x)). f_equal. rewrite <- (rev_length l).
  rewrite rev_upd_last by (rewrite rev_length; assumption). rewrite rev_involutive. reflexivity.
Qed.
(** the points of a dart after a move, seen from its start *)
Lemma repos_dpts m l p m' x : Repos m l p m' -> In x (darts m) -> (1 <= length (dpts m x))%nat ->
  dpts m' x = movedPts (Nat.eqb (stt m x) l) (Nat.eqb (stt m (- x)) l) p (dpts m x).
Proof.
  intros R Hx HL. unfold dpts in *. rewrite (rp_edge _ _ _ _ R). destruct (live_edge m x Hx) as (e & He). apply in_darts in Hx as [Nz _]. unfold stt. rewrite elab_opp, He in *. cbn [option_map].
  unfold movedEdge, e_st. cbn [epts set_pts]. destruct (Z.ltb_spec 0 x), (Z.ltb_spec 0 (- x)); try lia; [reflexivity|].
  rewrite rev_length in HL. unfold movedPts. destruct (Nat.eqb (estart e) l), (Nat.eqb (eend e) l); rewrite ?list_upd_length, ?rev_length.
  - pose proof (rev_upd_last (list_upd (epts e) 0 p) p) as K. rewrite list_upd_length in K. rewrite K, rev_upd0 by assumption. apply list_upd_twice.
  - apply rev_upd0; assumption.
  - apply rev_upd_last; assumption.
  - reflexivity.
Qed.
Lemma repos_geo m l p m' x : Repos m l p m' -> In x (darts m) -> (2 <= length (dpts m x))%nat -> hd_error (dpts m x) = pos m (stt m x) ->
  (2 <= length (dpts m' x))%nat /\ hd_error (dpts m' x) = pos m' (stt m x).
Proof.
  intros R Hx HL Hh. rewrite (repos_dpts m l p) by (assumption || lia). split; [rewrite movedPts_length; assumption|].
  destruct (rp_node _ _ _ _ R) as (nd & Hn & K). unfold pos in *. rewrite K.
  assert (keep : forall ps b, (2 <= length ps)%nat -> hd_error (if b : bool then list_upd ps (length ps - 1) p else ps) = hd_error ps).
  { intros ps [] H; [|reflexivity]. destruct ps as [|u [|v ps]]; cbn in *; try lia; reflexivity. }
  unfold movedPts. rewrite (Nat.eqb_sym l). destruct (Nat.eqb_spec (stt m x) l) as [E|E].
  - rewrite keep by (rewrite list_upd_length; assumption). cbn. apply hd_upd0. lia.
  - rewrite keep by assumption. assumption.
Qed.

Lemma geo_same m m' : geo m -> SInv m -> darts m' = darts m -> (forall l, eAt m' l = eAt m l) ->
  (forall l, nAt m l <> None -> (exists d, In d (darts m) /\ stt m d = l) -> pos m' l = pos m l) -> geo m'.
Proof.
  intros G V Hd He Hp d Hd'. rewrite Hd in Hd'. destruct (G d Hd') as [H1 H2]. rewrite (dpts_eq m m') by apply He.
  split; [assumption|]. rewrite H2. unfold stt. rewrite He. change (match eAt m (elab d) with Some e => e_st e d | None => 0%nat end) with (stt m d).
  symmetry. apply Hp; [apply (si_node _ _ (sv_si _ V)); assumption | eauto].
Qed.

Lemma geo_gone m d m' : geo m -> EdgeGone m d m' -> geo m'.
Proof.
  intros G EG x Hx. pose proof Hx as Hx0. apply (eg_darts _ _ _ EG) in Hx. apply in_rest in Hx as (Hx & Hne).
  destruct (G x Hx) as [H1 H2].
  pose proof (eg_edge _ _ _ EG (elab x)) as K. destruct (live_edge _ _ Hx) as (e & Ee). destruct (live_edge _ _ Hx0) as (e' & Ee').
  rewrite Ee, Ee' in K. destruct K as (_ & K1 & K2 & K3 & _). rewrite (dpts_pts m m' x e e') by assumption. split; [assumption|].
  rewrite H2. assert (Est : stt m' x = stt m x) by (unfold stt, e_st; rewrite Ee, Ee', K1, K2; reflexivity). rewrite Est.
  pose proof (eg_node _ _ _ EG (stt m x)) as N. pose proof (si_node _ _ (sv_si _ (eg_v _ _ _ EG)) x Hx0) as Hn'. rewrite Est in Hn'.
  unfold pos. destruct (nAt m (stt m x)) as [n|], (nAt m' (stt m x)) as [n'|]; try contradiction; try congruence. cbn. congruence.
Qed.

Lemma nth_insert {A} (l : list A) i x : (i <= length l)%nat -> nth_error (insert_at l i x) i = Some x.
Proof.
  intros H. unfold insert_at. rewrite nth_error_app2; rewrite firstn_length_le by assumption; [|lia]. rewrite Nat.sub_diag. reflexivity.
Qed.
Lemma length_insert {A} (l : list A) i x : (i <= length l)%nat -> length (insert_at l i x) = S (length l).
Proof.
  intros H. unfold insert_at. rewrite app_length. cbn [length]. rewrite firstn_length_le, skipn_length by assumption. lia.
Qed.
Lemma hd_insert {A} (l : list A) i x : (0 < i)%nat -> (0 < length l)%nat -> hd_error (insert_at l i x) = hd_error l.
Proof. destruct i; [lia|]. destruct l; [cbn; lia|]. reflexivity. Qed.
Lemma last_insert {A} (l : list A) i x : (i < length l)%nat -> hd_error (rev (insert_at l i x)) = hd_error (rev l).
Proof.
  intros H. unfold insert_at. rewrite rev_app_distr. cbn [rev]. rewrite <- (firstn_skipn i l) at 3. rewrite rev_app_distr.
  assert (L : (1 <= length (rev (skipn i l)))%nat) by (rewrite rev_length, skipn_length; lia).
  rewrite !hd_skip; auto. rewrite app_length. lia.
Qed.

Lemma split_ends (l : list point) k p : (0 < k)%nat -> (S k < length l)%nat -> nth_error l k = Some p ->
  let (a, b) := splitPts l k in
  (2 <= length a)%nat /\ (2 <= length b)%nat /\ hd_error a = hd_error l /\ hd_error (rev a) = Some p /\
  hd_error b = Some p /\ hd_error (rev b) = hd_error (rev l).
Proof.
  intros Hk Hl Hp. destruct k as [|k]; [lia|]. cbn [splitPts]. set (j := S k) in *.
  assert (Hb : hd_error (skipn j l) = Some p).
  { rewrite <- Hp. clear. revert l. induction j; intros [|a l]; cbn; auto. }
  split; [rewrite firstn_length_le; lia|]. split; [rewrite skipn_length; lia|].
  split; [destruct l; reflexivity|]. split; [|split; [assumption|]].
  - assert (E : firstn (S j) l = firstn j l ++ [p]).
    { destruct (skipn j l) as [|q t] eqn:Es; [discriminate|]. cbn in Hb. injection Hb as ->.
      rewrite <- (firstn_skipn j l) at 1. rewrite Es. rewrite firstn_app, firstn_length_le by lia.
      rewrite firstn_all2 by (rewrite firstn_length_le; lia). replace (S j - j)%nat with 1%nat by lia. reflexivity. }
    rewrite E, rev_app_distr. reflexivity.
  - rewrite <- (firstn_skipn j l) at 2. rewrite rev_app_distr, hd_skip; [reflexivity|]. rewrite rev_length, skipn_length. lia.
Qed.

Theorem eff_geo o m m' : Inv m -> geo m -> op_geo m o -> eff o m m' -> geo m'.
Proof.
  intros HI G Ho E. pose proof (Inv_SInv m HI) as V. destruct E.
  - assumption.
  - apply (geo_same m); auto. intros l0 Hl _. unfold pos, nAt, addNodeL, addNode. cbn [fst nodes set_nodes set_nodeCount].
    assert (L : (l0 < length (nodes m))%nat) by (apply nAt_bound; assumption).
    rewrite tget_app_l by (rewrite app_length; lia). rewrite tget_repeat. reflexivity.
  - pose proof (addEdge_inv m sa ea pts lab V H H0) as K. rewrite H1 in K. cbn [good] in K.
    destruct K as (V' & Hf' & Hf & Hl & _ & (s & e & Hs & He & Hee) & _ & Hln & Hp & Hle).
    destruct Ho as (G1 & G2 & G3). specialize (G2 s Hs). specialize (G3 e He).
    intros d Hd. pose proof Hd as Hd0. apply in_darts in Hd as [Hd Hn]. unfold pos. rewrite Hp. fold (pos m (stt (fst r) d)).
    destruct (Nat.eqb_spec (elab d) (snd r)) as [Ed|Nd].
    + unfold dpts, stt. rewrite Hee, Ed, Nat.eqb_refl. cbn [epts]. unfold e_st. cbn [estart eend]. destruct (0 <? d); [auto|].
      rewrite rev_length. auto.
    + assert (Hin : In d (darts m)).
      { apply in_darts. split; [assumption|]. rewrite Hee in Hn. destruct (Nat.eqb_spec (elab d) (snd r)); [contradiction | assumption]. }
      assert (Ee : eAt (fst r) (elab d) = eAt m (elab d)) by (rewrite Hee; destruct (Nat.eqb_spec (elab d) (snd r)); [contradiction | reflexivity]).
      rewrite (dpts_eq m) by assumption. unfold stt. rewrite Ee. apply (G d Hin).
  - destruct (removeEdge_graph_inv hk m d V H H0) as (m1 & R & V' & Hd & He & Hf & _ & _ & Hle & Hln & Hp). rewrite H1 in R. injection R as <-.
    intros x Hx. pose proof Hx as Hx0. apply Hd, in_rest in Hx as (Hx & Hne).
    unfold pos. rewrite Hp. fold (pos m (stt m' x)).
    assert (Ee : eAt m' (elab x) = eAt m (elab x)).
    { rewrite He. destruct (Nat.eqb_spec (elab d) (elab x)) as [E|]; [|reflexivity]. exfalso. apply in_darts in Hx0 as [_ Hx0]. apply Hx0.
      rewrite He, E, Nat.eqb_refl. reflexivity. }
    rewrite (dpts_eq m) by assumption. unfold stt. rewrite Ee. apply (G x Hx).
  - rewrite (fm_eq _ _ _ H0). exact G.
  - intros x Hx. apply (md_darts m d1 d2 m' H1) in Hx. 
    pose proof (md_pts m d1 d2 m' V H H1) as Hpts.
    assert (Hpos : pos m' (stt m' x) = pos m (stt m' x)).
    { destruct (mg_node _ _ _ _ H1) as (nd & Hnd & Hn). unfold pos. rewrite Hn.
      pose proof (md_st_ne m d1 d2 V H x Hx) as Hne. rewrite <- (md_stt m d1 d2 m' V H H1 x Hx) in Hne.
      destruct (Nat.eqb_spec (stt m d2) (stt m' x)) as [E|_]; [congruence|].
      destruct (Nat.eqb_spec (stt m (- d2)) (stt m' x)) as [E|_]; [|reflexivity]. rewrite <- E, Hnd. reflexivity. }
    rewrite Hpos, (md_stt m d1 d2 m' V H H1 x Hx).
    pose proof (g2_1 _ _ _ H) as I1. pose proof (g2_2 _ _ _ H) as I2.
    pose proof (si_nz _ _ (sv_si _ V) _ I1) as N1. pose proof (si_nz _ _ (sv_si _ V) _ I2) as N2.
    pose proof (darts_opp _ _ I1) as I1'. pose proof (darts_opp _ _ I2) as I2'.
    destruct (G _ I1') as [L1 P1]. destruct (G _ I2) as [L2 P2]. destruct (G _ I2') as [_ P2'].
    rewrite dpts_opp in P2' by assumption.
    destruct (Z.eq_dec x d1) as [->|Nx1]; [|destruct (Z.eq_dec x (- d1)) as [->|Nx2]].
    + unfold tr. rewrite Z.eqb_refl. replace d1 with (- - d1) by lia. rewrite dpts_opp, Hpts by lia.
      rewrite rev_length, rev_app_distr, app_length, skipn_length. split; [lia|].
      rewrite hd_skip, rev_skip1 by (rewrite ?rev_length, ?skipn_length; lia). assumption.
    + unfold tr. destruct (Z.eqb_spec (- d1) d1); [lia|]. destruct (Z.eqb_spec (- d1) (- d2)) as [E|_].
      { exfalso. apply (g2_ne _ _ _ H). lia. }
      rewrite Hpts, app_length, skipn_length. split; [lia|]. rewrite hd_skip by lia. assumption.
    + apply in_rest in Hx as (Hx & Hn1 & Hn2). unfold tr. destruct (Z.eqb_spec x d1); [contradiction|].
      destruct (Z.eqb_spec x (- d2)); [contradiction|].
      destruct (mg_edge _ _ _ _ H1) as (e1 & e2 & He1 & He2 & Hn). rewrite (dpts_eq m).
      * apply (G x Hx).
      * rewrite Hn. destruct (Nat.eqb_spec (elab d2) (elab x)) as [E|_]; [apply elab_eq in E; lia|].
        destruct (Nat.eqb_spec (elab d1) (elab x)) as [E|_]; [apply elab_eq in E; lia | reflexivity].
  - cbn [op_geo] in Ho. intros x Hx.
    assert (L0 : l <> 0%nat) by (intros ->; rewrite (sv_e0 _ V) in H; discriminate).
    assert (Dl : In (Z.of_nat l) (darts m)) by (apply in_darts; rewrite elab_of_nat; split; [lia | congruence]).
    pose proof (darts_opp _ _ Dl) as Dl'.
    assert (Hep : dpts m (Z.of_nat l) = epts e).
    { unfold dpts. rewrite elab_of_nat, H. destruct (Z.ltb_spec 0 (Z.of_nat l)); [reflexivity | lia]. }
    destruct (G _ Dl) as [Gl1 Gl2]. destruct (G _ Dl') as [_ Gl3]. rewrite dpts_opp in Gl3 by lia. rewrite Hep in *.
    assert (Hst1 : stt m (Z.of_nat l) = estart e) by (unfold stt, e_st; rewrite elab_of_nat, H; destruct (Z.ltb_spec 0 (Z.of_nat l)); [reflexivity | lia]).
    assert (Hst2 : stt m (- Z.of_nat l) = eend e) by (unfold stt, e_st; rewrite elab_opp, elab_of_nat, H; destruct (Z.ltb_spec 0 (- Z.of_nat l)); [lia | reflexivity]).
    rewrite Hst1 in Gl2. rewrite Hst2 in Gl3.
    set (pts := if ins then insert_at (epts e) (S k) p else epts e) in *. set (k' := if ins then S k else k) in *.
    assert (Hends : let (a, b) := splitPts pts k' in
      (2 <= length a)%nat /\ (2 <= length b)%nat /\ hd_error a = hd_error pts /\ hd_error (rev a) = Some pos0 /\
      hd_error b = Some pos0 /\ hd_error (rev b) = hd_error (rev pts)).
    { apply split_ends; subst pts k'; destruct ins.
      - lia.
      - destruct Ho; [discriminate | assumption].
      - rewrite length_insert by lia. lia.
      - lia.
      - subst. apply nth_insert. lia.
      - assumption. }
    assert (Hh : hd_error pts = hd_error (epts e)) by (subst pts; destruct ins; [apply hd_insert; lia | reflexivity]).
    assert (Ht : hd_error (rev pts) = hd_error (rev (epts e))) by (subst pts; destruct ins; [apply last_insert; lia | reflexivity]).
    rewrite Hh, Ht, Gl2, Gl3 in Hends. clear Hh Ht. destruct (splitPts pts k') as [pa pb] eqn:Esp.
    destruct Hends as (A1 & B1 & A2 & A3 & B2 & B3).
    destruct (sp_node _ _ _ _ _ _ _ _ H2) as (cnd & Hc & Hn).
    assert (Hpos : forall j, (j < length (nodes m))%nat -> pos m' j = pos m j).
    { intros j Hj. unfold pos. rewrite Hn. destruct (Nat.eqb_spec (length (nodes m)) j); [lia|].
      destruct (Nat.eqb_spec (eend e) j) as [<-|_]; [rewrite Hc; reflexivity | reflexivity]. }
    assert (Hposn : pos m' (length (nodes m)) = Some pos0) by (unfold pos; rewrite Hn, Nat.eqb_refl; reflexivity).
    pose proof (sp_edge _ _ _ _ _ _ _ _ H2) as He. rewrite Esp in He. cbn [fst snd] in He.
    assert (Hb1 : (estart e < length (nodes m))%nat) by (apply nAt_bound; rewrite <- Hst1; apply (si_node _ _ (sv_si _ V)); assumption).
    assert (Hb2 : (eend e < length (nodes m))%nat) by (apply nAt_bound; rewrite <- Hst2; apply (si_node _ _ (sv_si _ V)); assumption).
    destruct (Nat.eq_dec (elab x) r) as [Er|Nr]; [|destruct (Nat.eq_dec (elab x) l) as [El|Nl]].
    + unfold dpts, stt, e_st. rewrite He, Er, Nat.eqb_refl. cbn [epts estart eend]. destruct (0 <? x).
      * rewrite Hposn. auto.
      * rewrite rev_length, (Hpos _ Hb2). auto.
    + unfold dpts, stt, e_st. rewrite He, El. destruct (Nat.eqb_spec r l) as [E|_]; [congruence|]. rewrite Nat.eqb_refl. cbn [epts estart eend].
      destruct (0 <? x).
      * rewrite (Hpos _ Hb1). auto.
      * rewrite rev_length, Hposn. auto.
    + assert (Ee : eAt m' (elab x) = eAt m (elab x)).
      { rewrite He. destruct (Nat.eqb_spec r (elab x)); [congruence|]. destruct (Nat.eqb_spec l (elab x)); [congruence | reflexivity]. }
      assert (Hin : In x (darts m)) by (apply in_darts in Hx as [Hx0 Hx]; apply in_darts; rewrite Ee in Hx; auto).
      rewrite (dpts_eq m) by assumption. assert (Es : stt m' x = stt m x) by (unfold stt; rewrite Ee; reflexivity). rewrite Es, Hpos.
      * apply (G x Hin).
      * apply nAt_bound, (si_node _ _ (sv_si _ V)); assumption.
  - apply (geo_gone m d); [|apply H3]; assumption.
  - rewrite (ca_eq _ _ H). exact G.
  - apply (geo_gone m d); [|apply H5]; assumption.
  - apply (geo_same m); auto. intros l0 Hl (d & Hd & Ed). unfold pos. f_equal.
    pose proof (uninit_nless m l n H H0) as N. destruct (nl_at _ _ N l0) as [->|(_ & n0 & En & E0)]; [reflexivity|].
    exfalso. destruct (si_anchor _ _ (sv_si _ V) _ n0 En) as [(_ & K)|(K & _)]; [apply (K d Hd Ed)|].
    apply (si_nz _ _ (sv_si _ V) _ K E0).
  - destruct (flagged_views _ _ H) as (Vd & _ & Vs & _ & Vn & _). intros x Hx. rewrite Vd in Hx. destruct (G x Hx) as [G1 G2].
    assert (Ed : dpts m' x = dpts m x).
    { unfold dpts. pose proof (fg_edge _ _ H (elab x)) as K. destruct (eAt m (elab x)), (eAt m' (elab x)); try contradiction; auto. rewrite K. reflexivity. }
    rewrite Ed, Vs. unfold pos, nAt. rewrite Vn. auto.
  - destruct (repos_views _ _ _ _ H) as (Vd & _ & Vs & _). intros x Hx. rewrite Vd in Hx. destruct (G x Hx) as [G1 G2]. rewrite Vs.
    apply (repos_geo m l p); assumption.
  - rewrite (rs_eq _ _ H0). exact G.
  - rewrite H1. exact G.
Qed.
