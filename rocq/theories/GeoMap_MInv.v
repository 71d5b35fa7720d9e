(** The full map invariant: contours, faces, planarity, independence of the
    components collected in one face. *)
From Verif Require Import Base Orbit GraphRank Euler Links FaceInv Conj
  GeoMap_Model GeoMap_Views GeoMap_SInv GeoMap_Remove GeoMap_MergeEdges GeoMap_Loops.
Local Open Scope Z_scope.

(** ** flat_map over a table *)

Definition tmap {A B} (g : A -> list B) (l : list (option A)) : list B :=
  flat_map (fun o => match o with Some a => g a | None => [] end) l.

Lemma in_tmap {A B} (g : A -> list B) l x :
  In x (tmap g l) <-> exists i a, tget l i = Some a /\ In x (g a).
Proof.
  unfold tmap. rewrite in_flat_map. split.
  - intros ([a|] & Ho & Hx); [|destruct Hx]. apply In_nth_error in Ho as (i & Hi).
    exists i, a. unfold tget; rewrite Hi; auto.
  - intros (i & a & Hi & Hx). exists (Some a). split; auto. unfold tget in Hi.
    destruct (nth_error l i) eqn:E; [|discriminate]. subst. eapply nth_error_In; exact E.
Qed.

Lemma tmap_app {A B} (g : A -> list B) l t : tmap g (l ++ t) = tmap g l ++ tmap g t.
Proof. apply flat_map_app. Qed.

Lemma nodup_tmap {A B} (g : A -> list B) (l : list (option A)) (lab : B -> nat) :
  (forall i a, tget l i = Some a -> NoDup (g a)) ->
  (forall i a x, tget l i = Some a -> In x (g a) -> lab x = i) ->
  NoDup (tmap g l).
Proof.
  induction l as [|o l IH] using rev_ind; intros H1 H2; [constructor|].
  rewrite tmap_app. apply NoDup_app_intro.
  - apply IH; intros i a; [intros Hi; apply (H1 i)|intros x Hi; apply (H2 i a)];
      rewrite tget_app_l; auto; eapply tget_lt; exact Hi.
  - unfold tmap; simpl. rewrite app_nil_r. destruct o as [a|]; [|constructor].
    apply (H1 (length l)). apply tget_app_r.
  - intros x Hx Hy. apply in_tmap in Hx as (i & a & Hi & Hx).
    pose proof (tget_lt _ _ _ Hi) as Hlt.
    assert (E1 : lab x = i) by (apply (H2 i a); [rewrite tget_app_l; assumption | assumption]).
    unfold tmap in Hy; simpl in Hy. rewrite app_nil_r in Hy. destruct o as [b|]; [|destruct Hy].
    assert (E2 : lab x = length l) by (apply (H2 _ b); [apply tget_app_r | assumption]). lia.
Qed.

Lemma length_tmap {A B} (g : A -> list B) l :
  Z.of_nat (length (tmap g l)) =
  sumf (fun o => match o with Some a => Z.of_nat (length (g a)) | None => 0 end) l.
Proof.
  unfold tmap. induction l as [|[a|] l IH]; simpl; auto. rewrite app_length; lia.
Qed.

(** Changing one slot. *)
Lemma tmap_upd {A B} (g : A -> list B) l i a : tget l i = Some a ->
  exists K, Permutation (tmap g l) (g a ++ K) /\
    forall o, Permutation (tmap g (list_upd l i o)) ((match o with Some b => g b | None => [] end) ++ K).
Proof.
  revert i. induction l as [|o l IH]; intros [|i] H; try discriminate.
  - change (o = Some a) in H. subst o. exists (tmap g l). split; [reflexivity|].
    intros o. simpl. reflexivity.
  - change (tget l i = Some a) in H. destruct (IH i H) as (K & HK & HK').
    set (h := match o with Some b => g b | None => [] end).
    exists (h ++ K). split.
    + change (tmap g (o :: l)) with (h ++ tmap g l). rewrite HK.
      rewrite !app_assoc. apply Permutation_app_tail, Permutation_app_comm.
    + intros o'. change (tmap g (list_upd (o :: l) (S i) o')) with (h ++ tmap g (list_upd l i o')).
      rewrite HK'. rewrite !app_assoc. apply Permutation_app_tail, Permutation_app_comm.
Qed.

Lemma tmap_ext {A B} (g h : A -> list B) l :
  (forall i a, tget l i = Some a -> g a = h a) -> tmap g l = tmap h l.
Proof.
  induction l as [|o l IH]; intros H; [reflexivity|].
  change (match o with Some b => g b | None => [] end ++ tmap g l =
          match o with Some b => h b | None => [] end ++ tmap h l).
  rewrite IH by (intros i a Hi; apply (H (S i)); exact Hi).
  destruct o as [a|]; [|reflexivity]. rewrite (H 0%nat a eq_refl). reflexivity.
Qed.

(** ** The counts as lists of representatives *)

Definition anchors m : list Z := tmap fanchors (faces m).
Definition nanchors m : list Z :=
  tmap (fun n => if nanchor n =? 0 then [] else [nanchor n]) (nodes m).
Definition links m : graph := tmap (fun f => star (map (stt m) (fanchors f))) (faces m).
Definition Gm m : graph := pairs (stt m) (elabs m).

Lemma length_anchors m : Z.of_nat (length (anchors m)) = sumf ncont (faces m).
Proof. unfold anchors. rewrite length_tmap. apply sumf_ext. intros [a|] _; reflexivity. Qed.

Lemma length_nanchors m : Z.of_nat (length (nanchors m)) = sumf busy (nodes m).
Proof.
  unfold nanchors. rewrite length_tmap. apply sumf_ext. intros [a|] _; [|reflexivity].
  simpl. destruct (nanchor a =? 0); reflexivity.
Qed.

Lemma filter_live_count m : forall k, (k <= length (edges m))%nat ->
  Z.of_nat (length (filter (isLive m) (seq 0 k))) = sumf alive (firstn k (edges m)).
Proof.
  induction k as [|k IH]; intros Hk; [reflexivity|].
  rewrite seq_S, filter_app, app_length, Nat2Z.inj_add, IH by lia. simpl (0 + k)%nat.
  destruct (nth_error (edges m) k) as [o|] eqn:E; [|apply nth_error_None in E; lia].
  assert (F : firstn (S k) (edges m) = firstn k (edges m) ++ [o]).
  { clear -E. revert k E. induction (edges m) as [|a l IHl]; intros [|k] E; try discriminate.
    - simpl in E. injection E as ->. reflexivity.
    - simpl in *. f_equal. apply IHl; assumption. }
  rewrite F, sumf_app. f_equal. simpl. unfold isLive, eAt, tget. rewrite E.
  destruct o; reflexivity.
Qed.

Lemma length_elabs_alive m : eAt m 0 = None -> (1 <= length (edges m))%nat ->
  Z.of_nat (length (elabs m)) = sumf alive (edges m).
Proof.
  intros H0 Hl. rewrite <- (firstn_all (edges m)) at 1. rewrite <- filter_live_count by lia.
  unfold elabs; rewrite map_length. f_equal.
  assert (H : filter (isLive m) (seq 0 (S (length (edges m)))) = filter (isLive m) (seq 0 (length (edges m)))).
  { rewrite seq_S, filter_app. simpl. unfold isLive at 2. unfold eAt. rewrite tget_ge by lia. apply app_nil_r. }
  rewrite <- H. simpl. unfold isLive at 2. rewrite H0. reflexivity.
Qed.

Lemma sv_elabs m : SInv m -> Z.of_nat (length (elabs m)) = sumf alive (edges m).
Proof.
  intros V. apply length_elabs_alive; [apply (sv_e0 _ V)|]. pose proof (sv_len _ V). lia.
Qed.

Lemma reps_nanchors m : SInv m -> reps (sg m) (darts m) (nanchors m).
Proof.
  intros V. pose proof (sv_si _ V) as HS.
  assert (HI : forall x, In x (nanchors m) -> exists l n, nAt m l = Some n /\ x = nanchor n /\
             In x (darts m) /\ stt m x = l /\ (forall d, In d (darts m) -> stt m d = l -> reach (sg m) x d)).
  { intros x Hx. apply in_tmap in Hx as (l & n & Hl & Hx).
    destruct (Z.eqb_spec (nanchor n) 0) as [E|E]; [destruct Hx|]. destruct Hx as [<-|[]].
    exists l, n. destruct (si_anchor _ _ HS l n Hl) as [[A _]|(A & B & C)]; [contradiction|]. auto. }
  constructor.
  - apply (nodup_tmap _ _ (stt m)).
    + intros i a _. destruct (nanchor a =? 0); constructor; [simpl; tauto | constructor].
    + intros i a x Hi Hx. destruct (Z.eqb_spec (nanchor a) 0) as [E|E]; [destruct Hx|].
      destruct Hx as [<-|[]].
      destruct (si_anchor _ _ HS i a Hi) as [[A _]|(A & B & C)]; [contradiction | assumption].
  - intros r Hr. destruct (HI r Hr) as (_ & _ & _ & _ & H & _); exact H.
  - intros x Hx. destruct (nAt m (stt m x)) as [n|] eqn:En; [|exfalso; apply (si_node _ _ HS x Hx); assumption].
    destruct (si_anchor _ _ HS _ _ En) as [[_ A]|(A & B & C)]; [exfalso; apply (A x Hx); reflexivity|].
    exists (nanchor n). split; [|apply C; auto]. apply in_tmap. exists (stt m x), n. split; [assumption|].
    destruct (Z.eqb_spec (nanchor n) 0) as [E|E]; [exfalso; apply (si_nz _ _ HS _ A); assumption | left; reflexivity].
  - intros r s Hr Hs' Hrs. destruct (HI r Hr) as (l & n & Hl & Er & HrD & Hst & _).
    destruct (HI s Hs') as (l' & n' & Hl' & Es & HsD & Hst' & _).
    apply (SI_orbit m (darts m) r s HS HrD HsD) in Hrs. assert (l = l') by congruence. subst l'. congruence.
Qed.

Lemma reps_anchors m : SInv m -> FIm m -> reps (phi m) (darts m) (anchors m).
Proof.
  intros V F. pose proof (phi_perm m (sv_si _ V)) as HP.
  assert (HA : forall l f, fAt m l = Some f -> fanch m l = Some (fanchors f)).
  { intros l f H. unfold fanch. rewrite H. reflexivity. }
  assert (HA' : forall l A, fanch m l = Some A -> exists f, fAt m l = Some f /\ A = fanchors f).
  { intros l A H. unfold fanch in H. destruct (fAt m l) as [f|]; [|discriminate]. exists f.
    injection H as <-; auto. }
  constructor.
  - apply (nodup_tmap _ _ (fun x => match lft m x with Some l => l | None => O end)).
    + intros i f Hi. apply (fi_nodup _ _ _ _ F i), HA; assumption.
    + intros i f x Hi Hx. destruct (fi_anchor _ _ _ _ F i _ x (HA _ _ Hi) Hx) as [_ ->]. reflexivity.
  - intros r Hr. apply in_tmap in Hr as (l & f & Hl & Hr).
    apply (fi_anchor _ _ _ _ F l _ r (HA _ _ Hl) Hr).
  - intros x Hx. destruct (fi_cover _ _ _ _ F x Hx) as (l & A & a & _ & HAl & Ha & Hr).
    exists a. split; [|assumption]. destruct (HA' _ _ HAl) as (f & Hf & ->). apply in_tmap; eauto.
  - intros r s Hr Hs Hrs. apply in_tmap in Hr as (l & f & Hl & Hr). apply in_tmap in Hs as (l' & f' & Hl' & Hs).
    apply (fi_unique (darts m) (phi m) _ (lft m) (fanch m) l l' _ _ r s HP F (HA _ _ Hl) (HA _ _ Hl') Hr Hs Hrs).
Qed.

(** ** The invariant *)

Record MInv m : Prop := {
  mi_v : SInv m;
  mi_f : FIm m;
  mi_0 : fAt m 0 <> None;
  mi_pl : sumf ncont (faces m) + 2 * Z.of_nat (rank (Gm m)) = sumf busy (nodes m) + sumf alive (edges m);
  mi_in : indep (links m) (Gm m);
  mi_eu : sumf alive (faces m) + Z.of_nat (rank (Gm m)) = sumf alive (edges m) + 1 }.

(** ** Edge lists *)

Lemma okL_sub m L : SInv m -> NoDup L -> incl L (elabs m) -> okL (darts m) L.
Proof.
  intros V Hnd Hi. split; [assumption|]. intros l Hl. apply Hi, in_elabs in Hl as [H1 H2].
  split; [assumption|]. split; apply in_darts; rewrite ?elab_opp; split; auto; lia.
Qed.

Lemma phiL_elabs m x : In x (darts m) -> phiL (sgi m) (elabs m) x = phi m x.
Proof.
  intros Hx. unfold phiL, phi. rewrite al_in; [reflexivity|].
  apply in_darts in Hx as [H1 H2]. apply in_elabs. split; [lia|].
  replace (elab (Z.abs x)) with (elab x) by (unfold elab; lia). assumption.
Qed.

Lemma phi_conn_m m x y : SInv m -> In x (darts m) -> reach (phi m) x y -> conn (Gm m) (stt m x) (stt m y).
Proof.
  intros V Hx Hr. pose proof (sv_si _ V) as HS.
  assert (HL : okL (darts m) (elabs m)) by (apply okL_sub; auto; [apply nodup_elabs | apply incl_refl]).
  apply (phi_conn (darts m) (sg m) (sgi m) (stt m) (si_perm _ _ HS) (si_st _ _ HS) (elabs m) x y HL Hx).
  apply (reach_ext (phi m) _ (fun z => In z (darts m))); auto.
  - intros z Hz; symmetry; apply phiL_elabs; assumption.
  - intros z Hz; apply (phi_perm m HS); assumption.
Qed.

(** Removing one edge from the edge list. *)
Section RemoveOne.
  Variables (m : gmap) (d : Z) (L' : list Z).
  Hypothesis M : MInv m.
  Hypothesis Hd : In d (darts m).
  Hypothesis HP : Permutation (elabs m) (Z.abs d :: L').

  Let V := mi_v _ M.
  Let HS := sv_si _ V.
  Let Hd0 : d <> 0.
  Proof. apply (si_nz _ _ HS); assumption. Qed.
  Let ndL : NoDup (Z.abs d :: L').
  Proof. apply (Permutation_NoDup HP), nodup_elabs. Qed.
  Let okAll : okL (darts m) (Z.abs d :: L').
  Proof. apply okL_sub; auto. intros x Hx. apply (Permutation_in _ (Permutation_sym HP)); assumption. Qed.
  Let ok' : okL (darts m) L'.
  Proof. eapply okL_tail; exact okAll. Qed.

  Let phi_alt x : In x (darts m) -> swp (phiL (sgi m) L') d (- d) x = phi m x.
  Proof.
    intros Hx. rewrite <- phiL_elabs by assumption.
    assert (E : phiL (sgi m) (elabs m) x = phiL (sgi m) (Z.abs d :: L') x).
    { unfold phiL, al. f_equal.
      replace (existsb (Z.eqb (Z.abs x)) (elabs m)) with (existsb (Z.eqb (Z.abs x)) (Z.abs d :: L')); [reflexivity|].
      apply Bool.eq_iff_eq_true. rewrite !existsb_exists. split; intros (y & Hy & Ey); exists y; split; auto.
      - apply (Permutation_in _ (Permutation_sym HP)); assumption.
      - apply (Permutation_in _ HP); assumption. }
    rewrite E. inversion ndL; subst. rewrite phiL_cons by (auto; lia).
    unfold swp. f_equal. destruct (Z.abs_spec d) as [[_ ->]|[_ ->]]; [reflexivity|].
    unfold tr. rewrite Z.opp_involutive.
    destruct (Z.eqb_spec x d), (Z.eqb_spec x (- d)); auto; lia.
  Qed.
  Let HP' := phiL_perm (darts m) (sg m) (sgi m) (si_perm _ _ HS) L' ok'.
  Let Hd' : In (- d) (darts m).
  Proof. apply darts_opp; assumption. Qed.

  Let phi_in z : In z (darts m) -> In (phi m z) (darts m).
  Proof. intros Hz; apply (phi_perm m HS); assumption. Qed.

  Lemma swp_phiL x : In x (darts m) -> phiL (sgi m) L' x = swp (phi m) d (- d) x.
  Proof.
    intros Hx. rewrite <- (swp_swp (phiL (sgi m) L') d (- d) x). unfold swp at 1 3.
    symmetry. rewrite <- phi_alt; [reflexivity|]. apply tr_in; assumption.
  Qed.

  Lemma gone_conn_split : ~ reach (phi m) d (- d) ->
    conn (pairs (stt m) L') (stt m d) (stt m (- d)).
  Proof.
    intros Hn.
    assert (Hr : reach (phiL (sgi m) L') d (- d)).
    { destruct (reach_dec (darts m) _ _ HP' d (- d) Hd) as [Hr|Hr]; [assumption|]. exfalso. apply Hn.
      apply (reach_ext (swp (phiL (sgi m) L') d (- d)) _ (fun z => In z (darts m))); auto.
      - intros z Hz. rewrite phi_alt by assumption; auto.
      - apply (join_xy (darts m) _ _ HP' d (- d)); auto. }
    apply (phi_conn (darts m) (sg m) (sgi m) (stt m) (si_perm _ _ HS) (si_st _ _ HS) L' d (- d) ok' Hd Hr).
  Qed.

  Lemma rank_edge : rank (Gm m) = rank ((stt m d, stt m (- d)) :: pairs (stt m) L').
  Proof.
    unfold Gm. rewrite (rank_perm (pairs (stt m) (elabs m)) (pairs (stt m) (Z.abs d :: L'))).
    2:{ apply Permutation_map; assumption. }
    cbn [pairs map]. fold (pairs (stt m) L').
    destruct (Z.abs_spec d) as [[_ ->]|[_ ->]]; [reflexivity|]. rewrite Z.opp_involutive.
    apply geq_flip.
  Qed.

  Lemma Gm_edge : geq (Gm m) ((stt m d, stt m (- d)) :: pairs (stt m) L').
  Proof.
    transitivity (pairs (stt m) (Z.abs d :: L')); [apply geq_perm, Permutation_map; assumption|].
    cbn [pairs map]. fold (pairs (stt m) L').
    destruct (Z.abs_spec d) as [[_ ->]|[_ ->]]; [reflexivity|]. rewrite Z.opp_involutive.
    apply geq_flip.
  Qed.

  Lemma gone_rank_split : ~ reach (phi m) d (- d) -> rank (Gm m) = rank (pairs (stt m) L').
  Proof. intros Hn. rewrite rank_edge. apply rank_dep, gone_conn_split; assumption. Qed.

  Lemma gone_rank_bridge : reach (phi m) d (- d) -> rank (Gm m) = S (rank (pairs (stt m) L')).
  Proof.
    intros Hr. rewrite rank_edge.
    destruct (reps_ex (darts m) _ _ HP') as (R0 & HR0).
    assert (Hne : d <> - d) by lia.
    assert (HR1 : reps (swp (phi m) d (- d)) (darts m) R0).
    { apply (reps_ext (phiL (sgi m) L')); auto.
      - intros; apply swp_phiL; assumption.
      - intros z Hz; apply HP'; assumption. }
    pose proof (reps_split (darts m) _ _ (anchors m) d (- d) (phi_perm m HS)
                  (reps_anchors m V (mi_f _ M)) Hd Hd' Hne Hr R0 HR1) as HR.
    pose proof (euler_ineq (darts m) (sg m) (sgi m) (stt m) (si_perm _ _ HS) (si_st _ _ HS)
                  (nanchors m) (reps_nanchors m V) L' ok' R0 HR0) as He.
    pose proof (mi_pl _ M) as Hp. rewrite <- length_anchors, <- length_nanchors, <- (sv_elabs m V) in Hp.
    pose proof (rank_edge) as Hre.
    rewrite (Permutation_length HP) in Hp. cbn [length] in Hp.
    destruct (rank_cons_le (pairs (stt m) L') (stt m d, stt m (- d))) as [H1 H2].
    lia.
  Qed.
End RemoveOne.

Lemma elabs_split m d m' : In d (darts m) ->
  (forall x, In x (darts m') <-> In x (rest m d)) ->
  Permutation (elabs m) (Z.abs d :: elabs m').
Proof.
  intros Hd HD. apply NoDup_Permutation.
  - apply nodup_elabs.
  - constructor; [|apply nodup_elabs]. intros H.
    assert (Hin : In (Z.abs d) (darts m')) by (unfold darts; apply in_or_app; auto).
    apply HD, in_rest in Hin. destruct (Z.abs_spec d) as [[_ E]|[_ E]]; rewrite E in Hin; tauto.
  - assert (HH : forall mm x, In x (elabs mm) <-> 0 < x /\ In x (darts mm)).
    { intros mm x. rewrite in_elabs, in_darts. intuition lia. }
    assert (Hd0 : d <> 0) by (apply in_darts in Hd; tauto).
    intros x. simpl. rewrite !HH, HD, in_rest.
    split.
    + intros [A B]. destruct (Z.eq_dec (Z.abs d) x); [auto|]. right. repeat split; auto; lia.
    + intros [<-|(A & B & _)]; [|auto]. split; [lia|].
      destruct (Z.abs_spec d) as [[_ ->]|[_ ->]]; [|apply darts_opp]; assumption.
Qed.

Lemma conn_dart m d : In d (darts m) -> conn (Gm m) (stt m d) (stt m (- d)).
Proof.
  intros Hd. unfold darts in Hd. apply in_app_iff in Hd as [Hd|Hd].
  - apply conn_edge, in_map_iff. exists d; auto.
  - apply in_map_iff in Hd as (x & <- & Hx). rewrite Z.opp_involutive.
    apply conn_sym, conn_edge, in_map_iff. exists x; auto.
Qed.

(** Darts on the two sides of an edge between a face and itself lie on the same
    contour: two different contours of a face belong to different components. *)
Lemma same_face_reach m d l : MInv m -> In d (darts m) -> lft m d = Some l -> lft m (- d) = Some l ->
  reach (phi m) d (- d).
Proof.
  intros M Hd H1 H2. pose proof (mi_v _ M) as V. pose proof (mi_f _ M) as F.
  pose proof (phi_perm m (sv_si _ V)) as HP.
  assert (Hd' : In (- d) (darts m)) by (apply darts_opp; assumption).
  destruct (fi_cover _ _ _ _ F d Hd) as (l1 & A & a & E1 & HA & Ha & Hr).
  destruct (fi_cover _ _ _ _ F (- d) Hd') as (l2 & A2 & a2 & E2 & HA2 & Ha2 & Hr2).
  assert (l1 = l) by congruence; assert (l2 = l) by congruence; subst.
  assert (A2 = A) by congruence; subst.
  destruct (fi_anchor _ _ _ _ F l A a HA Ha) as [HaD _].
  destruct (fi_anchor _ _ _ _ F l A a2 HA Ha2) as [Ha2D _].
  destruct (Z.eq_dec a a2) as [->|Hne].
  - apply (reach_trans _ _ a2); auto. apply (reach_sym _ _ _ HP); auto.
  - exfalso. unfold fanch in HA. destruct (fAt m l) as [f|] eqn:Ef; [|discriminate].
    injection HA as HA. subst A.
    apply In_nth_error in Ha as (i & Hi). apply In_nth_error in Ha2 as (j & Hj).
    assert (Hij : i <> j) by congruence.
    destruct (tmap_upd (fun f => star (map (stt m) (fanchors f))) (faces m) l f Ef) as (K & HK & _).
    pose proof (indep_perm _ _ _ HK (mi_in _ M)) as Hind.
    apply (indep_star_two (map (stt m) (fanchors f)) K (Gm m) i j (stt m a) (stt m a2)); auto.
    + apply map_nth_error; assumption.
    + apply map_nth_error; assumption.
    + apply conn_app_r. apply (conn_trans _ _ (stt m d)); [apply phi_conn_m; assumption|].
      apply (conn_trans _ _ (stt m (- d))).
      * apply conn_dart; assumption.
      * apply conn_sym, phi_conn_m; assumption.
Qed.
