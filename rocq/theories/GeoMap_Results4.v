(** Degrees and contour walks. *)
From Verif Require Import Base Orbit GraphRank Euler Links FaceInv Conj
  GeoMap_Model GeoMap_Views GeoMap_SInv GeoMap_Remove GeoMap_MergeEdges GeoMap_SplitEdge GeoMap_Loops GeoMap_MInv
  GeoMap_Gone GeoMap_Bridge GeoMap_MergeFaces GeoMap_Subdiv GeoMap_Init GeoMap_Area GeoMap_Embed GeoMap_Initialize GeoMap_Sort
  GeoMap_History GeoMap_Geometry GeoMap_AreaInv GeoMap_Spec GeoMap_Facts GeoMap_Results GeoMap_Results2 GeoMap_IterModel.
Local Open Scope Z_scope.

(** ** C11 *)

Section Degree.
  Variables (m : gmap) (a : Z) (N : nat).
  Hypothesis HS : SI m (darts m).
  Hypothesis Ha : In a (darts m).
  Hypothesis HN : per (sg m) a N.
  Let HP := si_perm _ _ HS.

  Lemma dg_in k : In (iter k (sg m) a) (darts m).
  Proof. apply (iter_in _ _ _ HP); assumption. Qed.
  Lemma dg_get k : getS m (iter k (sg m) a) = Ok (iter (S k) (sg m) a).
  Proof. apply getS_Ok, (si_cap _ _ HS), dg_in. Qed.
  Lemma dg_eq k : (k < N)%nat -> (iter (S k) (sg m) a =? a) = Nat.eqb (S k) N.
  Proof.
    intros Hk. destruct (Nat.eqb_spec (S k) N) as [->|E]; [apply Z.eqb_eq, HN|].
    apply Z.eqb_neq. apply (pe_min _ _ _ HN). lia.
  Qed.

  Lemma degreeLoop_ok n : forall k, (k < N)%nat -> (N - k <= n)%nat -> degreeLoop n m a (iter k (sg m) a) k = Ok N.
  Proof.
    induction n as [|n IH]; intros k Hk Hn; [lia|]. cbn [degreeLoop]. rewrite dg_get. cbn [bind]. rewrite (dg_eq k Hk).
    destruct (Nat.eqb_spec (S k) N) as [->|E]; [reflexivity|]. apply IH; lia.
  Qed.

  Lemma minDegreeLoop_ok n : forall k q, (k < N)%nat -> (N - k <= n)%nat -> (0 < q)%nat ->
    minDegreeLoop n m a (iter k (sg m) a) q = Ok (Nat.leb (q + k) N).
  Proof.
    induction n as [|n IH]; intros k q Hk Hn Hq; [lia|]. cbn [minDegreeLoop]. cbv zeta.
    destruct (Nat.eqb_spec (q - 1) 0) as [E|E].
    - f_equal. symmetry. apply Nat.leb_le. lia.
    - rewrite dg_get. cbn [bind]. rewrite (dg_eq k Hk). destruct (Nat.eqb_spec (S k) N) as [EN|EN].
      + f_equal. symmetry. apply Nat.leb_gt. lia.
      + rewrite IH by lia. f_equal. f_equal. lia.
  Qed.

  Lemma hasDegreeLoop_ok n : forall k q, (k < N)%nat -> (N - k <= n)%nat -> (0 < q)%nat ->
    hasDegreeLoop n m a (iter k (sg m) a) q = Ok (Nat.eqb (q + k) N).
  Proof.
    induction n as [|n IH]; intros k q Hk Hn Hq; [lia|]. cbn [hasDegreeLoop]. cbv zeta. rewrite dg_get. cbn [bind]. rewrite (dg_eq k Hk).
    destruct (Nat.eqb_spec (S k) N) as [EN|EN].
    - f_equal. destruct (Nat.eqb_spec q 1), (Nat.eqb_spec (q + k) N); lia || reflexivity.
    - destruct (Nat.eqb_spec (q - 1) 0) as [E|E].
      + f_equal. symmetry. apply Nat.eqb_neq. lia.
      + rewrite IH by lia. f_equal. f_equal. lia.
  Qed.
End Degree.

Theorem degrees m l nd : history anyCall m -> isNode m l nd ->
  exists L, NoDup L /\ (forall d, In d L <-> isDart m d /\ startLabel m d = Ok l) /\
    degree m nd = Ok (length L) /\
    (forall k, hasDegree m nd k = Ok (Nat.eqb k (length L))) /\
    (forall k, hasMinDegree m nd k = Ok (Nat.leb k (length L))).
Proof.
  intros H Hn. pose proof (Inv_SInv m (history_Inv _ m H)) as V. pose proof (sv_si _ V) as HS. apply isNode_iff in Hn.
  unfold degree, hasDegree, hasMinDegree.
  assert (Q : forall d, isDart m d /\ startLabel m d = Ok l <-> In d (darts m) /\ stt m d = l).
  { intros d. rewrite isDart_iff. split; intros [X Y]; split; auto; rewrite (startLabel_Ok m d X) in *; congruence. }
  destruct (si_anchor _ _ HS l nd Hn) as [(K0 & K)|(K1 & K2 & K3)].
  - exists []. rewrite K0. cbn. split; [constructor|]. split; [|split; [reflexivity|]; split; intros k; destruct k; reflexivity].
    intros d. rewrite Q. split; [intros []|]. intros [X Y]. apply (K d X Y).
  - destruct (min_period _ _ _ _ (si_perm _ _ HS) K1) as (N & HN & HL). pose proof (pe_pos _ _ _ HN) as Np.
    exists (orb (sg m) (nanchor nd) N). assert (Hlen : length (orb (sg m) (nanchor nd) N) = N) by (unfold orb; rewrite map_length, seq_length; reflexivity).
    rewrite Hlen. split; [apply (orb_nodup (darts m) (sg m) (sgi m)); auto; apply HS|]. split.
    { intros d. rewrite Q, (orb_in _ _ _ HN). split.
      - intros Hr. split; [apply (reach_in _ _ _ (si_perm _ _ HS) (nanchor nd)); assumption|].
        clear -Hr HS K1 K2. revert d Hr. apply (reach_ind_r (sg m) (nanchor nd) (fun d => stt m d = l)); [assumption|].
        intros y Hy E. rewrite (si_st _ _ HS y); [assumption|]. apply (reach_in _ _ _ (si_perm _ _ HS) (nanchor nd)); assumption.
      - intros [X Y]. apply K3; assumption. }
    assert (A0 : nanchor nd =? 0 = false) by (apply Z.eqb_neq, (si_nz _ _ HS); assumption). rewrite A0.
    pose proof (fuel_darts m). split; [apply (degreeLoop_ok m (nanchor nd) N HS K1 HN (fuel m) 0); lia|]. split; intros k.
    + destruct (Nat.eqb_spec k 0) as [->|Nk]; [f_equal; symmetry; apply Nat.eqb_neq; lia|].
      replace k with (k + 0)%nat at 2 by lia. apply (hasDegreeLoop_ok m (nanchor nd) N HS K1 HN (fuel m) 0 k); lia.
    + destruct (Nat.eqb_spec k 0) as [->|Nk]; [reflexivity|].
      replace k with (k + 0)%nat at 2 by lia. apply (minDegreeLoop_ok m (nanchor nd) N HS K1 HN (fuel m) 0 k); lia.
Qed.

(** ** C44 *)

(** the darts met by walking nextPhi from [d] until it returns *)
Definition contourWalk m d (L : list Z) : Prop :=
  NoDup L /\ (forall y, In y L <-> sameContour m d y) /\
  (forall i x, nth_error L i = Some x -> walk (nextPhi m) i d = Ok x) /\
  walk (nextPhi m) (length L) d = Ok d.

Lemma nth_orb f x N i y : nth_error (orb f x N) i = Some y -> (i < N)%nat /\ y = iter i f x.
Proof.
  intros E. assert (Hi : (i < N)%nat). { assert (L : (i < length (orb f x N))%nat) by (apply nth_error_Some; congruence). unfold orb in L. rewrite map_length, seq_length in L. assumption. }
  split; [assumption|]. unfold orb in E. rewrite nth_error_map in E. rewrite (nth_error_nth' _ 0%nat) in E by (rewrite seq_length; assumption).
  rewrite seq_nth in E by assumption. cbn in E. congruence.
Qed.

Lemma orb_walk m d N : SI m (darts m) -> In d (darts m) -> per (phi m) d N -> contourWalk m d (orb (phi m) d N).
Proof.
  intros HS Hd HN. pose proof (phi_perm m HS) as HP. pose proof (walk_iter (nextPhi m) (phi m) (darts m) (phi_next m HS)) as W.
  assert (Hlen : length (orb (phi m) d N) = N) by (unfold orb; rewrite map_length, seq_length; reflexivity).
  split; [apply (orb_nodup _ _ _ _ _ HP Hd HN)|]. split; [intros y; rewrite (orb_in _ _ _ HN); symmetry; apply reaches_phi; assumption|].
  split.
  - intros i x E. apply nth_orb in E as [Hi ->]. apply W; assumption.
  - rewrite Hlen, (W N d Hd). f_equal. apply HN.
Qed.

Theorem contour_walk m d : history anyCall m -> isDart m d ->
  (exists L, contourWalk m d L) /\
  (exists d', nextPhi m d = Ok d' /\ isDart m d' /\ prevPhi m d' = Ok d /\ startLabel m d' = endLabel m d) /\
  (exists d', prevPhi m d = Ok d' /\ isDart m d' /\ nextPhi m d' = Ok d /\ endLabel m d' = startLabel m d).
Proof.
  intros H Hd. pose proof (Inv_SInv m (history_Inv _ m H)) as V. pose proof (sv_si _ V) as HS. apply isDart_iff in Hd.
  pose proof (phi_perm m HS) as HP. destruct (min_period _ _ _ d HP Hd) as (N & HN & _). split; [exists (orb (phi m) d N); apply orb_walk; assumption|].
  assert (PP : forall x, In x (darts m) -> prevPhi m x = Ok (- sg m x)).
  { intros x Hx. unfold prevPhi. rewrite getS_Ok by (apply (si_cap _ _ HS); assumption). reflexivity. }
  assert (Hd' : In (- d) (darts m)) by (apply darts_opp; assumption).
  destruct (HP d Hd) as (A & B & C & D). split.
  - exists (phi m d). rewrite isDart_iff. split; [apply phi_next; assumption|]. split; [assumption|]. split; [rewrite (PP _ A), C; reflexivity|].
    rewrite (startLabel_Ok m _ A), (endLabel_Ok m d Hd). f_equal. unfold phi. apply (SI_st_si m _ _ HS Hd').
  - exists (- sg m d). rewrite isDart_iff. split; [apply PP; assumption|]. split; [assumption|]. split; [rewrite (nextPhi_Ok m _ HS B), D; reflexivity|].
    rewrite (endLabel_Ok m _ B), (startLabel_Ok m d Hd), Z.opp_involutive. f_equal. apply (si_st _ _ HS d Hd).
Qed.

(** *** the point iterators *)

(** [it] has made [j] steps along the points [ps] *)
Definition onDart (ps : list point) (j : nat) (it : dpi) : Prop :=
  (dp_pts it = ps /\ dp_inc it = 1 /\ dp_i it = Z.of_nat j /\ dp_end it = Z.of_nat (length ps)) \/
  (dp_pts it = rev ps /\ dp_inc it = -1 /\ dp_i it = Z.of_nat (length ps) - 1 - Z.of_nat j /\ dp_end it = -1).

Lemma onDart_of m d : In d (darts m) -> exists it, dpiOf m d = Ok it /\ onDart (dpts m d) 0 it.
Proof.
  intros Hd. destruct (live_edge m d Hd) as (e & He). unfold dpiOf. rewrite (gEdge_Ok _ _ _ He). cbn [bind]. eexists. split; [reflexivity|].
  unfold onDart, dpts. rewrite He. destruct (0 <? d); cbn; [left | right]; rewrite ?rev_involutive, ?rev_length; repeat split; lia.
Qed.
Lemma onDart_next ps j it : onDart ps j it -> onDart ps (S j) (dpiNext it).
Proof. intros [(A & B & C & D)|(A & B & C & D)]; [left | right]; cbn; rewrite A, B, C, D; repeat split; lia. Qed.
Lemma onDart_end ps j it : (j <= length ps)%nat -> onDart ps j it -> dpiAtEnd it = Nat.eqb j (length ps).
Proof.
  intros Hj [(A & B & C & D)|(A & B & C & D)]; unfold dpiAtEnd; rewrite C, D; destruct (Nat.eqb_spec j (length ps)); [apply Z.eqb_eq | apply Z.eqb_neq | apply Z.eqb_eq | apply Z.eqb_neq]; lia.
Qed.
Lemma nth_rev {A} (l : list A) i : (i < length l)%nat -> nth_error (rev l) i = nth_error l (length l - 1 - i).
Proof.
  intros Hi. assert (HL : (length l - 1 - i < length l)%nat) by lia. destruct l as [|a0 l0] eqn:El; [cbn in Hi; lia|]. rewrite <- El in *.
  rewrite (nth_error_nth' (rev l) a0) by (rewrite rev_length; assumption). rewrite (nth_error_nth' l a0) by assumption.
  f_equal. rewrite rev_nth by assumption. f_equal. lia.
Qed.
Lemma onDart_get ps j it p : onDart ps j it -> nth_error ps j = Some p -> dpiGet it = Ok p.
Proof.
  intros Ho Hp. assert (Hj : (j < length ps)%nat) by (apply nth_error_Some; congruence).
  destruct Ho as [(A & B & C & D)|(A & B & C & D)]; unfold dpiGet; rewrite A, C.
  - destruct (Z.ltb_spec (Z.of_nat j) 0); [lia|]. rewrite Nat2Z.id, Hp. reflexivity.
  - destruct (Z.ltb_spec (Z.of_nat (length ps) - 1 - Z.of_nat j) 0); [lia|].
    replace (Z.to_nat (Z.of_nat (length ps) - 1 - Z.of_nat j)) with (length ps - 1 - j)%nat by lia.
    rewrite nth_rev by lia. replace (length ps - 1 - (length ps - 1 - j))%nat with j by lia. rewrite Hp. reflexivity.
Qed.

Lemma skipn_nth {A} (l : list A) j p : nth_error l j = Some p -> skipn j l = p :: skipn (S j) l.
Proof. revert j. induction l as [|a t IH]; intros [|j] E; try discriminate; [injection E as ->; reflexivity | cbn in *; apply IH; assumption]. Qed.

Lemma drainDpi_ok ps n : forall j it, onDart ps j it -> (j <= length ps)%nat -> (length ps - j < n)%nat -> drainDpi n it = Ok (skipn j ps).
Proof.
  induction n as [|n IH]; intros j it Ho Hj Hn; [lia|]. cbn [drainDpi]. rewrite (onDart_end ps j it Hj Ho).
  destruct (Nat.eqb_spec j (length ps)) as [->|E]; [rewrite skipn_all; reflexivity|].
  destruct (nth_error ps j) as [p|] eqn:Ep; [|apply nth_error_None in Ep; lia]. rewrite (onDart_get ps j it p Ho Ep). cbn [bind].
  rewrite (IH (S j)) by (try (apply onDart_next; assumption); lia). cbn [bind]. rewrite (skipn_nth ps j p Ep). reflexivity.
Qed.

(** points of the darts after the first one of each *)
Definition tailPts m (L : list Z) : list point := flat_map (fun x => skipn 1 (dpts m x)) L.

Section Contour.
  Variables (m : gmap) (d : Z) (N : nat).
  Hypothesis HS : SI m (darts m).
  Hypothesis Hd : In d (darts m).
  Hypothesis HN : per (phi m) d N.
  Hypothesis H2 : forall x, In x (darts m) -> (2 <= length (dpts m x))%nat.
  Let HP := phi_perm m HS.
  Let dt k := iter k (phi m) d.
  Definition later_darts k : list Z := map (fun i => iter i (phi m) d) (seq (S k) (N - S k)).

  Lemma dt_in k : In (dt k) (darts m).
  Proof. apply (iter_in _ _ _ HP); assumption. Qed.
  Lemma dt_next k : nextPhi m (dt k) = Ok (dt (S k)).
  Proof. apply nextPhi_Ok; auto. apply dt_in. Qed.
  Lemma dt_end k : (k < N)%nat -> (dt (S k) =? d) = Nat.eqb (S k) N.
  Proof.
    intros Hk. destruct (Nat.eqb_spec (S k) N) as [->|E]; [apply Z.eqb_eq, HN|].
    apply Z.eqb_neq. apply (pe_min _ _ _ HN). lia.
  Qed.

  Lemma drain_ok n : forall k j it, (k < N)%nat -> (j < length (dpts m (dt k)))%nat -> onDart (dpts m (dt k)) j it ->
    (length (skipn j (dpts m (dt k)) ++ tailPts m (later_darts k)) < n)%nat ->
    drain n m (mkCpi it (dt k) d) = Ok (skipn j (dpts m (dt k)) ++ tailPts m (later_darts k)).
  Proof.
    induction n as [|n IH]; intros k j it Hk Hj Ho Hn; [lia|]. cbn [drain cp_dpi].
    rewrite (onDart_end _ j it (Nat.lt_le_incl _ _ Hj) Ho). destruct (Nat.eqb_spec j (length (dpts m (dt k)))); [lia|].
    destruct (nth_error (dpts m (dt k)) j) as [p|] eqn:Ep; [|apply nth_error_None in Ep; lia]. rewrite (onDart_get _ j it p Ho Ep). cbn [bind].
    rewrite (skipn_nth _ j p Ep) in Hn |- *. cbn [app length] in Hn |- *.
    unfold cpiNext. cbn [cp_dpi cp_dart cp_end]. pose proof (onDart_next _ _ _ Ho) as Ho'.
    rewrite (onDart_end _ (S j) _ Hj Ho'). destruct (Nat.eqb_spec (S j) (length (dpts m (dt k)))) as [E|E].
    - rewrite dt_next. cbn [bind]. rewrite (dt_end k Hk). rewrite E, skipn_all in Hn |- *. cbn [app] in Hn |- *.
      destruct (Nat.eqb_spec (S k) N) as [EN|EN].
      + cbn [bind]. unfold later_darts. rewrite EN, Nat.sub_diag. cbn [seq map tailPts flat_map].
        destruct n as [|n]; [unfold later_darts in Hn; rewrite EN, Nat.sub_diag in Hn; cbn in Hn; lia|]. cbn [drain cp_dpi]. rewrite (onDart_end _ (S j) _ Hj Ho').
        destruct (Nat.eqb_spec (S j) (length (dpts m (dt k)))); [reflexivity | contradiction].
      + destruct (onDart_of m (dt (S k)) (dt_in (S k))) as (q & -> & Hq). cbn [bind].
        assert (EL : later_darts k = dt (S k) :: later_darts (S k)).
        { unfold later_darts. replace (N - S k)%nat with (S (N - S (S k))) by lia. reflexivity. }
        rewrite EL in Hn |- *. cbn [tailPts flat_map] in Hn |- *.
        rewrite (IH (S k) 1%nat); try lia.
        * reflexivity.
        * pose proof (H2 _ (dt_in (S k))). lia.
        * apply onDart_next; assumption.
        * unfold tailPts. lia.
    - cbn [bind]. rewrite (IH k (S j)) by (assumption || lia). reflexivity.
  Qed.
End Contour.

Lemma later_all m d N : (0 < N)%nat -> orb (phi m) d N = d :: later_darts m d N 0.
Proof. intros H. unfold orb, later_darts. destruct N as [|N]; [lia|]. cbn [seq map iter]. replace (S N - 1)%nat with N by lia. reflexivity. Qed.

Lemma rev_last {A} (l : list A) : l <> [] -> exists a t, l = t ++ [a] /\ rev l = a :: rev t.
Proof. intros H. destruct (exists_last H) as (t & a & ->). exists a, t. rewrite rev_unit. auto. Qed.

Lemma extendPts_join p q a b : hd_error (rev p) = Some a -> hd_error q = Some b -> a = b -> extendPts p q = p ++ skipn 1 q.
Proof.
  intros Ha Hb ->. unfold extendPts. destruct q as [|c q]; [discriminate|]. injection Hb as ->. destruct (rev p) as [|c t]; [discriminate|]. injection Ha as ->.
  unfold pointEqb. rewrite !Z.eqb_refl. reflexivity.
Qed.

Lemma dpts_rev m d : d <> 0 -> dpts m (- d) = rev (dpts m d).
Proof.
  intros H. unfold dpts. rewrite elab_opp. destruct (eAt m (elab d)); [|reflexivity].
  destruct (Z.ltb_spec 0 d), (Z.ltb_spec 0 (- d)); try lia; [reflexivity | rewrite rev_involutive; reflexivity].
Qed.

Theorem contour_points m d : history geometric m -> isDart m d ->
  exists L pss ps q, contourWalk m d L /\ Forall2 (ptsOf m) L pss /\
    ps = flat_map (skipn 1) pss /\ hd_error (hd [] pss) = Some q /\ hd_error (rev ps) = Some q /\
    (exists n0, forall n, (n0 <= n)%nat -> (it <- cpiOf m d false ;; drain n m it) = Ok ps) /\
    (exists n0, forall n, (n0 <= n)%nat -> (it <- cpiOf m d true ;; drain n m it) = Ok (q :: ps)) /\
    contourPoly m d = Ok (q :: ps).
Proof.
  intros H Hd. pose proof (Inv_SInv m (history_Inv _ m H)) as V. pose proof (sv_si _ V) as HS. apply isDart_iff in Hd.
  pose proof (history_geo geometric m (fun _ _ K => K) H) as Hg.
  pose proof (phi_perm m HS) as HP. destruct (min_period _ _ _ d HP Hd) as (N & HN & HNL). pose proof (pe_pos _ _ _ HN) as Np.
  assert (H2 : forall x, In x (darts m) -> (2 <= length (dpts m x))%nat) by (intros x Hx; apply (Hg x Hx)).
  assert (Hpos : forall x, In x (darts m) -> exists p, hd_error (dpts m x) = Some p /\ pos m (stt m x) = Some p).
  { intros x Hx. destruct (Hg x Hx) as [G1 G2]. destruct (dpts m x) as [|p t] eqn:E; [cbn in G1; lia|]. exists p. split; [reflexivity | rewrite <- G2; reflexivity]. }
  assert (Hlast : forall x, In x (darts m) -> hd_error (rev (dpts m x)) = hd_error (dpts m (phi m x))).
  { intros x Hx. rewrite <- dpts_rev by (apply (si_nz _ _ HS); assumption).
    assert (Hx' : In (- x) (darts m)) by (apply darts_opp; assumption).
    destruct (Hg _ Hx') as [_ ->]. destruct (Hg (phi m x)) as [_ ->]; [apply HP; assumption|].
    f_equal. unfold phi. symmetry. apply (SI_st_si m _ _ HS Hx'). }
  destruct (Hpos d Hd) as (q & Hq & _).
  exists (orb (phi m) d N), (map (dpts m) (orb (phi m) d N)), (tailPts m (orb (phi m) d N)), q.
  assert (HO : forall x, In x (orb (phi m) d N) -> In x (darts m)).
  { intros x Hx. apply (orb_in _ _ _ HN) in Hx. apply (reach_in _ _ _ HP d); assumption. }
  split; [apply orb_walk; assumption|].
  split. { clear -HO. induction (orb (phi m) d N) as [|x t IH]; [constructor|]. constructor; [apply ptsOf_iff; [apply HO; left; reflexivity | reflexivity]|]. apply IH. intros; apply HO; right; assumption. }
  split. { unfold tailPts. rewrite !flat_map_concat_map, map_map. reflexivity. }
  pose proof (later_all m d N Np) as EL.
  split. { rewrite EL. cbn [map hd]. assumption. }
  assert (Hpo : forall n k acc a, (k < N)%nat -> (N - k <= n)%nat -> hd_error (rev acc) = Some a -> hd_error (dpts m (iter k (phi m) d)) = Some a ->
      exists b, contourPolyLoop n m d (iter k (phi m) d) acc = Ok (acc ++ tailPts m (iter k (phi m) d :: later_darts m d N k)) /\
       hd_error (rev (acc ++ tailPts m (iter k (phi m) d :: later_darts m d N k))) = Some b /\ hd_error (dpts m d) = Some b).
  { induction n as [|n IH]; intros k acc a Hk Hn Ha Hb; [lia|].
    assert (Hin : In (iter k (phi m) d) (darts m)) by (apply dt_in; assumption).
    destruct (live_edge m _ Hin) as (e & He).
    assert (Ep : (if iter k (phi m) d <? 0 then rev (epts e) else epts e) = dpts m (iter k (phi m) d)).
    { unfold dpts. rewrite He. pose proof (si_nz _ _ HS _ Hin). destruct (Z.ltb_spec (iter k (phi m) d) 0), (Z.ltb_spec 0 (iter k (phi m) d)); try lia; reflexivity. }
    cbn [contourPolyLoop]. rewrite (deref_edge _ _ _ He). cbn [bind]. cbv zeta. rewrite Ep.
    rewrite (extendPts_join acc _ a a Ha Hb eq_refl). rewrite (dt_next m d HS Hd k). cbn [bind]. rewrite (dt_end m d N HN k Hk).
    assert (Hl : hd_error (rev (acc ++ skipn 1 (dpts m (iter k (phi m) d)))) = hd_error (dpts m (iter (S k) (phi m) d))).
    { change (iter (S k) (phi m) d) with (phi m (iter k (phi m) d)). rewrite <- (Hlast _ Hin). pose proof (H2 _ Hin) as L2.
      destruct (dpts m (iter k (phi m) d)) as [|p0 [|p1 t]]; cbn in L2; try lia. cbn [skipn]. rewrite rev_app_distr.
      change (rev (p0 :: p1 :: t)) with (rev (p1 :: t) ++ [p0]).
      destruct (rev_last (p1 :: t)) as (z & u & _ & E2); [discriminate|]. rewrite E2. reflexivity. }
    destruct (Nat.eqb_spec (S k) N) as [EN|EN].
    - assert (EL0 : later_darts m d N k = []) by (unfold later_darts; rewrite EN, Nat.sub_diag; reflexivity).
      rewrite EL0. cbn [tailPts flat_map]. rewrite app_nil_r. rewrite EN, (pe_ret _ _ _ HN), Hq in Hl. exists q. split; [reflexivity|]. split; [assumption | assumption].
    - assert (EL1 : later_darts m d N k = iter (S k) (phi m) d :: later_darts m d N (S k)).
      { unfold later_darts. replace (N - S k)%nat with (S (N - S (S k))) by lia. reflexivity. }
      destruct (Hpos (iter (S k) (phi m) d)) as (a' & Ha' & _); [apply dt_in; assumption|].
      destruct (IH (S k) (acc ++ skipn 1 (dpts m (iter k (phi m) d))) a') as (b & R & R1 & R2); try lia; [rewrite Hl; assumption | assumption|].
      exists b. rewrite EL1. unfold tailPts in *. cbn [flat_map] in *. rewrite <- app_assoc in R, R1. split; [exact R|]. split; assumption. }
  assert (Hps : q :: tailPts m (orb (phi m) d N) = dpts m d ++ tailPts m (later_darts m d N 0)).
  { rewrite EL. unfold tailPts. cbn [flat_map]. rewrite app_comm_cons. f_equal. destruct (dpts m d) as [|p t]; [discriminate|]. injection Hq as ->. reflexivity. }
  assert (Hcp : contourPoly m d = Ok (q :: tailPts m (orb (phi m) d N)) /\ hd_error (rev (q :: tailPts m (orb (phi m) d N))) = Some q).
  { unfold contourPoly. pose proof (fuel_darts m) as Hf. destruct (fuel m) as [|n] eqn:Ef; [lia|].
    cbn [contourPolyLoop]. destruct (live_edge m _ Hd) as (e & He). rewrite (deref_edge _ _ _ He). cbn [bind]. cbv zeta.
    assert (Ep : (if d <? 0 then rev (epts e) else epts e) = dpts m d).
    { unfold dpts. rewrite He. pose proof (si_nz _ _ HS _ Hd). destruct (Z.ltb_spec d 0), (Z.ltb_spec 0 d); try lia; reflexivity. }
    rewrite Ep. assert (E0 : extendPts [] (dpts m d) = dpts m d) by (destruct (dpts m d); reflexivity). rewrite E0.
    rewrite (dt_next m d HS Hd 0 : nextPhi m d = _). cbn [bind]. rewrite (dt_end m d N HN 0 Np).
    assert (Hl : hd_error (rev (dpts m d)) = hd_error (dpts m (iter 1 (phi m) d))) by apply (Hlast _ Hd).
    rewrite Hps. destruct (Nat.eqb_spec 1 N) as [EN|EN].
    - assert (EL0 : later_darts m d N 0 = []) by (unfold later_darts; rewrite <- EN; reflexivity).
      rewrite EL0. cbn [tailPts flat_map]. rewrite app_nil_r. rewrite Hl, EN, (pe_ret _ _ _ HN). auto.
    - destruct (Hpos (iter 1 (phi m) d)) as (a' & Ha' & _); [apply (dt_in m d HS Hd 1)|].
      assert (EL1 : later_darts m d N 0 = iter 1 (phi m) d :: later_darts m d N 1).
      { unfold later_darts. replace (N - 1)%nat with (S (N - 2)) by lia. reflexivity. }
      destruct (Hpo n 1%nat (dpts m d) a') as (b & R & R1 & R2); try lia; [rewrite Hl; assumption | assumption |].
      rewrite EL1. split; [exact R|]. rewrite R1. congruence. }
  destruct Hcp as [Hc1 Hc2].
  split. { destruct (tailPts m (orb (phi m) d N)) as [|p t] eqn:Et.
    - exfalso. rewrite EL in Et. unfold tailPts in Et. cbn [flat_map] in Et. apply app_eq_nil in Et as [Et _]. pose proof (H2 d Hd). destruct (dpts m d) as [|? [|? ?]]; cbn in *; try lia; discriminate.
    - destruct (rev_last (p :: t)) as (z & u & E1 & E2); [discriminate|]. rewrite E2. cbn [hd_error]. rewrite E1 in Hc2. rewrite app_comm_cons, rev_unit in Hc2. exact Hc2. }
  destruct (onDart_of m d Hd) as (it & Eit & Hit).
  assert (Ht : skipn 1 (dpts m d) ++ tailPts m (later_darts m d N 0) = tailPts m (orb (phi m) d N)) by (rewrite EL; reflexivity).
  pose proof (H2 d Hd) as L2. split; [|split; [|exact Hc1]].
  - exists (S (length (tailPts m (orb (phi m) d N)))). intros n Hn. unfold cpiOf. rewrite Eit. cbn [bind].
    pose proof (drain_ok m d N HS Hd HN H2 n 0 1 (dpiNext it) Np) as R. cbn [iter] in R. rewrite Ht in R. apply R; [lia | apply onDart_next; assumption | lia].
  - exists (S (length (q :: tailPts m (orb (phi m) d N)))). intros n Hn. unfold cpiOf. rewrite Eit. cbn [bind].
    pose proof (drain_ok m d N HS Hd HN H2 n 0 0 it Np) as R. cbn [iter skipn] in R. rewrite <- Hps in R. apply R; [lia | assumption | lia].
Qed.

(** DartPointIter visits the points of the dart in order, and reversing it in place
    keeps the current point *)
Theorem dart_points m d : history anyCall m -> isDart m d -> exists ps it, ptsOf m d ps /\ dpiOf m d = Ok it /\
  (exists n0, forall n, (n0 <= n)%nat -> drainDpi n it = Ok ps) /\
  (forall j p, nth_error ps j = Some p -> exists it', it' = Nat.iter j dpiNext it /\ dpiAtEnd it' = false /\ dpiGet it' = Ok p /\
     dpiGet (dpiReverse it') = Ok p /\ (exists n0, forall n, (n0 <= n)%nat -> drainDpi n (dpiReverse it') = Ok (rev (firstn (S j) ps)))).
Proof.
  intros H Hd. apply isDart_iff in Hd. destruct (onDart_of m d Hd) as (it & Eit & Hit).
  exists (dpts m d), it. split; [apply ptsOf_iff; auto|]. split; [assumption|]. split.
  - exists (S (length (dpts m d))). intros n Hn. rewrite (drainDpi_ok (dpts m d) n 0 it Hit) by lia. reflexivity.
  - intros j p Hp. exists (Nat.iter j dpiNext it). split; [reflexivity|].
    assert (Hj : (j < length (dpts m d))%nat) by (apply nth_error_Some; congruence).
    assert (Ho : onDart (dpts m d) j (Nat.iter j dpiNext it)).
    { clear Hp Hj. induction j as [|j IH]; [assumption|]. cbn [Nat.iter]. change (Nat.iter (S j) dpiNext it) with (dpiNext (Nat.iter j dpiNext it)). apply onDart_next; assumption. }
    split; [rewrite (onDart_end _ j _ (Nat.lt_le_incl _ _ Hj) Ho); apply Nat.eqb_neq; lia|]. split; [apply (onDart_get _ j _ p Ho Hp)|].
    assert (Hrv : onDart (rev (dpts m d)) (length (dpts m d) - 1 - j) (dpiReverse (Nat.iter j dpiNext it))).
    { destruct Ho as [(A & B & C & D)|(A & B & C & D)]; unfold dpiReverse; rewrite B; cbn; [right | left]; rewrite ?rev_involutive, ?rev_length, ?A, ?C, ?rev_length; (split; [try reflexivity; try assumption|]; split; [try reflexivity|]; cbn [dp_i dp_end]; lia). }
    split.
    + apply (onDart_get _ _ _ p Hrv). rewrite nth_rev by lia. replace (length (dpts m d) - 1 - (length (dpts m d) - 1 - j))%nat with j by lia. assumption.
    + exists (S (length (dpts m d))). intros n Hn. rewrite (drainDpi_ok (rev (dpts m d)) n _ _ Hrv) by (rewrite rev_length; lia). f_equal.
      rewrite skipn_rev. f_equal. f_equal. lia.
Qed.
