(** Face::contains and GeoMap::faceAt on every map built by the API (C45). *)
From Coq Require Import QArith Bool Permutation.
From Verif Require Import Base Orbit GraphRank Euler Links FaceInv Conj
  GeoMap_Model GeoMap_Views GeoMap_SInv GeoMap_Remove GeoMap_MergeEdges GeoMap_SplitEdge GeoMap_Loops GeoMap_MInv
  GeoMap_Gone GeoMap_Bridge GeoMap_MergeFaces GeoMap_Subdiv GeoMap_Init GeoMap_Area GeoMap_Embed GeoMap_Initialize GeoMap_Sort
  GeoMap_History GeoMap_Geometry GeoMap_AreaInv GeoMap_Spec GeoMap_Facts GeoMap_Results GeoMap_Results2 GeoMap_IterModel GeoMap_Results4
  Contains_Model Contains_Spec Contains_Proofs.
Local Open Scope Z_scope.

(** ** Contours *)

(** the part of the parity contributed by one dart *)
Definition dpar m p x : bool := par p (map toQ (dpts m x)).
Fixpoint dparAll m p (L : list Z) : bool := match L with [] => false | x :: t => xorb (dpar m p x) (dparAll m p t) end.

Lemma toQ_same a b : a = b -> samePt (toQ a) (toQ b) = true.
Proof. intros ->. apply samePt_refl. Qed.

Lemma chain_par m p L : (forall i x y, nth_error L i = Some x -> nth_error L (S i) = Some y -> hd_error (rev (dpts m x)) = hd_error (dpts m y)) ->
  (forall x, In x L -> dpts m x <> []) -> forall q, hd_error (flat_map (dpts m) L) = Some q ->
  par p (map toQ (q :: tailPts m L)) = dparAll m p L.
Proof.
  induction L as [|x t IH]; intros Hn Hl q Hq; [discriminate|].
  assert (Hx : exists d0, dpts m x = q :: d0).
  { pose proof (Hl x (or_introl eq_refl)) as Hx. cbn [flat_map] in Hq. destruct (dpts m x) as [|a d0]; [contradiction|]. cbn in Hq. injection Hq as ->. eauto. }
  destruct Hx as (d0 & Ed). assert (E : q :: tailPts m (x :: t) = dpts m x ++ tailPts m t) by (unfold tailPts; cbn [flat_map]; rewrite Ed; reflexivity).
  rewrite E. destruct t as [|y t].
  - unfold tailPts. cbn [flat_map dparAll]. rewrite app_nil_r, xorb_false_r. reflexivity.
  - pose proof (Hn 0%nat x y eq_refl eq_refl) as Hj. pose proof (Hl y (or_intror (or_introl eq_refl))) as Hy.
    destruct (rev_last (dpts m x)) as (z & u & E1 & E2); [rewrite Ed; discriminate|]. rewrite E2 in Hj. cbn [hd_error] in Hj.
    assert (Hz : hd_error (flat_map (dpts m) (y :: t)) = Some z) by (cbn [flat_map]; destruct (dpts m y) as [|a d1]; [contradiction|]; cbn in *; congruence).
    change (dparAll m p (x :: y :: t)) with (xorb (dpar m p x) (dparAll m p (y :: t))). rewrite <- (IH (fun i => Hn (S i)) (fun a Ha => Hl a (or_intror Ha)) z Hz).
    unfold dpar. rewrite E1, <- app_assoc, !map_app. cbn [app map]. apply par_app.
Qed.

Lemma contour_info m d : history geometric m -> isDart m d ->
  exists L ps, contourWalk m d L /\ contourPoly m d = Ok ps /\ closed (map toQ ps) = Ok true /\
    (forall p, par p (map toQ ps) = dparAll m p L) /\ (forall a, In a ps -> exists x, In x L /\ In a (dpts m x)).
Proof.
  intros H Hd. destruct (contour_points m d H Hd) as (L & pss & ps & q & W & F & Eps & Hq & Hlast & _ & _ & Hc).
  pose proof (Inv_SInv m (history_Inv _ m H)) as V. pose proof (sv_si _ V) as HS. pose proof (phi_perm m HS) as HP.
  pose proof (history_geo geometric m (fun _ _ K => K) H) as Hg. pose proof Hd as Hd'. apply isDart_iff in Hd'.
  assert (Hin : forall x, In x L -> In x (darts m)).
  { intros x Hx. destruct W as (_ & W & _). apply W in Hx. apply reaches_phi in Hx; auto. apply (reach_in _ _ _ HP d); assumption. }
  assert (Epss : pss = map (dpts m) L).
  { clear -F Hin. induction F as [|x y l l' Hxy F IH]; [reflexivity|]. cbn [map]. f_equal; [apply (ptsOf_iff m x y); [apply Hin; left; reflexivity | exact Hxy]|].
    apply IH. intros; apply Hin; right; assumption. }
  assert (Et : ps = tailPts m L) by (rewrite Eps, Epss; unfold tailPts; rewrite !flat_map_concat_map, map_map; reflexivity).
  pose proof (walk_iter (nextPhi m) (phi m) (darts m) (phi_next m HS)) as Wi.
  assert (Hnext : forall i x y, nth_error L i = Some x -> nth_error L (S i) = Some y -> hd_error (rev (dpts m x)) = hd_error (dpts m y)).
  { intros i x y Hx Hy. pose proof (Hin x (nth_error_In _ _ Hx)) as Ix. destruct W as (_ & _ & W & _).
    pose proof (W _ _ Hx) as Wx. pose proof (W _ _ Hy) as Wy. rewrite (Wi _ d Hd') in Wx. rewrite (Wi _ d Hd') in Wy. injection Wx as Wx. injection Wy as Wy.
    change (iter (S i) (phi m) d) with (phi m (iter i (phi m) d)) in Wy. rewrite Wx in Wy. subst y.
    rewrite <- dpts_rev by (apply (si_nz _ _ HS); assumption). assert (Hx' : In (- x) (darts m)) by (apply darts_opp; assumption).
    destruct (Hg _ Hx') as [_ ->]. destruct (Hg (phi m x)) as [_ ->]; [apply HP; assumption|].
    f_equal. unfold phi. symmetry. apply (SI_st_si m _ _ HS Hx'). }
  assert (Hne : forall x, In x L -> dpts m x <> []) by (intros x Hx E; destruct (Hg x (Hin x Hx)) as [G _]; rewrite E in G; cbn in G; lia).
  assert (HL : L <> []) by (intros ->; subst pss; discriminate Hq).
  exists L, (q :: ps). split; [exact W|]. split; [exact Hc|]. split; [|split].
  - destruct (rev_last ps) as (z & u & E1 & E2); [intros E; rewrite E in Hlast; discriminate|]. rewrite E2 in Hlast. cbn [hd_error] in Hlast. injection Hlast as ->.
    rewrite E1, app_comm_cons, map_app. cbn [map]. unfold closed. change (vget ((toQ q :: map toQ u) ++ [toQ q]) 0) with (Ok (toQ q)). cbn [bind].
    rewrite vget_last. cbn [bind]. rewrite samePt_refl. reflexivity.
  - intros p. rewrite Et. apply chain_par; [exact Hnext | exact Hne|]. subst pss. destruct L as [|x t]; [contradiction|]. cbn [map hd flat_map] in *.
    destruct (dpts m x); [discriminate|]. exact Hq.
  - intros a [<-|Ha].
    + subst pss. destruct L as [|x t]; [contradiction|]. cbn [map hd] in Hq. exists x. split; [left; reflexivity|]. destruct (dpts m x); [discriminate|]. injection Hq as ->. left. reflexivity.
    + rewrite Et in Ha. unfold tailPts in Ha. apply in_flat_map in Ha as (x & Hx & Ha). exists x. split; [exact Hx|].
      destruct (dpts m x) as [|b t]; [destruct Ha | right; exact Ha].
Qed.

Lemma contour_has m p d : history geometric m -> isDart m d -> exists L, contourWalk m d L /\ contourHas m p d (dparAll m p L).
Proof.
  intros H Hd. destruct (contour_info m d H Hd) as (L & ps & W & Hc & Hcl & Hp & _). exists L. split; [exact W|]. exists ps. split; [exact Hc|].
  destruct (poly_cases (map toQ ps)) as [[a E]|(a & u & z & E)]; [intros E; rewrite E in Hcl; discriminate| |].
  - rewrite E, contains_one, <- (Hp p), E. reflexivity.
  - destruct (contains_evenOdd (map toQ ps) p) as [[K _]|(_ & n & Hn & ->)]; [rewrite E; discriminate | congruence|].
    f_equal. destruct (par_crossings p (map toQ ps)) as (n' & Hn' & K). rewrite <- (Hp p), K. f_equal. apply (crossings_fun _ _ _ Hn). exact Hn'.
Qed.

Lemma contourHas_fun m p a b b' : contourHas m p a b -> contourHas m p a b' -> b = b'.
Proof. intros (ps & H1 & H2) (ps' & H1' & H2'). congruence. Qed.

(** ** the box of a contour covers the contour *)

Lemma covers_incl o l l' : covers o l -> (forall a, In a l' -> In a l) -> covers o l'.
Proof. intros H Hi a Ha. apply H, Hi, Ha. Qed.

Lemma contourBox_ok m d : history geometric m -> isDart m d -> forall ps, contourPoly m d = Ok ps ->
  exists b, contourBox m d = Ok b /\ covers b (map toQ ps).
Proof.
  intros H Hd ps Hps. destruct (contour_info m d H Hd) as (L & ps' & (HnL & HL & HLw & HLe) & Hc & _ & _ & Hpts). rewrite Hc in Hps. injection Hps as ->.
  pose proof (Inv_SInv m (history_Inv _ m H)) as V. pose proof (sv_si _ V) as HS. pose proof (phi_perm m HS) as HP. apply isDart_iff in Hd.
  destruct (min_period _ _ _ d HP Hd) as (N & HN & HNL). pose proof (pe_pos _ _ _ HN) as Np.
  assert (Loop : forall n k o l, (k < N)%nat -> (N - k <= n)%nat -> covers o l ->
     exists b, contourBoxLoop n m d (iter k (phi m) d) o = Ok b /\ covers b (l ++ flat_map (fun i => map toQ (dpts m (iter i (phi m) d))) (seq k (N - k)))).
  { induction n as [|n IH]; intros k o l Hk Hn Hcov; [lia|]. assert (Hin : In (iter k (phi m) d) (darts m)) by (apply dt_in; assumption).
    destruct (live_edge m _ Hin) as (e & He). cbn [contourBoxLoop]. rewrite (deref_edge _ _ _ He). cbn [bind]. cbv zeta.
    rewrite (dt_next m d HS Hd k). cbn [bind]. rewrite (dt_end m d N HN k Hk).
    assert (Hc1 : covers (qboxJoin o (bbox (map toQ (epts e)))) (l ++ map toQ (dpts m (iter k (phi m) d)))).
    { apply (covers_incl _ (l ++ map toQ (epts e))); [apply boxJoin_covers; [exact Hcov | apply bbox_covers]|].
      intros a Ha. apply in_app_iff in Ha. apply in_app_iff. destruct Ha as [Ha|Ha]; [left; exact Ha|right].
      unfold dpts in Ha. rewrite He in Ha. destruct (0 <? iter k (phi m) d); [exact Ha|]. rewrite map_rev in Ha. apply in_rev in Ha. exact Ha. }
    destruct (Nat.eqb_spec (S k) N) as [EN|EN].
    - eexists. split; [reflexivity|]. replace (N - k)%nat with 1%nat by lia. cbn [seq flat_map]. rewrite app_nil_r. exact Hc1.
    - destruct (IH (S k) _ _ ltac:(lia) ltac:(lia) Hc1) as (b & Eb & Hb). exists b. split; [exact Eb|].
      replace (N - k)%nat with (S (N - S k)) by lia. cbn [seq flat_map]. rewrite app_assoc. exact Hb. }
  assert (Hf : (N <= fuel m)%nat) by (pose proof (fuel_darts m); lia).
  destruct (Loop (fuel m) 0%nat None [] Np ltac:(lia)) as (b & Eb & Hb); [intros a []|]. exists b. split; [exact Eb|].
  apply (covers_incl _ _ _ Hb). cbn [app]. intros a Ha. apply in_map_iff in Ha as (a0 & <- & Ha). destruct (Hpts a0 Ha) as (x & Hx & Hax).
  apply in_flat_map. assert (Hx' : In x (orb (phi m) d N)) by (apply (orb_in _ _ _ HN), reaches_phi, HL; assumption).
  unfold orb in Hx'. apply in_map_iff in Hx' as (i & <- & Hi). exists i. rewrite Nat.sub_0_r. split; [exact Hi | apply in_map; exact Hax].
Qed.

(** ** Face::contains *)

Lemma outsideHoles_ok m p : history geometric m -> forall A, (forall a, In a A -> isDart m a) ->
  exists bs, Forall2 (contourHas m p) A bs /\ outsideHoles m A p = Ok (negb (existsb (fun x => x) bs)).
Proof.
  intros H. induction A as [|a A IH]; intros HA; [exists []; split; [constructor | reflexivity]|].
  destruct IH as (bs & F & E); [intros; apply HA; right; assumption|].
  destruct (contour_has m p a H (HA a (or_introl eq_refl))) as (L & _ & Hh). pose proof Hh as (ps & H1 & H2).
  exists (dparAll m p L :: bs). split; [constructor; assumption|]. cbn [outsideHoles existsb]. rewrite H1. cbn [bind]. rewrite H2. cbn [bind].
  destruct (dparAll m p L); [reflexivity | exact E].
Qed.

Theorem face_contains m l f p : history geometric m -> initialised m -> isFace m l f ->
  exists b, faceContains m l f p = Ok b /\ faceHas m p l f b.
Proof.
  intros H HI Hf. assert (HA : forall a, In a (fanchors f) -> isDart m a).
  { intros a Ha. destruct (contours_partition m (history_weaken _ _ m (fun _ _ _ => I) H) HI) as (_ & _ & P3).
    apply (P3 l f a a Hf Ha). exists 0%nat. reflexivity. }
  destruct l as [|l].
  - destruct (outsideHoles_ok m p H (fanchors f) HA) as (bs & F & E). unfold faceContains. exists (negb (existsb (fun x => x) bs)).
    split; [exact E|]. exists bs. auto.
  - assert (Hne : fanchors f <> []).
    { apply (faces_filled m (S l)); [exact (history_MInv _ m H HI) | apply isFace_iff, Hf | discriminate]. }
    unfold faceContains, faceHas. destruct (fanchors f) as [|a holes]; [contradiction|].
    assert (Ha : isDart m a) by (apply HA; left; reflexivity).
    destruct (contour_has m p a H Ha) as (L & _ & Hh). pose proof Hh as (ps & H1 & H2).
    destruct (contourBox_ok m a H Ha ps H1) as (b & Eb & Hb). rewrite Eb. cbn [bind].
    destruct (outsideHoles_ok m p H holes) as (bs & F & E); [intros; apply HA; right; assumption|].
    destruct (contour_info m a H Ha) as (_ & ps' & _ & H1' & Hcl & _). rewrite H1 in H1'. injection H1' as <-.
    destruct (qboxContains b p) eqn:Eq.
    + rewrite H1. cbn [bind]. rewrite H2. cbn [bind]. destruct (dparAll m p L) eqn:Ed.
      * eexists. split; [exact E|]. exists (true :: bs). split; [constructor; [exact Hh | exact F]|]. reflexivity.
      * eexists. split; [reflexivity|]. exists (false :: bs). split; [constructor; [exact Hh | exact F]|]. reflexivity.
    + pose proof (outside_box b (map toQ ps) p Hb Hcl Eq) as K.
      assert (Ed : dparAll m p L = false) by congruence.
      eexists. split; [reflexivity|]. exists (false :: bs). split; [constructor; [rewrite <- Ed; exact Hh | exact F]|]. reflexivity.
Qed.

(** ** GeoMap::faceAt *)

Lemma faceHas_fun m p l f b b' : faceHas m p l f b -> faceHas m p l f b' -> b = b'.
Proof.
  intros (bs & F & ->) (bs' & F' & ->). assert (bs = bs') as ->; [|reflexivity].
  revert bs' F'. induction F as [|a x A bs Hx F IH]; intros bs' F'; inversion F'; subst; [reflexivity|].
  f_equal; [eapply contourHas_fun; eassumption | apply IH; assumption].
Qed.

Theorem face_at m p : history geometric m -> initialised m -> exists l, faceAt m p = Ok l /\
  ((l = 0%nat /\ forall k f, (0 < k)%nat -> isFace m k f -> faceHas m p k f false) \/
   (exists f, (0 < l)%nat /\ isFace m l f /\ faceHas m p l f true /\
      forall k g, (0 < k < l)%nat -> isFace m k g -> faceHas m p k g false)).
Proof.
  intros H HI. unfold faceAt. destruct (faces m) as [|f0 fs] eqn:Ef; [contradiction|].
  assert (HF : forall k f, fAt m (S k) = Some f <-> tget fs k = Some f) by (intros k f; unfold fAt; rewrite Ef; reflexivity).
  assert (Loop : forall fs' k, (forall j f, tget fs' j = Some f <-> fAt m (k + j) = Some f) -> (0 < k)%nat ->
    (forall j g, (0 < j < k)%nat -> isFace m j g -> faceHas m p j g false) -> (forall j, (k + length fs' <= j)%nat -> fAt m j = None) ->
    exists l, faceAtLoop m k fs' p = Ok l /\
    ((l = 0%nat /\ forall k f, (0 < k)%nat -> isFace m k f -> faceHas m p k f false) \/
     (exists f, (0 < l)%nat /\ isFace m l f /\ faceHas m p l f true /\
      forall k g, (0 < k < l)%nat -> isFace m k g -> faceHas m p k g false))).
  { induction fs' as [|o fs' IH]; intros k Hk Hpos Hbefore Hend.
    - exists 0%nat. split; [reflexivity|]. left. split; [reflexivity|]. intros j f Hj Hf. apply Hbefore; [|exact Hf].
      split; [exact Hj|]. destruct (Nat.lt_ge_cases j k) as [L|L]; [exact L|]. apply isFace_iff in Hf. rewrite (Hend j) in Hf by (cbn; lia). discriminate.
    - assert (Hk' : forall j f, tget fs' j = Some f <-> fAt m (S k + j) = Some f) by (intros j f; replace (S k + j)%nat with (k + S j)%nat by lia; apply (Hk (S j))).
      assert (Hend' : forall j, (S k + length fs' <= j)%nat -> fAt m j = None) by (intros j Hj; apply Hend; cbn [length]; lia).
      destruct o as [f|]; cbn [faceAtLoop].
      + assert (Hf : isFace m k f) by (apply isFace_iff; replace k with (k + 0)%nat by lia; apply (Hk 0%nat); reflexivity).
        destruct (face_contains m k f p H HI Hf) as (b & -> & Hb). cbn [bind]. destruct b.
        * exists k. split; [reflexivity|]. right. exists f. auto.
        * apply IH; auto. intros j g Hj Hg. destruct (Nat.eq_dec j k) as [->|]; [|apply Hbefore; [lia | exact Hg]].
          apply isFace_iff in Hf. apply isFace_iff in Hg. rewrite Hf in Hg. injection Hg as <-. exact Hb.
      + apply IH; auto. intros j g Hj Hg. destruct (Nat.eq_dec j k) as [->|]; [|apply Hbefore; [lia | exact Hg]].
        apply isFace_iff in Hg. replace k with (k + 0)%nat in Hg by lia. apply (Hk 0%nat) in Hg. discriminate. }
  apply Loop; [intros j f; symmetry; apply HF | lia | intros; lia|]. intros j Hj. unfold fAt. rewrite Ef. unfold tget.
  rewrite (proj2 (nth_error_None _ _)); [reflexivity | exact Hj].
Qed.

(** ** every point lies in an even number of contours *)

Lemma NoDup_tmap {A B} (g : A -> list B) (l : list (option A)) : (forall i a, tget l i = Some a -> NoDup (g a)) ->
  (forall i j a b x, tget l i = Some a -> tget l j = Some b -> In x (g a) -> In x (g b) -> i = j) -> NoDup (tmap g l).
Proof.
  induction l as [|o t IH]; intros H1 H2; [constructor|].
  assert (Ht : NoDup (tmap g t)).
  { apply IH; [intros i a Ha; apply (H1 (S i) a Ha) | intros i j a b x Ha Hb Hx Hy; pose proof (H2 (S i) (S j) a b x Ha Hb Hx Hy); lia]. }
  destruct o as [a|]; [|exact Ht]. change (tmap g (Some a :: t)) with (g a ++ tmap g t).
  apply NoDup_app_intro; [apply (H1 0%nat a eq_refl) | exact Ht|]. intros x Hx Hy. apply in_tmap in Hy as (i & b & Hb & Hy).
  pose proof (H2 0%nat (S i) a b x eq_refl Hb Hx Hy). discriminate.
Qed.

Definition cz m p x : Z := if dpar m p x then 1 else 0.
Lemma dparAll_odd m p L : dparAll m p L = Z.odd (sumZ (cz m p) L).
Proof.
  induction L as [|x t IH]; [reflexivity|]. cbn [dparAll sumZ]. rewrite IH, Z.odd_add. f_equal. unfold cz. destruct (dpar m p x); reflexivity.
Qed.
Lemma dpar_opp m p x : x <> 0 -> dpar m p (- x) = dpar m p x.
Proof. intros H. unfold dpar. rewrite dpts_rev, map_rev by exact H. apply par_rev. Qed.

Theorem contours_parity m p : history geometric m -> initialised m ->
  exists bs, Forall2 (contourHas m p) (flat_map (fun o => match o with Some f => fanchors f | None => [] end) (faces m)) bs /\
    fold_right xorb false bs = false.
Proof.
  intros H HI. pose proof (history_weaken _ anyCall m (fun _ _ _ => I) H) as HA. destruct (contours_partition m HA HI) as (P1 & P2 & P3).
  set (A := flat_map _ (faces m)). assert (EA : A = tmap fanchors (faces m)) by reflexivity.
  assert (HinA : forall a, In a A <-> exists l f, isFace m l f /\ In a (fanchors f)).
  { intros a. rewrite EA, in_tmap. split; intros (l & f & H1 & H2); exists l, f; (split; [apply isFace_iff; exact H1 | exact H2]). }
  assert (Hdart : forall a, In a A -> isDart m a) by (intros a Ha; apply HinA in Ha as (l & f & Hf & Ha); apply (P3 l f a a Hf Ha); exists 0%nat; reflexivity).
  assert (NA : NoDup A).
  { rewrite EA. apply NoDup_tmap.
    - intros i f Hf. apply (P2 i f). apply isFace_iff, Hf.
    - intros i j f g x Hf Hg Hx Hy. assert (Hxx : sameContour m x x) by (exists 0%nat; reflexivity).
      destruct (P3 i f x x) as [_ K1]; [apply isFace_iff, Hf | exact Hx | exact Hxx|].
      destruct (P3 j g x x) as [_ K2]; [apply isFace_iff, Hg | exact Hy | exact Hxx|]. congruence. }
  assert (Sep : forall a b x, In a A -> In b A -> sameContour m a x -> sameContour m b x -> a = b).
  { intros a b x Ha Hb Hax Hbx. apply HinA in Ha as (l & f & Hf & Ha). apply HinA in Hb as (l' & f' & Hf' & Hb).
    destruct (P3 l f a x Hf Ha Hax) as [Hx _]. destruct (P1 x Hx) as (l0 & f0 & a0 & _ & Hf0 & _ & _ & Hu & Hl).
    pose proof (Hl l f a Hf Ha Hax) as E1. pose proof (Hl l' f' b Hf' Hb Hbx) as E2. rewrite E1 in Hf. rewrite E2 in Hf'.
    apply isFace_iff in Hf. apply isFace_iff in Hf'. apply isFace_iff in Hf0. assert (f = f0) by congruence. assert (f' = f0) by congruence. subst f f'.
    rewrite (Hu a Ha Hax), (Hu b Hb Hbx). reflexivity. }
  assert (Ex : forall A', (forall a, In a A' -> In a A) -> exists Ls bs, Forall2 (contourWalk m) A' Ls /\ Forall2 (contourHas m p) A' bs /\
     fold_right xorb false bs = Z.odd (sumZ (cz m p) (concat Ls))).
  { induction A' as [|a A' IH]; intros Hsub; [exists [], []; repeat split; constructor|].
    destruct IH as (Ls & bs & F1 & F2 & E); [intros; apply Hsub; right; assumption|].
    destruct (contour_has m p a H (Hdart a (Hsub a (or_introl eq_refl)))) as (L & W & Hh).
    exists (L :: Ls), (dparAll m p L :: bs). split; [constructor; assumption|]. split; [constructor; assumption|].
    cbn [fold_right concat]. rewrite E, sumZ_app, Z.odd_add, dparAll_odd. reflexivity. }
  destruct (Ex A (fun a Ha => Ha)) as (Ls & bs & F1 & F2 & E). exists bs. split; [exact F2|]. rewrite E.
  assert (Hcat : forall x, In x (concat Ls) <-> In x (darts m)).
  { intros x. rewrite <- isDart_iff. split.
    - intros Hx. apply in_concat in Hx as (L & HL & Hx).
      assert (K : exists a, In a A /\ contourWalk m a L) by (clear -F1 HL; induction F1 as [|a L0 A Ls W F IH]; [destruct HL|]; destruct HL as [<-|HL]; [exists a; split; [left; reflexivity | exact W] | destruct (IH HL) as (b & Hb & Wb); exists b; split; [right; exact Hb | exact Wb]]).
      destruct K as (a & Ha & W). apply HinA in Ha as (l & f & Hf & Ha). apply (P3 l f a x Hf Ha). apply W, Hx.
    - intros Hx. destruct (P1 x Hx) as (l & f & a & _ & Hf & Ha & Hc & _).
      assert (HaA : In a A) by (apply HinA; eauto).
      assert (K : exists L, In L Ls /\ contourWalk m a L) by (clear -F1 HaA; induction F1 as [|b L0 A Ls W F IH]; [destruct HaA|]; destruct HaA as [<-|HaA]; [exists L0; split; [left; reflexivity | exact W] | destruct (IH HaA) as (L & HL & WL); exists L; split; [right; exact HL | exact WL]]).
      destruct K as (L & HL & W). apply in_concat. exists L. split; [exact HL|]. apply W, Hc. }
  assert (Ncat : NoDup (concat Ls)).
  { assert (G : forall A' Ls', Forall2 (contourWalk m) A' Ls' -> NoDup A' -> (forall a, In a A' -> In a A) -> NoDup (concat Ls')).
    { induction 1 as [|a L A' Ls' W F IH]; intros HN Hsub; [constructor|]. inversion HN as [|? ? Hna HN']; subst. cbn [concat].
      apply NoDup_app_intro; [apply W | apply IH; [exact HN' | intros; apply Hsub; right; assumption]|].
      intros x Hx Hy. apply in_concat in Hy as (L' & HL' & Hy).
      assert (K : exists b, In b A' /\ contourWalk m b L') by (clear -F HL'; induction F as [|a L0 A Ls W F IH]; [destruct HL'|]; destruct HL' as [<-|HL]; [exists a; split; [left; reflexivity | exact W] | destruct (IH HL) as (b & Hb & Wb); exists b; split; [right; exact Hb | exact Wb]]).
      destruct K as (b & Hb & W'). apply Hna. rewrite (Sep a b x); [exact Hb | apply Hsub; left; reflexivity | apply Hsub; right; exact Hb | apply W, Hx | apply W', Hy]. }
    apply (G A Ls F1 NA). auto. }
  rewrite (sumZ_perm (cz m p) (concat Ls) (darts m)) by (apply NoDup_Permutation; [exact Ncat | apply nodup_darts | exact Hcat]).
  unfold darts. rewrite sumZ_app, sumZ_map.
  assert (Hs : sumZ (fun x => cz m p (- x)) (elabs m) = sumZ (cz m p) (elabs m)).
  { assert (Hnz : forall x, In x (elabs m) -> x <> 0).
    { intros x Hx. apply (si_nz _ _ (sv_si _ (Inv_SInv m (history_Inv _ m H)))). unfold darts. apply in_app_iff. left. exact Hx. }
    revert Hnz. clear. induction (elabs m) as [|x t IH]; intros Hnz; [reflexivity|]. cbn [sumZ]. rewrite IH by (intros; apply Hnz; right; assumption).
    unfold cz. rewrite dpar_opp by (apply Hnz; left; reflexivity). reflexivity. }
  rewrite Hs, Z.odd_add, xorb_nilpotent. reflexivity.
Qed.
