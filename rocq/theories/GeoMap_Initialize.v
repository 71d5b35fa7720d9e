(** initializeMap establishes the map invariant on a planar drawing. *)
From Verif Require Import Base Orbit GraphRank Euler Links FaceInv Conj
  GeoMap_Model GeoMap_Views GeoMap_SInv GeoMap_Remove GeoMap_MergeEdges GeoMap_Loops GeoMap_MInv GeoMap_MergeFaces
  GeoMap_Area GeoMap_Init GeoMap_Embed.
Local Open Scope Z_scope.

(** twice the signed area enclosed by the contour through [a] *)
Definition carea m a : Z := sumZ (raw m) (filter (fun x => reachb (darts m) (phi m) a x) (darts m)).

(** The graph is drawn in the plane: Euler's formula holds and every connected
    component has at most one contour that is not traversed counterclockwise. *)
Record drawn m : Prop := {
  dr_planar : exists R, reps (phi m) (darts m) R /\
      Z.of_nat (length R) + 2 * Z.of_nat (rank (Gm m)) = sumf busy (nodes m) + sumf alive (edges m);
  dr_ext : forall a b, In a (darts m) -> In b (darts m) -> carea m a <= 0 -> carea m b <= 0 ->
      conn (Gm m) (stt m a) (stt m b) -> reach (phi m) a b }.

(** std::sort's contract for the order of the contours *)
Definition sort_ok eps m ord : Prop :=
  Permutation ord (seq 1 (length (faces m) - 1)) /\
  forall A B, ord = A ++ B -> forall p e, In p A -> In e B -> absBefore eps (faceSum m e) (faceSum m p) = false.

Definition par_ok (par : gmap -> Z -> nat) : Prop := forall m a, fAt m 0 <> None -> fAt m (par m a) <> None.

Lemma carea_sum m a L : SI m (darts m) -> In a (darts m) -> NoDup L -> (forall y, In y L <-> reach (phi m) a y) ->
  carea m a = sumZ (raw m) L.
Proof.
  intros HS Ha HL HLr. pose proof (phi_perm m HS) as HP. unfold carea. apply sumZ_perm, NoDup_Permutation; auto.
  - apply NoDup_filter, nodup_darts.
  - intros x. rewrite filter_In, HLr. split.
    + intros [_ E]. apply (reachb_spec _ _ _ HP) in E; auto.
    + intros Hr. split; [apply (reach_in _ _ _ HP a); auto | apply (reachb_spec _ _ _ HP); auto].
Qed.

(** ** Area caches *)
Lemma cacheAreas_spec m ls : SInv m -> FIm m -> (forall l, In l ls -> fAt m l <> None) ->
  exists m', cacheAreas m ls = Ok m' /\ cached m m' /\
    (forall l, In l ls -> exists f v, fAt m' l = Some f /\ farea f = Some v).
Proof.
  intros V F. revert m V F. induction ls as [|l t IH]; intros m V F Hl.
  - exists m. split; [reflexivity|]. split; [apply cached_refl | intros l []].
  - cbn [cacheAreas]. destruct (fAt m l) as [f|] eqn:Ef; [|exfalso; apply (Hl l); [left; reflexivity | assumption]].
    destruct (faceArea_spec m l f V F Ef) as (m1 & v & -> & C1 & (f1 & Ef1 & Ea1) & _). cbn [bind fst].
    destruct (IH m1 (cached_SInv _ _ C1 V) (cached_FI _ _ C1 F)) as (m' & R & C & H).
    { intros k Hk E. pose proof (ca_face _ _ C1 k) as K. rewrite E in K. destruct (fAt m k) eqn:Ek; [contradiction|].
      apply (Hl k); [right|]; assumption. }
    exists m'. split; [assumption|]. split; [apply (cached_trans _ m1); assumption|].
    intros k [<-|Hk]; [|auto]. pose proof (ca_face _ _ C l) as K. rewrite Ef1 in K.
    destruct (fAt m' l) as [f'|]; [|contradiction]. destruct K as (_ & _ & [K|(K & _)]); [|congruence].
    exists f', v. split; [reflexivity | congruence].
Qed.

Lemma getFaces_spec m (g : nat -> face) ls : (forall l, In l ls -> fAt m l = Some (g l)) ->
  getFaces m ls = Ok (map (fun l => (l, g l)) ls).
Proof.
  induction ls as [|l t IH]; intros H; [reflexivity|]. cbn [getFaces map].
  rewrite (deref_face _ _ _ (H l (or_introl eq_refl))). cbn [bind]. rewrite IH by (intros; apply H; right; assumption). reflexivity.
Qed.

Section Init.
  Variables (m0 : gmap) (eps : Z) (ord : list nat) (par : gmap -> Z -> nat).
  Hypothesis V0 : SInv m0.
  Hypothesis Hf0 : faces m0 = [].
  Hypothesis Hsorted : sorted m0 = true.
  Hypothesis Hlf : forall x, In x (darts m0) -> lft m0 x = None.
  Hypothesis Hdr : drawn m0.
  Hypothesis Heps : 1 <= eps.
  Hypothesis Hsort : forall m1, initContours m0 = Ok m1 -> sort_ok eps m1 ord.
  Hypothesis Hpar : par_ok par.

  Theorem initializeMap_spec : exists m', initializeMap ord par m0 = Ok m' /\ relF m0 m' /\ MInv m' /\
    (forall l f v, fAt m' l = Some f -> farea f = Some v -> v = faceSum m' l) /\
    (forall l f, fAt m' l = Some f -> l <> 0%nat -> exists a H, fanchors f = a :: H /\ 0 < carea m0 a /\
        forall h, In h H -> carea m0 h <= 0) /\
    (forall f, fAt m' 0 = Some f -> forall h, In h (fanchors f) -> carea m0 h <= 0) /\
    (forall l f, fAt m' l = Some f -> fflags f = 0%N) /\
    (exists f, fAt m' 0 = Some f /\ farea f = None).
  Proof.
    pose proof (phi_perm m0 (sv_si _ V0)) as HP.
    destruct (initContours_spec m0 V0 Hf0 Hlf) as (m1 & R1 & C1 & Hall).
    destruct (Hsort m1 R1) as [Hperm Hso].
    pose proof (CI_FI m0 m1 V0 C1 Hall) as F1.
    pose proof (ci_rel _ _ C1) as Rl1.
    pose proof (rf_SInv _ _ Rl1 V0 (CI_fc _ _ C1)) as V1.
    pose proof (CI_pos _ _ C1) as Hpos.
    set (n := length (faces m1)) in *.
    assert (Hord : forall l, In l ord <-> (0 < l < n)%nat).
    { intros l. split.
      - intros Hl. apply (Permutation_in _ Hperm) in Hl. apply in_seq in Hl. lia.
      - intros Hl. apply (Permutation_in _ (Permutation_sym Hperm)), in_seq. lia. }
    assert (Hnd : NoDup ord) by (apply (Permutation_NoDup (Permutation_sym Hperm)), seq_NoDup).
    set (an := fun l => match fAt m1 l with Some f => hd 0 (fanchors f) | None => 0 end).
    set (ar := faceSum m1).
    assert (HA : forall l, In l ord -> fAt m1 l = Some (mkFace [an l] None 0) /\ In (an l) (darts m0) /\
        forall x, In x (darts m0) -> (lft m1 x = Some l <-> reach (phi m0) (an l) x)).
    { intros l Hl. apply Hord in Hl. destruct (ci_faces _ _ C1 l Hl) as (a & E & K).
      assert (Ea : an l = a) by (unfold an; rewrite E; reflexivity). rewrite Ea. split; assumption. }
    assert (Har : forall l, In l ord -> forall L, NoDup L -> (forall y, In y L <-> reach (phi m0) (an l) y) -> ar l = sumZ (raw m0) L).
    { intros l Hl L HL HLr. destruct (HA l Hl) as (_ & HaD & K). unfold ar, faceSum. rewrite (rf_darts _ _ Rl1).
      rewrite (sumZ_ext (raw m1) (raw m0)) by (intros; apply rf_raw; assumption).
      apply sumZ_perm, NoDup_Permutation; auto; [apply NoDup_filter, nodup_darts|].
      intros x. rewrite filter_In, onFace_eq, HLr. split.
      - intros [Hx E]. apply K; assumption.
      - intros Hr. assert (Hx : In x (darts m0)) by (apply (reach_in _ _ _ HP (an l)); auto). split; [assumption|]. apply K; assumption. }
    assert (Hcar : forall l, In l ord -> carea m0 (an l) = ar l).
    { intros l Hl. symmetry. apply (Har l Hl); [apply NoDup_filter, nodup_darts|]. destruct (HA l Hl) as (_ & HaD & _).
      intros y. rewrite filter_In. split.
      - intros [_ E]. apply (reachb_spec _ _ _ HP) in E; auto.
      - intros Hr. split; [apply (reach_in _ _ _ HP (an l)); auto | apply (reachb_spec _ _ _ HP); auto]. }
    assert (Hcov : forall x, In x (darts m0) -> exists l, In l ord /\ reach (phi m0) (an l) x).
    { intros x Hx. destruct (lft m1 x) as [l|] eqn:E; [|exfalso; apply (Hall x Hx E)].
      assert (Hl : In l ord) by (apply Hord, (ci_lab _ _ C1 x l Hx E)). exists l. split; [assumption|].
      apply (HA l Hl); assumption. }
    assert (Hsep : forall l l', In l ord -> In l' ord -> reach (phi m0) (an l) (an l') -> l = l').
    { intros l l' Hl Hl' Hr. destruct (HA l Hl) as (_ & _ & K). destruct (HA l' Hl') as (_ & HaD' & K').
      apply K in Hr; auto. assert (lft m1 (an l') = Some l') by (apply K'; [assumption | apply reach_refl]). congruence. }
    assert (Han : forall l, In l ord -> In (an l) (darts m0)) by (intros l Hl; apply HA; assumption).
    assert (Hext : forall l l', In l ord -> In l' ord -> ar l <= 0 -> ar l' <= 0 ->
        conn (Gm m0) (stt m0 (an l)) (stt m0 (an l')) -> l = l').
    { intros l l' Hl Hl' H1 H2 Hc. apply Hsep; auto. apply (dr_ext _ Hdr); auto; rewrite Hcar; auto. }
    (* the area caches *)
    destruct (cacheAreas_spec m1 (seq 1 (n - 1)) V1 F1) as (m2 & R2 & C2 & H2).
    { intros l Hl. apply in_seq in Hl. assert (Hlo : In l ord) by (apply Hord; lia). destruct (HA l Hlo) as (-> & _). discriminate. }
    assert (Hf2 : forall l, In l ord -> fAt m2 l = Some (mkFace [an l] (Some (ar l)) 0)).
    { intros l Hl. destruct (HA l Hl) as (E1 & HaD & K).
      destruct (H2 l) as (f & v & E2 & E3); [apply Hord in Hl; apply in_seq; lia|].
      pose proof (ca_face _ _ C2 l) as Kc. rewrite E1, E2 in Kc. cbn [fanchors fflags farea] in Kc.
      destruct Kc as (K1 & K2 & [K3|(_ & w & K3 & K4)]); [congruence|].
      assert (w = v) by congruence. subst w. cbn [sumAreas] in K4.
      assert (HcA : contourArea m1 (an l) = Ok (ar l)).
      { assert (Es : ar l = sumZ (raw m1) (filter (onFace m1 l) (darts m1))) by reflexivity. rewrite Es.
        apply contourArea_raw.
        - apply V1.
        - rewrite (rf_darts _ _ Rl1); assumption.
        - apply NoDup_filter, nodup_darts.
        - intros y. rewrite filter_In, onFace_eq, (rf_darts _ _ Rl1), (rf_phi _ _ Rl1). split.
          + intros [Hy E]. apply K; assumption.
          + intros Hr. assert (Hy : In y (darts m0)) by (apply (reach_in _ _ _ HP (an l)); auto). split; [assumption|]. apply K; assumption.
        - rewrite (rf_phi _ _ Rl1). intros x Hr E. assert (Hx : In x (darts m0)) by (apply (reach_in _ _ _ HP (an l)); auto).
          apply K in Hr; auto. apply K; [apply darts_opp; assumption | congruence]. }
      rewrite HcA in K4. cbn [bind] in K4. rewrite Z.add_0_r in K4. injection K4 as <-.
      rewrite E2. destruct f as [fa fv ff]. cbn [fanchors farea fflags] in *. congruence. }
    assert (Hf20 : fAt m2 0 = Some (mkFace [] None 0)).
    { assert (Hseq : ~ In 0%nat (seq 1 (n - 1))) by (rewrite in_seq; lia).
      clear -R2 Hseq C1. assert (E0 : fAt m1 0 = Some (mkFace [] None 0)) by apply C1. clear C1.
      assert (Hg : forall ls m, ~ In 0%nat ls -> fAt m 0 = Some (mkFace [] None 0) -> forall m', cacheAreas m ls = Ok m' -> fAt m' 0 = Some (mkFace [] None 0)).
      { clear. induction ls as [|l t IH]; intros m Hn E m' R; [injection R as <-; assumption|].
        cbn [cacheAreas] in R. destruct (faceArea m l) as [[m1 v]| | |] eqn:Ea; cbn [bind fst] in R; try discriminate.
        apply (IH m1) with (m' := m'); auto; [intros Hi; apply Hn; right; assumption|].
        unfold faceArea in Ea. destruct (deref (faceP m l)) as [f| | |]; cbn [bind] in Ea; try discriminate.
        destruct (farea f); [injection Ea as <- _; assumption|].
        destruct (sumAreas m (fanchors f)); cbn [bind] in Ea; try discriminate. injection Ea as <- _.
        unfold fAt, putF. cbn [faces set_faces]. rewrite tget_upd_neq; [assumption|]. intros ->. apply Hn; left; reflexivity. }
      apply (Hg _ m1 Hseq E0 m2 R2). }
    assert (Hlen2 : length (faces m2) = n) by apply C2.
    assert (Rl2 : relF m0 m2).
    { apply (relF_trans _ m1); auto. rewrite (ca_eq _ _ C2). constructor; try reflexivity.
      intros j. change (eAt (set_faces m1 (faces m2)) j) with (eAt m1 j). destruct (eAt m1 j); auto. }
    set (m3 := set_faces m2 (firstn 1 (faces m2) ++ repeat None (length (faces m2) - 1))).
    assert (Hfs3 : faces m3 = [Some (mkFace [] None 0)] ++ repeat None (n - 1)).
    { unfold m3. cbn [faces set_faces]. rewrite Hlen2. f_equal. unfold fAt, tget in Hf20.
      destruct (faces m2) as [|o fs]; [discriminate|]. cbn in Hf20. subst o. reflexivity. }
    assert (HfA3 : forall j, fAt m3 j = if Nat.eqb j 0 then Some (mkFace [] None 0) else None).
    { intros j. unfold fAt. rewrite Hfs3, tget_repeat. destruct j as [|[|j]]; reflexivity. }
    assert (Rl3 : relF m0 m3) by (destruct Rl2; constructor; assumption).
    assert (Hl3 : forall x, lft m3 x = lft m1 x) by (intros x; change (lft m3 x) with (lft m2 x); apply (cached_views _ _ C2)).
    assert (I3 : EI m0 n an ar m3 [] ord).
    { constructor.
      - exact Rl3.
      - rewrite Hfs3, app_length, repeat_length. cbn [length]. lia.
      - pose proof F1 as F1'. unfold FIm in F1'. rewrite (rf_darts _ _ Rl1), (rf_phi _ _ Rl1) in F1'.
        apply (FI_F_ext _ _ (lft m1) (lft m3) (fanch m1)); auto; [apply HP|].
        intros l. destruct (in_dec Nat.eq_dec l ord) as [Hl|Hl].
        + rewrite vF_in by assumption. unfold fanch. destruct (HA l Hl) as (-> & _). reflexivity.
        + rewrite vF_out by assumption. unfold fanch. rewrite HfA3. destruct (Nat.eqb_spec l 0) as [->|N].
          * rewrite (ci_f0 _ _ C1). reflexivity.
          * assert (E : fAt m1 l = None) by (apply tget_ge; fold n; rewrite Hord in Hl; lia). rewrite E. reflexivity.
      - intros l Hl. rewrite HfA3. apply Hord in Hl. destruct (Nat.eqb_spec l 0); [lia | reflexivity].
      - intros l [].
      - exists (mkFace [] None 0). rewrite HfA3. auto.
      - intros p f. rewrite HfA3. destruct (Nat.eqb p 0) eqn:Ep; [|discriminate]. intros E; injection E as <-.
        exists []. split; [reflexivity | intros h []].
      - intros p f. rewrite HfA3. destruct (Nat.eqb_spec p 0); [contradiction | discriminate].
      - intros p f v. rewrite HfA3. destruct (Nat.eqb p 0); [|discriminate]. intros E; injection E as <-. discriminate.
      - unfold lk. rewrite Hfs3, tmap_app.
        assert (E : forall k, tmap (fun f => star (map (stt m0) (fanchors f))) (repeat (@None face) k) = []) by (induction k; [reflexivity | assumption]).
        rewrite E. unfold indep. reflexivity.
      - intros v Hv. exfalso. unfold lk in Hv. rewrite Hfs3, tmap_app in Hv.
        assert (E : forall k, tmap (fun f => star (map (stt m0) (fanchors f))) (repeat (@None face) k) = []) by (induction k; [reflexivity | assumption]).
        rewrite E in Hv. destruct Hv.
      - rewrite Hfs3, sumf_app, sumf_repeat by reflexivity. reflexivity.
      - rewrite Hfs3, sumf_app, sumf_repeat by reflexivity. unfold m3. cbn [faceCount set_faces].
        assert (E : faceCount m2 = faceCount m1) by apply (cached_same _ _ C2). rewrite E, (ci_fc _ _ C1).
        fold n. rewrite (Permutation_length Hperm), seq_length. fold n. cbn [sumf alive length]. lia.
      - intros p f. rewrite HfA3. destruct (Nat.eqb p 0); [|discriminate]. intros E; injection E as <-. reflexivity.
      - rewrite Hfs3, sumf_app, sumf_repeat by reflexivity. reflexivity. }
    destruct (embedLoop_EI m0 n an ar ord eps V0 Hnd Hord Han Hcov Hsep Har Heps Hext Hso par Hpar ord m3 [] eq_refl I3) as (m' & R' & I').
    exists m'. split.
    { unfold initializeMap. rewrite Hf0, Hsorted. cbn [length Nat.eqb negb bind]. rewrite R1. cbn [bind]. unfold embedFaces. fold n. rewrite R2.
      cbn [bind]. rewrite (getFaces_spec m2 (fun l => mkFace [an l] (Some (ar l)) 0) ord Hf2). cbn [bind]. cbv zeta.
      fold m3. exact R'. }
    pose proof (ei_rel _ _ _ _ _ _ _ I') as Rl'.
    split; [exact Rl'|].
    assert (Hlks : links m' = lk m0 (faces m')).
    { unfold links, lk. apply tmap_ext. intros; f_equal. apply map_ext. intros; apply (rf_stt _ _ Rl'). }
    assert (Hplan : sumf ncont (faces m') + 2 * Z.of_nat (rank (Gm m0)) = sumf busy (nodes m0) + sumf alive (edges m0)).
    { destruct (dr_planar _ Hdr) as (R & HR & <-). rewrite (ei_cnt _ _ _ _ _ _ _ I'). f_equal. f_equal.
      assert (HR' : reps (phi m0) (darts m0) (map an ord)).
      { constructor.
        - assert (Hinj : forall l l', In l ord -> In l' ord -> an l = an l' -> l = l').
          { intros l l' Hl Hl' E. apply Hsep; auto. rewrite E. apply reach_refl. }
          clear -Hnd Hinj. induction ord as [|l t IH]; [constructor|]. inversion Hnd; subst. cbn [map]. constructor.
          + intros Hi. apply in_map_iff in Hi as (k & E & Hk). apply H1. rewrite (Hinj l k); simpl; auto.
          + apply IH; auto. intros; apply Hinj; simpl; auto.
        - intros a Ha. apply in_map_iff in Ha as (l & <- & Hl). apply Han; assumption.
        - intros x Hx. destruct (Hcov x Hx) as (l & Hl & Hr). exists (an l). split; [apply in_map; assumption | assumption].
        - intros a b Ha Hb Hr. apply in_map_iff in Ha as (l & <- & Hl). apply in_map_iff in Hb as (l' & <- & Hl').
          f_equal. apply Hsep; assumption. }
      rewrite <- (map_length an ord). eapply reps_unique; eassumption. }
    assert (Halive : sumf alive (edges m') = sumf alive (edges m0)).
    { rewrite <- (sv_ec _ V0), <- (rf_ec _ _ Rl'). symmetry. rewrite (rf_ec _ _ Rl'), (sv_ec _ V0).
      apply sumf_tgets; [reflexivity | symmetry; apply Rl'|].
      intros j. pose proof (rf_edge _ _ Rl' j) as K. unfold eAt in K.
      destruct (tget (edges m0) j), (tget (edges m') j); try contradiction; reflexivity. }
    split.
    { constructor.
      - apply (rf_SInv m0); auto. rewrite (ei_fc _ _ _ _ _ _ _ I'). cbn [length]. lia.
      - unfold FIm. rewrite (rf_darts _ _ Rl'), (rf_phi _ _ Rl').
        apply (FI_F_ext _ _ (lft m') (lft m') (vF an [] m')); auto; [apply HP | apply I'].
      - destruct (ei_0 _ _ _ _ _ _ _ I') as (f & -> & _). discriminate.
      - rewrite (rf_Gm _ _ Rl'), (rf_nodes _ _ Rl'), Halive. exact Hplan.
      - rewrite Hlks, (rf_Gm _ _ Rl'). apply I'.
      - rewrite (rf_Gm _ _ Rl'), Halive.
        (* exterior contours and components *)
        set (VN := map (stt m0) (nanchors m0)).
        pose proof (reps_nanchors m0 V0) as RN.
        assert (HVin : forall d, In d (darts m0) -> In (stt m0 d) VN).
        { intros d Hd. destruct (reps_cover _ _ _ RN d Hd) as (a & Ha & Hr).
          apply (SI_orbit m0 (darts m0) a d (sv_si _ V0) (reps_incl _ _ _ RN a Ha) Hd) in Hr. rewrite <- Hr. apply in_map; assumption. }
        assert (HVN : NoDup VN).
        { assert (Hinj : forall a b, In a (nanchors m0) -> In b (nanchors m0) -> stt m0 a = stt m0 b -> a = b).
          { intros a b Ha Hb E. apply (reps_sep _ _ _ RN); auto.
            apply (SI_orbit m0 (darts m0) a b (sv_si _ V0) (reps_incl _ _ _ RN a Ha) (reps_incl _ _ _ RN b Hb)). assumption. }
          unfold VN. pose proof (reps_nodup _ _ _ RN) as Hn. clear -Hn Hinj. induction (nanchors m0) as [|a t IH]; [constructor|].
          inversion Hn; subst. cbn [map]. constructor.
          - intros Hi. apply in_map_iff in Hi as (k & E & Hk). apply H1. rewrite (Hinj a k); simpl; auto.
          - apply IH; auto. intros; apply Hinj; simpl; auto. }
        assert (HGV : incl (verts (Gm m0)) VN).
        { intros v Hv. apply verts_in in Hv as (x & y & Hxy & Hv). unfold Gm, pairs in Hxy. apply in_map_iff in Hxy as (d & E & Hd).
          injection E as <- <-. assert (HdD : In d (darts m0)) by (unfold darts; apply in_or_app; auto).
          destruct Hv as [->| ->]; apply HVin; [|apply darts_opp]; assumption. }
        destruct (comps_count (Gm m0) VN HVN HGV) as (R & HR & HRl).
        set (X := filter (fun l => negb (0 <? ar l)) ord).
        assert (HX : forall l, In l X <-> In l ord /\ ar l <= 0).
        { intros l. unfold X. rewrite filter_In. destruct (Z.ltb_spec 0 (ar l)); cbn; intuition; try discriminate; lia. }
        assert (HRX : creps (Gm m0) VN (map (fun l => stt m0 (an l)) X)).
        { constructor.
          - assert (Hinj : forall l l', In l X -> In l' X -> stt m0 (an l) = stt m0 (an l') -> l = l').
            { intros l l' Hl Hl' E. apply HX in Hl as [Hl Hl2]. apply HX in Hl' as [Hl' Hl2'].
              apply Hext; auto. rewrite E. apply conn_refl. }
            assert (HnX : NoDup X) by (apply NoDup_filter; assumption).
            clear -HnX Hinj. induction X as [|l t IH]; [constructor|]. inversion HnX; subst. cbn [map]. constructor.
            + intros Hi. apply in_map_iff in Hi as (k & E & Hk). apply H1. rewrite (Hinj l k); simpl; auto.
            + apply IH; auto. intros; apply Hinj; simpl; auto.
          - intros v Hv. apply in_map_iff in Hv as (l & <- & Hl). apply HX in Hl as [Hl _]. apply HVin, Han; assumption.
          - intros v Hv. unfold VN in Hv. apply in_map_iff in Hv as (d & <- & Hd). apply (reps_incl _ _ _ RN) in Hd.
            destruct (Hcov d Hd) as (l & Hl & Hr).
            assert (Hcl : conn (Gm m0) (stt m0 (an l)) (stt m0 d)) by (apply phi_conn_m; auto).
            destruct (Z.le_gt_cases (ar l) 0) as [Hle|Hgt].
            + exists (stt m0 (an l)). split; [apply in_map_iff; exists l; split; [reflexivity | apply HX; auto] | assumption].
            + destruct (ext_of m0 an ar ord V0 Hnd Han Hcov Hsep Har Hext l Hl) as (e & He & He2 & Hce & _); [lia|].
              exists (stt m0 (an e)). split; [apply in_map_iff; exists e; split; [reflexivity | apply HX; auto]|].
              apply (conn_trans _ _ (stt m0 (an l))); [apply conn_sym|]; assumption.
          - intros r s Hr Hs Hc. apply in_map_iff in Hr as (l & <- & Hl). apply in_map_iff in Hs as (l' & <- & Hl').
            apply HX in Hl as [Hl Hl2]. apply HX in Hl' as [Hl' Hl2']. rewrite (Hext l l'); auto. }
        pose proof (creps_unique _ _ _ _ HR HRX) as HRlen. rewrite map_length in HRlen.
        assert (HVl : Z.of_nat (length VN) = sumf busy (nodes m0)) by (unfold VN; rewrite map_length; apply length_nanchors).
        rewrite (ei_alive _ _ _ _ _ _ _ I'). rewrite (ei_cnt _ _ _ _ _ _ _ I') in Hplan.
        assert (Hsplit : (length (filter (fun l => (0 <? ar l)%Z) ord) + length X = length ord)%nat).
        { unfold X. clear. induction ord as [|l t IH]; [reflexivity|]. cbn [filter]. destruct (0 <? ar l); cbn [negb length]; lia. }
        lia. }
    assert (Hhole : forall h, (exists l, In l ord /\ ar l <= 0 /\ h = an l) -> carea m0 h <= 0).
    { intros h (l & Hl & Hle & ->). rewrite Hcar; assumption. }
    split; [intros; eapply (ei_area _ _ _ _ _ _ _ I'); eassumption|].
    split; [|split; [|split]].
    - intros l f Hf Hl. destruct (ei_anch _ _ _ _ _ _ _ I' l f Hf) as (H & E1 & E2).
      destruct (Nat.eqb_spec l 0); [contradiction|]. destruct (ei_int _ _ _ _ _ _ _ I' l f Hf Hl) as [Hlo Hp].
      exists (an l), H. split; [assumption|]. split; [rewrite Hcar; assumption|]. intros h Hh. apply Hhole, E2; assumption.
    - intros f Hf h Hh. destruct (ei_anch _ _ _ _ _ _ _ I' 0%nat f Hf) as (H & E1 & E2). cbn in E1. rewrite E1 in Hh. apply Hhole, E2; assumption.
    - intros; eapply (ei_flag _ _ _ _ _ _ _ I'); eassumption.
    - apply I'.
  Qed.
End Init.
