(** mergeFacesCompletely: the common darts are found, removed one by one, and the nodes left over are tidied up. *)
From Verif Require Import Base Orbit GraphRank Euler Links FaceInv Conj
  GeoMap_Model GeoMap_Views GeoMap_SInv GeoMap_Remove GeoMap_MergeEdges GeoMap_SplitEdge GeoMap_Loops GeoMap_MInv
  GeoMap_Gone GeoMap_Bridge GeoMap_MergeFaces GeoMap_Subdiv GeoMap_Init GeoMap_Area GeoMap_Embed GeoMap_Initialize GeoMap_Sort GeoMap_Flags
  GeoMap_History GeoMap_Geometry GeoMap_AreaInv GeoMap_Spec GeoMap_Facts GeoMap_Results GeoMap_Results2 GeoMap_Results4
  Utils_Model Utils_Spec Utils_Bridges Utils_Results Utils_Protect Utils_Trace Utils_Nodes.
Local Open Scope Z_scope.

(** ** Finding the common darts *)

Definition comb m (right : option nat) (x : Z) : bool := optnat_eqb (lft m (- x)) right.
Definition protb m (x : Z) : bool := match eAt m (elab x) with Some e => hasFlag e ALL_PROTECTION | None => false end.

Lemma seq_cons k n : (k < n)%nat -> seq k (n - k) = k :: seq (S k) (n - S k).
Proof. intros H. replace (n - k)%nat with (S (n - S k)) by lia. reflexivity. Qed.

Lemma collect_ok m a N right : SI m (darts m) -> In a (darts m) -> per (phi m) a N ->
  forall n k acc, (k < N)%nat -> (N - k <= n)%nat ->
  let C := filter (comb m right) (map (fun i => iter i (phi m) a) (seq k (N - k))) in
  collectCommon n m a (iter k (phi m) a) right acc = Ok (if existsb (protb m) C then None else Some (acc ++ C)).
Proof.
  intros S Ha HN. induction n as [|n IH]; intros k acc Hk Hn; [lia|]. cbv zeta. cbn [collectCommon].
  set (x := iter k (phi m) a). assert (Hx : In x (darts m)) by (apply (iter_in _ _ _ (phi_perm m S)); assumption).
  destruct (live_edge m x Hx) as (e & He). rewrite (gEdge_Ok _ _ _ He). cbn [bind]. rewrite (proj2 (lft_eq m x e He)).
  rewrite (nextPhi_Ok m x S Hx). cbn [bind].
  rewrite (seq_cons k N Hk). cbn [map filter]. fold x. change (phi m x) with (iter (Datatypes.S k) (phi m) a).
  fold (comb m right x). assert (Ep : protb m x = hasFlag e ALL_PROTECTION) by (unfold protb; rewrite He; reflexivity).
  assert (Last : (iter (Datatypes.S k) (phi m) a =? a) = Nat.eqb (Datatypes.S k) N).
  { destruct (Nat.eqb_spec (Datatypes.S k) N) as [->|E]; [apply Z.eqb_eq, HN|]. apply Z.eqb_neq. apply (pe_min _ _ _ HN). lia. }
  rewrite Last. destruct (comb m right x) eqn:Ec; cbn [andb existsb].
  - rewrite Ep. destruct (hasFlag e ALL_PROTECTION); [reflexivity|]. cbn [orb].
    destruct (Nat.eqb_spec (Datatypes.S k) N) as [E|E].
    + subst N. rewrite Nat.sub_diag. reflexivity.
    + rewrite IH by lia. destruct (existsb _ _); [reflexivity|]. rewrite <- app_assoc. reflexivity.
  - destruct (Nat.eqb_spec (Datatypes.S k) N) as [E|E].
    + subst N. rewrite Nat.sub_diag. cbn [seq map filter existsb]. rewrite app_nil_r. reflexivity.
    + rewrite IH by lia. reflexivity.
Qed.

(** the list of common darts of [a] *)
Definition isCommon m a x : Prop := reach (phi m) a x /\ lft m (- x) = lft m (- a).

Lemma collect_spec m a : MInv m -> In a (darts m) -> lft m a <> lft m (- a) ->
  exists ds o, collectCommon (fuel m) m a a (lft m (- a)) [] = Ok o /\
    (forall x, In x ds <-> isCommon m a x) /\ NoDup (map elab ds) /\ ds <> [] /\
    ((o = None /\ exists x e, In x ds /\ eAt m (elab x) = Some e /\ hasFlag e ALL_PROTECTION = true) \/
     (o = Some ds /\ forall x e, In x ds -> eAt m (elab x) = Some e -> hasFlag e ALL_PROTECTION = false)).
Proof.
  intros M Ha Hne. pose proof (sv_si _ (mi_v _ M)) as S. pose proof (phi_perm m S) as HP. pose proof (mi_f _ M) as F.
  destruct (min_period _ _ _ a HP Ha) as (N & HN & HL).
  set (ds := filter (comb m (lft m (- a))) (orb (phi m) a N)).
  assert (Hin : forall x, In x ds <-> isCommon m a x).
  { intros x. unfold ds. rewrite filter_In, (orb_in (phi m) a N HN). unfold comb. rewrite optnat_eqb_eq. reflexivity. }
  assert (Hlx : forall x, reach (phi m) a x -> In x (darts m) /\ lft m x = lft m a).
  { apply reach_ind_r; [auto|]. intros y _ (Hy & E). split; [apply (HP y Hy)|]. rewrite (fi_phi _ _ _ _ F y Hy). assumption. }
  pose proof (collect_ok m a N (lft m (- a)) S Ha HN (fuel m) 0%nat [] (pe_pos _ _ _ HN)) as E. rewrite Nat.sub_0_r in E.
  exists ds, (if existsb (protb m) ds then None else Some ds). split; [apply E; pose proof (fuel_darts m); lia|].
  split; [exact Hin|]. split; [|split].
  - assert (Nd : NoDup ds) by (apply NoDup_filter, (orb_nodup (darts m) (phi m) _ a N HP Ha HN)).
    assert (Hs : forall x, In x ds -> reach (phi m) a x /\ lft m (- x) = lft m (- a)) by (intros x; apply Hin).
    clearbody ds. clear E Hin. induction Nd as [|x t Hni Nd IH]; [constructor|]. cbn [map]. constructor; [|apply IH; intros; apply Hs; right; assumption].
    intros K. apply in_map_iff in K as (y & K & Hy). apply elab_eq in K as [->| ->]; [contradiction|].
    destruct (Hs x (or_introl eq_refl)) as (R1 & L1). destruct (Hs (- x) (or_intror Hy)) as (R2 & L2).
    destruct (Hlx _ R2) as (_ & L3). congruence.
  - assert (K : In a ds) by (apply Hin; split; [apply reach_refl | reflexivity]). intros E0. rewrite E0 in K. contradiction.
  - destruct (existsb (protb m) ds) eqn:Ex.
    + left. split; [reflexivity|]. apply existsb_exists in Ex as (x & Hx & Px). unfold protb in Px.
      destruct (eAt m (elab x)) as [e|] eqn:Ee; [|discriminate]. eauto.
    + right. split; [reflexivity|]. intros x e Hx Ee. destruct (hasFlag e ALL_PROTECTION) eqn:Ef; [|reflexivity].
      assert (K : existsb (protb m) ds = true) by (apply existsb_exists; exists x; split; [assumption|]; unfold protb; rewrite Ee; assumption). congruence.
Qed.

(** ** Removing them *)

Record mrel (D : nat -> Prop) m m' : Prop := {
  mr_M : MInv m';
  mr_elen : length (edges m') = length (edges m);
  mr_nlen : length (nodes m') = length (nodes m);
  mr_flen : length (faces m') = length (faces m);
  mr_edge : forall j, match eAt m j, eAt m' j with
      | Some e, Some e' => estart e' = estart e /\ eend e' = eend e /\ epts e' = epts e /\ eflags e' = eflags e
      | Some _, None => D j
      | None, None => True
      | None, Some _ => False
      end }.
Lemma mrel_refl D m : MInv m -> mrel D m m.
Proof. intros M. constructor; auto. intros j. destruct (eAt m j); auto. Qed.
Lemma mrel_trans D a b c : mrel D a b -> mrel D b c -> mrel D a c.
Proof.
  intros X Y. constructor; [apply Y | rewrite (mr_elen _ _ _ Y); apply X | rewrite (mr_nlen _ _ _ Y); apply X | rewrite (mr_flen _ _ _ Y); apply X|].
  intros j. pose proof (mr_edge _ _ _ X j) as A. pose proof (mr_edge _ _ _ Y j) as B.
  destruct (eAt a j) as [e|], (eAt b j) as [e'|], (eAt c j) as [e''|]; try contradiction; auto.
  destruct A as (A1 & A2 & A3 & A4), B as (B1 & B2 & B3 & B4). repeat split; congruence.
Qed.
Lemma mrel_mono (D D' : nat -> Prop) m m' : (forall j, D j -> D' j) -> mrel D m m' -> mrel D' m m'.
Proof.
  intros H X. constructor; try apply X. intros j. pose proof (mr_edge _ _ _ X j) as A. destruct (eAt m j), (eAt m' j); auto.
Qed.
Lemma gone_mrel m d m' : EdgeGone m d m' -> length (faces m') = length (faces m) -> MInv m' -> mrel (fun j => j = elab d) m m'.
Proof.
  intros G Lf M'. constructor; [assumption | apply G | apply G | assumption|]. intros j. pose proof (eg_edge _ _ _ G j) as K.
  destruct (eAt m j), (eAt m' j); auto. tauto.
Qed.
Lemma cached_mrel D m mc : MInv m -> cached m mc -> mrel D m mc.
Proof.
  intros M C. destruct (cached_same _ _ C) as (E1 & E2 & _). constructor; [apply (cached_MInv m); assumption | congruence | congruence | apply (ca_len _ _ C)|].
  intros j. unfold eAt. rewrite E1. destruct (tget (edges m) j); auto.
Qed.
Lemma mrel_stt D m m' x : mrel D m m' -> eAt m' (elab x) <> None -> stt m' x = stt m x.
Proof.
  intros X H. pose proof (mr_edge _ _ _ X (elab x)) as K. unfold stt. destruct (eAt m' (elab x)) as [e'|]; [|contradiction].
  destruct (eAt m (elab x)) as [e|]; [|contradiction]. destruct K as (K1 & K2 & _). unfold e_st. rewrite K1, K2. reflexivity.
Qed.

Definition ends m (ds : list Z) : list nat := flat_map (fun x => [stt m x; stt m (- x)]) ds.
Lemma ends_ext D m m' ds : mrel D m m' -> (forall x, In x ds -> eAt m' (elab x) <> None) -> ends m' ds = ends m ds.
Proof.
  intros X H. unfold ends. rewrite !flat_map_concat_map. f_equal. apply map_ext_in. intros x Hx.
  rewrite !(mrel_stt D m m') by (rewrite ?elab_opp; auto). reflexivity.
Qed.

Lemma bridged_faces m d fl m' : Bridged m d fl m' -> liveFacesSame m m'.
Proof.
  intros B l. destruct (br_f _ _ _ _ B) as (f & pos & a & A & Hf & _ & _ & Hfs & _). unfold fAt in *. rewrite Hfs, tget_upd.
  pose proof (tget_lt _ _ _ Hf) as L. apply Nat.ltb_lt in L. rewrite L. destruct (Nat.eqb_spec fl l) as [<-|]; [|reflexivity]. rewrite Hf. split; discriminate.
Qed.

Lemma bridged_flen m d fl m' : Bridged m d fl m' -> length (faces m') = length (faces m).
Proof. intros B. destruct (br_f _ _ _ _ B) as (f & pos & a & A & _ & _ & _ & Hfs & _). rewrite Hfs. apply list_upd_length. Qed.

Lemma other_dart m d m' x : EdgeGone m d m' -> In x (darts m) -> elab x <> elab d -> In x (darts m').
Proof.
  intros G Hx N. apply (eg_darts _ _ _ G), in_rest. split; [assumption|]. split; intros ->; apply N; [reflexivity | apply elab_opp].
Qed.

Lemma bridgePhase hk f ds : forall m ns, MInv m -> NoDup (map elab ds) -> (forall x, In x ds -> In x (darts m) /\ lft m x = lft m (- x)) ->
  exists m', mergeCommon hk m ds (Some f) ns = Ok (m', Some f, ns ++ ends m ds) /\ mrel (fun j => In j (map elab ds)) m m' /\
    faceCount m' = faceCount m /\ liveFacesSame m m' /\ (acc hk -> forall x, In x ds -> eAt m' (elab x) = None).
Proof.
  induction ds as [|d t IH]; intros m ns M Nd Hd.
  { exists m. cbn. rewrite app_nil_r. split; [reflexivity|]. split; [apply mrel_refl; assumption|]. split; [reflexivity|]. split; [intros l; reflexivity | intros _ x []]. }
  cbn [map] in Nd. apply NoDup_cons_iff in Nd as [Ni Nd]. cbn [mergeCommon].
  destruct (Hd d (or_introl eq_refl)) as (Dd & El). rewrite (startLabel_Ok m d Dd), (endLabel_Ok m d Dd). cbn [bind]. cbv zeta.
  destruct (fi_cover _ _ _ _ (mi_f _ M) d Dd) as (fl & _ & _ & Hl & _).
  assert (Hne : forall x, In x t -> elab x <> elab d) by (intros x Hx K; apply Ni; rewrite <- K; apply in_map; assumption).
  assert (St : exists m1 r, removeBridge hk m d = Ok (m1, r) /\ mrel (fun j => j = elab d) m m1 /\ faceCount m1 = faceCount m /\ liveFacesSame m m1 /\
    (acc hk -> eAt m1 (elab d) = None) /\ (forall x, In x t -> In x (darts m1) /\ lft m1 x = lft m1 (- x))).
  { destruct (removeBridge_ok hk m d fl M Dd Hl) as ([m1 r] & Er & Hr); [congruence|]. cbn [fst snd] in Hr. exists m1, r. split; [assumption|].
    destruct Hr as [(Hk & _ & ->)|(Hk & _ & B & M1)].
    - split; [apply mrel_refl; assumption|]. split; [reflexivity|]. split; [intros l; reflexivity|]. split; [intros A; rewrite (A m d) in Hk; discriminate|].
      intros x Hx. apply Hd. right; assumption.
    - split; [apply gone_mrel; [apply B | apply (bridged_flen m d fl); assumption | assumption]|]. split; [apply B|]. split; [apply (bridged_faces m d fl); assumption|].
      split; [intros _; rewrite (br_edge _ _ _ _ B), Nat.eqb_refl; reflexivity|]. intros x Hx. destruct (Hd x (or_intror Hx)) as (Dx & Ex).
      assert (Dx1 : In x (darts m1)) by (apply (other_dart m d); [apply B | assumption | apply Hne; assumption]). split; [assumption|].
      unfold lft in *. rewrite !elab_opp in *. rewrite (br_edge _ _ _ _ B). destruct (Nat.eqb_spec (elab d) (elab x)) as [K|]; [exfalso; apply (Hne x Hx); congruence | assumption]. }
  destruct St as (m1 & r & Er & X & Fc & Fs & Ag & Rest). rewrite Er. cbn [bind fst].
  destruct (IH m1 (ns ++ [stt m d; stt m (- d)]) (mr_M _ _ _ X) Nd Rest) as (m' & E & X2 & Fc2 & Fs2 & Ag2).
  exists m'. rewrite E. split; [|split; [|split; [|split]]].
  - f_equal. f_equal. rewrite <- app_assoc. f_equal. rewrite (ends_ext _ m m1 t X) by (intros x Hx; destruct (Rest x Hx) as (K & _); apply in_darts in K; tauto). reflexivity.
  - apply (mrel_trans _ _ m1); [eapply mrel_mono; [|exact X]; intros j ->; left; reflexivity | eapply mrel_mono; [|exact X2]; intros j K; right; exact K].
  - congruence.
  - intros l. rewrite (Fs l). apply Fs2.
  - intros A x [<-|Hx]; [|apply Ag2; assumption]. pose proof (mr_edge _ _ _ X2 (elab d)) as K. rewrite (Ag A) in K. destruct (eAt m' (elab d)); [contradiction | reflexivity].
Qed.

Lemma facePhase hk L R ds : L <> R -> forall m ns, MInv m -> NoDup (map elab ds) ->
  (forall x, In x ds -> In x (darts m) /\ lft m x = Some L /\ lft m (- x) = Some R) ->
  exists m' s, mergeCommon hk m ds None ns = Ok (m', s, ns ++ ends m ds) /\ mrel (fun j => In j (map elab ds)) m m' /\
    match s with
    | None => faceCount m' = faceCount m /\ liveFacesSame m m' /\ ((forall m1 d, hkMergeFaces hk m1 d = true) -> ds = [])
    | Some s => exists mm, (s = L /\ mm = R \/ s = R /\ mm = L) /\ mm <> 0%nat /\ faceCount m' = faceCount m - 1 /\ fAt m' mm = None /\
                (forall l, l <> mm -> (fAt m l = None <-> fAt m' l = None)) /\
                ((forall m1 d, hkMergeFaces hk m1 d = true) -> acc hk -> forall x, In x ds -> eAt m' (elab x) = None)
    end.
Proof.
  intros HLR. induction ds as [|d t IH]; intros m ns M Nd Hd.
  { exists m, None. cbn. rewrite app_nil_r. split; [reflexivity|]. split; [apply mrel_refl; assumption|]. split; [reflexivity|]. split; [intros l; reflexivity | reflexivity]. }
  cbn [map] in Nd. apply NoDup_cons_iff in Nd as [Ni Nd]. cbn [mergeCommon].
  destruct (Hd d (or_introl eq_refl)) as (Dd & El & Er). rewrite (startLabel_Ok m d Dd), (endLabel_Ok m d Dd). cbn [bind]. cbv zeta.
  assert (Hne : forall x, In x t -> elab x <> elab d) by (intros x Hx K; apply Ni; rewrite <- K; apply in_map; assumption).
  pose proof (mergeFaces_full hk m d M) as G. destruct (mergeFaces hk m d) as [[m1 r]| | |]; cbn [goodE] in G; try contradiction.
  2:{ exfalso. destruct G as [G|G]; [contradiction | congruence]. }
  destruct G as (_ & mc & d' & s & mm & C & Sv & H1 & H2 & Hn & G). cbn [bind fst snd] in *.
  destruct (cached_views _ _ C) as (Vd & _ & _ & Vl & _). pose proof (cached_MInv m mc C M) as Mc.
  assert (Fs : liveFacesSame m mc).
  { intros l. pose proof (ca_face _ _ C l) as K. destruct (fAt m l), (fAt mc l); try contradiction; split; congruence. }
  assert (Fc : faceCount mc = faceCount m) by apply (cached_same _ _ C).
  assert (Ec : forall j, eAt mc j = eAt m j) by (intros j; unfold eAt; rewrite (proj1 (cached_same _ _ C)); reflexivity).
  assert (Wrap : forall m2, mrel (fun j => In j (map elab t)) m1 m2 -> mrel (fun j => j = elab d) m m1 -> mrel (fun j => In j (map elab (d :: t))) m m2).
  { intros m2 Y X. apply (mrel_trans _ _ m1); [eapply mrel_mono; [|exact X]; intros j ->; left; reflexivity | eapply mrel_mono; [|exact Y]; intros j K; right; exact K]. }
  assert (Ends : mrel (fun j => j = elab d) m m1 -> (forall x, In x t -> In x (darts m1)) -> (ns ++ [stt m d; stt m (- d)]) ++ ends m1 t = ns ++ ends m (d :: t)).
  { intros X Hx. rewrite <- app_assoc. f_equal. rewrite (ends_ext _ m m1 t X); [reflexivity|]. intros x Hx'. specialize (Hx x Hx'). apply in_darts in Hx. tauto. }
  destruct G as [(Hk & -> & ->)|(Hk & -> & B)].
  - (* refused *)
    destruct (IH mc (ns ++ [stt m d; stt m (- d)]) Mc Nd) as (m' & s' & E & X & Q).
    { intros x Hx. rewrite Vd, !Vl. apply Hd. right; assumption. }
    assert (Xc : mrel (fun j => j = elab d) m mc) by (apply cached_mrel; assumption).
    exists m', s'. rewrite E. split; [f_equal; f_equal; apply Ends; [assumption|]; intros x Hx; rewrite Vd; apply Hd; right; assumption|].
    split; [apply Wrap; assumption|].
    destruct s' as [s'|].
    + destruct Q as (mm' & Q1 & Q2 & Q3 & Q4 & Q5 & Q6). exists mm'. split; [assumption|]. split; [assumption|]. split; [lia|]. split; [assumption|].
      split; [intros l Hl; rewrite (Fs l); apply Q5; assumption|]. intros A. rewrite (A mc d') in Hk. discriminate.
    + destruct Q as (Q1 & Q2 & Q3). split; [congruence|]. split; [intros l; rewrite (Fs l); apply Q2|]. intros A. rewrite (A mc d') in Hk. discriminate.
  - (* merged; the other edges are bridges now *)
    assert (Sd : (d' = d \/ d' = - d) /\ (s = L /\ mm = R \/ s = R /\ mm = L) /\ mm <> 0%nat).
    { destruct Sv as (l & r0 & fl & fr & vl & vr & K1 & K2 & _ & _ & _ & _ & K3 & K4). destruct (K4 Hn) as (K5 & _).
      assert (l = L) by congruence. assert (r0 = R) by congruence. subst l r0. split; [|split; [|assumption]]; destruct K3 as [(-> & -> & ->)|(-> & -> & ->)]; auto. }
    destruct Sd as (Sd & Ss & Hm0).
    assert (Dd' : In d' (darts mc)) by (rewrite Vd; destruct Sd as [->| ->]; [|apply darts_opp]; assumption).
    assert (Ed : elab d' = elab d) by (destruct Sd as [->| ->]; [reflexivity | apply elab_opp]).
    rewrite <- Vl in H1, H2.
    assert (M1 : MInv m1) by (apply (mf_MInv mc m1 d' s mm); assumption).
    pose proof (mf_gone _ _ _ _ _ B) as Gn.
    assert (X : mrel (fun j => j = elab d) m m1).
    { apply (mrel_trans _ _ mc); [apply cached_mrel; assumption|]. rewrite <- Ed. apply gone_mrel; [assumption| |assumption].
      destruct (mf_f _ _ _ _ _ B) as (? & ? & ? & ? & ? & ? & ? & ? & _ & _ & _ & _ & _ & _ & _ & Hfs & _). rewrite Hfs, !list_upd_length. reflexivity. }
    assert (Dt : forall x, In x t -> In x (darts m1)).
    { intros x Hx. apply (other_dart mc d'); [assumption | rewrite Vd; apply Hd; right; assumption | rewrite Ed; apply Hne; assumption]. }
    assert (Lt : forall x, In x t -> In x (darts m1) /\ lft m1 x = lft m1 (- x)).
    { intros x Hx. split; [apply Dt; assumption|]. rewrite (mf_lft _ _ _ _ _ B x) by (apply Dt; assumption).
      rewrite (mf_lft _ _ _ _ _ B (- x)) by (apply darts_opp, Dt; assumption). rewrite !Vl. destruct (Hd x (or_intror Hx)) as (_ & -> & ->).
      destruct Ss as [(-> & ->)|(-> & ->)]; destruct (Nat.eqb_spec L R), (Nat.eqb_spec R L), (Nat.eqb_spec R R), (Nat.eqb_spec L L); congruence. }
    destruct (bridgePhase hk s t m1 (ns ++ [stt m d; stt m (- d)]) M1 Nd Lt) as (m' & E & X2 & Fc2 & Fs2 & Ag2).
    exists m', (Some s). rewrite E. split; [f_equal; f_equal; apply Ends; assumption|]. split; [apply Wrap; assumption|].
    destruct (mf_f _ _ _ _ _ B) as (sf & f2 & c1 & c2 & a1 & a2 & sa & ar & Hsf & Hf2 & _ & _ & _ & _ & _ & Hfs & _).
    assert (Fm : forall l, fAt m1 l = if Nat.eqb mm l then None else if Nat.eqb s l then Some (mkFace (sa ++ remove_nth (fanchors f2) c2) ar (fflags sf)) else fAt mc l).
    { intros l. unfold fAt in *. rewrite Hfs, tget_upd_None. destruct (Nat.eqb_spec mm l); [reflexivity|]. rewrite tget_upd.
      pose proof (tget_lt _ _ _ Hsf) as Ls. apply Nat.ltb_lt in Ls. rewrite Ls. reflexivity. }
    exists mm. split; [assumption|]. split; [assumption|]. split; [rewrite Fc2, (mf_fc _ _ _ _ _ B); lia|].
    split; [apply Fs2; rewrite Fm, Nat.eqb_refl; reflexivity|]. split.
    + intros l Hl. rewrite <- (Fs2 l), Fm, (Fs l). destruct (Nat.eqb_spec mm l); [congruence|]. destruct (Nat.eqb_spec s l) as [<-|]; [rewrite Hsf; split; discriminate | reflexivity].
    + intros _ A x [<-|Hx]; [|apply Ag2; assumption].
      assert (K1 : eAt m1 (elab d) = None).
      { pose proof (eg_edge _ _ _ Gn (elab d')) as K. rewrite Ed in K. destruct (eAt m1 (elab d)); [|reflexivity]. destruct (eAt mc (elab d)); [|contradiction]. destruct K as (K & _). congruence. }
      pose proof (mr_edge _ _ _ X2 (elab d)) as K. rewrite K1 in K. destruct (eAt m' (elab d)); [contradiction | reflexivity].
Qed.
