(** removeBridge, mergeFaces and removeEdge on a map with label image *)
From Coq Require Import QArith.
From Verif Require Import Base Orbit GeoMap_Model GeoMap_Views GeoMap_SInv GeoMap_Remove GeoMap_MergeEdges GeoMap_SplitEdge GeoMap_MInv GeoMap_Gone GeoMap_Bridge GeoMap_MergeFaces
  GeoMap_Flags GeoMap_Move GeoMap_Sort GeoMap_History GeoMap_Geometry GeoMap_Spec GeoMap_Facts GeoMap_Results
  Scanlines_Model Scanlines_Spec ScanPoly_Model ScanPoly_Spec LabelLUT_Model LabelLUT_Spec LabelLUT_Proofs
  LabelImage_Model LabelImage_Spec LabelImage_Loops LabelImage_Cover LabelImage_Cache LabelImage_Inv LabelImage_Steps.
Local Open Scope Z_scope.

Section Remove.
Variable srt : list seg -> list seg.
Hypothesis Hsrt : sorter srt.
Variable unit : positive.
Notation chain := (chain unit).
Notation crossB := (crossB srt unit).
Notation ind := (ind srt unit).
Notation cnt := (cnt srt unit).
Notation LInv := (LInv srt unit).
Notation IInv := (IInv srt unit).

(** what taking edge [l] out does to the image; the pixels of face [f] then belong to face [ren f] *)
Record tookOut st (l s : nat) (ren : nat -> nat) st' (out : list (Z * Z)) : Prop := {
  to_size : lsize st' = lsize st;
  to_nodup : NoDup out;
  to_im : match lim st, lim st' with
    | None, None => out = []
    | Some img, Some img' => sameSize img img' /\
        (forall x y, In (x, y) out <-> insideB img x y = true /\ ind (lg st) x y l = 1 /\ cnt (lg st) x y = 1) /\
        (forall x y, In (x, y) out -> reads (lg st') (llut st') (ipx img' x y) s) /\
        (forall x y f, insideB img x y = true -> cnt (lg st) x y = 0 -> reads (lg st) (llut st) (ipx img x y) f -> reads (lg st') (llut st') (ipx img' x y) (ren f))
    | _, _ => False end }.

(** the polygons after edge [l] has gone *)
Definition without m (l : nat) m' : Prop := length (edges m') = length (edges m) /\
  forall j, option_map epts (eAt m' j) = if Nat.eqb j l then None else option_map epts (eAt m j).
Lemma without_ind m l m' x y j : without m l m' -> ind m' x y j = if Nat.eqb j l then 0 else ind m x y j.
Proof.
  intros [_ H]. specialize (H j). unfold LabelImage_Cache.ind. destruct (Nat.eqb_spec j l) as [E|E].
  - destruct (eAt m' j); [discriminate | reflexivity].
  - destruct (eAt m j), (eAt m' j); cbn in H; congruence.
Qed.
Lemma without_cnt m l m' x y : without m l m' -> (l < length (edges m))%nat -> cnt m' x y = cnt m x y - ind m x y l.
Proof.
  intros W Hl. unfold LabelImage_Cache.cnt. destruct W as [E W]. rewrite E. rewrite (tot_change (ind m x y) (ind m' x y) l _ Hl).
  - rewrite (without_ind m l m' x y l (conj E W)), Nat.eqb_refl. lia.
  - intros k _ Nk. rewrite (without_ind m l m' x y k (conj E W)). destruct (Nat.eqb_spec k l); [contradiction | reflexivity].
Qed.
Lemma gone_without m d m' : EdgeGone m d m' -> without m (elab d) m'.
Proof.
  intros EG. split; [apply EG|]. intros j. pose proof (eg_edge _ _ _ EG j) as K. destruct (eAt m j) as [e|] eqn:Ej, (eAt m' j) as [e'|]; cbn; try contradiction.
  - destruct K as (N & _ & _ & -> & _). destruct (Nat.eqb_spec j (elab d)); [contradiction | reflexivity].
  - subst j. rewrite Nat.eqb_refl. reflexivity.
  - destruct (Nat.eqb j (elab d)); reflexivity.
Qed.

(** the state after taking out: cache, image and look-up table *)
Lemma takeOut_spec st l e s t m' ar ren : LInv st -> eAt (lg st) l = Some e ->
  Inv m' -> geo m' -> (MInv (lg st) -> MInv m') -> without (lg st) l m' -> length (faces m') = length (faces (lg st)) ->
  (lim st <> None -> lutOK m' t /\ fAt m' s <> None /\ (forall v f, reads (lg st) (llut st) v f -> reads m' t v (ren f))) ->
  exists q, takeOut srt unit (set_llut st t) l s = Ok q /\ larea (fst q) = larea st /\
    let st' := set_larea (set_lg (fst q) m') ar in LInv st' /\ tookOut st l s ren st' (snd q).
Proof.
  intros L He I' G' M' W Fl Hl. pose proof (Inv_SInv _ (li_inv _ _ _ L)) as V. pose proof (li_geo _ _ _ L) as G.
  assert (Ep : epts e <> []) by (apply (geo_ne (lg st) l); assumption).
  assert (Bl : (l < length (edges (lg st)))%nat) by (apply tget_lt in He; exact He).
  assert (Fin : forall c : nat -> option scanlines, (forall j, j <> l -> c j = lsc st j) ->
    (forall j sc e0, c j = Some sc -> eAt m' j = Some e0 -> scans (chain (epts e0)) sc) /\ (forall j, (length (edges m') <= j)%nat -> c j = None)).
  { intros c Hc. destruct W as [We W]. split.
    - intros j sc e0 Hs He0. specialize (W j). rewrite He0 in W. destruct (Nat.eqb_spec j l) as [E|N]; [discriminate|]. rewrite Hc in Hs by assumption.
      destruct (eAt (lg st) j) as [e1|] eqn:E1; [|discriminate]. cbn in W. injection W as ->. apply (li_cache _ _ _ L j); assumption.
    - intros j Hj. rewrite Hc by lia. apply (li_new _ _ _ L). lia. }
  unfold takeOut. cbn [lim set_llut]. destruct (lim st) as [img|] eqn:Hi.
  - destruct (edgeScan_spec srt Hsrt unit (set_llut st t) l e He Ep) as (st1 & sc & -> & Hs & O). { cbn. intros sc Hsc. apply (li_cache _ _ _ L l); assumption. }
    cbn [bind fst snd]. destruct (removeEdgeFrom_spec sc img (Z.of_nat s) (sc_tidy _ _ Hs)) as (img' & out & -> & Sz & Px & ND & Ho). cbn [bind fst snd].
    eexists. split; [reflexivity|]. cbn [fst snd larea set_lim]. split; [apply O|]. cbv zeta.
    pose proof (li_img _ _ _ L img Hi) as [M Szi Lu Fr Cr]. destruct Hl as (Lu' & Hs' & Hr); [discriminate|].
    assert (X : forall x y, b2z (covB (lineOf sc y) x) = ind (lg st) x y l).
    { intros x y. unfold LabelImage_Cache.ind. rewrite He. f_equal. apply scans_cross; assumption. }
    assert (Cn : forall x y, cnt m' x y = cnt (lg st) x y - ind (lg st) x y l) by (intros; apply without_cnt; assumption).
    assert (Cge : forall x y, ind (lg st) x y l <= cnt (lg st) x y) by (intros x y; apply tot_ge; [apply ind_nn | exact Bl]).
    assert (Rs : reads m' t (Z.of_nat s) s). { split; [lia|]. split; [rewrite Nat2Z.id; apply (lutOK_self m'); assumption | exact Hs']. }
    assert (Po : forall x y, insideB img x y = true -> ind (lg st) x y l = 1 -> cnt (lg st) x y = 1 -> ipx img' x y = Z.of_nat s).
    { intros x y Hin H1 H2. rewrite Px, Hin. specialize (X x y). destruct (covB _ _); cbn in X; [|lia]. cbn [andb]. rewrite (Cr x y Hin) by lia. rewrite H2. reflexivity. }
    assert (Pn : forall x y, insideB img x y = true -> ind (lg st) x y l = 0 -> ipx img' x y = ipx img x y).
    { intros x y Hin H1. rewrite Px, Hin. specialize (X x y). destruct (covB _ _); cbn in X; [lia | reflexivity]. }
    split.
    + destruct (Fin (lsc st1)) as [Fc Fn]. { intros j Nj. rewrite (os_sc _ _ _ _ O). destruct (Nat.eqb_spec j l); [contradiction | reflexivity]. }
      constructor; cbn [lg lsc lim set_lg set_lim set_larea]; auto. intros im Him. injection Him as <-.
      constructor; cbn [lg lsc lim set_lg set_lim set_larea lsize llut]; rewrite ?(os_size _ _ _ _ O), ?(os_lut _ _ _ _ O); cbn [lsize llut set_llut]; auto.
      * destruct Sz as [-> ->]. exact Szi.
      * intros x y Hin. rewrite (insideB_size _ _ _ _ Sz) in Hin. rewrite Cn. intros H0. destruct (ind_01 srt unit (lg st) x y l) as [E0|E1].
        { rewrite (Pn x y Hin E0). destruct (Fr x y Hin ltac:(lia)) as (f & Hf). exists (ren f). apply Hr, Hf. }
        { rewrite (Po x y Hin E1) by lia. exists s. exact Rs. }
      * intros x y Hin. rewrite (insideB_size _ _ _ _ Sz) in Hin. rewrite Cn. intros H0. destruct (ind_01 srt unit (lg st) x y l) as [E0|E1].
        { rewrite (Pn x y Hin E0), (Cr x y Hin) by lia. lia. }
        { rewrite Px, Hin. specialize (X x y). destruct (covB _ _); cbn in X; [|lia]. cbn [andb]. rewrite (Cr x y Hin) by lia. destruct (Z.eqb_spec (- cnt (lg st) x y) (-1)); lia. }
    + constructor; cbn [lg lsc lim set_lg set_lim set_larea lsize llut]; rewrite ?(os_size _ _ _ _ O), ?(os_lut _ _ _ _ O); cbn [lsize llut set_llut]; auto.
      assert (Ho' : forall x y, In (x, y) out <-> insideB img x y = true /\ ind (lg st) x y l = 1 /\ cnt (lg st) x y = 1).
      { intros x y. rewrite Ho. specialize (X x y). split.
        - intros (H1 & H2 & H3). rewrite H2 in X. cbn in X. split; [exact H1|]. split; [lia|]. specialize (Cge x y). rewrite (Cr x y H1) in H3 by lia. lia.
        - intros (H1 & H2 & H3). split; [exact H1|]. split; [destruct (covB _ _); [reflexivity | cbn in X; lia]|]. rewrite (Cr x y H1) by lia. lia. }
      rewrite Hi. split; [exact Sz|]. split; [exact Ho'|]. split.
      * intros x y Hin. apply Ho' in Hin. destruct Hin as (H1 & H2 & H3). rewrite (Po x y H1 H2 H3). exact Rs.
      * intros x y f Hin H0 Hf. rewrite (Pn x y Hin). { apply Hr, Hf. } specialize (Cge x y). pose proof (ind_nn srt unit (lg st) x y l). lia.
  - eexists. split; [reflexivity|]. cbn [fst snd]. split; [reflexivity|]. cbv zeta. destruct (Fin (lsc st)) as [Fc Fn]; [reflexivity|]. split.
    + constructor; cbn [lg lsc lim set_lg set_lim set_larea set_llut]; auto. intros im Him. congruence.
    + constructor; cbn [lg lsc lim set_lg set_lim set_larea set_llut lsize]; auto; [constructor|]. rewrite Hi. reflexivity.
Qed.

Definition areaMoved st st' (s : nat) (extra : Z) : Prop := larea st' s = larea st s + extra /\ forall f, f <> s -> larea st' f = larea st f.

Lemma takeOut_same st l s : takeOut srt unit (set_llut st (llut st)) l s = takeOut srt unit st l s.
Proof. destruct st; reflexivity. Qed.

Lemma samePts_keep st m' : LInv st -> Inv m' -> geo m' -> (MInv (lg st) -> MInv m') -> edges m' = edges (lg st) ->
  length (faces m') = length (faces (lg st)) -> (forall f, fAt m' f <> None <-> fAt (lg st) f <> None) -> LInv (set_lg st m').
Proof.
  intros L I' G' M' E Fl Ff. apply keep_LInv; auto.
  - intros l s e' _ He'. exists e'. unfold eAt in *. rewrite E in He'. auto.
  - rewrite E. lia.
  - intros _. split; [apply samePts_edges, E|]. auto.
Qed.

Lemma Bridged_faces m d fl m' : Bridged m d fl m' -> length (faces m') = length (faces m) /\ forall f, fAt m' f <> None <-> fAt m f <> None.
Proof.
  intros B. destruct (br_f _ _ _ _ B) as (f & p & a & C & Hf & _ & _ & Ef & _). split; [rewrite Ef; apply list_upd_length|]. intros g. destruct (Nat.eq_dec fl g) as [E|N].
  - subst g. unfold fAt in *. rewrite Ef. rewrite tget_upd_eq by (apply tget_lt in Hf; exact Hf). rewrite Hf. split; discriminate.
  - unfold fAt. rewrite Ef. rewrite tget_upd_neq by exact N. tauto.
Qed.

(** ** removeBridge *)
Theorem lremoveBridge_spec hk st d : LInv st -> goodL False (fun r => let '(st', o, out) := r in LInv st' /\ removeBridge hk (lg st) d = Ok (lg st', o) /\
  match o with
  | None => st' = set_lg st (lg st') /\ out = [] /\ (forall g, fAt (lg st') g <> None <-> fAt (lg st) g <> None) /\ edges (lg st') = edges (lg st)
  | Some f => lft (lg st) d = Some f /\ lft (lg st) (- d) = Some f /\ fAt (lg st) f <> None /\ (forall g, fAt (lg st') g <> None <-> fAt (lg st) g <> None) /\
      without (lg st) (elab d) (lg st') /\ tookOut st (elab d) f (fun g => g) st' out /\ areaMoved st st' f (Z.of_nat (length out))
  end) (lremoveBridge srt unit hk st d).
Proof.
  intros L. set (m := lg st) in *. unfold lremoveBridge. fold m.
  assert (Sp : good (fun r => MInv m /\ (In d (darts m) /\ exists fl, lft m d = Some fl /\ lft m (- d) = Some fl /\ stt m d <> stt m (- d) /\
          ((hkBridge hk m d = false /\ snd r = None /\ fst r = m) \/ (hkBridge hk m d = true /\ snd r = Some fl /\ Bridged m d fl (fst r))))) (removeBridge hk m d)).
  { destruct (li_inv _ _ _ L) as [Gp|M].
    - pose proof (run_op_effs hk m (ORemoveBridge d) (or_introl Gp) I) as K. fold m in Gp.
      unfold removeBridge in *. destruct (eAt m (elab d)) as [e|] eqn:Ee; [|rewrite (require_edge_None _ _ Ee); exact I].
      rewrite (require_edge _ _ _ Ee). cbn [bind]. assert (Hd : In d (darts m)) by (apply (eAt_zero m d (gp_v _ Gp)); congruence).
      rewrite (leftLabel_Ok m d Hd), (gp_l _ Gp d Hd). exact I.
    - eapply good_mono; [apply (removeBridge_spec hk m d M)|]. intros a Ha. split; assumption. }
  destruct (removeBridge hk m d) as [[m' o]| | |] eqn:Em; cbn [good bind] in *; try exact I; try contradiction.
  destruct Sp as (M & Hd & fl & H1 & H2 & Hn & Sp). cbn [fst snd] in *.
  destruct (step_base srt unit st (Call hk (ORemoveBridge d)) m' L I I) as (I' & G' & M'). { cbn [exec run_op]. fold m. rewrite Em. reflexivity. }
  destruct Sp as [(_ & -> & ->)|(_ & -> & B)].
  - cbn [goodL]. split; [|split; [reflexivity|split; [reflexivity|split; [reflexivity|split; [tauto | reflexivity]]]]]. apply samePts_keep; auto. intros f. tauto.
  - destruct (live_edge m d Hd) as (e & He). destruct (Bridged_faces _ _ _ _ B) as [Fl Ff]. pose proof (gone_without _ _ _ (br_gone _ _ _ _ B)) as W.
    assert (Hfl : fAt m fl <> None) by (destruct (br_f _ _ _ _ B) as (f & p & a & C & Hf & _); congruence).
    set (out := fun q : lmap * list (Z * Z) => updN (larea st) fl (larea st fl + Z.of_nat (length (snd q)))).
    rewrite <- takeOut_same. destruct (takeOut srt unit (set_llut st (llut st)) (elab d) fl) as [q0| | |] eqn:Eq0.
    2,3,4: destruct (takeOut_spec st (elab d) e fl (llut st) m' (larea st) (fun g => g) L He I' G' M' W Fl) as (q & Eq & _);
      [intros Hi; destruct (lim st) as [img|] eqn:Him; [|congruence]; split; [apply (lutOK_keep m); [apply (ii_lut _ _ _ _ (li_img _ _ _ L img Him)) | exact Fl | apply Ff]|]; split; [apply Ff, Hfl|]; intros v f (A & B0 & C); split; [exact A|]; split; [exact B0 | apply Ff, C] | congruence].
    destruct (takeOut_spec st (elab d) e fl (llut st) m' (out q0) (fun g => g) L He I' G' M' W Fl) as (q & Eq & Ear & LI & TO).
    { intros Hi; destruct (lim st) as [img|] eqn:Him; [|congruence]. split; [apply (lutOK_keep m); [apply (ii_lut _ _ _ _ (li_img _ _ _ L img Him)) | exact Fl | apply Ff]|].
      split; [apply Ff, Hfl|]. intros v f (A & B0 & C). split; [exact A|]. split; [exact B0 | apply Ff, C]. }
    rewrite Eq0 in Eq. injection Eq as <-. cbn [bind goodL]. unfold associate. cbn [larea set_lg]. rewrite Ear. fold (out q0).
    split; [exact LI|]. split; [reflexivity|]. split; [exact H1|]. split; [exact H2|]. split; [exact Hfl|]. split; [exact Ff|]. split; [exact W|]. split; [exact TO|]. unfold areaMoved, out. cbn [larea set_larea]. unfold updN. rewrite Nat.eqb_refl. split; [reflexivity|].
    intros f Nf. destruct (Nat.eqb_spec f fl); [contradiction | reflexivity].
Qed.

(** ** mergeFaces *)
Lemma mergeFaces_pick hk m d0 m' s : mergeFaces hk m d0 = Ok (m', Some s) -> exists x, pickDart m d0 = Ok x /\ leftLabel (fst x) (snd x) = Ok (Some s).
Proof.
  unfold mergeFaces. intros E. apply bind_Ok in E. destruct E as (u & _ & E). apply bind_Ok in E. destruct E as ([m1 d1] & Ex & E). exists (m1, d1). split; [exact Ex|]. cbn [fst snd].
  apply bind_Ok in E. destruct E as (sl & Es & E). apply bind_Ok in E. destruct E as (u1 & _ & E). apply bind_Ok in E. destruct E as (ml & _ & E).
  apply bind_Ok in E. destruct E as (mf & _ & E). apply bind_Ok in E. destruct E as (n1 & _ & E). apply bind_Ok in E. destruct E as (u2 & _ & E). rewrite Es.
  destruct sl as [s0|]; [|discriminate]. destruct ml as [mm|]; [|discriminate]. destruct (Nat.eqb s0 mm); [discriminate|]. destruct (negb _); [discriminate|].
  do 10 (apply bind_Ok in E; destruct E as (? & _ & E)). injection E as _ <-. reflexivity.
Qed.

Lemma FMerged_faces m d s mm m' : FMerged m d s mm m' -> s <> mm -> fAt m s <> None /\ fAt m mm <> None /\ length (faces m') = length (faces m) /\
  forall f, fAt m' f <> None <-> fAt m f <> None /\ f <> mm.
Proof.
  intros B N. destruct (mf_f _ _ _ _ _ B) as (sf & f2 & c1 & c2 & a1 & a2 & sa & ar & H1 & H2 & _ & _ & _ & _ & _ & Ef & _).
  split; [congruence|]. split; [congruence|]. split; [rewrite Ef, !list_upd_length; reflexivity|]. intros f. unfold fAt in *. rewrite Ef, tget_upd_None.
  destruct (Nat.eqb_spec mm f) as [E|E]; [split; [congruence | intros [_ K]; congruence]|].
  destruct (Nat.eq_dec s f) as [E1|E1].
  - subst f. rewrite tget_upd_eq by (apply tget_lt in H1; exact H1). rewrite H1. split; [intros _; split; [discriminate | congruence] | discriminate].
  - rewrite tget_upd_neq by exact E1. split; [intros K; split; [exact K | congruence] | tauto].
Qed.

Theorem lmergeFaces_spec hk st d : LInv st -> goodL False (fun r => let '(st', o, out) := r in LInv st' /\ mergeFaces hk (lg st) d = Ok (lg st', o) /\
  match o with
  | None => st' = set_lg st (lg st') /\ out = [] /\ (forall g, fAt (lg st') g <> None <-> fAt (lg st) g <> None) /\ edges (lg st') = edges (lg st)
  | Some s => exists d' mm, (d' = d \/ d' = - d) /\ lft (lg st) d' = Some s /\ lft (lg st) (- d') = Some mm /\ s <> mm /\
      fAt (lg st) s <> None /\ fAt (lg st) mm <> None /\ (forall f, fAt (lg st') f <> None <-> fAt (lg st) f <> None /\ f <> mm) /\
      without (lg st) (elab d) (lg st') /\ tookOut st (elab d) s (fun g => if Nat.eqb g mm then s else g) st' out /\
      areaMoved st st' s (larea st mm + Z.of_nat (length out))
  end) (lmergeFaces srt unit hk st d).
Proof.
  intros L. set (m := lg st) in *. unfold lmergeFaces. fold m.
  assert (Sp : good (fun r => MInv m /\ (In d (darts m) /\ exists mc d' s mm, cached m mc /\ survives m mc d d' s mm /\ lft m d' = Some s /\ lft m (- d') = Some mm /\ s <> mm /\
          ((hkMergeFaces hk mc d' = false /\ snd r = None /\ fst r = mc) \/ (hkMergeFaces hk mc d' = true /\ snd r = Some s /\ FMerged mc d' s mm (fst r))))) (mergeFaces hk m d)).
  { destruct (li_inv _ _ _ L) as [Gp|M].
    - fold m in Gp. unfold mergeFaces. destruct (eAt m (elab d)) as [e|] eqn:Ee; [|rewrite (require_edge_None _ _ Ee); exact I].
      rewrite (require_edge _ _ _ Ee). cbn [bind]. assert (Hd : In d (darts m)) by (apply (eAt_zero m d (gp_v _ Gp)); congruence).
      unfold pickDart. rewrite (leftLabel_Ok m d Hd), (rightLabel_Ok m d Hd), (gp_l _ Gp d Hd). exact I.
    - eapply good_mono; [apply (mergeFaces_spec hk m d M)|]. intros a Ha. split; assumption. }
  destruct (mergeFaces hk m d) as [[m' o]| | |] eqn:Em; cbn [good bind] in *; try exact I; try contradiction.
  destruct Sp as (M & Hd & mc & d' & s & mm & C & Sv & H1 & H2 & Hn & Sp). cbn [fst snd] in *.
  destruct (step_base srt unit st (Call hk (OMergeFaces d)) m' L I I) as (I' & G' & M'). { cbn [exec run_op]. fold m. rewrite Em. reflexivity. }
  assert (Ee : edges mc = edges m) by apply (cached_same _ _ C).
  assert (Fc : forall f, fAt mc f <> None <-> fAt m f <> None). { intros f. pose proof (ca_face _ _ C f) as K. destruct (fAt m f), (fAt mc f); split; intros; try congruence; contradiction. }
  assert (Hdd : d' = d \/ d' = - d) by (destruct Sv as (l & r & fl & fr & vl & vr & _ & _ & _ & _ & _ & _ & [(-> & _)|(-> & _)] & _); auto).
  destruct Sp as [(_ & -> & ->)|(_ & -> & B)].
  - cbn [goodL]. split; [|split; [reflexivity|split; [reflexivity|split; [reflexivity|split; [exact Fc | exact Ee]]]]]. apply samePts_keep; auto. apply (ca_len _ _ C).
  - destruct (live_edge m d Hd) as (e & He). destruct (FMerged_faces _ _ _ _ _ B Hn) as (Hs & Hm & Fl & Ff).
    rewrite Fc in Hs, Hm. rewrite (ca_len _ _ C) in Fl. assert (Ff' : forall f, fAt m' f <> None <-> fAt m f <> None /\ f <> mm) by (intros f; rewrite Ff, Fc; tauto). clear Ff.
    assert (Eld : elab d' = elab d) by (destruct Hdd as [->| ->]; [reflexivity | apply elab_opp]).
    assert (W : without m (elab d) m').
    { pose proof (gone_without _ _ _ (mf_gone _ _ _ _ _ B)) as [W1 W2]. rewrite Eld in W2. rewrite Ee in W1. split; [exact W1|]. intros j. specialize (W2 j). unfold eAt in W2 at 2. rewrite Ee in W2. exact W2. }
    destruct (mergeFaces_pick hk m d m' s Em) as (x & Ex & Hx).
    destruct (pickDart_spec m d M Hd) as (mc2 & d2 & s2 & mm2 & Ep & C2 & Sv2 & Hl2 & Hr2). rewrite Ep in Ex. injection Ex as <-. cbn [fst snd] in Hx. rewrite Ep. cbn [bind snd].
    assert (Hdd2 : d2 = d \/ d2 = - d) by (destruct Sv2 as (l & r & fl & fr & vl & vr & _ & _ & _ & _ & _ & _ & [(-> & _)|(-> & _)] & _); auto).
    assert (Hd2 : In d2 (darts m)) by (destruct Hdd2 as [->| ->]; [|apply darts_opp]; assumption).
    destruct (cached_views _ _ C2) as (Dv & _ & _ & Lv & _). rewrite leftLabel_Ok in Hx by (rewrite Dv; exact Hd2). rewrite Lv, Hl2 in Hx. injection Hx as ->.
    assert (Ed2 : d2 = d').
    { destruct Hdd as [Q|Q], Hdd2 as [Q2|Q2]; try congruence; exfalso; apply Hn; subst d' d2; rewrite ?Z.opp_involutive in *; congruence. }
    subst d2. assert (mm2 = mm) by congruence. subst mm2. rewrite (rightLabel_Ok m d' Hd2), Hr2. cbn [bind].
    set (ren := fun g : nat => if Nat.eqb g mm then s else g).
    assert (LT : exists t, ifImage st (fun st _ => t <- relabel (llut st) mm s ;; Ok (set_llut st t)) = Ok (set_llut st t) /\
      (lim st <> None -> lutOK m' t /\ fAt m' s <> None /\ (forall v f, reads m (llut st) v f -> reads m' t v (ren f)))).
    { unfold ifImage. destruct (lim st) as [img|] eqn:Hi.
      - pose proof (li_img _ _ _ L img Hi) as II. destruct (lutOK_merge m m' (llut st) mm s (ii_lut _ _ _ _ II) Hs Hm Hn Fl Ff') as (t & -> & Lu & Lr). cbn [bind]. exists t. split; [reflexivity|].
        intros _. split; [exact Lu|]. split; [apply Ff'; auto|]. intros v f (A & B0 & C0). split; [exact A|]. split; [apply Lr, B0|]. unfold ren. apply Ff'. destruct (Nat.eqb_spec f mm); auto.
      - exists (llut st). split; [destruct st; reflexivity | congruence]. }
    destruct LT as (t & -> & HL). cbn [bind].
    set (out := fun q : lmap * list (Z * Z) => updN (updN (larea st) s (larea st s + larea st mm)) s (updN (larea st) s (larea st s + larea st mm) s + Z.of_nat (length (snd q)))).
    destruct (takeOut srt unit (set_llut st t) (elab d) s) as [q0| | |] eqn:Eq0.
    2,3,4: destruct (takeOut_spec st (elab d) e s t m' (larea st) ren L He I' G' M' W Fl HL) as (q & Eq & _); congruence.
    destruct (takeOut_spec st (elab d) e s t m' (out q0) ren L He I' G' M' W Fl HL) as (q & Eq & Ear & LI & TO).
    rewrite Eq0 in Eq. injection Eq as <-. cbn [bind goodL]. unfold associate. cbn [larea set_larea set_lg lg set_lim fst snd].
    rewrite Ear.
    split; [exact LI|]. split; [reflexivity|]. exists d', mm. split; [exact Hdd|]. split; [exact H1|]. split; [exact H2|]. split; [exact Hn|]. split; [exact Hs|]. split; [exact Hm|]. split; [exact Ff'|].
    split; [exact W|]. split; [exact TO|]. unfold areaMoved. cbn [larea set_larea]. unfold updN. rewrite Nat.eqb_refl. split; [lia|].
    intros f Nf. destruct (Nat.eqb_spec f s); [contradiction | reflexivity].
Qed.

(** ** removeEdge *)
Theorem lremoveEdge_spec hk st d : LInv st -> In d (darts (lg st)) -> goodL False (fun r => let '(st', o, out) := r in LInv st' /\ removeEdge hk (lg st) d = Ok (lg st', o) /\
  (faces (lg st) = [] /\ out = [] /\ st' = set_lg st (lg st') \/ faces (lg st) <> [] /\ (lremoveBridge srt unit hk st d = Ok r \/ lmergeFaces srt unit hk st d = Ok r))) (lremoveEdge srt unit hk st d).
Proof.
  intros L Hd. set (m := lg st) in *. unfold lremoveEdge. fold m. destruct (Nat.eqb_spec (length (faces m)) 0) as [E|N]; cbn [negb].
  - pose proof (faces_len_nil m E) as Ef. destruct (li_inv _ _ _ L) as [Gp|M]; [|exfalso; apply (mi_0 _ M); unfold fAt; fold m; rewrite Ef; reflexivity].
    destruct (removeEdge_graph_inv hk m d (gp_v _ Gp) Ef Hd) as (m' & R & _ & _ & He' & _ & _ & _ & Hel & _). rewrite R. cbn [bind fst snd goodL].
    assert (A : allowed m (Call hk (ORemoveEdge d))) by (cbn; apply isDart_iff; exact Hd).
    assert (Ex : exec m (Call hk (ORemoveEdge d)) = Ok m') by (cbn [exec run_op]; rewrite R; reflexivity).
    destruct (step_base srt unit st (Call hk (ORemoveEdge d)) m' L A I Ex) as (I' & G' & M').
    split; [|split; [reflexivity | left; auto]].
    assert (Lim : lim st = None). { destruct (lim st) as [img|] eqn:Hi; [|reflexivity]. exfalso. apply (mi_0 _ (ii_m _ _ _ _ (li_img _ _ _ L img Hi))). unfold fAt. fold m. rewrite Ef. reflexivity. }
    apply keep_LInv; auto.
    + intros l s e' _ Hl. rewrite He' in Hl. destruct (Nat.eqb (elab d) l); [discriminate|]. exists e'. auto.
    + fold m. lia.
    + congruence.
  - assert (Nf : faces m <> []) by (intros K; rewrite K in N; cbn in N; lia). destruct (live_edge m d Hd) as (e & He). rewrite (deref_edge _ _ _ He). cbn [bind].
    unfold removeEdge. fold m. destruct (Nat.eqb_spec (length (faces m)) 0) as [E|_]; [contradiction|]. cbn [negb]. rewrite (deref_edge _ _ _ He). cbn [bind].
    destruct (isBridge e).
    + pose proof (lremoveBridge_spec hk st d L) as K. destruct (lremoveBridge srt unit hk st d) as [[[st' o] out]| | |]; cbn [goodL bind] in *; auto. destruct K as (K1 & K2 & _). fold m in K2. split; [exact K1|]. split; [exact K2|]. right. split; [exact Nf|]. auto.
    + pose proof (lmergeFaces_spec hk st d L) as K. destruct (lmergeFaces srt unit hk st d) as [[[st' o] out]| | |]; cbn [goodL bind] in *; auto. destruct K as (K1 & K2 & _). fold m in K2. split; [exact K1|]. split; [exact K2|]. right. split; [exact Nf|]. auto.
Qed.
End Remove.
