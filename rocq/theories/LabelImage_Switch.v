(** setHasLabelImage and initializeMap establish the invariant *)
From Coq Require Import QArith Sorted.
From Verif Require Import Base Orbit FaceInv GeoMap_Model GeoMap_Views GeoMap_SInv GeoMap_MergeEdges GeoMap_Loops GeoMap_Init GeoMap_MInv GeoMap_History GeoMap_Geometry GeoMap_Spec GeoMap_Facts GeoMap_Results
  Scanlines_Model Scanlines_Spec Scanlines_Proofs ScanPoly_Model ScanPoly_Spec ScanPoly_Proofs LabelLUT_Model
  LabelImage_Model LabelImage_Spec LabelImage_Loops LabelImage_Cover LabelImage_Cache LabelImage_Inv LabelImage_Contour LabelImage_Setup.
Local Open Scope Z_scope.

Lemma lookup_init n k : (k < n)%nat -> lookup (initIdentity n) k = Ok k.
Proof.
  intros H. unfold lookup, initIdentity. cbn [labelLUT]. apply vget_iff. rewrite (nth_error_nth' _ 0%nat) by (rewrite seq_length; exact H). rewrite seq_nth by exact H. reflexivity.
Qed.

Section Switch.
Variable srt : list seg -> list seg.
Hypothesis Hsrt : sorter srt.
Variable unit : positive.
Notation crosses := (crosses unit).
Notation crossB := (crossB srt unit).
Notation ind := (ind srt unit).
Notation cnt := (cnt srt unit).
Notation cacheOK := (cacheOK unit).
Notation scanned := (scanned unit).
Notation LInv := (LInv srt unit).
Notation IInv := (IInv srt unit).
Notation surrounds := (surrounds unit).
Notation touches := (touches unit).

Lemma LInv_cache st : LInv st -> cacheOK st.
Proof. intros L. split; [apply (li_cache _ _ _ L) | apply (li_new _ _ _ L)]. Qed.

(** all edges together *)
Lemma addN_cnt m x y : addN (ind m x y) (liveFrom 0 (edges m)) = cnt m x y.
Proof.
  unfold liveFrom, LabelImage_Cache.cnt. rewrite Nat.sub_0_r. apply addN_tot. intros l Hl. unfold LabelImage_Cache.ind. destruct (eAt m l) eqn:E; [|reflexivity].
  assert (K : isLive (nth l (edges m) None) = true) by (apply isLive_tget; unfold eAt in E; rewrite E; discriminate). congruence.
Qed.

(** marking all edges in an image of face labels *)
Lemma marked_all m img : MInv m -> geo m -> forall st, lg st = m -> cacheOK st -> (forall x y, insideB img x y = true -> 0 <= ipx img x y) ->
  exists st' img', markEdges srt unit st img (liveFrom 0 (edges m)) = Ok (st', img') /\ scanned st st' /\ sameSize img img' /\
    forall x y, insideB img x y = true -> (cnt m x y = 0 -> ipx img' x y = ipx img x y) /\ (0 < cnt m x y -> ipx img' x y = - cnt m x y).
Proof.
  intros M G st Hg C Hp. destruct (markEdges_spec srt Hsrt unit m M G (liveFrom 0 (edges m)) st img Hg C) as (st' & img' & E & Sn & Sz & Px).
  { intros l Hl. apply liveFrom_in in Hl. apply Hl. }
  exists st', img'. split; [exact E|]. split; [exact Sn|]. split; [exact Sz|]. intros x y Hi. rewrite (Px x y Hi), addN_cnt, Z.geb_leb. specialize (Hp x y Hi).
  destruct (Z.leb_spec 0 (ipx img x y)); [|lia]. destruct (Z.eqb_spec (cnt m x y) 0); split; intros; lia.
Qed.

(** an image drawn from scratch *)
Lemma fresh_IInv st0 st img : MInv (lg st) -> geo (lg st) -> cacheOK st -> lg st = lg st0 -> lsize st = lsize st0 -> llut st = initIdentity (length (faces (lg st))) -> lim st = Some img ->
  iw img = fst (lsize st) /\ ih img = snd (lsize st) ->
  (forall x y, insideB img x y = true -> (cnt (lg st) x y = 0 -> 0 <= ipx img x y /\ fAt (lg st) (Z.to_nat (ipx img x y)) <> None) /\ (0 < cnt (lg st) x y -> ipx img x y = - cnt (lg st) x y)) ->
  LInv st.
Proof.
  intros M G [C1 C2] Eg Es El Hi Sz Px. constructor; auto; [right; exact M|]. intros img' Hi'. assert (img' = img) by congruence. subst img'. constructor; auto.
  - rewrite El. apply lutOK_init.
  - intros x y Hin H0. destruct (proj1 (Px x y Hin) H0) as [P1 P2]. exists (Z.to_nat (ipx img x y)). split; [exact P1|]. split; [|exact P2]. rewrite El. apply lookup_init, fAt_len, P2.
  - intros x y Hin. apply (Px x y Hin).
Qed.

Record shown st st' (img : image) : Prop := {
  sh_g : lg st' = lg st; sh_size : lsize st' = lsize st; sh_lut : llut st' = initIdentity (length (faces (lg st))); sh_im : lim st' = Some img;
  sh_wh : iw img = fst (lsize st) /\ ih img = snd (lsize st);
  sh_free : forall x y, insideB img x y = true -> cnt (lg st) x y = 0 ->
    (exists l, surrounds (lg st) x y l /\ (forall k, surrounds (lg st) x y k -> (k <= l)%nat) /\ ipx img x y = Z.of_nat l) \/ ((forall l, ~ surrounds (lg st) x y l) /\ ipx img x y = 0);
  sh_cross : forall x y, insideB img x y = true -> 0 < cnt (lg st) x y -> ipx img x y = - cnt (lg st) x y;
  sh_area : forall f, fAt (lg st) f <> None -> larea st' f = (if Nat.eqb f 0 then larea st 0%nat else 0) + Z.of_nat (length (holdList img (Z.of_nat f))) }.

Lemma surrounds_live m x y l : surrounds m x y l -> l <> 0%nat /\ fAt m l <> None.
Proof. intros (L & (Nl & f & a & t & N & Ef & _) & _). split; [exact Nl | congruence]. Qed.

Theorem setHasLabelImage_spec st onoff : LInv st -> 0 <= fst (lsize st) ->
  goodL (onoff = true /\ lim st = None /\ faces (lg st) = [])
    (fun st' => LInv st' /\
      if Bool.eqb onoff (isLive (lim st)) then st' = st
      else if onoff then exists img, shown st st' img else st' = set_lim st None)
    (setHasLabelImage srt unit st onoff).
Proof.
  intros L Hw. unfold setHasLabelImage. destruct (Bool.eqb onoff (isLive (lim st))) eqn:Eb; [cbn [goodL]; auto|]. destruct onoff.
  2:{ cbn [goodL]. split; [|reflexivity]. constructor; try apply L. cbn. discriminate. }
  assert (Li : lim st = None) by (destruct (lim st); [discriminate | reflexivity]).
  destruct (Z.ltb_spec 0 (fst (lsize st) * snd (lsize st))) as [Hs|Hs]; cbn [negb]; [|exact I].
  destruct (Nat.eqb_spec (length (faces (lg st))) 0) as [El|Nl]; [cbn [goodL]; split; [reflexivity|]; split; [exact Li | apply faces_len_nil, El]|].
  set (m := lg st) in *. assert (M : MInv m) by (apply Inv_MInv; [apply L | intros E; apply Nl; rewrite E; reflexivity]). pose proof (li_geo _ _ _ L) as G. fold m in G.
  set (img0 := mkImg _ _ _). set (st0 := set_llut st _).
  assert (C0 : cacheOK st0) by (destruct (LInv_cache st L) as [K1 K2]; split; [exact K1 | exact K2]).
  destruct (fillFaces_spec srt Hsrt unit m M G (liveFrom 1 (faces m)) st0 img0 eq_refl C0 Hw) as (st1 & img1 & E1 & P1 & Sz1 & Ar1 & Px1).
  { intros l Hl. apply liveFrom_in in Hl. split; [lia | apply Hl]. }
  change (faces (lg st0)) with (faces m). rewrite E1. cbn [bind]. pose proof (pr_g _ _ _ P1) as G1. change (lg st0) with m in G1. rewrite G1.
  assert (V1 : forall x y, insideB img0 x y = true -> (exists l, surrounds m x y l /\ (forall k, surrounds m x y k -> (k <= l)%nat) /\ ipx img1 x y = Z.of_nat l) \/ ((forall l, ~ surrounds m x y l) /\ ipx img1 x y = 0)).
  { intros x y Hi. destruct (Px1 x y Hi) as [(l & A & B)|(A & B)].
    - left. exists l. split; [apply (lastOf_in _ _ _ A)|]. split; [|exact B]. intros k Hk. apply (lastOf_max _ _ _ (liveFrom_sorted 1 (faces m)) A); [|exact Hk]. apply liveFrom_in. destruct (surrounds_live _ _ _ _ Hk). split; [lia | assumption].
    - right. split; [|exact B]. intros l Hl. apply (A l); [|exact Hl]. apply liveFrom_in. destruct (surrounds_live _ _ _ _ Hl). split; [lia | assumption]. }
  assert (N1 : forall x y, insideB img1 x y = true -> 0 <= ipx img1 x y /\ fAt m (Z.to_nat (ipx img1 x y)) <> None).
  { intros x y Hi. rewrite (insideB_size img0 img1 x y Sz1) in Hi. destruct (V1 x y Hi) as [(l & A & _ & ->)|(_ & ->)].
    - split; [lia|]. rewrite Nat2Z.id. apply (surrounds_live _ _ _ _ A).
    - split; [lia | apply (mi_0 _ M)]. }
  destruct (marked_all m img1 M G st1 G1 (pr_ok _ _ _ P1)) as (st2 & img2 & E2 & S2 & Sz2 & Px2); [intros x y Hi; apply (N1 x y Hi)|].
  rewrite E2. cbn [bind]. pose proof (sn_g _ _ _ S2) as G2. rewrite G1 in G2. rewrite G2.
  assert (Sz02 : sameSize img0 img2) by (apply (sameSize_trans img0 img1); assumption).
  assert (Cn : forall x y, cnt m x y = 0 \/ 0 < cnt m x y) by (intros x y; pose proof (cnt_nn srt unit m x y); lia).
  destruct (countAreas_spec m img2) with (ps := allPx (iw img2) (ih img2)) (area := larea st2) as (area & E3 & Ar3).
  { intros x y Hi Hv. rewrite (insideB_size img1 img2 x y Sz2) in Hi. destruct (Px2 x y Hi) as [A B]. destruct (Cn x y) as [K|K]; [rewrite (A K); apply (N1 x y Hi) | rewrite (B K) in Hv; lia]. }
  { intros x y Hi. apply insideB_iff, allPx_in, Hi. }
  rewrite E3. cbn [bind goodL Bool.eqb]. set (st' := set_lim _ _).
  assert (Sh : shown st st' img2).
  { constructor; cbn [st' lg lsize llut lim larea set_lim set_larea]; auto.
    - rewrite (sn_size _ _ _ S2), (pr_size _ _ _ P1). reflexivity.
    - rewrite (sn_lut _ _ _ S2), (pr_lut _ _ _ P1). reflexivity.
    - intros x y Hi H0. rewrite (insideB_size img0 img2 x y Sz02) in Hi. fold m in H0 |- *. destruct (Px2 x y) as [A _]; [rewrite (insideB_size img0 img1 x y Sz1); exact Hi|]. rewrite (A H0). apply V1, Hi.
    - intros x y Hi H0. rewrite (insideB_size img1 img2 x y Sz2) in Hi. apply (Px2 x y Hi), H0.
    - intros f Hf. rewrite Ar3, (sn_area _ _ _ S2), Ar1. unfold holdList. f_equal. destruct (in_dec Nat.eq_dec f (liveFrom 1 (faces m))) as [K|K], (Nat.eqb_spec f 0) as [Q|Q]; auto.
      + apply liveFrom_in in K. lia.
      + destruct K. apply liveFrom_in. split; [lia | exact Hf]. }
  split; [|exists img2; exact Sh]. apply (fresh_IInv st st' img2); cbn [st' lg lsize llut lim set_lim set_larea]; rewrite ?G2; auto.
  + destruct (sn_ok _ _ _ S2) as [K1 K2]. split; [exact K1 | exact K2].
  + apply (sh_size _ _ _ Sh).
  + apply (sh_lut _ _ _ Sh).
  + rewrite (sn_size _ _ _ S2), (pr_size _ _ _ P1). apply (sh_wh _ _ _ Sh).
  + intros x y Hi. split; [|apply (sh_cross _ _ _ Sh x y Hi)]. intros H0. rewrite (insideB_size img1 img2 x y Sz2) in Hi. destruct (Px2 x y Hi) as [A _]. rewrite (A H0). apply (N1 x y Hi).
Qed.

(** ** initializeMap *)
Definition onTop m (ord : list nat) (x y : Z) (l : nat) : Prop := lastOf (fun l => surrounds m x y l \/ touches m x y l) ord l.
(** the pixel is marked when the faces are drawn *)
Definition neat m ord (x y : Z) : Prop := (exists l, bridgeAcross unit m x y l) \/ (exists l, onTop m ord x y l /\ touches m x y l).
Record begun m (ord : list nat) st' (img : image) : Prop := {
  bg_lut : llut st' = initIdentity (length (faces m)); bg_im : lim st' = Some img;
  bg_wh : iw img = fst (lsize st') /\ ih img = snd (lsize st');
  bg_free : forall x y, insideB img x y = true -> cnt m x y = 0 ->
    (exists l, lastOf (surrounds m x y) ord l /\ ipx img x y = Z.of_nat l) \/ ((forall l, In l ord -> ~ surrounds m x y l) /\ ipx img x y = 0);
  bg_cross : forall x y, insideB img x y = true -> 0 < cnt m x y -> ipx img x y = - cnt m x y;
  bg_area : exists img0, sameSize img img0 /\ (forall f, larea st' f = Z.of_nat (length (holdList img0 (Z.of_nat f)))) /\
    (forall x y, insideB img x y = true -> cnt m x y = 0 -> ipx img0 x y = ipx img x y) /\
    (forall x y, insideB img x y = true -> 0 < cnt m x y -> neat m ord x y -> ipx img0 x y = -1) }.

Lemma bridge_cnt m x y l : bridgeAcross unit m x y l -> 0 < cnt m x y.
Proof. intros (e & He & _ & K). apply (crossed_cnt srt Hsrt unit m x y l). exists e. split; [apply isEdge_iff, He | exact K]. Qed.

Theorem linit_spec st ord par wi : LInv st -> 0 <= fst (lsize st) -> lallowed st (LInit ord par wi) ->
  goodL False (fun st' => LInv st' /\ lsize st' = lsize st /\ lim st = None /\ exec (lg st) (Init ord par) = Ok (lg st') /\
    (if wi then exists img, begun (lg st') ord st' img else lim st' = None /\ larea st' = fun _ => 0)) (linit srt unit st ord par wi).
Proof.
  intros L Hw A. unfold linit. destruct (lim st) as [i0|] eqn:Li; cbn [isLive]; [exact I|].
  destruct (wi && negb (0 <? fst (lsize st) * snd (lsize st))); [exact I|]. cbn [lallowed] in A.
  destruct (li_inv _ _ _ L) as [Gp|M0].
  2:{ unfold initializeMap. destruct (Nat.eqb_spec (length (faces (lg st))) 0) as [E0|_]; [|exact I]. destruct (mi_0 _ M0). unfold fAt. rewrite (faces_len_nil _ E0). reflexivity. }
  destruct (Init_spec (lg st) ord par Gp A) as [(-> & _)|(ms & m & _ & _ & _ & Ee & E & Rl & M & _)]; [exact I|]. rewrite E. cbn [bind].
  destruct (exec_step (lg st) (Init ord par) m (or_introl Gp) A E) as (_ & _ & Gg & _). specialize (Gg (li_geo _ _ _ L) I).
  assert (Cm : forall st1, lg st1 = m -> lsc st1 = lsc st -> cacheOK st1).
  { intros st1 E1 E2. split; rewrite E1, E2.
    - intros l s e Hs He. pose proof (rf_edge _ _ Rl l) as K. rewrite He in K. destruct (eAt ms l) as [e0|] eqn:E0; [|contradiction]. destruct K as (_ & _ & -> & _).
      apply (li_cache _ _ _ L l s e0 Hs). unfold eAt in *. rewrite <- Ee. exact E0.
    - intros l Hl. apply (li_new _ _ _ L). rewrite (rf_len _ _ Rl), Ee in Hl. exact Hl. }
  set (st1 := set_larea (set_lg st m) (fun _ => 0)). destruct wi.
  - set (img0 := mkImg _ _ _). set (st2 := set_llut st1 _).
    pose proof (drawFaces_spec srt Hsrt unit m M Gg ord st2 img0 eq_refl (Cm st2 eq_refl eq_refl) Hw) as D. destruct (drawFaces srt unit st2 img0 ord) as [[st3 img1]| | |]; cbn [goodL bind] in D |- *; auto.
    cbn [fst snd] in D. destruct D as (P1 & Ar1 & Sz1 & Px1). pose proof (pr_g _ _ _ P1) as G1. change (lg st2) with m in G1.
    destruct (drawBridges_spec srt Hsrt unit m M Gg (liveFrom 0 (edges m)) st3 img1 G1 (pr_ok _ _ _ P1)) as (st4 & img2 & E2 & S2 & Sz2 & Px2). { intros l Hl. apply liveFrom_in in Hl. apply Hl. }
    rewrite E2. cbn [bind]. pose proof (sn_g _ _ _ S2) as G2. rewrite G1 in G2.
    assert (Sz02 : sameSize img0 img2) by (apply (sameSize_trans img0 img1); assumption).
    (* what has been drawn *)
    assert (Dr : forall x y, insideB img0 x y = true ->
      (cnt m x y = 0 -> (exists l, lastOf (surrounds m x y) ord l /\ ipx img2 x y = Z.of_nat l) \/ ((forall l, In l ord -> ~ surrounds m x y l) /\ ipx img2 x y = 0)) /\
      (neat m ord x y -> ipx img2 x y = -1) /\
      (ipx img2 x y = -1 \/ 0 <= ipx img2 x y /\ fAt m (Z.to_nat (ipx img2 x y)) <> None)).
    { intros x y Hi. destruct (Px2 x y) as [B1 B2]; [rewrite (insideB_size img0 img1 x y Sz1); exact Hi|]. specialize (Px1 x y Hi).
      assert (Dec : (exists l, bridgeAcross unit m x y l) \/ ~ (exists l, bridgeAcross unit m x y l)).
      { destruct (existsb (fun k => match eAt m k with Some e => isBridge e && crossB (epts e) x y | None => false end) (liveFrom 0 (edges m))) eqn:Q.
        - left. apply existsb_exists in Q. destruct Q as (k & Hk & Q). exists k. destruct (eAt m k) as [e'|] eqn:He'; [|discriminate]. apply andb_true_iff in Q. destruct Q as [Q1 Q2].
          exists e'. split; [exact He'|]. split; [exact Q1 | apply (crossB_iff srt Hsrt unit), Q2].
        - right. intros (k & e' & He' & Q1 & Q2). apply (crossB_iff srt Hsrt unit) in Q2. assert (K : existsb (fun k => match eAt m k with Some e => isBridge e && crossB (epts e) x y | None => false end) (liveFrom 0 (edges m)) = true);
            [apply existsb_exists; exists k; split; [apply liveFrom_in; split; [lia | unfold eAt in He'; rewrite He'; discriminate]|]; rewrite He', Q1; exact Q2 | congruence]. }
      assert (In' : forall k, bridgeAcross unit m x y k -> In k (liveFrom 0 (edges m))).
      { intros k (e & He & _). apply liveFrom_in. split; [lia|]. unfold eAt in He. rewrite He. discriminate. }
      assert (B1' : (exists l, bridgeAcross unit m x y l) -> ipx img2 x y = -1) by (intros (k & Hk); apply B1; exists k; auto).
      assert (B2' : ~ (exists l, bridgeAcross unit m x y l) -> ipx img2 x y = ipx img1 x y) by (intros H; apply B2; intros (k & _ & Hk); apply H; exists k; exact Hk). clear B1 B2.
      split; [|split].
      - intros H0. rewrite B2' by (intros (k & Hk); apply bridge_cnt in Hk; lia). destruct Px1 as [(l & K1 & K2 & K3)|(K1 & K2)].
        + assert (NT : forall k, ~ touches m x y k) by (intros k Hk; apply (touches_cnt srt Hsrt unit m x y k (mi_v _ M)) in Hk; lia).
          destruct K1 as (a & b & E1 & Q1 & Q2). assert (Sl : surrounds m x y l) by (destruct Q1 as [Q1|Q1]; [exact Q1 | destruct (NT _ Q1)]).
          left. exists l. split; [|apply K2, Sl]. exists a, b. split; [exact E1|]. split; [exact Sl|]. intros k Hk Hs. apply (Q2 k Hk). left. exact Hs.
        + right. split; [|exact K2]. intros l Hl. apply (K1 l Hl).
      - intros [N|(l & N1 & N2)]; [apply B1', N|]. destruct Dec as [Dc|Dc]; [apply B1', Dc|]. rewrite (B2' Dc). destruct Px1 as [(k & K1 & K2 & K3)|(K1 & K2)].
        + destruct (lastOf_in _ _ _ K1) as [I1 [T|T]]; [|apply K3, T]. (* both last *)
          assert (k = l). { destruct K1 as (a & b & E1 & Q1 & Q2), N1 as (a' & b' & E1' & Q1' & Q2'). clear -E1 E1' Q1 Q2 Q1' Q2'. rewrite E1 in E1'. clear E1. revert a' E1'.
            induction a as [|c a IH]; intros [|c' a'] E; cbn [app] in E; injection E as E0 E'; auto.
            - subst. exfalso. apply (Q2 l); [apply in_or_app; right; left; reflexivity | exact Q1'].
            - subst. exfalso. apply (Q2' k); [apply in_or_app; right; left; reflexivity | exact Q1].
            - apply (IH a' E'). }
          subst. apply K3, N2.
        + exfalso. destruct (lastOf_in _ _ _ N1) as [I1 _]. destruct (K1 l I1). contradiction.
      - destruct Dec as [Dc|Dc]; [left; apply B1', Dc|]. rewrite (B2' Dc). destruct Px1 as [(k & K1 & K2 & K3)|(K1 & K2)].
        + destruct (lastOf_in _ _ _ K1) as [I1 [T|T]]; [|left; apply K3, T]. right. rewrite (K2 T), Nat2Z.id. split; [lia | apply (surrounds_live _ _ _ _ T)].
        + right. rewrite K2. cbn [img0 ipx]. split; [lia | apply (mi_0 _ M)]. }
    destruct (countAreas_spec m img2) with (ps := allPx (iw img2) (ih img2)) (area := larea st4) as (area & E3 & Ar3).
    { intros x y Hi Hv. rewrite (insideB_size img0 img2 x y Sz02) in Hi. destruct (Dr x y Hi) as (_ & _ & [K|K]); [lia | apply K]. }
    { intros x y Hi. apply insideB_iff, allPx_in, Hi. }
    rewrite E3. cbn [bind]. set (img3 := clearMarks img2).
    assert (Sz3 : sameSize img0 img3) by exact Sz02.
    assert (Z3 : forall x y, insideB img0 x y = true -> 0 <= ipx img3 x y /\ fAt m (Z.to_nat (ipx img3 x y)) <> None /\ (cnt m x y = 0 -> ipx img3 x y = ipx img2 x y)).
    { intros x y Hi. destruct (Dr x y Hi) as (F & _ & K). cbn [img3 clearMarks ipx]. destruct (Z.ltb_spec (ipx img2 x y) 0) as [Q|Q].
      - split; [lia|]. split; [apply (mi_0 _ M)|]. intros H0. destruct (F H0) as [(l & _ & E4)|(_ & E4)]; rewrite E4 in Q; lia.
      - split; [exact Q|]. split; [destruct K as [K|K]; [lia | apply K] | reflexivity]. }
    destruct (marked_all m img3 M Gg st4 G2 (sn_ok _ _ _ S2)) as (st5 & img4 & E4 & S4 & Sz4 & Px4); [intros x y Hi; rewrite (insideB_size img0 img3 x y Sz3) in Hi; apply (Z3 x y Hi)|].
    rewrite E4. cbn [bind goodL]. pose proof (sn_g _ _ _ S4) as G4. rewrite G2 in G4. assert (Sz04 : sameSize img0 img4) by (apply (sameSize_trans img0 img3); assumption).
    set (st' := set_lim _ _). assert (Es : lsize st' = lsize st) by (cbn [st' lsize set_lim set_larea]; rewrite (sn_size _ _ _ S4), (sn_size _ _ _ S2), (pr_size _ _ _ P1); reflexivity).
    assert (El : llut st' = initIdentity (length (faces m))) by (cbn [st' llut set_lim set_larea]; rewrite (sn_lut _ _ _ S4), (sn_lut _ _ _ S2), (pr_lut _ _ _ P1); reflexivity).
    assert (Ewh : iw img4 = fst (lsize st') /\ ih img4 = snd (lsize st')) by (rewrite Es; exact Sz04).
    assert (Eg : lg st' = m) by exact G4.
    split; [|split; [exact Es|split; [reflexivity|split; [rewrite Eg; exact E|]]]].
    + apply (fresh_IInv st' st' img4); rewrite ?Eg; auto.
      * destruct (sn_ok _ _ _ S4) as [K1 K2]. split; [exact K1 | exact K2].
      * intros x y Hi. rewrite (insideB_size img0 img4 x y Sz04) in Hi. destruct (Px4 x y) as [B1 B2]; [rewrite (insideB_size img0 img3 x y Sz3); exact Hi|]. split; [|exact B2].
        intros H0. rewrite (B1 H0). destruct (Z3 x y Hi) as (Q1 & Q2 & _). auto.
    + exists img4. rewrite Eg. constructor; auto.
      * intros x y Hi H0. rewrite (insideB_size img0 img4 x y Sz04) in Hi. destruct (Px4 x y) as [B1 B2]; [rewrite (insideB_size img0 img3 x y Sz3); exact Hi|]. rewrite (B1 H0). destruct (Z3 x y Hi) as (_ & _ & ->); [|exact H0].
        apply (Dr x y Hi), H0.
      * intros x y Hi H0. rewrite (insideB_size img0 img4 x y Sz04) in Hi. destruct (Px4 x y) as [B1 B2]; [rewrite (insideB_size img0 img3 x y Sz3); exact Hi|]. apply B2, H0.
      * exists img2. split; [destruct Sz02, Sz04; split; congruence|]. split; [|split].
        -- intros f. cbn [st' larea set_lim set_larea]. rewrite Ar3, (sn_area _ _ _ S2), Ar1. reflexivity.
        -- intros x y Hi H0. rewrite (insideB_size img0 img4 x y Sz04) in Hi. destruct (Px4 x y) as [B1 B2]; [rewrite (insideB_size img0 img3 x y Sz3); exact Hi|]. rewrite (B1 H0). symmetry. apply (Z3 x y Hi), H0.
        -- intros x y Hi _ N. rewrite (insideB_size img0 img4 x y Sz04) in Hi. apply (Dr x y Hi), N.
  - cbn [goodL]. split; [|split; [reflexivity|split; [reflexivity|split; [exact E | split; [exact Li | reflexivity]]]]]. destruct (Cm st1 eq_refl eq_refl) as [C1 C2]. constructor; auto.
    + right. exact M.
    + cbn [st1 lim set_larea set_lg]. rewrite Li. discriminate.
Qed.
End Switch.
