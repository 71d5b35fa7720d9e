(** Drawing the label image: setHasLabelImage and initializeMap *)
From Coq Require Import QArith Sorted.
From Verif Require Import Base Orbit FaceInv GeoMap_Model GeoMap_Views GeoMap_SInv GeoMap_MergeEdges GeoMap_Loops GeoMap_Init GeoMap_MInv GeoMap_History GeoMap_Geometry GeoMap_Spec GeoMap_Facts GeoMap_Results
  Scanlines_Model Scanlines_Spec Scanlines_Proofs ScanPoly_Model ScanPoly_Spec ScanPoly_Proofs LabelLUT_Model
  LabelImage_Model LabelImage_Spec LabelImage_Loops LabelImage_Cover LabelImage_Cache LabelImage_Inv LabelImage_Contour.
Local Open Scope Z_scope.

(** [l] is the last in [ls] with [P] *)
Definition lastOf (P : nat -> Prop) (ls : list nat) (l : nat) : Prop := exists a b, ls = a ++ l :: b /\ P l /\ forall k, In k b -> ~ P k.
Lemma lastOf_cons (P : nat -> Prop) k ls l : lastOf P ls l -> lastOf P (k :: ls) l.
Proof. intros (a & b & -> & H). exists (k :: a), b. split; [reflexivity | exact H]. Qed.
Lemma lastOf_here (P : nat -> Prop) l ls : P l -> (forall k, In k ls -> ~ P k) -> lastOf P (l :: ls) l.
Proof. intros H K. exists [], ls. auto. Qed.
Lemma lastOf_in P ls l : lastOf P ls l -> In l ls /\ P l.
Proof. intros (a & b & -> & H & _). split; [apply in_or_app; right; left; reflexivity | exact H]. Qed.
Lemma lastOf_max P ls l : StronglySorted lt ls -> lastOf P ls l -> forall k, In k ls -> P k -> (k <= l)%nat.
Proof.
  intros S (a & b & -> & H & K) k Hk Pk. apply in_app_or in Hk. destruct Hk as [Hk|[->|Hk]]; [|lia|destruct (K k Hk Pk)].
  induction a as [|c a IH]; [destruct Hk|]. cbn [app] in S. inversion S as [|? ? S' F]; subst. destruct Hk as [->|Hk]; [|apply IH; assumption].
  rewrite Forall_forall in F. specialize (F l). assert (k < l)%nat by (apply F, in_or_app; right; left; reflexivity). lia.
Qed.

Lemma filter_sorted P : forall n k, StronglySorted lt (filter P (seq k n)).
Proof.
  induction n as [|n IH]; intros k; cbn [seq filter]; [constructor|]. destruct (P k); [|apply IH]. constructor; [apply IH|]. apply Forall_forall. intros l Hl.
  apply filter_In in Hl. destruct Hl as [Hl _]. apply in_seq in Hl. lia.
Qed.
Lemma liveFrom_sorted {A} k (l : list (option A)) : StronglySorted lt (liveFrom k l).
Proof. apply filter_sorted. Qed.
Lemma isLive_tget {A} (l : list (option A)) i : isLive (nth i l None) = true <-> tget l i <> None.
Proof.
  unfold tget. destruct (nth_error l i) as [o|] eqn:E.
  - rewrite (nth_error_nth _ _ _ E). destruct o; cbn; split; congruence.
  - apply nth_error_None in E. rewrite nth_overflow by exact E. cbn. split; congruence.
Qed.
Lemma liveFrom_in {A} k (l : list (option A)) i : In i (liveFrom k l) <-> (k <= i)%nat /\ tget l i <> None.
Proof.
  unfold liveFrom. rewrite filter_In, isLive_tget, in_seq. split; [intros [H1 H2]; split; [lia | exact H2]|]. intros [H1 H2]. split; [|exact H2].
  destruct (tget l i) eqn:E; [|congruence]. apply tget_lt in E. lia.
Qed.

(** sum over the live entries *)
Fixpoint addN (f : nat -> Z) (L : list nat) : Z := match L with [] => 0 | d :: t => f d + addN f t end.
Lemma addN_app f a b : addN f (a ++ b) = addN f a + addN f b.
Proof. induction a as [|d a IH]; cbn [app addN]; [reflexivity|]. rewrite IH. lia. Qed.
Lemma addN_tot f P : (forall l, P l = false -> f l = 0) -> forall n, addN f (filter P (seq 0 n)) = tot f n.
Proof.
  intros H. induction n as [|n IH]; [reflexivity|]. rewrite seq_S, filter_app, addN_app, IH. cbn [Nat.add filter tot]. destruct (P n) eqn:E; cbn [addN]; [lia|]. rewrite (H n E). lia.
Qed.

(** the pixels of an image *)
Lemma allPx_in w h x y : In (x, y) (allPx w h) <-> 0 <= x < w /\ 0 <= y < h.
Proof.
  unfold allPx. rewrite in_flat_map. split.
  - intros (b & Hb & Hx). apply in_map_iff in Hx. destruct Hx as (a & E & Ha). injection E as <- <-. apply in_seq in Ha, Hb. lia.
  - intros [Hx Hy]. exists (Z.to_nat y). split; [apply in_seq; lia|]. apply in_map_iff. exists (Z.to_nat x). split; [f_equal; lia | apply in_seq; lia].
Qed.
Lemma allPx_nodup w h : NoDup (allPx w h).
Proof.
  unfold allPx. generalize (seq_NoDup (Z.to_nat h) 0). induction (seq 0 (Z.to_nat h)) as [|b l IH]; intros H; cbn [flat_map]; [constructor|].
  inversion H as [|? ? Nb Nl]; subst. apply NoDup_app_intro; [| apply IH, Nl |].
  - apply FinFun.Injective_map_NoDup; [|apply seq_NoDup]. intros i j E. injection E as E. lia.
  - intros [x y] H1 H2. apply in_map_iff in H1. destruct H1 as (a & E & _). injection E as _ E. apply in_flat_map in H2. destruct H2 as (b' & Hb' & H2). apply in_map_iff in H2. destruct H2 as (a' & E' & _).
    injection E' as _ E'. assert (b = b') by lia. subst. contradiction.
Qed.
Lemma insideB_iff img x y : insideB img x y = true <-> 0 <= x < iw img /\ 0 <= y < ih img.
Proof. unfold insideB. rewrite !andb_true_iff, !Z.leb_le, !Z.ltb_lt. tauto. Qed.

(** the pixels holding [v] *)
Definition holding (img : image) (v : Z) (ps : list (Z * Z)) : Prop := NoDup ps /\ forall x y, In (x, y) ps <-> insideB img x y = true /\ ipx img x y = v.
Definition holdList (img : image) (v : Z) : list (Z * Z) := filter (fun p => ipx img (fst p) (snd p) =? v) (allPx (iw img) (ih img)).
Lemma holdList_ok img v : holding img v (holdList img v).
Proof.
  split; [apply NoDup_filter, allPx_nodup|]. intros x y. unfold holdList. rewrite filter_In, allPx_in, insideB_iff. cbn [fst snd]. rewrite Z.eqb_eq. reflexivity.
Qed.

Lemma countAreas_spec m img : (forall x y, insideB img x y = true -> 0 <= ipx img x y -> fAt m (Z.to_nat (ipx img x y)) <> None) ->
  forall ps area, (forall x y, In (x, y) ps -> insideB img x y = true) ->
  exists area', countAreas m img ps area = Ok area' /\ forall f, area' f = area f + Z.of_nat (length (filter (fun p => ipx img (fst p) (snd p) =? Z.of_nat f) ps)).
Proof.
  intros H. induction ps as [|[x y] ps IH]; intros area Hin; cbn [countAreas].
  - exists area. split; [reflexivity|]. intros f. cbn. lia.
  - assert (Hi : insideB img x y = true) by (apply Hin; left; reflexivity). unfold pixGet. rewrite Hi. cbn [bind]. rewrite Z.geb_leb.
    assert (Hin' : forall a b, In (a, b) ps -> insideB img a b = true) by (intros; apply Hin; right; assumption).
    destruct (Z.leb_spec 0 (ipx img x y)) as [Hv|Hv].
    + specialize (H x y Hi Hv). destruct (fAt m (Z.to_nat (ipx img x y))) as [f|] eqn:Ef; [|congruence]. rewrite (deref_face _ _ _ Ef). cbn [bind].
      destruct (IH (updN area (Z.to_nat (ipx img x y)) (area (Z.to_nat (ipx img x y)) + 1)) Hin') as (a' & E & Ha). exists a'. split; [exact E|]. intros g. rewrite Ha. cbn [filter fst snd]. unfold updN.
      destruct (Nat.eqb_spec g (Z.to_nat (ipx img x y))) as [Q|N], (Z.eqb_spec (ipx img x y) (Z.of_nat g)) as [E1|E1]; cbn [length]; try lia. rewrite Q. lia.
    + destruct (IH area Hin') as (a' & E & Ha). exists a'. split; [exact E|]. intros g. rewrite Ha. cbn [filter fst snd]. destruct (Z.eqb_spec (ipx img x y) (Z.of_nat g)); [lia | reflexivity].
Qed.

Section Setup.
Variable srt : list seg -> list seg.
Hypothesis Hsrt : sorter srt.
Variable unit : positive.
Notation chain := (chain unit).
Notation crosses := (crosses unit).
Notation crossB := (crossB srt unit).
Notation ind := (ind srt unit).
Notation cnt := (cnt srt unit).
Notation cacheOK := (cacheOK unit).
Notation scanned := (scanned unit).
Notation LInv := (LInv srt unit).
Notation IInv := (IInv srt unit).

(** the outer contour of a finite face *)
Definition outerOf m (l : nat) (L : list Z) : Prop :=
  l <> 0%nat /\ exists f a t N, fAt m l = Some f /\ fanchors f = a :: t /\ In a (darts m) /\ per (phi m) a N /\ L = orb (phi m) a N.
Lemma per_unique f x N N' : per f x N -> per f x N' -> N = N'.
Proof.
  intros P P'. destruct (Nat.lt_trichotomy N N') as [H|[H|H]]; [|exact H|]; exfalso.
  - apply (pe_min _ _ _ P' N); [pose proof (pe_pos _ _ _ P); lia | apply P].
  - apply (pe_min _ _ _ P N'); [pose proof (pe_pos _ _ _ P'); lia | apply P'].
Qed.
Lemma outerOf_unique m l L L' : outerOf m l L -> outerOf m l L' -> L = L'.
Proof.
  intros (_ & f & a & t & N & E1 & E2 & _ & P & ->) (_ & f' & a' & t' & N' & E1' & E2' & _ & P' & ->). assert (f' = f) by congruence. subst. assert (a' = a) by congruence. subst.
  rewrite (per_unique _ _ _ _ P P'). reflexivity.
Qed.
Definition surrounds m (x y : Z) (l : nat) : Prop := exists L, outerOf m l L /\ encl unit m L x y.
Definition touches m (x y : Z) (l : nat) : Prop := exists L, outerOf m l L /\ dCross unit m x y L.

Lemma dCross_dec m x y L : dCross unit m x y L \/ ~ dCross unit m x y L.
Proof.
  destruct (existsb (fun d => crossB (dpts m d) x y) L) eqn:E.
  - left. apply existsb_exists in E. destruct E as (d & Hd & E). exists d. split; [exact Hd | apply (crossB_iff srt Hsrt unit), E].
  - right. intros (d & Hd & K). apply (crossB_iff srt Hsrt unit) in K. assert (existsb (fun d => crossB (dpts m d) x y) L = true) by (apply existsb_exists; exists d; auto). congruence.
Qed.
Lemma encl_dec m x y L : encl unit m L x y \/ ~ encl unit m L x y.
Proof. unfold encl. destruct (dCross_dec m x y L) as [H|H]; [tauto|]. destruct (Z.lt_decidable 0 (winds unit m x y L)); tauto. Qed.
Lemma outer_surrounds m l L x y : outerOf m l L -> (surrounds m x y l <-> encl unit m L x y).
Proof. intros H. split; [intros (L' & H' & K); rewrite (outerOf_unique m l L L' H H'); exact K | intros K; exists L; auto]. Qed.
Lemma outer_touches m l L x y : outerOf m l L -> (touches m x y l <-> dCross unit m x y L).
Proof. intros H. split; [intros (L' & H' & K); rewrite (outerOf_unique m l L L' H H'); exact K | intros K; exists L; auto]. Qed.
Lemma outer_darts m l L d : SInv m -> outerOf m l L -> In d L -> In d (darts m).
Proof.
  intros V (_ & f & a & t & N & _ & _ & Ha & P & ->) Hd. apply (orb_in _ _ _ P) in Hd. exact (reach_in _ _ _ (phi_perm m (sv_si _ V)) a d Ha Hd).
Qed.
Lemma dart_cross m d e x y : eAt m (elab d) = Some e -> (crosses (dpts m d) x y <-> crosses (epts e) x y).
Proof. intros He. unfold dpts. rewrite He. destruct (0 <? d); [reflexivity | apply crosses_rev]. Qed.
Lemma crossed_cnt m x y l : crossedBy unit m l x y -> 0 < cnt m x y.
Proof.
  intros H. apply (ind_one srt Hsrt unit) in H. pose proof (tot_ge (ind m x y) (ind_nn srt unit m x y) (length (edges m)) l) as T.
  assert (He : (l < length (edges m))%nat). { destruct (le_lt_dec (length (edges m)) l) as [K|K]; [|exact K]. unfold LabelImage_Cache.ind, eAt, tget in H. apply nth_error_None in K. rewrite K in H. lia. }
  specialize (T He). unfold LabelImage_Cache.cnt. lia.
Qed.
Lemma touches_cnt m x y l : SInv m -> touches m x y l -> 0 < cnt m x y.
Proof.
  intros V (L & O & d & Hd & K). pose proof (outer_darts m l L d V O Hd) as Dd. destruct (live_edge m d Dd) as (e & He). apply (dart_cross m d e) in K; [|exact He].
  apply (crossed_cnt m x y (elab d)). exists e. split; [apply isEdge_iff, He | exact K].
Qed.

(** ** The loops over faces *)
Lemma face_pick st l : cacheOK st -> MInv (lg st) -> geo (lg st) -> l <> 0%nat -> fAt (lg st) l <> None ->
  exists L st' s, outerOf (lg st) l L /\ faceScan srt unit st l = Ok (st', normalize srt s) /\ scanned st st' /\ contourScan unit (lg st) L s.
Proof.
  intros C M G Hl Hf. destruct (fAt (lg st) l) as [f|] eqn:Ef; [|congruence].
  destruct (faceScan_spec srt Hsrt unit st l f C M G Ef Hl) as (a & t & N & st' & s & Ea & Ha & P & E & Sn & CS).
  exists (orb (phi (lg st)) a N), st', s. split; [|auto]. split; [exact Hl|]. exists f, a, t, N. auto.
Qed.

Record prepared st st' : Prop := {
  pr_g : lg st' = lg st; pr_size : lsize st' = lsize st; pr_im : lim st' = lim st; pr_lut : llut st' = llut st; pr_ok : cacheOK st' }.
Lemma prepared_refl st : cacheOK st -> prepared st st. Proof. intros H. constructor; auto. Qed.
Lemma prepared_trans a b c : prepared a b -> prepared b c -> prepared a c.
Proof. intros [] []. constructor; congruence || assumption. Qed.
Lemma scanned_prepared a b : scanned a b -> prepared a b.
Proof. intros []. constructor; assumption. Qed.

Lemma fillFaces_spec m : MInv m -> geo m -> forall ls st img, lg st = m -> cacheOK st -> 0 <= iw img -> (forall l, In l ls -> l <> 0%nat /\ fAt m l <> None) ->
  exists st' img', fillFaces srt unit st img ls = Ok (st', img') /\ prepared st st' /\ sameSize img img' /\
    (forall f, larea st' f = if in_dec Nat.eq_dec f ls then 0 else larea st f) /\
    (forall x y, insideB img x y = true ->
      (exists l, lastOf (surrounds m x y) ls l /\ ipx img' x y = Z.of_nat l) \/ ((forall l, In l ls -> ~ surrounds m x y l) /\ ipx img' x y = ipx img x y)).
Proof.
  intros M G. induction ls as [|l ls IH]; intros st img Hg C Hw Hls; cbn [fillFaces].
  - exists st, img. split; [reflexivity|]. split; [apply prepared_refl, C|]. split; [split; reflexivity|]. split; [reflexivity|]. intros x y _. right. split; [intros l [] | reflexivity].
  - destruct (Hls l (or_introl eq_refl)) as [Nl Fl]. destruct (face_pick st l C) as (L & st1 & s & O & E & Sn & CS); [rewrite Hg; assumption.. | exact Nl | rewrite Hg; exact Fl|].
    rewrite Hg in O, CS. rewrite E. cbn [bind fst snd]. destruct (fillImage_spec srt Hsrt unit m L s img (Z.of_nat l) CS Hw) as (img1 & E1 & Sz & Hpx). rewrite E1. cbn [bind].
    set (st2 := set_larea st1 _).
    assert (C2 : cacheOK st2) by (destruct (sn_ok _ _ _ Sn) as [K1 K2]; split; [exact K1 | exact K2]).
    assert (P2 : prepared st st2) by (constructor; try apply Sn; exact C2).
    destruct (IH st2 img1) as (st' & img' & E' & P' & Sz' & Ar' & Px').
    { rewrite (pr_g _ _ P2). exact Hg. } { exact C2. } { destruct Sz as [-> _]. exact Hw. } { intros k Hk. apply Hls. right. exact Hk. }
    exists st', img'. split; [exact E'|]. split; [apply (prepared_trans st st2); assumption|]. split; [apply (sameSize_trans img img1); assumption|]. split.
    + intros f. rewrite Ar'. unfold st2. cbn [larea set_larea]. unfold updN. rewrite (sn_area _ _ _ Sn). destruct (in_dec Nat.eq_dec f ls) as [I1|I1], (in_dec Nat.eq_dec f (l :: ls)) as [I2|I2], (Nat.eqb_spec f l) as [Q|Q]; auto; exfalso; cbn [In] in I2; intuition congruence.
    + intros x y Hi. destruct (Px' x y) as [(k & K1 & K2)|(K1 & K2)]; [rewrite (insideB_size img img1 x y Sz); exact Hi | left; exists k; split; [apply lastOf_cons, K1 | exact K2]|].
      destruct (Hpx x y Hi) as [A B]. destruct (encl_dec m x y L) as [D|D].
      * left. exists l. split; [apply lastOf_here; [apply (outer_surrounds m l L x y O), D | exact K1]|]. rewrite K2. apply A, D.
      * right. split; [|rewrite K2; apply B, D]. intros k [<-|Hk]; [rewrite (outer_surrounds m l L x y O); exact D | apply K1, Hk].
Qed.

(** drawn contours cover what lies below *)
Lemma drawFaces_spec m : MInv m -> geo m -> forall ls st img, lg st = m -> cacheOK st -> 0 <= iw img ->
  goodL False (fun r => prepared st (fst r) /\ larea (fst r) = larea st /\ sameSize img (snd r) /\
    (forall x y, insideB img x y = true ->
      (exists l, lastOf (fun l => surrounds m x y l \/ touches m x y l) ls l /\ (surrounds m x y l -> ipx (snd r) x y = Z.of_nat l) /\ (touches m x y l -> ipx (snd r) x y = -1)) \/
      ((forall l, In l ls -> ~ surrounds m x y l /\ ~ touches m x y l) /\ ipx (snd r) x y = ipx img x y))) (drawFaces srt unit st img ls).
Proof.
  intros M G. induction ls as [|l ls IH]; intros st img Hg C Hw; cbn [drawFaces].
  - cbn [goodL fst snd]. split; [apply prepared_refl, C|]. split; [reflexivity|]. split; [split; reflexivity|]. intros x y _. right. split; [intros l [] | reflexivity].
  - destruct (isLive (nth l (faces (lg st)) None)) eqn:El.
    + rewrite isLive_tget, Hg in El. destruct (Nat.eq_dec l 0) as [->|Nl].
      { destruct (fAt m 0) as [f|] eqn:Ef; [|contradiction]. unfold faceScan. rewrite Hg, (deref_face _ _ _ Ef). exact I. }
      destruct (face_pick st l C) as (L & st1 & s & O & E & Sn & CS); [rewrite Hg; assumption.. | exact Nl | rewrite Hg; exact El|].
      rewrite Hg in O, CS. rewrite E. cbn [bind fst snd]. destruct (fillImage_spec srt Hsrt unit m L s img (Z.of_nat l) CS Hw) as (img1 & E1 & Sz & Hpx). rewrite E1. cbn [bind].
      destruct (drawImage_spec srt Hsrt unit m L s img1 (-1) CS) as (img2 & E2 & Sz2 & Hpx2). rewrite E2. cbn [bind].
      assert (Sz12 : sameSize img img2) by (apply (sameSize_trans img img1); assumption).
      eapply goodL_mono; [apply (IH st1 img2)|].
      { rewrite (sn_g _ _ _ Sn). exact Hg. } { apply (sn_ok _ _ _ Sn). } { destruct Sz12 as [-> _]. exact Hw. }
      intros [st' img'] (P' & Ar' & Sz' & Px'). cbn [fst snd] in *. split; [apply (prepared_trans st st1); [apply scanned_prepared, Sn | exact P']|].
      split; [rewrite Ar'; apply (sn_area _ _ _ Sn)|]. split; [apply (sameSize_trans img img2); assumption|].
      intros x y Hi. destruct (Px' x y) as [(k & K1 & K2)|(K1 & K2)]; [rewrite (insideB_size img img2 x y Sz12); exact Hi | left; exists k; split; [apply lastOf_cons, K1 | exact K2]|].
      destruct (Hpx x y Hi) as [A B]. destruct (Hpx2 x y) as [A2 B2]; [rewrite (insideB_size img img1 x y Sz); exact Hi|]. destruct (dCross_dec m x y L) as [D|D]; [|destruct (encl_dec m x y L) as [D'|D']].
      * left. exists l. split; [apply lastOf_here; [right; apply (outer_touches m l L x y O), D | intros k Hk; destruct (K1 k Hk); tauto]|].
        split; [|intros _; rewrite K2; apply A2, D]. intros K. apply (outer_surrounds m l L x y O) in K. destruct K as [K _]. contradiction.
      * left. exists l. split; [apply lastOf_here; [left; apply (outer_surrounds m l L x y O), D' | intros k Hk; destruct (K1 k Hk); tauto]|].
        split; [intros _; rewrite K2, (B2 D); apply A, D'|]. intros K. apply (outer_touches m l L x y O) in K. contradiction.
      * right. split; [|rewrite K2, (B2 D); apply B, D']. intros k [<-|Hk]; [|apply K1, Hk]. rewrite (outer_surrounds m l L x y O), (outer_touches m l L x y O). split; assumption.
    + assert (Dl : ~ fAt m l <> None) by (intros K; apply isLive_tget in K; rewrite <- Hg in K; congruence).
      eapply goodL_mono; [apply (IH st img Hg C Hw)|]. intros [st' img'] (P' & Ar' & Sz' & Px'). split; [exact P'|]. split; [exact Ar'|]. split; [exact Sz'|]. intros x y Hi.
      destruct (Px' x y Hi) as [(k & K1 & K2)|(K1 & K2)]; [left; exists k; split; [apply lastOf_cons, K1 | exact K2]|]. right. split; [|exact K2].
      intros k [<-|Hk]; [|apply K1, Hk]. split; intros (L & (_ & f & a & t & N & Ef & _) & _); apply Dl; rewrite Ef; discriminate.
Qed.

(** ** Edges *)
Lemma edge_pick st l e : cacheOK st -> MInv (lg st) -> geo (lg st) -> eAt (lg st) l = Some e ->
  exists st' s, edgeScan srt unit st l = Ok (st', s) /\ tidy s /\ (forall x y, covB (lineOf s y) x = crossB (epts e) x y) /\ scanned st st'.
Proof.
  intros C M G He. destruct (edgeScan_ok srt Hsrt unit st l e C (mi_v _ M) G He) as (st' & s & E & Hs & Sn). exists st', s. split; [exact E|]. split; [apply (sc_tidy _ _ Hs)|].
  split; [intros x y; apply (scans_cross srt Hsrt unit _ _ _ _ Hs) | exact Sn].
Qed.

Lemma markEdges_spec m : MInv m -> geo m -> forall ls st img, lg st = m -> cacheOK st -> (forall l, In l ls -> eAt m l <> None) ->
  exists st' img', markEdges srt unit st img ls = Ok (st', img') /\ scanned st st' /\ sameSize img img' /\
    (forall x y, insideB img x y = true -> ipx img' x y = if addN (ind m x y) ls =? 0 then ipx img x y else if ipx img x y >=? 0 then - addN (ind m x y) ls else ipx img x y - addN (ind m x y) ls).
Proof.
  intros M G. induction ls as [|l ls IH]; intros st img Hg C Hls; cbn [markEdges].
  - exists st, img. split; [reflexivity|]. split; [apply scanned_refl, C|]. split; [split; reflexivity|]. reflexivity.
  - destruct (eAt m l) as [e|] eqn:He; [|destruct (Hls l (or_introl eq_refl) He)]. destruct (edge_pick st l e C) as (st1 & s & E & T & Hc & Sn); [rewrite Hg; assumption..|].
    rewrite E. cbn [bind fst snd]. destruct (markEdge_spec s img T) as (img1 & E1 & Sz & Hpx). rewrite E1. cbn [bind].
    destruct (IH st1 img1) as (st' & img' & E' & P' & Sz' & Px').
    { rewrite (sn_g _ _ _ Sn). exact Hg. } { apply (sn_ok _ _ _ Sn). } { intros k Hk. apply Hls. right. exact Hk. }
    exists st', img'. split; [exact E'|]. split; [apply (scanned_trans unit st st1); assumption|]. split; [apply (sameSize_trans img img1); assumption|].
    intros x y Hi. rewrite Px' by (rewrite (insideB_size img img1 x y Sz); exact Hi). rewrite Hpx, Hc, Hi. cbn [andb addN].
    assert (N0 : 0 <= addN (ind m x y) ls). { clear. induction ls as [|k ls IHl]; cbn [addN]; [lia|]. pose proof (ind_nn srt unit m x y k). lia. }
    assert (Il : ind m x y l = b2z (crossB (epts e) x y)) by (unfold LabelImage_Cache.ind; rewrite He; reflexivity). rewrite Il.
    set (c := addN (ind m x y) ls) in *. clearbody c. rewrite !Z.geb_leb. destruct (crossB (epts e) x y); cbn [b2z].
    + destruct (Z.leb_spec 0 (ipx img x y)).
      * destruct (Z.eqb_spec c 0), (Z.eqb_spec (1 + c) 0), (Z.leb_spec 0 (-1)); lia.
      * destruct (Z.leb_spec 0 (ipx img x y - 1)), (Z.eqb_spec c 0), (Z.eqb_spec (1 + c) 0); lia.
    + destruct (Z.eqb_spec c 0), (Z.eqb_spec (0 + c) 0); try lia. destruct (Z.leb_spec 0 (ipx img x y)); lia.
Qed.

Definition bridgeAcross m (x y : Z) (l : nat) : Prop := exists e, eAt m l = Some e /\ isBridge e = true /\ crosses (epts e) x y.
Lemma drawBridges_spec m : MInv m -> geo m -> forall ls st img, lg st = m -> cacheOK st -> (forall l, In l ls -> eAt m l <> None) ->
  exists st' img', drawBridges srt unit st img ls = Ok (st', img') /\ scanned st st' /\ sameSize img img' /\
    (forall x y, insideB img x y = true ->
      ((exists l, In l ls /\ bridgeAcross m x y l) -> ipx img' x y = -1) /\ (~ (exists l, In l ls /\ bridgeAcross m x y l) -> ipx img' x y = ipx img x y)).
Proof.
  intros M G. induction ls as [|l ls IH]; intros st img Hg C Hls; cbn [drawBridges].
  - exists st, img. split; [reflexivity|]. split; [apply scanned_refl, C|]. split; [split; reflexivity|]. intros x y _. split; [intros (l & [] & _) | reflexivity].
  - assert (Hls' : forall k, In k ls -> eAt m k <> None) by (intros k Hk; apply Hls; right; exact Hk).
    destruct (eAt m l) as [e|] eqn:He; [|destruct (Hls l (or_introl eq_refl) He)]. rewrite Hg, (deref_edge _ _ _ He). cbn [bind]. destruct (isBridge e) eqn:Eb.
    + destruct (edgeScan_ok srt Hsrt unit st l e C) as (st1 & s & E & Hs & Sn); [rewrite Hg; (apply M || assumption)..|]. rewrite E. cbn [bind fst snd].
      assert (Hd : exists img1, drawImage s img (-1) = Ok img1 /\ sameSize img img1 /\
        forall x y, insideB img x y = true -> (crosses (epts e) x y -> ipx img1 x y = -1) /\ (~ crosses (epts e) x y -> ipx img1 x y = ipx img x y)).
      { pose proof (sc_tidy _ _ Hs) as T. unfold drawImage, drawScannedPoly.
        destruct (drawRows_spec (iw img) s) with (n := Z.to_nat (Z.min (ih img) (endIndex s) - Z.max 0 (sl_start s))) (y := Z.max 0 (sl_start s)) (endY := Z.min (ih img) (endIndex s)) as (px & Ed & _ & Hin).
        { intros y. apply (T y). } { intros y. apply (T y). } { lia. } { lia. } { lia. }
        rewrite Ed. cbn [bind fst]. eexists. split; [reflexivity|]. split; [split; reflexivity|]. cbn [ipx setPixels]. intros x y Hi. apply insideB_iff in Hi.
        assert (K : existsb (fun p => (fst p =? x) && (snd p =? y)) px = true <-> crosses (epts e) x y).
        { rewrite existsb_px, Hin. unfold LabelImage_Spec.crosses. rewrite <- (sc_cov _ _ Hs x y). split; [tauto|]. intros K. split; [|tauto].
          destruct (Z_lt_le_dec y (sl_start s)) as [Q|Q]; [rewrite lineOf_out in K by lia; destruct (covered_nil _ K)|].
          destruct (Z_lt_le_dec y (endIndex s)) as [Q'|Q']; [lia | rewrite lineOf_out in K by lia; destruct (covered_nil _ K)]. }
        split; intros H; destruct (existsb _ _); auto; [apply K in H; discriminate | destruct H; apply K; reflexivity]. }
      destruct Hd as (img1 & E1 & Sz & Hpx). rewrite E1. cbn [bind].
      destruct (IH st1 img1) as (st' & img' & E' & P' & Sz' & Px'); [rewrite (sn_g _ _ _ Sn); exact Hg | apply (sn_ok _ _ _ Sn) | exact Hls'|].
      exists st', img'. split; [exact E'|]. split; [apply (scanned_trans unit st st1); assumption|]. split; [apply (sameSize_trans img img1); assumption|].
      intros x y Hi. destruct (Px' x y) as [A B]; [rewrite (insideB_size img img1 x y Sz); exact Hi|]. destruct (Hpx x y Hi) as [A1 B1].
      assert (Dec : (exists k, In k ls /\ bridgeAcross m x y k) \/ ~ (exists k, In k ls /\ bridgeAcross m x y k)).
      { destruct (existsb (fun k => match eAt m k with Some e => isBridge e && crossB (epts e) x y | None => false end) ls) eqn:Q.
        - left. apply existsb_exists in Q. destruct Q as (k & Hk & Q). exists k. split; [exact Hk|]. destruct (eAt m k) as [e'|] eqn:He'; [|discriminate]. apply andb_true_iff in Q. destruct Q as [Q1 Q2].
          exists e'. split; [exact He'|]. split; [exact Q1 | apply (crossB_iff srt Hsrt unit), Q2].
        - right. intros (k & Hk & e' & He' & Q1 & Q2). apply (crossB_iff srt Hsrt unit) in Q2. assert (K : existsb (fun k => match eAt m k with Some e => isBridge e && crossB (epts e) x y | None => false end) ls = true);
            [apply existsb_exists; exists k; split; [exact Hk|]; rewrite He', Q1; exact Q2 | congruence]. }
      split.
      * intros (k & Hk & Q). destruct Dec as [Dc|Dc]; [apply A, Dc|]. rewrite (B Dc). destruct Hk as [<-|Hk]; [|destruct Dc; exists k; auto]. destruct Q as (e' & He' & _ & Q). assert (e' = e) by congruence. subst. apply A1, Q.
      * intros K. rewrite B; [apply B1|]; [intros Q; apply K; exists l; split; [left; reflexivity | exists e; auto] | intros (k & Hk & Q); apply K; exists k; split; [right; exact Hk | exact Q]].
    + destruct (IH st img Hg C Hls') as (st' & img' & E' & P' & Sz' & Px'). exists st', img'. split; [exact E'|]. split; [exact P'|]. split; [exact Sz'|]. intros x y Hi. destruct (Px' x y Hi) as [A B]. split.
      * intros (k & [<-|Hk] & Q); [|apply A; exists k; auto]. destruct Q as (e' & He' & Q & _). congruence.
      * intros K. apply B. intros (k & Hk & Q). apply K. exists k. split; [right; exact Hk | exact Q].
Qed.
End Setup.
