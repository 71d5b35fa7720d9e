(** Face statistics for every history. *)
From Coq Require Import QArith Permutation.
From Verif Require Import Base Orbit FaceInv GeoMap_Model GeoMap_Views GeoMap_Loops GeoMap_SInv GeoMap_Remove GeoMap_MInv GeoMap_Bridge GeoMap_MergeFaces GeoMap_Init GeoMap_History GeoMap_Geometry GeoMap_Spec GeoMap_Facts GeoMap_Results
  Scanlines_Model Scanlines_Spec ScanPoly_Model ScanPoly_Spec LabelLUT_Model LabelImage_Model LabelImage_Spec LabelImage_Loops LabelImage_Cover LabelImage_Cache LabelImage_Inv
  LabelImage_Steps LabelImage_Remove LabelImage_Setup LabelImage_Switch LabelImage_Relabel LabelImage_Results LabelImage_Main FaceStats_Model FaceStats_Spec FaceStats_Boxes FaceStats_Proofs FaceStats_Keep.
Local Open Scope Z_scope.

Section Main.
Variable V : Type.
Variable srt : list seg -> list seg.
Hypothesis Hsrt : sorter srt.
Variable unit : positive.
Variable debug : bool.
Notation LInv := (LInv srt unit).
Notation hist := (lhistory srt unit (counted unit)).
Notation boxInv := (boxInv unit).
Notation fexec := (fexec srt unit debug).
Notation fhist := (fhistory srt unit debug).
Implicit Types (s : stats V) (fs : fstate V) (c : fcall V) (sl : slot V).

Definition slotOK st sl : Prop := forall s, sl = SOn s -> lim st <> None /\ (ow (sOrig s), oh (sOrig s)) = lsize st /\ statG V (alive_ (lg st)) (pixelsOf st) s.
Record FInv fs : Prop := {
  fi_hist : hist (fm fs);
  fi_box : lim (fm fs) <> None -> boxInv (fm fs) (fbx fs);
  fi_slot : slotOK (fm fs) (fsl fs) }.

Lemma hist_tracked st : hist st -> lhistory srt unit tracked st.
Proof. apply hist_mono. intros ? ? K. apply K. Qed.
Lemma hist_LInv st : hist st -> LInv st.
Proof. intros H. apply (hist_inv srt Hsrt unit st (hist_tracked st H)). Qed.
Lemma hist_areas st : hist st -> lim st <> None -> areas st.
Proof. intros H Hl f Hf. destruct (fAt (lg st) f) as [fc|] eqn:E; [|contradiction]. apply (pixel_areas srt Hsrt unit st f fc H Hl), isFace_iff, E. Qed.
Lemma hist_readable st (o : orig V) : hist st -> lim st <> None -> (ow o, oh o) = lsize st -> readable V st o.
Proof. intros H Hl Es. apply (readable_of V srt Hsrt unit); auto. apply hist_tracked, H. Qed.

Lemma slotOK_other st sl : (forall s, sl <> SOn s) -> slotOK st sl.
Proof. intros H s E. destruct (H s E). Qed.

(** ** mergeFaces *)
Definition losesAt fs hk (d : Z) : Prop := exists s g d' x mm, fsl fs = SOn s /\ pickDart (lg (fm fs)) d = Ok (g, d') /\ lft (lg (fm fs)) d' = Some x /\ lft (lg (fm fs)) (- d') = Some mm /\
  hkMergeFaces hk g d' = true /\ loses V s x mm.

Lemma merged_MInv hk st d m' r : LInv st -> mergeFaces hk (lg st) d = Ok (m', r) -> MInv (lg st).
Proof.
  intros L E. destruct (li_inv _ _ _ L) as [Gp|M]; [|exact M]. exfalso. revert E. unfold mergeFaces. destruct (eAt (lg st) (elab d)) as [e|] eqn:Ee; [|rewrite (require_edge_None _ _ Ee); discriminate].
  rewrite (require_edge _ _ _ Ee). cbn [bind]. assert (Hd : In d (darts (lg st))) by (apply (eAt_zero (lg st) d (gp_v _ Gp)); congruence).
  unfold pickDart. rewrite (leftLabel_Ok _ d Hd), (rightLabel_Ok _ d Hd), (gp_l _ Gp d Hd). discriminate.
Qed.

Lemma merge_step fs hk seen d st' o out : FInv fs -> lmergeFaces srt unit hk (fm fs) d = Ok (st', o, out) -> hist st' ->
  (losesAt fs hk d -> fmergeFaces srt unit debug fs hk seen d = UB) /\
  (fsl fs = SDangling -> fmergeFaces srt unit debug fs hk seen d = UB \/ exists bx, fmergeFaces srt unit debug fs hk seen d = Ok (mkFS st' bx SDangling) /\ (lim st' <> None -> boxInv st' bx)) /\
  (fsl fs <> SDangling -> ~ losesAt fs hk d -> exists bx sl, fmergeFaces srt unit debug fs hk seen d = Ok (mkFS st' bx sl) /\ (lim st' <> None -> boxInv st' bx) /\ slotOK st' sl).
Proof.
  intros [Fh Fb Fs] E H'. set (st := fm fs) in *. pose proof (hist_LInv st Fh) as L. pose proof (hist_tracked st Fh) as Ht.
  pose proof (lmergeFaces_spec srt Hsrt unit hk st d L) as S. rewrite E in S. cbn [goodL] in S. destruct S as (L' & Em & S). pose proof (merged_MInv hk st d _ _ L Em) as M. pose proof (mi_v _ M) as Vv.
  destruct (merge_full hk (lg st) d (lg st') o M Em) as (Hd & g & d' & x & mm & Ep & Hk & Hdd & Dd & L1 & L2 & Nxm & Nm & Fm).
  destruct (merge_facts srt Hsrt unit hk st d st' o out L E) as (_ & _ & Es & _ & Hli).
  assert (Le : forall s, losesAt fs hk d -> fsl fs = SOn s -> (exists k, o = Some k) /\ loses V s x mm).
  { intros s (s0 & g0 & d0 & x0 & m0 & A1 & A2 & A3 & A4 & A5 & A6) As. fold st in A2, A3, A4. rewrite Ep in A2. injection A2 as <- <-. rewrite A5 in Hk. assert (s0 = s) by congruence. subst s0. assert (x0 = x) by congruence. assert (m0 = mm) by congruence. subst x0 m0. split; [|exact A6].
    destruct o as [k|]; [exists k; reflexivity | discriminate Hk]. }
  unfold fmergeFaces. fold st. rewrite E. cbn [bind]. rewrite Ep. cbn [bind snd].
  destruct o as [k|].
  - destruct Fm as [Q|(Q & mc & C & FM)]; [discriminate Q|]. injection Q as ->. rewrite (rightLabel_Ok _ d' Dd), L2. cbn [bind].
    destruct (FMerged_faces mc d' x mm (lg st') FM Nxm) as (As & Am & _ & Hg).
    assert (Fc : forall f, fAt mc f <> None <-> fAt (lg st) f <> None). { intros f. pose proof (ca_face _ _ C f) as K. destruct (fAt (lg st) f), (fAt mc f); split; intros; try congruence; contradiction. }
    rewrite Fc in As, Am.
    assert (Bx : exists bx', mergeBoxes (lg st) (fbx fs) x mm = Ok bx' /\ (lim st' <> None -> boxInv st' bx')).
    { destruct (lim st) as [img|] eqn:Hi.
      - destruct (boxInv_merge srt Hsrt unit hk st d st' x out (fbx fs) mm d' mc) as (bx' & Eb & B'); auto; try congruence; [apply Fb; congruence|]. exists bx'. auto.
      - destruct (mergeBoxes_ok (lg st) (fbx fs) x mm M (li_geo _ _ _ L) Am Nm) as (bx' & Eb). exists bx'. split; [exact Eb|]. intros K. exfalso. apply Hli in K. congruence. }
    destruct Bx as (bx' & Eb & Bx).
    destruct (fsl fs) as [|s|s|] eqn:Esl; cbn [onPreMerge bind fst snd].
    + split; [intros (? & ? & ? & ? & ? & K & _); congruence|]. split; [discriminate|]. intros _ _. rewrite Eb. cbn [bind onPostMerge]. exists bx', SNone. split; [destruct out; reflexivity|]. split; [exact Bx|]. apply slotOK_other. discriminate.
    + destruct (Fs s eq_refl) as (Hl & So & G). fold st in Hl, So, G. pose proof (Fb Hl) as B. fold st in B. pose proof (hist_areas st Fh Hl) as Ar. pose proof (hist_readable st (sOrig s) Fh Hl So) as Rd.
      destruct (preMerge_spec V unit st (fbx fs) s d' x mm Rd B Ar G Dd L1 L2 As Am) as (s1 & E1 & P1). rewrite E1. cbn [bind fst snd]. rewrite Eb. cbn [bind onPostMerge].
      destruct (postMerge_spec V debug st s x mm s1 x mm G Ar P1 Nxm (or_introl (conj eq_refl eq_refl)) As Am) as [Pl Pn].
      split; [|split; [discriminate|]].
      * intros K. destruct (Le s K eq_refl) as [_ Ls]. rewrite (Pl Ls). reflexivity.
      * intros _ K. destruct Pn as (s2 & E2 & So2 & _ & G2).
        { intros Ls. apply K. exists s, g, d', x, mm. auto 10. }
        rewrite E2. cbn [bind]. assert (Hl' : lim st' <> None) by (apply Hli, Hl). destruct (merge_lists srt Hsrt unit hk st d st' x out mm d' Fh Hl E Dd Hdd L1 L2) as (_ & _ & Hg' & Ho & Px & Pl').
        assert (G2' : statG V (alive_ (lg st')) (mergedPix st x mm) s2).
        { apply (statG_ext V (mergedLive st mm) _ (mergedPix st x mm)); [|intros l ps _ Q; exists ps; auto | exact G2]. intros l. unfold mergedLive, alive_. rewrite Hg'. reflexivity. }
        assert (Ax' : alive_ (lg st') x) by (apply Hg'; auto).
        assert (Hx : forall ps, pixelsOf st' x ps -> exists qs, mergedPix st x mm x qs /\ Permutation ps (qs ++ out)).
        { intros ps Q. destruct (Px ps Q) as (qa & qb & Qa & Qb & Pp). exists (qa ++ qb). split; [|exact Pp]. unfold mergedPix. rewrite Nat.eqb_refl. exists qa, qb. auto. }
        assert (Hot : forall l ps, l <> x -> alive_ (lg st') l -> pixelsOf st' l ps -> exists qs, mergedPix st x mm l qs /\ Permutation ps qs).
        { intros l ps N Al Q. exists ps. split; [|reflexivity]. unfold mergedPix. apply Nat.eqb_neq in N. rewrite N. apply Nat.eqb_neq in N. apply Pl'; auto. apply Hg' in Al. apply Al. }
        destruct out as [|p out].
        -- cbn [onAssociate bind fst snd]. exists bx', (SOn s2). split; [reflexivity|]. split; [exact Bx|]. intros s3 Q. injection Q as <-. split; [exact Hl'|]. split; [rewrite So2, Es; exact So|].
           apply (statG_ext V (alive_ (lg st')) _ (mergedPix st x mm)); [reflexivity | | exact G2']. intros l ps Al Q. destruct (Nat.eq_dec l x) as [->|N]; [|apply (Hot l); assumption]. destruct (Hx ps Q) as (qs & Q1 & Q2). rewrite app_nil_r in Q2. exists qs. auto.
        -- cbn [onAssociate]. assert (Rd' : readable V st' (sOrig s2)) by (apply hist_readable; auto; rewrite So2, Es; exact So).
           destruct (associate_spec V unit debug st' bx' s2 x (p :: out) (mergedPix st x mm) Rd' (Bx Hl') (hist_areas st' H' Hl') G2' Ax' Ho Hx Hot) as (s3 & E3 & So3 & _ & G3).
           rewrite E3. cbn [bind fst snd]. exists bx', (SOn s3). split; [reflexivity|]. split; [exact Bx|]. intros s4 Q. injection Q as <-. split; [exact Hl'|]. split; [rewrite So3, So2, Es; exact So | exact G3].
    + split; [intros (? & ? & ? & ? & ? & K & _); congruence|]. split; [discriminate|]. intros _ _. rewrite Eb. cbn [bind onPostMerge]. exists bx', (SOff s). split; [destruct out; reflexivity|]. split; [exact Bx|]. apply slotOK_other. discriminate.
    + split; [intros (? & ? & ? & ? & ? & K & _); congruence|]. split; [left; reflexivity|]. congruence.
  - destruct S as (E' & -> & Hg & Ee). assert (Bx : lim st' <> None -> boxInv st' (fbx fs)).
    { intros Hl'. assert (Hl : lim st <> None) by (rewrite E' in Hl'; exact Hl'). destruct (veto_pixels srt Hsrt unit hk st d st' [] Ht (or_intror E)) as (_ & _ & _ & Sh).
      intros l Al N. destruct (Fb Hl l) as (b & Eb & B1 & B2); [apply Hg, Al | exact N|]. exists b. split; [exact Eb|]. split; [apply (inside_same (lg st)); assumption|]. intros x0 y0 K. apply B2, Sh, K. }
    assert (Sl : forall s, (forall l xs, samples s l xs -> True) -> lim st <> None -> (ow (sOrig s), oh (sOrig s)) = lsize st -> statG V (alive_ (lg st)) (pixelsOf st) s -> lim st' <> None /\ (ow (sOrig s), oh (sOrig s)) = lsize st' /\ statG V (alive_ (lg st')) (pixelsOf st') s).
    { intros s _ Hl So G. destruct (veto_pixels srt Hsrt unit hk st d st' [] Ht (or_intror E)) as (_ & _ & _ & Sh). split; [rewrite E'; exact Hl|]. split; [rewrite Es; exact So|].
      apply (statG_ext V (alive_ (lg st)) _ (pixelsOf st)); [intros l; symmetry; apply Hg | | exact G]. intros l ps _ [Q1 Q2]. exists ps. split; [|reflexivity]. split; [exact Q1|]. intros a b. rewrite Q2. apply Sh. }
    assert (NL : ~ losesAt fs hk d).
    { intros (s & g0 & d0 & x0 & m0 & K1 & K2 & _ & _ & K3 & _). fold st in K2. rewrite Ep in K2. injection K2 as <- <-. congruence. }
    split; [contradiction|].
    destruct seen.
    2:{ split; [intros Q; right; exists (fbx fs); rewrite Q; auto|]. intros _ _. exists (fbx fs), (fsl fs). split; [reflexivity|]. split; [exact Bx|]. intros s Q. destruct (Fs s Q) as (A1 & A2 & A3). apply Sl; auto. }
    destruct (fsl fs) as [|s|s|] eqn:Esl; cbn [onPreMerge bind fst snd].
    + split; [discriminate|]. intros _ _. exists (fbx fs), SNone. split; [reflexivity|]. split; [exact Bx|]. apply slotOK_other. discriminate.
    + split; [discriminate|]. intros _ _. destruct (Fs s eq_refl) as (Hl & So & G). fold st in Hl, So, G. pose proof (Fb Hl) as B. fold st in B. pose proof (hist_areas st Fh Hl) as Ar. pose proof (hist_readable st (sOrig s) Fh Hl So) as Rd.
      assert (Al : alive_ (lg st) x /\ alive_ (lg st) mm).
      { assert (Dd' : In (- d') (darts (lg st))) by (apply darts_opp, Dd). destruct (faceO_deref (lg st) d' (mi_f _ M) Dd) as (l1 & f1 & Q1 & F1). destruct (faceO_deref (lg st) (- d') (mi_f _ M) Dd') as (l2 & f2 & Q2 & F2). unfold alive_. split; congruence. }
      destruct (preMerge_spec V unit st (fbx fs) s d' x mm Rd B Ar G Dd L1 L2 (proj1 Al) (proj2 Al)) as (s1 & E1 & P1). rewrite E1. cbn [bind fst snd]. exists (fbx fs), (SOn s1). split; [reflexivity|]. split; [exact Bx|].
      intros s2 Q. injection Q as <-. apply Sl; auto; [rewrite (po_orig _ _ _ _ _ _ P1); exact So|].
      destruct P1 as [P1 P2 P3 P4 P5 _ _ _ _]. destruct G as [G1 G2 G3 G4 G5]. assert (Lv : forall l, level s1 l = level s l) by (intros l; unfold level; rewrite P4; reflexivity).
      constructor; unfold samples in *; rewrite ?P1, ?P2, ?P4, ?P5; auto.
      * intros l xs ps A1 A2 A3 A4. rewrite Lv in A3. apply (G2 l); assumption.
      * rewrite Lv. exact G3.
      * destruct G5 as (Lx & N1 & N2 & N3). exists Lx. split; [exact N1|]. split; [|exact N3]. intros l. rewrite N2, Lv. reflexivity.
    + split; [discriminate|]. intros _ _. exists (fbx fs), (SOff s). split; [reflexivity|]. split; [exact Bx|]. apply slotOK_other. discriminate.
    + split; [left; reflexivity|]. congruence.
Qed.

(** ** removeBridge *)
Lemma bridge_step fs hk d st' o out : FInv fs -> lremoveBridge srt unit hk (fm fs) d = Ok (st', o, out) -> hist st' ->
  (fsl fs = SDangling -> fremoveBridge srt unit debug fs hk d = UB \/ exists bx, fremoveBridge srt unit debug fs hk d = Ok (mkFS st' bx SDangling) /\ (lim st' <> None -> boxInv st' bx)) /\
  (fsl fs <> SDangling -> exists bx sl, fremoveBridge srt unit debug fs hk d = Ok (mkFS st' bx sl) /\ (lim st' <> None -> boxInv st' bx) /\ slotOK st' sl).
Proof.
  intros [Fh Fb Fs] E H'. set (st := fm fs) in *. pose proof (hist_LInv st Fh) as L. pose proof (hist_tracked st Fh) as Ht.
  destruct (bridge_facts srt Hsrt unit hk st d st' o out L E) as (_ & _ & Es & _ & Hli).
  unfold fremoveBridge. fold st. rewrite E. cbn [bind]. destruct o as [f|].
  - assert (Bx : lim st' <> None -> boxInv st' (fbx fs)).
    { intros Hl'. assert (Hl : lim st <> None) by (apply Hli, Hl'). apply (boxInv_bridge srt Hsrt unit hk st d st' f out (fbx fs) Ht Hl E), Fb, Hl. }
    destruct (fsl fs) as [|s|s|] eqn:Esl.
    + split; [discriminate|]. intros _. exists (fbx fs), SNone. split; [destruct out; reflexivity|]. split; [exact Bx|]. apply slotOK_other. discriminate.
    + split; [discriminate|]. intros _. destruct (Fs s eq_refl) as (Hl & So & G). fold st in Hl, So, G.
      destruct (bridge_lists srt Hsrt unit hk st d st' f out Fh Hl E) as (Af & Hg & Ho & Px & Pl). assert (Hl' : lim st' <> None) by (apply Hli, Hl).
      assert (G2 : statG V (alive_ (lg st')) (pixelsOf st) s).
      { apply (statG_ext V (alive_ (lg st)) _ (pixelsOf st)); [intros l; symmetry; apply Hg | intros l ps _ Q; exists ps; auto | exact G]. }
      assert (Hot : forall l ps, l <> f -> alive_ (lg st') l -> pixelsOf st' l ps -> exists qs, pixelsOf st l qs /\ Permutation ps qs) by (intros l ps N _ Q; exists ps; auto).
      destruct out as [|p out].
      * exists (fbx fs), (SOn s). split; [reflexivity|]. split; [exact Bx|]. intros s3 Q. injection Q as <-. split; [exact Hl'|]. split; [rewrite Es; exact So|].
        apply (statG_ext V (alive_ (lg st')) _ (pixelsOf st)); [reflexivity | | exact G2]. intros l ps Al Q. destruct (Nat.eq_dec l f) as [->|N]; [|apply (Hot l); assumption]. destruct (Px ps Q) as (qs & Q1 & Q2). rewrite app_nil_r in Q2. exists qs. auto.
      * cbn [onAssociate]. assert (Rd' : readable V st' (sOrig s)) by (apply hist_readable; auto; rewrite Es; exact So).
        destruct (associate_spec V unit debug st' (fbx fs) s f (p :: out) (pixelsOf st) Rd' (Bx Hl') (hist_areas st' H' Hl') G2 (proj2 (Hg f) Af) Ho Px Hot) as (s3 & E3 & So3 & _ & G3).
        rewrite E3. cbn [bind fst snd]. exists (fbx fs), (SOn s3). split; [reflexivity|]. split; [exact Bx|]. intros s4 Q. injection Q as <-. split; [exact Hl'|]. split; [rewrite So3, Es; exact So | exact G3].
    + split; [discriminate|]. intros _. exists (fbx fs), (SOff s). split; [destruct out; reflexivity|]. split; [exact Bx|]. apply slotOK_other. discriminate.
    + split; [|congruence]. intros _. destruct out; [right; exists (fbx fs); auto | left; reflexivity].
  - pose proof (lremoveBridge_spec srt Hsrt unit hk st d L) as S. rewrite E in S. cbn [goodL] in S. destruct S as (_ & _ & E' & -> & Hg & Ee).
    destruct (veto_pixels srt Hsrt unit hk st d st' [] Ht (or_introl E)) as (_ & _ & _ & Sh).
    assert (Bx : lim st' <> None -> boxInv st' (fbx fs)).
    { intros Hl'. assert (Hl : lim st <> None) by (rewrite E' in Hl'; exact Hl').
      intros l Al N. destruct (Fb Hl l) as (b & Eb & B1 & B2); [apply Hg, Al | exact N|]. exists b. split; [exact Eb|]. split; [apply (inside_same (lg st)); assumption|]. intros x0 y0 K. apply B2, Sh, K. }
    split; [intros Q; right; exists (fbx fs); rewrite Q; auto|]. intros _. exists (fbx fs), (fsl fs). split; [reflexivity|]. split; [exact Bx|]. intros s Q. destruct (Fs s Q) as (Hl & So & G). fold st in Hl, So, G. split; [rewrite E'; exact Hl|]. split; [rewrite Es; exact So|].
    apply (statG_ext V (alive_ (lg st)) _ (pixelsOf st)); [intros l; symmetry; apply Hg | | exact G]. intros l ps _ [Q1 Q2]. exists ps. split; [|reflexivity]. split; [exact Q1|]. intros a b. rewrite Q2. apply Sh.
Qed.

(** ** every call *)
Lemma loses_iff fs hk seen d c : FInv fs -> c = FMap seen (LCall hk (OMergeFaces d)) \/ c = FMap seen (LCall hk (ORemoveEdge d)) ->
  (losesTable fs c <-> exists s g d' x mm, fsl fs = SOn s /\ pickDart (lg (fm fs)) d = Ok (g, d') /\ lft (lg (fm fs)) d' = Some x /\ lft (lg (fm fs)) (- d') = Some mm /\ x <> mm /\ hkMergeFaces hk g d' = true /\ loses V s x mm).
Proof.
  intros [Fh _ Fs] Hc. set (m := lg (fm fs)) in *. split.
  - intros (s & seen' & hk' & d0 & d' & x & mm & g & A1 & A2 & A3 & A4 & A5 & A6 & A7 & A8 & A9 & A10 & A11). fold m in A3, A4, A5, A11.
    assert (Q : d0 = d /\ hk' = hk) by (destruct Hc as [->| ->], A2 as [K|K]; try discriminate K; injection K; auto). destruct Q as [-> ->].
    destruct (Fs s A1) as (Hl & _ & G). pose proof (LInv_MInv srt unit (fm fs) (hist_LInv _ Fh) Hl) as M. fold m in M, G. apply (leftLabel_dart m d' _ (mi_v _ M)) in A4. destruct A4 as [Dd A4].
    rewrite (rightLabel_Ok m d' Dd) in A5. injection A5 as A5. exists s, g, d', x, mm. split; [exact A1|]. split; [exact A3|]. split; [exact A4|]. split; [exact A5|]. split; [exact A6|]. split; [exact A7|].
    split; [exact A8|]. split; [destruct (Nat.eq_dec (level s mm) 0) as [Q|Q]; [exact Q | destruct (A9 Q)]|]. destruct (sg_cnt _ _ _ _ G) as (L & N & HL & ->). f_equal.
    assert (P : Permutation L [x]); [|rewrite (Permutation_length P); reflexivity]. apply NoDup_Permutation; [exact N | exact A10|]. intros l. rewrite HL, A11. unfold superSampled, alive_. split; intros [K1 K2]; split; auto.
    + destruct (fAt m l) as [f|] eqn:Ef; [exists f; apply isFace_iff, Ef | contradiction].
    + destruct K2 as (f & K2). apply isFace_iff in K2. congruence.
  - intros (s & g & d' & x & mm & A1 & A3 & A4 & A5 & A6 & A7 & A8 & A9 & A10). fold m in A3, A4, A5. destruct (Fs s A1) as (Hl & _ & G). pose proof (LInv_MInv srt unit (fm fs) (hist_LInv _ Fh) Hl) as M. fold m in M, G.
    assert (Dd : In d' (darts m)) by (apply (eAt_zero m d' (mi_v _ M)); unfold lft in A4; destruct (eAt m (elab d')); discriminate).
    exists s, seen, hk, d, d', x, mm, g. fold m. split; [exact A1|]. split; [exact Hc|]. split; [exact A3|]. split; [rewrite (leftLabel_Ok m d' Dd), A4; reflexivity|]. split; [rewrite (rightLabel_Ok m d' Dd), A5; reflexivity|].
    split; [exact A6|]. split; [exact A7|]. split; [exact A8|]. split; [intros Q; apply Q, A9|]. destruct (sg_cnt _ _ _ _ G) as (L & N & HL & EL). rewrite A10 in EL.
    assert (Ax : alive_ m x). { destruct (faceO_deref m d' (mi_f _ M) Dd) as (l1 & f1 & Q1 & F1). unfold alive_. congruence. }
    assert (Q : L = [x]). { assert (Kx : In x L) by (apply HL; auto). destruct L as [|a [|b L]]; cbn [length] in EL; try lia. destruct Kx as [->|[]]. reflexivity. }
    subst L. split; [exact N|]. intros l. rewrite HL. unfold superSampled, alive_. split; intros [K1 K2]; split; auto.
    + destruct (fAt m l) as [f|] eqn:Ef; [exists f; apply isFace_iff, Ef | contradiction].
    + destruct K2 as (f & K2). apply isFace_iff in K2. congruence.
Qed.
Lemma loses_merge fs hk seen d : FInv fs -> (losesTable fs (FMap seen (LCall hk (OMergeFaces d))) <-> exists g d' x mm, pickDart (lg (fm fs)) d = Ok (g, d') /\ lft (lg (fm fs)) d' = Some x /\ lft (lg (fm fs)) (- d') = Some mm /\ x <> mm /\ losesAt fs hk d).
Proof.
  intros F. rewrite (loses_iff fs hk seen d _ F (or_introl eq_refl)). split.
  - intros (s & g & d' & x & mm & A1 & A2 & A3 & A4 & A5 & A6 & A7). exists g, d', x, mm. split; [exact A2|]. split; [exact A3|]. split; [exact A4|]. split; [exact A5|]. exists s, g, d', x, mm. auto 10.
  - intros (g & d' & x & mm & A1 & A2 & A3 & A4 & s & g' & d2 & x' & mm' & B1 & B2 & B3 & B4 & B5 & B6). rewrite A1 in B2. injection B2 as <- <-. assert (x' = x) by congruence. assert (mm' = mm) by congruence. subst. exists s, g, d', x, mm. auto 10.
Qed.

Definition stepped fs seen lc st' : Prop :=
  (losesTable fs (FMap seen lc) -> fexec fs (FMap seen lc) = UB) /\
  (fsl fs = SDangling -> fexec fs (FMap seen lc) = UB \/ exists fs', fexec fs (FMap seen lc) = Ok fs' /\ fm fs' = st' /\ FInv fs') /\
  (fsl fs <> SDangling -> ~ losesTable fs (FMap seen lc) -> exists fs', fexec fs (FMap seen lc) = Ok fs' /\ fm fs' = st' /\ FInv fs').

Lemma merge_stepped fs hk seen d st' o out (c : lcall) : FInv fs -> hist st' -> lmergeFaces srt unit hk (fm fs) d = Ok (st', o, out) ->
  c = LCall hk (OMergeFaces d) \/ c = LCall hk (ORemoveEdge d) -> fexec fs (FMap seen c) = fmergeFaces srt unit debug fs hk seen d -> stepped fs seen c st'.
Proof.
  intros F H' E Hc Ef. destruct (merge_step fs hk seen d st' o out F E H') as (S1 & S2 & S3). unfold stepped. rewrite Ef.
  assert (Lt : losesTable fs (FMap seen c) <-> losesAt fs hk d).
  { rewrite (loses_iff fs hk seen d (FMap seen c) F) by (destruct Hc as [->| ->]; auto). pose proof (hist_LInv _ (fi_hist _ F)) as L. pose proof (lmergeFaces_spec srt Hsrt unit hk (fm fs) d L) as S. rewrite E in S. cbn [goodL] in S. destruct S as (_ & Em & _).
    destruct (merge_full hk (lg (fm fs)) d (lg st') o (merged_MInv hk (fm fs) d _ _ L Em) Em) as (Hd & g & d' & x & mm & Ep & Hk & Hdd & Dd & L1 & L2 & Nxm & _).
    split; [intros (s & g' & d2 & x' & mm' & B1 & B2 & B3 & B4 & B5 & B6 & B7); exists s, g', d2, x', mm'; auto 10|]. intros (s & g' & d2 & x' & mm' & B1 & B2 & B3 & B4 & B5 & B6). exists s, g', d2, x', mm'. rewrite Ep in B2. injection B2 as <- <-.
    assert (x' = x) by congruence. assert (mm' = mm) by congruence. subst. auto 10. }
  rewrite Lt. split; [exact S1|]. split.
  - intros D. destruct (S2 D) as [K|(bx & K & B)]; [left; exact K | right]. exists (mkFS st' bx SDangling). split; [exact K|]. split; [reflexivity|]. constructor; cbn [fm fbx fsl]; auto. apply slotOK_other. discriminate.
  - intros D N. destruct (S3 D N) as (bx & sl & K & B & So). exists (mkFS st' bx sl). split; [exact K|]. split; [reflexivity|]. constructor; auto.
Qed.
Lemma bridge_stepped fs hk seen d st' o out (c : lcall) : FInv fs -> hist st' -> lremoveBridge srt unit hk (fm fs) d = Ok (st', o, out) ->
  ~ losesTable fs (FMap seen c) -> fexec fs (FMap seen c) = fremoveBridge srt unit debug fs hk d -> stepped fs seen c st'.
Proof.
  intros F H' E Nl Ef. destruct (bridge_step fs hk d st' o out F E H') as (S2 & S3). unfold stepped. rewrite Ef. split; [contradiction|]. split.
  - intros D. destruct (S2 D) as [K|(bx & K & B)]; [left; exact K | right]. exists (mkFS st' bx SDangling). split; [exact K|]. split; [reflexivity|]. constructor; cbn [fm fbx fsl]; auto. apply slotOK_other. discriminate.
  - intros D _. destruct (S3 D) as (bx & sl & K & B & So). exists (mkFS st' bx sl). split; [exact K|]. split; [reflexivity|]. constructor; auto.
Qed.
Lemma plain_stepped fs seen (c : lcall) st' bx sl : FInv fs -> hist st' -> (forall hk d, c <> LCall hk (OMergeFaces d) /\ c <> LCall hk (ORemoveEdge d)) -> fexec fs (FMap seen c) = Ok (mkFS st' bx sl) -> (lim st' <> None -> boxInv st' bx) -> slotOK st' sl -> stepped fs seen c st'.
Proof.
  intros F H' Hc Ef B So. unfold stepped. rewrite Ef. assert (R : exists fs', Ok (mkFS st' bx sl) = Ok fs' /\ fm fs' = st' /\ FInv fs') by (exists (mkFS st' bx sl); split; [reflexivity|]; split; [reflexivity|]; constructor; auto).
  split; [|auto]. intros (s & seen' & hk & d & d' & x & mm & g & _ & [K|K] & _); exfalso; injection K as _ K; destruct (Hc hk d) as [C1 C2]; congruence.
Qed.

Theorem fmap_step fs seen lc st' : FInv fs -> lallowed (fm fs) lc -> fcounted unit fs (FMap seen lc) -> lexec srt unit (fm fs) lc = Ok st' -> stepped fs seen lc st'.
Proof.
  intros F Al (Ct & Cb & Cs) E. pose proof F as [Fh Fb Fs]. assert (H' : hist st') by apply (lh_call srt unit _ (fm fs) lc st' Fh Al Ct E). pose proof (hist_LInv _ Fh) as L. pose proof (hist_tracked _ Fh) as Ht.
  destruct (hist_inv srt Hsrt unit (fm fs) Ht) as (_ & Hw & _).
  assert (Sz : lsize st' = lsize (fm fs)). { pose proof (lexec_spec srt Hsrt unit (fm fs) lc L Hw Al (proj1 Ct)) as S. rewrite E in S. cbn [goodL] in S. apply S. }
  assert (Keep : keepsFaces lc -> forall sl, (forall s, sl = SOn s -> fsl fs = SOn s) -> fexec fs (FMap seen lc) = Ok (mkFS st' (fbx fs) sl) -> stepped fs seen lc st').
  { intros K sl Hsl Ef. apply (plain_stepped fs seen lc st' (fbx fs) sl F H'); [intros hk d; split; intros ->; exact K | exact Ef | |].
    - intros Hl'. assert (Hl : lim (fm fs) <> None). { intros Q. apply Hl'. clear Ef. pose proof (lim_kept srt Hsrt unit (fm fs) lc st' L Al (proj1 Ct) K E) as KK. apply KK, Q. }
      apply (boxInv_keep srt Hsrt unit (fm fs) lc st' (fbx fs) Ht Hl Al (proj1 Ct) K E), Fb, Hl.
    - intros s Q. destruct (Fs s (Hsl s Q)) as (Hl & So & G). destruct (keep_inside srt Hsrt unit (fm fs) lc st' Ht Hl Al (proj1 Ct) K E) as (_ & Hg & Hl'). destruct (faces_kept srt Hsrt unit (fm fs) lc st' Ht Al (proj1 Ct) K E) as (Sh & _).
      split; [exact Hl'|]. split; [rewrite Sz; exact So|]. apply (statG_ext V (alive_ (lg (fm fs))) _ (pixelsOf (fm fs))); [intros l; symmetry; apply Hg | | exact G].
      intros l ps _ [Q1 Q2]. exists ps. split; [|reflexivity]. split; [exact Q1|]. intros a b. rewrite Q2. apply Sh. }
  destruct lc as [hk o|ord par wi|onoff|new mx|l|].
  - assert (Kp : keepsFaces (LCall hk o) -> fexec fs (FMap seen (LCall hk o)) = Ok (mkFS st' (fbx fs) (fsl fs)) -> stepped fs seen (LCall hk o) st') by (intros K Ef; apply (Keep K (fsl fs)); auto).
    destruct o as [p|p l|s e pts l|d|d|l k p ins|d|d|l|l|l fl b|n p| |f hs sr]; try (apply Kp; [exact I|]; unfold FaceStats_Model.fexec; rewrite E; reflexivity); cbn [lexec] in E; apply bind_Ok in E; destruct E as ([[st1 r] out] & E & Q); injection Q as <-.
    + pose proof E as E0. unfold lremoveEdge in E0. assert (Ef0 : fexec fs (FMap seen (LCall hk (ORemoveEdge d))) = fremoveEdge srt unit debug fs hk seen d) by reflexivity. unfold fremoveEdge in Ef0.
      destruct (Nat.eqb_spec (length (faces (lg (fm fs)))) 0) as [Q0|N0]; cbn [negb] in E0, Ef0.
      * rewrite E in Ef0. cbn [bind fst] in Ef0. assert (Hn : lim (fm fs) = None). { destruct (lim (fm fs)) as [img|] eqn:Hi; [|reflexivity]. exfalso. apply (mi_0 _ (ii_m _ _ _ _ (li_img _ _ _ L img Hi))). unfold fAt. rewrite (faces_len_nil _ Q0). reflexivity. }
        assert (Hn' : lim st1 = None) by (apply bind_Ok in E0; destruct E0 as ([m1 r1] & _ & E0); injection E0 as <- _ _; exact Hn).
        assert (So : forall sl, sl = fsl fs -> slotOK st1 sl) by (intros sl -> s Q; destruct (Fs s Q) as (K & _); congruence). unfold stepped. rewrite Ef0.
        assert (R : exists fs', Ok (mkFS st1 (fbx fs) (fsl fs)) = Ok fs' /\ fm fs' = st1 /\ FInv fs') by (exists (mkFS st1 (fbx fs) (fsl fs)); split; [reflexivity|]; split; [reflexivity|]; constructor; cbn [fm fbx fsl]; [exact H' | congruence | apply So; reflexivity]).
        split; [|auto]. intros (s & ? & ? & ? & ? & ? & ? & ? & K & _). destruct (Fs s K) as (K1 & _). congruence.
      * apply bind_Ok in E0. destruct E0 as (e & He & E0). rewrite He in Ef0. cbn [bind] in Ef0. destruct (isBridge e) eqn:Eb.
        -- apply (bridge_stepped fs hk seen d st1 r out _ F H' E0); [|exact Ef0]. rewrite (loses_iff fs hk seen d _ F (or_intror eq_refl)). intros (s & g & d' & x & mm & A1 & A2 & A3 & A4 & A5 & _). apply A5.
           destruct (Fs s A1) as (Hl & _). pose proof (LInv_MInv srt unit (fm fs) L Hl) as M. assert (Dd : In d (darts (lg (fm fs)))) by (apply isDart_iff, (proj1 Al)).
           destruct (pickDart_spec (lg (fm fs)) d M Dd) as (mc & d2 & s2 & mm2 & Ep & _ & Sv & L1 & L2). rewrite Ep in A2. injection A2 as <- <-. assert (s2 = x) by congruence. assert (mm2 = mm) by congruence. subst s2 mm2.
           assert (Hdd : d2 = d \/ d2 = - d) by (destruct Sv as (l & r0 & fl & fr & vl & vr & _ & _ & _ & _ & _ & _ & [(-> & _)|(-> & _)] & _); auto).
           assert (Ee : eAt (lg (fm fs)) (elab d) = Some e). { destruct (live_edge (lg (fm fs)) d Dd) as (e1 & E1). rewrite (deref_edge _ _ _ E1) in He. injection He as <-. exact E1. }
           assert (elf e = erf e) by (unfold isBridge in Eb; destruct (elf e) as [a|], (erf e) as [b|]; cbn in Eb; try discriminate; [apply Nat.eqb_eq in Eb; congruence | reflexivity]).
           assert (K : lft (lg (fm fs)) d = lft (lg (fm fs)) (- d)). { unfold lft. rewrite elab_opp, Ee. unfold e_lf. destruct (0 <? d), (0 <? - d); congruence. }
           destruct Hdd as [->| ->]; rewrite ?Z.opp_involutive in *; congruence.
        -- apply (merge_stepped fs hk seen d st1 r out _ F H' E0 (or_intror eq_refl) Ef0).
    + apply (bridge_stepped fs hk seen d st1 r out _ F H' E); [|reflexivity]. intros (s & ? & hk' & d0 & ? & ? & ? & ? & _ & [K|K] & _); discriminate K.
    + apply (merge_stepped fs hk seen d st1 r out _ F H' E (or_introl eq_refl)). reflexivity.
  - assert (Ns : forall s, fsl fs <> SOn s) by (intros s Q; apply Cs; exists s; exact Q). pose proof (linit_spec srt Hsrt unit (fm fs) ord par wi L Hw Al) as S. cbn [lexec] in E. rewrite E in S. cbn [goodL] in S. destruct S as (_ & _ & _ & Ex & S).
    destruct wi.
    + apply (plain_stepped fs seen _ st' (allBoxes (lg st') (fun _ => None)) (fsl fs) F H'); [intros; split; discriminate | unfold FaceStats_Model.fexec; cbn [lexec]; rewrite E; reflexivity | | apply slotOK_other, Ns].
      intros _. apply (boxInv_init srt Hsrt unit (fm fs) ord par st' _ Ht Al); [exact E | apply Cb, Ex].
    + apply (plain_stepped fs seen _ st' (fun _ => None) (fsl fs) F H'); [intros; split; discriminate | unfold FaceStats_Model.fexec; cbn [lexec]; rewrite E; reflexivity | | apply slotOK_other, Ns]. intros K. destruct S as [S _]. congruence.
  - assert (Ns : forall s, fsl fs <> SOn s) by (intros s Q; apply Cs; exists s; exact Q). pose proof (setHasLabelImage_spec srt Hsrt unit (fm fs) onoff L Hw) as S. cbn [lexec] in E. rewrite E in S. cbn [goodL] in S. destruct S as (_ & S).
    destruct onoff.
    + apply (plain_stepped fs seen _ st' (if LabelImage_Model.isLive (lim (fm fs)) then fbx fs else allBoxes (lg (fm fs)) (fbx fs)) (fsl fs) F H'); [intros; split; discriminate | unfold FaceStats_Model.fexec; cbn [lexec]; rewrite E; reflexivity | | apply slotOK_other, Ns].
      destruct (lim (fm fs)) as [img|] eqn:Hi; cbn [LabelImage_Model.isLive Bool.eqb] in *.
      * subst st'. intros _. apply Fb. congruence.
      * intros _. apply (boxInv_switch srt Hsrt unit (fm fs) st' _ Ht Hi E), Cb. reflexivity.
    + apply (plain_stepped fs seen _ st' (fbx fs) (fsl fs) F H'); [intros; split; discriminate | unfold FaceStats_Model.fexec; cbn [lexec]; rewrite E; reflexivity | | apply slotOK_other, Ns].
      intros K. exfalso. apply K. destruct (lim (fm fs)) as [img|] eqn:Hi; cbn [LabelImage_Model.isLive Bool.eqb] in S; subst st'; [reflexivity | exact Hi].
  - assert (Ns : forall s, fsl fs <> SOn s) by (intros s Q; apply Cs; exists s; exact Q). cbn [lexec] in E. pose proof (changeFaceLabels_spec srt unit (fm fs) new mx L Al) as S. rewrite E in S. cbn [goodL] in S. destruct S as (_ & R & _).
    eapply plain_stepped; [exact F | exact H' | intros; split; discriminate | unfold FaceStats_Model.fexec; cbn [lexec]; rewrite E; reflexivity | | apply slotOK_other, Ns].
    intros K. assert (Hl : lim (fm fs) <> None) by (pose proof (rn_im _ _ _ R) as Q; destruct (lim (fm fs)); [discriminate | destruct (lim st'); [contradiction | congruence]]).
    apply (boxInv_relabel srt Hsrt unit (fm fs) new mx st' (fbx fs) Ht Hl Al E), Fb, Hl.
  - apply (Keep I (fsl fs)); [auto|]. unfold FaceStats_Model.fexec. rewrite E. reflexivity.
  - apply (Keep I SNone); [discriminate|]. unfold FaceStats_Model.fexec. rewrite E. reflexivity.
Qed.

(** what a call does to the map alone *)
Definition mapCall fs c : res lmap := match c with FMap _ lc => lexec srt unit (fm fs) lc | _ => Ok (fm fs) end.

(** the statistics never hide an exception or an invalid access of the map *)
Lemma fexec_fail fs seen lc : FInv fs -> lallowed (fm fs) lc -> fcounted unit fs (FMap seen lc) ->
  match lexec srt unit (fm fs) lc with Ok _ => True | Exn => fexec fs (FMap seen lc) = Exn | UB => fexec fs (FMap seen lc) = UB | NoFuel => fexec fs (FMap seen lc) = NoFuel end.
Proof.
  intros F Al Ct. unfold FaceStats_Model.fexec. destruct lc as [hk o|ord par wi|onoff|new mx|l|].
  2-6: destruct (lexec srt unit (fm fs) _) as [?| | |]; cbn [bind]; try reflexivity; exact I.
  destruct o as [p|p l|s e pts l|d|d|l k p ins|d|d|l|l|l fl b|n p| |f hs sr]; try (destruct (lexec srt unit (fm fs) _) as [?| | |]; cbn [bind]; try reflexivity; exact I); cbn [lexec].
  - unfold lremoveEdge, fremoveEdge. destruct (negb (length (faces (lg (fm fs))) =? 0)%nat) eqn:Q.
    + destruct (deref (edgeP (lg (fm fs)) (elab d))) as [e| | |]; cbn [bind]; try reflexivity. destruct (isBridge e).
      * unfold fremoveBridge. destruct (lremoveBridge srt unit hk (fm fs) d) as [r| | |]; cbn [bind]; try reflexivity; exact I.
      * unfold fmergeFaces. destruct (lmergeFaces srt unit hk (fm fs) d) as [r| | |]; cbn [bind]; try reflexivity; exact I.
    + unfold lremoveEdge. rewrite Q. destruct (GeoMap_Model.removeEdge hk (lg (fm fs)) d) as [r| | |]; cbn [bind]; try reflexivity; exact I.
  - unfold fremoveBridge. destruct (lremoveBridge srt unit hk (fm fs) d) as [r| | |]; cbn [bind]; try reflexivity; exact I.
  - unfold fmergeFaces. destruct (lmergeFaces srt unit hk (fm fs) d) as [r| | |]; cbn [bind]; try reflexivity; exact I.
Qed.

Lemma box_call fs l f : FInv fs -> isFace (lg (fm fs)) l f -> if Nat.eqb l 0 then fexec fs (FBox l) = Exn else exists bx, fexec fs (FBox l) = Ok (mkFS (fm fs) bx (fsl fs)) /\ (lim (fm fs) <> None -> boxInv (fm fs) bx).
Proof.
  intros [Fh Fb Fs] Hf. apply isFace_iff in Hf. pose proof (hist_LInv _ Fh) as L. assert (M : MInv (lg (fm fs))).
  { apply Inv_MInv; [apply (li_inv _ _ _ L)|]. intros Q. unfold fAt, tget in Hf. rewrite Q in Hf. destruct l; discriminate Hf. }
  destruct (getBox_spec (lg (fm fs)) (fbx fs) l f M (li_geo _ _ _ L) Hf) as (K0 & K1). unfold FaceStats_Model.fexec. destruct (Nat.eqb_spec l 0) as [->|N]; [rewrite K0 by reflexivity; reflexivity|].
  destruct (K1 N) as (b & -> & _). cbn [bind fst]. eexists. split; [reflexivity|]. intros Hl. specialize (Fb Hl). destruct (Fb l) as (b' & Eb & _); [congruence | exact N|]. rewrite Eb. exact Fb.
Qed.

Lemma attach_call fs o min extra : FInv fs -> (ow o, oh o) = lsize (fm fs) ->
  if LabelImage_Model.isLive (lim (fm fs)) then exists s, fexec fs (FStats o min extra) = Ok (mkFS (fm fs) (fbx fs) (SOn s)) /\ sOrig s = o /\ sMin s = min /\ slotOK (fm fs) (SOn s) /\
    (forall l ps, alive_ (lg (fm fs)) l -> l <> 0%nat -> pixelsOf (fm fs) l ps -> (superSampled s l <-> (length ps < min)%nat))
  else fexec fs (FStats o min extra) = Exn.
Proof.
  intros [Fh Fb Fs] Es. unfold FaceStats_Model.fexec. destruct (lim (fm fs)) as [img|] eqn:Hi in |- *; cbn [LabelImage_Model.isLive].
  - assert (Hl : lim (fm fs) <> None) by congruence. assert (M := LInv_MInv srt unit (fm fs) (hist_LInv _ Fh) Hl).
    destruct (newStats_spec V unit (fm fs) (fbx fs) o min extra img Hi) as (s & E & S1 & S2 & S3 & S4).
    { apply hist_readable; auto. } { apply Fb, Hl. } { apply (mi_0 _ M). }
    exists s. rewrite E. cbn [bind fst snd]. split; [reflexivity|]. split; [exact S1|]. split; [exact S2|]. split; [|exact S4]. intros s' Q. injection Q as <-. split; [exact Hl|]. split; [rewrite S1; exact Es | exact S3].
  - unfold newStats. rewrite Hi. reflexivity.
Qed.

Theorem fexec_inv fs c fs' : FInv fs -> fallowed fs c -> fcounted unit fs c -> fexec fs c = Ok fs' -> FInv fs'.
Proof.
  intros F Al Ct E. destruct c as [seen lc|l|o min extra| |].
  - pose proof (fexec_fail fs seen lc F Al Ct) as Q. destruct (lexec srt unit (fm fs) lc) as [st'| | |] eqn:El; try congruence. destruct (fmap_step fs seen lc st' F Al Ct El) as (S1 & S2 & S3).
    assert (Dl : losesTable fs (FMap seen lc) -> False) by (intros K; rewrite (S1 K) in E; discriminate E).
    destruct (fsl fs) as [|s|s|] eqn:Sl; try (destruct S3 as (f1 & K1 & K2 & K3); [discriminate | exact Dl | congruence]). destruct S2 as [K|(f1 & K1 & K2 & K3)]; [reflexivity | congruence | congruence].
  - destruct Al as (f & Hf). pose proof (box_call fs l f F Hf) as B. destruct (Nat.eqb l 0); [congruence|]. destruct B as (bx & B1 & B2). rewrite B1 in E. injection E as <-. destruct F as [Fh Fb Fs]. constructor; auto.
  - pose proof (attach_call fs o min extra F Ct) as B. destruct (lim (fm fs)) eqn:Hi; cbn [LabelImage_Model.isLive] in B; [|congruence]. destruct B as (s & B1 & _ & _ & B2 & _). rewrite B1 in E. injection E as <-. destruct F as [Fh Fb Fs]. constructor; auto.
  - injection E as <-. destruct F as [Fh Fb Fs]. constructor; cbn [fm fbx fsl]; auto. apply slotOK_other. intros s. destruct (fsl fs); discriminate.
  - injection E as <-. destruct F as [Fh Fb Fs]. constructor; cbn [fm fbx fsl]; auto. apply slotOK_other. intros s. destruct (fsl fs); discriminate.
Qed.

Theorem fhist_inv fs : fhist (fcounted unit) fs -> FInv fs.
Proof.
  induction 1 as [w h Hw Hh|fs c fs' H IH Al Ct E]; [|apply (fexec_inv fs c fs'); assumption].
  constructor; cbn [fm fbx fsl newState]; [apply lh_new; assumption | intros K; destruct (K eq_refl) | apply slotOK_other; discriminate].
Qed.

(** ** The theorems *)
Theorem stats_map (fs : fstate V) : fhist (fcounted unit) fs -> hist (fm fs).
Proof. intros H. apply fhist_inv, H. Qed.

Theorem stats_samples (fs : fstate V) (s : stats V) l f : fhist (fcounted unit) fs -> fsl fs = SOn s -> isFace (lg (fm fs)) l f -> ~ superSampled s l ->
  exists xs, samples s l xs /\ valuesOf (fm fs) (sOrig s) l xs /\ larea (fm fs) l = Z.of_nat (length xs).
Proof.
  intros H Es Hf Ns. apply fhist_inv in H. destruct H as [Fh _ Fs]. destruct (Fs s Es) as (Hl & _ & [G1 G2 _ _ _]). apply isFace_iff in Hf. assert (Al : alive_ (lg (fm fs)) l) by (unfold alive_; congruence).
  destruct (proj1 (G1 l) Al) as (xs & Hx). destruct (hist_areas _ Fh Hl l Al) as (ps & Hp & Ea). assert (Z0 : level s l = 0%nat) by (destruct (Nat.eq_dec (level s l) 0) as [Q|Q]; [exact Q | destruct (Ns Q)]).
  pose proof (G2 l xs ps Al Hx Z0 Hp) as Pm. exists xs. split; [exact Hx|]. split; [exists ps; auto|]. rewrite Ea, (Permutation_length Pm), map_length. reflexivity.
Qed.
Theorem stats_live (fs : fstate V) (s : stats V) l : fhist (fcounted unit) fs -> fsl fs = SOn s -> ((exists xs, samples s l xs) <-> exists f, isFace (lg (fm fs)) l f).
Proof.
  intros H Es. apply fhist_inv in H. destruct H as [Fh _ Fs]. destruct (Fs s Es) as (Hl & _ & [G1 _ _ _ _]). rewrite <- G1. unfold alive_. split.
  - destruct (fAt (lg (fm fs)) l) as [f|] eqn:Q; [exists f; apply isFace_iff, Q | contradiction].
  - intros (f & K). apply isFace_iff in K. congruence.
Qed.
Theorem stats_infinite (fs : fstate V) (s : stats V) : fhist (fcounted unit) fs -> fsl fs = SOn s -> ~ superSampled s 0.
Proof. intros H Es. apply fhist_inv in H. destruct (fi_slot _ H s Es) as (_ & _ & G). intros K. apply K, (sg_zero _ _ _ _ G). Qed.
Theorem stats_count (fs : fstate V) (s : stats V) : fhist (fcounted unit) fs -> fsl fs = SOn s -> exists L, superSampledFaces (lg (fm fs)) s L /\ sCount s = Z.of_nat (length L).
Proof.
  intros H Es. apply fhist_inv in H. destruct (fi_slot _ H s Es) as (_ & _ & G). destruct (sg_cnt _ _ _ _ G) as (L & N & HL & E). exists L. split; [|exact E]. split; [exact N|]. intros l. rewrite HL. unfold superSampled, alive_. split; intros [K1 K2]; split; auto.
  - destruct (fAt (lg (fm fs)) l) as [f|] eqn:Ef; [exists f; apply isFace_iff, Ef | contradiction].
  - destruct K2 as (f & K2). apply isFace_iff in K2. congruence.
Qed.
Theorem stats_attach (fs : fstate V) (o : orig V) min extra : fhist (fcounted unit) fs -> (ow o, oh o) = lsize (fm fs) ->
  match lim (fm fs) with
  | None => fexec fs (FStats o min extra) = Exn
  | Some _ => exists s, fexec fs (FStats o min extra) = Ok (mkFS (fm fs) (fbx fs) (SOn s)) /\ sOrig s = o /\
      forall l f, isFace (lg (fm fs)) l f -> (superSampled s l <-> l <> 0%nat /\ larea (fm fs) l < Z.of_nat min)
  end.
Proof.
  intros H Es. apply fhist_inv in H. pose proof (attach_call fs o min extra H Es) as K. destruct (lim (fm fs)) eqn:Hi; cbn [LabelImage_Model.isLive] in K; [|exact K]. destruct K as (s & K1 & K2 & _ & K3 & K4). exists s. split; [exact K1|]. split; [exact K2|].
  intros l f Hf. apply isFace_iff in Hf. assert (Al : alive_ (lg (fm fs)) l) by (unfold alive_; congruence). destruct (hist_areas _ (fi_hist _ H) ltac:(congruence) l Al) as (ps & Hp & ->). destruct (K3 s eq_refl) as (_ & _ & G).
  destruct (Nat.eq_dec l 0) as [->|N]; [split; [intros Q; destruct (Q (sg_zero _ _ _ _ G)) | intros [Q _]; destruct (Q eq_refl)]|]. rewrite (K4 l ps Al N Hp). lia.
Qed.
Theorem stats_transparent (fs : fstate V) seen lc : fhist (fcounted unit) fs -> lallowed (fm fs) lc -> fcounted unit fs (FMap seen lc) -> fsl fs <> SDangling -> ~ losesTable fs (FMap seen lc) ->
  match lexec srt unit (fm fs) lc with
  | Ok st' => exists fs', fexec fs (FMap seen lc) = Ok fs' /\ fm fs' = st'
  | Exn => fexec fs (FMap seen lc) = Exn
  | UB => fexec fs (FMap seen lc) = UB
  | NoFuel => fexec fs (FMap seen lc) = NoFuel
  end.
Proof.
  intros H Al Ct Nd Nl. apply fhist_inv in H. pose proof (fexec_fail fs seen lc H Al Ct) as Q. destruct (lexec srt unit (fm fs) lc) as [st'| | |] eqn:El; try exact Q.
  destruct (fmap_step fs seen lc st' H Al Ct El) as (_ & _ & S3). destruct (S3 Nd Nl) as (f1 & K1 & K2 & _). exists f1. auto.
Qed.
Theorem stats_loses (fs : fstate V) seen lc st' : fhist (fcounted unit) fs -> lallowed (fm fs) lc -> fcounted unit fs (FMap seen lc) -> lexec srt unit (fm fs) lc = Ok st' -> losesTable fs (FMap seen lc) -> fexec fs (FMap seen lc) = UB.
Proof. intros H Al Ct El K. apply fhist_inv in H. apply (fmap_step fs seen lc st' H Al Ct El), K. Qed.
(** checkConsistency() finds nothing wrong *)
Lemma check_loop st s t : sTab s = Some t -> (forall l, alive_ (lg st) l -> (l < length t)%nat) -> (forall l, alive_ (lg st) l -> level s l = 0%nat -> exists xs, samples s l xs /\ larea st l = Z.of_nat (length xs)) ->
  forall ls n, (forall l, In l ls -> alive_ (lg st) l) -> checkFaces st s t ls n true = Ok (n + Z.of_nat (length (filter (fun l => negb (Nat.eqb (level s l) 0)) ls)), true).
Proof.
  intros Et Lt Hs. induction ls as [|l ls IH]; intros n Hl; cbn [checkFaces filter length]; [f_equal; f_equal; lia|].
  assert (Al := Hl l (or_introl eq_refl)). rewrite (level_nth V s t l Et (Lt l Al)). cbn [bind]. assert (Hl' : forall k, In k ls -> alive_ (lg st) k) by (intros k Hk; apply Hl; right; exact Hk). destruct (Nat.eqb_spec (level s l) 0) as [Q|Q]; cbn [negb].
  - destruct (Hs l Al Q) as (xs & X1 & X2). rewrite (samples_functor V s l xs X1). cbn [bind]. rewrite X2, Z.eqb_refl. apply IH, Hl'.
  - rewrite IH by exact Hl'. cbn [length]. f_equal. f_equal. lia.
Qed.
Theorem stats_consistent (fs : fstate V) (s : stats V) : fhist (fcounted unit) fs -> fsl fs = SOn s -> checkConsistency (fm fs) s = Ok true.
Proof.
  intros H Es. destruct (fi_slot _ (fhist_inv _ H) s Es) as (Hl & _ & G). unfold checkConsistency. destruct (sTab s) as [t|] eqn:Et; [|reflexivity].
  rewrite (check_loop (fm fs) s t Et).
  - cbn [bind fst snd andb]. f_equal. apply Z.eqb_eq. destruct (sg_cnt _ _ _ _ G) as (L & N & HL & ->). rewrite Z.add_0_l. f_equal. apply Permutation_length. apply NoDup_Permutation; [apply NoDup_filter, NoDup_filter, seq_NoDup | exact N|].
    intros l. rewrite filter_In, liveFrom_in, HL. unfold alive_, fAt. destruct (Nat.eqb_spec (level s l) 0) as [Q|Q]; cbn [negb]; split; [intros [_ K]; discriminate K | intros [K _]; contradiction | intros [[_ K] _]; auto | intros [_ K]; split; [split; [lia | exact K] | reflexivity]].
  - intros l Al. apply (sg_tab _ _ _ _ G t l Et Al).
  - intros l Al Z0. unfold alive_ in Al. destruct (fAt (lg (fm fs)) l) as [f|] eqn:Ef; [|contradiction]. destruct (stats_samples fs s l f H Es) as (xs & X1 & _ & X2); [apply isFace_iff, Ef | intros K; exact (K Z0)|]. exists xs. auto.
  - intros l Hl'. apply liveFrom_in in Hl'. apply Hl'.
Qed.

(** Face::boundingBox() *)
Theorem face_box (fs : fstate V) l f : fhist (fcounted unit) fs -> isFace (lg (fm fs)) l f ->
  if Nat.eqb l 0 then getBox (lg (fm fs)) (fbx fs) l = Exn
  else exists bx b, getBox (lg (fm fs)) (fbx fs) l = Ok (bx, b) /\ bx l = Some b /\ (forall k, k <> l -> bx k = fbx fs k) /\ (forall b0, fbx fs l = Some b0 -> b = b0) /\ (fbx fs l = None -> smallestBox (lg (fm fs)) l b).
Proof.
  intros H Hf. apply fhist_inv in H. destruct H as [Fh Fb Fs]. apply isFace_iff in Hf. pose proof (hist_LInv _ Fh) as L. assert (M : MInv (lg (fm fs))).
  { apply Inv_MInv; [apply (li_inv _ _ _ L)|]. intros Q. unfold fAt, tget in Hf. rewrite Q in Hf. destruct l; discriminate Hf. }
  destruct (getBox_spec (lg (fm fs)) (fbx fs) l f M (li_geo _ _ _ L) Hf) as (K0 & K1). destruct (Nat.eqb_spec l 0) as [->|N]; [apply K0; reflexivity|].
  destruct (K1 N) as (b & E & Hc & Hn). eexists. exists b. split; [exact E|]. split; [destruct (fbx fs l) as [c|] eqn:Q; [rewrite Q, (Hc c eq_refl); reflexivity | unfold updN; rewrite Nat.eqb_refl; reflexivity]|].
  split; [intros k Nk; destruct (fbx fs l); [reflexivity|]; unfold updN; destruct (Nat.eqb_spec k l); [contradiction | reflexivity]|]. split; [exact Hc|]. intros Q. specialize (Hn Q).
  destruct (freshBox_spec (lg (fm fs)) l f M (li_geo _ _ _ L) Hf N) as (b' & Lo & Eb & O & B1 & B2). assert (b' = b) by congruence. subst b'.
  assert (Pt : forall (c : box), (forall d ps p, In d Lo -> ptsOf (lg (fm fs)) d ps -> In p ps -> inBox c p) <-> (forall d e p, In d Lo -> eAt (lg (fm fs)) (elab d) = Some e -> In p (epts e) -> inBox c p)).
  { intros c. split.
    - intros K d e p Hd He Hp. apply (K d (if 0 <? d then epts e else rev (epts e)) p Hd); [exists e; split; [apply isEdge_iff, He | reflexivity]|]. destruct (0 <? d); [exact Hp | apply in_rev; rewrite rev_involutive; exact Hp].
    - intros K d ps p Hd (e & He & ->) Hp. apply isEdge_iff in He. apply (K d e p Hd He). destruct (0 <? d); [exact Hp | apply in_rev, Hp]. }
  exists Lo. split; [apply (outer_iff _ _ _ M), O|]. split; [apply Pt, B1|]. intros c Kc q Hq. apply (B2 c); [apply Pt, Kc | exact Hq].
Qed.
Theorem face_box_covers (fs : fstate V) l f : fhist (fcounted unit) fs -> lim (fm fs) <> None -> isFace (lg (fm fs)) l f -> l <> 0%nat ->
  exists b, getBox (lg (fm fs)) (fbx fs) l = Ok (fbx fs, b) /\ edgesInside (lg (fm fs)) l b /\
    forall x y, showsFace (fm fs) x y l -> intPos unit (bx0 b) <= x <= intPos unit (bx1 b) /\ intPos unit (by0 b) <= y <= intPos unit (by1 b).
Proof.
  intros H Hl Hf N. apply fhist_inv in H. destruct H as [Fh Fb Fs]. apply isFace_iff in Hf. assert (M := LInv_MInv srt unit (fm fs) (hist_LInv _ Fh) Hl).
  destruct (Fb Hl l) as (b & Eb & In_ & Px); [congruence | exact N|]. exists b. split; [|split; [apply inside_iff; [apply (mi_v _ M) | exact In_] | exact Px]].
  unfold getBox. rewrite (deref_face _ _ _ Hf). cbn [bind]. apply Nat.eqb_neq in N. rewrite N, Eb. reflexivity.
Qed.
End Main.
