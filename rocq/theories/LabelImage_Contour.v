(** Face::scanLines(): which pixels a contour covers and encloses *)
From Coq Require Import QArith.
From Verif Require Import Base Orbit FaceInv GeoMap_Model GeoMap_Views GeoMap_SInv GeoMap_MergeEdges GeoMap_Loops GeoMap_MInv GeoMap_History GeoMap_Geometry GeoMap_Spec GeoMap_Facts GeoMap_Results
  Scanlines_Model Scanlines_Spec Scanlines_Proofs ScanPoly_Model ScanPoly_Spec ScanPoly_Proofs LabelLUT_Model
  LabelImage_Model LabelImage_Spec LabelImage_Loops LabelImage_Cover LabelImage_Cache LabelImage_Inv.
Local Open Scope Z_scope.

Fixpoint addUp (f : Z -> Z) (L : list Z) : Z := match L with [] => 0 | d :: t => f d + addUp f t end.
Lemma addUp_ext f g L : (forall d, In d L -> f d = g d) -> addUp f L = addUp g L.
Proof. induction L as [|d L IH]; intros H; cbn [addUp]; [reflexivity|]. rewrite (H d), IH by (intros; apply H; cbn; auto) || (cbn; auto). reflexivity. Qed.
Lemma addUp_plus f g L : addUp (fun d => f d + g d) L = addUp f L + addUp g L.
Proof. induction L as [|d L IH]; cbn [addUp]; [reflexivity|]. rewrite IH. lia. Qed.
Lemma addUp_scale k f L : addUp (fun d => k * f d) L = k * addUp f L.
Proof. induction L as [|d L IH]; cbn [addUp]; [lia|]. rewrite IH. lia. Qed.

(** differences along a cycle cancel *)
Lemma addUp_cycle (f : Z -> Z) (g : Z -> Z) x N : per f x N -> addUp (fun d => g d - g (f d)) (orb f x N) = 0.
Proof.
  intros P. assert (G : forall n k, addUp (fun d => g d - g (f d)) (map (fun i => iter i f x) (seq k n)) = g (iter k f x) - g (iter (k + n) f x)).
  { induction n as [|n IH]; intros k; cbn [seq map addUp]; [rewrite Nat.add_0_r; lia|]. rewrite IH. change (f (iter k f x)) with (iter (S k) f x). replace (S k + n)%nat with (k + S n)%nat by lia. lia. }
  unfold orb. rewrite G. cbn [Nat.add]. rewrite (pe_ret _ _ _ P). cbn [iter]. lia.
Qed.

Lemma windLeft_app l1 l2 x : windLeft (l1 ++ l2) x = windLeft l1 x + windLeft l2 x.
Proof. induction l1 as [|g l1 IH]; [reflexivity|]. cbn [app]. rewrite !windLeft_cons, IH. lia. Qed.
Lemma totalDir_app l1 l2 : totalDir (l1 ++ l2) = totalDir l1 + totalDir l2.
Proof. induction l1 as [|g l1 IH]; [reflexivity|]. cbn [app]. rewrite !totalDir_cons, IH. lia. Qed.
Lemma covered_app l1 l2 x : covered (l1 ++ l2) x <-> covered l1 x \/ covered l2 x.
Proof.
  unfold covered. split.
  - intros (g & H & K). apply in_app_or in H. destruct H; [left | right]; exists g; auto.
  - intros [(g & H & K)|(g & H & K)]; exists g; (split; [apply in_or_app; auto | exact K]).
Qed.

Section Contour.
Variable srt : list seg -> list seg.
Hypothesis Hsrt : sorter srt.
Variable unit : positive.
Notation chain := (chain unit).
Notation crosses := (crosses unit).

Definition cacheOK st : Prop :=
  (forall l s e, lsc st l = Some s -> eAt (lg st) l = Some e -> scans (chain (epts e)) s) /\ (forall l, (length (edges (lg st)) <= l)%nat -> lsc st l = None).
(** only scanlines were cached *)
Record scanned st st' : Prop := {
  sn_g : lg st' = lg st; sn_size : lsize st' = lsize st; sn_im : lim st' = lim st; sn_lut : llut st' = llut st; sn_area : larea st' = larea st;
  sn_ok : cacheOK st' }.
Lemma scanned_refl st : cacheOK st -> scanned st st.
Proof. intros H. constructor; auto. Qed.
Lemma scanned_trans a b c : scanned a b -> scanned b c -> scanned a c.
Proof. intros [] []. constructor; congruence || assumption. Qed.
Lemma onlyScan_scanned st l s st' e : cacheOK st -> eAt (lg st) l = Some e -> scans (chain (epts e)) s -> onlyScan st l s st' -> scanned st st'.
Proof.
  intros [C1 C2] He Hs O. constructor; try apply O. destruct O as [Og _ _ _ _ Os]. split; rewrite Og.
  - intros k s' e' Hk He'. rewrite Os in Hk. destruct (Nat.eqb_spec k l) as [->|N]; [|apply (C1 k); assumption]. injection Hk as <-. assert (e' = e) by congruence. subst. exact Hs.
  - intros k Hk. rewrite Os. destruct (Nat.eqb_spec k l) as [->|N]; [|apply C2, Hk]. apply tget_lt in He. lia.
Qed.
Lemma edgeScan_ok st l e : cacheOK st -> SInv (lg st) -> geo (lg st) -> eAt (lg st) l = Some e ->
  exists st' s, edgeScan srt unit st l = Ok (st', s) /\ scans (chain (epts e)) s /\ scanned st st'.
Proof.
  intros C V G He. destruct (edgeScan_spec srt Hsrt unit st l e He) as (st' & s & E & Hs & O); [apply (geo_ne _ _ _ V G He) | intros s Hs; apply (proj1 C l); assumption|].
  exists st', s. split; [exact E|]. split; [exact Hs|]. apply (onlyScan_scanned st l s st' e); assumption.
Qed.

(** ** the loop over the contour *)
Lemma orbitLoop_spec m a N : SI m (darts m) -> In a (darts m) -> per (phi m) a N ->
  forall n i, (i + n = N)%nat -> (0 < n)%nat -> forall f, (n <= f)%nat -> orbitLoop f m a (iter i (phi m) a) = Ok (map (fun j => iter j (phi m) a) (seq i n)).
Proof.
  intros S Ha P. pose proof (phi_perm m S) as HP. induction n as [|n IH]; intros i Hi Hn f Hf; [lia|]. destruct f as [|f]; [lia|]. cbn [orbitLoop].
  rewrite (nextPhi_Ok m _ S) by (apply (iter_in _ _ _ HP); exact Ha). cbn [bind]. change (phi m (iter i (phi m) a)) with (iter (Datatypes.S i) (phi m) a).
  destruct n as [|n].
  - assert (E : Datatypes.S i = N) by lia. rewrite E, (pe_ret _ _ _ P), Z.eqb_refl. reflexivity.
  - destruct (Z.eqb_spec (iter (Datatypes.S i) (phi m) a) a) as [E|_]; [destruct (pe_min _ _ _ P (Datatypes.S i)); [lia | exact E]|].
    rewrite IH by lia. reflexivity.
Qed.
Lemma orbitLoop_orb m a N : SI m (darts m) -> In a (darts m) -> per (phi m) a N -> (N <= length (darts m))%nat -> orbitLoop (fuel m) m a a = Ok (orb (phi m) a N).
Proof.
  intros S Ha P HN. apply (orbitLoop_spec m a N S Ha P N 0); [lia | apply P|]. pose proof (fuel_darts m). lia.
Qed.

Lemma boundY_spec m ds : SInv m -> geo m -> (forall d, In d ds -> In d (darts m)) -> forall acc, ds <> [] \/ acc <> None ->
  exists p, boundY m ds acc = Ok (Some p).
Proof.
  intros V G. induction ds as [|d ds IH]; intros H acc Hn; cbn [boundY].
  - destruct acc as [p|]; [exists p; reflexivity | destruct Hn; congruence].
  - destruct (live_edge m d (H d (or_introl eq_refl))) as (e & He). rewrite (deref_edge _ _ _ He). cbn [bind].
    pose proof (geo_ne _ _ _ V G He) as Np. destruct (epts e) as [|p q]; [congruence|]. apply IH; [intros; apply H; right; assumption|]. right. discriminate.
Qed.

(** the scanlines of a dart *)
Definition dwind m (x y d : Z) : Z := winding x y (chain (dpts m d)).
Definition dT m (x y d : Z) : Z := Tfun x y (hdq (chain (dpts m d))) 0 - Tfun x y (lastq (chain (dpts m d))) 0.
Definition dH m (y d : Z) : Z := hL y (kLineOfY (snd (lastq (chain (dpts m d))))) - hL y (kLineOfY (snd (hdq (chain (dpts m d))))).
Definition dCross m (x y : Z) (ds : list Z) : Prop := exists d, In d ds /\ crosses (dpts m d) x y.

Lemma dart_scans m d e s : In d (darts m) -> eAt m (elab d) = Some e -> scans (chain (epts e)) s ->
  scans (chain (dpts m d)) (if 0 <? d then s else reverseLines s).
Proof.
  intros Hd He Hs. unfold dpts. rewrite He. destruct (0 <? d); [exact Hs|]. unfold LabelImage_Cache.chain. rewrite map_rev. apply scans_reverse, Hs.
Qed.

Lemma mergeScans_spec m ds : SInv m -> geo m -> forall st acc, lg st = m -> cacheOK st -> (forall d, In d ds -> In d (darts m)) -> properLines acc ->
  exists st' acc', mergeScans srt unit st ds acc = Ok (st', acc') /\ scanned st st' /\ properLines acc' /\
    (forall x y, covered (lineOf acc' y) x <-> covered (lineOf acc y) x \/ dCross m x y ds) /\
    (forall x y, ~ covered (lineOf acc' y) x -> windLeft (lineOf acc' y) x = windLeft (lineOf acc y) x + addUp (fun d => 2 * dwind m x y d + dT m x y d) ds) /\
    (forall y, totalDir (lineOf acc' y) = totalDir (lineOf acc y) + addUp (dH m y) ds).
Proof.
  intros V G. induction ds as [|d ds IH]; intros st acc Hg C Hd Hp; cbn [mergeScans].
  - exists st, acc. split; [reflexivity|]. split; [apply scanned_refl, C|]. split; [exact Hp|]. cbn [addUp].
    split; [intros x y; split; [auto | intros [H|(d & [] & _)]; exact H]|]. split; intros; lia.
  - destruct (live_edge m d (Hd d (or_introl eq_refl))) as (e & He). destruct (edgeScan_ok st (elab d) e C) as (st1 & s & E & Hs & Sn); [rewrite Hg; assumption..|].
    rewrite E. cbn [bind fst snd]. pose proof (dart_scans m d e s (Hd d (or_introl eq_refl)) He Hs) as [T Cv W D].
    set (s' := if 0 <? d then s else reverseLines s) in *. clearbody s'.
    destruct (merge_spec acc s') as (acc1 & Em & _ & _ & Lm). rewrite Em. cbn [bind].
    destruct (IH st1 acc1) as (st' & acc' & E' & Sn' & P' & C' & W' & D').
    + rewrite (sn_g _ _ Sn). exact Hg.
    + apply (sn_ok _ _ Sn).
    + intros d' H. apply Hd. right. exact H.
    + intros y. rewrite Lm. intros g Hg0. apply in_app_or in Hg0. destruct Hg0 as [Hg0|Hg0]; [apply (Hp y g Hg0) | apply (proj2 (T y) g Hg0)].
    + exists st', acc'. split; [exact E'|]. split; [apply (scanned_trans st st1); assumption|]. split; [exact P'|]. split; [|split].
      * intros x y. rewrite C', Lm, covered_app, Cv. unfold dCross. split.
        -- intros [[H|H]|(d' & H & K)]; [left; exact H | right; exists d; split; [left; reflexivity | exact H] | right; exists d'; split; [right; exact H | exact K]].
        -- intros [H|(d' & [<-|H] & K)]; [left; left; exact H | left; right; exact K | right; exists d'; auto].
      * intros x y Hu. rewrite (W' x y Hu), Lm, windLeft_app. cbn [addUp]. rewrite (W x y); [unfold dwind, dT; lia|].
        intros K. apply Hu, C'. left. rewrite Lm. apply covered_app. right. apply Cv, K.
      * intros y. rewrite D', Lm, totalDir_app, D. cbn [addUp]. unfold dH at 2. lia.
Qed.

(** the last point of a dart is the first of the next *)
Lemma dart_ends m d : SInv m -> geo m -> In d (darts m) -> lastq (chain (dpts m d)) = hdq (chain (dpts m (phi m d))).
Proof.
  intros V G Hd. pose proof (sv_si _ V) as S0. pose proof (phi_perm m S0) as HP. destruct (HP d Hd) as (A & _).
  assert (Hd' : In (- d) (darts m)) by (apply darts_opp; exact Hd).
  destruct (G _ Hd') as [L1 P1]. destruct (G _ A) as [L2 P2]. assert (E : stt m (phi m d) = stt m (- d)) by (unfold phi; apply (SI_st_si m _ _ S0 Hd')).
  rewrite E in P2. rewrite <- P2 in P1. clear P2. rewrite (dpts_opp m) in P1, L1 by (apply (si_nz _ _ S0); assumption).
  set (a := dpts m d) in *. set (b := dpts m (phi m d)) in *. clearbody a b. unfold LabelImage_Cache.chain. rewrite <- (rev_involutive a), map_rev, lastq_rev.
  destruct (rev a) as [|p t]; [cbn in L1; lia|]. destruct b as [|q t']; [cbn in L2; lia|]. cbn [hd_error] in P1. injection P1 as ->. reflexivity.
Qed.

(** ** The scanlines of a face *)
Definition winds m (x y : Z) (L : list Z) : Z := addUp (dwind m x y) L.
Record contourScan m (L : list Z) (s : scanlines) : Prop := {
  cs_proper : properLines s;
  cs_cov : forall x y, covered (lineOf s y) x <-> dCross m x y L;
  cs_wind : forall x y, ~ dCross m x y L -> windLeft (lineOf s y) x = 2 * winds m x y L;
  cs_total : forall y, totalDir (lineOf s y) = 0 }.

Lemma lineOf_new a n y : lineOf (newScanlines a n) y = [].
Proof. unfold lineOf, newScanlines. cbn [sl_start sl_lines]. destruct (y <? a); [reflexivity|]. apply nth_repeat_nil. Qed.

Theorem faceScan_spec st l f : cacheOK st -> MInv (lg st) -> geo (lg st) -> fAt (lg st) l = Some f -> l <> 0%nat ->
  exists a t N st' s, fanchors f = a :: t /\ In a (darts (lg st)) /\ per (phi (lg st)) a N /\
    faceScan srt unit st l = Ok (st', normalize srt s) /\ scanned st st' /\ contourScan (lg st) (orb (phi (lg st)) a N) s.
Proof.
  intros C M G Hf Hl. set (m := lg st) in *. pose proof (mi_v _ M) as V. pose proof (sv_si _ V) as S0. pose proof (faces_filled m l f M Hf Hl) as Hne.
  destruct (fanchors f) as [|a t] eqn:Ea; [congruence|].
  assert (Ha : In a (darts m)). { apply (fi_anchor _ _ _ _ (mi_f _ M) l (fanchors f)); [unfold fanch; rewrite Hf; reflexivity | rewrite Ea; left; reflexivity]. }
  pose proof (phi_perm m S0) as HP. destruct (min_period _ _ _ a HP Ha) as (N & P & HN).
  exists a, t, N. unfold faceScan. fold m. rewrite (deref_face _ _ _ Hf). cbn [bind]. destruct (Nat.eqb_spec l 0); [contradiction|]. rewrite Ea. cbn [vget nth_error bind].
  rewrite (orbitLoop_orb m a N S0 Ha P HN). cbn [bind].
  assert (HL : forall d, In d (orb (phi m) a N) -> In d (darts m)).
  { intros d H. apply (orb_in _ _ _ P) in H. exact (reach_in _ _ _ HP a d Ha H). }
  destruct (boundY_spec m (orb (phi m) a N) V G HL None) as ([lo hi] & ->).
  { left. unfold orb. pose proof (pe_pos _ _ _ P). destruct N; [lia|]. discriminate. }
  cbn [bind]. set (n0 := newScanlines _ _). assert (Pn : properLines n0) by (intros y; unfold n0; rewrite lineOf_new; intros g []).
  destruct (mergeScans_spec m (orb (phi m) a N) V G st n0 eq_refl C HL Pn) as (st' & s & E & Sn & Ps & Cv & W & D). rewrite E. cbn [bind fst snd].
  exists st', s. split; [reflexivity|]. split; [exact Ha|]. split; [exact P|]. split; [reflexivity|]. split; [exact Sn|].
  assert (Cv' : forall x y, covered (lineOf s y) x <-> dCross m x y (orb (phi m) a N)).
  { intros x y. rewrite Cv. unfold n0. rewrite lineOf_new. split; [intros [H|H]; [destruct (covered_nil _ H) | exact H] | auto]. }
  constructor; auto.
  - intros x y Hu. rewrite W by (rewrite Cv'; exact Hu). unfold n0. rewrite lineOf_new. unfold windLeft at 1. cbn [filter map sumZ].
    rewrite addUp_plus, addUp_scale. unfold winds. replace (addUp (dT m x y) (orb (phi m) a N)) with 0; [lia|]. symmetry.
    rewrite <- (addUp_cycle (phi m) (fun d => Tfun x y (hdq (chain (dpts m d))) 0) a N P). apply addUp_ext. intros d Hd. unfold dT. rewrite (dart_ends m d V G (HL d Hd)). reflexivity.
  - intros y. rewrite D. unfold n0. rewrite lineOf_new. unfold totalDir at 1. cbn [map sumZ]. change (addUp (dH m y) (orb (phi m) a N) = 0).
    rewrite <- (addUp_cycle (phi m) (fun d => - hL y (kLineOfY (snd (hdq (chain (dpts m d)))))) a N P). apply addUp_ext. intros d Hd. unfold dH. rewrite (dart_ends m d V G (HL d Hd)). lia.
Qed.

(** ** Filling and drawing one contour *)
Lemma existsb_px ps x y : existsb (fun p => (fst p =? x) && (snd p =? y)) ps = true <-> In (x, y) ps.
Proof.
  rewrite existsb_exists. split.
  - intros ([a b] & H & K). cbn [fst snd] in K. apply andb_true_iff in K. destruct K as [K1 K2]. apply Z.eqb_eq in K1, K2. subst. exact H.
  - intros H. exists (x, y). split; [exact H|]. cbn [fst snd]. rewrite !Z.eqb_refl. reflexivity.
Qed.
Definition encl m (L : list Z) (x y : Z) : Prop := ~ dCross m x y L /\ 0 < winds m x y L.

Lemma fillImage_spec m L s img v : contourScan m L s -> 0 <= iw img -> exists img', fillImage (normalize srt s) img v = Ok img' /\ sameSize img img' /\
  forall x y, insideB img x y = true -> (encl m L x y -> ipx img' x y = v) /\ (~ encl m L x y -> ipx img' x y = ipx img x y).
Proof.
  intros [Ps Cv W D] Hw. destruct (fill_spec srt s (iw img) (ih img) Hsrt Ps Hw) as [H _]. destruct H as (px & E & _ & Hin); [intros y _; apply D|].
  unfold fillImage. rewrite E. cbn [bind fst]. eexists. split; [reflexivity|]. split; [split; reflexivity|]. cbn [ipx setPixels].
  intros x y Hi. unfold insideB in Hi. rewrite !andb_true_iff, !Z.leb_le, !Z.ltb_lt in Hi. specialize (Hin x y). rewrite <- existsb_px in Hin. unfold encl.
  assert (K : existsb (fun p => (fst p =? x) && (snd p =? y)) px = true <-> ~ dCross m x y L /\ 0 < winds m x y L).
  { rewrite Hin, Cv. split; [intros (_ & _ & H1 & H2); rewrite (W x y H1) in H2; split; [exact H1 | lia] | intros [H1 H2]; rewrite (W x y H1); repeat split; try lia; exact H1]. }
  split; intros H; destruct (existsb _ _); auto; [apply K in H; discriminate | destruct H; apply K; reflexivity].
Qed.

Lemma drawImage_spec m L s img v : contourScan m L s -> exists img', drawImage (normalize srt s) img v = Ok img' /\ sameSize img img' /\
  forall x y, insideB img x y = true -> (dCross m x y L -> ipx img' x y = v) /\ (~ dCross m x y L -> ipx img' x y = ipx img x y).
Proof.
  intros [Ps Cv W D]. destruct (draw_spec srt s (iw img) (ih img) Hsrt Ps) as (px & E & _ & Hin).
  unfold drawImage. rewrite E. cbn [bind fst]. eexists. split; [reflexivity|]. split; [split; reflexivity|]. cbn [ipx setPixels].
  intros x y Hi. unfold insideB in Hi. rewrite !andb_true_iff, !Z.leb_le, !Z.ltb_lt in Hi. specialize (Hin x y). rewrite <- existsb_px in Hin.
  assert (K : existsb (fun p => (fst p =? x) && (snd p =? y)) px = true <-> dCross m x y L).
  { rewrite Hin, Cv. tauto. }
  split; intros H; destruct (existsb _ _); auto; [apply K in H; discriminate | destruct H; apply K; reflexivity].
Qed.
End Contour.
