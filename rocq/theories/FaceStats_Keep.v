(** The bounding boxes of the faces through every call. *)
From Coq Require Import QArith Permutation.
From Verif Require Import Base Orbit FaceInv GeoMap_Model GeoMap_Views GeoMap_Loops GeoMap_SInv GeoMap_Remove GeoMap_MergeEdges GeoMap_SplitEdge GeoMap_MInv GeoMap_Gone GeoMap_Bridge GeoMap_MergeFaces
  GeoMap_Flags GeoMap_Move GeoMap_Sort GeoMap_Init GeoMap_Area GeoMap_History GeoMap_Geometry GeoMap_Subdiv GeoMap_Spec GeoMap_Facts GeoMap_Results
  Scanlines_Model Scanlines_Spec ScanPoly_Model ScanPoly_Spec LabelLUT_Model LabelImage_Model LabelImage_Spec LabelImage_Loops LabelImage_Cover LabelImage_Cache LabelImage_Inv
  LabelImage_Steps LabelImage_Remove LabelImage_Pass LabelImage_Contour LabelImage_Setup LabelImage_Switch LabelImage_Relabel LabelImage_Results LabelImage_Main FaceStats_Model FaceStats_Spec FaceStats_Boxes FaceStats_Proofs.
Local Open Scope Z_scope.

(** ** boundingBox() of a face *)
Lemma outer_exists m l f : MInv m -> fAt m l = Some f -> l <> 0%nat -> exists a t N, fanchors f = a :: t /\ In a (darts m) /\ per (phi m) a N /\ (N <= length (darts m))%nat.
Proof.
  intros M Hf Nl. pose proof (faces_filled m l f M Hf Nl) as Hne. destruct (fanchors f) as [|a t] eqn:Ea; [congruence|].
  assert (Ha : In a (darts m)). { apply (fi_anchor _ _ _ _ (mi_f _ M) l (fanchors f)); [unfold fanch; rewrite Hf; reflexivity | rewrite Ea; left; reflexivity]. }
  destruct (min_period _ _ _ a (phi_perm m (sv_si _ (mi_v _ M))) Ha) as (N & P & HN). exists a, t, N. auto.
Qed.
Lemma relF_edge m m' l e' : relF m m' -> eAt m' l = Some e' -> exists e, eAt m l = Some e /\ epts e' = epts e.
Proof. intros R H. pose proof (rf_edge _ _ R l) as K. rewrite H in K. destruct (eAt m l) as [e|]; [|contradiction]. exists e. split; [reflexivity | apply K]. Qed.
Lemma oldPlace_inj old new l : tget old l <> None -> (forall l2, tget old l2 <> None -> nw new l2 = nw new l -> l2 = l) -> oldPlace old new (nw new l) = Some l.
Proof.
  intros Hl Hi. unfold oldPlace. destruct (find _ _) as [k|] eqn:E.
  - apply find_some in E. destruct E as [_ E]. apply andb_true_iff in E. destruct E as [E1 E2]. apply Nat.eqb_eq in E2. apply isLive_tget in E1. f_equal. apply Hi; assumption.
  - exfalso. assert (Hin : In l (seq 0 (length old))) by (apply in_seq; destruct (tget old l) eqn:E'; [apply tget_lt in E'; lia | congruence]).
    pose proof (find_none _ _ E l Hin) as K. cbn beta in K. apply isLive_tget in Hl. rewrite Hl in K. cbn [andb] in K. fold (nw new l) in K. rewrite Nat.eqb_refl in K. discriminate.
Qed.
Lemma part_in {A} (l : list A) k x : In x (firstn k l) \/ In x (skipn k l) -> In x l.
Proof. intros H. rewrite <- (firstn_skipn k l). apply in_or_app, H. Qed.
Lemma contourPoints_spec m : forall L, (forall d, In d L -> In d (darts m)) -> exists ps, contourPoints m L = Ok ps /\
  forall p, In p ps <-> exists d e, In d L /\ eAt m (elab d) = Some e /\ In p (epts e).
Proof.
  induction L as [|d L IH]; intros H; cbn [contourPoints].
  - exists []. split; [reflexivity|]. intros p. split; [intros [] | intros (d & e & [] & _)].
  - destruct (live_edge m d (H d (or_introl eq_refl))) as (e & He). rewrite (deref_edge _ _ _ He). cbn [bind]. destruct IH as (ps & -> & IH); [intros; apply H; right; assumption|]. cbn [bind].
    exists (epts e ++ ps). split; [reflexivity|]. intros p. rewrite in_app_iff, IH. split.
    + intros [K|(d' & e' & K1 & K2 & K3)]; [exists d, e; cbn; auto | exists d', e'; cbn; auto].
    + intros (d' & e' & [->|K1] & K2 & K3); [left; congruence | right; exists d', e'; auto].
Qed.
Lemma freshBox_spec m l f : MInv m -> geo m -> fAt m l = Some f -> l <> 0%nat -> exists b L, freshBox m l = Ok b /\ outerOf m l L /\
  (forall d e p, In d L -> eAt m (elab d) = Some e -> In p (epts e) -> inBox b p) /\
  (forall c, (forall d e p, In d L -> eAt m (elab d) = Some e -> In p (epts e) -> inBox c p) -> forall q, inBox b q -> inBox c q).
Proof.
  intros M G Hf Nl. pose proof (mi_v _ M) as V. unfold freshBox. rewrite (deref_face _ _ _ Hf). cbn [bind].
  destruct (outer_exists m l f M Hf Nl) as (a & t & N & Ea & Da & P & HN). rewrite Ea. unfold vget at 1. cbn [nth_error bind].
  rewrite (orbitLoop_orb m a N (sv_si _ V) Da P HN). cbn [bind]. set (L := orb (phi m) a N).
  assert (O : outerOf m l L) by (split; [exact Nl|]; exists f, a, t, N; auto 10). assert (HL : forall d, In d L -> In d (darts m)) by (intros d Hd; apply (outer_darts m l L d V O Hd)).
  destruct (contourPoints_spec m L HL) as (ps & -> & Hp). cbn [bind].
  assert (Aa : In a L) by (apply (orb_in _ _ _ P); apply reach_refl).
  destruct ps as [|p0 ps].
  - exfalso. destruct (live_edge m a Da) as (e & He). destruct (G a Da) as [Ga _]. unfold dpts in Ga. rewrite He in Ga. assert (K : (2 <= length (epts e))%nat) by (destruct (0 <? a); [exact Ga | rewrite rev_length in Ga; exact Ga]).
    destruct (epts e) as [|q qs] eqn:Eq; [cbn in K; lia|]. apply (proj2 (Hp q)). exists a, e. rewrite Eq. cbn. auto.
  - exists (boxOf p0 ps), L. split; [reflexivity|]. split; [exact O|]. split.
    + intros d e p Hd He Hin. apply boxOf_in. apply Hp. exists d, e. auto.
    + intros c Hc q Hq. assert (Hall : forall r, In r (p0 :: ps) -> inBox c r) by (intros r Hr; apply Hp in Hr; destruct Hr as (d & e & K1 & K2 & K3); apply (Hc d e r K1 K2 K3)).
      apply (boxOf_within ps (mkBox (fst p0) (snd p0) (fst p0) (snd p0)) c); [intros r Hr; apply Hall; right; exact Hr | | exact Hq | cbn; lia | cbn; lia].
      intros r Hr. pose proof (Hall p0 (or_introl eq_refl)) as K. unfold inBox in *. cbn in *. lia.
Qed.
Lemma getBox_spec m bx l f : MInv m -> geo m -> fAt m l = Some f ->
  (l = 0%nat -> getBox m bx l = Exn) /\ (l <> 0%nat -> exists b, getBox m bx l = Ok (match bx l with Some _ => bx | None => updN bx l (Some b) end, b) /\ (forall c, bx l = Some c -> b = c) /\ (bx l = None -> freshBox m l = Ok b)).
Proof.
  intros M G Hf. unfold getBox. rewrite (deref_face _ _ _ Hf). cbn [bind]. split; [intros ->; reflexivity|]. intros N. apply Nat.eqb_neq in N. rewrite N. apply Nat.eqb_neq in N.
  destruct (bx l) as [b|]; [exists b; split; [reflexivity|]; split; [congruence | discriminate]|]. destruct (freshBox_spec m l f M G Hf N) as (b & L & -> & _). cbn [bind]. exists b. split; [reflexivity|]. split; [discriminate | reflexivity].
Qed.

(** ** mergeFaces, from the dart chosen *)
Lemma merge_hook hk m d m' o : mergeFaces hk m d = Ok (m', o) -> exists g d', pickDart m d = Ok (g, d') /\ hkMergeFaces hk g d' = match o with Some _ => true | None => false end.
Proof.
  unfold mergeFaces. intros E. apply bind_Ok in E. destruct E as (u & _ & E). apply bind_Ok in E. destruct E as ([m1 d1] & Ex & E). exists m1, d1. split; [exact Ex|].
  apply bind_Ok in E. destruct E as (sl & Es & E). apply bind_Ok in E. destruct E as (u1 & _ & E). apply bind_Ok in E. destruct E as (ml & _ & E).
  apply bind_Ok in E. destruct E as (mf & _ & E). apply bind_Ok in E. destruct E as (n1 & _ & E). apply bind_Ok in E. destruct E as (u2 & _ & E).
  destruct sl as [s0|]; [|discriminate]. destruct ml as [mm|]; [|discriminate]. destruct (Nat.eqb s0 mm); [discriminate|]. destruct (hkMergeFaces hk m1 d1); cbn [negb] in E; [|injection E as _ <-; reflexivity].
  do 10 (apply bind_Ok in E; destruct E as (? & _ & E)). injection E as _ <-. reflexivity.
Qed.
Lemma merge_full hk m d m' o : MInv m -> mergeFaces hk m d = Ok (m', o) -> In d (darts m) /\ exists g d' s mm,
  pickDart m d = Ok (g, d') /\ hkMergeFaces hk g d' = match o with Some _ => true | None => false end /\ (d' = d \/ d' = - d) /\ In d' (darts m) /\ lft m d' = Some s /\ lft m (- d') = Some mm /\ s <> mm /\ mm <> 0%nat /\
  (o = None \/ o = Some s /\ exists mc, cached m mc /\ FMerged mc d' s mm m').
Proof.
  intros M E. pose proof (mergeFaces_spec hk m d M) as Sp. rewrite E in Sp. cbn [good fst snd] in Sp. destruct Sp as (Hd & mc & d' & s & mm & C & Sv & H1 & H2 & Hn & Sp). split; [exact Hd|].
  destruct (merge_hook hk m d m' o E) as (g & d2 & Ep & Hk). destruct (pickDart_spec m d M Hd) as (mc2 & d3 & s2 & mm2 & Ep' & C2 & Sv2 & Hl2 & Hr2). rewrite Ep in Ep'. injection Ep' as <- <-.
  assert (Hdd2 : d2 = d \/ d2 = - d) by (destruct Sv2 as (l & r & fl & fr & vl & vr & _ & _ & _ & _ & _ & _ & [(-> & _)|(-> & _)] & _); auto).
  assert (Hdd : d' = d \/ d' = - d) by (destruct Sv as (l & r & fl & fr & vl & vr & _ & _ & _ & _ & _ & _ & [(-> & _)|(-> & _)] & _); auto).
  assert (Hd2 : In d2 (darts m)) by (destruct Hdd2 as [->| ->]; [|apply darts_opp]; assumption).
  assert (N2 : s2 <> mm2). { intros Q. subst mm2. apply Hn. destruct Hdd as [->| ->], Hdd2 as [->| ->]; rewrite ?Z.opp_involutive in *; congruence. }
  assert (Z2 : mm2 <> 0%nat) by (destruct Sv2 as (l & r & fl & fr & vl & vr & _ & _ & _ & _ & _ & _ & _ & K); apply K, N2).
  exists g, d2, s2, mm2. split; [exact Ep|]. split; [exact Hk|]. split; [exact Hdd2|]. split; [exact Hd2|]. split; [exact Hl2|]. split; [exact Hr2|]. split; [exact N2|]. split; [exact Z2|].
  destruct Sp as [(_ & -> & _)|(_ & -> & B)]; [left; reflexivity|right].
  destruct (mergeFaces_pick hk m d m' s E) as (x & Ex & Hx). rewrite Ep in Ex. injection Ex as <-. cbn [fst snd] in Hx.
  destruct (cached_views _ _ C2) as (Dv & _ & _ & Lv & _). rewrite leftLabel_Ok in Hx by (rewrite Dv; exact Hd2). rewrite Lv, Hl2 in Hx. injection Hx as ->.
  assert (Q : d2 = d') by (destruct Hdd as [Q|Q], Hdd2 as [Q2|Q2]; try congruence; exfalso; apply Hn; subst d' d2; rewrite ?Z.opp_involutive in *; congruence).
  subst d2. assert (mm2 = mm) by congruence. subst mm2. split; [reflexivity|]. exists mc. auto.
Qed.

Section Keep.
Variable srt : list seg -> list seg.
Hypothesis Hsrt : sorter srt.
Variable unit : positive.
Notation LInv := (LInv srt unit).
Notation hist := (lhistory srt unit).
Notation pixelIn := (pixelIn unit).
Notation boxInv := (boxInv unit).

Lemma LInv_MInv st : LInv st -> lim st <> None -> MInv (lg st).
Proof. intros L H. destruct (lim st) as [img|] eqn:Hi; [|congruence]. apply (ii_m _ _ _ _ (li_img _ _ _ L img Hi)). Qed.

Lemma boxInv_cover st bx : MInv (lg st) -> geo (lg st) -> boxesCover (lg st) bx -> (forall x y l, l <> 0%nat -> showsFace st x y l -> around unit (lg st) l x y) -> boxInv st bx.
Proof.
  intros M G H Hs l Hl N. destruct (fAt (lg st) l) as [f|] eqn:Ef; [|congruence]. destruct (H l f) as (b & Eb & In_); [apply isFace_iff, Ef | exact N|].
  apply (inside_iff (lg st) l b (mi_v _ M)) in In_. exists b. split; [exact Eb|]. split; [exact In_|]. intros x y K. apply (around_in unit (lg st) l b x y M G In_), Hs; assumption.
Qed.
Lemma boxInv_init st ord par st' bx : hist tracked st -> lallowed st (LInit ord par true) -> lexec srt unit st (LInit ord par true) = Ok st' -> boxesCover (lg st') bx -> boxInv st' bx.
Proof.
  intros H Al E C. destruct (init_paints srt Hsrt unit st ord par st' H Al E) as (Hi & P).
  assert (L' : LInv st'). { apply (hist_inv srt Hsrt unit). eapply lh_call; [exact H | exact Al | | exact E]. exact I. }
  apply boxInv_cover; [apply LInv_MInv; assumption | apply L' | exact C|]. intros x y l N K. apply P in K. destruct K as (_ & _ & [(a & b & _ & K & _)|[-> _]]); [exact K | congruence].
Qed.
Lemma boxInv_switch st st' bx : hist tracked st -> lim st = None -> lexec srt unit st (LSetImage true) = Ok st' -> boxesCover (lg st) bx -> boxInv st' bx.
Proof.
  intros H Hn E C. destruct (switched_on srt Hsrt unit st st' H Hn E) as (Eg & Hi & P & _).
  assert (L' : LInv st'). { apply (hist_inv srt Hsrt unit). eapply lh_call; [exact H | | | exact E]; exact I. }
  apply boxInv_cover; [apply LInv_MInv; assumption | apply L' | rewrite Eg; exact C|]. intros x y l N K. apply P in K. rewrite Eg. destruct K as (_ & _ & [[K _]|[-> _]]); [exact K | congruence].
Qed.

(** ** calls that keep the faces *)
Lemma keep_inside st c st' : hist tracked st -> lim st <> None -> lallowed st c -> tracked st c -> keepsFaces c -> lexec srt unit st c = Ok st' ->
  (forall l b, inside (lg st) l b -> inside (lg st') l b) /\ (forall f, fAt (lg st') f <> None <-> fAt (lg st) f <> None) /\ lim st' <> None.
Proof.
  intros H Hl Al Tr K E. destruct (hist_inv srt Hsrt unit st H) as (L & Hw & _). pose proof (LInv_MInv st L Hl) as M. pose proof (mi_v _ M) as V. pose proof (li_geo _ _ _ L) as G.
  assert (Same : forall m', (forall l b, inside (lg st) l b -> inside m' l b) -> sameFaces (lg st) m' -> st' = set_lg st m' -> (forall l b, inside (lg st) l b -> inside (lg st') l b) /\ (forall f, fAt (lg st') f <> None <-> fAt (lg st) f <> None) /\ lim st' <> None).
  { intros m' A [_ B] ->. auto. }
  destruct c as [hk o|ord par wi|onoff|new mx|l|]; cbn [keepsFaces] in K; try contradiction; cbn [lexec] in E.
  - assert (Ut : forall st'', untouched srt unit st st'' -> (forall f, fAt (lg st'') f <> None <-> fAt (lg st) f <> None) /\ lim st'' <> None).
    { intros st'' [_ _ _ U]. destruct (lim st) as [img|]; [|congruence]. destruct (lim st''); [|contradiction]. split; [apply U | discriminate]. }
    assert (Plain : plain o -> (m <- run_op hk (lg st) o ;; Ok (set_lg st m)) = Ok st' -> (forall m', run_op hk (lg st) o = Ok m' -> forall l b, inside (lg st) l b -> inside m' l b) ->
      (forall l b, inside (lg st) l b -> inside (lg st') l b) /\ (forall f, fAt (lg st') f <> None <-> fAt (lg st) f <> None) /\ lim st' <> None).
    { intros P E' Hi. pose proof (pass_spec srt unit hk st o L Al Tr P) as G0. destruct (run_op hk (lg st) o) as [m'| | |]; cbn [bind good] in *; try discriminate. injection E' as <-. destruct G0 as (_ & G0). destruct (G0 Hl) as (_ & _ & Hf). auto. }
    pose proof (allowed_op_ok (lg st) hk o V (proj1 Al)) as Ok_.
    assert (N0 : faces (lg st) <> []) by (intros Q; apply (mi_0 _ M); unfold fAt; rewrite Q; reflexivity). assert (N1 : length (faces (lg st)) <> 0%nat) by (destruct (faces (lg st)); [congruence | discriminate]).
    destruct o as [p|p l|s e pts l|d|d|l k p ins|d|d|l|l|l fl b|n p| |f hs sr]; try contradiction.
    + apply Plain; [exact I | exact E|]. intros m' Q. injection Q as <-. intros l b. apply inside_same. reflexivity.
    + apply Plain; [exact I | exact E|]. intros m' Q. injection Q as <-. intros j b. apply inside_same. reflexivity.
    + exfalso. pose proof (addEdge_inv (lg st) s e pts l V (proj1 Ok_) (proj2 Ok_)) as Ga. cbn [run_op] in E. destruct (addEdge (lg st) s e pts l) as [[m' r]| | |]; cbn [good bind] in *; try discriminate. destruct Ga as (_ & _ & Ef & _). congruence.
    + pose proof (mergeEdges_spec hk (lg st) d V (or_intror (mi_f _ M))) as Sp. pose proof (lmergeEdges_spec srt Hsrt unit hk st d L) as S. destruct (lmergeEdges srt unit hk st d) as [[s r]| | |]; cbn [goodL bind fst snd] in *; try discriminate. injection E as <-. destruct S as (_ & Em & U).
      split; [|apply Ut, U]. rewrite Em in Sp. cbn [good fst snd] in Sp. destruct Sp as (d1 & d2 & m0 & D2 & Fm & _ & Sp).
      assert (Ee : edges m0 = edges (lg st)) by (rewrite (fm_eq _ _ _ Fm); reflexivity). destruct Sp as [(_ & _ & ->)|(_ & _ & B)]; [intros l b; apply inside_same; exact Ee|].
      intros l b Hb. apply (inside_merged m0 d1 d2 (lg s) l b); [apply (fm_MInv _ _ _ M Fm) | rewrite (fm_eq _ _ _ Fm); exact G | apply (fm_Deg2 (lg st) d2); assumption | exact B|]. apply (inside_same (lg st)); assumption.
    + pose proof (lsplitEdge_spec srt Hsrt unit hk st l k p ins L Al Tr) as S. destruct (lsplitEdge srt unit st l k p ins) as [[s r]| | |]; cbn [goodL bind fst snd] in *; try discriminate. injection E as <-. destruct S as (_ & Em & U).
      split; [|apply Ut, U]. destruct (proj1 Al) as (e & He & Hp). apply isEdge_iff in He. pose proof (splitEdge_spec (lg st) l e k p ins V He Hp) as Sp. rewrite Em in Sp. destruct Sp as (Hk & pos & _ & Sp).
      intros j b. apply (inside_split (lg st) l e _ pos _ (lg s) r j b V He Sp). intros q Hq Hb. destruct ins; [|apply Hb, Hq].
      assert (Bp : inBox b p).
      { destruct Tr as [_ Tr]. destruct (nth_error (epts e) k) as [a|] eqn:Ea; [|apply nth_error_None in Ea; lia]. destruct (nth_error (epts e) (Datatypes.S k)) as [c|] eqn:Ec; [|apply nth_error_None in Ec; lia].
        apply (onSegment_inBox b a p c); [apply Hb, (nth_error_In _ _ Ea) | apply Hb, (nth_error_In _ _ Ec) | apply (Tr Hl eq_refl e); auto; apply isEdge_iff; exact He]. }
      unfold insert_at in Hq. apply in_app_or in Hq. destruct Hq as [Hq|[<-|Hq]]; [apply Hb, (part_in _ (Datatypes.S k)); auto | exact Bp | apply Hb, (part_in _ (Datatypes.S k)); auto].
    + apply Plain; [exact I | exact E|]. intros m' Q. cbn [run_op op_ok] in *. destruct Ok_ as (n & Hn & _). unfold removeIsolatedNode in Q. rewrite (deref_node _ _ _ Hn) in Q. cbn [bind] in Q.
      intros j b. destruct (hkNode hk (lg st) l); cbn [bind fst] in Q; injection Q as <-; apply inside_same; reflexivity.
    + apply Plain; [exact I | exact E|]. intros m' Q. cbn [run_op op_ok] in *. destruct (fAt (lg st) l) as [f|] eqn:Ef; [|contradiction]. destruct (faceArea_spec (lg st) l f V (mi_f _ M) Ef) as (m'' & v & Q' & C & _). rewrite Q' in Q. cbn [bind fst] in Q. injection Q as <-.
      intros j b. apply inside_cached, C.
    + apply Plain; [exact I | exact E|]. intros m' Q. cbn [run_op op_ok] in *. destruct Ok_ as (e & He). destruct (setFlag_flagged (lg st) l fl b e He) as (m'' & Q' & F). rewrite Q' in Q. injection Q as <-. intros j c. apply inside_flag, F.
    + exfalso. destruct Tr as [Tr _]. congruence.
    + exfalso. cbn [run_op] in E. unfold sortEdgesDirectly in E. destruct (Nat.eqb_spec (length (faces (lg st))) 0); [lia|]. discriminate E.
    + exfalso. cbn [run_op] in E. unfold setSigmaMapping in E. destruct (Nat.eqb_spec (length (faces (lg st))) 0); [lia|]. discriminate E.
  - destruct Al as (e & He). apply isEdge_iff in He. destruct (edgeScan_ok srt Hsrt unit st l e (LInv_cache srt unit st L) V G He) as (s & sc & E1 & _ & Sn). rewrite E1 in E. cbn [bind fst] in E. injection E as <-.
    destruct Sn as [S1 S2 S3 S4 S5 _]. rewrite S1. split; [auto|]. split; [tauto|]. congruence.
  - injection E as <-. cbn. split; [auto|]. split; [tauto|]. destruct (Nat.eqb_spec (length (faces (lg st))) 0) as [Q|Q]; [|exact Hl]. exfalso. apply (mi_0 _ M). unfold fAt. destruct (faces (lg st)); [reflexivity | discriminate].
Qed.

Lemma lim_kept st c st' : LInv st -> lallowed st c -> tracked st c -> keepsFaces c -> lexec srt unit st c = Ok st' -> lim st = None -> lim st' = None.
Proof.
  intros L Al Tr K E Hn. destruct c as [hk o|ord par wi|onoff|new mx|l|]; cbn [keepsFaces] in K; try contradiction; cbn [lexec] in E.
  - assert (Ut : forall st'', untouched srt unit st st'' -> lim st'' = None) by (intros st'' [_ _ _ U]; rewrite Hn in U; destruct (lim st''); [contradiction | reflexivity]).
    destruct o as [p|p l|s e pts l|d|d|l k p ins|d|d|l|l|l fl b|n p| |f hs sr]; try contradiction; try (apply bind_Ok in E; destruct E as (m' & _ & E); injection E as <-; exact Hn).
    + pose proof (lmergeEdges_spec srt Hsrt unit hk st d L) as S. destruct (lmergeEdges srt unit hk st d) as [[s r]| | |]; cbn [goodL bind fst snd] in *; try discriminate. injection E as <-. apply Ut, S.
    + pose proof (lsplitEdge_spec srt Hsrt unit hk st l k p ins L Al Tr) as S. destruct (lsplitEdge srt unit st l k p ins) as [[s r]| | |]; cbn [goodL bind fst snd] in *; try discriminate. injection E as <-. apply Ut, S.
  - destruct Al as (e & He). apply isEdge_iff in He. destruct (edgeScan_ok srt Hsrt unit st l e (LInv_cache srt unit st L) (Inv_SInv _ (li_inv _ _ _ L)) (li_geo _ _ _ L) He) as (s & sc & E1 & _ & Sn). rewrite E1 in E. cbn [bind fst] in E. injection E as <-.
    destruct Sn as [S1 S2 S3 S4 S5 _]. congruence.
  - injection E as <-. cbn. rewrite Hn. destruct (length (faces (lg st)) =? 0)%nat; reflexivity.
Qed.
Lemma boxInv_keep st c st' bx : hist tracked st -> lim st <> None -> lallowed st c -> tracked st c -> keepsFaces c -> lexec srt unit st c = Ok st' -> boxInv st bx -> boxInv st' bx.
Proof.
  intros H Hl Al Tr K E B l Hf N. destruct (keep_inside st c st' H Hl Al Tr K E) as (A1 & A2 & _). destruct (faces_kept srt Hsrt unit st c st' H Al Tr K E) as (A3 & _).
  destruct (B l) as (b & Eb & B1 & B2); [apply A2, Hf | exact N|]. exists b. split; [exact Eb|]. split; [apply A1, B1|]. intros x y Q. apply B2, A3, Q.
Qed.

Lemma boxInv_relabel st new mx st' bx : hist tracked st -> lim st <> None -> nth_error new 0 = Some 0%nat -> changeFaceLabels st new mx = Ok st' -> boxInv st bx ->
  boxInv st' (fun k => match oldPlace (faces (lg st)) new k with Some l => bx l | None => None end).
Proof.
  intros H Hl H0 E B. destruct (hist_inv srt Hsrt unit st H) as (L & _ & _). pose proof (changeFaceLabels_spec srt unit st new mx L H0) as S. rewrite E in S. cbn [goodL] in S. destruct S as (L' & R & Hn).
  intros k Hk N. destruct (rn_from _ _ _ R k Hk) as (l & Al & <-). assert (Nl : l <> 0%nat). { intros ->. apply N. unfold nw. apply nth_error_nth with (d := 0%nat) in H0. exact H0. }
  assert (Op : oldPlace (faces (lg st)) new (nw new l) = Some l).
  { apply oldPlace_inj; [exact Al|]. intros l2 A2 Q. apply (rn_inj _ _ _ R); assumption. }
  rewrite Op. destruct (B l Al Nl) as (b & Eb & B1 & B2). exists b. split; [exact Eb|]. split.
  - intros d e p Hd Hlf He Hp. rewrite (rn_lft _ _ _ R) in Hlf. destruct (lft (lg st) d) as [l2|] eqn:Q; [|discriminate]. cbn in Hlf. injection Hlf as Hlf.
    destruct (relF_edge _ _ (elab d) e (rn_rel _ _ _ R) He) as (e0 & He0 & Ep). assert (Dd : In d (darts (lg st))) by (apply in_darts in Hd; apply in_darts; split; [apply Hd | congruence]).
    assert (A2 : fAt (lg st) l2 <> None). { destruct (faceO_deref (lg st) d (mi_f _ (LInv_MInv st L Hl)) Dd) as (l3 & f & Q3 & Ef). congruence. }
    assert (l2 = l) by (apply (rn_inj _ _ _ R); assumption). subst l2. apply (B1 d e0 p Dd Q He0). rewrite Ep in Hp. exact Hp.
  - intros x y K. apply B2. apply (R_shows srt unit st x y l L). apply (renamed_R srt unit st new st' L R x y l Al). apply (R_shows srt unit st' x y (nw new l) L'), K.
Qed.

(** ** removing edges *)
Lemma intPos_le a b : a <= b -> intPos unit a <= intPos unit b.
Proof. intros H. unfold intPos. apply Qround.Qfloor_resp_le. apply Qplus_le_l. unfold Qle. cbn. nia. Qed.
Lemma pixelIn_join a b x y : pixelIn a x y \/ pixelIn b x y -> pixelIn (boxJoin a b) x y.
Proof.
  unfold FaceStats_Boxes.pixelIn, boxJoin. cbn [bx0 by0 bx1 by1].
  pose proof (intPos_le (Z.min (bx0 a) (bx0 b)) (bx0 a)). pose proof (intPos_le (Z.min (bx0 a) (bx0 b)) (bx0 b)). pose proof (intPos_le (Z.min (by0 a) (by0 b)) (by0 a)). pose proof (intPos_le (Z.min (by0 a) (by0 b)) (by0 b)).
  pose proof (intPos_le (bx1 a) (Z.max (bx1 a) (bx1 b))). pose proof (intPos_le (bx1 b) (Z.max (bx1 a) (bx1 b))). pose proof (intPos_le (by1 a) (Z.max (by1 a) (by1 b))). pose proof (intPos_le (by1 b) (Z.max (by1 a) (by1 b))).
  lia.
Qed.
Lemma across_in m d l b x y L : In d (darts m) -> lft m d = Some l -> inside m l b -> edgesAcross unit m x y L -> In (elab d) L -> pixelIn b x y.
Proof.
  intros Dd Hl Hb HL Hin. apply HL in Hin. destruct Hin as (e & He & Hc). apply isEdge_iff in He. apply (cross_in unit b (epts e) x y); [|exact Hc]. intros p Hp. apply (Hb d e p Dd Hl He Hp).
Qed.
Lemma across_unlabelled st x y a L f : hist tracked st -> edgesAcross unit (lg st) x y (a :: L) -> ~ showsFace st x y f.
Proof.
  intros H HL [(img & Hi & Hx & Hy) E]. destruct (edge_counts srt Hsrt unit st x y (ipx img x y) H) as (L' & HL' & L1 & _); [exists img; auto|].
  assert (N : L' <> []). { destruct HL as [_ K1], HL' as [_ K2]. intros ->. apply (proj2 (K2 a)). apply K1. left. reflexivity. }
  assert (Neg : ipx img x y < 0) by (rewrite L1 by exact N; destruct L'; [congruence | cbn [length]; lia]).
  revert E. unfold labelAt, pixGet. rewrite Hi. assert (Hin : insideB img x y = true) by (apply LabelImage_Loops.insideB_iff; auto). rewrite Hin. cbn [bind]. rewrite Z.geb_leb. destruct (Z.leb_spec 0 (ipx img x y)); [lia|]. intros E. injection E as E. lia.
Qed.

Lemma boxInv_bridge hk st d st' f out bx : hist tracked st -> lim st <> None -> lremoveBridge srt unit hk st d = Ok (st', Some f, out) -> boxInv st bx -> boxInv st' bx.
Proof.
  intros H Hl E B. destruct (hist_inv srt Hsrt unit st H) as (L & _ & _). pose proof (LInv_MInv st L Hl) as M. destruct (bridge_pixels srt Hsrt unit hk st d st' f out H Hl E) as (_ & Po & Ps & _).
  pose proof (lremoveBridge_spec srt Hsrt unit hk st d L) as S. rewrite E in S. cbn [goodL] in S. destruct S as (_ & Em & _ & _ & _ & Hg & _).
  pose proof (removeBridge_spec hk (lg st) d M) as Sp. rewrite Em in Sp. cbn [good fst snd] in Sp. destruct Sp as (Dd & fl & L1 & L2 & _ & [(_ & Q & _)|(_ & Q & Br)]); [discriminate Q|]. injection Q as <-.
  intros l Hf N. apply Hg in Hf. destruct (B l Hf N) as (b & Eb & B1 & B2). exists b. split; [exact Eb|]. split; [apply (inside_bridge (lg st) d f); assumption|].
  intros x y K. apply Ps in K. destruct K as [K|[K ->]]; [apply B2, K|]. apply Po in K. destruct K as [_ K]. apply (across_in (lg st) d f b x y [elab d] Dd L1 B1 K). left. reflexivity.
Qed.

Lemma boxInv_merge hk st d st' s out bx mm d' mc : hist tracked st -> lim st <> None -> lmergeFaces srt unit hk st d = Ok (st', Some s, out) -> boxInv st bx ->
  In d' (darts (lg st)) -> (d' = d \/ d' = - d) -> lft (lg st) d' = Some s -> lft (lg st) (- d') = Some mm -> s <> mm -> mm <> 0%nat -> cached (lg st) mc -> FMerged mc d' s mm (lg st') ->
  exists bx', mergeBoxes (lg st) bx s mm = Ok bx' /\ boxInv st' bx'.
Proof.
  intros H Hl E B Dd Hdd L1 L2 Nsm Nm C FM. destruct (hist_inv srt Hsrt unit st H) as (L & _ & _). pose proof (LInv_MInv st L Hl) as M.
  destruct (merge_pixels srt Hsrt unit hk st d st' s out H Hl E) as (d2 & mm2 & Hd2 & L3 & L4 & N2 & _ & Po & Ps & _ & Pm & _).
  assert (mm2 = mm).
  { assert (D2 : In d2 (darts (lg st))). { destruct Hdd as [->| ->], Hd2 as [->| ->]; try assumption; try (apply darts_opp in Dd; rewrite ?Z.opp_involutive in Dd; exact Dd). }
    rewrite leftLabel_Ok in L3, L4 by (try apply darts_opp; exact D2). assert (A3 : lft (lg st) d2 = Some s) by congruence. assert (A4 : lft (lg st) (- d2) = Some mm2) by congruence.
    destruct Hdd as [->| ->], Hd2 as [->| ->]; rewrite ?Z.opp_involutive in *; congruence. }
  subst mm2. destruct (FMerged_faces mc d' s mm (lg st') FM Nsm) as (As & Am & _ & Hg).
  assert (Fc : forall f, fAt mc f <> None <-> fAt (lg st) f <> None). { intros f. pose proof (ca_face _ _ C f) as K. destruct (fAt (lg st) f), (fAt mc f); split; intros; try congruence; contradiction. }
  rewrite Fc in As, Am. destruct (B mm Am Nm) as (b2 & Eb2 & I2 & X2). destruct (inside_fmerged mc d' s mm (lg st') FM) as [F1 F2].
  assert (Oth : forall bx', (forall l, l <> s -> bx' l = bx l) -> (s <> 0%nat -> forall b1, bx s = Some b1 -> bx' s = Some (boxJoin b1 b2)) -> boxInv st' bx').
  { intros bx' O1 O2 l Hf N. apply Hg in Hf. destruct Hf as [Hf Nlm]. rewrite Fc in Hf. destruct (B l Hf N) as (b & Eb & B1 & B2). destruct (Nat.eq_dec l s) as [->|Nls].
    - exists (boxJoin b b2). split; [apply O2; assumption|]. split; [apply F2; apply (inside_cached (lg st)); assumption|]. intros x y K. apply pixelIn_join. apply Ps in K. destruct K as [[K _]|[_ [K|K]]]; [left; apply B2, K | right; apply X2, K | left].
      apply Po in K. destruct K as [_ K]. apply (across_in (lg st) d' s b x y [elab d] Dd L1 B1 K). left. destruct Hdd as [->| ->]; [|rewrite elab_opp]; reflexivity.
    - exists b. split; [rewrite O1 by exact Nls; exact Eb|]. split; [apply F1; [exact Nls | apply (inside_cached (lg st)); assumption]|]. intros x y K. apply B2. apply Ps in K. destruct K as [[K _]|[K _]]; [exact K | contradiction]. }
  unfold mergeBoxes. destruct (bx s) as [b1|] eqn:Eb1.
  - destruct (fAt (lg st) mm) as [fm|] eqn:Ef; [|congruence]. unfold getBox. rewrite (deref_face _ _ _ Ef). cbn [bind]. apply Nat.eqb_neq in Nm. rewrite Nm, Eb2. cbn [bind fst snd]. eexists. split; [reflexivity|].
    apply Oth; [intros l N; unfold updN; apply Nat.eqb_neq in N; rewrite N; reflexivity | intros _ b Q; unfold updN; rewrite Nat.eqb_refl; congruence].
  - exists bx. split; [reflexivity|]. apply Oth; [reflexivity|]. intros N b Q. congruence.
Qed.
(** the boxes never get in the way of a merge *)
Lemma mergeBoxes_ok m bx s mm : MInv m -> geo m -> fAt m mm <> None -> mm <> 0%nat -> exists bx', mergeBoxes m bx s mm = Ok bx'.
Proof.
  intros M G Hf N. unfold mergeBoxes. destruct (bx s); [|eexists; reflexivity]. destruct (fAt m mm) as [f|] eqn:Ef; [|congruence]. destruct (getBox_spec m bx mm f M G Ef) as [_ K]. destruct (K N) as (b' & -> & _). cbn [bind]. eexists. reflexivity.
Qed.

(** ** lists of pixels *)
Lemma bridge_lists hk st d st' f out : hist (counted unit) st -> lim st <> None -> lremoveBridge srt unit hk st d = Ok (st', Some f, out) ->
  fAt (lg st) f <> None /\ (forall l, fAt (lg st') l <> None <-> fAt (lg st) l <> None) /\ (forall a b, In (a, b) out -> within st' a b) /\
  (forall ps, pixelsOf st' f ps -> exists qs, pixelsOf st f qs /\ Permutation ps (qs ++ out)) /\ (forall l ps, l <> f -> pixelsOf st' l ps -> pixelsOf st l ps).
Proof.
  intros Hc Hl E. assert (H : hist tracked st) by (apply (hist_mono srt unit (counted unit) tracked st); [intros ? ? K; apply K | exact Hc]). destruct (hist_inv srt Hsrt unit st H) as (L & _ & _).
  destruct (bridge_pixels srt Hsrt unit hk st d st' f out H Hl E) as (Nd & Po & Ps & _). pose proof (lremoveBridge_spec srt Hsrt unit hk st d L) as S. rewrite E in S. cbn [goodL] in S. destruct S as (_ & _ & _ & _ & Hf & Hg & _).
  split; [exact Hf|]. split; [exact Hg|]. split; [intros a b K; apply (proj1 (proj2 (Ps a b f) (or_intror (conj K eq_refl))))|]. split.
  - intros ps [N1 H1]. destruct (fAt (lg st) f) as [fc|] eqn:Ef; [|congruence]. destruct (pixel_areas srt Hsrt unit st f fc Hc Hl (proj2 (isFace_iff _ _ _) Ef)) as (qs & [N2 H2] & _). exists qs. split; [split; assumption|].
    apply NoDup_Permutation; [exact N1 | |].
    + apply NoDup_app_intro; [exact N2 | exact Nd|]. intros [x y] K1 K2. apply H2 in K1. apply Po in K2. apply (across_unlabelled st x y (elab d) [] f H (proj2 K2) K1).
    + intros [x y]. rewrite in_app_iff, H1, H2, Ps. tauto.
  - intros l ps N [N1 H1]. split; [exact N1|]. intros x y. rewrite H1, Ps. split; [intros [K|[_ K]]; [exact K | congruence] | auto].
Qed.
Lemma merge_lists hk st d st' s out mm d' : hist (counted unit) st -> lim st <> None -> lmergeFaces srt unit hk st d = Ok (st', Some s, out) ->
  In d' (darts (lg st)) -> (d' = d \/ d' = - d) -> lft (lg st) d' = Some s -> lft (lg st) (- d') = Some mm ->
  fAt (lg st) s <> None /\ fAt (lg st) mm <> None /\ (forall l, fAt (lg st') l <> None <-> fAt (lg st) l <> None /\ l <> mm) /\ (forall a b, In (a, b) out -> within st' a b) /\
  (forall ps, pixelsOf st' s ps -> exists qa qb, pixelsOf st s qa /\ pixelsOf st mm qb /\ Permutation ps ((qa ++ qb) ++ out)) /\ (forall l ps, l <> s -> l <> mm -> pixelsOf st' l ps -> pixelsOf st l ps).
Proof.
  intros Hc Hl E Dd Hdd L1 L2. assert (H : hist tracked st) by (apply (hist_mono srt unit (counted unit) tracked st); [intros ? ? K; apply K | exact Hc]). destruct (hist_inv srt Hsrt unit st H) as (L & _ & _).
  destruct (merge_pixels srt Hsrt unit hk st d st' s out H Hl E) as (d2 & mm2 & Hd2 & L3 & L4 & N2 & Nd & Po & Ps & _). pose proof (lmergeFaces_spec srt Hsrt unit hk st d L) as S. rewrite E in S. cbn [goodL] in S. destruct S as (_ & _ & d3 & mm3 & Hd3 & L5 & L6 & N3 & Hs & Hm & Hg & _).
  assert (mm2 = mm).
  { assert (D2 : In d2 (darts (lg st))). { destruct Hdd as [->| ->], Hd2 as [->| ->]; try assumption; try (apply darts_opp in Dd; rewrite ?Z.opp_involutive in Dd; exact Dd). }
    rewrite leftLabel_Ok in L3, L4 by (try apply darts_opp; exact D2). assert (A3 : lft (lg st) d2 = Some s) by congruence. assert (A4 : lft (lg st) (- d2) = Some mm2) by congruence.
    destruct Hdd as [->| ->], Hd2 as [->| ->]; rewrite ?Z.opp_involutive in *; congruence. }
  assert (mm3 = mm) by (destruct Hdd as [->| ->], Hd3 as [->| ->]; rewrite ?Z.opp_involutive in *; congruence). subst mm2 mm3.
  split; [exact Hs|]. split; [exact Hm|]. split; [exact Hg|]. split; [intros a b K; apply (proj1 (proj2 (Ps a b s) (or_intror (conj eq_refl (or_intror K)))))|]. split.
  - intros ps [N1 H1]. destruct (fAt (lg st) s) as [fc|] eqn:Ef; [|congruence]. destruct (fAt (lg st) mm) as [fc2|] eqn:Ef2; [|congruence].
    destruct (pixel_areas srt Hsrt unit st s fc Hc Hl (proj2 (isFace_iff _ _ _) Ef)) as (qa & [Na Ha] & _). destruct (pixel_areas srt Hsrt unit st mm fc2 Hc Hl (proj2 (isFace_iff _ _ _) Ef2)) as (qb & [Nb Hb] & _).
    exists qa, qb. split; [split; assumption|]. split; [split; assumption|]. apply NoDup_Permutation; [exact N1 | |].
    + apply NoDup_app_intro; [apply NoDup_app_intro; [exact Na | exact Nb|] | exact Nd|].
      * intros [x y] K1 K2. apply Ha in K1. apply Hb in K2. destruct K1 as [_ K1], K2 as [_ K2]. rewrite K1 in K2. injection K2 as K2. lia.
      * intros [x y] K1 K2. apply Po in K2. apply in_app_or in K1. destruct K1 as [K1|K1]; [apply Ha in K1 | apply Hb in K1]; apply (across_unlabelled st x y (elab d) [] _ H (proj2 K2) K1).
    + intros [x y]. rewrite !in_app_iff, H1, Ha, Hb, Ps. tauto.
  - intros l ps N Nm [N1 H1]. split; [exact N1|]. intros x y. rewrite H1, Ps. tauto.
Qed.
End Keep.
