(** The label image over whole histories *)
From Coq Require Import QArith Sorted.
From Verif Require Import Base Orbit FaceInv GeoMap_Model GeoMap_Views GeoMap_SInv GeoMap_MergeEdges GeoMap_Loops GeoMap_MInv GeoMap_History GeoMap_Geometry GeoMap_Spec GeoMap_Facts GeoMap_Results GeoMap_Results4
  Scanlines_Model Scanlines_Spec ScanPoly_Model ScanPoly_Spec LabelLUT_Model
  LabelImage_Model LabelImage_Spec LabelImage_Loops LabelImage_Cover LabelImage_Cache LabelImage_Inv LabelImage_Steps LabelImage_Remove LabelImage_Pass LabelImage_Contour LabelImage_Setup LabelImage_Switch LabelImage_Relabel.
Local Open Scope Z_scope.

(** ** The faces around a pixel *)
Section Faces.
Variable unit : positive.

Lemma roundTrip_orb m a L N : SI m (darts m) -> In a (darts m) -> per (phi m) a N -> (roundTrip m a L <-> L = orb (phi m) a N).
Proof.
  intros HS Ha HN. pose proof (orb_walk m a N HS Ha HN) as (W1 & _ & W3 & W4). split.
  - intros (H1 & H2 & H3 & H4). pose proof (walk_iter (nextPhi m) (phi m) (darts m) (phi_next m HS)) as W.
    assert (Hlen : length (orb (phi m) a N) = N) by (unfold orb; rewrite map_length, seq_length; reflexivity).
    assert (E : length L = N).
    { destruct (Nat.lt_trichotomy (length L) N) as [K|[K|K]]; [exfalso| exact K | exfalso].
      - apply (pe_min _ _ _ HN (length L)); [destruct L; [congruence | cbn in *; lia]|]. rewrite (W _ _ Ha) in H4. congruence.
      - pose proof (pe_pos _ _ _ HN) as P. assert (E0 : nth_error L 0 = Some a). { destruct (nth_error L 0) as [d|] eqn:Q; [|apply nth_error_None in Q; lia]. apply H3 in Q. cbn in Q. congruence. }
        assert (EN : nth_error L N = Some a). { destruct (nth_error L N) as [d|] eqn:Q; [|apply nth_error_None in Q; lia]. apply H3 in Q. rewrite (W _ _ Ha), (pe_ret _ _ _ HN) in Q. congruence. }
        assert (Q : 0%nat = N) by (apply (proj1 (NoDup_nth_error L) H2); [lia | congruence]). lia. }
    apply nth_ext with (d := 0) (d' := 0); [congruence|]. intros i Hi. pose proof (nth_error_nth' L 0 Hi) as Q. apply H3 in Q.
    assert (Hi' : (i < length (orb (phi m) a N))%nat) by congruence. pose proof (nth_error_nth' _ 0 Hi') as Q'. apply W3 in Q'. congruence.
  - intros ->. pose proof (pe_pos _ _ _ HN). split; [|auto]. unfold orb. destruct N; [lia | discriminate].
Qed.

Lemma outer_iff m l L : MInv m -> (outerContour m l L <-> outerOf m l L).
Proof.
  intros M. pose proof (sv_si _ (mi_v _ M)) as HS. split.
  - intros (Hl & f & a & t & Hf & Ea & R). apply isFace_iff in Hf. assert (Da : In a (darts m)). { apply (fi_anchor _ _ _ _ (mi_f _ M) l (fanchors f) a); [unfold fanch; rewrite Hf; reflexivity | rewrite Ea; left; reflexivity]. }
    destruct (min_period _ _ _ a (phi_perm m HS) Da) as (N & HN & _). split; [exact Hl|]. exists f, a, t, N. apply (roundTrip_orb m a L N HS Da HN) in R. auto.
  - intros (Hl & f & a & t & N & Hf & Ea & Da & HN & ->). split; [exact Hl|]. exists f, a, t. split; [apply isFace_iff, Hf|]. split; [exact Ea|]. apply (roundTrip_orb m a _ N HS Da HN). reflexivity.
Qed.
Lemma rim_iff m l x y : MInv m -> (rim unit m l x y <-> touches unit m x y l).
Proof.
  intros M. split.
  - intros (L & d & O & Hd & e & He & K). apply isEdge_iff in He. exists L. split; [apply outer_iff; assumption|]. exists d. split; [exact Hd|]. apply (dart_cross unit m d e x y He), K.
  - intros (L & O & d & Hd & K). pose proof (outer_darts m l L d (mi_v _ M) O Hd) as Dd. apply in_darts in Dd. destruct Dd as [_ Dd]. destruct (eAt m (elab d)) as [e|] eqn:He; [|congruence].
    exists L, d. split; [apply outer_iff; assumption|]. split; [exact Hd|]. exists e. split; [apply isEdge_iff, He|]. apply (dart_cross unit m d e x y He), K.
Qed.
Lemma windings_iff m x y L w : (forall d, In d L -> In d (darts m)) -> (windings unit m x y L w <-> w = winds unit m x y L).
Proof.
  revert w. induction L as [|d L IH]; intros w HL; split.
  - intros H. inversion H. reflexivity.
  - intros ->. constructor.
  - intros H. inversion H as [|? ? ps w' Hp Hw]; subst. apply IH in Hw; [|intros; apply HL; right; assumption]. subst. unfold winds. cbn [addUp]. f_equal. unfold dwind, LabelImage_Cache.chain, dpts.
    destruct Hp as (e & He & ->). apply isEdge_iff in He. rewrite He. reflexivity.
  - intros ->. unfold winds. cbn [addUp]. assert (Dd : In d (darts m)) by (apply HL; left; reflexivity). apply in_darts in Dd. destruct Dd as [_ Dd]. destruct (eAt m (elab d)) as [e|] eqn:He; [|congruence].
    unfold dwind, LabelImage_Cache.chain. constructor; [|apply IH; [intros; apply HL; right; assumption | reflexivity]]. exists e. split; [apply isEdge_iff, He|]. unfold dpts. rewrite He. reflexivity.
Qed.
Lemma around_iff m l x y : MInv m -> (around unit m l x y <-> surrounds unit m x y l).
Proof.
  intros M. pose proof (rim_iff m l x y M) as Ri. split.
  - intros (L & w & O & W & Hw & Nt). apply (outer_iff m l L M) in O. apply windings_iff in W; [|intros d Hd; apply (outer_darts m l L d (mi_v _ M) O Hd)]. subst w. exists L. split; [exact O|]. split; [|exact Hw].
    intros K. apply Nt, Ri. exists L. auto.
  - intros (L & O & Nt & Hw). exists L, (winds unit m x y L). split; [apply (outer_iff m l L M), O|]. split; [apply windings_iff; [intros d Hd; apply (outer_darts m l L d (mi_v _ M) O Hd) | reflexivity]|].
    split; [exact Hw|]. rewrite Ri, (outer_touches unit m l L x y O). exact Nt.
Qed.
End Faces.

Section Results.
Variable srt : list seg -> list seg.
Hypothesis Hsrt : sorter srt.
Variable unit : positive.
Notation cnt := (cnt srt unit).
Notation ind := (ind srt unit).
Notation LInv := (LInv srt unit).
Notation IInv := (IInv srt unit).

Lemma around_dec m l x y : MInv m -> around unit m l x y \/ ~ around unit m l x y.
Proof.
  intros M. rewrite (around_iff unit m l x y M). destruct (Nat.eq_dec l 0) as [->|Nl]; [right; intros (L & (K & _) & _); congruence|].
  destruct (fAt m l) as [f|] eqn:Ef; [|right; intros K; apply surrounds_live in K; tauto].
  destruct (fanchors f) as [|a t] eqn:Ea; [right; intros (L & (_ & f' & a' & t' & N & E1 & E2 & _) & _); congruence|].
  assert (Da : In a (darts m)). { apply (fi_anchor _ _ _ _ (mi_f _ M) l (fanchors f) a); [unfold fanch; rewrite Ef; reflexivity | rewrite Ea; left; reflexivity]. }
  destruct (min_period _ _ _ a (phi_perm m (sv_si _ (mi_v _ M))) Da) as (N & HN & _). assert (O : outerOf m l (orb (phi m) a N)) by (split; [exact Nl|]; exists f, a, t, N; auto).
  rewrite (outer_surrounds unit m l _ x y O). apply (encl_dec srt Hsrt).
Qed.

(** ** Reading pixels *)
Definition R st (x y : Z) (f : nat) : Prop := exists img, lim st = Some img /\ insideB img x y = true /\ reads (lg st) (llut st) (ipx img x y) f.
Lemma reads_fun m t v f g : reads m t v f -> reads m t v g -> f = g.
Proof. intros (_ & A & _) (_ & B & _). congruence. Qed.
Lemma R_fun st x y f g : R st x y f -> R st x y g -> f = g.
Proof. intros (i & A & _ & B) (j & C & _ & D). assert (j = i) by congruence. subst. apply (reads_fun _ _ _ _ _ B D). Qed.
Lemma R_live st x y f : R st x y f -> fAt (lg st) f <> None.
Proof. intros (i & _ & _ & _ & _ & H). exact H. Qed.
Lemma within_iff st img x y : lim st = Some img -> (within st x y <-> insideB img x y = true).
Proof.
  intros H. rewrite insideB_iff. split; [intros (i & E & K); assert (i = img) by congruence; subst; exact K | intros K; exists img; auto].
Qed.
Lemma R_shows st x y f : LInv st -> (showsFace st x y f <-> R st x y f).
Proof.
  intros L. split.
  - intros [W A]. pose proof W as (img & Hi & _). pose proof (proj1 (within_iff st img x y Hi) W) as Hin. exists img. split; [exact Hi|]. split; [exact Hin|].
    unfold labelAt in A. rewrite Hi in A. unfold pixGet in A. rewrite Hin in A. cbn [bind] in A. rewrite Z.geb_leb in A. destruct (Z.leb_spec 0 (ipx img x y)) as [P|P]; [|injection A as A; lia].
    pose proof (li_img _ _ _ L img Hi) as II. pose proof (cnt_nn srt unit (lg st) x y) as C. destruct (Z.eq_dec (cnt (lg st) x y) 0) as [K|K]; [|rewrite (ii_cross _ _ _ _ II x y Hin) in P; lia].
    destruct (ii_free _ _ _ _ II x y Hin K) as (g & Rg). pose proof Rg as (_ & Eg & _). rewrite Eg in A. cbn in A. injection A as A. apply Nat2Z.inj in A. subst g. exact Rg.
  - intros (img & Hi & Hin & P & E & _). split; [apply (within_iff st img x y Hi), Hin|]. unfold labelAt. rewrite Hi. unfold pixGet. rewrite Hin. cbn [bind]. rewrite Z.geb_leb. destruct (Z.leb_spec 0 (ipx img x y)); [|lia].
    rewrite E. reflexivity.
Qed.
(** exactly the pixels without edges read as faces *)
Lemma R_free st img x y : LInv st -> lim st = Some img -> insideB img x y = true -> ((exists f, R st x y f) <-> cnt (lg st) x y = 0).
Proof.
  intros L Hi Hin. pose proof (li_img _ _ _ L img Hi) as II. pose proof (cnt_nn srt unit (lg st) x y) as C. split.
  - intros (f & i & E & _ & P & _). assert (i = img) by congruence. subst. destruct (Z.eq_dec (cnt (lg st) x y) 0) as [K|K]; [exact K|]. rewrite (ii_cross _ _ _ _ II x y Hin) in P; lia.
  - intros K. destruct (ii_free _ _ _ _ II x y Hin K) as (g & Rg). exists g, img. auto.
Qed.

Lemma took_R st l s ren st' out : LInv st -> LInv st' -> without (lg st) l (lg st') -> (l < length (edges (lg st)))%nat -> tookOut srt unit st l s ren st' out ->
  forall x y g, R st' x y g <-> (exists f, R st x y f /\ ren f = g) \/ (In (x, y) out /\ g = s).
Proof.
  intros L L' W Hl T x y g. destruct T as [Ts Tn Ti]. destruct (lim st) as [img|] eqn:Hi, (lim st') as [img'|] eqn:Hi'; try contradiction.
  2:{ subst out. split; [intros (i & E & _); congruence | intros [(f & (i & E & _) & _)|([] & _)]; congruence]. }
  destruct Ti as (Sz & Ho & Hr & Hf). assert (Inn : forall a b, insideB img' a b = insideB img a b) by (intros; apply insideB_size, Sz). split.
  - intros Rg. pose proof Rg as (i & E & Hin & Rd). assert (i = img') by congruence. subst i. rewrite Inn in Hin.
    assert (Z0 : cnt (lg st') x y = 0) by (apply (R_free st' img' x y L' Hi'); [rewrite Inn; exact Hin | exists g; exact Rg]). rewrite (without_cnt srt unit _ l _ x y W Hl) in Z0.
    pose proof (cnt_nn srt unit (lg st) x y) as C. pose proof (ind_01 srt unit (lg st) x y l) as I01. destruct (Z.eq_dec (cnt (lg st) x y) 0) as [K|K].
    + left. destruct (proj2 (R_free st img x y L Hi Hin) K) as (f & Rf). exists f. split; [exact Rf|]. destruct Rf as (i & E' & _ & Rf). assert (i = img) by congruence. subst. apply (reads_fun _ _ _ _ _ (Hf x y f Hin K Rf) Rd).
    + right. assert (Q : In (x, y) out) by (apply Ho; split; [exact Hin | split; lia]). split; [exact Q|]. apply (reads_fun _ _ _ _ _ Rd (Hr x y Q)).
  - intros [(f & Rf & <-)|(Q & ->)].
    + pose proof Rf as (i & E & Hin & Rd). assert (i = img) by congruence. subst i. exists img'. split; [exact Hi'|]. split; [rewrite Inn; exact Hin|]. apply Hf; auto. apply (R_free st img x y L Hi Hin). exists f. exact Rf.
    + exists img'. split; [exact Hi'|]. split; [rewrite Inn; apply (Ho x y), Q | apply (Hr x y Q)].
Qed.
Lemma untouched_R st st' : LInv st -> LInv st' -> untouched srt unit st st' -> forall x y f, R st' x y f <-> R st x y f.
Proof.
  intros L L' [_ Ul _ Ui] x y f. destruct (lim st) as [img|] eqn:Hi, (lim st') as [img'|] eqn:Hi'; try contradiction; [|split; intros (i & E & _); congruence].
  destruct Ui as (Sz & U1 & U2 & U3). assert (Inn : insideB img' x y = insideB img x y) by (apply insideB_size, Sz). split.
  - intros Rf. pose proof Rf as (i & E & Hin & P & Q & S). assert (i = img') by congruence. subst i. assert (Hin0 := Hin). rewrite Inn in Hin0. exists img. split; [exact Hi|]. split; [exact Hin0|].
    assert (K : cnt (lg st) x y = 0) by (apply U2; [exact Hin0|]; apply (R_free st' img' x y L' Hi' Hin); exists f; exact Rf). rewrite (U1 x y Hin0 K) in P, Q. rewrite Ul in Q. split; [exact P|]. split; [exact Q | apply U3, S].
  - intros Rf. pose proof Rf as (i & E & Hin & P & Q & S). assert (i = img) by congruence. subst i. exists img'. split; [exact Hi'|]. split; [rewrite Inn; exact Hin|].
    assert (K : cnt (lg st) x y = 0) by (apply (R_free st img x y L Hi Hin); exists f; exact Rf). rewrite (U1 x y Hin K), Ul. split; [exact P|]. split; [exact Q | apply U3, S].
Qed.

(** ** Areas *)
Definition areaOK st : Prop := lim st <> None -> forall f, fAt (lg st) f <> None ->
  exists ps, NoDup ps /\ (forall x y, In (x, y) ps <-> R st x y f) /\ larea st f = Z.of_nat (length ps).
Lemma areaOK_off st : lim st = None -> areaOK st.
Proof. intros H K. congruence. Qed.
Lemma areaOK_same st st' : areaOK st -> (lim st' <> None -> lim st <> None) -> (forall x y f, R st' x y f <-> R st x y f) -> larea st' = larea st -> (forall f, fAt (lg st') f <> None -> lim st <> None -> fAt (lg st) f <> None) -> areaOK st'.
Proof. intros A Hi HR Ha Hf Hl f Lf. destruct (A (Hi Hl) f (Hf f Lf (Hi Hl))) as (ps & N & E & K). exists ps. split; [exact N|]. split; [intros x y; rewrite HR; apply E | rewrite Ha; exact K]. Qed.
Lemma areaOK_bridge st f st' out : areaOK st -> (lim st' <> None -> lim st <> None) -> NoDup out -> (forall x y, In (x, y) out -> forall g, ~ R st x y g) ->
  (forall x y g, R st' x y g <-> R st x y g \/ (In (x, y) out /\ g = f)) -> (forall g, fAt (lg st') g <> None -> fAt (lg st) g <> None) -> areaMoved st st' f (Z.of_nat (length out)) -> areaOK st'.
Proof.
  intros A Hi Nd Fr HR Hf [A1 A2] Hl g Lg. destruct (A (Hi Hl) g (Hf g Lg)) as (ps & N & E & K). destruct (Nat.eq_dec g f) as [->|Ng].
  - exists (ps ++ out). split; [|split].
    + apply NoDup_app_intro; auto. intros [x y] H1 H2. apply E in H1. exact (Fr x y H2 f H1).
    + intros x y. rewrite in_app_iff, HR, E. intuition.
    + rewrite A1, K, app_length. lia.
  - exists ps. split; [exact N|]. split; [|rewrite A2 by exact Ng; exact K]. intros x y. rewrite HR, E. intuition congruence.
Qed.
Lemma areaOK_merge st s mm st' out : areaOK st -> (lim st' <> None -> lim st <> None) -> NoDup out -> (forall x y, In (x, y) out -> forall g, ~ R st x y g) -> s <> mm -> fAt (lg st) mm <> None ->
  (forall x y g, R st' x y g <-> (exists f, R st x y f /\ (if Nat.eqb f mm then s else f) = g) \/ (In (x, y) out /\ g = s)) -> (forall g, fAt (lg st') g <> None -> fAt (lg st) g <> None /\ g <> mm) ->
  areaMoved st st' s (larea st mm + Z.of_nat (length out)) -> areaOK st'.
Proof.
  intros A Hi Nd Fr Ns Hm HR Hf [A1 A2] Hl g Lg. destruct (Hf g Lg) as [Lg' Ngm]. destruct (A (Hi Hl) g Lg') as (ps & N & E & K). destruct (Nat.eq_dec g s) as [->|Ng].
  - destruct (A (Hi Hl) mm Hm) as (qs & N' & E' & K'). exists (ps ++ qs ++ out). split; [|split].
    + apply NoDup_app_intro; [exact N | |].
      * apply NoDup_app_intro; auto. intros [x y] H1 H2. apply E' in H1. exact (Fr x y H2 mm H1).
      * intros [x y] H1 H2. apply E in H1. apply in_app_iff in H2. destruct H2 as [H2|H2]; [apply E' in H2; apply Ns, (R_fun st x y _ _ H1 H2) | exact (Fr x y H2 s H1)].
    + intros x y. rewrite !in_app_iff, HR, E, E'. split.
      * intros [H|[H|H]]; [left; exists s; split; [exact H|]; destruct (Nat.eqb_spec s mm); congruence | left; exists mm; split; [exact H|]; rewrite Nat.eqb_refl; reflexivity | right; auto].
      * intros [(f & H & Q)|[H _]]; [|auto]. destruct (Nat.eqb_spec f mm) as [->|Nf]; [auto | subst f; auto].
    + rewrite A1, K, K', !app_length. lia.
  - exists ps. split; [exact N|]. split; [|rewrite A2 by exact Ng; exact K]. intros x y. rewrite HR, E. split.
    + intros H. left. exists g. split; [exact H|]. destruct (Nat.eqb_spec g mm); congruence.
    + intros [(f & H & Q)|[_ H]]; [|congruence]. destruct (Nat.eqb_spec f mm) as [->|Nf]; [congruence | subst f; exact H].
Qed.
Lemma areaOK_hold st img (m := lg st) : lim st = Some img -> llut st = initIdentity (length (faces m)) ->
  (forall f, fAt m f <> None -> exists ps, NoDup ps /\ (forall x y, In (x, y) ps <-> insideB img x y = true /\ ipx img x y = Z.of_nat f) /\ larea st f = Z.of_nat (length ps)) -> areaOK st.
Proof.
  intros Hi Lu H _ f Hf. destruct (H f Hf) as (ps & N & E & K). exists ps. split; [exact N|]. split; [|exact K]. intros x y. rewrite E. split.
  - intros [H1 H2]. exists img. split; [exact Hi|]. split; [exact H1|]. rewrite H2, Lu. split; [lia|]. rewrite Nat2Z.id. split; [apply lookup_init, fAt_len, Hf | exact Hf].
  - intros (i & E' & Hin & P & Q & S). assert (i = img) by congruence. subst. split; [exact Hin|]. rewrite Lu in Q. fold m in Q. unfold lookup, initIdentity in Q. cbn [labelLUT] in Q. apply vget_iff in Q.
    assert (B : (Z.to_nat (ipx img x y) < length (faces m))%nat) by (assert (B : (Z.to_nat (ipx img x y) < length (seq 0 (length (faces m))))%nat) by (apply nth_error_Some; congruence); rewrite seq_length in B; exact B).
    rewrite (nth_error_nth' _ 0%nat), seq_nth in Q by (rewrite ?seq_length; exact B). injection Q as Q. lia.
Qed.
Lemma wellDrawn_neat m ord x y : MInv m -> wellDrawn unit m ord x y -> neat unit m ord x y.
Proof.
  intros M [(l & e & He & B & K)|(i & l & Hi & Hr & Hn)]; [left; exists l, e; split; [apply isEdge_iff, He | auto]|]. right.
  apply nth_error_split in Hi. destruct Hi as (a & b & -> & El).
  assert (Nb : forall k, In k b -> ~ surrounds unit m x y k).
  { intros k Hk Sk. apply In_nth_error in Hk. destruct Hk as (j & Hj). apply (Hn (Datatypes.S i + j)%nat k); [lia | | apply (around_iff unit m k x y M), Sk]. rewrite nth_error_app2 by lia. replace (Datatypes.S i + j - length a)%nat with (Datatypes.S j) by lia. exact Hj. }
  apply (rim_iff unit m l x y M) in Hr. clear Hn El. revert a l Hr. induction b as [|k b IH]; intros a l Hr.
  - exists l. split; [|exact Hr]. exists a, []. split; [reflexivity|]. split; [right; exact Hr | intros k []].
  - assert (D : touches unit m x y k \/ ~ touches unit m x y k).
    { destruct (Nat.eq_dec k 0) as [->|Nl]; [right; intros (L & (K & _) & _); congruence|]. destruct (fAt m k) as [f|] eqn:Ef; [|right; intros (L & (_ & f & a' & t & N & E & _) & _); congruence].
      destruct (fanchors f) as [|a' t] eqn:Ea; [right; intros (L & (_ & f' & a'' & t' & N & E1 & E2 & _) & _); congruence|].
      assert (Da : In a' (darts m)). { apply (fi_anchor _ _ _ _ (mi_f _ M) k (fanchors f) a'); [unfold fanch; rewrite Ef; reflexivity | rewrite Ea; left; reflexivity]. }
      destruct (min_period _ _ _ a' (phi_perm m (sv_si _ (mi_v _ M))) Da) as (N & HN & _). assert (O : outerOf m k (orb (phi m) a' N)) by (split; [exact Nl|]; exists f, a', t, N; auto).
      rewrite (outer_touches unit m k _ x y O). apply (dCross_dec srt Hsrt). }
    assert (Nb' : forall j, In j b -> ~ surrounds unit m x y j) by (intros j Hj; apply Nb; right; exact Hj).
    destruct D as [D|D]; [destruct (IH Nb' (a ++ [l]) k D) as (r & O & T); rewrite <- app_assoc in O; exists r; auto|].
    destruct (IH Nb' a l Hr) as (r & (a' & b' & E & P & Q) & T). exists r. split; [|exact T].
    (* [k] is neither touched nor surrounding: put it back *)
    assert (Nk : ~ (surrounds unit m x y k \/ touches unit m x y k)) by (intros [Q1|Q1]; [apply (Nb k (or_introl eq_refl) Q1) | exact (D Q1)]).
    assert (Sp : (exists c, a' = a ++ l :: c /\ b = c ++ r :: b') \/ (exists c, a = a' ++ c /\ r :: b' = c ++ l :: b)).
    { clear - E. revert a' E. induction a as [|z a IHa]; intros [|z' a'] E; cbn in E.
      - right. exists []. split; [reflexivity | symmetry; exact E].
      - injection E as -> E. left. exists a'. auto.
      - right. exists (z :: a). split; [reflexivity | symmetry; exact E].
      - injection E as -> E. destruct (IHa a' E) as [(c & E1 & E2)|(c & E1 & E2)]; [left; exists c; subst; auto | right; exists c; subst; auto]. }
    destruct Sp as [(c & -> & ->)|(c & -> & E2)].
    + exists (a ++ l :: k :: c), b'. split; [rewrite <- !app_assoc; reflexivity|]. split; [exact P | exact Q].
    + destruct c as [|z c]; cbn in E2; injection E2 as -> ->.
      * exists a', (k :: b). split; [rewrite app_nil_r; reflexivity|]. split; [exact P|]. intros j [<-|Hj]; [exact Nk | apply Q, Hj].
      * exists a', (c ++ l :: k :: b). split; [rewrite <- app_assoc; reflexivity|]. split; [exact P|]. intros j Hj. apply in_app_iff in Hj. destruct Hj as [Hj|[<-|[<-|Hj]]]; [apply Q, in_app_iff; auto | apply Q, in_app_iff; right; left; reflexivity | exact Nk | apply Q, in_app_iff; right; right; exact Hj].
Qed.

(** ** One call *)

Lemma kept_R st st' : st' = set_lg st (lg st') -> (forall g, fAt (lg st') g <> None <-> fAt (lg st) g <> None) -> forall x y f, R st' x y f <-> R st x y f.
Proof.
  intros E Hg x y f. rewrite E. unfold R, reads. cbn [lim llut lg set_lg]. split; intros (i & A & B & C & D & F); exists i; repeat (split; [assumption|]); apply Hg, F.
Qed.
Lemma renamed_R st new st' : LInv st -> Renamed st new st' -> forall x y f, fAt (lg st) f <> None -> (R st x y f <-> R st' x y (nw new f)).
Proof.
  intros L Rn x y f Hf. pose proof (rn_im _ _ _ Rn) as Ri. destruct (lim st) as [img|] eqn:Hi, (lim st') as [img'|] eqn:Hi'; try contradiction; [|split; intros (i & E & _); congruence].
  destruct Ri as (Sz & Neg & Rd). split.
  - intros (i & E & Hin & K). assert (i = img) by congruence. subst. exists img'. split; [exact Hi'|]. split; [rewrite (insideB_size img img' x y Sz); exact Hin | apply Rd; assumption].
  - intros (i & E & Hin & K). assert (i = img') by congruence. subst. rewrite (insideB_size img img' x y Sz) in Hin. destruct (Z.lt_ge_cases (ipx img x y) 0) as [P|P]; [rewrite (Neg x y Hin P) in K; destruct K; lia|].
    pose proof (li_img _ _ _ L img Hi) as II. pose proof (cnt_nn srt unit (lg st) x y) as C. destruct (Z.eq_dec (cnt (lg st) x y) 0) as [Q|Q]; [|rewrite (ii_cross _ _ _ _ II x y Hin) in P; lia].
    destruct (ii_free _ _ _ _ II x y Hin Q) as (g & Rg). pose proof (reads_fun _ _ _ _ _ K (Rd x y g Hin Rg)) as E2. apply (rn_inj _ _ _ Rn) in E2; [|exact Hf | apply Rg]. subst g. exists img. auto.
Qed.
Lemma tookOut_fresh st l s ren st' out : LInv st -> tookOut srt unit st l s ren st' out -> forall x y, In (x, y) out -> forall g, ~ R st x y g.
Proof.
  intros L [_ _ Ti] x y Ho g Rg. pose proof Rg as (img & Hi & Hin & _). rewrite Hi in Ti. destruct (lim st'); [|contradiction]. destruct Ti as (_ & K & _). apply K in Ho. destruct Ho as (_ & _ & Ho).
  assert (cnt (lg st) x y = 0) by (apply (R_free st img x y L Hi Hin); exists g; exact Rg). lia.
Qed.
Lemma tookOut_lim st l s ren st' out : tookOut srt unit st l s ren st' out -> (lim st' <> None -> lim st <> None).
Proof. intros [_ _ Ti] H. destruct (lim st), (lim st'); congruence || contradiction. Qed.
Lemma bridge_facts hk st d st' o out : LInv st -> lremoveBridge srt unit hk st d = Ok (st', o, out) ->
  LInv st' /\ removeBridge hk (lg st) d = Ok (lg st', o) /\ lsize st' = lsize st /\ (areaOK st -> areaOK st') /\ (lim st' <> None <-> lim st <> None).
Proof.
  intros L E. pose proof (lremoveBridge_spec srt Hsrt unit hk st d L) as S. rewrite E in S. cbn [goodL] in S. destruct S as (L' & Er & S). split; [exact L'|]. split; [exact Er|].
  destruct o as [f|].
  - destruct S as (H1 & H2 & Hf & Hg & W & T & A). split; [apply (to_size _ _ _ _ _ _ _ _ T)|].
    assert (Hl : (elab d < length (edges (lg st)))%nat). { unfold lft in H1. destruct (eAt (lg st) (elab d)) eqn:Q; [apply tget_lt in Q; exact Q | discriminate]. }
    split; [|split; [apply (tookOut_lim _ _ _ _ _ _ T) | destruct T as [_ _ Ti]; destruct (lim st), (lim st'); try contradiction; congruence]].
    intros K. apply (areaOK_bridge st f st' out K); [apply (tookOut_lim _ _ _ _ _ _ T) | apply T | apply (tookOut_fresh _ _ _ _ _ _ L T) | | apply Hg | exact A].
    intros x y g. rewrite (took_R st (elab d) f _ st' out L L' W Hl T). split; [intros [(h & Q & <-)|Q]; auto | intros [Q|Q]; [left; exists g; auto | right; exact Q]].
  - destruct S as (E' & -> & Hg & _). split; [rewrite E'; reflexivity|]. split; [|rewrite E'; reflexivity].
    intros K. apply (areaOK_same st st' K); [rewrite E'; auto | | rewrite E'; reflexivity | intros g Q _; apply Hg, Q]. intros x y g. apply (kept_R st st' E' Hg).
Qed.
Lemma merge_facts hk st d st' o out : LInv st -> lmergeFaces srt unit hk st d = Ok (st', o, out) ->
  LInv st' /\ mergeFaces hk (lg st) d = Ok (lg st', o) /\ lsize st' = lsize st /\ (areaOK st -> areaOK st') /\ (lim st' <> None <-> lim st <> None).
Proof.
  intros L E. pose proof (lmergeFaces_spec srt Hsrt unit hk st d L) as S. rewrite E in S. cbn [goodL] in S. destruct S as (L' & Er & S). split; [exact L'|]. split; [exact Er|].
  destruct o as [s|].
  - destruct S as (d' & mm & Hd & H1 & H2 & Ns & Hs & Hm & Hg & W & T & A). split; [apply (to_size _ _ _ _ _ _ _ _ T)|].
    assert (Hl : (elab d < length (edges (lg st)))%nat). { assert (Q : elab d' = elab d) by (destruct Hd as [->| ->]; [reflexivity | apply elab_opp]). unfold lft in H1. rewrite Q in H1. destruct (eAt (lg st) (elab d)) eqn:Q1; [apply tget_lt in Q1; exact Q1 | discriminate]. }
    split; [|split; [apply (tookOut_lim _ _ _ _ _ _ T) | destruct T as [_ _ Ti]; destruct (lim st), (lim st'); try contradiction; congruence]].
    intros K. apply (areaOK_merge st s mm st' out K); [apply (tookOut_lim _ _ _ _ _ _ T) | apply T | apply (tookOut_fresh _ _ _ _ _ _ L T) | exact Ns | exact Hm | | apply Hg | exact A].
    intros x y g. apply (took_R st (elab d) s _ st' out L L' W Hl T).
  - destruct S as (E' & -> & Hg & _). split; [rewrite E'; reflexivity|]. split; [|rewrite E'; reflexivity].
    intros K. apply (areaOK_same st st' K); [rewrite E'; auto | | rewrite E'; reflexivity | intros g Q _; apply Hg, Q]. intros x y g. apply (kept_R st st' E' Hg).
Qed.

Lemma untouched_area st st' : LInv st -> LInv st' -> untouched srt unit st st' -> areaOK st -> areaOK st'.
Proof.
  intros L L' U K. pose proof (untouched_R st st' L L' U) as HR. apply (areaOK_same st st' K); [|exact HR | apply U |].
  - destruct U as [_ _ _ Ui]. destruct (lim st), (lim st'); try contradiction; congruence.
  - destruct U as [_ _ _ Ui]. intros f Hf Hl. destruct (lim st), (lim st'); try contradiction. apply Ui, Hf.
Qed.

Lemma copy_lim st img : lim (copyOf st) = Some img -> lim st = Some img /\ llut (copyOf st) = llut st.
Proof. unfold copyOf. cbn [lim llut]. destruct (Nat.eqb (length (faces (lg st))) 0); [discriminate|]. intros ->. auto. Qed.
Lemma copy_same st : LInv st -> lim (copyOf st) = lim st.
Proof.
  intros L. unfold copyOf. cbn [lim]. destruct (Nat.eqb_spec (length (faces (lg st))) 0) as [E|_]; [|reflexivity]. destruct (lim st) as [img|] eqn:Hi; [|reflexivity].
  exfalso. apply (mi_0 _ (ii_m _ _ _ _ (li_img _ _ _ L img Hi))). unfold fAt. apply length_zero_iff_nil in E. rewrite E. reflexivity.
Qed.
Lemma copy_LInv st : LInv st -> LInv (copyOf st).
Proof.
  intros L. constructor; [apply L | apply L | intros; discriminate | reflexivity|]. intros img Hi. destruct (copy_lim st img Hi) as [H1 H2]. pose proof (li_img _ _ _ L img H1) as [I1 I2 I3 I4 I5].
  constructor; rewrite ?H2; assumption.
Qed.
Lemma copy_R st x y f : LInv st -> (R (copyOf st) x y f <-> R st x y f).
Proof.
  intros L. split; intros (img & Hi & H); exists img.
  - destruct (copy_lim st img Hi) as [H1 H2]. rewrite H2 in H. auto.
  - assert (H1 : lim (copyOf st) = Some img) by (rewrite (copy_same st L); exact Hi). destruct (copy_lim st img H1) as [_ H2]. rewrite H2. auto.
Qed.

Theorem lexec_spec st c : LInv st -> 0 <= fst (lsize st) -> lallowed st c -> tracked st c ->
  goodL (hazard st c) (fun st' => LInv st' /\ lsize st' = lsize st /\ mapPart st c st' /\ (counted unit st c -> areaOK st -> areaOK st')) (lexec srt unit st c).
Proof.
  intros L Hw A Tr. destruct c as [hk o|ord par wi|onoff|new mx|l|]; cbn [lexec].
  - pose proof (fun P => pass_spec srt unit hk st o L A Tr P) as Pass. pose proof A as [Al Ge].
    assert (Plain : plain o -> goodL (hazard st (LCall hk o)) (fun st' => LInv st' /\ lsize st' = lsize st /\ mapPart st (LCall hk o) st' /\ (counted unit st (LCall hk o) -> areaOK st -> areaOK st')) (m <- run_op hk (lg st) o ;; Ok (set_lg st m))).
    { intros P. specialize (Pass P). destruct (run_op hk (lg st) o) as [m'| | |] eqn:E; cbn [good bind goodL] in *; try exact I; try contradiction. destruct Pass as (L' & Hs). split; [exact L'|]. split; [reflexivity|].
      split; [exact E|]. intros _ K. destruct (lim st) as [img|] eqn:Hi; [|apply areaOK_off; exact Hi]. destruct Hs as (_ & _ & Hf); [discriminate|].
      apply (areaOK_same st _ K); auto; [|intros f Q _; apply Hf, Q]. intros x y f. apply (kept_R st (set_lg st m') eq_refl). exact Hf. }
    destruct o as [p|p l|s e pts l|d|d|l k p ins|d|d|l|l|l fl b|n p| |f hs sr]; try (apply Plain; exact I); clear Plain Pass.
    + assert (Hd : In d (darts (lg st))) by (apply isDart_iff; exact Al). pose proof (lremoveEdge_spec srt Hsrt unit hk st d L Hd) as S.
      destruct (lremoveEdge srt unit hk st d) as [[[st' o] out]| | |]; cbn [goodL bind fst snd] in *; try exact I; try contradiction.
      destruct S as (L' & E & S). split; [exact L'|].
      assert (Mp : mapPart st (LCall hk (ORemoveEdge d)) st') by (cbn [mapPart exec run_op]; rewrite E; reflexivity).
      destruct S as [(Ef & -> & E')|(_ & [S|S])].
      * split; [rewrite E'; reflexivity|]. split; [exact Mp|]. intros _ _. apply areaOK_off. rewrite E'. cbn. destruct (lim st) as [img|] eqn:Hi; [|reflexivity]. exfalso. apply (mi_0 _ (ii_m _ _ _ _ (li_img _ _ _ L img Hi))). unfold fAt. rewrite Ef. reflexivity.
      * destruct (bridge_facts _ _ _ _ _ _ L S) as (_ & _ & Es & Ka & _). auto.
      * destruct (merge_facts _ _ _ _ _ _ L S) as (_ & _ & Es & Ka & _). auto.
    + pose proof (lmergeEdges_spec srt Hsrt unit hk st d L) as S. destruct (lmergeEdges srt unit hk st d) as [[st' r]| | |]; cbn [goodL bind fst snd] in *; try exact I; try contradiction; [|exact S].
      destruct S as (L' & E & U). split; [exact L'|]. split; [apply U|]. split; [cbn [mapPart exec run_op]; rewrite E; reflexivity|]. intros _. apply untouched_area; assumption.
    + pose proof (lsplitEdge_spec srt Hsrt unit hk st l k p ins L A Tr) as S. destruct (lsplitEdge srt unit st l k p ins) as [[st' r]| | |]; cbn [goodL bind fst snd] in *; try exact I; try contradiction.
      destruct S as (L' & E & U). split; [exact L'|]. split; [apply U|]. split; [cbn [mapPart exec run_op]; rewrite E; reflexivity|]. intros _. apply untouched_area; assumption.
    + pose proof (lremoveBridge_spec srt Hsrt unit hk st d L) as S. pose proof (fun st' o out => bridge_facts hk st d st' o out L) as F.
      destruct (lremoveBridge srt unit hk st d) as [[[st' o] out]| | |]; cbn [goodL bind fst snd] in *; try exact I; try contradiction.
      destruct (F _ _ _ eq_refl) as (L' & E & Es & Ka & _). split; [exact L'|]. split; [exact Es|]. split; [cbn [mapPart exec run_op]; rewrite E; reflexivity | auto].
    + pose proof (lmergeFaces_spec srt Hsrt unit hk st d L) as S. pose proof (fun st' o out => merge_facts hk st d st' o out L) as F.
      destruct (lmergeFaces srt unit hk st d) as [[[st' o] out]| | |]; cbn [goodL bind fst snd] in *; try exact I; try contradiction.
      destruct (F _ _ _ eq_refl) as (L' & E & Es & Ka & _). split; [exact L'|]. split; [exact Es|]. split; [cbn [mapPart exec run_op]; rewrite E; reflexivity | auto].
  - pose proof (linit_spec srt Hsrt unit st ord par wi L Hw A) as S. destruct (linit srt unit st ord par wi) as [st'| | |]; cbn [goodL] in *; try exact I; try contradiction.
    destruct S as (L' & Es & Hi & E & S). split; [exact L'|]. split; [exact Es|]. split; [exact E|]. intros [_ C] _. destruct wi; [|apply areaOK_off; apply S].
    destruct S as (img & B). specialize (C _ E). pose proof (li_img _ _ _ L' img (bg_im _ _ _ _ _ _ B)) as II. pose proof (ii_m _ _ _ _ II) as M.
    apply (areaOK_hold st' img (bg_im _ _ _ _ _ _ B) (bg_lut _ _ _ _ _ _ B)). intros f Hf. destruct (bg_area _ _ _ _ _ _ B) as (img0 & Sz & Ha & Hz & Hn). exists (holdList img0 (Z.of_nat f)).
    destruct (holdList_ok img0 (Z.of_nat f)) as [N1 N2]. split; [exact N1|]. split; [|apply Ha]. intros x y. rewrite N2. rewrite (insideB_size img img0 x y Sz).
    pose proof (cnt_nn srt unit (lg st') x y) as Cn. destruct (Z.eq_dec (cnt (lg st') x y) 0) as [K|K].
    + split; intros [Q1 Q2]; split; auto; rewrite (Hz x y Q1 K) in *; auto.
    + assert (Kp : 0 < cnt (lg st') x y) by lia. assert (exists l, crossedBy unit (lg st') l x y).
      { destruct (cnt_exists srt Hsrt unit (lg st') x y) as (Lx & HL). pose proof (cnt_list srt Hsrt unit _ _ _ _ HL) as Q. destruct Lx as [|l Lx]; [cbn in Q; lia|]. exists l. apply HL. left. reflexivity. }
      destruct H as (l & Hl). pose proof (wellDrawn_neat _ _ _ _ M (C x y l Hl)) as Nt.
      split; intros [Q1 Q2]; [rewrite (Hn x y Q1 Kp Nt) in Q2; lia | rewrite (bg_cross _ _ _ _ _ _ B x y Q1 Kp) in Q2; lia].
  - pose proof (setHasLabelImage_spec srt Hsrt unit st onoff L Hw) as S. destruct (setHasLabelImage srt unit st onoff) as [st'| | |]; cbn [goodL] in *; try exact I; try contradiction.
    2:{ destruct S as (-> & S). exact S. }
    destruct S as (L' & S). split; [exact L'|]. destruct (Bool.eqb onoff (isLive (lim st))) eqn:Eq; [subst; split; [reflexivity|]; split; [reflexivity | auto]|].
    destruct onoff; [|subst; split; [reflexivity|]; split; [reflexivity|]; intros _ _; apply areaOK_off; reflexivity].
    destruct S as (img & S). split; [apply S|]. split; [apply S|]. intros [_ C] _. assert (Hn : lim st = None) by (destruct (lim st); [discriminate | reflexivity]). specialize (C Hn).
    pose proof (sh_g _ _ _ _ _ S) as Eg. apply (areaOK_hold st' img (sh_im _ _ _ _ _ S)); [rewrite Eg; apply S|]. rewrite Eg. intros f Hf. exists (holdList img (Z.of_nat f)). destruct (holdList_ok img (Z.of_nat f)) as [N1 N2].
    split; [exact N1|]. split; [exact N2|]. rewrite (sh_area _ _ _ _ _ S f Hf), C. destruct (Nat.eqb f 0); reflexivity.
  - cbn [lallowed] in A. pose proof (changeFaceLabels_spec srt unit st new mx L A) as S. destruct (changeFaceLabels st new mx) as [st'| | |]; cbn [goodL] in *; try exact I; try contradiction.
    destruct S as (L' & Rn & _). split; [exact L'|]. split; [apply Rn|]. split; [exact I|]. intros _ K Hl k Hk. destruct (rn_from _ _ _ Rn k Hk) as (f & Hf & <-).
    destruct (lim st) as [img|] eqn:Hi; [|pose proof (rn_im _ _ _ Rn) as Q; rewrite Hi in Q; destruct (lim st'); [contradiction | congruence]].
    destruct (K ltac:(congruence) f Hf) as (ps & N & E & Ka). exists ps. split; [exact N|]. split; [|rewrite (rn_area _ _ _ Rn f Hf); exact Ka].
    intros x y. rewrite E. apply (renamed_R st new st' L Rn x y f Hf).
  - destruct A as (e & He). apply isEdge_iff in He. destruct (edgeScan_ok srt Hsrt unit st l e (LInv_cache srt unit st L) (Inv_SInv _ (li_inv _ _ _ L)) (li_geo _ _ _ L) He) as (st' & s & E & _ & Sn). rewrite E. cbn [bind goodL fst].
    assert (L' : LInv st').
    { destruct Sn as [S1 S2 S3 S4 S5 [S6 S7]]. constructor; rewrite ?S1; [apply L | apply L | rewrite S1 in S6; exact S6 | rewrite S1 in S7; exact S7|]. intros img Hi. rewrite S3 in Hi. pose proof (li_img _ _ _ L img Hi) as [I1 I2 I3 I4 I5].
      constructor; rewrite ?S1, ?S2, ?S4; assumption. }
    split; [exact L'|]. split; [apply Sn|]. split; [apply Sn|]. intros _ K. destruct Sn as [S1 S2 S3 S4 S5 _]. apply (areaOK_same st st' K); [rewrite S3; auto | | exact S5 | rewrite S1; auto].
    intros x y f. unfold R. rewrite S1, S3, S4. tauto.
  - cbn [goodL]. split; [apply copy_LInv; exact L|]. split; [reflexivity|]. split; [reflexivity|]. intros _ K. destruct (lim (copyOf st)) as [img|] eqn:Hi; [|apply areaOK_off; exact Hi].
    apply (areaOK_same st _ K); [|intros x y f; apply (copy_R st x y f L) | reflexivity | auto]. intros _. destruct (copy_lim st img Hi) as (-> & _). discriminate.
Qed.
End Results.
