(** The statistics follow the label image: the hooks one by one. *)
From Coq Require Import QArith Permutation.
From Verif Require Import Base Orbit FaceInv GeoMap_Model GeoMap_Views GeoMap_Loops GeoMap_SInv GeoMap_Remove GeoMap_MergeEdges GeoMap_SplitEdge GeoMap_MInv GeoMap_Gone GeoMap_Bridge GeoMap_MergeFaces
  GeoMap_Flags GeoMap_Move GeoMap_Sort GeoMap_Init GeoMap_Area GeoMap_History GeoMap_Geometry GeoMap_Spec GeoMap_Facts GeoMap_Results
  Scanlines_Model Scanlines_Spec ScanPoly_Model ScanPoly_Spec LabelLUT_Model LabelImage_Model LabelImage_Spec LabelImage_Loops LabelImage_Cover LabelImage_Cache LabelImage_Inv
  LabelImage_Steps LabelImage_Remove LabelImage_Contour LabelImage_Setup LabelImage_Results LabelImage_Main FaceStats_Model FaceStats_Spec FaceStats_Boxes.
Local Open Scope Z_scope.

(** ** Lists *)
Lemma vget_in {A} (l : list A) i : (i < length l)%nat -> exists a, vget l i = Ok a /\ nth_error l i = Some a.
Proof. intros H. destruct (nth_error l i) as [a|] eqn:E; [|apply nth_error_None in E; lia]. exists a. split; [apply vget_iff, E | reflexivity]. Qed.
Lemma vset_in {A} (l : list A) i v : (i < length l)%nat -> vset l i v = Ok (list_upd l i v).
Proof. intros H. unfold vset. apply Nat.ltb_lt in H. rewrite H. reflexivity. Qed.
Lemma rectPx_in xl yl xh yh x y : In (x, y) (rectPx xl yl xh yh) <-> xl <= x < xh /\ yl <= y < yh.
Proof.
  unfold rectPx. rewrite in_flat_map. split.
  - intros (b & Hb & H). apply in_map_iff in H. destruct H as (a & E & Ha). apply in_seq in Ha, Hb. injection E as <- <-. lia.
  - intros [Hx Hy]. exists (Z.to_nat (y - yl)). split; [apply in_seq; lia|]. apply in_map_iff. exists (Z.to_nat (x - xl)). split; [f_equal; lia | apply in_seq; lia].
Qed.
Lemma NoDup_flat {A B} (f : A -> list B) (l : list A) : NoDup l -> (forall a, In a l -> NoDup (f a)) -> (forall a b x, In a l -> In b l -> In x (f a) -> In x (f b) -> a = b) -> NoDup (flat_map f l).
Proof.
  induction 1 as [|a l Na ND IH]; intros H1 H2; cbn; [constructor|]. apply NoDup_app_intro; [apply H1; left; reflexivity | apply IH; [intros; apply H1; right; assumption | intros x y z Hx Hy; apply H2; right; assumption]|].
  intros x Hx K. apply in_flat_map in K. destruct K as (b & Hb & K). assert (a = b) by (apply (H2 a b x); [left; reflexivity | right; exact Hb | exact Hx | exact K]). subst. contradiction.
Qed.
Lemma NoDup_map_inj {A B} (f : A -> B) l : (forall a b, f a = f b -> a = b) -> NoDup l -> NoDup (map f l).
Proof. intros H. induction 1 as [|a l Na ND IH]; cbn; constructor; [|exact IH]. intros K. apply in_map_iff in K. destruct K as (b & E & Hb). apply H in E. subst. contradiction. Qed.
Lemma rectPx_nodup xl yl xh yh : NoDup (rectPx xl yl xh yh).
Proof.
  apply NoDup_flat; [apply seq_NoDup | |].
  - intros b _. apply NoDup_map_inj; [|apply seq_NoDup]. intros a c E. injection E. lia.
  - intros a b [x y] _ _ H1 H2. apply in_map_iff in H1, H2. destruct H1 as (i & E1 & _), H2 as (j & E2 & _). injection E1 as _ <-. injection E2 as _ E2. lia.
Qed.
Lemma pixelsOf_perm st l ps qs : pixelsOf st l ps -> pixelsOf st l qs -> Permutation ps qs.
Proof. intros [N1 H1] [N2 H2]. apply NoDup_Permutation; auto. intros [x y]. rewrite H1, H2. reflexivity. Qed.
Lemma remove_length x L : NoDup L -> In x L -> S (length (remove Nat.eq_dec x L)) = length L.
Proof.
  induction 1 as [|a L Na ND IH]; intros H; [destruct H|]. cbn [remove length]. destruct (Nat.eq_dec x a) as [->|N].
  - rewrite notin_remove by exact Na. reflexivity.
  - cbn [length]. rewrite IH; [reflexivity|]. destruct H as [H|H]; [congruence | exact H].
Qed.
Lemma remove_nodup x L : NoDup L -> NoDup (remove Nat.eq_dec x L).
Proof.
  induction 1 as [|a L Na ND IH]; cbn [remove]; [constructor|]. destruct (Nat.eq_dec x a); [exact IH|]. constructor; [|exact IH]. intros K. apply in_remove in K. tauto.
Qed.
Lemma remove_iff x y L : In y (remove Nat.eq_dec x L) <-> In y L /\ y <> x.
Proof. split; [apply in_remove | intros [H N]; apply in_in_remove; assumption]. Qed.

Section Stats.
Variable V : Type.
Variable srt : list seg -> list seg.
Hypothesis Hsrt : sorter srt.
Variable unit : positive.
Variable debug : bool.
Notation LInv := (LInv srt unit).
Notation hist := (lhistory srt unit).
Notation pixelIn := (pixelIn unit).
Implicit Types (s : stats V) (o : orig V).

Definition val o (p : Z * Z) : V := oval o (fst p) (snd p).
Definition alive_ m (l : nat) : Prop := fAt m l <> None.

(** every finite face has a box around its edges and its pixels *)
Definition boxInv st (bx : boxes) : Prop := forall l, fAt (lg st) l <> None -> l <> 0%nat ->
  exists b, bx l = Some b /\ inside (lg st) l b /\ forall x y, showsFace st x y l -> pixelIn b x y.

(** the image of the statistics fits the label image, whose pixels can be read *)
Record readable st o : Prop := {
  rd_lab : forall x y, within st x y -> exists v, labelAt st x y = Ok v /\ (0 <= v -> alive_ (lg st) (Z.to_nat v));
  rd_in : forall x y, within st x y <-> oInside o x y = true }.

Lemma oInside_iff o x y : oInside o x y = true <-> 0 <= x < ow o /\ 0 <= y < oh o.
Proof. unfold oInside. rewrite !andb_true_iff, !Z.leb_le, !Z.ltb_lt. lia. Qed.
Lemma readable_of st o : hist tracked st -> lim st <> None -> (ow o, oh o) = lsize st -> readable st o.
Proof.
  intros H Hl Es. constructor.
  - intros x y W. pose proof W as (img & Hi & Hx & Hy). destruct (edge_counts srt Hsrt unit st x y (ipx img x y) H) as (L & HL & L1 & L2); [exists img; auto|].
    destruct L as [|a L].
    + destruct (L2 eq_refl) as (_ & f & fc & Hf & _ & Hs). exists (Z.of_nat f). split; [exact Hs|]. intros _. rewrite Nat2Z.id. apply isFace_iff in Hf. unfold alive_. congruence.
    + exists (ipx img x y). assert (Neg : ipx img x y < 0) by (rewrite L1 by discriminate; cbn [length]; lia). split; [|lia].
      unfold labelAt, pixGet. rewrite Hi. assert (Hin : insideB img x y = true) by (apply LabelImage_Loops.insideB_iff; auto). rewrite Hin. cbn [bind]. rewrite Z.geb_leb. destruct (Z.leb_spec 0 (ipx img x y)); [lia | reflexivity].
  - intros x y. rewrite (image_size srt Hsrt unit st x y H Hl), oInside_iff. rewrite <- Es. reflexivity.
Qed.

Lemma rescanPx_spec st o l : readable st o -> forall ps f, (forall x y, In (x, y) ps -> within st x y) ->
  exists g qs, rescanPx st o l ps f = Ok g /\ (NoDup ps -> NoDup qs) /\ (forall x y, In (x, y) qs <-> In (x, y) ps /\ labelAt st x y = Ok (Z.of_nat l)) /\ Permutation g (map (val o) qs ++ f).
Proof.
  intros Rd. induction ps as [|[x y] ps IH]; intros f H; cbn [rescanPx].
  - exists f, []. split; [reflexivity|]. split; [auto|]. split; [cbn; tauto | apply Permutation_refl].
  - assert (W : within st x y) by (apply H; left; reflexivity). destruct (rd_lab _ _ Rd x y W) as (v & Ev & _). rewrite Ev. cbn [bind].
    assert (H' : forall a b, In (a, b) ps -> within st a b) by (intros; apply H; right; assumption). destruct (Z.eqb_spec v (Z.of_nat l)) as [->|N].
    + unfold oget. rewrite (proj1 (rd_in _ _ Rd x y) W). cbn [bind]. destruct (IH (oval o x y :: f) H') as (g & qs & E & Nd & Hq & Pm). exists g, ((x, y) :: qs). split; [exact E|]. split; [|split].
      * intros Hn. inversion Hn as [|? ? K1 K2]; subst. constructor; [|apply Nd; exact K2]. intros K. apply Hq in K. tauto.
      * intros a b. cbn [In]. rewrite Hq. split; [intros [K|K]; [injection K as <- <-; auto | tauto] | tauto].
      * rewrite Pm. cbn [map app val fst snd]. symmetry. apply Permutation_middle.
    + destruct (IH f H') as (g & qs & E & Nd & Hq & Pm). exists g, qs. split; [exact E|]. split; [intros Hn; inversion Hn; auto|]. split; [|exact Pm].
      intros a b. rewrite Hq. cbn [In]. split; [tauto|]. intros [[K|K] L]; [injection K as <- <-; rewrite Ev in L; injection L as L; congruence | auto].
Qed.

Lemma rescan_spec st bx o l f ps : readable st o -> boxInv st bx -> fAt (lg st) l <> None -> l <> 0%nat -> pixelsOf st l ps ->
  exists g, rescanFace unit st bx o l f = Ok (bx, g) /\ Permutation g (map (val o) ps ++ f).
Proof.
  intros Rd B Hl N [Np Hp]. destruct (B l Hl N) as (b & Eb & _ & Px). unfold rescanFace, getBox.
  destruct (fAt (lg st) l) as [fc|] eqn:Ef; [|congruence]. rewrite (deref_face _ _ _ Ef). cbn [bind]. apply Nat.eqb_neq in N. rewrite N, Eb. cbn [bind fst snd].
  set (R := rectPx _ _ _ _). assert (HR : forall x y, In (x, y) R <-> (0 <= x < ow o /\ 0 <= y < oh o) /\ pixelIn b x y).
  { intros x y. unfold R. rewrite rectPx_in. unfold FaceStats_Boxes.pixelIn. lia. }
  destruct (rescanPx_spec st o l Rd R f) as (g & qs & E & Nd & Hq & Pm).
  { intros x y K. apply HR in K. apply (rd_in _ _ Rd), oInside_iff, K. }
  rewrite E. cbn [bind]. exists g. split; [reflexivity|]. rewrite Pm. apply Permutation_app_tail, Permutation_map. apply NoDup_Permutation; [apply Nd, rectPx_nodup | exact Np|].
  intros [x y]. rewrite Hq, Hp, HR, <- oInside_iff, <- (rd_in _ _ Rd). unfold showsFace. split; [tauto|]. intros [W K]. split; [split; [exact W | apply Px; split; assumption] | exact K].
Qed.

(** ** What the statistics say *)

Record statG (live : nat -> Prop) (pix : nat -> list (Z * Z) -> Prop) (s : stats V) : Prop := {
  sg_fun : forall l, live l <-> exists xs, samples s l xs;
  sg_vals : forall l xs ps, live l -> samples s l xs -> level s l = 0%nat -> pix l ps -> Permutation xs (map (val (sOrig s)) ps);
  sg_zero : level s 0 = 0%nat;
  sg_tab : forall t l, sTab s = Some t -> live l -> (l < length t)%nat;
  sg_cnt : exists L, NoDup L /\ (forall l, In l L <-> level s l <> 0%nat /\ live l) /\ sCount s = Z.of_nat (length L) }.

Lemma statG_ext live live' pix (pix' : nat -> list (Z * Z) -> Prop) s : (forall l, live l <-> live' l) -> (forall l ps, live l -> pix' l ps -> exists qs, pix l qs /\ Permutation ps qs) -> statG live pix s -> statG live' pix' s.
Proof.
  intros Hl Hp [A1 A2 A3 A4 A5]. constructor; auto.
  - intros l. rewrite <- Hl. apply A1.
  - intros l xs ps K1 K2 K3 K4. apply Hl in K1. destruct (Hp l ps K1 K4) as (qs & Q & Pm). rewrite Pm. apply (A2 l xs qs); assumption.
  - intros t l E K. apply (A4 t l E), Hl, K.
  - destruct A5 as (L & N & H & E). exists L. split; [exact N|]. split; [|exact E]. intros l. rewrite H, Hl. reflexivity.
Qed.
Lemma statG_mark live pix s M ss a b : statG live pix s -> statG live pix (setM (setL s a b) M ss).
Proof. intros [A1 A2 A3 A4 A5]. constructor; assumption. Qed.

Lemma samples_functor s l xs : samples s l xs -> functor s l = Ok xs.
Proof. unfold samples, functor. intros H. assert (E : vget (sFun s) l = Ok (Some xs)) by (apply vget_iff, H). rewrite E. reflexivity. Qed.
Lemma samples_len s l xs : samples s l xs -> (l < length (sFun s))%nat.
Proof. unfold samples. intros H. apply nth_error_Some. congruence. Qed.
Lemma level_nth s t l : sTab s = Some t -> (l < length t)%nat -> vget t l = Ok (level s l).
Proof. intros E H. unfold level. rewrite E. apply vget_iff, nth_error_nth', H. Qed.
Lemma level_none s l : sTab s = None -> level s l = 0%nat.
Proof. intros E. unfold level. rewrite E. reflexivity. Qed.

(** ** preMergeFaces *)
Record preOK st s (l r : nat) (s' : stats V) : Prop := {
  po_orig : sOrig s' = sOrig s; po_fun : sFun s' = sFun s; po_min : sMin s' = sMin s; po_tab : sTab s' = sTab s; po_count : sCount s' = sCount s;
  po_l1 : sL1 s' = l; po_l2 : sL2 s' = r;
  po_ss : sTab s <> None -> level s l = 0%nat \/ level s r = 0%nat -> sMergedSS s' = 0%nat;
  po_vals : sTab s = None \/ sMergedSS s' = 0%nat -> forall ps qs, pixelsOf st l ps -> pixelsOf st r qs -> Permutation (sMerged s') (map (val (sOrig s)) (ps ++ qs)) }.

Definition areas st : Prop := forall f, alive_ (lg st) f -> exists ps, pixelsOf st f ps /\ larea st f = Z.of_nat (length ps).
Lemma area_pixels st f ps : areas st -> alive_ (lg st) f -> pixelsOf st f ps -> larea st f = Z.of_nat (length ps).
Proof. intros A Hf Hp. destruct (A f Hf) as (qs & Q & ->). rewrite (Permutation_length (pixelsOf_perm _ _ _ _ Q Hp)). reflexivity. Qed.

Lemma preMerge_spec st bx s d l r : readable st (sOrig s) -> boxInv st bx -> areas st -> statG (alive_ (lg st)) (pixelsOf st) s ->
  In d (darts (lg st)) -> lft (lg st) d = Some l -> lft (lg st) (- d) = Some r -> alive_ (lg st) l -> alive_ (lg st) r ->
  exists s', preMergeFaces unit st bx s d = Ok (bx, s') /\ preOK st s l r s'.
Proof.
  intros Rd B Ar G Hd Hl Hr Al Ar'. unfold preMergeFaces. rewrite (leftLabel_Ok _ d Hd), (rightLabel_Ok _ d Hd), Hl, Hr. cbn [bind].
  destruct (proj1 (sg_fun _ _ _ G l) Al) as (fl & Fl). destruct (proj1 (sg_fun _ _ _ G r) Ar') as (fr & Fr). rewrite (samples_functor _ _ _ Fl), (samples_functor _ _ _ Fr). cbn [bind].
  assert (Vl : level s l = 0%nat -> forall ps, pixelsOf st l ps -> Permutation fl (map (val (sOrig s)) ps)) by (intros K ps P; apply (sg_vals _ _ _ G l); assumption).
  assert (Vr : level s r = 0%nat -> forall ps, pixelsOf st r ps -> Permutation fr (map (val (sOrig s)) ps)) by (intros K ps P; apply (sg_vals _ _ _ G r); assumption).
  assert (Nz : forall k, level s k <> 0%nat -> k <> 0%nat) by (intros k K ->; apply K, G).
  assert (Both : forall ps qs, level s l = 0%nat -> level s r = 0%nat -> pixelsOf st l ps -> pixelsOf st r qs -> Permutation (fr ++ fl) (map (val (sOrig s)) (ps ++ qs))).
  { intros ps qs K1 K2 P Q. rewrite map_app, Permutation_app_comm. apply Permutation_app; auto. }
  change (sTab (setL s l r)) with (sTab s). destruct (sTab s) as [t|] eqn:Et.
  2:{ eexists. split; [reflexivity|]. constructor; auto; [congruence|]. intros _ ps qs P Q. apply Both; auto; apply level_none, Et. }
  rewrite (level_nth s t l Et (sg_tab _ _ _ G t l Et Al)), (level_nth s t r Et (sg_tab _ _ _ G t r Et Ar')). cbn [bind]. change (sOrig (setL s l r)) with (sOrig s). change (sMin (setL s l r)) with (sMin s).
  destruct (Ar l Al) as (pl & Pl & El). destruct (Ar r Ar') as (pr & Pr & Er).
  destruct (Nat.eqb_spec (level s l) (level s r)) as [Eq|Ne]; cbn [negb].
  - destruct (Nat.eqb_spec (level s l) 0) as [Z0|Nl]; cbn [negb].
    + eexists. split; [reflexivity|]. constructor; auto. intros _ ps qs P Q. apply Both; auto; congruence.
    + destruct (larea st l + larea st r >=? Z.of_nat (sMin s)).
      * destruct (rescan_spec st bx (sOrig s) l [] pl Rd B Al (Nz l Nl) Pl) as (g1 & -> & P1). cbn [bind fst snd].
        destruct (rescan_spec st bx (sOrig s) r g1 pr Rd B Ar' (Nz r ltac:(congruence)) Pr) as (g2 & -> & P2). cbn [bind fst snd]. eexists. split; [reflexivity|]. constructor; auto.
        intros _ ps qs P Q. change (Permutation g2 (map (val (sOrig s)) (ps ++ qs))). rewrite P2, P1, app_nil_r, map_app, Permutation_app_comm. apply Permutation_app; apply Permutation_map; eapply pixelsOf_perm; eassumption.
      * eexists. split; [reflexivity|]. constructor; auto; [intros _ [K|K]; congruence|]. intros [K|K]; [congruence|]. cbn in K. congruence.
  - destruct (Nat.ltb_spec (level s l) (level s r)) as [Lt|Ge].
    + assert (Nr : r <> 0%nat) by (apply Nz; lia).
      assert (Key : exists g, (if larea st r =? 0 then Ok (bx, setM (setL s l r) fl (level s l)) else q <- rescanFace unit st bx (sOrig s) r fl;; Ok (fst q, setM (setL s l r) (snd q) (level s l))) = Ok (bx, setM (setL s l r) g (level s l)) /\ Permutation g (map (val (sOrig s)) pr ++ fl)).
      { destruct (Z.eqb_spec (larea st r) 0) as [K|K]; [exists fl; split; [reflexivity|]; destruct pr; [reflexivity | cbn in Er; lia]|].
        destruct (rescan_spec st bx (sOrig s) r fl pr Rd B Ar' Nr Pr) as (g & -> & P). cbn [bind fst snd]. exists g. auto. }
      destruct Key as (g & -> & Pg). eexists. split; [reflexivity|]. constructor; auto; [intros _ [K|K]; cbn; lia|].
      intros [K|K] ps qs P Q; [congruence|]. cbn in K. change (Permutation g (map (val (sOrig s)) (ps ++ qs))). rewrite Pg, map_app, Permutation_app_comm. apply Permutation_app; [apply Vl; assumption | apply Permutation_map; eapply pixelsOf_perm; eassumption].
    + assert (Nl : l <> 0%nat) by (apply Nz; lia).
      assert (Key : exists g, (if larea st l =? 0 then Ok (bx, setM (setL s l r) fr (level s r)) else q <- rescanFace unit st bx (sOrig s) l fr;; Ok (fst q, setM (setL s l r) (snd q) (level s r))) = Ok (bx, setM (setL s l r) g (level s r)) /\ Permutation g (map (val (sOrig s)) pl ++ fr)).
      { destruct (Z.eqb_spec (larea st l) 0) as [K|K]; [exists fr; split; [reflexivity|]; destruct pl; [reflexivity | cbn in El; lia]|].
        destruct (rescan_spec st bx (sOrig s) l fr pl Rd B Al Nl Pl) as (g & -> & P). cbn [bind fst snd]. exists g. auto. }
      destruct Key as (g & -> & Pg). eexists. split; [reflexivity|]. constructor; auto; [intros _ [K|K]; cbn; lia|].
      intros [K|K] ps qs P Q; [congruence|]. cbn in K. change (Permutation g (map (val (sOrig s)) (ps ++ qs))). rewrite Pg, map_app. apply Permutation_app; [apply Permutation_map; eapply pixelsOf_perm; eassumption | apply Vr; assumption].
Qed.

(** ** postMergeFaces *)
Lemma check_spec s l area xs : samples s l xs -> (forall t, sTab s = Some t -> (l < length t)%nat) -> (level s l = 0%nat -> area = Z.of_nat (length xs)) -> checkPixelCount debug s l area = Ok s.
Proof.
  intros Fx Ht Ha. unfold checkPixelCount. destruct debug; cbn [negb]; [|reflexivity]. rewrite (samples_functor _ _ _ Fx). cbn [bind].
  assert (E : match sTab s with Some t => vget t l | None => Ok 0%nat end = Ok (level s l)).
  { destruct (sTab s) as [t|] eqn:Et; [apply level_nth; auto | rewrite level_none by exact Et; reflexivity]. }
  rewrite E. cbn [bind]. destruct (Nat.eqb_spec (level s l) 0) as [Z0|N]; [|reflexivity]. rewrite (Ha Z0), Z.eqb_refl. reflexivity.
Qed.

Definition mergedPix st (x mm : nat) (l : nat) (qs : list (Z * Z)) : Prop :=
  if Nat.eqb l x then exists a b, pixelsOf st x a /\ pixelsOf st mm b /\ qs = a ++ b else pixelsOf st l qs.
Definition mergedLive st (mm : nat) (l : nat) : Prop := alive_ (lg st) l /\ l <> mm.

Lemma samples_upd s l xs k : (l < length (sFun s))%nat -> forall ys, samples (setF s (list_upd (sFun s) l xs)) k ys <-> if Nat.eqb k l then xs = Some ys else samples s k ys.
Proof.
  intros H ys. unfold samples. cbn [sFun setF]. destruct (Nat.eqb_spec k l) as [->|N].
  - rewrite nth_error_upd_eq by exact H. split; congruence.
  - rewrite nth_error_upd_neq by congruence. reflexivity.
Qed.

(** the merge that loses the table: the only supersampled face survives a merge with one that is not supersampled *)
Definition loses s (x mm : nat) : Prop := level s x <> 0%nat /\ level s mm = 0%nat /\ sCount s = 1.

Lemma postMerge_spec st s l r s' x mm : statG (alive_ (lg st)) (pixelsOf st) s -> areas st -> preOK st s l r s' -> l <> r -> (x = l /\ mm = r \/ x = r /\ mm = l) -> alive_ (lg st) l -> alive_ (lg st) r ->
  (loses s x mm -> postMergeFaces debug s' x (larea st x + larea st mm) = UB) /\
  (~ loses s x mm -> exists s'', postMergeFaces debug s' x (larea st x + larea st mm) = Ok s'' /\ sOrig s'' = sOrig s /\ sMin s'' = sMin s /\ statG (mergedLive st mm) (mergedPix st x mm) s'').
Proof.
  intros G Ar [Po Pf Pm Pt Pc P1 P2 Pss Pv] Nlr Hx Al Ar'.
  assert (Lx : alive_ (lg st) x) by (destruct Hx as [[-> ->]|[-> ->]]; assumption). assert (Lm : alive_ (lg st) mm) by (destruct Hx as [[-> ->]|[-> ->]]; assumption).
  assert (Nx : x <> mm) by (destruct Hx as [[-> ->]|[-> ->]]; congruence).
  assert (Hmm : (if Nat.eqb x (sL1 s') then sL2 s' else sL1 s') = mm). { rewrite P1, P2. destruct Hx as [[-> ->]|[-> ->]]; [rewrite Nat.eqb_refl; reflexivity|]. destruct (Nat.eqb_spec r l); [congruence | reflexivity]. }
  destruct (proj1 (sg_fun _ _ _ G x) Lx) as (fx & Fx). destruct (proj1 (sg_fun _ _ _ G mm) Lm) as (fmm & Fm).
  destruct (Ar x Lx) as (px & Px & Ex). destruct (Ar mm Lm) as (pm & Pmm & Em).
  assert (Bx := samples_len _ _ _ Fx). assert (Bm := samples_len _ _ _ Fm).
  assert (Fx' : functor s' x = Ok fx) by (apply samples_functor; unfold samples; rewrite Pf; exact Fx).
  assert (Vals : sTab s = None \/ sMergedSS s' = 0%nat -> Permutation (sMerged s') (map (val (sOrig s)) (px ++ pm))).
  { intros K. destruct Hx as [[-> ->]|[-> ->]]; [apply Pv; assumption|]. rewrite (Pv K pm px Pmm Px), !map_app. apply Permutation_app_comm. }
  destruct (sg_cnt _ _ _ G) as (L & NL & HL & EL).
  (* the end of the function *)
  assert (Fin : forall t c, (forall k, t = Some k -> (x < length k)%nat /\ forall j, mergedLive st mm j -> (j < length k)%nat) ->
    let lv := fun k => match t with Some tb => nth k tb 0%nat | None => 0%nat end in
    lv 0%nat = 0%nat -> (lv x = 0%nat -> sTab s = None \/ sMergedSS s' = 0%nat) -> (forall k, mergedLive st mm k -> k <> x -> lv k = 0%nat -> level s k = 0%nat) ->
    (exists L', NoDup L' /\ (forall k, In k L' <-> lv k <> 0%nat /\ mergedLive st mm k) /\ c = Z.of_nat (length L')) ->
    exists s'', (fs <- vset (list_upd (sFun s) x (Some (sMerged s'))) mm None ;; checkPixelCount debug (setF (setT (setF s' (list_upd (sFun s) x (Some (sMerged s')))) t c) fs) x (larea st x + larea st mm)) = Ok s'' /\
      sOrig s'' = sOrig s /\ sMin s'' = sMin s /\ statG (mergedLive st mm) (mergedPix st x mm) s'').
  { intros t c Ht lv Z0 Hv Hk Hc. rewrite vset_in by (rewrite list_upd_length; exact Bm). cbn [bind].
    set (fs := list_upd (list_upd (sFun s) x (Some (sMerged s'))) mm None). set (s2 := setF (setT (setF s' (list_upd (sFun s) x (Some (sMerged s')))) t c) fs).
    assert (Sm : forall k ys, samples s2 k ys <-> k <> mm /\ if Nat.eqb k x then sMerged s' = ys else samples s k ys).
    { intros k ys. unfold samples, s2, fs. cbn [sFun setF setT]. destruct (Nat.eq_dec k mm) as [->|Nk]; [rewrite nth_error_upd_eq by (rewrite list_upd_length; exact Bm); split; [discriminate | intros [K _]; congruence]|].
      rewrite nth_error_upd_neq by congruence. destruct (Nat.eqb_spec k x) as [->|Nk2]; [rewrite nth_error_upd_eq by exact Bx; split; [intros K; split; congruence | intros [_ K]; congruence]|].
      rewrite nth_error_upd_neq by congruence. tauto. }
    exists s2. split; [apply (check_spec s2 x _ (sMerged s'))|split; [exact Po | split; [exact Pm|]]].
    - apply Sm. rewrite Nat.eqb_refl. auto.
    - intros tb E. apply (proj1 (Ht tb E)).
    - intros K. rewrite (Permutation_length (Vals (Hv K))), map_length, app_length, Ex, Em. lia.
    - constructor.
      + intros k. split.
        * intros [Ak Nk]. destruct (Nat.eq_dec k x) as [->|Nkx]; [exists (sMerged s'); apply Sm; rewrite Nat.eqb_refl; auto|]. destruct (proj1 (sg_fun _ _ _ G k) Ak) as (ys & Y). exists ys. apply Sm. apply Nat.eqb_neq in Nkx. rewrite Nkx. auto.
        * intros (ys & K). apply Sm in K. destruct K as [Nk K]. split; [|exact Nk]. destruct (Nat.eqb_spec k x) as [->|Nkx]; [exact Lx|]. apply (sg_fun _ _ _ G). exists ys. exact K.
      + intros k ys ps [Ak Nk] K K0 Pk. change (sOrig s2) with (sOrig s'). rewrite Po. apply Sm in K. destruct K as [_ K]. unfold mergedPix in Pk. destruct (Nat.eqb_spec k x) as [->|Nkx].
        * subst ys. destruct Pk as (a & b & Pa & Pb & ->). rewrite (Vals (Hv K0)), !map_app. apply Permutation_app; apply Permutation_map; eapply pixelsOf_perm; eassumption.
        * apply (sg_vals _ _ _ G k); auto. apply Hk; [split; assumption | exact Nkx | exact K0].
      + exact Z0.
      + intros tb k E K. apply (proj2 (Ht tb E)), K.
      + exact Hc. }
  unfold postMergeFaces. rewrite Fx'. cbn [bind]. cbn zeta. rewrite Hmm, Pf. rewrite vset_in by exact Bx. cbn [bind]. change (sTab (setF s' (list_upd (sFun s) x (Some (sMerged s'))))) with (sTab s'). rewrite Pt.
  destruct (sTab s) as [t|] eqn:Et.
  2:{ split; [intros (K & _); exfalso; apply K, level_none, Et|]. intros _. cbn [bind]. destruct (Fin None (sCount s)) as (s'' & E & K); auto; [discriminate | intros k _ _ _; apply level_none, Et | |].
      - exists []. split; [constructor|]. split; [intros k; split; [intros [] | intros [K _]; apply K; reflexivity]|]. rewrite EL. destruct L as [|a L]; [reflexivity|]. exfalso. destruct (proj1 (HL a) (or_introl eq_refl)) as [K _]. apply K, level_none, Et.
      - exists s''. split; [|exact K]. rewrite <- E. unfold setF, setT. cbn. rewrite Pt, Pc. reflexivity. }
  assert (Tx := sg_tab _ _ _ G t x Et Lx). assert (Tm := sg_tab _ _ _ G t mm Et Lm).
  rewrite (level_nth s t x Et Tx). cbn [bind]. change (sMergedSS (setF s' (list_upd (sFun s) x (Some (sMerged s'))))) with (sMergedSS s').
  assert (SS : level s l = 0%nat \/ level s r = 0%nat -> sMergedSS s' = 0%nat) by (apply Pss; discriminate).
  assert (SS' : sMergedSS s' <> 0%nat -> level s x <> 0%nat /\ level s mm <> 0%nat). { intros K. destruct Hx as [[-> ->]|[-> ->]]; split; intros Q; apply K, SS; auto. }
  set (sF := setF s' (list_upd (sFun s) x (Some (sMerged s')))). set (drop := (negb (Nat.eqb (level s x) 0) && Nat.eqb (sMergedSS s') 0)%bool).
  assert (InX : In x L <-> level s x <> 0%nat) by (rewrite HL; tauto). assert (InM : In mm L <-> level s mm <> 0%nat) by (rewrite HL; tauto).
  set (L1 := if drop then remove Nat.eq_dec x L else L).
  assert (E1 : drop = true -> level s x <> 0%nat /\ sMergedSS s' = 0%nat). { unfold drop. intros K. apply andb_true_iff in K. destruct K as [K1 K2]. apply negb_true_iff, Nat.eqb_neq in K1. apply Nat.eqb_eq in K2. auto. }
  assert (C1 : sCount (if drop then dropOne sF else sF) = Z.of_nat (length L1)).
  { unfold L1. destruct drop; unfold dropOne, sF; cbn [sCount setT setF]; rewrite Pc, EL; [|reflexivity]. rewrite <- (remove_length x L NL) by (apply InX, E1; reflexivity). lia. }
  assert (T1 : sTab (if drop then dropOne sF else sF) = if (drop && (sCount s =? 1))%bool then None else Some t).
  { destruct drop; unfold dropOne, sF; cbn [sTab sCount setT setF andb]; rewrite Pt; [|reflexivity]. rewrite Pc. destruct (Z.eqb_spec (sCount s - 1) 0), (Z.eqb_spec (sCount s) 1); try lia; reflexivity. }
  assert (Lose : (drop && (sCount s =? 1))%bool = true <-> loses s x mm).
  { unfold loses. rewrite andb_true_iff, Z.eqb_eq. split.
    - intros [K1 K2]. destruct (E1 K1) as [K3 _]. split; [exact K3|]. split; [|exact K2]. destruct (Nat.eq_dec (level s mm) 0) as [Q|Q]; [exact Q|]. exfalso. apply InX in K3. apply InM in Q.
      rewrite EL in K2. destruct L as [|a [|b L0]]; cbn in K2; try lia. destruct K3 as [K3|[]], Q as [Q|[]]. congruence.
    - intros (K1 & K2 & K3). split; [|exact K3]. unfold drop. rewrite SS by (destruct Hx as [[-> ->]|[-> ->]]; auto). apply Nat.eqb_neq in K1. rewrite K1. reflexivity. }
  unfold table. rewrite T1. split; [intros K; apply Lose in K; rewrite K; reflexivity|]. intros K.
  destruct (drop && (sCount s =? 1))%bool eqn:Ed; [exfalso; apply K, Lose; reflexivity|]. cbn [bind].
  assert (MS : sMergedSS (if drop then dropOne sF else sF) = sMergedSS s') by (destruct drop; reflexivity). rewrite MS. rewrite vset_in by exact Tx. cbn [bind].
  set (t1 := list_upd t x (sMergedSS s')).
  assert (Lv1 : forall k, nth k t1 0%nat = if Nat.eqb k x then sMergedSS s' else level s k).
  { intros k. unfold t1. destruct (Nat.eqb_spec k x) as [->|Nk]; [apply nth_list_upd_eq; exact Tx|]. rewrite nth_list_upd_neq by congruence. unfold level. rewrite Et. reflexivity. }
  assert (W : vget t1 mm = Ok (level s mm)).
  { apply vget_iff. rewrite (nth_error_nth' t1 0%nat) by (unfold t1; rewrite list_upd_length; exact Tm). rewrite Lv1. apply Nat.eqb_neq in Nx. rewrite Nat.eqb_sym, Nx. reflexivity. }
  rewrite W. cbn [bind].
  set (sd := setT (if drop then dropOne sF else sF) (Some t1) (sCount (if drop then dropOne sF else sF))).
  set (L2 := remove Nat.eq_dec mm L1).
  assert (NL2 : NoDup L2). { unfold L2, L1. apply remove_nodup. destruct drop; [apply remove_nodup|]; exact NL. }
  assert (HL2 : forall k, In k L2 <-> nth k t1 0%nat <> 0%nat /\ mergedLive st mm k).
  { intros k. unfold L2, mergedLive. rewrite remove_iff, Lv1. unfold L1. destruct drop eqn:Dr.
    - destruct (E1 eq_refl) as [Q1 Q2]. rewrite remove_iff, HL, Q2. destruct (Nat.eqb_spec k x) as [->|Nk]; tauto.
    - rewrite HL. destruct (Nat.eqb_spec k x) as [->|Nk]; [|tauto]. destruct (Nat.eq_dec (sMergedSS s') 0) as [Q|Q].
      + assert (level s x = 0%nat). { unfold drop in Dr. rewrite Q in Dr. cbn in Dr. rewrite andb_true_r in Dr. apply negb_false_iff, Nat.eqb_eq in Dr. exact Dr. } tauto.
      + destruct (SS' Q). tauto. }
  assert (InM1 : In mm L1 <-> level s mm <> 0%nat). { unfold L1. destruct drop; [rewrite remove_iff|]; rewrite InM; [intuition congruence | tauto]. }
  assert (EF : forall t' c', setF (setT sd t' c') = fun fs => setF (setT (setF s' (list_upd (sFun s) x (Some (sMerged s')))) t' c') fs) by (intros; unfold sd; destruct drop; reflexivity).
  destruct (Nat.eqb_spec (level s mm) 0) as [Zm|Nm]; cbn [negb].
  - assert (EL2 : length L2 = length L1). { unfold L2. rewrite notin_remove; [reflexivity|]. rewrite InM1. auto. }
    destruct (Fin (Some t1) (Z.of_nat (length L1))) as (s'' & E & K').
    + intros tb Q. injection Q as <-. unfold t1. rewrite list_upd_length. split; [exact Tx|]. intros j [Aj _]. apply (sg_tab _ _ _ G t j Et Aj).
    + cbn beta iota. rewrite Lv1. destruct (Nat.eqb_spec 0 x) as [<-|]; [apply SS; destruct Hx as [[<- _]|[<- _]]; rewrite (sg_zero _ _ _ G); auto | apply G].
    + cbn beta iota. rewrite Lv1, Nat.eqb_refl. auto.
    + cbn beta iota. intros k _ Nk. rewrite Lv1. apply Nat.eqb_neq in Nk. rewrite Nk. auto.
    + exists L2. cbn beta iota. rewrite EL2. auto.
    + exists s''. split; [|exact K']. rewrite <- E. assert (Es : sd = setT sF (Some t1) (Z.of_nat (length L1))) by (unfold sd; rewrite C1; destruct drop; reflexivity). rewrite Es. reflexivity.
  - assert (EL2 : Datatypes.S (length L2) = length L1). { unfold L2. apply remove_length; [unfold L1; destruct drop; [apply remove_nodup|]; exact NL | apply InM1, Nm]. }
    set (t2 := if Z.of_nat (length L1) - 1 =? 0 then None else Some t1).
    destruct (Fin t2 (Z.of_nat (length L1) - 1)) as (s'' & E & K').
    + intros tb Q. unfold t2 in Q. destruct (_ =? 0); [discriminate|]. injection Q as <-. unfold t1. rewrite list_upd_length. split; [exact Tx|]. intros j [Aj _]. apply (sg_tab _ _ _ G t j Et Aj).
    + cbn beta zeta. unfold t2. destruct (_ =? 0); [reflexivity|]. rewrite Lv1. destruct (Nat.eqb_spec 0 x) as [<-|]; [apply SS; destruct Hx as [[<- _]|[<- _]]; rewrite (sg_zero _ _ _ G); auto | apply G].
    + cbn beta zeta. unfold t2. destruct (Z.eqb_spec (Z.of_nat (length L1) - 1) 0) as [Q|Q].
      * intros _. right. destruct (Nat.eq_dec (sMergedSS s') 0) as [Q2|Q2]; [exact Q2|]. exfalso. assert (In x L2). { apply HL2. rewrite Lv1, Nat.eqb_refl. split; [exact Q2|]. split; assumption. }
        destruct L2; [contradiction | cbn in EL2; lia].
      * rewrite Lv1, Nat.eqb_refl. auto.
    + cbn beta zeta. unfold t2. intros k Lk Nk. destruct (Z.eqb_spec (Z.of_nat (length L1) - 1) 0) as [Q|Q].
      * intros _. destruct (Nat.eq_dec (level s k) 0) as [Q2|Q2]; [exact Q2|]. exfalso. assert (In k L2). { apply HL2. rewrite Lv1. apply Nat.eqb_neq in Nk. rewrite Nk. auto. } destruct L2; [contradiction | cbn in EL2; lia].
      * rewrite Lv1. apply Nat.eqb_neq in Nk. rewrite Nk. auto.
    + exists L2. split; [exact NL2|]. split; [|lia]. cbn beta zeta. unfold t2. destruct (Z.eqb_spec (Z.of_nat (length L1) - 1) 0) as [Q|Q]; [|exact HL2].
      assert (L2 = []) as -> by (destruct L2; [reflexivity | cbn in EL2; lia]). intros k. split; [intros [] | intros [Q2 _]; congruence].
    + exists s''. split; [|exact K']. rewrite <- E. assert (Es : dropOne sd = setT sF t2 (Z.of_nat (length L1) - 1)).
      { unfold dropOne, t2. assert (Es : sd = setT sF (Some t1) (Z.of_nat (length L1))) by (unfold sd; rewrite C1; destruct drop; reflexivity). rewrite Es. reflexivity. }
      rewrite Es. reflexivity.
Qed.

(** ** associatePixels *)
Lemma feed_spec o : forall ps f, (forall x y, In (x, y) ps -> oInside o x y = true) -> exists g, feed debug o ps f = Ok g /\ Permutation g (map (val o) ps ++ f).
Proof.
  induction ps as [|[x y] ps IH]; intros f H; cbn [feed]; [exists f; split; reflexivity|]. rewrite (H x y (or_introl eq_refl)). rewrite andb_false_r. unfold oget. rewrite (H x y (or_introl eq_refl)). cbn [bind].
  destruct (IH (oval o x y :: f)) as (g & E & P); [intros; apply H; right; assumption|]. exists g. split; [exact E|]. rewrite P. symmetry. apply (Permutation_middle (map (val o) ps) f (val o (x, y))).
Qed.

(** the statistics of a map whose face [x] is about to get the pixels [out] *)
Lemma feedAll_spec st s x out pixM : readable st (sOrig s) -> areas st -> statG (alive_ (lg st)) pixM s -> alive_ (lg st) x -> (forall a b, In (a, b) out -> within st a b) ->
  (forall ps, pixelsOf st x ps -> exists qs, pixM x qs /\ Permutation ps (qs ++ out)) -> (forall l ps, l <> x -> alive_ (lg st) l -> pixelsOf st l ps -> exists qs, pixM l qs /\ Permutation ps qs) ->
  exists s', feedAll debug s x out (larea st x) = Ok s' /\ sOrig s' = sOrig s /\ sMin s' = sMin s /\ statG (alive_ (lg st)) (pixelsOf st) s'.
Proof.
  intros Rd Ar G Lx Hout Hx Ho. destruct (proj1 (sg_fun _ _ _ G x) Lx) as (fx & Fx). unfold feedAll. rewrite (samples_functor _ _ _ Fx). cbn [bind].
  destruct (feed_spec (sOrig s) out fx) as (g & -> & Pg); [intros a b K; apply (rd_in _ _ Rd), Hout, K|]. cbn [bind]. pose proof (samples_len _ _ _ Fx) as Bx. rewrite vset_in by exact Bx. cbn [bind].
  set (s2 := setF s (list_upd (sFun s) x (Some g))). assert (Sm := samples_upd s x (Some g)).
  assert (Vx : level s x = 0%nat -> forall ps, pixelsOf st x ps -> Permutation g (map (val (sOrig s)) ps)).
  { intros K ps P. destruct (Hx ps P) as (qs & Q & Pq). rewrite Pg, Pq, map_app, Permutation_app_comm. apply Permutation_app_tail. apply (sg_vals _ _ _ G x); assumption. }
  exists s2. split; [apply (check_spec s2 x _ g)|split; [reflexivity|split; [reflexivity|]]].
  - apply Sm; [exact Bx|]. rewrite Nat.eqb_refl. reflexivity.
  - intros t E. apply (sg_tab _ _ _ G t x E Lx).
  - intros K. destruct (Ar x Lx) as (ps & P & ->). rewrite (Permutation_length (Vx K ps P)), map_length. reflexivity.
  - constructor; try apply G.
    + intros l. rewrite (sg_fun _ _ _ G l). destruct (Nat.eq_dec l x) as [->|N].
      * split; [intros _; exists g; apply Sm; [exact Bx|]; rewrite Nat.eqb_refl; reflexivity | intros _; exists fx; exact Fx].
      * split; intros (ys & K); exists ys; [apply Sm; [exact Bx|] | apply Sm in K; [|exact Bx]]; apply Nat.eqb_neq in N; rewrite N in *; assumption.
    + intros l ys ps Al K K0 P. apply Sm in K; [|exact Bx]. change (sOrig s2) with (sOrig s). destruct (Nat.eqb_spec l x) as [->|N]; [injection K as <-; apply Vx; assumption|].
      destruct (Ho l ps N Al P) as (qs & Q & Pq). rewrite Pq. apply (sg_vals _ _ _ G l); assumption.
Qed.

Lemma associate_spec st bx s x out pixM : readable st (sOrig s) -> boxInv st bx -> areas st -> statG (alive_ (lg st)) pixM s -> alive_ (lg st) x -> (forall a b, In (a, b) out -> within st a b) ->
  (forall ps, pixelsOf st x ps -> exists qs, pixM x qs /\ Permutation ps (qs ++ out)) -> (forall l ps, l <> x -> alive_ (lg st) l -> pixelsOf st l ps -> exists qs, pixM l qs /\ Permutation ps qs) ->
  exists s', associatePixels unit debug st bx s x out = Ok (bx, s') /\ sOrig s' = sOrig s /\ sMin s' = sMin s /\ statG (alive_ (lg st)) (pixelsOf st) s'.
Proof.
  intros Rd B Ar G Lx Hout Hx Ho. destruct (proj1 (sg_fun _ _ _ G x) Lx) as (fx & Fx). unfold associatePixels. rewrite (samples_functor _ _ _ Fx). cbn [bind].
  assert (E : match sTab s with Some t => vget t x | None => Ok 0%nat end = Ok (level s x)).
  { destruct (sTab s) as [t|] eqn:Et; [apply level_nth; auto; apply (sg_tab _ _ _ G t x Et Lx) | rewrite level_none by exact Et; reflexivity]. }
  rewrite E. cbn [bind]. destruct (Ar x Lx) as (px & Px & Ex).
  destruct (Nat.eqb_spec (level s x) 0) as [Z0|N]; cbn [negb andb].
  { destruct (feedAll_spec st s x out pixM) as (s' & -> & K); auto. cbn [bind]. exists s'. auto. }
  destruct (larea st x >=? Z.of_nat (sMin s)).
  2:{ destruct (feedAll_spec st s x out pixM) as (s' & -> & K); auto. cbn [bind]. exists s'. auto. }
  destruct (sTab s) as [t|] eqn:Et; [|exfalso; apply N, level_none, Et]. unfold table. rewrite Et. cbn [bind]. assert (Tx := sg_tab _ _ _ G t x Et Lx). rewrite vset_in by exact Tx. cbn [bind].
  pose proof (samples_len _ _ _ Fx) as Bx. rewrite vset_in by exact Bx. cbn [bind]. cbn zeta. set (t1 := list_upd t x 0%nat). set (s1 := setF (setT s (Some t1) (sCount s - 1)) (list_upd (sFun s) x (Some []))).
  assert (Nx : x <> 0%nat) by (intros ->; apply N, G).
  assert (Lv : forall g k, level (setF (setT s (Some t1) (sCount s - 1)) g) k = if Nat.eqb k x then 0%nat else level s k).
  { intros g k. unfold level. cbn [sTab setF setT]. rewrite Et. unfold t1. destruct (Nat.eqb_spec k x) as [->|Nk]; [apply nth_list_upd_eq; exact Tx | apply nth_list_upd_neq; congruence]. }
  assert (Res : forall g, Permutation g (map (val (sOrig s)) px) -> statG (alive_ (lg st)) (pixelsOf st) (setF (setT s (Some t1) (sCount s - 1)) (list_upd (sFun s) x (Some g)))).
  { intros g Pg. assert (Sm := samples_upd (setT s (Some t1) (sCount s - 1)) x (Some g)). cbn [sFun setT] in Sm. constructor.
    - intros l. rewrite (sg_fun _ _ _ G l). destruct (Nat.eq_dec l x) as [->|Nl].
      + split; [intros _; exists g; apply Sm; [exact Bx|]; rewrite Nat.eqb_refl; reflexivity | intros _; exists fx; exact Fx].
      + split; intros (ys & K); exists ys; [apply Sm; [exact Bx|] | apply Sm in K; [|exact Bx]]; apply Nat.eqb_neq in Nl; rewrite Nl in *; exact K.
    - intros l ys ps Al K K0 P. rewrite Lv in K0. apply Sm in K; [|exact Bx]. change (sOrig (setF (setT s (Some t1) (sCount s - 1)) (list_upd (sFun s) x (Some g)))) with (sOrig s). destruct (Nat.eqb_spec l x) as [->|Nl].
      + injection K as <-. rewrite Pg. apply Permutation_map. eapply pixelsOf_perm; eassumption.
      + destruct (Ho l ps Nl Al P) as (qs & Q & Pq). rewrite Pq. apply (sg_vals _ _ _ G l); assumption.
    - rewrite Lv. destruct (Nat.eqb_spec 0 x); [reflexivity | apply G].
    - intros tb l Q Al. cbn in Q. injection Q as <-. unfold t1. rewrite list_upd_length. apply (sg_tab _ _ _ G t l Et Al).
    - destruct (sg_cnt _ _ _ G) as (L & NL & HL & EL). exists (remove Nat.eq_dec x L). split; [apply remove_nodup, NL|]. split.
      + intros l. rewrite remove_iff, HL, Lv. destruct (Nat.eqb_spec l x) as [->|Nl]; [|tauto]. split; [tauto | intros [Q _]; congruence].
      + cbn [sCount setF setT]. rewrite EL, <- (remove_length x L NL); [lia|]. apply HL. auto. }
  destruct (Z.eqb_spec (larea st x) (Z.of_nat (length out))) as [Q|Q]; cbn [negb].
  - assert (Px' : Permutation px out).
    { destruct (Hx px Px) as (qs & _ & Pq). assert (qs = []) as ->; [|exact Pq]. rewrite Ex in Q. apply Nat2Z.inj in Q. apply Permutation_length in Pq. rewrite app_length in Pq. destruct qs; [reflexivity | cbn in Pq; lia]. }
    unfold feedAll. assert (F1 : samples s1 x []). { unfold samples, s1. cbn [sFun setF setT]. apply nth_error_upd_eq. exact Bx. }
    rewrite (samples_functor _ _ _ F1). cbn [bind]. destruct (feed_spec (sOrig s1) out []) as (g & -> & Pg); [intros a b K; apply (rd_in _ _ Rd), Hout, K|]. cbn [bind].
    rewrite vset_in by (unfold s1; cbn [sFun setF setT]; rewrite list_upd_length; exact Bx). cbn [bind].
    assert (Es : setF s1 (list_upd (sFun s1) x (Some g)) = setF (setT s (Some t1) (sCount s - 1)) (list_upd (sFun s) x (Some g))).
    { unfold s1, setF, setT. cbn [sFun sOrig sMin sTab sCount sMerged sMergedSS sL1 sL2]. rewrite list_upd_upd. reflexivity. }
    rewrite Es. rewrite app_nil_r in Pg. assert (Pg' : Permutation g (map (val (sOrig s)) px)) by (rewrite Px'; exact Pg).
    pose proof (Res g Pg') as G'. rewrite (check_spec _ x (larea st x) g).
    + cbn [bind]. eexists. split; [reflexivity|]. split; [reflexivity|]. split; [reflexivity | exact G'].
    + apply (samples_upd (setT s (Some t1) (sCount s - 1)) x (Some g)); [exact Bx|]. rewrite Nat.eqb_refl. reflexivity.
    + intros tb Et'. apply (sg_tab _ _ _ G' tb x Et' Lx).
    + intros _. rewrite Ex, (Permutation_length Pg'), map_length. reflexivity.
  - change (sOrig s1) with (sOrig s). destruct (rescan_spec st bx (sOrig s) x [] px Rd B Lx Nx Px) as (g & -> & Pg). cbn [bind fst snd]. rewrite app_nil_r in Pg.
    rewrite vset_in by (unfold s1; cbn [sFun setF setT]; rewrite list_upd_length; exact Bx). cbn [bind].
    assert (Es : setF s1 (list_upd (sFun s1) x (Some g)) = setF (setT s (Some t1) (sCount s - 1)) (list_upd (sFun s) x (Some g))).
    { unfold s1, setF, setT. cbn [sFun sOrig sMin sTab sCount sMerged sMergedSS sL1 sL2]. rewrite list_upd_upd. reflexivity. }
    rewrite Es. eexists. split; [reflexivity|]. split; [reflexivity|]. split; [reflexivity | apply Res, Pg].
Qed.

(** ** The constructor *)
Lemma init_spec st o (live := alive_ (lg st)) : readable st o -> forall ps fs, (forall x y, In (x, y) ps -> within st x y) -> (forall l, live l <-> exists xs, nth_error fs l = Some (Some xs)) ->
  exists fs', initFunctors st o ps fs = Ok fs' /\ length fs' = length fs /\ (forall l, live l <-> exists xs, nth_error fs' l = Some (Some xs)) /\
    forall l xs, nth_error fs l = Some (Some xs) -> exists ys qs, nth_error fs' l = Some (Some ys) /\ (NoDup ps -> NoDup qs) /\ (forall x y, In (x, y) qs <-> In (x, y) ps /\ labelAt st x y = Ok (Z.of_nat l)) /\ Permutation ys (map (val o) qs ++ xs).
Proof.
  intros Rd. induction ps as [|[x y] ps IH]; intros fs Hw Hf; cbn [initFunctors].
  - exists fs. split; [reflexivity|]. split; [reflexivity|]. split; [exact Hf|]. intros l xs H. exists xs, []. split; [exact H|]. split; [auto|]. split; [cbn; tauto | reflexivity].
  - assert (W : within st x y) by (apply Hw; left; reflexivity). assert (Hw' : forall a b, In (a, b) ps -> within st a b) by (intros; apply Hw; right; assumption).
    destruct (rd_lab _ _ Rd x y W) as (v & Ev & Lv). rewrite Ev. cbn [bind]. unfold oget. rewrite (proj1 (rd_in _ _ Rd x y) W). cbn [bind]. rewrite Z.geb_leb. destruct (Z.leb_spec 0 v) as [P|P].
    + specialize (Lv P). apply Hf in Lv. destruct Lv as (xs0 & E0). assert (E0' : vget fs (Z.to_nat v) = Ok (Some xs0)) by (apply vget_iff, E0). rewrite E0'. cbn [bind].
      assert (Bv : (Z.to_nat v < length fs)%nat) by (apply nth_error_Some; congruence). rewrite vset_in by exact Bv. cbn [bind]. set (fs1 := list_upd fs (Z.to_nat v) (Some (oval o x y :: xs0))).
      assert (N1 : forall l, nth_error fs1 l = if Nat.eqb l (Z.to_nat v) then Some (Some (oval o x y :: xs0)) else nth_error fs l).
      { intros l. unfold fs1. destruct (Nat.eqb_spec l (Z.to_nat v)) as [->|N]; [apply nth_error_upd_eq; exact Bv | apply nth_error_upd_neq; congruence]. }
      destruct (IH fs1 Hw') as (fs' & E & Len & Hl & Hx).
      { intros l. rewrite Hf, N1. destruct (Nat.eqb_spec l (Z.to_nat v)) as [->|N]; [|reflexivity]. split; [intros _; eexists; reflexivity | intros _; exists xs0; exact E0]. }
      exists fs'. split; [exact E|]. split; [rewrite Len; unfold fs1; apply list_upd_length|]. split; [exact Hl|]. intros l xs Hxs. specialize (N1 l). destruct (Nat.eqb_spec l (Z.to_nat v)) as [Q|Q].
      * destruct (Hx l _ N1) as (ys & qs & Y1 & Y2 & Y3 & Y4). assert (Qv : Z.of_nat l = v) by lia. assert (xs = xs0) by (rewrite Q in Hxs; congruence). subst xs0. exists ys, ((x, y) :: qs). split; [exact Y1|]. split; [|split].
        -- intros Hn. inversion Hn as [|? ? K1 K2]; subst. constructor; [|apply Y2; exact K2]. intros K. apply Y3 in K. tauto.
        -- intros a b. cbn [In]. rewrite Y3. split; [intros [K|K]; [injection K as <- <-; rewrite Qv; auto | tauto] | tauto].
        -- rewrite Y4. cbn [map app]. symmetry. apply (Permutation_middle (map (val o) qs) xs (val o (x, y))).
      * rewrite Hxs in N1. destruct (Hx l xs N1) as (ys & qs & Y1 & Y2 & Y3 & Y4). exists ys, qs. split; [exact Y1|]. split; [intros Hn; inversion Hn; auto|]. split; [|exact Y4].
        intros a b. rewrite Y3. cbn [In]. split; [tauto|]. intros [[K|K] L]; [injection K as <- <-; rewrite Ev in L; injection L as L; lia | auto].
    + destruct (IH fs Hw' Hf) as (fs' & E & Len & Hl & Hx). exists fs'. split; [exact E|]. split; [exact Len|]. split; [exact Hl|]. intros l xs Hxs. destruct (Hx l xs Hxs) as (ys & qs & Y1 & Y2 & Y3 & Y4).
      exists ys, qs. split; [exact Y1|]. split; [intros Hn; inversion Hn; auto|]. split; [|exact Y4].
      intros a b. rewrite Y3. cbn [In]. split; [tauto|]. intros [[K|K] L]; [injection K as <- <-; rewrite Ev in L; injection L as L; lia | auto].
Qed.

Lemma superSample_pos min (extra : nat -> list V) : forall n ss xs, fst (superSample n ss min extra xs) <> 0%nat.
Proof. induction n as [|n IH]; intros ss xs; cbn [superSample]; [discriminate|]. destruct (_ <? _)%nat; [apply IH | discriminate]. Qed.

Definition levelT (t : option (list nat)) (l : nat) : nat := match t with Some t => nth l t 0%nat | None => 0%nat end.

Lemma ensure_spec st bx min extra o (live := alive_ (lg st)) : boxInv st bx -> forall ls fs tab L,
  (forall l, In l ls -> live l /\ l <> 0%nat /\ levelT tab l = 0%nat) -> NoDup ls ->
  (forall l, live l <-> exists xs, nth_error fs l = Some (Some xs)) ->
  (forall l xs ps, nth_error fs l = Some (Some xs) -> levelT tab l = 0%nat -> pixelsOf st l ps -> Permutation xs (map (val o) ps)) ->
  levelT tab 0 = 0%nat -> (forall t, tab = Some t -> length t = length (faces (lg st))) -> NoDup L -> (forall l, In l L <-> levelT tab l <> 0%nat /\ live l) ->
  exists fs' tab' L', ensure (lg st) bx min extra ls fs tab (Z.of_nat (length L)) = Ok (bx, fs', tab', Z.of_nat (length L')) /\
    (forall l, live l <-> exists xs, nth_error fs' l = Some (Some xs)) /\
    (forall l xs ps, nth_error fs' l = Some (Some xs) -> levelT tab' l = 0%nat -> pixelsOf st l ps -> Permutation xs (map (val o) ps)) /\
    levelT tab' 0 = 0%nat /\ (forall t, tab' = Some t -> length t = length (faces (lg st))) /\ NoDup L' /\ (forall l, In l L' <-> levelT tab' l <> 0%nat /\ live l).
Proof.
  intros B. induction ls as [|l ls IH]; intros fs tab L Hls Nd Hf Hv Hz Ht NL HL; cbn [ensure].
  - exists fs, tab, L. split; [reflexivity|]. auto 10.
  - destruct (Hls l (or_introl eq_refl)) as (Al & Nl & Zl). inversion Nd as [|? ? Nin Nd']; subst. destruct (proj1 (Hf l) Al) as (xs & Ex). assert (Ex' : vget fs l = Ok (Some xs)) by (apply vget_iff, Ex). rewrite Ex'. cbn [bind].
    destruct (length xs <? min)%nat eqn:Em; [|apply IH; auto; intros k Hk; apply Hls; right; exact Hk].
    destruct (B l Al Nl) as (b & Eb & _). unfold getBox. unfold live, alive_ in Al. destruct (fAt (lg st) l) as [fc|] eqn:Ef; [|congruence]. rewrite (deref_face _ _ _ Ef). cbn [bind]. apply Nat.eqb_neq in Nl. rewrite Nl, Eb. cbn [bind fst]. apply Nat.eqb_neq in Nl.
    set (tb := match tab with Some tb => tb | None => repeat 0%nat (length (faces (lg st))) end). set (q := superSample 16 0 min (extra l) xs). assert (Bl : (l < length fs)%nat) by (apply nth_error_Some; congruence). rewrite vset_in by exact Bl. cbn [bind].
    assert (Lt : length tb = length (faces (lg st))) by (unfold tb; destruct tab as [t0|]; [apply Ht; reflexivity | apply repeat_length]).
    assert (Lf : (l < length (faces (lg st)))%nat) by (apply tget_lt in Ef; exact Ef). rewrite vset_in by lia. cbn [bind].
    assert (Lv : forall k, levelT (Some (list_upd tb l (fst q))) k = if Nat.eqb k l then fst q else levelT tab k).
    { intros k. cbn [levelT]. destruct (Nat.eqb_spec k l) as [->|Nk]; [apply nth_list_upd_eq; lia|]. rewrite nth_list_upd_neq by congruence. unfold tb, levelT. destruct tab; [reflexivity | apply nth_repeat]. }
    assert (Qp : fst q <> 0%nat) by apply superSample_pos.
    assert (Q : Z.of_nat (length L) + 1 = Z.of_nat (length (l :: L))) by (cbn [length]; lia). rewrite Q. apply IH.
    + intros k Hk. destruct (Hls k (or_intror Hk)) as (K1 & K2 & K3). split; [exact K1|]. split; [exact K2|]. rewrite Lv. destruct (Nat.eqb_spec k l); [congruence | exact K3].
    + exact Nd'.
    + intros k. destruct (Nat.eq_dec k l) as [->|Nk]; [rewrite nth_error_upd_eq by exact Bl; split; [intros _; eexists; reflexivity | intros _; apply Hf; exists xs; exact Ex]|]. rewrite nth_error_upd_neq by congruence. apply Hf.
    + intros k ys ps K K0 P. rewrite Lv in K0. destruct (Nat.eqb_spec k l) as [->|Nk]; [contradiction|]. rewrite nth_error_upd_neq in K by congruence. apply (Hv k); assumption.
    + rewrite Lv. destruct (Nat.eqb_spec 0 l); [congruence | exact Hz].
    + intros t E. injection E as <-. rewrite list_upd_length. exact Lt.
    + constructor; [|exact NL]. intros K. apply HL in K. tauto.
    + intros k. cbn [In]. rewrite HL, Lv. destruct (Nat.eqb_spec k l) as [->|Nk]; [|intuition congruence]. split; [intros _; split; [exact Qp | apply Hf; exists xs; exact Ex] | auto].
Qed.

(** the constructor supersamples the faces with too few pixels, and no others *)
Lemma ensure_levels m min (extra : nat -> nat -> list V) : forall ls bx fs tab n bx' fs' tab' n', ensure m bx min extra ls fs tab n = Ok (bx', fs', tab', n') -> NoDup ls ->
  forall l, levelT tab' l <> 0%nat <-> levelT tab l <> 0%nat \/ In l ls /\ exists xs, nth_error fs l = Some (Some xs) /\ (length xs < min)%nat.
Proof.
  induction ls as [|k ls IH]; intros bx fs tab n bx' fs' tab' n' E Nd l; cbn [ensure] in E.
  - injection E as _ _ <- _. cbn [In]. tauto.
  - inversion Nd as [|? ? Nin Nd']; subst. apply bind_Ok in E. destruct E as (p & Ep & E). apply vget_iff in Ep. destruct p as [xs|]; [|discriminate].
    destruct (Nat.ltb_spec (length xs) min) as [Lx|Lx].
    + apply bind_Ok in E. destruct E as (r & _ & E). cbv zeta in E. set (tb := match tab with Some tb => tb | None => repeat 0%nat (length (faces m)) end) in E. set (q := superSample 16 0 min (extra k) xs) in E.
      apply bind_Ok in E. destruct E as (fs1 & E1 & E). apply bind_Ok in E. destruct E as (tb1 & E2 & E). unfold vset in E1, E2. destruct (k <? length fs)%nat eqn:Q1; [|discriminate]. destruct (Nat.ltb_spec k (length tb)) as [Q2|]; [|discriminate]. injection E1 as <-. injection E2 as <-.
      assert (Lv : forall j, levelT (Some (list_upd tb k (fst q))) j = if Nat.eqb j k then fst q else levelT tab j).
      { intros j. cbn [levelT]. destruct (Nat.eqb_spec j k) as [->|Nk]; [apply nth_list_upd_eq; lia|]. rewrite nth_list_upd_neq by congruence. unfold tb, levelT. destruct tab; [reflexivity | apply nth_repeat]. }
      rewrite (IH _ _ _ _ _ _ _ _ E Nd' l), Lv. cbn [In]. destruct (Nat.eqb_spec l k) as [->|Nk].
      * split; [intros _; right; split; [auto | exists xs; auto] | intros _; left; apply superSample_pos].
      * rewrite nth_error_upd_neq by congruence. intuition congruence.
    + rewrite (IH _ _ _ _ _ _ _ _ E Nd' l). cbn [In]. split; [tauto|]. intros [K|[[->|K] K2]]; [auto | | auto]. destruct K2 as (ys & K1 & K2). assert (ys = xs) by congruence. subst. lia.
Qed.

Theorem newStats_spec st bx o min extra img : lim st = Some img -> readable st o -> boxInv st bx -> alive_ (lg st) 0 ->
  exists s, newStats st bx o min extra = Ok (bx, s) /\ sOrig s = o /\ sMin s = min /\ statG (alive_ (lg st)) (pixelsOf st) s /\
    forall l ps, alive_ (lg st) l -> l <> 0%nat -> pixelsOf st l ps -> (superSampled s l <-> (length ps < min)%nat).
Proof.
  intros Hi Rd B A0. unfold newStats. rewrite Hi. set (m := lg st). set (fs0 := map _ (faces m)).
  assert (F0 : forall l xs, nth_error fs0 l = Some (Some xs) <-> alive_ m l /\ xs = []).
  { intros l xs. unfold fs0, alive_, fAt, tget. rewrite nth_error_map. destruct (nth_error (faces m) l) as [[f|]|]; cbn [option_map]; split; try (intros H; discriminate H); try (intros [H _]; congruence).
    - intros H. injection H as <-. split; [discriminate | reflexivity].
    - intros [_ ->]. reflexivity. }
  destruct (init_spec st o Rd (allPx (iw img) (ih img)) fs0) as (fs1 & -> & Len & Hl & Hx).
  { intros x y K. apply allPx_in in K. exists img. tauto. }
  { intros l. split; [intros K; exists []; apply F0; auto | intros (xs & K); apply F0 in K; apply K]. }
  cbn [bind].
  assert (Hv : forall l xs ps, nth_error fs1 l = Some (Some xs) -> pixelsOf st l ps -> Permutation xs (map (val o) ps)).
  { intros l xs ps K P. assert (Al : alive_ m l) by (apply Hl; exists xs; exact K). destruct (Hx l [] (proj2 (F0 l []) (conj Al eq_refl))) as (ys & qs & Y1 & Y2 & Y3 & Y4). assert (ys = xs) by congruence. subst ys. rewrite Y4, app_nil_r. apply Permutation_map.
    apply (pixelsOf_perm st l); [|exact P]. split; [apply Y2, allPx_nodup|]. intros x y. rewrite Y3, allPx_in. unfold showsFace. split; [intros [K1 K2]; split; [exists img; tauto | exact K2] | intros [(i & Ei & K1) K2]; assert (i = img) by congruence; subst; tauto]. }
  destruct (Nat.eqb_spec min 0) as [M0|M0].
  - cbn [bind]. eexists. split; [reflexivity|]. split; [reflexivity|]. split; [reflexivity|]. split; [constructor; try reflexivity|].
    5: { intros l ps _ _ _. split; [intros K; destruct (K eq_refl) | lia]. }
    + exact Hl.
    + intros l xs ps _ K _ P. apply (Hv l); assumption.
    + discriminate.
    + exists []. split; [constructor|]. split; [|reflexivity]. intros l. split; [intros [] | intros [K _]; apply K; reflexivity].
  - destruct (ensure_spec st bx min extra o B (liveFrom 1 (faces m)) fs1 None []) as (fs2 & tab & L & E & G1 & G2 & G3 & G4 & G5 & G6); try reflexivity; try constructor.
    + apply liveFrom_in in H. apply H.
    + split; [|reflexivity]. apply liveFrom_in in H. lia.
    + apply NoDup_filter, seq_NoDup.
    + exact (proj1 (Hl l)).
    + exact (proj2 (Hl l)).
    + intros l xs ps K _ P. apply (Hv l); assumption.
    + discriminate.
    + intros [].
    + intros [K _]. exfalso. apply K. reflexivity.
    + change (Z.of_nat (length (@nil nat))) with 0 in E. fold m in E. rewrite E. cbn [bind]. eexists. split; [reflexivity|]. split; [reflexivity|]. split; [reflexivity|]. split; [constructor|].
      6: { intros l ps Al Nl P. change (levelT tab l <> 0%nat <-> (length ps < min)%nat). rewrite (ensure_levels m min extra _ _ _ _ _ _ _ _ _ E (NoDup_filter _ (seq_NoDup _ _)) l). cbn [levelT].
           destruct (proj1 (Hl l) Al) as (xs & Kx). pose proof (Permutation_length (Hv l xs ps Kx P)) as Pl. rewrite map_length in Pl. split.
           - intros [K|(_ & ys & K1 & K2)]; [congruence|]. assert (ys = xs) by congruence. subst ys. lia.
           - intros K. right. split; [apply liveFrom_in; split; [lia | exact Al] | exists xs; split; [exact Kx | lia]]. }
      * exact G1.
      * intros l xs ps _ K K0 P. apply (G2 l); assumption.
      * exact G3.
      * intros t l Et Al. rewrite (G4 t Et). unfold alive_ in Al. destruct (fAt (lg st) l) eqn:Ef; [apply tget_lt in Ef; exact Ef | contradiction].
      * exists L. split; [exact G5|]. split; [exact G6 | reflexivity].
Qed.
End Stats.
