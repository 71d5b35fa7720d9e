From Coq Require Import QArith Sorted.
From Verif Require Import Base Filter_Spec Scanlines_Model Scanlines_Spec Scanlines_Proofs LabelLUT_Model LabelImage_Model.
Local Open Scope Z_scope.

Definition covB (l : list seg) (x : Z) : bool := existsb (fun g => (sbeg g <=? x) && (x <? send g)) l.
Lemma covB_iff l x : covB l x = true <-> covered l x.
Proof.
  unfold covB. rewrite existsb_exists. split; intros (g & H & K); exists g; (split; [exact H|]); unfold covers in *.
  - apply andb_true_iff in K. destruct K as [K1 K2]. apply Z.leb_le in K1. apply Z.ltb_lt in K2. lia.
  - apply andb_true_iff. split; [apply Z.leb_le | apply Z.ltb_lt]; lia.
Qed.

Lemma insideB_iff img x y : insideB img x y = true <-> 0 <= x < iw img /\ 0 <= y < ih img.
Proof.
  unfold insideB. rewrite !andb_true_iff, !Z.leb_le, !Z.ltb_lt. lia.
Qed.

(** ** the loops as one loop over a list of pixels *)
Fixpoint walkPx (body : Z -> Z * bool) (img : image) (ps : list (Z * Z)) : res (image * list (Z * Z)) :=
  match ps with
  | [] => Ok (img, [])
  | (x, y) :: t =>
      v <- pixGet img x y ;;
      img <- pixPut img x y (fst (body v)) ;;
      r <- walkPx body img t ;;
      Ok (fst r, if snd (body v) then (x, y) :: snd r else snd r)
  end.

Lemma walkPx_app body : forall a img b, walkPx body img (a ++ b) =
  (r1 <- walkPx body img a ;; r2 <- walkPx body (fst r1) b ;; Ok (fst r2, snd r1 ++ snd r2)).
Proof.
  induction a as [|[x y] a IH]; intros img b; cbn [app walkPx].
  - cbn [bind fst snd]. destruct (walkPx body img b) as [[? ?]| | |]; reflexivity.
  - destruct (pixGet img x y) as [v| | |]; cbn [bind]; try reflexivity. destruct (pixPut img x y (fst (body v))) as [im| | |]; cbn [bind]; try reflexivity.
    rewrite IH. destruct (walkPx body im a) as [[i1 p1]| | |]; cbn [bind fst snd]; try reflexivity.
    destruct (walkPx body i1 b) as [[i2 p2]| | |]; cbn [bind fst snd]; try reflexivity. destruct (snd (body v)); reflexivity.
Qed.

Definition rowPx (y : Z) (l : list Z) : list (Z * Z) := map (fun x => (x, y)) l.

Lemma walkRun_px body y : forall n img x, walkRun n body img x y = walkPx body img (rowPx y (map (fun k => x + Z.of_nat k) (seq 0 n))).
Proof.
  induction n as [|n IH]; intros img x; [reflexivity|]. cbn [walkRun seq map rowPx walkPx]. rewrite Z.add_0_r.
  destruct (pixGet img x y) as [v| | |]; cbn [bind]; try reflexivity. destruct (pixPut img x y (fst (body v))) as [im| | |]; cbn [bind]; try reflexivity.
  rewrite IH. rewrite <- seq_shift, map_map. unfold rowPx. rewrite !map_map.
  replace (map (fun x0 : nat => (x + Z.of_nat (S x0), y)) (seq 0 n)) with (map (fun x0 : nat => (x + 1 + Z.of_nat x0, y)) (seq 0 n)); [reflexivity|].
  apply map_ext. intros k. f_equal. lia.
Qed.

Lemma pixPut_size img x y v img' : pixPut img x y v = Ok img' -> iw img' = iw img /\ ih img' = ih img.
Proof. unfold pixPut. destruct (insideB img x y); [intros E; injection E as <-; auto | discriminate]. Qed.

(** the effect of visiting the pixels of a list without repetitions *)
Lemma walkPx_spec body : forall ps img, NoDup ps -> (forall x y, In (x, y) ps -> insideB img x y = true) ->
  exists img' out, walkPx body img ps = Ok (img', out) /\ iw img' = iw img /\ ih img' = ih img /\
    (forall x y, In (x, y) ps -> ipx img' x y = fst (body (ipx img x y))) /\
    (forall x y, ~ In (x, y) ps -> ipx img' x y = ipx img x y) /\
    NoDup out /\ (forall x y, In (x, y) out <-> In (x, y) ps /\ snd (body (ipx img x y)) = true).
Proof.
  induction ps as [|[a b] ps IH]; intros img ND Hin; cbn [walkPx].
  - exists img, []. split; [reflexivity|]. split; [reflexivity|]. split; [reflexivity|]. split; [intros x y []|]. split; [reflexivity|]. split; [constructor|].
    intros x y. split; [intros [] | intros [[] _]].
  - inversion ND as [|? ? Hn ND']; subst. pose proof (Hin a b (or_introl eq_refl)) as Hab. unfold pixGet. rewrite Hab. cbn [bind].
    unfold pixPut. rewrite Hab. cbn [bind]. set (im := mkImg _ _ _).
    destruct (IH im ND') as (img' & out & E & W & H & K1 & K2 & NO & KO).
    { intros x y Hxy. apply (Hin x y). right. exact Hxy. }
    rewrite E. cbn [bind fst snd]. exists img', (if snd (body (ipx img a b)) then (a, b) :: out else out). split; [reflexivity|].
    split; [exact W|]. split; [exact H|].
    assert (P : forall x y, (x, y) <> (a, b) -> ipx im x y = ipx img x y).
    { intros x y N. cbn [im ipx]. destruct (Z.eqb_spec x a), (Z.eqb_spec y b); cbn [andb]; try reflexivity. subst. congruence. }
    assert (P0 : ipx im a b = fst (body (ipx img a b))) by (cbn [im ipx]; rewrite !Z.eqb_refl; reflexivity).
    split; [|split; [|split]].
    + intros x y [Q|Q]; [injection Q as <- <-; rewrite (K2 a b Hn); exact P0|]. rewrite (K1 x y Q), P; [reflexivity|]. intros C. rewrite C in Q. contradiction.
    + intros x y Q. rewrite (K2 x y), P; [reflexivity | intros C; apply Q; left; auto | intros C; apply Q; right; exact C].
    + destruct (snd (body (ipx img a b))); [constructor; [|exact NO] | exact NO]. intros C. apply KO in C. apply Hn, C.
    + intros x y. destruct (snd (body (ipx img a b))) eqn:B; cbn [In]; rewrite KO.
      * split.
        -- intros [Q|[Q R]]; [injection Q as <- <-; auto|]. rewrite P in R; [auto|]. intros C. rewrite C in Q. contradiction.
        -- intros [[Q|Q] R]; [auto|]. right. split; [exact Q|]. rewrite P; [exact R|]. intros C. rewrite C in Q. contradiction.
      * split.
        -- intros [Q R]. rewrite P in R; [auto|]. intros C. rewrite C in Q. contradiction.
        -- intros [[Q|Q] R]; [injection Q as <- <-; congruence|]. split; [exact Q|]. rewrite P; [exact R|]. intros C. rewrite C in Q. contradiction.
Qed.

Lemma walkPx_size body : forall ps img r, walkPx body img ps = Ok r -> iw (fst r) = iw img /\ ih (fst r) = ih img.
Proof.
  induction ps as [|[x y] ps IH]; intros img r; cbn [walkPx].
  - intros E. injection E as <-. auto.
  - intros E. apply bind_Ok in E. destruct E as (v & _ & E). apply bind_Ok in E. destruct E as (im & E1 & E). apply bind_Ok in E. destruct E as (r1 & E2 & E).
    injection E as <-. cbn [fst]. destruct (IH _ _ E2) as [-> ->]. apply pixPut_size in E1. exact E1.
Qed.

Lemma upTo_run b e : upTo b e = map (fun k => b + Z.of_nat k) (seq 0 (Z.to_nat (e - b))).
Proof. reflexivity. Qed.

Lemma walkSegs_px body y : forall l img px, drawRow (iw img) l = Ok px -> walkSegs body img y l = walkPx body img (rowPx y px).
Proof.
  induction l as [|g t IH]; intros img px; cbn [drawRow walkSegs].
  - intros E. injection E as <-. reflexivity.
  - set (b := if sbeg g <? 0 then 0 else sbeg g). set (e := if send g >? iw img then iw img else send g). intros E.
    apply bind_Ok in E. destruct E as (p1 & E1 & E). apply bind_Ok in E. destruct E as (p2 & E2 & E). injection E as <-.
    assert (Q : p1 = upTo b e).
    { rewrite setRun_spec in E1; [injection E1; auto | lia | unfold b; destruct (Z.ltb_spec (sbeg g) 0); lia |].
      unfold e. destruct (send g >? iw img) eqn:C; [lia|]. rewrite Z.gtb_ltb in C. apply Z.ltb_ge in C. lia. }
    unfold rowPx. rewrite map_app, walkPx_app. rewrite walkRun_px, <- upTo_run, <- Q. fold (rowPx y p1).
    destruct (walkPx body img (rowPx y p1)) as [[i1 o1]| | |] eqn:E0; cbn [bind fst snd]; try reflexivity.
    destruct (walkPx_size _ _ _ _ E0) as [W _]. cbn [fst] in W. rewrite <- W in E2. rewrite (IH i1 p2 E2). reflexivity.
Qed.

Lemma walkRows_px body s : forall n img y px, drawRows n s (iw img) y (y + Z.of_nat n) = Ok px ->
  walkRows n body s img y = walkPx body img px.
Proof.
  induction n as [|n IH]; intros img y px; cbn [drawRows walkRows].
  - destruct (Z.ltb_spec y (y + Z.of_nat 0)); [lia|]. intros E. injection E as <-. reflexivity.
  - destruct (Z.ltb_spec y (y + Z.of_nat (S n))); [|lia]. intros E. apply bind_Ok in E. destruct E as (l & -> & E). apply bind_Ok in E. destruct E as (r & E1 & E).
    apply bind_Ok in E. destruct E as (t & E2 & E). injection E as <-. cbn [bind]. rewrite (walkSegs_px body y l img r E1). fold (rowPx y r). rewrite walkPx_app.
    destruct (walkPx body img (rowPx y r)) as [[i1 o1]| | |] eqn:E0; cbn [bind fst snd]; try reflexivity.
    destruct (walkPx_size _ _ _ _ E0) as [W _]. cbn [fst] in W. rewrite <- W in E2. rewrite (IH i1 (y + 1) t); [reflexivity|]. rewrite <- E2. f_equal. lia.
Qed.

(** scanlines with disjoint segments *)
Definition tidy (s : scanlines) : Prop := forall y, spaced (lineOf s y) /\ proper (lineOf s y).

(** every covered pixel inside the image is visited exactly once, no other pixel is touched *)
Theorem walkEdge_spec body s img : tidy s ->
  exists img' out, walkEdge body s img = Ok (img', out) /\ iw img' = iw img /\ ih img' = ih img /\
    (forall x y, ipx img' x y = if insideB img x y && covB (lineOf s y) x then fst (body (ipx img x y)) else ipx img x y) /\
    NoDup out /\ (forall x y, In (x, y) out <-> insideB img x y = true /\ covered (lineOf s y) x /\ snd (body (ipx img x y)) = true).
Proof.
  intros T. unfold walkEdge. set (y0 := Z.max 0 (sl_start s)). set (y1 := Z.min (ih img) (endIndex s)).
  destruct (Z_lt_ge_dec y0 y1) as [L|L].
  2: { replace (Z.to_nat (y1 - y0)) with 0%nat by lia. cbn [walkRows]. exists img, []. split; [reflexivity|]. split; [reflexivity|]. split; [reflexivity|].
    assert (N : forall x y, insideB img x y = true -> ~ covered (lineOf s y) x).
    { intros x y I C. apply insideB_iff in I. rewrite lineOf_out in C; [destruct (covered_nil _ C)|]. lia. }
    split; [|split; [constructor|]].
    - intros x y. destruct (insideB img x y) eqn:I; [|reflexivity]. destruct (covB (lineOf s y) x) eqn:C; [|reflexivity]. apply covB_iff in C. destruct (N x y I C).
    - intros x y. split; [intros [] | intros (I & C & _); destruct (N x y I C)]. }
  destruct (drawRows_spec (iw img) s (fun y => proj1 (T y)) (fun y => proj2 (T y)) (Z.to_nat (y1 - y0)) y0 y1) as (px & E & ND & Hin); [lia..|].
  assert (E' : drawRows (Z.to_nat (y1 - y0)) s (iw img) y0 (y0 + Z.of_nat (Z.to_nat (y1 - y0))) = Ok px) by (rewrite <- E; f_equal; lia).
  rewrite (walkRows_px body s _ img y0 px E').
  assert (IN : forall x y, In (x, y) px <-> insideB img x y = true /\ covered (lineOf s y) x).
  { intros x y. rewrite Hin, insideB_iff. split; [intros [[A B] C]; split; [lia | exact C]|]. intros [[A B] C]. split; [|exact C]. split; [lia|].
    destruct (Z_lt_ge_dec y (sl_start s)); [rewrite lineOf_out in C by lia; destruct (covered_nil _ C)|].
    destruct (Z_lt_ge_dec y (endIndex s)); [lia|]. rewrite lineOf_out in C by lia. destruct (covered_nil _ C). }
  destruct (walkPx_spec body px img ND) as (img' & out & Ew & W & H & K1 & K2 & NO & KO).
  { intros x y Q. apply IN in Q. apply Q. }
  exists img', out. split; [exact Ew|]. split; [exact W|]. split; [exact H|]. split; [|split; [exact NO|]].
  - intros x y. destruct (insideB img x y) eqn:I; cbn [andb]; [|apply K2; intros C; apply IN in C; destruct C; congruence].
    destruct (covB (lineOf s y) x) eqn:C.
    + apply K1, IN. split; [exact I | apply covB_iff, C].
    + apply K2. intros Q. apply IN in Q. destruct Q as [_ Q]. apply covB_iff in Q. congruence.
  - intros x y. rewrite KO, IN. tauto.
Qed.
