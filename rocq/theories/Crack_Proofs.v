(** Proofs about the crack connection image. *)
From Coq Require Import ZArith List Bool Lia.
From Verif Require Import Base Image_Model Image_Proofs Crack_Model Crack_Spec.
Local Open Scope Z_scope.

(** ** crackConnectionImage *)
Definition ccIdeal (src : image) (x y : Z) : Z :=
  (if crackEast src x y then 1 else 0) + (if crackSouth src x y then 2 else 0).

Lemma labelAt_in : forall src x y, 0 <= x < iw src -> 0 <= y < ih src -> labelAt src x y = Some (ipx src x y).
Proof.
  intros; unfold labelAt.
  destruct (Z.leb_spec 0 x), (Z.ltb_spec x (iw src)), (Z.leb_spec 0 y), (Z.ltb_spec y (ih src)); try lia; reflexivity.
Qed.
Lemma labelAt_out : forall src x y, ~ (0 <= x < iw src /\ 0 <= y < ih src) -> labelAt src x y = None.
Proof.
  intros; unfold labelAt.
  destruct (Z.leb_spec 0 x), (Z.ltb_spec x (iw src)), (Z.leb_spec 0 y), (Z.ltb_spec y (ih src)); try lia; reflexivity.
Qed.

(** rows above [y] and the first [x] corners of row [y] are done *)
Definition ccDone (src dest : image) (x y : Z) (s : image) : Prop :=
  iw s = iw dest /\ ih s = ih dest /\
  forall a b, ipx s a b =
    if (0 <=? a) && (a <=? iw src) && (0 <=? b) && ((b <? y) || ((b =? y) && (a <? x)))
    then ccIdeal src a b else ipx dest a b.

Lemma ccDone_put : forall src dest x y s v,
  0 <= x <= iw src -> 0 <= y -> 0 <= x < iw dest -> 0 <= y < ih dest ->
  ccDone src dest x y s -> v = ccIdeal src x y ->
  putPx s x y v = Ok (setPx s x y v) /\ ccDone src dest (x + 1) y (setPx s x y v).
Proof.
  intros src dest x y s v Hx Hy Hx2 Hy2 (W & H & P) Hv. split.
  - apply putPx_Ok; lia.
  - split; [exact W|split; [exact H|]]. intros a b. rewrite ipx_setPx, P.
    destruct (Z.eqb_spec a x), (Z.eqb_spec b y), (Z.leb_spec 0 a), (Z.leb_spec a (iw src)), (Z.leb_spec 0 b),
      (Z.ltb_spec b y), (Z.ltb_spec a x), (Z.ltb_spec a (x + 1)); cbn [andb orb]; subst; try reflexivity; lia.
Qed.

Lemma ccDone_newRow : forall src dest y s,
  ccDone src dest (iw src + 1) y s -> ccDone src dest 0 (y + 1) s.
Proof.
  intros src dest y s (W & H & P). split; [exact W|split; [exact H|]]. intros a b. rewrite P.
  destruct (Z.leb_spec 0 a), (Z.leb_spec a (iw src)), (Z.leb_spec 0 b), (Z.ltb_spec b y), (Z.eqb_spec b y),
      (Z.ltb_spec a (iw src + 1)), (Z.ltb_spec b (y + 1)), (Z.eqb_spec b (y + 1)), (Z.ltb_spec a 0);
    cbn [andb orb]; subst; try reflexivity; lia.
Qed.

Ltac lab := repeat first [ rewrite labelAt_in by lia | rewrite labelAt_out by lia ]; cbn [differ].

Section CC.
Variables src dest : image.
Hypothesis Hw : 1 <= iw src.
Hypothesis Hh : 1 <= ih src.
Hypothesis Dw : iw dest = iw src + 1.
Hypothesis Dh : ih dest = ih src + 1.

Lemma ccFirstRow_ok : exists s, ccFirstRow src dest = Ok s /\ ccDone src dest 0 1 s.
Proof.
  unfold ccFirstRow.
  assert (D0 : ccDone src dest 0 0 dest).
  { split; [reflexivity|split; [reflexivity|]]. intros a b.
    destruct (Z.leb_spec 0 a), (Z.leb_spec a (iw src)), (Z.leb_spec 0 b), (Z.ltb_spec b 0), (Z.eqb_spec b 0), (Z.ltb_spec a 0);
      cbn [andb orb]; try reflexivity; lia. }
  destruct (ccDone_put src dest 0 0 dest (Z.lor CONN_RIGHT CONN_DOWN)) as [E1 D1]; try lia; [exact D0| |].
  { unfold ccIdeal, crackEast, crackSouth. lab. reflexivity. }
  rewrite E1; cbn [bind]. set (s1 := setPx _ _ _ _) in *.
  destruct (forZ_inv image (fun x s => ccDone src dest x 0 s) (fun x dest =>
            l <- getPx src (x - 1) 0 ;;
            s <- getPx src x 0 ;;
            putPx dest x 0 (if l =? s then CONN_RIGHT else Z.lor CONN_RIGHT CONN_DOWN)) 1 (iw src) s1) as (s2 & E2 & D2);
    [lia|exact D1| |].
  { intros x s Hx D. rewrite !getPx_Ok by lia; cbn [bind].
    destruct (ccDone_put src dest x 0 s
      (if ipx src (x - 1) 0 =? ipx src x 0 then CONN_RIGHT else Z.lor CONN_RIGHT CONN_DOWN)) as [E D']; try lia; [exact D| |].
    { unfold ccIdeal, crackEast, crackSouth. lab. destruct (_ =? _); reflexivity. }
    eexists; split; [exact E|exact D']. }
  rewrite E2; cbn [bind].
  destruct (ccDone_put src dest (iw src) 0 s2 CONN_DOWN) as [E3 D3]; try lia; [exact D2| |].
  { unfold ccIdeal, crackEast, crackSouth. lab. reflexivity. }
  eexists; split; [exact E3|]. apply (ccDone_newRow src dest 0), D3.
Qed.

Lemma ccMiddleRow_ok : forall y s, 1 <= y < ih src -> ccDone src dest 0 y s ->
  exists s', ccMiddleRow src y s = Ok s' /\ ccDone src dest 0 (y + 1) s'.
Proof.
  intros y s Hy D0. unfold ccMiddleRow. rewrite !getPx_Ok by lia; cbn [bind].
  destruct (ccDone_put src dest 0 y s
    (if ipx src 0 (y - 1) =? ipx src 0 y then CONN_DOWN else Z.lor CONN_DOWN CONN_RIGHT)) as [E1 D1]; try lia; [exact D0| |].
  { unfold ccIdeal, crackEast, crackSouth. lab. destruct (_ =? _); reflexivity. }
  rewrite E1; cbn [bind]. set (s1 := setPx _ _ _ _) in *.
  destruct (forZ_inv image (fun x s => ccDone src dest x y s) (fun x dest =>
            u <- getPx src x (y - 1) ;;
            s <- getPx src x y ;;
            l <- getPx src (x - 1) y ;;
            putPx dest x y (if l =? s then (if u =? s then 0 else CONN_RIGHT)
                            else Z.lor (if u =? s then 0 else CONN_RIGHT) CONN_DOWN)) 1 (iw src) s1) as (s2 & E2 & D2);
    [lia|exact D1| |].
  { intros x t Hx D. rewrite !getPx_Ok by lia; cbn [bind].
    set (v := if ipx src (x - 1) y =? ipx src x y then _ else _).
    destruct (ccDone_put src dest x y t v) as [E D']; try lia; [exact D| |].
    { unfold v, ccIdeal, crackEast, crackSouth. lab. repeat match goal with |- context[?a =? ?b] => destruct (a =? b) end; reflexivity. }
    eexists; split; [exact E|exact D']. }
  rewrite E2; cbn [bind].
  destruct (ccDone_put src dest (iw src) y s2 CONN_DOWN) as [E3 D3]; try lia; [exact D2| |].
  { unfold ccIdeal, crackEast, crackSouth. lab. reflexivity. }
  eexists; split; [exact E3|]. apply (ccDone_newRow src dest y), D3.
Qed.

Lemma crackConnectionImage_done :
  exists s, crackConnectionImage src dest = Ok s /\ ccDone src dest (iw src) (ih src) s.
Proof.
  unfold crackConnectionImage.
  destruct (Z.ltb_spec (iw src) 1); [lia|]. destruct (Z.ltb_spec (ih src) 1); [lia|]. cbn [orb].
  destruct ccFirstRow_ok as (s1 & E1 & D1). rewrite E1; cbn [bind].
  destruct (forZ_inv image (fun y s => ccDone src dest 0 y s) (fun y dest => ccMiddleRow src y dest) 1 (ih src) s1)
    as (s2 & E2 & D2); [lia|exact D1| |].
  { intros y s Hy D. apply ccMiddleRow_ok; auto. }
  rewrite E2; cbn [bind].
  destruct (forZ_inv image (fun x s => ccDone src dest x (ih src) s) (fun x dest => putPx dest x (ih src) CONN_RIGHT)
    0 (iw src) s2) as (s3 & E3 & D3); [lia|exact D2| |].
  { intros x s Hx D. destruct (ccDone_put src dest x (ih src) s CONN_RIGHT) as [E D']; try lia; [exact D| |].
    { unfold ccIdeal, crackEast, crackSouth. lab. reflexivity. }
    eexists; split; [exact E|exact D']. }
  exists s3; split; [exact E3|exact D3].
Qed.

(** The right bit, the down bit, and nothing else; the lower right corner keeps what it had. *)
Lemma crackConnectionImage_spec :
  exists im, crackConnectionImage src dest = Ok im /\ iw im = iw src + 1 /\ ih im = ih src + 1 /\
    (forall x y, isCorner src x y -> ~ (x = iw src /\ y = ih src) ->
       ipx im x y = (if crackEast src x y then 1 else 0) + (if crackSouth src x y then 2 else 0)) /\
    ipx im (iw src) (ih src) = ipx dest (iw src) (ih src).
Proof.
  destruct crackConnectionImage_done as (s & E & W & H & P).
  exists s; split; [exact E|]. split; [lia|split; [lia|]]. split.
  - intros x y [Hx Hy] Hn. rewrite P.
    destruct (Z.leb_spec 0 x), (Z.leb_spec x (iw src)), (Z.leb_spec 0 y), (Z.ltb_spec y (ih src)), (Z.eqb_spec y (ih src)),
      (Z.ltb_spec x (iw src)); cbn [andb orb]; try reflexivity; lia.
  - rewrite P. destruct (Z.ltb_spec (ih src) (ih src)); [lia|]. destruct (Z.ltb_spec (iw src) (iw src)); [lia|].
    rewrite andb_false_r. cbn [orb]. rewrite andb_false_r. reflexivity.
Qed.
End CC.

(** ** makeCCSymmetric *)
Definition symIdeal (im : image) (x y : Z) : Z :=
  Z.lor (Z.lor (ipx im x y) (if (1 <=? x) && hasBit (ipx im (x - 1) y) CONN_RIGHT then CONN_LEFT else 0))
        (if (1 <=? y) && hasBit (ipx im x (y - 1)) CONN_DOWN then CONN_UP else 0).

(** source corners before (x,y) in row order have been handled *)
Definition before (x y a b : Z) : bool := (b <? y) || ((b =? y) && (a <? x)).
Definition symDone (im : image) (x y : Z) (s : image) : Prop :=
  iw s = iw im /\ ih s = ih im /\
  forall a b, 0 <= a < iw im -> 0 <= b < ih im -> ipx s a b =
    Z.lor (Z.lor (ipx im a b)
             (if (1 <=? a) && hasBit (ipx im (a - 1) b) CONN_RIGHT && before x y (a - 1) b then CONN_LEFT else 0))
          (if (1 <=? b) && hasBit (ipx im a (b - 1)) CONN_DOWN && before x y a (b - 1) then CONN_UP else 0).
Lemma hasBit_lor : forall a b f, hasBit (Z.lor a b) f = hasBit a f || hasBit b f.
Proof.
  intros; unfold hasBit. rewrite Z.land_lor_distr_l.
  destruct (Z.eqb_spec (Z.land a f) 0) as [Ea|Ea]; [rewrite Ea, Z.lor_0_l; reflexivity|].
  cbn [negb orb]. destruct (Z.eqb_spec (Z.lor (Z.land a f) (Z.land b f)) 0) as [E|E]; [|reflexivity].
  apply Z.lor_eq_0_iff in E; destruct E as [E _]; contradiction.
Qed.

Lemma symDone_start : forall im, symDone im 0 0 im.
Proof.
  intros im; split; [reflexivity|split; [reflexivity|]]. intros a b Ha Hb. unfold before.
  destruct (Z.ltb_spec b 0); [lia|]. destruct (Z.ltb_spec (b - 1) 0), (Z.leb_spec 1 b), (Z.eqb_spec b 0), (Z.eqb_spec (b - 1) 0), (Z.ltb_spec a 0), (Z.ltb_spec (a - 1) 0), (Z.leb_spec 1 a);
    cbn [andb orb]; rewrite ?andb_false_r; cbn [andb orb]; rewrite ?Z.lor_0_r; try reflexivity; lia.
Qed.

(** reading the right and down bits of any corner still gives the old values *)
Lemma symDone_bits : forall im x y s a b, symDone im x y s -> 0 <= a < iw im -> 0 <= b < ih im ->
  hasBit (ipx s a b) CONN_RIGHT = hasBit (ipx im a b) CONN_RIGHT /\
  hasBit (ipx s a b) CONN_DOWN = hasBit (ipx im a b) CONN_DOWN.
Proof.
  intros im x y s a b (W & H & P) Ha Hb. rewrite P by assumption. rewrite !hasBit_lor.
  split; destruct (_ && before x y (a - 1) b), (_ && before x y a (b - 1)); cbn; rewrite ?orb_false_r; reflexivity.
Qed.

Lemma before_step : forall x y a b, before (x + 1) y a b = before x y a b || ((a =? x) && (b =? y)).
Proof.
  intros; unfold before.
  destruct (Z.ltb_spec b y), (Z.eqb_spec b y), (Z.ltb_spec a x), (Z.ltb_spec a (x + 1)), (Z.eqb_spec a x); cbn [andb orb]; try reflexivity; lia.
Qed.
Lemma before_newRow : forall w y a b, a < w -> 0 <= a -> before 0 (y + 1) a b = before w y a b.
Proof.
  intros; unfold before.
  destruct (Z.ltb_spec b y), (Z.eqb_spec b y), (Z.ltb_spec b (y + 1)), (Z.eqb_spec b (y + 1)), (Z.ltb_spec a 0), (Z.ltb_spec a w); cbn [andb orb]; try reflexivity; lia.
Qed.

Lemma symDone_step : forall im x y s s',
  symDone im x y s -> iw s' = iw im -> ih s' = ih im ->
  (forall a b, 0 <= a < iw im -> 0 <= b < ih im -> ipx s' a b =
     Z.lor (Z.lor (ipx s a b) (if (a - 1 =? x) && (b =? y) && hasBit (ipx im x y) CONN_RIGHT then CONN_LEFT else 0))
           (if (a =? x) && (b - 1 =? y) && hasBit (ipx im x y) CONN_DOWN then CONN_UP else 0)) ->
  0 <= x -> 0 <= y -> symDone im (x + 1) y s'.
Proof.
  intros im x y s s' (W & H & P) W' H' P' Hx Hy. split; [exact W'|split; [exact H'|]].
  intros a b Ha Hb. rewrite P', P by assumption. rewrite !before_step.
  set (p := ipx im a b).
  assert (EL : forall q, (if (1 <=? a) && q && (before x y (a - 1) b || (a - 1 =? x) && (b =? y)) then CONN_LEFT else 0)
    = Z.lor (if (1 <=? a) && q && before x y (a - 1) b then CONN_LEFT else 0)
            (if (a - 1 =? x) && (b =? y) && q then CONN_LEFT else 0)).
  { intros q. destruct (Z.leb_spec 1 a), q, (before x y (a - 1) b), (Z.eqb_spec (a - 1) x), (Z.eqb_spec b y); cbn [andb orb]; try reflexivity; lia. }
  assert (EU : forall q, (if (1 <=? b) && q && (before x y a (b - 1) || (a =? x) && (b - 1 =? y)) then CONN_UP else 0)
    = Z.lor (if (1 <=? b) && q && before x y a (b - 1) then CONN_UP else 0)
            (if (a =? x) && (b - 1 =? y) && q then CONN_UP else 0)).
  { intros q. destruct (Z.leb_spec 1 b), q, (before x y a (b - 1)), (Z.eqb_spec a x), (Z.eqb_spec (b - 1) y); cbn [andb orb]; try reflexivity; lia. }
  rewrite EL, EU.
  assert (R1 : (if (a - 1 =? x) && (b =? y) && hasBit (ipx im x y) CONN_RIGHT then CONN_LEFT else 0) =
               (if (a - 1 =? x) && (b =? y) && hasBit (ipx im (a - 1) b) CONN_RIGHT then CONN_LEFT else 0)).
  { destruct (Z.eqb_spec (a - 1) x) as [<-|], (Z.eqb_spec b y) as [<-|]; reflexivity. }
  assert (R2 : (if (a =? x) && (b - 1 =? y) && hasBit (ipx im x y) CONN_DOWN then CONN_UP else 0) =
               (if (a =? x) && (b - 1 =? y) && hasBit (ipx im a (b - 1)) CONN_DOWN then CONN_UP else 0)).
  { destruct (Z.eqb_spec a x) as [<-|], (Z.eqb_spec (b - 1) y) as [<-|]; reflexivity. }
  rewrite R1, R2.
  rewrite <- !Z.lor_assoc. f_equal. f_equal.
  rewrite !Z.lor_assoc. f_equal. apply Z.lor_comm.
Qed.

Lemma orPx_Ok : forall im x y f, 0 <= x < iw im -> 0 <= y < ih im -> orPx im x y f = Ok (setPx im x y (Z.lor (ipx im x y) f)).
Proof. intros; unfold orPx. rewrite getPx_Ok by assumption; cbn [bind]. apply putPx_Ok; assumption. Qed.

Lemma symCorner_ok : forall im x y s, 0 <= x < iw im - 1 -> 0 <= y < ih im - 1 -> symDone im x y s ->
  exists s', symCorner x y s = Ok s' /\ symDone im (x + 1) y s'.
Proof.
  intros im x y s Hx Hy D. pose proof D as (W & H & P).
  destruct (symDone_bits im x y s x y D ltac:(lia) ltac:(lia)) as [B1 B2].
  unfold symCorner. rewrite getPx_Ok by lia; cbn [bind].
  set (s1 := if hasBit (ipx s x y) CONN_RIGHT then setPx s (x + 1) y (Z.lor (ipx s (x + 1) y) CONN_LEFT) else s).
  assert (E1 : (if hasBit (ipx s x y) CONN_RIGHT then orPx s (x + 1) y CONN_LEFT else Ok s) = Ok s1).
  { unfold s1. destruct (hasBit (ipx s x y) CONN_RIGHT); [apply orPx_Ok; lia|reflexivity]. }
  rewrite E1; cbn [bind].
  assert (W1 : iw s1 = iw im) by (unfold s1; destruct (hasBit (ipx s x y) CONN_RIGHT); assumption).
  assert (H1 : ih s1 = ih im) by (unfold s1; destruct (hasBit (ipx s x y) CONN_RIGHT); assumption).
  rewrite getPx_Ok by lia; cbn [bind].
  assert (V : ipx s1 x y = ipx s x y).
  { unfold s1. destruct (hasBit (ipx s x y) CONN_RIGHT); [|reflexivity]. rewrite ipx_setPx. destruct (Z.eqb_spec x (x + 1)); [lia|reflexivity]. }
  rewrite V, B2.
  set (s2 := if hasBit (ipx im x y) CONN_DOWN then setPx s1 x (y + 1) (Z.lor (ipx s1 x (y + 1)) CONN_UP) else s1).
  exists s2. split.
  { unfold s2. destruct (hasBit (ipx im x y) CONN_DOWN); [apply orPx_Ok; lia|reflexivity]. }
  assert (P1 : forall a b, ipx s1 a b = Z.lor (ipx s a b)
     (if (a - 1 =? x) && (b =? y) && hasBit (ipx im x y) CONN_RIGHT then CONN_LEFT else 0)).
  { intros a b. unfold s1. rewrite B1. destruct (hasBit (ipx im x y) CONN_RIGHT); [|rewrite andb_false_r, Z.lor_0_r; reflexivity].
    rewrite ipx_setPx, andb_true_r. destruct (Z.eqb_spec a (x + 1)), (Z.eqb_spec (a - 1) x), (Z.eqb_spec b y);
      cbn [andb]; subst; rewrite ?Z.lor_0_r; try reflexivity; lia. }
  apply (symDone_step im x y s s2); try lia; auto.
  - unfold s2; destruct (hasBit (ipx im x y) CONN_DOWN); assumption.
  - unfold s2; destruct (hasBit (ipx im x y) CONN_DOWN); assumption.
  - intros a b Ha Hb. rewrite <- P1. unfold s2. destruct (hasBit (ipx im x y) CONN_DOWN); [|rewrite andb_false_r, Z.lor_0_r; reflexivity].
    rewrite ipx_setPx, andb_true_r. destruct (Z.eqb_spec b (y + 1)), (Z.eqb_spec (b - 1) y), (Z.eqb_spec a x);
      cbn [andb]; subst; rewrite ?Z.lor_0_r; try reflexivity; lia.
Qed.

Lemma symLast_ok : forall im y s, 1 <= iw im -> 0 <= y < ih im - 1 -> symDone im (iw im - 1) y s ->
  exists s', (v <- getPx s (iw im - 1) y ;; if hasBit v CONN_DOWN then orPx s (iw im - 1) (y + 1) CONN_UP else Ok s) = Ok s'
    /\ symDone im 0 (y + 1) s'.
Proof.
  intros im y s Hw Hy D. pose proof D as (W & H & P). set (x := iw im - 1) in *.
  destruct (symDone_bits im x y s x y D ltac:(lia) ltac:(lia)) as [B1 B2].
  rewrite getPx_Ok by lia; cbn [bind]. rewrite B2.
  set (s2 := if hasBit (ipx im x y) CONN_DOWN then setPx s x (y + 1) (Z.lor (ipx s x (y + 1)) CONN_UP) else s).
  exists s2. split.
  { unfold s2. destruct (hasBit (ipx im x y) CONN_DOWN); [apply orPx_Ok; lia|reflexivity]. }
  assert (D2 : symDone im (x + 1) y s2).
  { apply (symDone_step im x y s s2); try lia; auto.
    - unfold s2; destruct (hasBit (ipx im x y) CONN_DOWN); assumption.
    - unfold s2; destruct (hasBit (ipx im x y) CONN_DOWN); assumption.
    - intros a b Ha Hb. destruct (Z.eqb_spec (a - 1) x); [lia|]. cbn [andb]. rewrite Z.lor_0_r.
      unfold s2. destruct (hasBit (ipx im x y) CONN_DOWN); [|rewrite andb_false_r, Z.lor_0_r; reflexivity].
      rewrite ipx_setPx, andb_true_r. destruct (Z.eqb_spec b (y + 1)), (Z.eqb_spec (b - 1) y), (Z.eqb_spec a x);
        cbn [andb]; subst; rewrite ?Z.lor_0_r; try reflexivity; lia. }
  destruct D2 as (W2 & H2 & P2). split; [exact W2|split; [exact H2|]].
  intros a b Ha Hb. rewrite P2 by assumption.
  replace (x + 1) with (iw im) by lia.
  destruct (Z.leb_spec 1 a).
  - rewrite !(before_newRow (iw im) y) by lia. reflexivity.
  - rewrite !(before_newRow (iw im) y a) by lia. reflexivity.
Qed.

Lemma symBottom_ok : forall im x s, 1 <= ih im -> 0 <= x < iw im - 1 -> symDone im x (ih im - 1) s ->
  exists s', (v <- getPx s x (ih im - 1) ;; if hasBit v CONN_RIGHT then orPx s (x + 1) (ih im - 1) CONN_LEFT else Ok s) = Ok s'
    /\ symDone im (x + 1) (ih im - 1) s'.
Proof.
  intros im x s Hh Hx D. pose proof D as (W & H & P). set (y := ih im - 1) in *.
  destruct (symDone_bits im x y s x y D ltac:(lia) ltac:(lia)) as [B1 B2].
  rewrite getPx_Ok by lia; cbn [bind]. rewrite B1.
  set (s2 := if hasBit (ipx im x y) CONN_RIGHT then setPx s (x + 1) y (Z.lor (ipx s (x + 1) y) CONN_LEFT) else s).
  exists s2. split.
  { unfold s2. destruct (hasBit (ipx im x y) CONN_RIGHT); [apply orPx_Ok; lia|reflexivity]. }
  apply (symDone_step im x y s s2); try lia; auto.
  - unfold s2; destruct (hasBit (ipx im x y) CONN_RIGHT); assumption.
  - unfold s2; destruct (hasBit (ipx im x y) CONN_RIGHT); assumption.
  - intros a b Ha Hb. destruct (Z.eqb_spec (b - 1) y); [lia|]. rewrite (andb_false_r (a =? x)). cbn [andb]. rewrite Z.lor_0_r.
    unfold s2. destruct (hasBit (ipx im x y) CONN_RIGHT); [|rewrite andb_false_r, Z.lor_0_r; reflexivity].
    rewrite ipx_setPx, andb_true_r. destruct (Z.eqb_spec b y) as [->|], (Z.eqb_spec (a - 1) x), (Z.eqb_spec a (x + 1)) as [->|];
      cbn [andb]; rewrite ?Z.lor_0_r; try reflexivity; lia.
Qed.

Lemma makeCCSymmetric_ok : forall im, 1 <= iw im -> 1 <= ih im ->
  exists im', makeCCSymmetric im = Ok im' /\ iw im' = iw im /\ ih im' = ih im /\
    forall a b, 0 <= a < iw im -> 0 <= b < ih im -> ipx im' a b = symIdeal im a b.
Proof.
  intros im Hw Hh. unfold makeCCSymmetric.
  destruct (forZ_inv image (fun y s => symDone im 0 y s) (fun y im0 =>
          im0 <- forZ 0 (iw im - 1) (fun x im0 => symCorner x y im0) im0 ;;
          v <- getPx im0 (iw im - 1) y ;;
          if hasBit v CONN_DOWN then orPx im0 (iw im - 1) (y + 1) CONN_UP else Ok im0) 0 (ih im - 1) im) as (s1 & E1 & D1);
    [lia|apply symDone_start| |].
  { intros y s Hy D.
    destruct (forZ_inv image (fun x s => symDone im x y s) (fun x im0 => symCorner x y im0) 0 (iw im - 1) s) as (t & Et & Dt);
      [lia|exact D| |].
    { intros x u Hx Du. apply symCorner_ok; auto. }
    rewrite Et; cbn [bind]. apply symLast_ok; auto. }
  cbv zeta. rewrite E1; cbn [bind].
  destruct (forZ_inv image (fun x s => symDone im x (ih im - 1) s) (fun x im0 =>
    v <- getPx im0 x (ih im - 1) ;; if hasBit v CONN_RIGHT then orPx im0 (x + 1) (ih im - 1) CONN_LEFT else Ok im0)
    0 (iw im - 1) s1) as (s2 & E2 & D2); [lia|exact D1| |].
  { intros x s Hx D. apply symBottom_ok; auto. }
  exists s2; split; [exact E2|]. destruct D2 as (W & H & P). split; [exact W|split; [exact H|]].
  intros a b Ha Hb. rewrite P by assumption. unfold symIdeal.
  assert (B1 : 1 <= a -> before (iw im - 1) (ih im - 1) (a - 1) b = true).
  { intros; unfold before. destruct (Z.ltb_spec b (ih im - 1)), (Z.eqb_spec b (ih im - 1)), (Z.ltb_spec (a - 1) (iw im - 1)); cbn; try reflexivity; lia. }
  assert (B2 : 1 <= b -> before (iw im - 1) (ih im - 1) a (b - 1) = true).
  { intros; unfold before. destruct (Z.ltb_spec (b - 1) (ih im - 1)); cbn; try reflexivity; lia. }
  destruct (Z.leb_spec 1 a) as [A|A], (Z.leb_spec 1 b) as [B|B]; cbn [andb]; rewrite ?(B1 A), ?(B2 B), ?andb_true_r; reflexivity.
Qed.

(** ** The four bits *)
Definition fourBits (src : image) (x y : Z) : Z :=
  b2z (crackEast src x y) + 2 * b2z (crackSouth src x y) + 4 * b2z (crackWest src x y) + 8 * b2z (crackNorth src x y).

Lemma crackSym_ok : forall src, 1 <= iw src -> 1 <= ih src ->
  exists im im', crackConnectionImage src (newImg (iw src + 1) (ih src + 1) 0) = Ok im /\ makeCCSymmetric im = Ok im' /\
    iw im' = iw src + 1 /\ ih im' = ih src + 1 /\
    forall x y, isCorner src x y -> ipx im' x y = fourBits src x y.
Proof.
  intros src Hw Hh.
  destruct (crackConnectionImage_spec src (newImg (iw src + 1) (ih src + 1) 0) Hw Hh eq_refl eq_refl)
    as (im & E & W & H & P & P0).
  destruct (makeCCSymmetric_ok im ltac:(lia) ltac:(lia)) as (im' & E' & W' & H' & P').
  exists im, im'. split; [exact E|split; [exact E'|]]. split; [lia|split; [lia|]].
  intros x y [Hx Hy]. rewrite P' by lia. unfold symIdeal.
  assert (V : forall a b, isCorner src a b -> ipx im a b = (if crackEast src a b then 1 else 0) + (if crackSouth src a b then 2 else 0)).
  { intros a b [Ha Hb]. destruct (Z.eq_dec a (iw src)) as [Ea|]; [destruct (Z.eq_dec b (ih src)) as [Eb|]|].
    - subst a b. rewrite P0. unfold crackEast, crackSouth. lab. reflexivity.
    - apply P; [split; lia|lia].
    - apply P; [split; lia|lia]. }
  assert (LW : (1 <=? x) && hasBit (ipx im (x - 1) y) CONN_RIGHT = crackWest src x y).
  { destruct (Z.leb_spec 1 x).
    - rewrite V by (split; lia).
      replace (crackWest src x y) with (crackEast src (x - 1) y) by (unfold crackWest, crackEast; reflexivity).
      destruct (crackEast src (x - 1) y), (crackSouth src (x - 1) y); reflexivity.
    - cbn [andb]. unfold crackWest. lab. reflexivity. }
  assert (LN : (1 <=? y) && hasBit (ipx im x (y - 1)) CONN_DOWN = crackNorth src x y).
  { destruct (Z.leb_spec 1 y).
    - rewrite V by (split; lia).
      replace (crackNorth src x y) with (crackSouth src x (y - 1)) by (unfold crackSouth, crackNorth; reflexivity).
      destruct (crackEast src x (y - 1)), (crackSouth src x (y - 1)); reflexivity.
    - cbn [andb]. unfold crackNorth. lab. reflexivity. }
  rewrite LW, LN, V by (split; lia). unfold fourBits.
  destruct (crackEast src x y), (crackSouth src x y), (crackWest src x y), (crackNorth src x y); reflexivity.
Qed.

Lemma differ_sym : forall a b, differ a b = differ b a.
Proof. intros [a|] [b|]; cbn; try reflexivity. rewrite Z.eqb_sym; reflexivity. Qed.
Lemma differ_false : forall a b, differ a b = false <-> a = b.
Proof.
  intros [a|] [b|]; cbn; split; intro H; try discriminate; try reflexivity.
  - destruct (Z.eqb_spec a b); [subst; reflexivity|discriminate].
  - injection H as ->. rewrite Z.eqb_refl; reflexivity.
Qed.

(** A corner never has exactly one crack: walking around it, the label changes back. *)
Lemma cracksAt_cases : forall src x y, In (cracksAt src x y) [0; 2; 3; 4].
Proof.
  intros src x y. unfold cracksAt, crackEast, crackSouth, crackWest, crackNorth.
  set (a := labelAt src (x - 1) (y - 1)). set (b := labelAt src x (y - 1)).
  set (c := labelAt src (x - 1) y). set (d := labelAt src x y).
  destruct (differ b d) eqn:E1, (differ c d) eqn:E2, (differ a c) eqn:E3, (differ a b) eqn:E4;
    rewrite ?differ_false in *; cbn; try tauto; exfalso; subst;
    match goal with
    | H : differ ?u ?v = true |- _ => first [ rewrite (proj2 (differ_false u v)) in H by congruence; discriminate ]
    end.
Qed.

(** corners with four cracks are inside *)
Lemma cracks4_inner : forall src x y, isCorner src x y -> cracksAt src x y = 4 -> 1 <= x < iw src /\ 1 <= y < ih src.
Proof.
  intros src x y [Hx Hy] H4. revert H4. unfold cracksAt, crackEast, crackSouth, crackWest, crackNorth.
  intros H4.
  assert (A : differ (labelAt src x (y - 1)) (labelAt src x y) = true /\ differ (labelAt src (x - 1) y) (labelAt src x y) = true
     /\ differ (labelAt src (x - 1) (y - 1)) (labelAt src (x - 1) y) = true /\ differ (labelAt src (x - 1) (y - 1)) (labelAt src x (y - 1)) = true).
  { repeat match type of H4 with context[differ ?u ?v] => destruct (differ u v) end; repeat split; auto; lia. }
  destruct A as (A1 & A2 & A3 & A4).
  assert (x <> 0) by (intro; subst; rewrite 2!labelAt_out in A3 by lia; discriminate).
  assert (y <> 0) by (intro; subst; rewrite 2!labelAt_out in A4 by lia; discriminate).
  assert (x <> iw src) by (intro; subst; rewrite 2!labelAt_out in A1 by lia; discriminate).
  assert (y <> ih src) by (intro; subst; rewrite 2!labelAt_out in A2 by lia; discriminate).
  lia.
Qed.

(** ** Eight-connected regions and nodes *)
Definition sixBits (src : image) (eight : bool) (x y : Z) : Z :=
  fourBits src x y + 16 * b2z (joinsUpLeft src eight x y) + 32 * b2z (joinsUpRight src eight x y).

Lemma fourBits_15 : forall src x y, (fourBits src x y =? 15) = (cracksAt src x y =? 4).
Proof.
  intros; unfold fourBits, cracksAt.
  destruct (crackEast src x y), (crackSouth src x y), (crackWest src x y), (crackNorth src x y); reflexivity.
Qed.

Lemma eightCorner_ok : forall src x y im, 1 <= x < iw src -> 1 <= y < ih src -> iw im = iw src + 1 -> ih im = ih src + 1 ->
  ipx im x y = fourBits src x y ->
  exists im2, eightCorner src x y im = Ok im2 /\ iw im2 = iw im /\ ih im2 = ih im /\
    forall a b, ipx im2 a b = if (a =? x) && (b =? y) then sixBits src true x y else ipx im a b.
Proof.
  intros src x y im Hx Hy W H V. unfold eightCorner. rewrite getPx_Ok by lia; cbn [bind].
  rewrite V. change CONN_ALL4 with 15. rewrite fourBits_15.
  unfold sixBits, joinsUpLeft, joinsUpRight. cbn [andb].
  destruct (cracksAt src x y =? 4) eqn:C4; cbn [negb andb].
  2:{ exists im. split; [reflexivity|]. split; [reflexivity|split; [reflexivity|]]. intros a b.
      destruct (Z.eqb_spec a x) as [->|], (Z.eqb_spec b y) as [->|]; cbn [andb]; try reflexivity.
      rewrite V. cbn [b2z]. lia. }
  assert (F : fourBits src x y = 15) by (apply Z.eqb_eq; rewrite fourBits_15; exact C4).
  rewrite (getPx_Ok src x y), (getPx_Ok src (x - 1) (y - 1)) by lia; cbn [bind].
  rewrite F in V |- *.
  unfold sameLabel. rewrite (labelAt_in src x y), (labelAt_in src (x - 1) (y - 1)), (labelAt_in src (x - 1) y), (labelAt_in src x (y - 1)) by lia.
  cbn [differ lessLabel].
  set (pa := ipx src x y). set (pb := ipx src (x - 1) (y - 1)). set (pc := ipx src (x - 1) y). set (pd := ipx src x (y - 1)).
  rewrite orPx_Ok by lia. rewrite V.
  set (s1 := if pa =? pb then setPx im x y (Z.lor 15 CONN_DIAG_UPLEFT) else im).
  assert (E1 : (if pa =? pb then Ok (setPx im x y (Z.lor 15 CONN_DIAG_UPLEFT)) else Ok im) = Ok s1).
  { unfold s1; destruct (pa =? pb); reflexivity. }
  rewrite E1; cbn [bind].
  assert (W1 : iw s1 = iw im) by (unfold s1; destruct (pa =? pb); reflexivity).
  assert (H1 : ih s1 = ih im) by (unfold s1; destruct (pa =? pb); reflexivity).
  rewrite (getPx_Ok src (x - 1) y), (getPx_Ok src x (y - 1)) by lia; cbn [bind].
  fold pc pd. rewrite orPx_Ok by lia.
  assert (V1 : ipx s1 x y = if pa =? pb then 31 else 15).
  { unfold s1; destruct (pa =? pb); [|exact V]. rewrite ipx_setPx, !Z.eqb_refl; reflexivity. }
  assert (O1 : forall a b, ~ (a = x /\ b = y) -> ipx s1 a b = ipx im a b).
  { intros a b N. unfold s1; destruct (pa =? pb); [|reflexivity]. rewrite ipx_setPx.
    destruct (Z.eqb_spec a x), (Z.eqb_spec b y); cbn [andb]; try reflexivity; tauto. }
  set (s2 := if pc =? pd then setPx s1 x y (Z.lor (ipx s1 x y) CONN_DIAG_UPRIGHT) else s1).
  assert (E2 : (if pc =? pd then Ok (setPx s1 x y (Z.lor (ipx s1 x y) CONN_DIAG_UPRIGHT)) else Ok s1) = Ok s2).
  { unfold s2; destruct (pc =? pd); reflexivity. }
  rewrite E2; cbn [bind].
  assert (W2 : iw s2 = iw im) by (unfold s2; destruct (pc =? pd); assumption).
  assert (H2 : ih s2 = ih im) by (unfold s2; destruct (pc =? pd); assumption).
  rewrite getPx_Ok by lia; cbn [bind].
  assert (V2 : ipx s2 x y = 15 + (if pa =? pb then 16 else 0) + (if pc =? pd then 32 else 0)).
  { unfold s2; destruct (pc =? pd); [rewrite ipx_setPx, !Z.eqb_refl; cbn [andb]|]; rewrite V1; destruct (pa =? pb); reflexivity. }
  assert (O2 : forall a b, ~ (a = x /\ b = y) -> ipx s2 a b = ipx im a b).
  { intros a b N. unfold s2; destruct (pc =? pd); [|apply O1; exact N]. rewrite ipx_setPx.
    destruct (Z.eqb_spec a x), (Z.eqb_spec b y); cbn [andb]; try (apply O1; exact N); tauto. }
  rewrite V2. rewrite putPx_Ok by lia.
  rewrite (Z.eqb_sym pb pa), (Z.eqb_sym pd pc).
  change (Z.lor CONN_ALL4 (Z.lor CONN_DIAG_UPLEFT CONN_DIAG_UPRIGHT)) with 63.
  change CONN_DIAG_UPLEFT with 16. change CONN_DIAG_UPRIGHT with 32.
  destruct (Z.eqb_spec pa pb) as [Eab|Eab], (Z.eqb_spec pc pd) as [Ecd|Ecd]; cbn [negb andb b2z Z.eqb Z.add Pos.add Pos.succ Pos.eqb Pos.add_carry].
  - eexists; split; [reflexivity|]. split; [assumption|split; [assumption|]]. intros a b. rewrite ipx_setPx.
    destruct (Z.eqb_spec a x) as [->|], (Z.eqb_spec b y) as [->|]; cbn [andb]; try (apply O2; tauto).
    assert (pb <> pd).
    { intro Q. assert (D : cracksAt src x y = 4) by (apply Z.eqb_eq; exact C4).
      revert D. unfold cracksAt, crackEast, crackSouth, crackWest, crackNorth.
      rewrite (labelAt_in src x y), (labelAt_in src (x - 1) (y - 1)), (labelAt_in src (x - 1) y), (labelAt_in src x (y - 1)) by lia.
      cbn [differ]. fold pa pb pc pd. rewrite Q, Z.eqb_refl; cbn [negb]. repeat destruct (negb _); lia. }
    rewrite Z.gtb_ltb. destruct (Z.ltb_spec pb pd), (Z.ltb_spec pd pb); cbn; lia.
  - eexists; split; [reflexivity|]. split; [assumption|split; [assumption|]]. intros a b.
    destruct (Z.eqb_spec a x) as [->|], (Z.eqb_spec b y) as [->|]; cbn [andb]; try (apply O2; tauto).
    rewrite V2. reflexivity.
  - eexists; split; [reflexivity|]. split; [assumption|split; [assumption|]]. intros a b.
    destruct (Z.eqb_spec a x) as [->|], (Z.eqb_spec b y) as [->|]; cbn [andb]; try (apply O2; tauto).
    rewrite V2. reflexivity.
  - eexists; split; [reflexivity|]. split; [assumption|split; [assumption|]]. intros a b.
    destruct (Z.eqb_spec a x) as [->|], (Z.eqb_spec b y) as [->|]; cbn [andb]; try (apply O2; tauto).
    rewrite V2. reflexivity.
Qed.

Lemma markEight_ok : forall src im, 1 <= iw src -> 1 <= ih src -> iw im = iw src + 1 -> ih im = ih src + 1 ->
  (forall x y, isCorner src x y -> ipx im x y = fourBits src x y) ->
  exists im2, markEightConnectedRegions src im = Ok im2 /\ iw im2 = iw im /\ ih im2 = ih im /\
    forall x y, isCorner src x y -> ipx im2 x y = sixBits src true x y.
Proof.
  intros src im Hw Hh W H P. unfold markEightConnectedRegions.
  destruct (forRows_pointwise (fun x y im => eightCorner src x y im) (fun x y _ => sixBits src true x y)
    1 (iw im - 1) 1 (ih im - 1) im) as (im2 & E & W2 & H2 & P2); [lia|lia| |].
  { intros x y im' Hx Hy W' H' V'.
    destruct (eightCorner_ok src x y im') as (u & Eu & Wu & Hu & Pu); try lia.
    { rewrite V'. apply P; split; lia. }
    exists u. split; [exact Eu|split; [lia|split; [lia|exact Pu]]]. }
  exists im2; split; [exact E|split; [exact W2|split; [exact H2|]]]. intros x y C. pose proof C as [Cx Cy].
  rewrite P2. destruct ((1 <=? x) && (x <? iw im - 1) && (1 <=? y) && (y <? ih im - 1)) eqn:I; [reflexivity|].
  rewrite P by exact C. unfold sixBits.
  assert (N : cracksAt src x y =? 4 = false).
  { apply Z.eqb_neq. intro Q. apply (cracks4_inner src x y C) in Q.
    rewrite (proj2 (Z.leb_le 1 x)), (proj2 (Z.ltb_lt x (iw im - 1))), (proj2 (Z.leb_le 1 y)), (proj2 (Z.ltb_lt y (ih im - 1))) in I by lia.
    discriminate. }
  unfold joinsUpLeft, joinsUpRight. rewrite N. cbn [andb b2z]. lia.
Qed.

Lemma joins_diagonal : forall src eight x y,
  joinsUpLeft src eight x y || joinsUpRight src eight x y = eight && diagonalAt src x y /\
  joinsUpLeft src eight x y && joinsUpRight src eight x y = false.
Proof.
  intros src eight x y. unfold joinsUpLeft, joinsUpRight, diagonalAt.
  destruct eight; cbn [andb]; [|split; reflexivity].
  destruct (cracksAt src x y =? 4) eqn:C; cbn [andb]; [|split; reflexivity].
  unfold sameLabel. rewrite (differ_sym (labelAt src x y) (labelAt src (x - 1) (y - 1))).
  rewrite (differ_sym (labelAt src (x - 1) y) (labelAt src x (y - 1))).
  apply Z.eqb_eq in C. revert C. unfold cracksAt, crackEast, crackSouth, crackWest, crackNorth.
  set (a := labelAt src (x - 1) (y - 1)). set (b := labelAt src x (y - 1)).
  set (c := labelAt src (x - 1) y). set (d := labelAt src x y). intros C.
  assert (Nab : differ a b = true) by (destruct (differ a b); [reflexivity|repeat destruct (differ _ _); lia]).
  assert (Ncd : differ c d = true) by (destruct (differ c d); [reflexivity|repeat destruct (differ _ _); lia]).
  destruct (differ a d) eqn:Ead, (differ b c) eqn:Ebc; cbn [negb andb orb]; try (split; reflexivity).
  apply differ_false in Ead, Ebc. clear Ncd C.
  assert (In1 : b <> None -> c <> None -> a <> None /\ d <> None).
  { unfold a, b, c, d, labelAt.
    destruct (Z.leb_spec 0 x), (Z.leb_spec 0 (x - 1)), (Z.ltb_spec x (iw src)), (Z.ltb_spec (x - 1) (iw src)),
      (Z.leb_spec 0 y), (Z.leb_spec 0 (y - 1)), (Z.ltb_spec y (ih src)), (Z.ltb_spec (y - 1) (ih src));
      cbn [andb]; intros; split; try discriminate; try congruence; lia. }
  assert (In2 : a <> None -> d <> None -> b <> None /\ c <> None).
  { unfold a, b, c, d, labelAt.
    destruct (Z.leb_spec 0 x), (Z.leb_spec 0 (x - 1)), (Z.ltb_spec x (iw src)), (Z.ltb_spec (x - 1) (iw src)),
      (Z.leb_spec 0 y), (Z.leb_spec 0 (y - 1)), (Z.ltb_spec y (ih src)), (Z.ltb_spec (y - 1) (ih src));
      cbn [andb]; intros; split; try discriminate; try congruence; lia. }
  clearbody a b c d. subst c d.
  destruct a as [a'|], b as [b'|]; cbn in Nab |- *; try discriminate.
  2:{ destruct In2; congruence. }
  2:{ destruct In1; congruence. }
  destruct (Z.eqb_spec a' b'); [discriminate|]. destruct (Z.ltb_spec a' b'), (Z.ltb_spec b' a'); split; try reflexivity; lia.
Qed.

Lemma cracks_bits : forall src x y, cracksAt src x y =
  b2z (crackEast src x y) + b2z (crackSouth src x y) + b2z (crackWest src x y) + b2z (crackNorth src x y).
Proof. reflexivity. Qed.

Lemma nodeCorner_ok : forall src eight x y im, isCorner src x y -> iw im = iw src + 1 -> ih im = ih src + 1 ->
  ipx im x y = sixBits src eight x y ->
  exists im2, nodeCorner x y im = Ok im2 /\ iw im2 = iw im /\ ih im2 = ih im /\
    forall a b, ipx im2 a b = if (a =? x) && (b =? y) then cornerBits src eight x y else ipx im a b.
Proof.
  intros src eight x y im [Cx Cy] W H V. unfold nodeCorner. rewrite getPx_Ok by lia; cbn [bind]. rewrite V.
  rewrite !putPx_Ok by lia.
  destruct (joins_diagonal src eight x y) as [JD JX].
  assert (D4 : eight && diagonalAt src x y = true -> cracksAt src x y = 4).
  { unfold diagonalAt. intros Q. apply andb_true_iff in Q; destruct Q as [_ Q]. apply andb_true_iff in Q; destruct Q as [Q _]. apply Z.eqb_eq, Q. }
  assert (DB : cornerBits src eight x y = sixBits src eight x y + 64 * b2z (needsNode src eight x y) + 128 * b2z (mayStart src eight x y)) by reflexivity.
  rewrite DB. clear DB. unfold mayStart, needsNode, sixBits, fourBits in *. rewrite cracks_bits in *.
  rewrite <- JD in *.
  assert (K : forall v,
    (exists im2, Ok v = Ok im2 /\ iw im2 = iw im /\ ih im2 = ih im /\ (forall a b, ipx im2 a b = ipx v a b)) \/ True) by (intros; right; exact I).
  clear K.
  assert (G1 : forall v w, v = w -> exists im2, Ok (setPx im x y v) = Ok im2 /\ iw im2 = iw im /\ ih im2 = ih im /\
    forall a b, ipx im2 a b = if (a =? x) && (b =? y) then w else ipx im a b).
  { intros v w ->. eexists; split; [reflexivity|]. split; [reflexivity|split; [reflexivity|]]. intros a b. apply ipx_setPx. }
  assert (G2 : forall w, ipx im x y = w -> exists im2, Ok im = Ok im2 /\ iw im2 = iw im /\ ih im2 = ih im /\
    forall a b, ipx im2 a b = if (a =? x) && (b =? y) then w else ipx im a b).
  { intros w Ew. eexists; split; [reflexivity|]. split; [reflexivity|split; [reflexivity|]]. intros a b.
    destruct (Z.eqb_spec a x) as [->|], (Z.eqb_spec b y) as [->|]; cbn [andb]; try reflexivity. exact Ew. }
  rewrite V in G2.
  destruct (joinsUpLeft src eight x y), (joinsUpRight src eight x y); try discriminate JX;
    destruct (crackEast src x y), (crackSouth src x y), (crackWest src x y), (crackNorth src x y);
    try (specialize (D4 eq_refl); discriminate D4);
    first [ apply G1; reflexivity | apply G2; reflexivity ].
Qed.

(** ** The whole image *)
Theorem crackImage_spec : forall src eight, 1 <= iw src -> 1 <= ih src ->
  exists im, crackImage src eight = Ok im /\ iw im = iw src + 1 /\ ih im = ih src + 1 /\
    forall x y, isCorner src x y -> ipx im x y = cornerBits src eight x y.
Proof.
  intros src eight Hw Hh. unfold crackImage.
  destruct (crackSym_ok src Hw Hh) as (i0 & i1 & E0 & E1 & W1 & H1 & P1).
  rewrite E0; cbn [bind]. rewrite E1; cbn [bind].
  assert (A : exists i2, (if eight then markEightConnectedRegions src i1 else Ok i1) = Ok i2 /\ iw i2 = iw i1 /\ ih i2 = ih i1 /\
    forall x y, isCorner src x y -> ipx i2 x y = sixBits src eight x y).
  { destruct eight; [apply markEight_ok; auto|]. exists i1. split; [reflexivity|split; [reflexivity|split; [reflexivity|]]].
    intros x y C. rewrite P1 by exact C. unfold sixBits, joinsUpLeft, joinsUpRight. cbn [andb b2z]. lia. }
  destruct A as (i2 & E2 & W2 & H2 & P2). rewrite E2; cbn [bind]. unfold markNodes.
  destruct (forRows_pointwise (fun x y im => nodeCorner x y im) (fun x y _ => cornerBits src eight x y)
    0 (iw i2) 0 (ih i2) i2) as (im & E & W & H & P); [lia|lia| |].
  { intros x y im' Hx Hy W' H' V'.
    destruct (nodeCorner_ok src eight x y im') as (u & Eu & Wu & Hu & Pu); try lia.
    { split; lia. }
    { rewrite V'. apply P2; split; lia. }
    exists u. split; [exact Eu|split; [lia|split; [lia|exact Pu]]]. }
  exists im; split; [exact E|split; [lia|split; [lia|]]]. intros x y [Cx Cy]. rewrite P.
  rewrite (proj2 (Z.leb_le 0 x)), (proj2 (Z.ltb_lt x (iw i2))), (proj2 (Z.leb_le 0 y)), (proj2 (Z.ltb_lt y (ih i2))) by lia.
  reflexivity.
Qed.

(** Neighbouring corners agree about the crack between them. *)
Lemma crack_shared : forall src x y,
  crackEast src x y = crackWest src (x + 1) y /\ crackSouth src x y = crackNorth src x (y + 1).
Proof.
  intros; unfold crackEast, crackWest, crackSouth, crackNorth.
  replace (x + 1 - 1) with x by lia. replace (y + 1 - 1) with y by lia. split; reflexivity.
Qed.

Lemma cornerBits_testbits : forall src eight x y,
  Z.testbit (cornerBits src eight x y) 0 = crackEast src x y /\
  Z.testbit (cornerBits src eight x y) 1 = crackSouth src x y /\
  Z.testbit (cornerBits src eight x y) 2 = crackWest src x y /\
  Z.testbit (cornerBits src eight x y) 3 = crackNorth src x y /\
  Z.testbit (cornerBits src eight x y) 4 = joinsUpLeft src eight x y /\
  Z.testbit (cornerBits src eight x y) 5 = joinsUpRight src eight x y /\
  Z.testbit (cornerBits src eight x y) 6 = needsNode src eight x y /\
  Z.testbit (cornerBits src eight x y) 7 = mayStart src eight x y.
Proof.
  intros; unfold cornerBits.
  destruct (crackEast src x y), (crackSouth src x y), (crackWest src x y), (crackNorth src x y),
    (joinsUpLeft src eight x y), (joinsUpRight src eight x y), (needsNode src eight x y), (mayStart src eight x y);
    repeat split; reflexivity.
Qed.

(** After symmetrisation of an arbitrary crack image with nothing pointing outside: bits agree pairwise. *)
Lemma symIdeal_shared : forall im x y, 0 <= x -> 0 <= y ->
  hasBit (ipx im (x + 1) y) CONN_LEFT = false -> hasBit (ipx im x (y + 1)) CONN_UP = false ->
  hasBit (symIdeal im x y) CONN_RIGHT = hasBit (symIdeal im (x + 1) y) CONN_LEFT /\
  hasBit (symIdeal im x y) CONN_DOWN = hasBit (symIdeal im x (y + 1)) CONN_UP.
Proof.
  intros im x y Hx Hy A B. unfold symIdeal. rewrite !hasBit_lor, A, B.
  replace (x + 1 - 1) with x by lia. replace (y + 1 - 1) with y by lia.
  destruct (Z.leb_spec 1 (x + 1)); [|lia]. destruct (Z.leb_spec 1 (y + 1)); [|lia]. cbn [andb].
  split.
  - destruct (hasBit (ipx im x y) CONN_RIGHT); destruct (_ && _); destruct (_ && _); try destruct (_ && _); reflexivity.
  - destruct (hasBit (ipx im x y) CONN_DOWN); destruct (_ && _); destruct (_ && _); try destruct (_ && _); reflexivity.
Qed.

Lemma differ_true : forall a b, differ a b = true <-> a <> b.
Proof. intros a b. rewrite <- differ_false. destruct (differ a b); intuition congruence. Qed.

Lemma crackConnectionImage_bits : forall src dest, 1 <= iw src -> 1 <= ih src -> iw dest = iw src + 1 -> ih dest = ih src + 1 ->
  exists im, crackConnectionImage src dest = Ok im /\ iw im = iw src + 1 /\ ih im = ih src + 1 /\
    (forall x y, 0 <= x <= iw src -> 0 <= y <= ih src -> ~ (x = iw src /\ y = ih src) ->
       0 <= ipx im x y < 4 /\
       (Z.testbit (ipx im x y) 0 = true <-> labelAt src x (y - 1) <> labelAt src x y) /\
       (Z.testbit (ipx im x y) 1 = true <-> labelAt src (x - 1) y <> labelAt src x y)) /\
    ipx im (iw src) (ih src) = ipx dest (iw src) (ih src).
Proof.
  intros src dest Hw Hh Dw Dh.
  destruct (crackConnectionImage_spec src dest Hw Hh Dw Dh) as (im & E & W & H & P & P0).
  exists im. split; [exact E|split; [exact W|split; [exact H|split; [|exact P0]]]].
  intros x y Hx Hy N. rewrite P by (try split; auto). rewrite <- !differ_true. fold (crackEast src x y). fold (crackSouth src x y).
  destruct (crackEast src x y), (crackSouth src x y); cbn; intuition (try lia; try congruence).
Qed.

Lemma crackImage_bits : forall src eight, 1 <= iw src -> 1 <= ih src ->
  exists im, crackImage src eight = Ok im /\ iw im = iw src + 1 /\ ih im = ih src + 1 /\
    forall x y, isCorner src x y -> 0 <= ipx im x y < 256 /\
      Z.testbit (ipx im x y) 0 = crackEast src x y /\ Z.testbit (ipx im x y) 1 = crackSouth src x y /\
      Z.testbit (ipx im x y) 2 = crackWest src x y /\ Z.testbit (ipx im x y) 3 = crackNorth src x y /\
      Z.testbit (ipx im x y) 4 = joinsUpLeft src eight x y /\ Z.testbit (ipx im x y) 5 = joinsUpRight src eight x y /\
      Z.testbit (ipx im x y) 6 = needsNode src eight x y /\ Z.testbit (ipx im x y) 7 = mayStart src eight x y.
Proof.
  intros src eight Hw Hh. destruct (crackImage_spec src eight Hw Hh) as (im & E & W & H & P).
  exists im. split; [exact E|split; [exact W|split; [exact H|]]]. intros x y C. rewrite P by exact C.
  split; [|apply cornerBits_testbits].
  unfold cornerBits. assert (B : forall b, 0 <= b2z b <= 1) by (intros []; cbn; lia).
  pose proof (B (crackEast src x y)); pose proof (B (crackSouth src x y)); pose proof (B (crackWest src x y)); pose proof (B (crackNorth src x y));
  pose proof (B (joinsUpLeft src eight x y)); pose proof (B (joinsUpRight src eight x y)); pose proof (B (needsNode src eight x y));
  pose proof (B (mayStart src eight x y)). lia.
Qed.
