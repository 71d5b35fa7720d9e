(** Proofs about the automatic protection of edges. *)
From Coq Require Import Lia QArith.
From Verif Require Import Base CellMap_Model CellMap_Spec CellMap_Scan CellMap_Proofs CellMap_Main CellLink_Spec CellFace_Spec CellMap_Init CellStats_Model CellStats_Spec CellStats_Step CellStats_Chain CellStats_Inv CellStats_Start CellStats_Results CellAuto_Model CellAuto_Spec.
Local Open Scope Z_scope.

Lemma inspect_count v ps : within v ps -> forall n, inspect countEdgel v ps n = Ok (n + total v (fun a => if a =? 0 then 0 else 1) ps).
Proof.
  induction ps as [|(x, y) t IH]; intros W n; cbn [inspect].
  - unfold total. cbn. f_equal. lia.
  - destruct (W x y (or_introl eq_refl)) as (X & Y). rewrite readVal_ok by assumption. cbn [bind]. rewrite IH; [|intros a b I; apply W; right; exact I].
    f_equal. unfold countEdgel, total. cbn [map fold_right fst snd]. destruct (_ =? 0); lia.
Qed.
Lemma canny_is edgels t im l n k : amount edgels (fun v => if v =? 0 then 0 else 1) (fun x y => owns im Line l x y /\ inBase im x y) n -> manyPixels (owns im Line l) k ->
  cannyEdge edgels t im l <-> (inject_Z k * t < inject_Z n)%Q.
Proof.
  intros A B. split; [|intros C; exists n, k; auto]. intros (n' & k' & A' & B' & C). rewrite (amount_unique _ _ _ _ _ A A'), (manyPixels_unique _ _ _ B B'). exact C.
Qed.
Lemma Qle_negb a b : negb (Qle_bool a b) = true <-> (b < a)%Q.
Proof.
  rewrite negb_true_iff. split.
  - intros H. apply Qnot_le_lt. intros K. apply Qle_bool_iff in K. congruence.
  - intros H. destruct (Qle_bool a b) eqn:E; [|reflexivity]. apply Qle_bool_iff in E. exfalso. apply (Qlt_not_le _ _ H E).
Qed.

Lemma rectOr_least (a b r : rect) : (forall x y, inRect a x y -> inRect r x y) -> (forall x y, inRect b x y -> inRect r x y) -> forall x y, inRect (rectOr a b) x y -> inRect r x y.
Proof.
  intros A B x y. unfold rectOr. destruct (rectEmpty b) eqn:Eb; [apply A|]. destruct (rectEmpty a) eqn:Ea; [apply B|]. unfold rectEmpty in Ea, Eb. apply orb_false_iff in Ea, Eb. rewrite !Z.leb_gt in Ea, Eb.
  pose proof (A (rx0 a) (ry0 a)) as A1. pose proof (A (rx1 a - 1) (ry1 a - 1)) as A2. pose proof (B (rx0 b) (ry0 b)) as B1. pose proof (B (rx1 b - 1) (ry1 b - 1)) as B2. unfold inRect in *. cbn [rx0 rx1 ry0 ry1]. lia.
Qed.

Section Data.
Variables original gradient : vimg.
Variable maxValue : Z.
Variable edgels : vimg.
Variable threshold : Q.
Notation hist := (shistory original gradient maxValue).
Notation canny := (cannyEdge edgels threshold).

Lemma bits_eq f f' : (forall n, 0 <= n -> Z.testbit f' n = Z.testbit f n) -> f' = f.
Proof. intros H. apply Z.bits_inj'. exact H. Qed.

(** one edge *)
Theorem auto_edge m0 since lost m s l e : hist m0 since lost m s -> isEdge m l e -> bigEnough edgels (cim m) ->
  exists s' r, autoEdge edgels threshold m s e = Ok (s', r) /\ hist m0 since lost m s' /\ setFlags s' (flags s) = s /\
    (forall a f, nth_error (flags s) a = Some f -> exists f', nth_error (flags s') a = Some f' /\ (partOf m0 m (Z.of_nat a) (Z.of_nat l) -> bitSays (canny (cim m) (Z.of_nat l)) f f') /\ (~ partOf m0 m (Z.of_nat a) (Z.of_nat l) -> f' = f)) /\
    (r = true <-> edgeChanged m0 m (flags s) (flags s') l).
Proof.
  intros H C (B1 & B2). destruct (hist_kept _ _ _ _ _ _ _ _ H) as ((Fa & _) & _). assert (So : sound m) by apply Fa. pose proof (edge_cell m l e C) as Cc.
  destruct (scan_here m Line l _ So Cc) as (ps & Sc & Nd & I). assert (Wi : within edgels ps) by (intros x y J; apply I in J; destruct J as (_ & J & K); lia).
  destruct (live_exact m Line l _ (ch_start sound m So) Cc) as (Lb & _ & Mp). specialize (Mp ltac:(intros (Q & _); discriminate Q)).
  unfold autoEdge. rewrite Lb, Sc. cbn [bind]. rewrite (inspect_count edgels ps Wi 0). cbn [bind]. rewrite Z.add_0_l. set (n := total edgels _ ps). set (on := negb _).
  assert (Am : amount edgels (fun v => if v =? 0 then 0 else 1) (fun x y => owns (cim m) Line (Z.of_nat l) x y /\ inBase (cim m) x y) n) by (exists ps; auto).
  assert (On : on = true <-> canny (cim m) (Z.of_nat l)). { rewrite (canny_is edgels threshold _ _ _ _ Am Mp). apply Qle_negb. }
  destruct (protect original gradient maxValue m0 since lost m s l e 1 on H C ltac:(lia)) as (s' & r & E & P & R & F). change (2 ^ 1) with EPCanny in E. exists s', r. split; [exact E|].
  split; [exact (sh_protect original gradient maxValue m0 since lost m s l e EPCanny on s' r H C E)|]. split; [exact F|].
  assert (D : forall a, partOf m0 m (Z.of_nat a) (Z.of_nat l) \/ ~ partOf m0 m (Z.of_nat a) (Z.of_nat l)).
  { intros a. destruct (hist_chain _ _ _ _ _ _ _ _ _ _ H C) as (ch & _ & _ & Dc & _). rewrite <- Dc. destruct (in_dec Z.eq_dec (Z.of_nat a) ch); auto. }
  assert (P' : forall a f, nth_error (flags s) a = Some f -> exists f', nth_error (flags s') a = Some f' /\ (partOf m0 m (Z.of_nat a) (Z.of_nat l) -> Z.testbit f' 1 = on /\ forall k, k <> 1 -> Z.testbit f' k = Z.testbit f k) /\ (~ partOf m0 m (Z.of_nat a) (Z.of_nat l) -> f' = f)).
  { intros a f Na. destruct (P a f Na) as (f' & Na' & Q). exists f'. split; [exact Na'|]. split.
    - intros Pa. split; [apply (proj1 (Q 1 ltac:(lia))); auto|]. intros k Nk. destruct (Z_lt_le_dec k 0) as [Neg|Pos]; [rewrite !Z.testbit_neg_r by exact Neg; reflexivity|]. apply (proj2 (Q k Pos)). tauto.
    - intros Na0. apply bits_eq. intros k Pos. apply (proj2 (Q k Pos)). tauto. }
  split.
  - intros a f Na. destruct (P' a f Na) as (f' & Na' & Q1 & Q2). exists f'. split; [exact Na'|]. split; [|exact Q2]. intros Pa. destruct (Q1 Pa) as (Q & Q'). split; [rewrite Q; exact On|exact Q'].
  - rewrite R. split.
    + intros (a & f & Pa & Na & Q). exists a. split; [exact Pa|]. destruct (P' a f Na) as (f' & Na' & Q1 & _). rewrite Na, Na'. intros K. injection K as ->. apply Q, (Q1 Pa).
    + intros (a & Pa & Q). destruct (parts _ _ _ _ _ _ _ _ _ _ H C) as (_ & Pp). destruct (Pp _ Pa) as (a' & f & Ea & Na & _). apply Nat2Z.inj in Ea. subst a'. exists a, f. split; [exact Pa|]. split; [exact Na|].
      intros T. destruct (P' a f Na) as (f' & Na' & Q1 & _). destruct (Q1 Pa) as (T1 & T2). apply Q. rewrite Na, Na'. f_equal. apply bits_eq. intros k _. destruct (Z.eq_dec k 1) as [-> |Nk]; [congruence|apply T2, Nk].
Qed.

(** the edges still to come *)
Lemma auto_loop m0 since lost m : bigEnough edgels (cim m) -> forall L s r, hist m0 since lost m s -> NoDup (map (fun e => clabel (einf e)) L) -> (forall e, In e L -> exists l, isEdge m l e) ->
  exists s' r', forEach (autoStep edgels threshold m) L (s, r) = Ok (s', r') /\ hist m0 since lost m s' /\ setFlags s' (flags s) = s /\
    (forall a f, nth_error (flags s) a = Some f -> exists f', nth_error (flags s') a = Some f' /\
       (forall l e, In e L -> isEdge m l e -> partOf m0 m (Z.of_nat a) (Z.of_nat l) -> bitSays (canny (cim m) (Z.of_nat l)) f f') /\
       ((forall l e, In e L -> isEdge m l e -> ~ partOf m0 m (Z.of_nat a) (Z.of_nat l)) -> f' = f)) /\
    (forall x y, inRect r x y -> inRect r' x y) /\
    (forall l e x y, In e L -> isEdge m l e -> edgeChanged m0 m (flags s) (flags s') l -> inRect (cbounds (einf e)) x y -> inRect r' x y) /\
    (forall r0, (forall x y, inRect r x y -> inRect r0 x y) -> (forall l e x y, In e L -> isEdge m l e -> edgeChanged m0 m (flags s) (flags s') l -> inRect (cbounds (einf e)) x y -> inRect r0 x y) -> forall x y, inRect r' x y -> inRect r0 x y) /\
    ((forall l e, In e L -> isEdge m l e -> ~ edgeChanged m0 m (flags s) (flags s') l) -> r' = r).
Proof.
  intros B. induction L as [|e0 L IH]; intros s r H Nd All.
  - exists s, r. split; [reflexivity|]. split; [exact H|]. split; [destruct s; reflexivity|]. split; [intros a f Na; exists f; split; [exact Na|]; split; [intros l e []|reflexivity]|]. split; [auto|]. split; [intros l e x y []|]. split; [auto|reflexivity].
  - destruct (All e0 (or_introl eq_refl)) as (l0 & C0). destruct (auto_edge m0 since lost m s l0 e0 H C0 B) as (s1 & b & E1 & H1 & F1 & P1 & R1).
    cbn [map] in Nd. inversion_clear Nd as [|? ? N0 N1]. set (r1 := if b then rectOr r (cbounds (einf e0)) else r).
    destruct (IH s1 r1 H1 N1 (fun e I => All e (or_intror I))) as (s2 & r2 & E2 & H2 & F2 & P2 & G1 & G2 & G3 & G4).
    destruct (hist_kept _ _ _ _ _ _ _ _ H) as ((Fa & Wh & _) & _). assert (So : sound m) by apply Fa.
    assert (Lb : forall l e, isEdge m l e -> clabel (einf e) = Z.of_nat l) by (intros l e C; apply (live_exact m Line l _ (ch_start sound m So) (edge_cell m l e C))).
    assert (Ne : forall l e, In e L -> isEdge m l e -> l <> l0). { intros l e I C ->. apply N0. rewrite (Lb _ _ C0), <- (Lb _ _ C). apply (in_map (fun e => clabel (einf e))), I. }
    assert (Al : forall l e a, In e L -> isEdge m l e -> partOf m0 m a (Z.of_nat l) -> ~ partOf m0 m a (Z.of_nat l0)). { intros l e a I C Pa Pa0. apply (Ne l e I C). apply Nat2Z.inj. apply (part_one m0 m a _ _ Wh Pa Pa0). }
    assert (Once : forall l, isEdge m l e0 -> l = l0) by (intros l C; apply Nat2Z.inj; rewrite <- (Lb _ _ C), <- (Lb _ _ C0); reflexivity).
    (** entries of the other edges are those before *)
    assert (Sm : forall l e a, In e L -> isEdge m l e -> partOf m0 m (Z.of_nat a) (Z.of_nat l) -> nth_error (flags s1) a = nth_error (flags s) a).
    { intros l e a I C Pa. destruct (parts _ _ _ _ _ _ _ _ _ _ H C) as (_ & Pp). destruct (Pp _ Pa) as (a' & f & Ea & Na & _). apply Nat2Z.inj in Ea. subst a'. destruct (P1 a f Na) as (f1 & Na1 & _ & Q). rewrite (Q (Al l e _ I C Pa)) in Na1. congruence. }
    assert (Ch : forall l e, In e L -> isEdge m l e -> edgeChanged m0 m (flags s1) (flags s2) l <-> edgeChanged m0 m (flags s) (flags s2) l).
    { intros l e I C. split; intros (a & Pa & Q); exists a; (split; [exact Pa|]); [rewrite <- (Sm l e a I C Pa)|rewrite (Sm l e a I C Pa)]; exact Q. }
    (** and those of this edge stay *)
    assert (Sm0 : forall a, partOf m0 m (Z.of_nat a) (Z.of_nat l0) -> nth_error (flags s2) a = nth_error (flags s1) a).
    { intros a Pa. destruct (parts _ _ _ _ _ _ _ _ _ _ H1 C0) as (_ & Pp). destruct (Pp _ Pa) as (a' & f & Ea & Na & _). apply Nat2Z.inj in Ea. subst a'. destruct (P2 a f Na) as (f2 & Na2 & _ & Q). rewrite Na2, Na, Q; [reflexivity|]. intros l e I C Pl. apply (Al l e _ I C Pl Pa). }
    assert (Ch0 : b = true <-> edgeChanged m0 m (flags s) (flags s2) l0).
    { rewrite R1. split; intros (a & Pa & Q); exists a; (split; [exact Pa|]); [rewrite (Sm0 a Pa)|rewrite <- (Sm0 a Pa)]; exact Q. }
    exists s2, r2. split. { cbn [forEach]. unfold autoStep at 1. cbn [fst snd]. rewrite E1. cbn [bind fst snd]. exact E2. }
    split; [exact H2|]. split. { rewrite <- F1. rewrite <- F2. destruct s2. reflexivity. }
    split; [|split; [|split; [|split]]].
    + intros a f Na. destruct (P1 a f Na) as (f1 & Na1 & Q1 & Q2). destruct (P2 a f1 Na1) as (f2 & Na2 & Q3 & Q4). exists f2. split; [exact Na2|]. split.
      * intros l e [<-|I] C Pa; [rewrite (Once l C) in *|].
        -- assert (f2 = f1) by (specialize (Sm0 a Pa); congruence). subst f2. apply Q1, Pa.
        -- pose proof (Sm l e a I C Pa) as K. assert (f1 = f) by congruence. subst f1. apply (Q3 l e I C Pa).
      * intros N. rewrite Q4, Q2; [reflexivity|apply (N l0 e0 (or_introl eq_refl) C0)|]. intros l e I C. apply (N l e (or_intror I) C).
    + intros x y I. apply G1. unfold r1. destruct b; [apply rectOr_l, I|exact I].
    + intros l e x y [<-|I] C K X; [rewrite (Once l C) in *|].
      * apply G1. unfold r1. rewrite (proj2 Ch0 K). apply rectOr_r, X.
      * apply (G2 l e x y I C); [apply (Ch l e I C), K|exact X].
    + intros r0 K1 K2. apply G3.
      * unfold r1. destruct b; [|exact K1]. apply rectOr_least; [exact K1|]. intros x y X. apply (K2 l0 e0 x y (or_introl eq_refl) C0 (proj1 Ch0 eq_refl) X).
      * intros l e x y I C K X. apply (K2 l e x y (or_intror I) C); [apply (Ch l e I C), K|exact X].
    + intros N. rewrite G4. { unfold r1. destruct b; [|reflexivity]. exfalso. apply (N l0 e0 (or_introl eq_refl) C0), Ch0. reflexivity. }
      intros l e I C K. apply (N l e (or_intror I) C), (Ch l e I C), K.
Qed.

Lemma live_edges m : sound m -> NoDup (map (fun e => clabel (einf e)) (filter (fun e => initialized (einf e)) (cedges m))) /\ (forall e, In e (filter (fun e => initialized (einf e)) (cedges m)) <-> exists l, isEdge m l e).
Proof.
  intros So. split.
  - assert (Lb : forall l e, isEdge m l e -> clabel (einf e) = Z.of_nat l) by (intros l e C; apply (live_exact m Line l _ (ch_start sound m So) (edge_cell m l e C))).
    assert (G : forall L k, (forall i e, nth_error L i = Some e -> nth_error (cedges m) (k + i) = Some e) -> NoDup (map (fun e => clabel (einf e)) (filter (fun e => initialized (einf e)) L)) /\ forall e, In e (filter (fun e => initialized (einf e)) L) -> Z.of_nat k <= clabel (einf e)).
    { induction L as [|e L IH]; intros k K; [split; [constructor|intros e []]|]. destruct (IH (Datatypes.S k)) as (A & B). { intros i e' N. rewrite <- (K (Datatypes.S i) e' N). f_equal. lia. }
      cbn [filter]. destruct (initialized (einf e)) eqn:I; [|split; [exact A|intros e' J; specialize (B e' J); lia]].
      assert (L0 : clabel (einf e) = Z.of_nat k). { apply Lb. split; [|exact I]. rewrite <- (K 0%nat e eq_refl). f_equal. lia. }
      cbn [map]. split; [constructor; [|exact A]|intros e' [<-|J]; [lia|specialize (B e' J); lia]]. intros J. apply in_map_iff in J. destruct J as (e' & Q & J). specialize (B e' J). lia. }
    apply (G (cedges m) 0%nat). intros i e N. exact N.
  - intros e. rewrite filter_In. split.
    + intros (I & J). apply In_nth_error in I. destruct I as (l & I). exists l. split; assumption.
    + intros (l & N & I). split; [apply (nth_error_In _ _ N)|exact I].
Qed.

Theorem auto_all m0 since lost m s : hist m0 since lost m s -> bigEnough edgels (cim m) ->
  exists s' r, initAutoProtection edgels threshold m s = Ok (s', r) /\ hist m0 since lost m s' /\ setFlags s' (flags s) = s /\
    (forall a f, nth_error (flags s) a = Some f -> exists f', nth_error (flags s') a = Some f' /\
       (forall l e, isEdge m l e -> partOf m0 m (Z.of_nat a) (Z.of_nat l) -> bitSays (canny (cim m) (Z.of_nat l)) f f') /\
       ((forall l e, isEdge m l e -> ~ partOf m0 m (Z.of_nat a) (Z.of_nat l)) -> f' = f)) /\
    (forall l e x y, isEdge m l e -> edgeChanged m0 m (flags s) (flags s') l -> owns (cim m) Line (Z.of_nat l) x y -> inRect r x y) /\
    (forall r0, (forall l e x y, isEdge m l e -> edgeChanged m0 m (flags s) (flags s') l -> owns (cim m) Line (Z.of_nat l) x y -> inRect r0 x y) -> forall x y, inRect r x y -> inRect r0 x y) /\
    ((forall l e, isEdge m l e -> ~ edgeChanged m0 m (flags s) (flags s') l) -> r = Rect 0 0 0 0).
Proof.
  intros H B. destruct (hist_kept _ _ _ _ _ _ _ _ H) as ((Fa & _) & _). assert (So : sound m) by apply Fa. destruct (live_edges m So) as (Nd & Al).
  destruct (auto_loop m0 since lost m B _ s (Rect 0 0 0 0) H Nd (fun e => proj1 (Al e))) as (s' & r & E & H' & F & P & _ & G2 & G3 & G4).
  assert (In' : forall l e, isEdge m l e -> In e (filter (fun e => initialized (einf e)) (cedges m))) by (intros l e C; apply Al; eauto).
  assert (Ex : forall l e, isEdge m l e -> exactRect (owns (cim m) Line (Z.of_nat l)) (cbounds (einf e))) by (intros l e C; apply (live_exact m Line l _ (ch_start sound m So) (edge_cell m l e C))).
  exists s', r. split; [exact E|]. split; [exact H'|]. split; [exact F|]. split; [|split; [|split]].
  - intros a f Na. destruct (P a f Na) as (f' & Na' & Q1 & Q2). exists f'. split; [exact Na'|]. split; [intros l e C; apply (Q1 l e (In' l e C) C)|]. intros N. apply Q2. intros l e _. apply N.
  - intros l e x y C K O. apply (G2 l e x y (In' l e C) C K). apply (Ex l e C), O.
  - intros r0 K. apply G3; [intros x y; unfold inRect; cbn; lia|]. intros l e x y _ C Ch X. destruct (Ex l e C) as (_ & (y1 & X1) & (y2 & X2) & (x3 & Y1) & (x4 & Y2)).
    pose proof (K l e _ _ C Ch X1) as R1. pose proof (K l e _ _ C Ch X2) as R2. pose proof (K l e _ _ C Ch Y1) as R3. pose proof (K l e _ _ C Ch Y2) as R4. unfold inRect in *. lia.
  - intros N. apply G4. intros l e _. apply N.
Qed.

(** a second time nothing changes *)
Theorem auto_again m0 since lost m s s1 r : hist m0 since lost m s -> bigEnough edgels (cim m) -> initAutoProtection edgels threshold m s = Ok (s1, r) ->
  exists s2, initAutoProtection edgels threshold m s1 = Ok (s2, Rect 0 0 0 0) /\ forall a f, nth_error (flags s1) a = Some f -> nth_error (flags s2) a = Some f.
Proof.
  intros H B E. destruct (auto_all m0 since lost m s H B) as (s' & r' & E' & H1 & _ & P1 & _). rewrite E in E'. injection E' as <- <-.
  destruct (auto_all m0 since lost m s1 H1 B) as (s2 & r2 & E2 & H2 & _ & P2 & _ & _ & Z2).
  assert (G : forall l e a, isEdge m l e -> partOf m0 m (Z.of_nat a) (Z.of_nat l) -> nth_error (flags s2) a = nth_error (flags s1) a).
  { intros l e a C Pa. destruct (parts _ _ _ _ _ _ _ _ _ _ H C) as (_ & Pp). destruct (Pp _ Pa) as (a' & f & Ea & Na & _). apply Nat2Z.inj in Ea. subst a'. destruct (P1 a f Na) as (f1 & Na1 & Q1 & _). destruct (P2 a f1 Na1) as (f2 & Na2 & Q2 & _).
    rewrite Na1, Na2. f_equal. destruct (Q1 l e C Pa) as (T1 & _). destruct (Q2 l e C Pa) as (T2 & U2). apply bits_eq. intros k _. destruct (Z.eq_dec k 1) as [-> |Nk]; [|apply U2, Nk].
    destruct (Z.testbit f1 1) eqn:X; [apply T2, T1, eq_refl|]. destruct (Z.testbit f2 1) eqn:Y; [|reflexivity]. symmetry. apply T1, T2, eq_refl. }
  exists s2. split. { rewrite E2. f_equal. f_equal. apply Z2. intros l e C (a & Pa & Q). apply Q, (G l e a C Pa). }
  intros a f Na. destruct (P2 a f Na) as (f2 & Na2 & _ & Q). rewrite Na2. f_equal.
  destruct (Z.eq_dec f2 f) as [K|K]; [exact K|exfalso]. assert (N : ~ forall l e, isEdge m l e -> ~ partOf m0 m (Z.of_nat a) (Z.of_nat l)) by (intros N; apply K, Q, N). apply N. intros l e C Pa. apply K. pose proof (G l e a C Pa) as X. congruence.
Qed.
End Data.
