(** An edge is thinned: all pixels, rectangles and sizes afterwards. *)
From Coq Require Import Lia.
From Verif Require Import Base CellMap_Model CellMap_Spec CellMap_Scan CellMap_Proofs CellMap_Main CellMap_Check CellThin_Model CellThin_Spec CellThin_Pixel.
Local Open Scope Z_scope.

Lemma manyPixels_remove (P : Z -> Z -> Prop) n x y : manyPixels P n -> P x y -> manyPixels (fun a b => P a b /\ (a, b) <> (x, y)) (n - 1).
Proof.
  intros (ps & ND & H & L) K. apply H in K. destruct (in_split _ _ K) as (u & v & ->). exists (u ++ v). split; [exact (NoDup_remove_1 _ _ _ ND)|].
  split; [|rewrite app_length in *; cbn in L; lia]. pose proof (NoDup_remove_2 _ _ _ ND) as N. intros a b. rewrite <- H, !in_app_iff. cbn. rewrite in_app_iff in N. split.
  - intros Q. split; [tauto|]. intros [= -> ->]. tauto.
  - intros [[Q|[Q|Q]] D]; [tauto|congruence|tauto].
Qed.
Lemma one_many' x y : manyPixels (fun a b => (a, b) = (x, y)) 1.
Proof. exists [(x, y)]. split; [constructor; [intros []|constructor]|]. split; [|reflexivity]. intros a b. cbn. split; [intros [H|[]]; congruence|intros H; left; congruence]. Qed.

Lemma point_dec (a b x y : Z) : (a, b) = (x, y) \/ (a, b) <> (x, y).
Proof. destruct (Z.eq_dec a x) as [->|]; [destruct (Z.eq_dec b y) as [->|]; [left; reflexivity|]|]; right; congruence. Qed.

Lemma writePix_one im x y v : 0 <= x < iw im -> 0 <= y < ih im -> exists im', writePix im x y v = Ok im' /\ onePixel im im' x y v.
Proof.
  intros Hx Hy. unfold writePix. assert (insideImg im x y = true) as -> by (apply insideImg_iff; auto). eexists. split; [reflexivity|]. split; [reflexivity|]. split; [reflexivity|]. cbn. rewrite !Z.eqb_refl. split; [reflexivity|].
  intros a b N. destruct (Z.eqb_spec a x) as [->|]; [|reflexivity]. destruct (Z.eqb_spec b y) as [->|]; [contradiction N; reflexivity|reflexivity].
Qed.
Lemma onePixel_owns im im' x y t l : onePixel im im' x y (Pix t l) -> 0 <= x < iw im -> 0 <= y < ih im ->
  (forall a b, owns im' t l a b <-> owns im t l a b \/ (a, b) = (x, y)) /\
  (forall u k, (u, k) <> (t, l) -> forall a b, owns im' u k a b <-> owns im u k a b /\ (a, b) <> (x, y)).
Proof.
  intros (Ew & Eh & Ep & Er) Hx Hy. unfold owns. rewrite Ew, Eh. split.
  - intros a b. destruct (point_dec a b x y) as [D|D]; [|rewrite (Er a b D); tauto]. injection D as -> ->. split; [auto|]. intros _. auto.
  - intros u k N a b. destruct (point_dec a b x y) as [D|D]; [|rewrite (Er a b D); tauto]. injection D as -> ->. rewrite Ep. split; [intros (_ & _ & [= -> ->]); contradiction N; reflexivity|]. intros [_ K]. contradiction K; reflexivity.
Qed.

Section Thinning.
Variables (im0 : img) (e f1 f2 : Z) (grown : Z -> Z -> Z) (ce c1 c2 : cinfo).
Hypothesis W : wfImg im0.
Hypothesis (He : 0 <= e < 2 ^ 30) (H1 : 0 <= f1 < 2 ^ 30) (H2 : 0 <= f2 < 2 ^ 30) (H12 : f1 <> f2).
Hypothesis proper : forall x y, owns im0 Line e x y -> grown x y = 0 \/ grown x y = f1 \/ grown x y = f2.

(** what has been found so far of the edge that stays *)
Definition soFar (P : Z -> Z -> Prop) (r : rect) : Prop := (r = emptyRect /\ forall a b, ~ P a b) \/ exactRect P r.
Lemma soFar_point P r x y : soFar P r -> exactRect (fun a b => P a b \/ (a, b) = (x, y)) (rectOrPoint r x y).
Proof.
  intros [[-> N]|H].
  - assert (rectOrPoint emptyRect x y = Rect x y (x + 1) (y + 1)) as -> by (unfold rectOrPoint, rectOr; rewrite rectEmpty_false by (cbn; lia); reflexivity).
    refine (exactRect_ext _ _ _ _ (point_exact x y)). intros a b. split; [auto|]. intros [K|K]; [contradiction (N a b K)|exact K].
  - exact (exactRect_or _ _ _ _ H (point_exact x y)).
Qed.
Lemma soFar_ext P Q r : (forall a b, P a b <-> Q a b) -> soFar P r -> soFar Q r.
Proof. intros H [[-> N]|K]; [left; split; [reflexivity|]; intros a b Q'; apply H in Q'; exact (N a b Q')|right; exact (exactRect_ext _ _ _ H K)]. Qed.

Record going (D : Z -> Z -> Prop) (s : thin) : Prop := Going {
  g_w : iw (tim s) = iw im0; g_h : ih (tim s) = ih im0;
  g_stay : forall a b, D a b -> owns im0 Line e a b -> grown a b <> 0 -> ipix (tim s) a b = Pix Region (grown a b);
  g_rest : forall a b, (D a b -> owns im0 Line e a b -> grown a b = 0) -> ipix (tim s) a b = ipix im0 a b;
  g_le : clabel (tedge s) = clabel ce; g_l1 : clabel (tface1 s) = clabel c1; g_l2 : clabel (tface2 s) = clabel c2;
  g_be : soFar (fun a b => D a b /\ owns im0 Line e a b /\ grown a b = 0) (cbounds (tedge s));
  g_se : manyPixels (owns (tim s) Line e) (csize (tedge s));
  g_b1 : exactRect (owns (tim s) Region f1) (cbounds (tface1 s)); g_s1 : f1 <> 0 -> manyPixels (owns (tim s) Region f1) (csize (tface1 s));
  g_b2 : exactRect (owns (tim s) Region f2) (cbounds (tface2 s)); g_s2 : f2 <> 0 -> manyPixels (owns (tim s) Region f2) (csize (tface2 s)) }.

Lemma size_small im t l n : iw im = iw im0 -> ih im = ih im0 -> manyPixels (owns im t l) n -> 0 <= n < 2 ^ 31.
Proof.
  intros Ew Eh M. destruct W as (A & B & C & _). pose proof (manyPixels_le (owns im t l) (iw im0) (ih im0) n ltac:(lia) ltac:(lia)) as L.
  specialize (L ltac:(intros x y (X & Y & _); lia) M). lia.
Qed.

Lemma going_ext D D' s : (forall a b, D a b <-> D' a b) -> going D s -> going D' s.
Proof.
  intros H []. constructor; auto.
  - intros a b K. apply g_stay0, H, K.
  - intros a b K. apply g_rest0. intros Q. apply K, H, Q.
  - refine (soFar_ext _ _ _ _ g_be0). intros a b. rewrite H. tauto.
Qed.

Lemma thinPixel_going D s x y : going D s -> ~ D x y -> 0 <= x < iw im0 -> 0 <= y < ih im0 ->
  exists s', thinPixel grown e f1 f2 s x y = Ok s' /\ going (fun a b => D a b \/ (a, b) = (x, y)) s'.
Proof.
  intros G ND Hx Hy. pose proof G as G0. destruct G as [Gw Gh Gs Gr Gle Gl1 Gl2 Gbe Gse Gb1 Gs1 Gb2 Gs2]. unfold thinPixel.
  assert (readPix (tim s) x y = Ok (ipix (tim s) x y)) as -> by (apply readPix_Ok; split; [lia|reflexivity]). cbn [bind].
  assert (ipix (tim s) x y = ipix im0 x y) as Ep by (apply Gr; intros K; contradiction (ND K)). rewrite Ep, !cellPixel_small by assumption.
  destruct (pixEqb (ipix im0 x y) (Pix Line e)) eqn:E.
  - apply pixEqb_eq in E. assert (owns im0 Line e x y) as OE by (split; [exact Hx|split; [exact Hy|exact E]]).
    destruct (Z.eqb_spec (grown x y) 0) as [Z0|Z0].
    + eexists. split; [reflexivity|]. constructor; cbn; try assumption.
      * intros a b [K|[= -> ->]]; [exact (Gs a b K)|]. intros _ C. contradiction (C Z0).
      * intros a b K. apply Gr. intros Q. apply K. left. exact Q.
      * right. refine (exactRect_ext _ _ _ _ (soFar_point _ _ x y Gbe)). intros a b. split; [intros [(A & B & C)|[= -> ->]]; auto|]. intros ([A|A] & B & C); auto.
    + assert (forall f im', grown x y = f -> onePixel (tim s) im' x y (Pix Region f) -> f <> 0 ->
        iw im' = iw im0 /\ ih im' = ih im0 /\
        (forall a b, D a b \/ (a, b) = (x, y) -> owns im0 Line e a b -> grown a b <> 0 -> ipix im' a b = Pix Region (grown a b)) /\
        (forall a b, (D a b \/ (a, b) = (x, y) -> owns im0 Line e a b -> grown a b = 0) -> ipix im' a b = ipix im0 a b) /\
        manyPixels (owns im' Line e) ((csize (tedge s) - 1) mod 2 ^ 32) /\
        (forall r, exactRect (owns (tim s) Region f) r -> exactRect (owns im' Region f) (rectOrPoint r x y)) /\
        (forall n, manyPixels (owns (tim s) Region f) n -> manyPixels (owns im' Region f) ((n + 1) mod 2 ^ 32)) /\
        (forall u k, (u, k) <> (Region, f) -> (u, k) <> (Line, e) -> forall a b, owns (tim s) u k a b <-> owns im' u k a b)) as Paint.
      { intros f im' Eg OP Nf. pose proof (onePixel_owns _ _ _ _ _ _ OP ltac:(lia) ltac:(lia)) as [OA OB]. destruct OP as (Ew & Eh & Epx & Erx).
        split; [lia|]. split; [lia|]. split; [|split; [|split; [|split; [|split]]]].
        - intros a b K O' N. destruct (point_dec a b x y) as [[= -> ->]|Nd]; [rewrite Epx, Eg; reflexivity|]. rewrite (Erx a b Nd). apply Gs; [|exact O'|exact N]. destruct K as [K|K]; [exact K|contradiction].
        - intros a b K. destruct (point_dec a b x y) as [[= -> ->]|Nd]; [contradiction Z0; apply K; [right; reflexivity|exact OE]|]. rewrite (Erx a b Nd). apply Gr. intros Q. apply K. left. exact Q.
        - assert (owns (tim s) Line e x y) as Os by (split; [lia|split; [lia|rewrite Ep; exact E]]).
          pose proof (manyPixels_remove _ _ _ _ Gse Os) as M. assert (manyPixels (owns im' Line e) (csize (tedge s) - 1)) as M' by (refine (manyPixels_ext _ _ _ _ M); intros a b; symmetry; apply OB; discriminate).
          pose proof (size_small im' _ _ _ ltac:(lia) ltac:(lia) M') as B. rewrite Z.mod_small by lia. exact M'.
        - intros r X. unfold rectOrPoint. refine (exactRect_ext _ _ _ _ (exactRect_or _ _ _ _ X (point_exact x y))). intros a b. symmetry. apply OA.
        - intros n M. assert (manyPixels (owns im' Region f) (n + 1)) as M'.
          { refine (manyPixels_ext _ _ _ _ (manyPixels_or _ _ _ _ _ M (one_many' x y))); [intros a b; symmetry; apply OA|]. intros a b (_ & _ & Q) [= -> ->]. rewrite Ep, E in Q. discriminate Q. }
          pose proof (size_small im' _ _ _ ltac:(lia) ltac:(lia) M') as B. rewrite Z.mod_small by lia. exact M'.
        - intros u k N1 N2 a b. rewrite (OB u k N1). split; [|tauto]. intros K. split; [exact K|]. intros [= -> ->]. destruct K as (_ & _ & Q). rewrite Ep, E in Q. congruence. }
      destruct (writePix_one (tim s) x y (Pix Region f1) ltac:(lia) ltac:(lia)) as (i1 & W1 & O1). destruct (writePix_one (tim s) x y (Pix Region f2) ltac:(lia) ltac:(lia)) as (i2 & W2 & O2).
      destruct (Z.eqb_spec (grown x y) f1) as [E1|E1]; [|destruct (Z.eqb_spec (grown x y) f2) as [E2|E2]].
      * rewrite W1. cbn [bind]. eexists. split; [reflexivity|]. destruct (Paint f1 i1 E1 O1 ltac:(congruence)) as (Pw & Ph & P1 & P2 & P3 & P4 & P5 & P6).
        assert (forall a b, owns (tim s) Region f2 a b <-> owns i1 Region f2 a b) as Q by (apply P6; congruence).
        constructor; cbn; try assumption; auto.
        -- refine (soFar_ext _ _ _ _ Gbe). intros a b. split; [intros (A & B); auto|]. intros ([A|[= -> ->]] & B & C); [auto|contradiction (Z0 C)].
        -- exact (exactRect_ext _ _ _ Q Gb2).
        -- intros N. exact (manyPixels_ext _ _ _ Q (Gs2 N)).
      * rewrite W2. cbn [bind]. eexists. split; [reflexivity|]. destruct (Paint f2 i2 E2 O2 ltac:(congruence)) as (Pw & Ph & P1 & P2 & P3 & P4 & P5 & P6).
        assert (forall a b, owns (tim s) Region f1 a b <-> owns i2 Region f1 a b) as Q by (apply P6; congruence).
        constructor; cbn; try assumption; auto.
        -- refine (soFar_ext _ _ _ _ Gbe). intros a b. split; [intros (A & B); auto|]. intros ([A|[= -> ->]] & B & C); [auto|contradiction (Z0 C)].
        -- exact (exactRect_ext _ _ _ Q Gb1).
        -- intros N. exact (manyPixels_ext _ _ _ Q (Gs1 N)).
      * exfalso. destruct (proper x y OE) as [?|[?|?]]; contradiction.
  - assert (~ owns im0 Line e x y) as NE by (intros (_ & _ & K); apply pixEqb_eq in K; congruence).
    exists s. split; [reflexivity|]. constructor; try assumption.
    + intros a b [K|[= -> ->]]; [exact (Gs a b K)|]. intros C. contradiction (NE C).
    + intros a b K. apply Gr. intros Q. apply K. left. exact Q.
    + refine (soFar_ext _ _ _ _ Gbe). intros a b. split; [intros (A & B); auto|]. intros ([A|[= -> ->]] & B & C); [auto|contradiction (NE B)].
Qed.

Lemma thinRow_going : forall w D s x y, going D s -> 0 <= x -> x + Z.of_nat w <= iw im0 -> 0 <= y < ih im0 -> (forall a, x <= a -> ~ D a y) ->
  exists s', thinRow w grown e f1 f2 s x y = Ok s' /\ going (fun a b => D a b \/ (b = y /\ x <= a < x + Z.of_nat w)) s'.
Proof.
  induction w as [|w IH]; intros D s x y G Hx Hw Hy N.
  - exists s. split; [reflexivity|]. refine (going_ext _ _ _ _ G). intros a b. split; [auto|]. intros [K|K]; [exact K|lia].
  - cbn [thinRow]. destruct (thinPixel_going D s x y G (N x ltac:(lia)) ltac:(lia) Hy) as (s1 & E1 & G1). rewrite E1. cbn [bind].
    destruct (IH _ s1 (x + 1) y G1 ltac:(lia) ltac:(lia) Hy) as (s2 & E2 & G2).
    { intros a Ha [K|[= K]]; [exact (N a ltac:(lia) K)|lia]. }
    exists s2. split; [exact E2|]. refine (going_ext _ _ _ _ G2). intros a b. split.
    + intros [[K|[= -> ->]]|K]; [auto|right; lia|right; lia].
    + intros [K|[-> K]]; [auto|]. destruct (Z.eq_dec a x) as [->|]; [auto|right; lia].
Qed.
Lemma thinRows_going w : forall h D s x y, going D s -> 0 <= x -> x + Z.of_nat w <= iw im0 -> 0 <= y -> y + Z.of_nat h <= ih im0 -> (forall a b, y <= b -> ~ D a b) ->
  exists s', thinRows h w grown e f1 f2 s x y = Ok s' /\ going (fun a b => D a b \/ (x <= a < x + Z.of_nat w /\ y <= b < y + Z.of_nat h)) s'.
Proof.
  induction h as [|h IH]; intros D s x y G Hx Hw Hy Hh N.
  - exists s. split; [reflexivity|]. refine (going_ext _ _ _ _ G). intros a b. split; [auto|]. intros [K|K]; [exact K|lia].
  - cbn [thinRows]. destruct (thinRow_going w D s x y G Hx Hw ltac:(lia) (fun a _ => N a y ltac:(lia))) as (s1 & E1 & G1). rewrite E1. cbn [bind].
    destruct (IH _ s1 x (y + 1) G1 Hx Hw ltac:(lia) ltac:(lia)) as (s2 & E2 & G2).
    { intros a b Hb [K|[-> _]]; [exact (N a b ltac:(lia) K)|lia]. }
    exists s2. split; [exact E2|]. refine (going_ext _ _ _ _ G2). intros a b. split.
    + intros [[K|[-> K]]|K]; [auto|right; lia|right; lia].
    + intros [K|[K L]]; [auto|]. destruct (Z.eq_dec b y) as [->|]; [left; right; auto|right; lia].
Qed.
End Thinning.

Lemma filter_labels (v w : list cinfo) : map clabel v = map clabel w -> length (filter initialized v) = length (filter initialized w).
Proof.
  revert w. induction v as [|a v IH]; intros [|b w] H; try discriminate H; [reflexivity|]. cbn in H. injection H as A B. cbn. assert (initialized a = initialized b) as -> by (unfold initialized; rewrite A; reflexivity). destruct (initialized b); cbn; rewrite (IH w B); reflexivity.
Qed.

(** ** edgeRethinning *)
Lemma edgeRethinning_sound grown m e ei f1 f2 r : sound m -> at_ (cedges m) e = Ok ei -> initialized (einf ei) = true ->
  leftFaceLabel (cim m) (estart ei) = Ok f1 -> rightFaceLabel (cim m) (estart ei) = Ok f2 -> f1 <> f2 ->
  (exists c, isCell m Region (Z.to_nat f1) c) -> (exists c, isCell m Region (Z.to_nat f2) c) -> 0 <= f1 -> 0 <= f2 ->
  throughout (cim m) r -> (forall x y, owns (cim m) Line e x y -> inRect r x y) ->
  (forall x y, owns (cim m) Line e x y -> grown x y = 0 \/ grown x y = f1 \/ grown x y = f2) ->
  (exists x y, owns (cim m) Line e x y /\ grown x y = 0) ->
  exists m', edgeRethinning grown m e r = Ok m' /\ sound m' /\ thinned (cim m) (cim m') e grown /\ restKept m m' e f1 f2.
Proof.
  intros S Ei Ie F1 F2 N12 (k1 & K1) (k2 & K2) P1 P2 TR IR PR (sx & sy & Ss & Sg). unfold edgeRethinning. rewrite Ei. cbn [bind]. rewrite F1. cbn [bind]. rewrite F2. cbn [bind]. destruct (Z.eqb_spec f1 f2); [contradiction|].
  assert (forall f k, 0 <= f -> isCell m Region (Z.to_nat f) k -> exists i, at_ (cfaces m) f = Ok i /\ finf i = k) as FA.
  { intros f k Hf (A & _). cbn in A. rewrite nth_error_map in A. destruct (nth_error (cfaces m) (Z.to_nat f)) as [i|] eqn:E; [|discriminate A]. injection A as A. exists i. split; [apply at_Ok; auto|exact A]. }
  destruct (FA _ _ P1 K1) as (i1 & E1 & I1). destruct (FA _ _ P2 K2) as (i2 & E2 & I2). rewrite E1. cbn [bind]. rewrite E2. cbn [bind].
  pose proof (cells_edge _ _ _ Ei) as [Pe Ne]. assert (isCell m Line (Z.to_nat e) (einf ei)) as Ke by (split; assumption).
  pose proof (live_facts _ _ _ _ S Ke) as (Le & Be & Xe). pose proof (live_facts _ _ _ _ S K1) as (L1 & B1 & X1). pose proof (live_facts _ _ _ _ S K2) as (L2 & B2 & X2).
  rewrite Z2Nat.id in Le, Be, Xe, L1, B1, X1, L2, B2, X2 by assumption.
  destruct S as (WM & FR & HC & HP & HN). pose proof WM as [WI WL].
  assert (going (cim m) e f1 f2 grown (einf ei) (finf i1) (finf i2) (fun _ _ => False) (Thin (cim m) (withBounds emptyRect (einf ei)) (finf i1) (finf i2))) as G0.
  { constructor; cbn; auto; try (intros; tauto).
    - left. split; [reflexivity|]. tauto.
    - destruct (HC Line (Z.to_nat e) (einf ei) (proj1 Ke) (proj2 Ke)) as (_ & _ & M). rewrite Z2Nat.id in M by exact Pe. apply M. intros [D _]. discriminate D.
    - rewrite I1. exact X1.
    - intros Nf. rewrite I1. destruct (HC Region (Z.to_nat f1) k1 (proj1 K1) (proj2 K1)) as (_ & _ & M). rewrite Z2Nat.id in M by exact P1. apply M. intros [_ D]. lia.
    - rewrite I2. exact X2.
    - intros Nf. rewrite I2. destruct (HC Region (Z.to_nat f2) k2 (proj1 K2) (proj2 K2)) as (_ & _ & M). rewrite Z2Nat.id in M by exact P2. apply M. intros [_ D]. lia. }
  unfold throughout in TR. pose proof (IR _ _ Ss) as IRs. unfold inRect in IRs.
  destruct (thinRows_going (cim m) e f1 f2 grown (einf ei) (finf i1) (finf i2) WI (conj Pe Be) (conj P1 B1) (conj P2 B2) N12 PR (Z.to_nat (rx1 r - rx0 r)) (Z.to_nat (ry1 r - ry0 r)) _ _ (rx0 r) (ry0 r) G0) as (s & Es & G); try lia.
  rewrite Es. cbn [bind]. clear Es G0. destruct G as [Gw Gh Gs Gr Gle Gl1 Gl2 Gbe Gse Gb1 Gs1 Gb2 Gs2].
  assert (forall a b, owns (cim m) Line e a b -> False \/ (rx0 r <= a < rx0 r + Z.of_nat (Z.to_nat (rx1 r - rx0 r)) /\ ry0 r <= b < ry0 r + Z.of_nat (Z.to_nat (ry1 r - ry0 r)))) as InD.
  { intros a b K. right. apply IR in K. unfold inRect in K. lia. }
  assert (thinned (cim m) (tim s) e grown) as TH.
  { split; [exact Gw|]. split; [exact Gh|]. split; [|split].
    - intros a b K Z0. rewrite (Gr a b); [apply K|auto].
    - intros a b K Z0. apply Gs; auto.
    - intros a b K. apply Gr. intros _ K'. contradiction. }
  destruct TH as (_ & _ & T1 & T2 & T3).
  (* the map afterwards *)
  pose proof Ei as Ei'. apply at_Ok in Ei'. destruct Ei' as [_ Ne']. pose proof E1 as E1'. apply at_Ok in E1'. destruct E1' as [_ N1']. pose proof E2 as E2'. apply at_Ok in E2'. destruct E2' as [_ N2'].
  unfold updEdge. cbn [setIm cedges]. rewrite Ei. cbn [bind]. rewrite (at_put _ _ _ Ei). cbn [bind].
  unfold updFace at 1. cbn [setEdges setIm cfaces]. rewrite E1. cbn [bind]. rewrite (at_put _ _ _ E1). cbn [bind].
  unfold updFace at 1. cbn [setFaces setEdges setIm cfaces].
  assert (at_ (list_upd (cfaces m) (Z.to_nat f1) (onFace (fun _ => tface1 s) i1)) f2 = Ok i2) as E2'.
  { apply at_Ok. split; [exact P2|]. rewrite nth_error_upd_neq by lia. exact N2'. }
  rewrite E2'. cbn [bind]. rewrite (at_put _ _ _ E2'). cbn [bind]. cbn.
  match goal with |- exists q, Ok ?X = Ok q /\ _ => set (m' := X) end. exists m'. split; [reflexivity|].
  assert (cellsOf m' Region = list_upd (list_upd (cellsOf m Region) (Z.to_nat f1) (tface1 s)) (Z.to_nat f2) (tface2 s)) as CR by (cbn; rewrite !map_upd; reflexivity).
  assert (cellsOf m' Line = list_upd (cellsOf m Line) (Z.to_nat e) (tedge s)) as CL by (cbn; rewrite map_upd; reflexivity).
  assert (forall t, map clabel (cellsOf m' t) = map clabel (cellsOf m t)) as LAB.
  { intros []; [rewrite CR|rewrite CL|reflexivity|reflexivity].
    - erewrite map_upd_same; [eapply map_upd_same; [exact (proj1 K1)|congruence]| |rewrite Gl2, I2; reflexivity]. rewrite nth_error_upd_neq by lia. exact (proj1 K2).
    - eapply map_upd_same; [exact (proj1 Ke)|exact Gle]. }
  assert (forall t l c', nth_error (cellsOf m' t) l = Some c' -> exists c, nth_error (cellsOf m t) l = Some c /\ clabel c' = clabel c) as BACK.
  { intros t l c' K. pose proof (f_equal (fun v => nth_error v l) (LAB t)) as Q. cbn beta in Q. rewrite !nth_error_map, K in Q. destruct (nth_error (cellsOf m t) l) as [c|]; [|discriminate Q]. exists c. injection Q as Q. auto. }
  assert (forall t l c, isCell m t l c -> exists c', isCell m' t l c') as LIVE.
  { intros t l c (A & B). pose proof (f_equal (fun v => nth_error v l) (LAB t)) as Q. cbn beta in Q. rewrite !nth_error_map, A in Q. destruct (nth_error (cellsOf m' t) l) as [c'|] eqn:E'; [|discriminate Q]. injection Q as Q. exists c'. split; [exact E'|]. apply initialized_iff. rewrite Q. apply initialized_iff, B. }
  assert (forall x y, owns (cim m) Line e x y -> ipix (tim s) x y = Pix Line e \/ ipix (tim s) x y = Pix Region f1 \/ ipix (tim s) x y = Pix Region f2) as PX.
  { intros x y K. destruct (Z.eq_dec (grown x y) 0) as [Z0|Z0]; [left; exact (T1 x y K Z0)|]. right. rewrite (T2 x y K Z0). destruct (PR x y K) as [?|[ ->| ->]]; [contradiction|left|right]; reflexivity. }
  assert (forall x y, owns (cim m) Line e x y \/ ~ owns (cim m) Line e x y) as DecE.
  { intros x y. unfold owns. destruct (pixEqb (ipix (cim m) x y) (Pix Line e)) eqn:E; [apply pixEqb_eq in E|right; intros (_ & _ & K); apply pixEqb_eq in K; congruence].
    destruct (insideImg (cim m) x y) eqn:I; [apply insideImg_iff in I; left; tauto|right; intros (A & B & _)]. assert (insideImg (cim m) x y = true) by (apply insideImg_iff; auto). congruence. }
  assert (forall t l, (t, l) <> (Line, e) -> (t, l) <> (Region, f1) -> (t, l) <> (Region, f2) -> forall x y, owns (cim m) t l x y <-> owns (tim s) t l x y) as OTHER.
  { intros t l A B C x y. destruct (DecE x y) as [K|K].
    - split; intros (U & V & Q); [destruct K as (_ & _ & K); congruence|]. destruct (PX x y K) as [PX'|[PX'|PX']]; congruence.
    - unfold owns. rewrite (T3 x y K), Gw, Gh. tauto. }
  assert (exactRect (owns (tim s) Line e) (cbounds (tedge s))) as XE.
  { destruct Gbe as [[_ Nn]|Gbe]; [contradiction (Nn sx sy); auto|]. refine (exactRect_ext _ _ _ _ Gbe). intros a b. split.
    - intros (_ & K & Z0). destruct K as (U & V & Q). split; [lia|]. split; [lia|]. apply T1; [exact (conj U (conj V Q))|exact Z0].
    - intros K. destruct (DecE a b) as [K'|K'].
      + split; [auto|]. split; [exact K'|]. destruct (Z.eq_dec (grown a b) 0) as [Z0|Z0]; [exact Z0|]. destruct K as (_ & _ & K). rewrite (T2 a b K' Z0) in K. discriminate K.
      + exfalso. apply K'. destruct K as (U & V & K). rewrite (T3 a b K') in K. split; [lia|split; [lia|exact K]]. }
  split; [|split].
  - (* sound *)
    split; [|split; [|split; [|split]]].
    + split; [|intros t; pose proof (f_equal (@length Z) (LAB t)) as Q; rewrite !map_length in Q; rewrite Q; apply WL].
      destruct WI as (W1 & W2 & W3 & W4). change (cim m') with (tim s). split; [lia|]. split; [lia|]. split; [rewrite Gw, Gh; exact W3|]. intros x y X Y. rewrite Gw in X. rewrite Gh in Y.
      destruct (DecE x y) as [K|K]; [destruct (PX x y K) as [PX'|[PX'|PX']]; rewrite PX'; cbn; lia|]. rewrite (T3 x y K). exact (W4 x y X Y).
    + intros x y X Y Q. change (cim m') with (tim s) in *. rewrite Gw in X, Q. rewrite Gh in Y, Q. rewrite T3; [exact (FR x y X Y Q)|]. intros (_ & _ & K). rewrite (FR x y X Y Q) in K. discriminate K.
    + intros t l c' N I'. change (cim m') with (tim s). destruct (BACK t l c' N) as (c & Nc & Lc). assert (initialized c = true) as Ic by (apply initialized_iff; rewrite <- Lc; apply initialized_iff, I').
      destruct (HC t l c Nc Ic) as (A & B & C). split; [congruence|].
      assert ((t, l) = (Line, Z.to_nat e) \/ (t, l) = (Region, Z.to_nat f1) \/ (t, l) = (Region, Z.to_nat f2) \/ (t, Z.of_nat l) <> (Line, e) /\ (t, Z.of_nat l) <> (Region, f1) /\ (t, Z.of_nat l) <> (Region, f2)) as CASES.
      { destruct t; [|destruct (Nat.eq_dec l (Z.to_nat e)) as [->|]; [left; reflexivity|]| |]; try (right; right; right; repeat split; intros [= Q]; lia); try (right; right; right; repeat split; discriminate).
        destruct (Nat.eq_dec l (Z.to_nat f1)) as [->|]; [right; left; reflexivity|]. destruct (Nat.eq_dec l (Z.to_nat f2)) as [->|]; [right; right; left; reflexivity|]. right; right; right; repeat split; intros [= Q]; lia. }
      destruct CASES as [[= -> ->]|[[= -> ->]|[[= -> ->]|(D1 & D2 & D3)]]].
      * rewrite CL, nth_error_upd_eq in N by exact (nth_error_lt _ _ _ (proj1 Ke)). injection N as <-. rewrite Z2Nat.id by exact Pe. auto.
      * rewrite CR, nth_error_upd_neq, nth_error_upd_eq in N by (lia || exact (nth_error_lt _ _ _ (proj1 K1))). injection N as <-. rewrite Z2Nat.id by exact P1. split; [exact Gb1|]. intros Q. apply Gs1. intros ->. apply Q. split; reflexivity.
      * rewrite CR, nth_error_upd_eq in N by (rewrite list_upd_length; exact (nth_error_lt _ _ _ (proj1 K2))). injection N as <-. rewrite Z2Nat.id by exact P2. split; [exact Gb2|]. intros Q. apply Gs2. intros ->. apply Q. split; reflexivity.
      * assert (c' = c) as ->.
        { assert (nth_error (cellsOf m' t) l = nth_error (cellsOf m t) l) as Q; [|congruence]. destruct t; [rewrite CR, !nth_error_upd_neq; [reflexivity| |]|rewrite CL, nth_error_upd_neq; [reflexivity|]|reflexivity|reflexivity]; intros <-; [apply D2|apply D3|apply D1]; f_equal; lia. }
        pose proof (OTHER t (Z.of_nat l) D1 D2 D3) as Q. split; [exact (exactRect_ext _ _ _ Q B)|]. intros Z0. exact (manyPixels_ext _ _ _ Q (C Z0)).
    + intros t l x y K Nt. change (cim m') with (tim s) in K. assert (exists c, isCell m t (Z.to_nat l) c) as (c & Hc); [|destruct (LIVE t (Z.to_nat l) c Hc) as (c' & A & B); exists c'; auto].
      destruct (DecE x y) as [K'|K'].
      * destruct K as (_ & _ & K). destruct (PX x y K') as [Q|[Q|Q]]; rewrite Q in K; injection K as <- <-; eauto.
      * assert (owns (cim m) t l x y) as K0 by (destruct K as (U & V & K); rewrite (T3 x y K') in K; split; [lia|split; [lia|exact K]]). exact (HP t l x y K0 Nt).
    + intros t Nt. rewrite (filter_labels _ _ (LAB t)), <- (HN t Nt). destruct t; reflexivity.
  - split; [exact Gw|]. split; [exact Gh|]. split; [exact T1|]. split; [exact T2|exact T3].
  - unfold restKept, m', setFaces, setEdges, setIm. cbn [cnodes cedges cfaces nodeCount edgeCount faceCount cinit]. split; [reflexivity|]. split; [|split; [|split; [|split; [|auto]]]].
    + apply (map_upd_same _ _ _ _ _ Ne'). cbn. rewrite Gle. reflexivity.
    + erewrite map_upd_same; [apply (map_upd_same _ _ _ _ _ N1'); cbn; rewrite Gl1; reflexivity| |cbn; rewrite Gl2; reflexivity]. rewrite nth_error_upd_neq by lia. exact N2'.
    + intros l Nl. rewrite nth_error_upd_neq by lia. reflexivity.
    + intros l A B. rewrite !nth_error_upd_neq by lia. reflexivity.
Qed.
