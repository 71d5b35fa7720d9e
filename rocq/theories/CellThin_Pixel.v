(** One pixel changes hands: the rectangles stay exact. *)
From Coq Require Import Lia.
From Verif Require Import Base CellMap_Model CellMap_Spec CellMap_Scan CellMap_Proofs CellMap_Main CellMap_Check CellThin_Model CellThin_Spec.
Local Open Scope Z_scope.

(** ** std::find *)
Lemma findFrom_spec im dx dy v : forall n x y, (forall i, 0 <= i < Z.of_nat n -> 0 <= x + dx * i < iw im /\ 0 <= y + dy * i < ih im) ->
  exists f, findFrom n im dx dy x y v = Ok f /\ (f = true <-> exists i, 0 <= i < Z.of_nat n /\ ipix im (x + dx * i) (y + dy * i) = v).
Proof.
  induction n as [|n IH]; intros x y H.
  - exists false. split; [reflexivity|]. split; [discriminate|]. intros (i & A & _). lia.
  - cbn [findFrom]. pose proof (H 0 ltac:(lia)) as H0. rewrite !Z.mul_0_r, !Z.add_0_r in H0.
    assert (readPix im x y = Ok (ipix im x y)) as -> by (apply readPix_Ok; auto). cbn [bind].
    destruct (pixEqb (ipix im x y) v) eqn:E.
    + apply pixEqb_eq in E. exists true. split; [reflexivity|]. split; [|reflexivity]. intros _. exists 0. rewrite !Z.mul_0_r, !Z.add_0_r. split; [lia|exact E].
    + assert (ipix im x y <> v) as N by (intros K; apply pixEqb_eq in K; congruence).
      destruct (IH (x + dx) (y + dy)) as (f & Ef & F).
      { intros i Hi. specialize (H (i + 1) ltac:(lia)). replace (x + dx + dx * i) with (x + dx * (i + 1)) by ring. replace (y + dy + dy * i) with (y + dy * (i + 1)) by ring. exact H. }
      exists f. split; [exact Ef|]. rewrite F. split.
      * intros (i & A & B). exists (i + 1). split; [lia|]. replace (x + dx * (i + 1)) with (x + dx + dx * i) by ring. replace (y + dy * (i + 1)) with (y + dy + dy * i) by ring. exact B.
      * intros (i & A & B). destruct (Z.eq_dec i 0) as [->|Ni]; [rewrite !Z.mul_0_r, !Z.add_0_r in B; contradiction|].
        exists (i - 1). split; [lia|]. replace (x + dx + dx * (i - 1)) with (x + dx * i) by ring. replace (y + dy + dy * (i - 1)) with (y + dy * i) by ring. exact B.
Qed.
Lemma findCol_spec im x a b v : a <= b -> 0 <= x < iw im -> 0 <= a -> b <= ih im ->
  exists f, findCol im x a b v = Ok f /\ (f = true <-> exists y, a <= y < b /\ ipix im x y = v).
Proof.
  intros L X A B. unfold findCol. destruct (Z.ltb_spec b a); [lia|].
  destruct (findFrom_spec im 0 1 v (Z.to_nat (b - a)) x a) as (f & E & F); [intros i Hi; lia|]. exists f. split; [exact E|]. rewrite F.
  split; [intros (i & I & P); exists (a + 1 * i); split; [lia|]; rewrite <- P; f_equal; lia|]. intros (y & Y & P). exists (y - a). split; [lia|]. rewrite <- P. f_equal; lia.
Qed.
Lemma findRow_spec im y a b v : a <= b -> 0 <= y < ih im -> 0 <= a -> b <= iw im ->
  exists f, findRow im y a b v = Ok f /\ (f = true <-> exists x, a <= x < b /\ ipix im x y = v).
Proof.
  intros L X A B. unfold findRow. destruct (Z.ltb_spec b a); [lia|].
  destruct (findFrom_spec im 1 0 v (Z.to_nat (b - a)) a y) as (f & E & F); [intros i Hi; lia|]. exists f. split; [exact E|]. rewrite F.
  split; [intros (i & I & P); exists (a + 1 * i); split; [lia|]; rewrite <- P; f_equal; lia|]. intros (x & Y & P). exists (x - a). split; [lia|]. rewrite <- P. f_equal; lia.
Qed.

(** ** The rectangle of the cell that gives the pixel away *)
Section Shrink.
Variables (im : img) (t : ctype) (l x y : Z).
Let P' := owns im t l.
Hypothesis (Hx : 0 <= x < iw im) (Hy : 0 <= y < ih im).
Hypothesis contact : exists a b, P' a b /\ x - 1 <= a <= x + 1 /\ y - 1 <= b <= y + 1.
Definition within (r : rect) : Prop := forall a b, owns im t l a b -> inRect r a b.
Definition insideRect (r : rect) : Prop := 0 <= rx0 r /\ rx1 r <= iw im /\ 0 <= ry0 r /\ ry1 r <= ih im.
Definition orLost (a b : Z) : Prop := owns im t l a b \/ (a, b) = (x, y).

Lemma left_step r : within r -> insideRect r -> (exists b, orLost (rx0 r) b) ->
  exists r', shrinkLeft im x (Pix t l) r = Ok r' /\ within r' /\ insideRect r' /\ (exists b, owns im t l (rx0 r') b) /\ rx1 r' = rx1 r /\ ry0 r' = ry0 r /\ ry1 r' = ry1 r.
Proof.
  intros W I (b & B). destruct contact as (ca & cb & C & Ca & Cb). pose proof (W _ _ C) as Wc. unfold inRect in Wc. unfold insideRect in I. unfold shrinkLeft. destruct (Z.eqb_spec x (rx0 r)) as [E|E].
  - destruct (findCol_spec im x (ry0 r) (ry1 r) (Pix t l)) as (f & Ef & F); [lia|lia|lia|lia|]. rewrite Ef. cbn [bind]. destruct f.
    + exists r. split; [reflexivity|]. split; [exact W|]. split; [exact I|]. split; [|auto]. destruct F as [F _]. destruct (F eq_refl) as (u & U & Q). exists u. rewrite <- E. split; [lia|]. split; [lia|exact Q].
    + eexists. split; [reflexivity|]. assert (forall u, ~ P' x u) as N.
      { intros u K. pose proof (W _ _ K) as Wk. unfold inRect in Wk. assert (false = true) as D by (apply F; exists u; split; [lia|]; apply K). discriminate D. }
      assert (ca <> x) as Nc by (intros ->; exact (N cb C)). split; [|split; [unfold insideRect; cbn; lia|split; [|cbn; auto]]].
      * intros u v K. pose proof (W _ _ K) as Wk. unfold inRect in *. cbn. assert (u <> x) by (intros ->; exact (N v K)). lia.
      * exists cb. cbn. replace (rx0 r + 1) with ca by lia. exact C.
  - exists r. split; [reflexivity|]. split; [exact W|]. split; [exact I|]. split; [|auto]. exists b. destruct B as [B|B]; [exact B|]. injection B as B1 B2. congruence.
Qed.
Lemma right_step r : within r -> insideRect r -> (exists b, orLost (rx1 r - 1) b) ->
  exists r', shrinkRight im x (Pix t l) r = Ok r' /\ within r' /\ insideRect r' /\ (exists b, owns im t l (rx1 r' - 1) b) /\ rx0 r' = rx0 r /\ ry0 r' = ry0 r /\ ry1 r' = ry1 r.
Proof.
  intros W I (b & B). destruct contact as (ca & cb & C & Ca & Cb). pose proof (W _ _ C) as Wc. unfold inRect in Wc. unfold insideRect in I. unfold shrinkRight. destruct (Z.eqb_spec x (rx1 r - 1)) as [E|E].
  - destruct (findCol_spec im x (ry0 r) (ry1 r) (Pix t l)) as (f & Ef & F); [lia|lia|lia|lia|]. rewrite Ef. cbn [bind]. destruct f.
    + exists r. split; [reflexivity|]. split; [exact W|]. split; [exact I|]. split; [|auto]. destruct F as [F _]. destruct (F eq_refl) as (u & U & Q). exists u. rewrite <- E. split; [lia|]. split; [lia|exact Q].
    + eexists. split; [reflexivity|]. assert (forall u, ~ P' x u) as N.
      { intros u K. pose proof (W _ _ K) as Wk. unfold inRect in Wk. assert (false = true) as D by (apply F; exists u; split; [lia|]; apply K). discriminate D. }
      assert (ca <> x) as Nc by (intros ->; exact (N cb C)). split; [|split; [unfold insideRect; cbn; lia|split; [|cbn; auto]]].
      * intros u v K. pose proof (W _ _ K) as Wk. unfold inRect in *. cbn. assert (u <> x) by (intros ->; exact (N v K)). lia.
      * exists cb. cbn. replace (rx1 r - 1 - 1) with ca by lia. exact C.
  - exists r. split; [reflexivity|]. split; [exact W|]. split; [exact I|]. split; [|auto]. exists b. destruct B as [B|B]; [exact B|]. injection B as B1 B2. congruence.
Qed.
Lemma top_step r : within r -> insideRect r -> (exists a, orLost a (ry0 r)) ->
  exists r', shrinkTop im y (Pix t l) r = Ok r' /\ within r' /\ insideRect r' /\ (exists a, owns im t l a (ry0 r')) /\ rx0 r' = rx0 r /\ rx1 r' = rx1 r /\ ry1 r' = ry1 r.
Proof.
  intros W I (b & B). destruct contact as (ca & cb & C & Ca & Cb). pose proof (W _ _ C) as Wc. unfold inRect in Wc. unfold insideRect in I. unfold shrinkTop. destruct (Z.eqb_spec y (ry0 r)) as [E|E].
  - destruct (findRow_spec im y (rx0 r) (rx1 r) (Pix t l)) as (f & Ef & F); [lia|lia|lia|lia|]. rewrite Ef. cbn [bind]. destruct f.
    + exists r. split; [reflexivity|]. split; [exact W|]. split; [exact I|]. split; [|auto]. destruct F as [F _]. destruct (F eq_refl) as (u & U & Q). exists u. rewrite <- E. split; [lia|]. split; [lia|exact Q].
    + eexists. split; [reflexivity|]. assert (forall u, ~ P' u y) as N.
      { intros u K. pose proof (W _ _ K) as Wk. unfold inRect in Wk. assert (false = true) as D by (apply F; exists u; split; [lia|]; apply K). discriminate D. }
      assert (cb <> y) as Nc by (intros ->; exact (N ca C)). split; [|split; [unfold insideRect; cbn; lia|split; [|cbn; auto]]].
      * intros u v K. pose proof (W _ _ K) as Wk. unfold inRect in *. cbn. assert (v <> y) by (intros ->; exact (N u K)). lia.
      * exists ca. cbn. replace (ry0 r + 1) with cb by lia. exact C.
  - exists r. split; [reflexivity|]. split; [exact W|]. split; [exact I|]. split; [|auto]. exists b. destruct B as [B|B]; [exact B|]. injection B as B1 B2. congruence.
Qed.
Lemma bottom_step r : within r -> insideRect r -> (exists a, orLost a (ry1 r - 1)) ->
  exists r', shrinkBottom im y (Pix t l) r = Ok r' /\ within r' /\ insideRect r' /\ (exists a, owns im t l a (ry1 r' - 1)) /\ rx0 r' = rx0 r /\ rx1 r' = rx1 r /\ ry0 r' = ry0 r.
Proof.
  intros W I (b & B). destruct contact as (ca & cb & C & Ca & Cb). pose proof (W _ _ C) as Wc. unfold inRect in Wc. unfold insideRect in I. unfold shrinkBottom. destruct (Z.eqb_spec y (ry1 r - 1)) as [E|E].
  - destruct (findRow_spec im y (rx0 r) (rx1 r) (Pix t l)) as (f & Ef & F); [lia|lia|lia|lia|]. rewrite Ef. cbn [bind]. destruct f.
    + exists r. split; [reflexivity|]. split; [exact W|]. split; [exact I|]. split; [|auto]. destruct F as [F _]. destruct (F eq_refl) as (u & U & Q). exists u. rewrite <- E. split; [lia|]. split; [lia|exact Q].
    + eexists. split; [reflexivity|]. assert (forall u, ~ P' u y) as N.
      { intros u K. pose proof (W _ _ K) as Wk. unfold inRect in Wk. assert (false = true) as D by (apply F; exists u; split; [lia|]; apply K). discriminate D. }
      assert (cb <> y) as Nc by (intros ->; exact (N ca C)). split; [|split; [unfold insideRect; cbn; lia|split; [|cbn; auto]]].
      * intros u v K. pose proof (W _ _ K) as Wk. unfold inRect in *. cbn. assert (v <> y) by (intros ->; exact (N u K)). lia.
      * exists ca. cbn. replace (ry1 r - 1 - 1) with cb by lia. exact C.
  - exists r. split; [reflexivity|]. split; [exact W|]. split; [exact I|]. split; [|auto]. exists b. destruct B as [B|B]; [exact B|]. injection B as B1 B2. congruence.
Qed.

Lemma shrink_all r : exactRect orLost r ->
  exists r1 r2 r3 r4, shrinkLeft im x (Pix t l) r = Ok r1 /\ shrinkRight im x (Pix t l) r1 = Ok r2 /\ shrinkTop im y (Pix t l) r2 = Ok r3 /\ shrinkBottom im y (Pix t l) r3 = Ok r4 /\
    exactRect (owns im t l) r4.
Proof.
  intros (A & L & R & T & B).
  assert (forall a b, orLost a b -> 0 <= a < iw im /\ 0 <= b < ih im) as IN by (intros a b [(U & V & _)|[= -> ->]]; lia).
  assert (within r) as W by (intros a b K; apply A; left; exact K).
  assert (insideRect r) as I by (destruct L as (? & L), R as (? & R), T as (? & T), B as (? & B); apply IN in L, R, T, B; unfold insideRect; lia).
  destruct (left_step r W I L) as (r1 & E1 & W1 & I1 & L1 & X1 & Y1 & Z1). rewrite <- X1 in R. rewrite <- Y1 in T. rewrite <- Z1 in B.
  destruct (right_step r1 W1 I1 R) as (r2 & E2 & W2 & I2 & R2 & X2 & Y2 & Z2). rewrite <- X2 in L1. rewrite <- Y2 in T. rewrite <- Z2 in B.
  destruct (top_step r2 W2 I2 T) as (r3 & E3 & W3 & I3 & T3 & X3 & Y3 & Z3). rewrite <- X3 in L1. rewrite <- Y3 in R2. rewrite <- Z3 in B.
  destruct (bottom_step r3 W3 I3 B) as (r4 & E4 & W4 & I4 & B4 & X4 & Y4 & Z4). rewrite <- X4 in L1. rewrite <- Y4 in R2. rewrite <- Z4 in T3.
  exists r1, r2, r3, r4. do 4 (split; [assumption|]). split; [exact W4|]. auto.
Qed.
End Shrink.

(** ** A change of the stored information *)
Definition keepsRest (g : cinfo -> cinfo) : Prop := forall c, clabel (g c) = clabel c /\ csize (g c) = csize c.
Lemma at_put {A} (v : list A) l a : at_ v l = Ok a -> forall b, put v l b = Ok (list_upd v (Z.to_nat l) b).
Proof. intros H b. apply at_Ok in H. destruct H as [H K]. apply nth_error_lt in K. unfold put, vset. destruct (Z.leb_spec 0 l); [|lia]. destruct (Z.ltb_spec l (Z.of_nat (length v))); [|lia]. cbn [andb]. destruct (Nat.ltb_spec (Z.to_nat l) (length v)); [reflexivity|lia]. Qed.
Lemma map_upd_same {A B} (f : A -> B) v i a b : nth_error v i = Some a -> f b = f a -> map f (list_upd v i b) = map f v.
Proof. intros H E. rewrite map_upd, E. apply upd_same. rewrite nth_error_map, H. reflexivity. Qed.
Lemma updInfo_spec m t l g c : infoAt m (owner t) l = Ok c -> exists m', updInfo m t l g = Ok m' /\ changed m m' (owner t) (Z.to_nat l) (g c) /\ (keepsRest g -> sameButBounds m m').
Proof.
  intros H. pose proof H as H'. apply infoAt_Ok in H'. destruct H' as [_ N]. unfold updInfo. destruct (owner t) eqn:Eo; cbn [infoAt] in H; try (destruct t; discriminate Eo).
  - bnd H f Ef. injection H as <-. unfold updFace. rewrite Ef. cbn [bind]. rewrite (at_put _ _ _ Ef). cbn [bind]. eexists. split; [reflexivity|].
    split; [apply face_info; [|exact N]; unfold updFace; rewrite Ef; cbn [bind]; rewrite (at_put _ _ _ Ef); reflexivity|].
    intros K. apply at_Ok in Ef. destruct Ef as [_ Ef]. repeat (split; try reflexivity). cbn. apply (map_upd_same _ _ _ _ _ Ef). cbn. destruct (K (finf f)) as [-> ->]. reflexivity.
  - bnd H f Ef. injection H as <-. unfold updEdge. rewrite Ef. cbn [bind]. rewrite (at_put _ _ _ Ef). cbn [bind]. eexists. split; [reflexivity|].
    split; [apply edge_info; [|exact N]; unfold updEdge; rewrite Ef; cbn [bind]; rewrite (at_put _ _ _ Ef); reflexivity|].
    intros K. apply at_Ok in Ef. destruct Ef as [_ Ef]. repeat (split; try reflexivity). cbn. apply (map_upd_same _ _ _ _ _ Ef). cbn. destruct (K (einf f)) as [-> ->]. reflexivity.
  - bnd H f Ef. injection H as <-. unfold updNode. rewrite Ef. cbn [bind]. rewrite (at_put _ _ _ Ef). cbn [bind]. eexists. split; [reflexivity|].
    split; [apply node_info; [|exact N]; unfold updNode; rewrite Ef; cbn [bind]; rewrite (at_put _ _ _ Ef); reflexivity|].
    intros K. apply at_Ok in Ef. destruct Ef as [_ Ef]. repeat (split; try reflexivity). cbn. apply (map_upd_same _ _ _ _ _ Ef). cbn. destruct (K (ninf f)) as [-> ->]. reflexivity.
Qed.
Lemma sbb_trans a b c : sameButBounds a b -> sameButBounds b c -> sameButBounds a c.
Proof. intros (A1 & A2 & A3 & A4 & A5 & A6 & A7) (B1 & B2 & B3 & B4 & B5 & B6 & B7). unfold sameButBounds. rewrite B1, B2, B3, B4, B5, B6, B7. auto 10. Qed.
Lemma sbb_refl a : sameButBounds a a. Proof. repeat split. Qed.

Lemma owner_live m t l c : isCell m t l c -> owner t = t /\ t <> ErrorType.
Proof. intros (H & _). destruct t; try (split; [reflexivity|discriminate]). destruct l; discriminate H. Qed.

(** ** reassociate *)
Lemma reassociate_right m x y new : boundsRight m -> pixelsLive m -> 0 <= x < iw (cim m) -> 0 <= y < ih (cim m) ->
  hasContact (cim m) x y \/ new = ipix (cim m) x y -> isLive m new ->
  exists m', reassociate m x y new = Ok m' /\ onePixel (cim m) (cim m') x y new /\ sameButBounds m m' /\ boundsRight m' /\ pixelsLive m'.
Proof.
  intros BR PL Hx Hy HC (Ln & cn & Cn). destruct (PL x y Hx Hy) as (Lo & co & Co). unfold reassociate.
  assert (readPix (cim m) x y = Ok (ipix (cim m) x y)) as -> by (apply readPix_Ok; auto). cbn [bind].
  destruct (owner_live _ _ _ _ Co) as [Oo No]. destruct (owner_live _ _ _ _ Cn) as [On Nn].
  assert (infoAt m (owner (ptype (ipix (cim m) x y))) (plabel (ipix (cim m) x y)) = Ok co) as Io by (rewrite Oo; apply infoAt_Ok; split; [exact Lo|apply Co]).
  rewrite Io. cbn [bind]. unfold writePix. assert (insideImg (cim m) x y = true) as -> by (apply insideImg_iff; auto). cbn [bind].
  set (im := Img (iw (cim m)) (ih (cim m)) (fun x' y' => if (x' =? x) && (y' =? y) then new else ipix (cim m) x' y')).
  set (old := ipix (cim m) x y) in *. destruct old as [t l] eqn:Eold. cbn [ptype plabel] in *.
  assert (onePixel (cim m) im x y new) as OP.
  { split; [reflexivity|]. split; [reflexivity|]. unfold im. cbn. rewrite !Z.eqb_refl. split; [reflexivity|]. intros a b N. destruct (Z.eqb_spec a x) as [->|]; [|reflexivity]. destruct (Z.eqb_spec b y) as [->|]; [contradiction N; reflexivity|reflexivity]. }
  pose proof OP as (_ & _ & Pn & Pr).
  assert (forall u k a b, owns im u k a b -> (a, b) <> (x, y) -> owns (cim m) u k a b) as Back by (intros u k a b (U & V & W) N; rewrite (Pr a b N) in W; exact (conj U (conj V W))).
  assert (forall u k a b, owns (cim m) u k a b -> (a, b) <> (x, y) -> owns im u k a b) as Forth by (intros u k a b (U & V & W) N; rewrite <- (Pr a b N) in W; exact (conj U (conj V W))).
  assert (forall a b : Z, (a, b) = (x, y) \/ (a, b) <> (x, y)) as Dec.
  { intros a b. destruct (Z.eq_dec a x) as [->|]; [destruct (Z.eq_dec b y) as [->|]; [left; reflexivity|]|]; right; congruence. }
  assert (exactRect (orLost im t l x y) (cbounds co)) as EX.
  { pose proof (BR _ _ _ Co) as E. rewrite Z2Nat.id in E by exact Lo. refine (exactRect_ext _ _ _ _ E). intros a b. unfold orLost. split.
    - intros K. destruct (Dec a b) as [D|D]; [right; exact D|left; exact (Forth _ _ _ _ K D)].
    - intros [K|K]; [destruct (Dec a b) as [D|D]; [|exact (Back _ _ _ _ K D)]|injection K as -> ->; split; [exact Hx|split; [exact Hy|exact Eold]]].
      injection D as -> ->. split; [exact Hx|split; [exact Hy|exact Eold]]. }
  destruct (shrink_all im t l x y Hx Hy) with (r := cbounds co) as (r1 & r2 & r3 & r4 & E1 & E2 & E3 & E4 & X4); [|exact EX|].
  { destruct HC as [(a & b & N & A & B & K)| ->].
    - exists a, b. split; [|auto]. unfold old in Eold. rewrite Eold in K. exact (Forth _ _ _ _ K N).
    - exists x, y. split; [|lia]. split; [exact Hx|split; [exact Hy|exact Pn]]. }
  rewrite E1. cbn [bind]. rewrite E2. cbn [bind]. rewrite E3. cbn [bind]. rewrite E4. cbn [bind].
  assert (infoAt (setIm m im) (owner t) l = Ok co) as Io' by (rewrite <- Io; destruct (owner t); reflexivity).
  destruct (updInfo_spec (setIm m im) t l (withBounds r4) co Io') as (m1 & U1 & C1 & S1). rewrite U1. cbn [bind].
  assert (keepsRest (withBounds r4)) as K4 by (intros c; split; reflexivity). specialize (S1 K4).
  rewrite Oo in C1. pose proof (changed_nth _ _ _ _ _ C1) as N1. assert (forall u, cellsOf (setIm m im) u = cellsOf m u) as CS by (intros []; reflexivity).
  pose proof (nth_error_lt _ _ _ (proj1 Co)) as Lto. rewrite CS in N1. specialize (N1 Lto).
  destruct new as [tn ln]. cbn [ptype plabel] in *.
  (* the entry of the new owner *)
  set (same := ctypeEqb tn t && Nat.eqb (Z.to_nat ln) (Z.to_nat l)) in *.
  set (cn1 := if same then withBounds r4 co else cn).
  assert (nth_error (cellsOf m1 tn) (Z.to_nat ln) = Some cn1) as NN by (rewrite N1, CS; fold same; unfold cn1; destruct same; [reflexivity|apply Cn]).
  assert (infoAt m1 (owner tn) ln = Ok cn1) as In1 by (rewrite On; apply infoAt_Ok; auto).
  destruct (updInfo_spec m1 tn ln (fun c' => withBounds (rectOrPoint (cbounds c') x y) c') cn1 In1) as (m2 & U2 & C2 & S2).
  exists m2. assert (cim m2 = im) as Eim by (rewrite (proj1 C2), (proj1 C1); reflexivity).
  assert (sameButBounds m m2) as SBB.
  { apply sbb_trans with (setIm m im); [repeat split|]. apply sbb_trans with m1; [exact S1|]. apply S2. intros c; split; reflexivity. }
  assert (same = true <-> tn = t /\ ln = l) as SameIs.
  { unfold same. rewrite andb_true_iff, CellMap_Scan.ctypeEqb_eq, Nat.eqb_eq. split; intros [A B]; (split; [exact A|]); lia. }
  rewrite On in C2. pose proof (changed_nth _ _ _ _ _ C2 (nth_error_lt _ _ _ NN)) as N2.
  (* entries after both changes *)
  assert (forall u k, nth_error (cellsOf m2 u) k = if ctypeEqb u tn && Nat.eqb k (Z.to_nat ln) then Some (withBounds (rectOrPoint (cbounds cn1) x y) cn1) else if ctypeEqb u t && Nat.eqb k (Z.to_nat l) then Some (withBounds r4 co) else nth_error (cellsOf m u) k) as NT.
  { intros u k. rewrite N2. destruct (ctypeEqb u tn && Nat.eqb k (Z.to_nat ln)); [reflexivity|]. rewrite N1, CS. reflexivity. }
  assert (forall c r, initialized (withBounds r c) = initialized c) as IW by (intros; reflexivity).
  assert (initialized cn1 = true) as Icn by (unfold cn1; destruct same; [rewrite IW; apply Co|apply Cn]).
  assert (forall u k, (exists c, isCell m u k c) -> exists c, isCell m2 u k c) as Live.
  { intros u k (c & A & B). unfold isCell. rewrite NT. destruct (ctypeEqb u tn && Nat.eqb k (Z.to_nat ln)); [eexists; split; [reflexivity|]; rewrite IW; exact Icn|].
    destruct (ctypeEqb u t && Nat.eqb k (Z.to_nat l)); [eexists; split; [reflexivity|]; rewrite IW; apply Co|]. exists c. auto. }
  split; [exact U2|]. split; [rewrite Eim; exact OP|]. split; [exact SBB|]. split.
  - intros u k c (A & B). rewrite Eim. rewrite NT in A. destruct (ctypeEqb u tn && Nat.eqb k (Z.to_nat ln)) eqn:Q.
    + apply andb_true_iff in Q. destruct Q as [Q1 Q2]. apply CellMap_Scan.ctypeEqb_eq in Q1. apply Nat.eqb_eq in Q2. subst u k. injection A as <-. rewrite Z2Nat.id by exact Ln. cbn [withBounds cbounds].
      assert (exactRect (fun a b => owns im tn ln a b /\ (a, b) <> (x, y) \/ (same = true /\ owns im tn ln a b)) (cbounds cn1)) as X1.
      { unfold cn1. destruct same eqn:Es.
        - destruct SameIs as [SI _]. destruct (SI eq_refl) as [-> ->]. cbn [withBounds cbounds]. refine (exactRect_ext _ _ _ _ X4). intros a b. tauto.
        - pose proof (BR _ _ _ Cn) as E. rewrite Z2Nat.id in E by exact Ln. refine (exactRect_ext _ _ _ _ E). intros a b. split.
          + intros K. left. assert ((a, b) <> (x, y)) as D.
            { intros [= -> ->]. destruct K as (_ & _ & K). fold old in K. rewrite Eold in K. injection K as -> ->. destruct SameIs as [_ SI]. discriminate (SI (conj eq_refl eq_refl)). }
            split; [exact (Forth _ _ _ _ K D)|exact D].
          + intros [[K D]|[D _]]; [exact (Back _ _ _ _ K D)|discriminate D]. }
      unfold rectOrPoint. pose proof (exactRect_or _ _ _ _ X1 (point_exact x y)) as X2. refine (exactRect_ext _ _ _ _ X2). intros a b. split.
      * intros [[[K _]|[_ K]]|K]; [exact K|exact K|]. injection K as -> ->. split; [exact Hx|split; [exact Hy|exact Pn]].
      * intros K. destruct (Dec a b) as [D|D]; [right; exact D|left; left; auto].
    + destruct (ctypeEqb u t && Nat.eqb k (Z.to_nat l)) eqn:Q'.
      * apply andb_true_iff in Q'. destruct Q' as [Q1 Q2]. apply CellMap_Scan.ctypeEqb_eq in Q1. apply Nat.eqb_eq in Q2. subst u k. injection A as <-. rewrite Z2Nat.id by exact Lo. exact X4.
      * refine (exactRect_ext _ _ _ _ (BR u k c (conj A B))). intros a b. split.
        -- intros K. apply Forth; [exact K|]. intros [= -> ->]. destruct K as (_ & _ & K). fold old in K. rewrite Eold in K. injection K as -> ->.
           rewrite Nat2Z.id, Nat.eqb_refl, andb_true_r in Q'. destruct (CellMap_Proofs.ctypeEqb_spec u u); congruence.
        -- intros K. apply Back; [exact K|]. intros [= -> ->]. destruct K as (_ & _ & K). rewrite Pn in K. injection K as -> ->.
           rewrite Nat2Z.id, Nat.eqb_refl, andb_true_r in Q. destruct (CellMap_Proofs.ctypeEqb_spec u u); congruence.
  - intros a b Ha Hb. rewrite Eim in *. destruct (Dec a b) as [[= -> ->]|D].
    + rewrite Pn. split; [exact Ln|]. apply Live. exists cn. exact Cn.
    + rewrite (Pr a b D). destruct (PL a b Ha Hb) as [A B]. split; [exact A|]. apply Live, B.
Qed.

(** ** The only pixel of a cell *)
Lemma reassociate_only m x y new : boundsRight m -> pixelsLive m -> 0 <= x < iw (cim m) -> 0 <= y < ih (cim m) -> new <> ipix (cim m) x y ->
  (forall a b, owns (cim m) (ptype (ipix (cim m) x y)) (plabel (ipix (cim m) x y)) a b -> (a, b) = (x, y)) -> reassociate m x y new = UB.
Proof.
  intros BR PL Hx Hy Nw Only. destruct (PL x y Hx Hy) as (Lo & co & Co). unfold reassociate.
  assert (readPix (cim m) x y = Ok (ipix (cim m) x y)) as -> by (apply readPix_Ok; auto). cbn [bind].
  destruct (owner_live _ _ _ _ Co) as [Oo No]. rewrite Oo.
  assert (infoAt m (ptype (ipix (cim m) x y)) (plabel (ipix (cim m) x y)) = Ok co) as -> by (apply infoAt_Ok; split; [exact Lo|apply Co]).
  cbn [bind]. unfold writePix. assert (insideImg (cim m) x y = true) as -> by (apply insideImg_iff; auto). cbn [bind].
  set (im := Img (iw (cim m)) (ih (cim m)) (fun x' y' => if (x' =? x) && (y' =? y) then new else ipix (cim m) x' y')).
  pose proof (BR _ _ _ Co) as E. rewrite Z2Nat.id in E by exact Lo.
  assert (cbounds co = Rect x y (x + 1) (y + 1)) as ->.
  { apply (exactRect_unique _ _ _ E). refine (exactRect_ext _ _ _ _ (point_exact x y)). intros a b. split; [|apply Only]. intros [= -> ->]. split; [exact Hx|]. split; [exact Hy|]. destruct (ipix (cim m) x y); reflexivity. }
  assert (findCol im x y (y + 1) (ipix (cim m) x y) = Ok false) as F.
  { destruct (findCol_spec im x y (y + 1) (ipix (cim m) x y)) as (f & Ef & F); try (unfold im; cbn; lia). rewrite Ef. f_equal. destruct f; [|reflexivity]. exfalso. destruct F as [F _]. destruct (F eq_refl) as (v & V & K).
    assert (v = y) as -> by lia. unfold im in K. cbn in K. rewrite !Z.eqb_refl in K. exact (Nw K). }
  unfold shrinkLeft at 1. cbn [rx0 ry0 ry1]. rewrite Z.eqb_refl, F. cbn [bind rx1].
  unfold shrinkRight at 1. cbn [rx0 ry0 ry1 rx1]. replace (x =? x + 1 - 1) with true by (symmetry; apply Z.eqb_eq; lia). rewrite F. cbn [bind].
  unfold shrinkTop at 1. cbn [rx0 ry0 ry1 rx1]. rewrite Z.eqb_refl. unfold findRow. replace (x + 1 - 1 <? x + 1) with true by (symmetry; apply Z.ltb_lt; lia). reflexivity.
Qed.
