From Coq Require Import QArith Qround Lqa Sorted.
From Verif Require Import Base GeoMap_Model Scanlines_Model Scanlines_Spec Scanlines_Proofs ScanPoly_Model ScanPoly_Spec ScanPoly_Proofs LabelLUT_Model LabelImage_Model LabelImage_Spec LabelImage_Loops.
Local Open Scope Q_scope.

(** ** chains *)
Definition respects (P : Q * Q -> Prop) : Prop := forall p q, fst p == fst q -> snd p == snd q -> P p -> P q.
Lemma inPixel_respects x y : respects (inPixel x y).
Proof. intros [a b] [c d]. unfold inPixel. cbn [fst snd]. intros H1 H2 [H3 H4]. lra. Qed.

Lemma meets_head P a t : respects P -> P a -> chainMeets P (a :: t).
Proof.
  intros R H. destruct t as [|b t]; [exact H|]. left. exists 0. split; [lra|]. apply (R a); [cbn [between fst]; ring | cbn [between snd]; ring | exact H].
Qed.

Lemma meets_cons2 P a b t : chainMeets P (a :: b :: t) <-> (exists u, 0 <= u <= 1 /\ P (between a b u)) \/ chainMeets P (b :: t).
Proof. reflexivity. Qed.

(** two chains with a common point *)
Lemma meets_join P c q : respects P -> forall p, chainMeets P (p ++ c :: q) <-> chainMeets P (p ++ [c]) \/ chainMeets P (c :: q).
Proof.
  intros R. induction p as [|a p IH]; cbn [app].
  - split; [auto|]. intros [H|H]; [|exact H]. apply meets_head; assumption.
  - destruct p as [|b p]; cbn [app] in IH |- *.
    + rewrite !meets_cons2, IH. cbn [chainMeets]. tauto.
    + rewrite !meets_cons2, IH. tauto.
Qed.

Lemma between_flip a b u : fst (between a b u) == fst (between b a (1 - u)) /\ snd (between a b u) == snd (between b a (1 - u)).
Proof. unfold between. cbn [fst snd]. split; ring. Qed.

Lemma meets_rev P : respects P -> forall l, chainMeets P (rev l) <-> chainMeets P l.
Proof.
  intros R.
  assert (D : forall l, chainMeets P l -> chainMeets P (rev l)).
  { induction l as [|a l IH]; [exact (fun H => H)|]. destruct l as [|b l]; [exact (fun H => H)|]. intros H. apply meets_cons2 in H.
    cbn [rev] in IH |- *. rewrite <- app_assoc. cbn [app]. rewrite meets_join by exact R.
    destruct H as [(u & Hu & H)|H]; [right | left; apply IH, H]. left. exists (1 - u). split; [lra|].
    destruct (between_flip a b u) as [E1 E2]. apply (R (between a b u)); assumption. }
  intros l. split; [|apply D]. intros H. rewrite <- (rev_involutive l). apply D, H.
Qed.

(** a point inserted on a segment *)
Lemma meets_insert P a b c t : respects P -> 0 <= t <= 1 -> fst c == fst (between a b t) -> snd c == snd (between a b t) ->
  forall p q, chainMeets P (p ++ a :: c :: b :: q) <-> chainMeets P (p ++ a :: b :: q).
Proof.
  intros R Ht Ex Ey p q. rewrite (meets_join P a (c :: b :: q)), (meets_join P a (b :: q)) by exact R.
  assert (K : chainMeets P (a :: c :: b :: q) <-> chainMeets P (a :: b :: q)); [|tauto].
  rewrite !meets_cons2. cbn [between fst snd] in Ex, Ey. split.
  - intros [(u & Hu & H)|[(u & Hu & H)|H]]; [left | left | right; exact H].
    + exists (u * t). split; [nra|]. apply (R _ _) with (3 := H); cbn [between fst snd]; rewrite ?Ex, ?Ey; ring.
    + exists (t + u * (1 - t)). split; [nra|]. apply (R _ _) with (3 := H); cbn [between fst snd]; rewrite ?Ex, ?Ey; ring.
  - intros [(u & Hu & H)|H]; [|right; right; exact H]. destruct (Qlt_le_dec u t) as [L|L].
    + left. exists (u / t). assert (T : ~ t == 0) by lra. split.
      * assert (E : (u / t) * t == u) by (field; exact T). split; nra.
      * apply (R _ _) with (3 := H); cbn [between fst snd]; rewrite ?Ex, ?Ey; field; exact T.
    + right. left. destruct (Qeq_dec t 1) as [E|E].
      * exists 0. split; [lra|]. assert (U : u == 1) by lra. apply (R _ _) with (3 := H); cbn [between fst snd]; rewrite ?Ex, ?Ey, ?E, ?U; ring.
      * exists ((u - t) / (1 - t)). assert (T : ~ 1 - t == 0) by lra. split.
        -- assert (E' : ((u - t) / (1 - t)) * (1 - t) == u - t) by (field; exact T). split; nra.
        -- apply (R _ _) with (3 := H); cbn [between fst snd]; rewrite ?Ex, ?Ey; field; exact T.
Qed.

Lemma winding_join x y c q : forall p, winding x y (p ++ c :: q) = (winding x y (p ++ [c]) + winding x y (c :: q))%Z.
Proof.
  induction p as [|a p IH]; cbn [app]; [reflexivity|]. destruct p as [|b p]; cbn [app] in *.
  - destruct q; cbn [winding]; lia.
  - change (winding x y (a :: b :: p ++ c :: q)) with (crossing x y a b + winding x y (b :: p ++ c :: q))%Z.
    change (winding x y (a :: b :: p ++ [c])) with (crossing x y a b + winding x y (b :: p ++ [c]))%Z. rewrite IH. lia.
Qed.

Lemma crossing_flip x y a b : crossing x y b a = (- crossing x y a b)%Z.
Proof.
  rewrite !crossing_eq. destruct (Z.eq_dec (gB y (snd a)) (gB y (snd b))) as [E|E].
  - rewrite E. destruct (leftB x (crossX y b a)), (leftB x (crossX y a b)); lia.
  - assert (N : ~ snd b - snd a == 0). { intros C. apply E. unfold gB. assert (Q : snd a == snd b) by lra. rewrite Q. reflexivity. }
    assert (Q : crossX y b a == crossX y a b). { unfold crossX. field. split; lra. }
    unfold leftB. rewrite Q. destruct (negb _); lia.
Qed.
Lemma winding_rev x y : forall l, winding x y (rev l) = (- winding x y l)%Z.
Proof.
  induction l as [|a l IH]; [reflexivity|]. destruct l as [|b l]; [reflexivity|].
  cbn [rev] in IH |- *. rewrite <- app_assoc. cbn [app]. rewrite winding_join. rewrite IH. change (winding x y (a :: b :: l)) with (crossing x y a b + winding x y (b :: l))%Z.
  cbn [winding]. rewrite (crossing_flip x y a b). lia.
Qed.

(** ** scanlines of a chain *)
Definition hdq (c : list (Q * Q)) : Q * Q := hd (0, 0) c.
Definition lastq (c : list (Q * Q)) : Q * Q := last c (0, 0).
Record scans (c : list (Q * Q)) (s : scanlines) : Prop := {
  sc_tidy : tidy s;
  sc_cov : forall x y, covered (lineOf s y) x <-> chainMeets (inPixel x y) c;
  sc_wind : forall x y, ~ chainMeets (inPixel x y) c -> windLeft (lineOf s y) x = (2 * winding x y c + Tfun x y (hdq c) 0 - Tfun x y (lastq c) 0)%Z;
  sc_total : forall y, totalDir (lineOf s y) = (hL y (kLineOfY (snd (lastq c))) - hL y (kLineOfY (snd (hdq c))))%Z }.

Lemma last_in {A} (l : list A) d : l <> [] -> In (last l d) l.
Proof. induction l as [|a l IH]; [congruence|]. intros _. destruct l as [|b l]; [left; reflexivity|]. right. apply IH. discriminate. Qed.

Lemma winding_flat x y k : forall c, (forall p, In p c -> gB y (snd p) = k) -> winding x y c = 0%Z.
Proof.
  induction c as [|a c IH]; intros H; [reflexivity|]. destruct c as [|b c]; [reflexivity|].
  change (winding x y (a :: b :: c)) with (crossing x y a b + winding x y (b :: c))%Z. rewrite IH by (intros p Hp; apply H; right; exact Hp).
  rewrite crossing_eq, (H a), (H b) by (cbn; auto). destruct (leftB _ _); lia.
Qed.

Section Scan.
Variable srt : list seg -> list seg.
Hypothesis Hsrt : sorter srt.

Lemma scanPolyBBox_scans c ylo yhi : c <> [] -> (forall p, In p c -> ylo <= snd p <= yhi) -> scans c (scanPolyBBox srt c ylo yhi).
Proof.
  intros Hne Hb. set (s := scanPolyBBox srt c ylo yhi).
  set (a := Qfloor (ylo + (1#2))). set (n := Z.to_nat (Qfloor (yhi + (1#2)) - a + 1)).
  assert (Ds : sl_start s = a /\ endIndex s = (a + Z.of_nat n)%Z) by (apply (scanPoly_domain srt Hsrt c n a)).
  destruct (proj1 (floor_spec (ylo + (1#2)) _) eq_refl) as [F1 F2]. fold a in F1, F2.
  destruct (proj1 (floor_spec (yhi + (1#2)) _) eq_refl) as [F3 F4]. set (bq := Qfloor (yhi + (1#2))) in *.
  assert (AB : (a <= bq)%Z).
  { destruct c as [|p c]; [congruence|]. specialize (Hb p (or_introl eq_refl)). assert (K : inject_Z a < inject_Z (bq + 1)) by (rewrite inject_Z_plus; change (inject_Z 1) with 1; lra).
    rewrite injZ_lt in K. lia. }
  assert (En : (a + Z.of_nat n = bq + 1)%Z) by (unfold n; lia).
  (* rows outside the bounding box *)
  assert (Out : forall y, ~ (a <= y <= bq)%Z -> exists k, forall p, In p c -> gB y (snd p) = k /\ kLineOfY (snd p) <> (2 * y)%Z /\ hL y (kLineOfY (snd p)) = (2 * k - 1)%Z).
  { intros y Hy. assert (C : (y < a \/ bq < y)%Z) by lia. destruct C as [C|C].
    - exists 1%Z. intros p Hp. specialize (Hb p Hp). assert (K : inject_Z (y + 1) <= inject_Z a) by (rewrite injZ_le; lia). rewrite inject_Z_plus in K. change (inject_Z 1) with 1 in K.
      assert (G : (2 * y < kLineOfY (snd p))%Z) by (apply K_gt; lra). split; [apply gB_high, G|]. split; [lia|]. unfold hL. rewrite Z.sgn_pos by lia. reflexivity.
    - exists 0%Z. intros p Hp. specialize (Hb p Hp). assert (K : inject_Z (bq + 1) <= inject_Z y) by (rewrite injZ_le; lia). rewrite inject_Z_plus in K. change (inject_Z 1) with 1 in K.
      assert (G : (kLineOfY (snd p) < 2 * y)%Z) by (apply K_lt; lra). split; [apply gB_low, G|]. split; [lia|]. unfold hL. rewrite Z.sgn_neg by lia. reflexivity. }
  assert (Hh : In (hdq c) c) by (destruct c; [congruence | left; reflexivity]).
  assert (Hl : In (lastq c) c) by (apply last_in, Hne).
  split.
  - intros y. apply (scanPoly_spaced srt Hsrt c n a y).
  - intros x y. destruct (Z_le_dec a y) as [A|A]; [destruct (Z_le_dec y bq) as [B|B]|].
    + apply (scanPoly_covered srt Hsrt c n a). lia.
    + rewrite lineOf_out by lia. split; [intros C; destruct (covered_nil _ C)|]. intros C. destruct (bbox_rows srt Hsrt c ylo yhi x y Hb C) as [C' _]. fold s in C'. lia.
    + rewrite lineOf_out by lia. split; [intros C; destruct (covered_nil _ C)|]. intros C. destruct (bbox_rows srt Hsrt c ylo yhi x y Hb C) as [C' _]. fold s in C'. lia.
  - intros x y Hu. destruct (Z_le_dec a y) as [A|A]; [destruct (Z_le_dec y bq) as [B|B]|].
    + assert (H : (a <= y < a + Z.of_nat n)%Z) by lia. rewrite <- (scanPoly_covered srt Hsrt c n a y x H) in Hu. unfold s. revert Hu. unfold scanPolyBBox. fold a bq.
      change (Z.to_nat (bq - a + 1)) with n. rewrite scanPoly_normalize, normalize_line by exact Hsrt.
      destruct (normalizeLine_spec srt (lineOf (rawScan c n a) y) Hsrt (rawScan_proper c n a y)) as (_ & _ & K3 & K4 & _). rewrite K3. intros Hu. rewrite (K4 x Hu). revert Hu.
      rewrite rawScan_line. destruct (Z.leb_spec a y), (Z.ltb_spec y (a + Z.of_nat n)); try lia. cbn [andb]. destruct c as [|p t]; [congruence|]. cbn [scanCalls].
      intros Hu. rewrite (scanRest_wind x y t _ p (spInv_init p) Hu). cbn [scanInit sp_step hdq hd]. f_equal. f_equal. unfold lastq.
      clear. revert p. induction t as [|q t IH]; intros p; [reflexivity|]. cbn [last] in *. destruct t; [reflexivity | apply (IH p)].
    + destruct (Out y) as (k & Hk); [lia|]. rewrite lineOf_out by lia. rewrite (winding_flat x y k) by (intros p Hp; apply Hk, Hp). unfold Tfun.
      destruct (Z.eqb_spec (kLineOfY (snd (hdq c))) (2 * y)) as [E|_]; [destruct (Hk _ Hh) as (_ & K & _); contradiction|].
      destruct (Z.eqb_spec (kLineOfY (snd (lastq c))) (2 * y)) as [E|_]; [destruct (Hk _ Hl) as (_ & K & _); contradiction|]. reflexivity.
    + destruct (Out y) as (k & Hk); [lia|]. rewrite lineOf_out by lia. rewrite (winding_flat x y k) by (intros p Hp; apply Hk, Hp). unfold Tfun.
      destruct (Z.eqb_spec (kLineOfY (snd (hdq c))) (2 * y)) as [E|_]; [destruct (Hk _ Hh) as (_ & K & _); contradiction|].
      destruct (Z.eqb_spec (kLineOfY (snd (lastq c))) (2 * y)) as [E|_]; [destruct (Hk _ Hl) as (_ & K & _); contradiction|]. reflexivity.
  - intros y. destruct (Z_le_dec a y) as [A|A]; [destruct (Z_le_dec y bq) as [B|B]|].
    + unfold s, scanPolyBBox. fold a bq. change (Z.to_nat (bq - a + 1)) with n. rewrite scanPoly_normalize, normalize_line by exact Hsrt.
      destruct (normalizeLine_spec srt (lineOf (rawScan c n a) y) Hsrt (rawScan_proper c n a y)) as (_ & _ & _ & _ & K). rewrite K.
      rewrite rawScan_line. destruct (Z.leb_spec a y), (Z.ltb_spec y (a + Z.of_nat n)); try lia. cbn [andb]. destruct c as [|p t]; [congruence|]. cbn [scanCalls].
      rewrite (scanRest_total y t _ p (spInv_init p)). cbn [scanInit sp_step hdq hd]. replace (last t p) with (lastq (p :: t)).
      * destruct (_ =? _)%Z; lia.
      * unfold lastq. clear. revert p. induction t as [|q t IH]; intros p; [reflexivity|]. cbn [last] in *. destruct t; [reflexivity | apply (IH p)].
    + destruct (Out y) as (k & Hk); [lia|]. rewrite lineOf_out by lia. destruct (Hk _ Hh) as (_ & _ & ->), (Hk _ Hl) as (_ & _ & ->). unfold totalDir. cbn [map sumZ]. lia.
    + destruct (Out y) as (k & Hk); [lia|]. rewrite lineOf_out by lia. destruct (Hk _ Hh) as (_ & _ & ->), (Hk _ Hl) as (_ & _ & ->). unfold totalDir. cbn [map sumZ]. lia.
Qed.

(** reversing *)
Lemma covered_neg l x : covered (map (fun g => mkSeg (sbeg g) (- sdir g) (send g)) l) x <-> covered l x.
Proof.
  split; intros (g & H & K).
  - apply in_map_iff in H. destruct H as (h & <- & H). exists h. auto.
  - exists (mkSeg (sbeg g) (- sdir g) (send g)). split; [apply in_map_iff; exists g; auto | exact K].
Qed.
Lemma windLeft_neg l x : windLeft (map (fun g => mkSeg (sbeg g) (- sdir g) (send g)) l) x = (- windLeft l x)%Z.
Proof. induction l as [|g l IH]; [reflexivity|]. cbn [map]. rewrite !windLeft_cons, IH. cbn [send sdir]. destruct (_ <=? _)%Z; lia. Qed.
Lemma totalDir_neg l : totalDir (map (fun g => mkSeg (sbeg g) (- sdir g) (send g)) l) = (- totalDir l)%Z.
Proof. induction l as [|g l IH]; [reflexivity|]. cbn [map]. rewrite !totalDir_cons, IH. cbn [sdir]. lia. Qed.
Lemma spaced_neg l : spaced l -> spaced (map (fun g => mkSeg (sbeg g) (- sdir g) (send g)) l).
Proof.
  induction 1 as [|g l H IH K]; cbn [map]; constructor; [exact IH|]. apply Forall_forall. intros h Hh. apply in_map_iff in Hh. destruct Hh as (h' & <- & Hh).
  rewrite Forall_forall in K. exact (K h' Hh).
Qed.
Lemma proper_neg l : proper l -> proper (map (fun g => mkSeg (sbeg g) (- sdir g) (send g)) l).
Proof. intros H g Hg. apply in_map_iff in Hg. destruct Hg as (h & <- & Hh). exact (H h Hh). Qed.

Lemma hdq_rev c : hdq (rev c) = lastq c.
Proof.
  unfold hdq, lastq. destruct c as [|a c] using rev_ind; [reflexivity|]. rewrite rev_app_distr, last_last. reflexivity.
Qed.
Lemma lastq_rev c : lastq (rev c) = hdq c.
Proof. rewrite <- (rev_involutive c) at 2. rewrite hdq_rev. reflexivity. Qed.

Lemma scans_reverse c s : scans c s -> scans (rev c) (reverseLines s).
Proof.
  intros [T C W D]. split.
  - intros y. rewrite reverse_spec. destruct (T y) as [T1 T2]. split; [apply spaced_neg, T1 | apply proper_neg, T2].
  - intros x y. rewrite reverse_spec, covered_neg, C. symmetry. apply meets_rev, inPixel_respects.
  - intros x y. rewrite meets_rev by apply inPixel_respects. intros H. rewrite reverse_spec, windLeft_neg, (W x y H), winding_rev, hdq_rev, lastq_rev. lia.
  - intros y. rewrite reverse_spec, totalDir_neg, D, hdq_rev, lastq_rev. lia.
Qed.

Lemma lastq_app p c q : lastq (p ++ c :: q) = lastq (c :: q).
Proof. unfold lastq. induction p as [|a p IH]; [reflexivity|]. cbn [app]. rewrite <- IH. destruct p; reflexivity. Qed.

(** putting two together *)
Lemma scans_plus p c q s1 s2 : scans (p ++ [c]) s1 -> scans (c :: q) s2 -> exists s, plusAssign srt s1 s2 = Ok s /\ scans (p ++ c :: q) s.
Proof.
  intros [T1 C1 W1 D1] [T2 C2 W2 D2]. destruct (plusAssign_spec srt s1 s2 Hsrt (fun y => proj2 (T1 y)) (fun y => proj2 (T2 y))) as (s & E & _ & _ & P & Sp & C & W & D).
  exists s. split; [exact E|].
  assert (L1 : lastq (p ++ [c]) = c) by (rewrite lastq_app; reflexivity).
  assert (H1 : hdq (p ++ [c]) = hdq (p ++ c :: q)) by (destruct p; reflexivity).
  split.
  - intros y. split; [apply Sp | apply P].
  - intros x y. rewrite C, C1, C2, (meets_join _ c q) by apply inPixel_respects. tauto.
  - intros x y H. pose proof H as H'. rewrite meets_join in H' by apply inPixel_respects.
    rewrite W; [|rewrite C, C1, C2; tauto]. rewrite W1, W2 by tauto. rewrite (winding_join x y c q p), L1, H1, (lastq_app p c q). change (hdq (c :: q)) with c. lia.
  - intros y. rewrite D, D1, D2, L1, H1, (lastq_app p c q). change (hdq (c :: q)) with c. lia.
Qed.
Lemma scans_plus' p c q s1 s2 : scans (p ++ [c]) s1 -> scans (c :: q) s2 -> exists s, plusAssign srt s2 s1 = Ok s /\ scans (p ++ c :: q) s.
Proof.
  intros [T1 C1 W1 D1] [T2 C2 W2 D2]. destruct (plusAssign_spec srt s2 s1 Hsrt (fun y => proj2 (T2 y)) (fun y => proj2 (T1 y))) as (s & E & _ & _ & P & Sp & C & W & D).
  exists s. split; [exact E|].
  assert (L1 : lastq (p ++ [c]) = c) by (rewrite lastq_app; reflexivity).
  assert (H1 : hdq (p ++ [c]) = hdq (p ++ c :: q)) by (destruct p; reflexivity).
  split.
  - intros y. split; [apply Sp | apply P].
  - intros x y. rewrite C, C1, C2, (meets_join _ c q) by apply inPixel_respects. tauto.
  - intros x y H. pose proof H as H'. rewrite meets_join in H' by apply inPixel_respects.
    rewrite W; [|rewrite C, C1, C2; tauto]. rewrite W1, W2 by tauto. rewrite (winding_join x y c q p), L1, H1, (lastq_app p c q). change (hdq (c :: q)) with c. lia.
  - intros y. rewrite D, D1, D2, L1, H1, (lastq_app p c q). change (hdq (c :: q)) with c. lia.
Qed.

Variable unit : positive.
Lemma minY_le t : forall p, (minY p t <= snd p)%Z /\ (forall q, In q t -> (minY p t <= snd q)%Z).
Proof.
  unfold minY. intros p. assert (G : forall a, (fold_left (fun a q => Z.min a (snd q)) t a <= a)%Z /\ (forall q, In q t -> (fold_left (fun a q => Z.min a (snd q)) t a <= snd q)%Z)).
  { induction t as [|q t IH]; intros a; cbn [fold_left]; [split; [lia | intros q []]|]. destruct (IH (Z.min a (snd q))) as [H1 H2]. split; [lia|].
    intros q' [<-|Hq]; [lia | apply H2, Hq]. }
  apply G.
Qed.
Lemma maxY_le t : forall p, (snd p <= maxY p t)%Z /\ (forall q, In q t -> (snd q <= maxY p t)%Z).
Proof.
  unfold maxY. intros p. assert (G : forall a, (a <= fold_left (fun a q => Z.max a (snd q)) t a)%Z /\ (forall q, In q t -> (snd q <= fold_left (fun a q => Z.max a (snd q)) t a)%Z)).
  { induction t as [|q t IH]; intros a; cbn [fold_left]; [split; [lia | intros q []]|]. destruct (IH (Z.max a (snd q))) as [H1 H2]. split; [lia|].
    intros q' [<-|Hq]; [lia | apply H2, Hq]. }
  apply G.
Qed.

Lemma scanEdge_scans pts : pts <> [] -> exists s, scanEdge srt unit pts = Ok s /\ scans (map (toQ unit) pts) s.
Proof.
  destruct pts as [|p t]; [congruence|]. intros _. unfold scanEdge. eexists. split; [reflexivity|]. apply scanPolyBBox_scans; [discriminate|].
  intros q Hq. apply in_map_iff in Hq. destruct Hq as (r & <- & Hr). unfold toQ. cbn [snd].
  assert (B : (minY p t <= snd r <= maxY p t)%Z).
  { destruct (minY_le t p) as [A1 A2], (maxY_le t p) as [B1 B2]. destruct Hr as [<-|Hr]; [lia|]. specialize (A2 r Hr). specialize (B2 r Hr). lia. }
  split; unfold Qle; cbn [Qnum Qden]; nia.
Qed.
End Scan.

(** a point on a segment of grid points *)
Lemma onSegment_between unit a p b : onSegment a p b ->
  exists t, 0 <= t <= 1 /\ fst (toQ unit p) == fst (between (toQ unit a) (toQ unit b) t) /\ snd (toQ unit p) == snd (between (toQ unit a) (toQ unit b) t).
Proof.
  destruct a as [ax ay], p as [px py], b as [bx by_]. unfold onSegment, toQ, between. cbn [fst snd]. intros (H & Hx & Hy).
  assert (U : forall z, (z # unit) == inject_Z z / inject_Z (Zpos unit)) by (intros z; rewrite (Qmake_Qdiv z unit); reflexivity).
  assert (NU : ~ inject_Z (Zpos unit) == 0) by (intros C; unfold Qeq in C; cbn in C; discriminate).
  assert (HQ : (inject_Z px - inject_Z ax) * (inject_Z by_ - inject_Z ay) == (inject_Z py - inject_Z ay) * (inject_Z bx - inject_Z ax)).
  { rewrite <- !injZ_sub, <- !inject_Z_mult, H. reflexivity. }
  destruct (Z.eq_dec ax bx) as [->|Nx].
  - destruct (Z.eq_dec ay by_) as [->|Ny].
    + assert (px = bx) by lia. assert (py = by_) by lia. subst. exists 0. split; [lra|]. split; ring.
    + assert (D : ~ inject_Z by_ - inject_Z ay == 0) by (rewrite <- injZ_sub; change 0 with (inject_Z 0); rewrite inject_Z_injective; lia).
      exists ((inject_Z py - inject_Z ay) / (inject_Z by_ - inject_Z ay)). set (t := _ / _). assert (T : t * (inject_Z by_ - inject_Z ay) == inject_Z py - inject_Z ay) by (unfold t; field; exact D).
      split; [|split].
      * assert (B : (ay < by_ \/ by_ < ay)%Z) by lia. destruct B as [B|B].
        -- assert (inject_Z ay < inject_Z by_) by (apply injZ_lt, B). assert (inject_Z ay <= inject_Z py <= inject_Z by_) by (rewrite !injZ_le; lia). split; nra.
        -- assert (inject_Z by_ < inject_Z ay) by (apply injZ_lt, B). assert (inject_Z by_ <= inject_Z py <= inject_Z ay) by (rewrite !injZ_le; lia). split; nra.
      * assert (px = bx) by lia. subst. ring.
      * rewrite !U. transitivity ((inject_Z ay + t * (inject_Z by_ - inject_Z ay)) / inject_Z (Zpos unit)); [rewrite T; field; exact NU | field; exact NU].
  - assert (D : ~ inject_Z bx - inject_Z ax == 0) by (rewrite <- injZ_sub; change 0 with (inject_Z 0); rewrite inject_Z_injective; lia).
    exists ((inject_Z px - inject_Z ax) / (inject_Z bx - inject_Z ax)). set (t := _ / _). assert (T : t * (inject_Z bx - inject_Z ax) == inject_Z px - inject_Z ax) by (unfold t; field; exact D).
    split; [|split].
    + assert (B : (ax < bx \/ bx < ax)%Z) by lia. destruct B as [B|B].
      * assert (inject_Z ax < inject_Z bx) by (apply injZ_lt, B). assert (inject_Z ax <= inject_Z px <= inject_Z bx) by (rewrite !injZ_le; lia). split; nra.
      * assert (inject_Z bx < inject_Z ax) by (apply injZ_lt, B). assert (inject_Z bx <= inject_Z px <= inject_Z ax) by (rewrite !injZ_le; lia). split; nra.
    + rewrite !U. transitivity ((inject_Z ax + t * (inject_Z bx - inject_Z ax)) / inject_Z (Zpos unit)); [rewrite T; field; exact NU | field; exact NU].
    + assert (T' : inject_Z py - inject_Z ay == t * (inject_Z by_ - inject_Z ay)).
      { transitivity (((inject_Z py - inject_Z ay) * (inject_Z bx - inject_Z ax)) / (inject_Z bx - inject_Z ax)); [field; exact D|]. rewrite <- HQ. unfold t. field. exact D. }
      rewrite !U. transitivity ((inject_Z ay + t * (inject_Z by_ - inject_Z ay)) / inject_Z (Zpos unit)); [rewrite <- T'; field; exact NU | field; exact NU].
Qed.
