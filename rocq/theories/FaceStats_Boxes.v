(** Bounding boxes of faces contain their edges and their pixels. *)
From Coq Require Import QArith Qround Lqa.
From Verif Require Import Base Orbit FaceInv GeoMap_Model GeoMap_Views GeoMap_Loops GeoMap_SInv GeoMap_Remove GeoMap_MergeEdges GeoMap_SplitEdge GeoMap_MInv GeoMap_Gone GeoMap_Bridge GeoMap_MergeFaces
  GeoMap_Flags GeoMap_Move GeoMap_Sort GeoMap_Init GeoMap_Area GeoMap_History GeoMap_Geometry GeoMap_Spec GeoMap_Facts GeoMap_Results
  Scanlines_Model Scanlines_Spec ScanPoly_Model ScanPoly_Spec LabelLUT_Model LabelImage_Model LabelImage_Spec LabelImage_Loops LabelImage_Cover LabelImage_Cache LabelImage_Inv
  LabelImage_Steps LabelImage_Remove LabelImage_Contour LabelImage_Setup LabelImage_Results FaceStats_Model FaceStats_Spec.
Local Open Scope Z_scope.

(** ** Boxes *)
Lemma inBox_join a b p : inBox a p \/ inBox b p -> inBox (boxJoin a b) p.
Proof. unfold inBox, boxJoin. cbn. lia. Qed.
Lemma onSegment_inBox b p q r : inBox b p -> inBox b r -> onSegment p q r -> inBox b q.
Proof. unfold inBox, onSegment. lia. Qed.
Lemma boxOf_least t : forall c q, (In q t \/ inBox c q) -> inBox (fold_left boxAdd t c) q.
Proof.
  induction t as [|r t IH]; intros c q H; cbn [fold_left]; [destruct H; [contradiction | assumption]|]. apply IH. destruct H as [[->|H]|H]; [right | left; exact H | right]; unfold inBox, boxAdd in *; cbn; lia.
Qed.
Lemma boxOf_in p t q : In q (p :: t) -> inBox (boxOf p t) q.
Proof. intros [->|H]; apply boxOf_least; [right; unfold inBox; cbn; lia | left; exact H]. Qed.
(** the box is the smallest one *)
Lemma boxOf_within t : forall c b, (forall q, In q t -> inBox b q) -> (forall q, inBox c q -> inBox b q) -> forall q, inBox (fold_left boxAdd t c) q -> bx0 c <= bx1 c -> by0 c <= by1 c -> inBox b q.
Proof.
  induction t as [|r t IH]; intros c b H Hc q K X Y; cbn [fold_left] in K; [apply Hc, K|]. apply (IH (boxAdd c r) b); [intros k Hk; apply H; right; exact Hk | | exact K | cbn; lia | cbn; lia].
  intros k Hk. pose proof (H r (or_introl eq_refl)) as Hr. pose proof (Hc (bx0 c, by0 c) ltac:(unfold inBox; cbn; lia)) as H0. pose proof (Hc (bx1 c, by1 c) ltac:(unfold inBox; cbn; lia)) as H1.
  unfold inBox, boxAdd in *. cbn in *. lia.
Qed.

Definition inside m (l : nat) (b : box) : Prop :=
  forall d e p, In d (darts m) -> lft m d = Some l -> eAt m (elab d) = Some e -> In p (epts e) -> inBox b p.
Lemma leftLabel_dart m d o : SInv m -> leftLabel m d = Ok o -> In d (darts m) /\ lft m d = o.
Proof.
  intros V H. assert (D : In d (darts m)).
  { apply (eAt_zero m d V). unfold leftLabel, gEdge, require, edgeP in H. unfold eAt, tget. destruct (nth_error (edges m) (elab d)) as [[e|]|]; [discriminate | discriminate H | discriminate H]. }
  rewrite (leftLabel_Ok m d D) in H. split; [exact D | congruence].
Qed.
Lemma inside_iff m l b : SInv m -> (edgesInside m l b <-> inside m l b).
Proof.
  intros V. split.
  - intros H d e p Hd Hl He Hp. apply (H d (if 0 <? d then epts e else rev (epts e)) p).
    + rewrite (leftLabel_Ok m d Hd), Hl. reflexivity.
    + exists e. split; [apply isEdge_iff, He | reflexivity].
    + destruct (0 <? d); [|apply -> in_rev]; exact Hp.
  - intros H d ps p Hl (e & He & ->) Hp. apply isEdge_iff in He. destruct (leftLabel_dart m d _ V Hl) as [Hd Hl'].
    apply (H d e p Hd Hl' He). destruct (0 <? d); [|apply in_rev]; exact Hp.
Qed.

(** ** Pixels in boxes *)
Section Pixels.
Variable unit : positive.
Notation toQ := (toQ unit).
Definition pixelIn (b : box) (x y : Z) : Prop := intPos unit (bx0 b) <= x <= intPos unit (bx1 b) /\ intPos unit (by0 b) <= y <= intPos unit (by1 b).
Definition inBoxQ (b : box) (q : Q * Q) : Prop := ((bx0 b # unit) <= fst q <= (bx1 b # unit) /\ (by0 b # unit) <= snd q <= (by1 b # unit))%Q.

Lemma inBox_Q b p : inBox b p -> inBoxQ b (toQ p).
Proof. unfold inBox, inBoxQ, LabelImage_Model.toQ, Qle. cbn. nia. Qed.
Lemma intPos_low v x : ((v # unit) < inject_Z x + (1#2))%Q -> intPos unit v <= x.
Proof.
  intros H. unfold intPos. assert (L : (Qfloor ((v # unit) + (1#2)) < x + 1)%Z); [|lia]. rewrite Zlt_Qlt, inject_Z_plus.
  pose proof (Qfloor_le ((v # unit) + (1#2))) as F. change (inject_Z 1) with 1%Q. lra.
Qed.
Lemma intPos_high v x : (inject_Z x - (1#2) <= (v # unit))%Q -> x <= intPos unit v.
Proof.
  intros H. unfold intPos. rewrite <- (Qfloor_Z x) at 1. apply Qfloor_resp_le. lra.
Qed.
Lemma pixel_in b x y q : inBoxQ b q -> inPixel x y q -> pixelIn b x y.
Proof. intros [[H1 H2] [H3 H4]] [[K1 K2] [K3 K4]]. repeat split; [apply intPos_low | apply intPos_high | apply intPos_low | apply intPos_high]; lra. Qed.
Lemma convex_low lo a c u : (0 <= u <= 1 -> lo <= a -> lo <= c -> lo <= a + (c - a) * u)%Q.
Proof.
  intros [U0 U1] A C. assert (E : (a + (c - a) * u == lo + ((a - lo) * (1 - u) + (c - lo) * u))%Q) by ring. rewrite E.
  assert (0 <= (a - lo) * (1 - u))%Q by (apply Qmult_le_0_compat; lra). assert (0 <= (c - lo) * u)%Q by (apply Qmult_le_0_compat; lra). lra.
Qed.
Lemma convex_high hi a c u : (0 <= u <= 1 -> a <= hi -> c <= hi -> a + (c - a) * u <= hi)%Q.
Proof. intros U A C. pose proof (convex_low (- hi) (- a) (- c) u U ltac:(lra) ltac:(lra)) as H. assert (E : (- a + (- c - - a) * u == - (a + (c - a) * u))%Q) by ring. rewrite E in H. lra. Qed.
Lemma between_in b p q u : (0 <= u <= 1)%Q -> inBoxQ b p -> inBoxQ b q -> inBoxQ b (between p q u).
Proof. intros U [[A1 A2] [A3 A4]] [[B1 B2] [B3 B4]]. unfold between. repeat split; cbn [fst snd]; (apply convex_low || apply convex_high); assumption. Qed.

Lemma cross_in b pts x y : (forall p, In p pts -> inBox b p) -> crosses unit pts x y -> pixelIn b x y.
Proof.
  intros H. unfold crosses. induction pts as [|p t IH]; [intros []|]. destruct t as [|q t].
  - cbn. apply pixel_in, inBox_Q, H. left. reflexivity.
  - intros [(u & U & K)|K].
    + apply (pixel_in b x y (between (toQ p) (toQ q) u)); [apply between_in; [exact U | apply inBox_Q, H; left; reflexivity | apply inBox_Q, H; right; left; reflexivity] | exact K].
    + apply IH; [intros r Hr; apply H; right; exact Hr | exact K].
Qed.

(** *** Windings *)
Definition gt (y : Z) (q : Q * Q) : Z := if negb (Qle_bool (snd q) (inject_Z y)) then 1 else 0.
Lemma crossing_cases x y a c : crossing x y a c = 0 \/ (exists u, (0 <= u <= 1)%Q /\ (snd (between a c u) == inject_Z y)%Q /\
  ((fst (between a c u) < inject_Z x)%Q /\ crossing x y a c = gt y c - gt y a)).
Proof.
  unfold crossing. cbn zeta. fold (gt y c) (gt y a).
  set (cx := (fst a + (fst c - fst a) * (inject_Z y - snd a) / (snd c - snd a))%Q). destruct (Qle_bool (inject_Z x) cx) eqn:E; cbn [negb]; [left; reflexivity|].
  assert (Lt : (cx < inject_Z x)%Q). { apply Qnot_le_lt. intros K. apply Qle_bool_iff in K. congruence. }
  destruct (Z.eq_dec (gt y c) (gt y a)) as [Q|N]; [left; lia|]. right.
  assert (S : ((snd a <= inject_Z y < snd c) \/ (snd c <= inject_Z y < snd a))%Q).
  { unfold gt in N. destruct (Qle_bool (snd a) (inject_Z y)) eqn:Ea, (Qle_bool (snd c) (inject_Z y)) eqn:Ec; cbn in N; try lia; [left | right]; (split; [apply Qle_bool_iff; assumption|]); apply Qnot_le_lt; intros K; apply Qle_bool_iff in K; congruence. }
  assert (D : ~ (snd c - snd a == 0)%Q) by (destruct S; lra).
  exists ((inject_Z y - snd a) / (snd c - snd a))%Q. split.
  - destruct S as [[S1 S2]|[S1 S2]].
    + split; [apply Qle_shift_div_l; lra | apply Qle_shift_div_r; lra].
    + assert (E2 : ((inject_Z y - snd a) / (snd c - snd a) == (snd a - inject_Z y) / (snd a - snd c))%Q) by (field; split; lra).
      rewrite E2. split; [apply Qle_shift_div_l; lra | apply Qle_shift_div_r; lra].
  - split; [unfold between; cbn [snd]; field; exact D|]. split; [|reflexivity].
    assert (E3 : (fst (between a c ((inject_Z y - snd a) / (snd c - snd a))) == cx)%Q) by (unfold between, cx; cbn [fst]; field; exact D). rewrite E3. exact Lt.
Qed.

Lemma wind_nonzero x y c : winding x y c <> 0 -> exists p q u, In p c /\ In q c /\ (0 <= u <= 1)%Q /\ (snd (between p q u) == inject_Z y)%Q /\ (fst (between p q u) < inject_Z x)%Q.
Proof.
  induction c as [|p t IH]; [intros H; exfalso; apply H; reflexivity|]. destruct t as [|q t]; [intros H; exfalso; apply H; reflexivity|].
  change (winding x y (p :: q :: t)) with (crossing x y p q + winding x y (q :: t)). intros H. destruct (crossing_cases x y p q) as [E|(u & U & Hy & Hx & _)].
  - destruct IH as (a & b & u & A & B & K); [lia|]. exists a, b, u. split; [right; exact A|]. split; [right; exact B | exact K].
  - exists p, q, u. split; [left; reflexivity|]. split; [right; left; reflexivity|]. auto.
Qed.
Lemma wind_right x y c : c <> [] -> (forall p, In p c -> (fst p < inject_Z x)%Q) -> winding x y c = gt y (lastq c) - gt y (hdq c).
Proof.
  induction c as [|p t IH]; [congruence|]. intros _ H. destruct t as [|q t]; [cbn; lia|].
  change (winding x y (p :: q :: t)) with (crossing x y p q + winding x y (q :: t)). rewrite IH; [|discriminate | intros r Hr; apply H; right; exact Hr].
  change (lastq (p :: q :: t)) with (lastq (q :: t)). cbn [hdq hd]. assert (E : crossing x y p q = gt y q - gt y p); [|unfold hdq; cbn [hd]; lia].
  unfold crossing. cbn zeta. fold (gt y q) (gt y p). destruct (Z.eq_dec (gt y q) (gt y p)) as [Q|N]; [rewrite Q; destruct (negb _); lia|].
  set (cx := (fst p + (fst q - fst p) * (inject_Z y - snd p) / (snd q - snd p))%Q).
  destruct (Qle_bool (inject_Z x) cx) eqn:E; cbn [negb]; [exfalso | reflexivity]. apply Qle_bool_iff in E.
  assert (S : ((snd p <= inject_Z y < snd q) \/ (snd q <= inject_Z y < snd p))%Q).
  { unfold gt in N. destruct (Qle_bool (snd p) (inject_Z y)) eqn:Ea, (Qle_bool (snd q) (inject_Z y)) eqn:Ec; cbn in N; try lia; [left | right]; (split; [apply Qle_bool_iff; assumption|]); apply Qnot_le_lt; intros K; apply Qle_bool_iff in K; congruence. }
  assert (D : ~ (snd q - snd p == 0)%Q) by (destruct S; lra).
  set (u := ((inject_Z y - snd p) / (snd q - snd p))%Q). assert (U : (0 <= u <= 1)%Q).
  { unfold u. destruct S as [[S1 S2]|[S1 S2]].
    + split; [apply Qle_shift_div_l; lra | apply Qle_shift_div_r; lra].
    + assert (E2 : ((inject_Z y - snd p) / (snd q - snd p) == (snd p - inject_Z y) / (snd p - snd q))%Q) by (field; split; lra).
      rewrite E2. split; [apply Qle_shift_div_l; lra | apply Qle_shift_div_r; lra]. }
  assert (E3 : (cx == fst p + (fst q - fst p) * u)%Q) by (unfold u, cx; field; exact D). rewrite E3 in E.
  pose proof (H p (or_introl eq_refl)) as Hp. pose proof (H q (or_intror (or_introl eq_refl))) as Hq.
  set (hi := if Qle_bool (fst p) (fst q) then fst q else fst p). assert (Hh : (fst p <= hi /\ fst q <= hi /\ hi < inject_Z x)%Q).
  { unfold hi. destruct (Qle_bool (fst p) (fst q)) eqn:C; [apply Qle_bool_iff in C; split; [exact C | split; [lra | exact Hq]]|].
    split; [lra|]. split; [|exact Hp]. apply Qlt_le_weak, Qnot_le_lt. intros K. apply Qle_bool_iff in K. congruence. }
  destruct Hh as (H1 & H2 & H3). pose proof (convex_high hi (fst p) (fst q) u U H1 H2). lra.
Qed.

Lemma addUp_nonzero f L : LabelImage_Contour.addUp f L <> 0 -> exists d, In d L /\ f d <> 0.
Proof.
  induction L as [|d L IH]; cbn; [congruence|]. intros H. destruct (Z.eq_dec (f d) 0) as [E|N]; [|exists d; auto]. destruct IH as (k & K & Nk); [lia|]. exists k. auto.
Qed.

(** the pixels a contour goes round lie in its box *)
Lemma around_in m l b x y : MInv m -> geo m -> inside m l b -> around unit m l x y -> pixelIn b x y.
Proof.
  intros M G Hb A. pose proof (mi_v _ M) as V. apply (around_iff unit m l x y M) in A. destruct A as (L & O & _ & Hw).
  assert (Hin : forall d q, In d L -> In q (chain unit (dpts m d)) -> inBoxQ b q).
  { intros d q Hd Hq. assert (Dd := outer_darts m l L d V O Hd). destruct O as (_ & f & a & t & N & Hf & Ea & Da & P & ->).
    assert (La : lft m a = Some l). { apply (fi_anchor _ _ _ _ (mi_f _ M) l (fanchors f) a); [unfold fanch; rewrite Hf; reflexivity | rewrite Ea; left; reflexivity]. }
    assert (Ld : lft m d = Some l). { rewrite <- La. apply (fi_reach (darts m) (phi m) _ (lft m) (fanch m) a d (phi_perm m (sv_si _ V)) (mi_f _ M) Da). apply (orb_in _ _ _ P), Hd. }
    unfold chain in Hq. apply in_map_iff in Hq. destruct Hq as (p & <- & Hp). apply inBox_Q. destruct (live_edge m d Dd) as (e & He). apply (Hb d e p Dd Ld He).
    unfold dpts in Hp. rewrite He in Hp. destruct (0 <? d); [exact Hp | apply in_rev, Hp]. }
  destruct (addUp_nonzero (dwind unit m x y) L) as (d & Hd & Nd); [unfold winds in Hw; lia|]. unfold dwind in Nd.
  destruct (wind_nonzero x y _ Nd) as (p & q & u & Hp & Hq & U & Ey & Ex).
  destruct (between_in b p q u U (Hin d p Hd Hp) (Hin d q Hd Hq)) as [[B1 B2] [B3 B4]]. rewrite Ey in B3, B4.
  assert (Xhi : ~ ((bx1 b # unit) < inject_Z x)%Q).
  { intros C. assert (Z0 : winds unit m x y L = 0); [|lia]. unfold winds. destruct O as (_ & f & a & t & N & Hf & Ea & Da & P & ->).
    rewrite (addUp_ext _ (fun d => - gt y (hdq (chain unit (dpts m d))) - (- gt y (hdq (chain unit (dpts m (phi m d))))))); [apply (addUp_cycle (phi m) (fun d => - gt y (hdq (chain unit (dpts m d)))) a N P)|].
    intros k Hk. assert (Dk : In k (darts m)) by (apply (orb_in _ _ _ P) in Hk; exact (reach_in _ _ _ (phi_perm m (sv_si _ V)) a k Da Hk)). unfold dwind. rewrite wind_right.
    - rewrite (dart_ends unit m k V G Dk). lia.
    - destruct (G k Dk) as [Lk _]. intros E. apply (f_equal (@length _)) in E. unfold chain in E. rewrite map_length in E. cbn in E. lia.
    - intros r Hr. destruct (Hin k r Hk Hr) as [[_ K] _]. lra. }
  repeat split; [apply intPos_low | apply intPos_high | apply intPos_low | apply intPos_high]; lra.
Qed.
End Pixels.

(** ** The operations keep the edges in the boxes *)
Lemma inside_same m m' l b : edges m' = edges m -> inside m l b -> inside m' l b.
Proof. intros E H d e p Hd Hl He Hp. apply (H d e p); unfold lft, eAt in *; rewrite E in *; auto. apply in_darts. apply in_darts in Hd. unfold eAt in *. rewrite E in Hd. exact Hd. Qed.
Lemma inside_flag m m' l b : flagged m m' -> inside m l b -> inside m' l b.
Proof.
  intros F H d e' p Hd Hl He Hp. pose proof (fg_edge _ _ F (elab d)) as K. rewrite He in K. destruct (eAt m (elab d)) as [e|] eqn:Ee; [|contradiction].
  apply in_darts in Hd. apply (H d e p); [apply in_darts; split; [apply Hd | congruence] | | exact Ee | rewrite K in Hp; exact Hp].
  unfold lft in *. rewrite He in Hl. rewrite Ee. rewrite K in Hl. exact Hl.
Qed.
Lemma inside_merged m d1 d2 m' l b : MInv m -> geo m -> Deg2 m d1 d2 -> Merged m d1 d2 m' -> inside m l b -> inside m' l b.
Proof.
  intros M G D B H d e0 p Hd Hl He Hp. pose proof (mi_v _ M) as V. pose proof (sv_si _ V) as S0.
  destruct (merged_join m d1 d2 m' V D G B) as (e1 & e2 & e' & u & c & w & E1 & E2 & Ne & Ee & J1 & J2).
  apply (md_darts m d1 d2 m' B) in Hd. rewrite (md_lft m d1 d2 m' B d Hd) in Hl. apply in_rest in Hd. destruct Hd as (Hd & N1 & N2).
  rewrite Ee in He. destruct (Nat.eqb_spec (elab d2) (elab d)) as [Q|Q]; [discriminate|]. destruct (Nat.eqb_spec (elab d1) (elab d)) as [Q1|Q1]; [|apply (H d e0 p Hd Hl He Hp)]. injection He as <-.
  assert (Pts : In p (epts e1) \/ In p (epts e2)).
  { destruct J1 as [(_ & _ & R1 & T1)|(_ & _ & R1 & T1)]; rewrite T1 in Hp; rewrite R1; apply in_app_or in Hp.
    - destruct Hp as [Hp|Hp]; [right | left; exact Hp]. destruct J2 as [(_ & _ & R2)|(_ & _ & R2)]; rewrite R2; [right; apply in_rev, Hp | apply in_or_app; left; exact Hp].
    - destruct Hp as [Hp|[Hp|Hp]]; [left; apply in_or_app; left; exact Hp | left; apply in_or_app; right; left; exact Hp |].
      right. destruct J2 as [(_ & _ & R2)|(_ & _ & R2)]; rewrite R2; [right; exact Hp | apply in_or_app; left; apply -> in_rev; exact Hp]. }
  destruct Pts as [K|K]; [apply (H d e1 p Hd Hl); [rewrite <- Q1; exact E1 | exact K]|].
  assert (Hs : In d2 (darts m) /\ In (- d2) (darts m) /\ In (- d1) (darts m)) by (repeat split; try apply darts_opp; apply D). destruct Hs as (D2 & D2' & D1').
  assert (P1 : phi m (- d1) = d2). { unfold phi. rewrite Z.opp_involutive, <- (g2_21 _ _ _ D). apply (si_perm _ _ S0 d2 D2). }
  assert (P2 : phi m (- d2) = d1). { unfold phi. rewrite Z.opp_involutive, <- (g2_12 _ _ _ D). apply (si_perm _ _ S0 d1 (g2_1 _ _ _ D)). }
  apply elab_eq in Q1. destruct Q1 as [Q1|Q1].
  - apply (H (- d2) e2 p D2'); [|rewrite elab_opp; exact E2 | exact K]. rewrite <- (fi_phi _ _ _ _ (mi_f _ M) (- d2) D2'), P2. rewrite Q1. exact Hl.
  - apply (H d2 e2 p D2); [|exact E2 | exact K]. rewrite <- P1, (fi_phi _ _ _ _ (mi_f _ M) (- d1) D1'). rewrite Q1, Z.opp_involutive. exact Hl.
Qed.
Lemma in_splitPts (l : list point) k p : In p (fst (splitPts l k)) \/ In p (snd (splitPts l k)) -> In p l.
Proof.
  unfold splitPts. destruct k as [|k]; cbn [fst snd].
  - intros [H|H]; [|exact H]. rewrite <- (firstn_skipn 1 l). apply in_or_app. left. exact H.
  - intros [H|H]; [rewrite <- (firstn_skipn (Datatypes.S (Datatypes.S k)) l) | rewrite <- (firstn_skipn (Datatypes.S k) l)]; apply in_or_app; [left | right]; exact H.
Qed.
Lemma inside_split m lb e k pos pts m' r l b : SInv m -> eAt m lb = Some e -> Split m lb e k pos pts m' r ->
  (forall p, In p pts -> (forall q, In q (epts e) -> inBox b q) -> inBox b p) -> inside m l b -> inside m' l b.
Proof.
  intros V He Sp Hc H d e' p Hd Hl He' Hp. rewrite (sp_edge _ _ _ _ _ _ _ _ Sp) in He'. apply in_darts in Hd. destruct Hd as [Nd _].
  assert (Key : elab d = r \/ elab d = lb -> In p pts -> inBox b p).
  { intros Q Hin. apply Hc; [exact Hin|]. intros q Hq.
    assert (Hlb : lb <> 0%nat) by (intros ->; rewrite (sv_e0 _ V) in He; discriminate).
    set (d0 := if 0 <? d then Z.of_nat lb else - Z.of_nat lb). assert (El : elab d0 = lb) by (unfold d0; destruct (0 <? d); [|rewrite elab_opp]; apply elab_of_nat).
    assert (Sd : (0 <? d0) = (0 <? d)) by (unfold d0; destruct (Z.ltb_spec 0 d); [apply Z.ltb_lt; lia | apply Z.ltb_ge; lia]).
    apply (H d0 e q); [apply in_darts; split; [unfold d0; destruct (0 <? d); lia | rewrite El; congruence] | | rewrite El; exact He | exact Hq].
    unfold lft in *. rewrite El, He. rewrite (sp_edge _ _ _ _ _ _ _ _ Sp) in Hl. unfold e_lf in *. rewrite Sd.
    destruct (Nat.eqb_spec r (elab d)); [exact Hl|]. destruct (Nat.eqb_spec lb (elab d)); [exact Hl|]. destruct Q; congruence. }
  destruct (Nat.eqb_spec r (elab d)) as [Q|Q]; [injection He' as <-; apply Key; [auto | apply (in_splitPts pts k); right; exact Hp]|].
  destruct (Nat.eqb_spec lb (elab d)) as [Q1|Q1]; [injection He' as <-; apply Key; [auto | apply (in_splitPts pts k); left; exact Hp]|].
  apply (H d e' p); [apply in_darts; split; [exact Nd | congruence] | | exact He' | exact Hp].
  unfold lft in *. rewrite (sp_edge _ _ _ _ _ _ _ _ Sp) in Hl. apply Nat.eqb_neq in Q, Q1. rewrite Q, Q1 in Hl. exact Hl.
Qed.
Lemma inside_bridge m d fl m' l b : Bridged m d fl m' -> inside m l b -> inside m' l b.
Proof.
  intros B H x e p Hx Hl He Hp. pose proof (br_edge _ _ _ _ B (elab x)) as K. rewrite He in K. unfold lft in Hl. rewrite He in Hl. apply in_darts in Hx. destruct Hx as [Nx _].
  destruct (Nat.eqb_spec (elab d) (elab x)) as [Q|Q]; [discriminate|]. apply (H x e p); auto; [apply in_darts; split; [exact Nx | congruence] | unfold lft; rewrite <- K; exact Hl].
Qed.
Lemma inside_cached m mc l b : cached m mc -> inside m l b -> inside mc l b.
Proof. intros C. apply inside_same. apply (cached_same _ _ C). Qed.
Lemma inside_fmerged m d s mm m' : FMerged m d s mm m' ->
  (forall l b, l <> s -> inside m l b -> inside m' l b) /\ (forall a b, inside m s a -> inside m mm b -> inside m' s (boxJoin a b)).
Proof.
  intros F. assert (Key : forall x e p l, In x (darts m') -> lft m' x = Some l -> eAt m' (elab x) = Some e -> In p (epts e) -> exists e0 g, In x (darts m) /\ lft m x = Some g /\ (if Nat.eqb g mm then s else g) = l /\ eAt m (elab x) = Some e0 /\ In p (epts e0)).
  { intros x e p l Hx Hl He Hp. pose proof (eg_edge _ _ _ (mf_gone _ _ _ _ _ F) (elab x)) as K. rewrite He in K. destruct (eAt m (elab x)) as [e0|] eqn:E0; [|contradiction]. destruct K as (_ & _ & _ & Ep & _).
    rewrite (mf_lft _ _ _ _ _ F x Hx) in Hl. destruct (lft m x) as [g|] eqn:Lg; [|discriminate]. injection Hl as Hl. exists e0, g. apply in_darts in Hx. split; [apply in_darts; split; [apply Hx | congruence]|]. rewrite <- Ep. auto. }
  split.
  - intros l b Nl H x e p Hx Hl He Hp. destruct (Key x e p l Hx Hl He Hp) as (e0 & g & Dx & Lg & Q & E0 & P0). destruct (Nat.eqb_spec g mm); [congruence|]. subst g. apply (H x e0 p); assumption.
  - intros a b Ha Hb x e p Hx Hl He Hp. destruct (Key x e p s Hx Hl He Hp) as (e0 & g & Dx & Lg & Q & E0 & P0). apply inBox_join. destruct (Nat.eqb_spec g mm); [right; subst g; apply (Hb x e0 p) | left; subst g; apply (Ha x e0 p)]; assumption.
Qed.
