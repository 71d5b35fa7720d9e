(** Counting the edges across a pixel; the cached scanlines of edges; single steps on the label image. *)
From Coq Require Import QArith.
From Verif Require Import Base GeoMap_Model GeoMap_Views GeoMap_SInv GeoMap_MInv GeoMap_History GeoMap_Geometry GeoMap_Spec GeoMap_Facts
  Scanlines_Model Scanlines_Spec ScanPoly_Model ScanPoly_Spec LabelLUT_Model LabelImage_Model LabelImage_Spec LabelImage_Loops LabelImage_Cover.
Local Open Scope Z_scope.

(** ** Sums over labels *)
Fixpoint tot (f : nat -> Z) (n : nat) : Z := match n with O => 0 | S k => tot f k + f k end.
Lemma tot_ext f g : forall n, (forall l, (l < n)%nat -> f l = g l) -> tot f n = tot g n.
Proof. induction n as [|n IH]; intros H; cbn [tot]; [reflexivity|]. rewrite IH by (intros; apply H; lia). rewrite H by lia. reflexivity. Qed.
Lemma tot_change f g l : forall n, (l < n)%nat -> (forall k, (k < n)%nat -> k <> l -> g k = f k) -> tot g n = tot f n - f l + g l.
Proof.
  induction n as [|n IH]; intros Hl H; [lia|]. cbn [tot]. destruct (Nat.eq_dec l n) as [->|N].
  - rewrite (tot_ext g f n) by (intros k Hk; apply H; lia). lia.
  - rewrite IH by (try lia; auto). rewrite (H n) by lia. lia.
Qed.
Lemma tot_nonneg f : (forall l, 0 <= f l) -> forall n, 0 <= tot f n.
Proof. intros H n. induction n as [|n IH]; cbn [tot]; [lia|]. specialize (H n). lia. Qed.
Lemma tot_ge f : (forall l, 0 <= f l) -> forall n l, (l < n)%nat -> f l <= tot f n.
Proof.
  intros H. induction n as [|n IH]; intros l Hl; [lia|]. cbn [tot]. pose proof (tot_nonneg f H n). destruct (Nat.eq_dec l n) as [->|N]; [lia|].
  specialize (IH l). specialize (H n). lia.
Qed.
Lemma tot_ge2 f : (forall l, 0 <= f l) -> forall n k l, (k < n)%nat -> (l < n)%nat -> k <> l -> f k + f l <= tot f n.
Proof.
  intros H. induction n as [|n IH]; intros k l Hk Hl N; [lia|]. cbn [tot].
  destruct (Nat.eq_dec k n) as [->|N1]; [pose proof (tot_ge f H n l); lia|]. destruct (Nat.eq_dec l n) as [->|N2]; [pose proof (tot_ge f H n k); lia|].
  specialize (IH k l). specialize (H n). lia.
Qed.
(** a sum of zeros and ones counts *)
Lemma tot_count f : (forall l, f l = 0 \/ f l = 1) -> forall n, exists L, NoDup L /\ (forall l, In l L <-> (l < n)%nat /\ f l = 1) /\ tot f n = Z.of_nat (length L).
Proof.
  intros H. induction n as [|n (L & ND & HL & E)]; cbn [tot].
  - exists []. split; [constructor|]. split; [intros l; cbn; lia | reflexivity].
  - destruct (H n) as [E0|E1].
    + exists L. split; [exact ND|]. split; [|rewrite E, E0; lia]. intros l. rewrite HL. split; intros [H1 H2]; (split; [|exact H2]); [lia|].
      destruct (Nat.eq_dec l n) as [->|N]; lia.
    + exists (n :: L). split; [constructor; [rewrite HL; lia | exact ND]|]. split; [|cbn [length]; rewrite E, E1; lia].
      intros l. cbn [In]. rewrite HL. split; [intros [<-|[H1 H2]]; [lia | split; [lia | exact H2]]|]. intros [H1 H2]. destruct (Nat.eq_dec n l); [left; assumption | right; split; [lia | exact H2]].
Qed.

Section Cache.
Variable srt : list seg -> list seg.
Hypothesis Hsrt : sorter srt.
Variable unit : positive.

Definition chain (pts : list point) : list (Q * Q) := map (toQ unit) pts.

(** does the polygon cross the pixel, by computation *)
Definition crossB (pts : list point) (x y : Z) : bool :=
  match scanEdge srt unit pts with Ok s => covB (lineOf s y) x | _ => false end.
Lemma crossB_iff pts x y : crossB pts x y = true <-> crosses unit pts x y.
Proof.
  unfold crossB, crosses. destruct pts as [|p t] eqn:Ep; [cbn; split; [discriminate | intros []]|]. rewrite <- Ep.
  destruct (scanEdge_scans srt Hsrt unit pts) as (s & -> & Hs); [subst; discriminate|]. rewrite covB_iff. apply (sc_cov _ _ Hs).
Qed.
Lemma scans_cross pts s x y : scans (chain pts) s -> covB (lineOf s y) x = crossB pts x y.
Proof.
  intros Hs. pose proof (covB_iff (lineOf s y) x) as A. rewrite (sc_cov _ _ Hs x y) in A. pose proof (crossB_iff pts x y) as B. unfold crosses in B. unfold chain in A.
  destruct (covB _ _), (crossB _ _ _); intuition congruence.
Qed.
Lemma crossB_eq p q x y : (crosses unit p x y <-> crosses unit q x y) -> crossB p x y = crossB q x y.
Proof. intros H. pose proof (crossB_iff p x y). pose proof (crossB_iff q x y). destruct (crossB p x y), (crossB q x y); intuition congruence. Qed.
Lemma crossB_or p q r x y : (crosses unit r x y <-> crosses unit p x y \/ crosses unit q x y) -> crossB r x y = crossB p x y || crossB q x y.
Proof.
  intros H. pose proof (crossB_iff p x y). pose proof (crossB_iff q x y). pose proof (crossB_iff r x y).
  destruct (crossB p x y), (crossB q x y), (crossB r x y); cbn; intuition congruence.
Qed.

(** ** How many edges cross a pixel *)
Definition b2z (b : bool) : Z := if b then 1 else 0.
Definition ind m (x y : Z) (l : nat) : Z := match eAt m l with Some e => b2z (crossB (epts e) x y) | None => 0 end.
Definition cnt m (x y : Z) : Z := tot (ind m x y) (length (edges m)).

Lemma b2z_01 b : b2z b = 0 \/ b2z b = 1. Proof. destruct b; cbn; auto. Qed.
Lemma b2z_le b : 0 <= b2z b <= 1. Proof. destruct b; cbn; lia. Qed.
Lemma ind_01 m x y l : ind m x y l = 0 \/ ind m x y l = 1.
Proof. unfold ind. destruct (eAt m l); [apply b2z_01 | auto]. Qed.
Lemma ind_nn m x y l : 0 <= ind m x y l.
Proof. destruct (ind_01 m x y l); lia. Qed.
Lemma cnt_nn m x y : 0 <= cnt m x y.
Proof. apply tot_nonneg. intros l. apply ind_nn. Qed.
Lemma ind_one m x y l : ind m x y l = 1 <-> crossedBy unit m l x y.
Proof.
  unfold ind, crossedBy. split.
  - destruct (eAt m l) as [e|] eqn:E; [|lia]. intros H. exists e. split; [apply isEdge_iff; exact E|]. apply crossB_iff. destruct (crossB _ _ _); [reflexivity | cbn in H; lia].
  - intros (e & He & Hc). apply isEdge_iff in He. rewrite He. apply crossB_iff in Hc. rewrite Hc. reflexivity.
Qed.
Lemma cnt_list m x y L : edgesAcross unit m x y L -> cnt m x y = Z.of_nat (length L).
Proof.
  intros [ND HL]. destruct (tot_count (ind m x y) (ind_01 m x y) (length (edges m))) as (L' & ND' & HL' & E). unfold cnt. rewrite E. f_equal.
  apply Nat.le_antisymm; apply NoDup_incl_length; auto.
  - intros l Hl. apply HL' in Hl. apply HL, ind_one, Hl.
  - intros l Hl. apply HL in Hl. apply HL'. split; [|apply ind_one; exact Hl]. destruct Hl as (e & He & _). apply isEdge_iff in He. apply tget_lt in He. exact He.
Qed.
Lemma cnt_exists m x y : exists L, edgesAcross unit m x y L.
Proof.
  destruct (tot_count (ind m x y) (ind_01 m x y) (length (edges m))) as (L & ND & HL & E). exists L. split; [exact ND|]. intros l. rewrite HL, ind_one. split; [tauto|].
  intros H. split; [|exact H]. destruct H as (e & He & _). apply isEdge_iff in He. apply tget_lt in He. exact He.
Qed.

(** the same polygons *)
Definition samePts m m' : Prop := length (edges m') = length (edges m) /\ forall l, option_map epts (eAt m' l) = option_map epts (eAt m l).
Lemma samePts_refl m : samePts m m. Proof. split; auto. Qed.
Lemma samePts_edges m m' : edges m' = edges m -> samePts m m'.
Proof. intros E. unfold samePts, eAt. rewrite E. auto. Qed.
Lemma samePts_ind m m' x y l : samePts m m' -> ind m' x y l = ind m x y l.
Proof. intros [_ H]. specialize (H l). unfold ind. destruct (eAt m l), (eAt m' l); cbn in H; congruence. Qed.
Lemma samePts_cnt m m' x y : samePts m m' -> cnt m' x y = cnt m x y.
Proof. intros H. unfold cnt. destruct H as [E K]. rewrite E. apply tot_ext. intros l _. apply samePts_ind. split; assumption. Qed.

(** ** Scanlines of an edge *)
Record onlyScan st (l : nat) (s : scanlines) st' : Prop := {
  os_g : lg st' = lg st; os_size : lsize st' = lsize st; os_im : lim st' = lim st; os_lut : llut st' = llut st; os_area : larea st' = larea st;
  os_sc : forall k, lsc st' k = if Nat.eqb k l then Some s else lsc st k }.

Lemma edgeScan_spec st l e : eAt (lg st) l = Some e -> epts e <> [] -> (forall s, lsc st l = Some s -> scans (chain (epts e)) s) ->
  exists st' s, edgeScan srt unit st l = Ok (st', s) /\ scans (chain (epts e)) s /\ onlyScan st l s st'.
Proof.
  intros He Hp Hc. unfold edgeScan. rewrite (deref_edge _ _ _ He). cbn [bind]. destruct (lsc st l) as [s|] eqn:El.
  - exists st, s. split; [reflexivity|]. split; [auto|]. constructor; auto. intros k. destruct (Nat.eqb_spec k l) as [->|]; auto.
  - destruct (scanEdge_scans srt Hsrt unit (epts e) Hp) as (s & -> & Hs). cbn [bind]. eexists _, s. split; [reflexivity|]. split; [exact Hs|].
    constructor; reflexivity.
Qed.

Definition sameSize (a b : image) : Prop := iw b = iw a /\ ih b = ih a.

(** ** Single steps on the image *)
Lemma rawAddEdge_spec s img diff : tidy s -> exists img', rawAddEdge s img diff = Ok img' /\ sameSize img img' /\
  forall x y, ipx img' x y = if insideB img x y && covB (lineOf s y) x then ipx img x y + diff else ipx img x y.
Proof.
  intros T. unfold rawAddEdge. destruct (walkEdge_spec (fun v => (v + diff, false)) s img T) as (img' & out & -> & H1 & H2 & H3 & _). cbn [bind fst].
  exists img'. split; [reflexivity|]. split; [split; assumption | exact H3].
Qed.
Lemma markEdge_spec s img : tidy s -> exists img', markEdge s img = Ok img' /\ sameSize img img' /\
  forall x y, ipx img' x y = if insideB img x y && covB (lineOf s y) x then (if ipx img x y >=? 0 then -1 else ipx img x y - 1) else ipx img x y.
Proof.
  intros T. unfold markEdge. destruct (walkEdge_spec (fun v => (if v >=? 0 then -1 else v - 1, false)) s img T) as (img' & out & -> & H1 & H2 & H3 & _). cbn [bind fst].
  exists img'. split; [reflexivity|]. split; [split; assumption | exact H3].
Qed.
Lemma removeEdgeFrom_spec s img sub : tidy s -> exists img' out, removeEdgeFrom s img sub = Ok (img', out) /\ sameSize img img' /\
  (forall x y, ipx img' x y = if insideB img x y && covB (lineOf s y) x then (if ipx img x y =? -1 then sub else ipx img x y + 1) else ipx img x y) /\
  NoDup out /\ (forall x y, In (x, y) out <-> insideB img x y = true /\ covB (lineOf s y) x = true /\ ipx img x y = -1).
Proof.
  intros T. unfold removeEdgeFrom. destruct (walkEdge_spec (fun v => if negb (v =? -1) then (v + 1, false) else (sub, true)) s img T) as (img' & out & -> & H1 & H2 & H3 & H4 & H5).
  exists img', out. split; [reflexivity|]. split; [split; assumption|]. split; [|split; [exact H4|]].
  - intros x y. rewrite H3. destruct (_ && _); [|reflexivity]. destruct (ipx img x y =? -1); reflexivity.
  - intros x y. rewrite H5, covB_iff. destruct (Z.eqb_spec (ipx img x y) (-1)); cbn [negb snd]; intuition congruence.
Qed.

(** ** One statement about an edge, with or without image *)
Record stepped st (l : nat) (s : scanlines) (diff : Z) st' : Prop := {
  sd_g : lg st' = lg st; sd_size : lsize st' = lsize st; sd_lut : llut st' = llut st; sd_area : larea st' = larea st;
  sd_sc : forall k, lsc st' k = if Nat.eqb k l then Some s else lsc st k;
  sd_im : forall img, lim st = Some img -> exists img', lim st' = Some img' /\ sameSize img img' /\
     forall x y, ipx img' x y = if insideB img x y && covB (lineOf s y) x then ipx img x y + diff else ipx img x y }.

Lemma rawAddOf_off st l diff : lim st = None -> rawAddOf srt unit st l diff = Ok st.
Proof. intros E. unfold rawAddOf, ifImage. rewrite E. reflexivity. Qed.
Lemma rawAddOf_on st l e diff img : lim st = Some img -> eAt (lg st) l = Some e -> epts e <> [] -> (forall s, lsc st l = Some s -> scans (chain (epts e)) s) ->
  exists st' s, rawAddOf srt unit st l diff = Ok st' /\ scans (chain (epts e)) s /\ stepped st l s diff st'.
Proof.
  intros Hi He Hp Hc. unfold rawAddOf, ifImage. rewrite Hi. destruct (edgeScan_spec st l e He Hp Hc) as (st1 & s & -> & Hs & O). cbn [bind snd fst].
  destruct (rawAddEdge_spec s img diff (sc_tidy _ _ Hs)) as (img' & -> & Sz & Hx). cbn [bind]. eexists _, s. split; [reflexivity|]. split; [exact Hs|].
  destruct O. constructor; auto. cbn [lim set_lim]. intros img0 E0. rewrite Hi in E0. injection E0 as <-. exists img'. auto.
Qed.
(** the same for an edge whose scanlines are there, whatever its points *)
Lemma rawAddOf_cached st l e diff img s : lim st = Some img -> eAt (lg st) l = Some e -> lsc st l = Some s -> tidy s ->
  exists st', rawAddOf srt unit st l diff = Ok st' /\ stepped st l s diff st'.
Proof.
  intros Hi He Hc T. unfold rawAddOf, ifImage. rewrite Hi. unfold edgeScan. rewrite (deref_edge _ _ _ He). cbn [bind]. rewrite Hc. cbn [bind fst snd].
  destruct (rawAddEdge_spec s img diff T) as (img' & -> & Sz & Hx). cbn [bind]. eexists. split; [reflexivity|].
  constructor; try reflexivity.
  - intros k. cbn. destruct (Nat.eqb_spec k l) as [->|]; auto.
  - cbn [lim set_lim]. intros img0 E0. rewrite Hi in E0. injection E0 as <-. exists img'. auto.
Qed.

Lemma insideB_size a b x y : sameSize a b -> insideB b x y = insideB a x y.
Proof. intros [H1 H2]. unfold insideB. rewrite H1, H2. reflexivity. Qed.
Lemma sameSize_trans a b c : sameSize a b -> sameSize b c -> sameSize a c.
Proof. unfold sameSize. intuition congruence. Qed.
End Cache.
