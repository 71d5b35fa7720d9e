(** The invariant of a GeoMap with label image, and the operations that change edges. *)
From Coq Require Import QArith.
From Verif Require Import Base Orbit GeoMap_Model GeoMap_Views GeoMap_SInv GeoMap_MergeEdges GeoMap_SplitEdge GeoMap_MInv GeoMap_Gone GeoMap_Bridge GeoMap_MergeFaces
  GeoMap_Flags GeoMap_Move GeoMap_Sort GeoMap_History GeoMap_Geometry GeoMap_Spec GeoMap_Facts GeoMap_Results
  Scanlines_Model Scanlines_Spec ScanPoly_Model ScanPoly_Spec LabelLUT_Model LabelLUT_Spec LabelLUT_Proofs
  LabelImage_Model LabelImage_Spec LabelImage_Loops LabelImage_Cover LabelImage_Cache.
Local Open Scope Z_scope.

Definition goodL {A} (off : Prop) (P : A -> Prop) (r : res A) : Prop :=
  match r with Ok a => P a | Exn => True | UB => off | NoFuel => False end.
Lemma goodL_mono {A} (off : Prop) (P Q : A -> Prop) r : goodL off P r -> (forall a, P a -> Q a) -> goodL off Q r.
Proof. destruct r; cbn; auto. Qed.

(** ** The face labels behind a pixel *)
Definition lutOK m (t : lut) : Prop := exists past, inv t past (length (faces m)) /\ forall f, fAt m f <> None -> ~ absorbed past f.
Definition reads m (t : lut) (v : Z) (f : nat) : Prop := 0 <= v /\ lookup t (Z.to_nat v) = Ok f /\ fAt m f <> None.

Lemma fAt_len m f : fAt m f <> None -> (f < length (faces m))%nat.
Proof. unfold fAt. destruct (tget (faces m) f) eqn:E; [intros _; apply tget_lt in E; exact E | congruence]. Qed.
Lemma vget_iff {A} (l : list A) i a : vget l i = Ok a <-> nth_error l i = Some a.
Proof. unfold vget. destruct (nth_error l i); split; congruence. Qed.

Lemma lutOK_init m : lutOK m (initIdentity (length (faces m))).
Proof. exists []. split; [apply init_inv|]. intros f _ (g & []). Qed.
Lemma lutOK_keep m m' t : lutOK m t -> length (faces m') = length (faces m) -> (forall f, fAt m' f <> None -> fAt m f <> None) -> lutOK m' t.
Proof. intros (past & I & H) E K. exists past. rewrite E. split; [exact I|]. intros f Hf. apply H, K, Hf. Qed.
Lemma lutOK_self m t f : lutOK m t -> fAt m f <> None -> lookup t f = Ok f.
Proof. intros (past & I & H) Hf. apply vget_iff. apply (inv_self _ _ _ I); [apply fAt_len, Hf | apply H, Hf]. Qed.

(** face [mm] absorbed by [s] *)
Lemma lutOK_merge m m' t mm s : lutOK m t -> fAt m s <> None -> fAt m mm <> None -> s <> mm -> length (faces m') = length (faces m) ->
  (forall f, fAt m' f <> None <-> fAt m f <> None /\ f <> mm) ->
  exists t', relabel t mm s = Ok t' /\ lutOK m' t' /\
    (forall l r, lookup t l = Ok r -> lookup t' l = Ok (if Nat.eqb r mm then s else r)).
Proof.
  intros (past & I & HA) Hs Hm N El Hl. destruct (relabel_inv t past _ mm s I (fAt_len _ _ Hm) (fAt_len _ _ Hs) (not_eq_sym N) (HA _ Hm) (HA _ Hs)) as (t' & E & I').
  exists t'. split; [exact E|]. split.
  - exists (past ++ [Relabel mm s]). rewrite El. split; [exact I'|]. intros f Hf C. apply Hl in Hf. destruct Hf as [Hf Hfm]. apply absorbed_app in C. destruct C as [C|(g & C)]; [apply (HA f Hf C) | congruence].
  - intros l r Hr. unfold lookup in *. apply vget_iff in Hr.
    assert (Hln : (l < length (faces m))%nat) by (rewrite <- (inv_len1 _ _ _ I); apply nth_error_Some; congruence).
    destruct (inv_rep _ _ _ I l Hln) as (r' & E' & Hrn & Hra & Hsm). assert (r' = r) by congruence. subst r'. clear E'.
    assert (Mono : forall a b, same past a b -> same (past ++ [Relabel mm s]) a b) by (intros a b; apply same_mono; intros; apply in_or_app; auto).
    apply vget_iff. destruct (Nat.eqb_spec r mm) as [->|Nr].
    + rewrite (inv_same _ _ _ I' l s Hln (fAt_len _ _ Hs)).
      * apply (inv_self _ _ _ I'); [apply fAt_len; exact Hs|]. intros C. apply absorbed_app in C. destruct C as [C|(g & C)]; [apply (HA s Hs C) | congruence].
      * eapply Relation_Operators.rst_trans; [apply Mono, Hsm|]. apply Relation_Operators.rst_step. apply in_or_app. right. left. reflexivity.
    + rewrite (inv_same _ _ _ I' l r Hln Hrn (Mono _ _ Hsm)). apply (inv_self _ _ _ I'); [exact Hrn|]. intros C. apply absorbed_app in C. destruct C as [C|(g & C)]; [contradiction | congruence].
Qed.

Section Inv.
Variable srt : list seg -> list seg.
Hypothesis Hsrt : sorter srt.
Variable unit : positive.
Notation chain := (chain unit).
Notation crossB := (crossB srt unit).
Notation ind := (ind srt unit).
Notation cnt := (cnt srt unit).

(** ** The invariant *)
Record IInv st (img : image) : Prop := {
  ii_m : MInv (lg st);
  ii_size : iw img = fst (lsize st) /\ ih img = snd (lsize st);
  ii_lut : lutOK (lg st) (llut st);
  ii_free : forall x y, insideB img x y = true -> cnt (lg st) x y = 0 -> exists f, reads (lg st) (llut st) (ipx img x y) f;
  ii_cross : forall x y, insideB img x y = true -> 0 < cnt (lg st) x y -> ipx img x y = - cnt (lg st) x y }.
Record LInv st : Prop := {
  li_inv : Inv (lg st);
  li_geo : geo (lg st);
  li_cache : forall l s e, lsc st l = Some s -> eAt (lg st) l = Some e -> scans (chain (epts e)) s;
  li_new : forall l, (length (edges (lg st)) <= l)%nat -> lsc st l = None;
  li_img : forall img, lim st = Some img -> IInv st img }.

Lemma geo_pts m l e : SInv m -> geo m -> eAt m l = Some e -> (2 <= length (epts e))%nat.
Proof.
  intros V G He. assert (L0 : l <> 0%nat) by (intros ->; rewrite (sv_e0 _ V) in He; discriminate).
  assert (Dl : In (Z.of_nat l) (darts m)) by (apply in_darts; rewrite elab_of_nat; split; [lia | congruence]).
  destruct (G _ Dl) as [H _]. unfold dpts in H. rewrite elab_of_nat, He in H. destruct (Z.ltb_spec 0 (Z.of_nat l)); [exact H | lia].
Qed.
Lemma geo_ne m l e : SInv m -> geo m -> eAt m l = Some e -> epts e <> [].
Proof. intros V G He E. pose proof (geo_pts m l e V G He) as H. rewrite E in H. cbn in H. lia. Qed.
Lemma Inv_MInv m : Inv m -> faces m <> [] -> MInv m.
Proof. intros [G|M] H; [rewrite (gp_f _ G) in H; congruence | exact M]. Qed.

(** one call of the map itself *)
Lemma step_base st c m' : LInv st -> allowed (lg st) c -> geometric (lg st) c -> exec (lg st) c = Ok m' ->
  Inv m' /\ geo m' /\ (MInv (lg st) -> MInv m').
Proof.
  intros L A Gc E. destruct (exec_step _ _ _ (li_inv _ L) A E) as (I' & Mo & Ge & _). split; [exact I'|]. split; [exact (Ge (li_geo _ L) Gc)|].
  intros M. apply Inv_MInv; [exact I'|]. pose proof (fAt_len _ _ (mi_0 _ M)) as H. pose proof (mo_f _ _ Mo) as [K _].
  destruct (faces m'); [cbn in K; lia | discriminate].
Qed.

(** ** Calls that leave the image alone *)
Lemma keep_LInv st m' : LInv st -> Inv m' -> geo m' -> (MInv (lg st) -> MInv m') ->
  (forall l s e', lsc st l = Some s -> eAt m' l = Some e' -> exists e, eAt (lg st) l = Some e /\ epts e' = epts e) ->
  (length (edges (lg st)) <= length (edges m'))%nat ->
  (lim st <> None -> samePts (lg st) m' /\ length (faces m') = length (faces (lg st)) /\ forall f, fAt m' f <> None <-> fAt (lg st) f <> None) ->
  LInv (set_lg st m').
Proof.
  intros L I' G' M' Hc Hlen Hi. constructor; cbn [lg lsc lim set_lg]; auto.
  - intros l s e' Hs He'. destruct (Hc _ _ _ Hs He') as (e & He & ->). apply (li_cache _ L l); assumption.
  - intros l Hl. apply (li_new _ L). lia.
  - intros img Him. destruct (li_img _ L img Him) as [M Sz Lu Fr Cr]. destruct Hi as (Sp & Fl & Ff); [congruence|].
    constructor; cbn [lg lsc lim set_lg lsize llut]; auto.
    + apply (lutOK_keep (lg st)); [exact Lu | exact Fl | apply Ff].
    + intros x y Hin. rewrite (samePts_cnt srt unit _ _ x y Sp). intros H0. destruct (Fr x y Hin H0) as (f & A & B & C). exists f. split; [exact A|]. split; [exact B | apply Ff, C].
    + intros x y Hin. rewrite (samePts_cnt srt unit _ _ x y Sp). apply Cr, Hin.
Qed.

(** ** mergeEdges *)
Lemma merged_join m0 d1 d2 m' : SInv m0 -> Deg2 m0 d1 d2 -> geo m0 -> Merged m0 d1 d2 m' ->
  exists e1 e2 e' p c q, eAt m0 (elab d1) = Some e1 /\ eAt m0 (elab d2) = Some e2 /\ elab d1 <> elab d2 /\
    (forall j, eAt m' j = if Nat.eqb (elab d2) j then None else if Nat.eqb (elab d1) j then Some e' else eAt m0 j) /\
    (0 < d1 /\ estart e1 = stt m0 d2 /\ epts e1 = c :: rev p /\ epts e' = rev q ++ c :: rev p \/
     d1 < 0 /\ estart e1 <> stt m0 d2 /\ epts e1 = p ++ [c] /\ epts e' = p ++ c :: q) /\
    (0 < d2 /\ estart e2 = stt m0 d2 /\ epts e2 = c :: q \/ d2 < 0 /\ estart e2 <> stt m0 d2 /\ epts e2 = rev q ++ [c]).
Proof.
  intros V0 D0 G0 B. pose proof (md_pts m0 d1 d2 m' V0 D0 B) as Hp. destruct (mg_edge _ _ _ _ B) as (e1 & e2 & E1 & E2 & He).
  pose proof (sv_si _ V0) as S0. pose proof (si_nz _ _ S0 _ (g2_1 _ _ _ D0)) as N1. pose proof (si_nz _ _ S0 _ (g2_2 _ _ _ D0)) as N2.
  assert (El : elab d1 <> elab d2) by (intros K; apply elab_eq in K; pose proof (g2_ne _ _ _ D0); pose proof (g2_no _ _ _ D0); tauto).
  set (e' := mergedEdge d2 (stt m0 d2) e1 e2) in *. clearbody e'.
  assert (Ee' : eAt m' (elab d1) = Some e') by (rewrite He, Nat.eqb_refl; destruct (Nat.eqb_spec (elab d2) (elab d1)); [congruence | reflexivity]).
  destruct (G0 _ (g2_1 _ _ _ D0)) as [L1 P1]. destruct (G0 _ (g2_2 _ _ _ D0)) as [L2 P2].
  pose proof (g2_st m0 d1 d2 V0 D0) as Est. pose proof (g2_far1 m0 d1 d2 V0 D0) as F1. pose proof (g2_far m0 d1 d2 V0 D0) as F2.
  rewrite Est, <- P2 in P1. rewrite (dpts_opp m0) in Hp by assumption.
  rewrite <- (e_st_stt _ _ _ E1) in Est. rewrite <- (e_st_stt' _ _ _ E1) in F1. rewrite <- (e_st_stt' _ _ _ E2) in F2. pose proof (e_st_stt _ _ _ E2) as Est2.
  unfold dpts in P1, L1, L2, Hp. rewrite elab_opp, Ee', E1, E2 in Hp. rewrite E1 in P1, L1. rewrite E2 in P1, L2.
  unfold e_st in *. set (mn := stt m0 d2) in *. clearbody mn.
  set (a1 := if 0 <? d1 then epts e1 else rev (epts e1)) in *. set (a2 := if 0 <? d2 then epts e2 else rev (epts e2)) in *.
  destruct a1 as [|c X] eqn:Ea1; [cbn in L1; lia|]. destruct a2 as [|c' q] eqn:Ea2; [cbn in L2; lia|]. cbn [hd_error] in P1. injection P1 as <-.
  cbn [rev skipn] in Hp. rewrite <- app_assoc in Hp. cbn [app] in Hp.
  exists e1, e2, e', (rev X), c, q. split; [exact E1|]. split; [exact E2|]. split; [exact El|]. split; [exact He|].
  destruct (Z.ltb_spec 0 d1) as [Q1|Q1], (Z.ltb_spec 0 (- d1)) as [Q1'|Q1']; try lia; destruct (Z.ltb_spec 0 d2) as [Q2|Q2], (Z.ltb_spec 0 (- d2)) as [Q2'|Q2']; try lia;
    (split; [| ]).
  all: unfold a1, a2 in *.
  - left. split; [lia|]. split; [congruence|]. rewrite rev_involutive. split; [exact Ea1|]. rewrite <- (rev_involutive (epts e')), Hp, rev_app_distr. cbn [rev]. rewrite rev_involutive, <- app_assoc. reflexivity.
  - left. split; [lia|]. split; [congruence|]. exact Ea2.
  - left. split; [lia|]. split; [congruence|]. rewrite rev_involutive. split; [exact Ea1|]. rewrite <- (rev_involutive (epts e')), Hp, rev_app_distr. cbn [rev]. rewrite rev_involutive, <- app_assoc. reflexivity.
  - right. split; [lia|]. split; [congruence|]. rewrite <- (rev_involutive (epts e2)), Ea2. reflexivity.
  - right. split; [lia|]. split; [congruence|]. split; [|exact Hp]. rewrite <- (rev_involutive (epts e1)), Ea1. reflexivity.
  - left. split; [lia|]. split; [congruence|]. exact Ea2.
  - right. split; [lia|]. split; [congruence|]. split; [|exact Hp]. rewrite <- (rev_involutive (epts e1)), Ea1. reflexivity.
  - right. split; [lia|]. split; [congruence|]. rewrite <- (rev_involutive (epts e2)), Ea2. reflexivity.
Qed.

Lemma crosses_rev p x y : crosses unit (rev p) x y <-> crosses unit p x y.
Proof. unfold crosses. rewrite map_rev. apply meets_rev, inPixel_respects. Qed.
Lemma crosses_join p c q x y : crosses unit (p ++ c :: q) x y <-> crosses unit (p ++ [c]) x y \/ crosses unit (c :: q) x y.
Proof. unfold crosses. rewrite !map_app. cbn [map]. apply meets_join, inPixel_respects. Qed.
Lemma chain_rev p : chain (rev p) = rev (chain p).
Proof. apply map_rev. Qed.
Lemma chain_join p c q : chain (p ++ c :: q) = chain p ++ toQ unit c :: chain q.
Proof. unfold LabelImage_Cache.chain. rewrite map_app. reflexivity. Qed.

Lemma concat_spec st l1 l2 e2 pts pts2 pts' (rv : bool) : l1 <> l2 -> eAt (lg st) l2 = Some e2 -> epts e2 = pts2 -> pts2 <> [] ->
  (forall s, lsc st l1 = Some s -> scans (chain pts) s) -> (forall s, lsc st l2 = Some s -> scans (chain pts2) s) ->
  (forall s1 s2, scans (chain pts) s1 -> scans (chain (if rv then rev pts2 else pts2)) s2 -> exists s, plusAssign srt s1 s2 = Ok s /\ scans (chain pts') s) ->
  goodL (lsc st l1 <> None /\ lsc st l2 = None) (fun st' => lg st' = lg st /\ lsize st' = lsize st /\ lim st' = lim st /\ llut st' = llut st /\ larea st' = larea st /\
    (forall k, k <> l1 -> k <> l2 -> lsc st' k = lsc st k) /\ (lsc st l1 <> None -> lsc st' l1 <> None) /\ (forall s, lsc st' l1 = Some s -> scans (chain pts') s))
    (concatScans srt unit st l1 l2 rv).
Proof.
  intros N He2 Ep Hp2 C1 C2 J. unfold concatScans. destruct (lsc st l1) as [s1|] eqn:S1.
  2:{ cbn. repeat (split; [reflexivity|]). split; [congruence|]. intros s Hs. congruence. }
  specialize (C1 s1 eq_refl). destruct rv.
  - destruct (lsc st l2) as [s2|] eqn:S2; cbn [bind fst snd]; [|cbn; split; [congruence | reflexivity]].
    destruct (J s1 (reverseLines s2) C1) as (s & -> & Hs). { rewrite chain_rev. apply scans_reverse. apply C2. reflexivity. }
    cbn. repeat (split; [reflexivity|]). unfold updN. split; [|split].
    + intros k K1 K2. destruct (Nat.eqb_spec k l1); [contradiction|]. destruct (Nat.eqb_spec k l2); [contradiction | reflexivity].
    + rewrite Nat.eqb_refl. congruence.
    + intros s0. rewrite Nat.eqb_refl. intros E. injection E as <-. exact Hs.
  - destruct (edgeScan_spec srt Hsrt unit st l2 e2 He2) as (st' & s2 & -> & Hs2 & O). { rewrite Ep; exact Hp2. } { rewrite Ep. exact C2. }
    rewrite Ep in Hs2. cbn [bind fst snd]. destruct (J s1 s2 C1 Hs2) as (s & -> & Hs). cbn. destruct O as [O1 O2 O3 O4 O5 O6].
    repeat (split; [assumption|]). unfold updN. split; [|split].
    + intros k K1 K2. destruct (Nat.eqb_spec k l1); [contradiction|]. rewrite O6. destruct (Nat.eqb_spec k l2); [contradiction | reflexivity].
    + rewrite Nat.eqb_refl. congruence.
    + intros s0. rewrite Nat.eqb_refl. intros E. injection E as <-. exact Hs.
Qed.
End Inv.
