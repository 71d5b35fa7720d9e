(** changeFaceLabels *)
From Coq Require Import QArith Sorted.
From Verif Require Import Base Orbit FaceInv GraphRank Links GeoMap_Model GeoMap_Views GeoMap_SInv GeoMap_MergeEdges GeoMap_Loops GeoMap_MInv GeoMap_Init GeoMap_Embed GeoMap_History GeoMap_Geometry GeoMap_Spec GeoMap_Facts GeoMap_Results
  Scanlines_Model Scanlines_Spec ScanPoly_Model ScanPoly_Spec LabelLUT_Model
  LabelImage_Model LabelImage_Spec LabelImage_Loops LabelImage_Cover LabelImage_Cache LabelImage_Inv LabelImage_Contour LabelImage_Setup LabelImage_Switch.
Local Open Scope Z_scope.

Lemma tget_nth {A} (l : list (option A)) i : tget l i = nth i l None.
Proof. unfold tget. destruct (nth_error l i) eqn:E; [symmetry; apply nth_error_nth, E|]. apply nth_error_None in E. rewrite nth_overflow by exact E. reflexivity. Qed.
Lemma tget_None_cases {A} (l : list (option A)) i : (i < length l)%nat -> tget l i = None -> nth_error l i = Some None.
Proof. intros H E. unfold tget in E. destruct (nth_error l i) as [o|] eqn:K; [congruence|]. apply nth_error_None in K. lia. Qed.

Section Table.
Variable old : list (option face).
Variable new : list nat.
Variable mx : nat.
Definition nw (l : nat) : nat := nth l new 0%nat.

Lemma relabelFaces_spec : forall ls tab labels tab', fst (relabelFaces old new mx ls tab labels) = Some tab' -> NoDup ls -> length tab = mx ->
  length tab' = mx /\
  (forall l f, In l ls -> tget old l = Some f -> (nw l < mx)%nat /\ tget tab (nw l) = None /\ tget tab' (nw l) = Some f) /\
  (forall k, tget tab k <> None -> tget tab' k = tget tab k) /\
  (forall k, tget tab' k <> None -> tget tab k <> None \/ exists l, In l ls /\ tget old l <> None /\ nw l = k) /\
  (forall l1 l2, In l1 ls -> In l2 ls -> tget old l1 <> None -> tget old l2 <> None -> nw l1 = nw l2 -> l1 = l2) /\
  (forall B (g : face -> list B), Permutation (tmap g tab') (tmap g (map (fun l => nth l old None) ls) ++ tmap g tab)).
Proof.
  induction ls as [|l ls IH]; intros tab labels tab' E ND Hl; cbn [relabelFaces] in E.
  - injection E as <-. split; [exact Hl|]. split; [intros l f []|]. split; [auto|]. split; [auto|]. split; [intros l1 l2 []|]. intros B g. apply Permutation_refl.
  - inversion ND as [|? ? Nl ND']; subst. destruct (nth l old None) as [f|] eqn:Ef.
    + fold (nw l) in E. destruct (Nat.ltb_spec (nw l) (length tab)) as [Hn|Hn]; cbn [negb] in E; [|discriminate]. destruct (isLive (nth (nw l) tab None)) eqn:Ei; [discriminate|].
      assert (Et : tget tab (nw l) = None) by (rewrite tget_nth; destruct (nth (nw l) tab None); [discriminate | reflexivity]).
      destruct (IH _ _ _ E ND') as (A1 & A2 & A3 & A4 & A5 & A6); [rewrite list_upd_length; reflexivity|].
      assert (Eu : forall k, tget (list_upd tab (nw l) (Some f)) k = if Nat.eqb (nw l) k then Some f else tget tab k) by (intros k; rewrite tget_upd; apply Nat.ltb_lt in Hn; rewrite Hn; reflexivity).
      split; [exact A1|]. split; [|split; [|split; [|split]]].
      * intros l' f' [<-|Hl'] Hf'.
        -- rewrite tget_nth, Ef in Hf'. injection Hf' as <-. split; [exact Hn|]. split; [exact Et|]. rewrite A3; rewrite Eu, Nat.eqb_refl; [reflexivity | discriminate].
        -- destruct (A2 l' f' Hl' Hf') as (B1 & B2 & B3). split; [exact B1|]. split; [|exact B3]. rewrite Eu in B2. destruct (Nat.eqb (nw l) (nw l')); [discriminate | exact B2].
      * intros k Hk. rewrite A3; rewrite Eu; destruct (Nat.eqb_spec (nw l) k) as [Q|Q]; try (subst k; congruence); [reflexivity | exact Hk].
      * intros k Hk. destruct (A4 k Hk) as [B|(l' & B1 & B2 & B3)]; [|right; exists l'; split; [right; exact B1 | auto]]. rewrite Eu in B. destruct (Nat.eqb_spec (nw l) k) as [Q|Q]; [|left; exact B].
        right. exists l. split; [left; reflexivity|]. split; [rewrite tget_nth, Ef; discriminate | exact Q].
      * assert (Key : forall l', In l' ls -> tget old l' <> None -> nw l' <> nw l).
        { intros l' Hl' Hf' Q. destruct (tget old l') as [f'|] eqn:E'; [|congruence]. destruct (A2 l' f' Hl' E') as (_ & B2 & _). rewrite Eu, Q, Nat.eqb_refl in B2. discriminate. }
        intros l1 l2 [<-|H1] [<-|H2] F1 F2 Q; auto; [destruct (Key l2 H2 F2); congruence | destruct (Key l1 H1 F1); congruence].
      * intros B g. rewrite (A6 B g). cbn [map tmap flat_map]. rewrite Ef. rewrite <- app_assoc.
        rewrite (tmap_upd_none g tab (nw l) f) by (apply tget_None_cases; assumption). unfold tmap. rewrite !app_assoc. apply Permutation_app_tail, Permutation_app_comm.
    + destruct (IH _ _ _ E ND' eq_refl) as (A1 & A2 & A3 & A4 & A5 & A6). assert (Nf : tget old l = None) by (rewrite tget_nth; exact Ef). split; [exact A1|]. split; [|split; [exact A3|split; [|split]]].
      * intros l' f' [<-|Hl'] Hf'; [congruence | apply A2; assumption].
      * intros k Hk. destruct (A4 k Hk) as [B|(l' & B1 & B2)]; [left; exact B | right; exists l'; split; [right; exact B1 | exact B2]].
      * intros l1 l2 [<-|H1] [<-|H2] F1 F2 Q; auto; congruence.
      * intros B g. rewrite (A6 B g). cbn [map]. rewrite Ef. reflexivity.
Qed.
End Table.

Lemma map_nth_seq {A} (l : list A) d : map (fun i => nth i l d) (seq 0 (length l)) = l.
Proof.
  symmetry. rewrite <- (map_id l) at 1. clear. induction l as [|a l IH]; [reflexivity|]. cbn [length seq map]. f_equal. rewrite <- seq_shift, map_map. exact IH.
Qed.
Lemma tmap_repeat {A B} (g : A -> list B) n : tmap g (repeat None n) = [].
Proof. induction n; [reflexivity | exact IHn]. Qed.
Lemma tget_repeat {A} n k : tget (repeat (@None A) n) k = None.
Proof. unfold tget. revert k. induction n as [|n IH]; intros [|k]; cbn; auto. Qed.

(** the table after a successful relabelling *)
Record retable (old : list (option face)) (new : list nat) (mx : nat) (tab : list (option face)) : Prop := {
  rt_len : length tab = mx;
  rt_to : forall l f, tget old l = Some f -> (nw new l < mx)%nat /\ tget tab (nw new l) = Some f;
  rt_from : forall k, tget tab k <> None -> exists l, tget old l <> None /\ nw new l = k;
  rt_inj : forall l1 l2, tget old l1 <> None -> tget old l2 <> None -> nw new l1 = nw new l2 -> l1 = l2;
  rt_perm : forall B (g : face -> list B), Permutation (tmap g tab) (tmap g old) }.
Lemma relabelFaces_ok old new mx labels tab : length new = length old ->
  fst (relabelFaces old new mx (seq 0 (length new)) (repeat None mx) labels) = Some tab -> retable old new mx tab.
Proof.
  intros Hn E. destruct (relabelFaces_spec old new mx _ _ _ _ E (seq_NoDup _ _) (repeat_length _ _)) as (A1 & A2 & A3 & A4 & A5 & A6).
  assert (K : forall l, tget old l <> None -> In l (seq 0 (length new))).
  { intros l Hl. apply in_seq. destruct (tget old l) eqn:E'; [|congruence]. apply tget_lt in E'. lia. }
  constructor; auto.
  - intros l f Hf. destruct (A2 l f) as (B1 & _ & B3); auto. apply K. congruence.
  - intros k Hk. destruct (A4 k Hk) as [B|(l & _ & B)]; [rewrite tget_repeat in B; congruence | exists l; exact B].
  - intros B g. rewrite (A6 B g), tmap_repeat, app_nil_r, Hn, map_nth_seq. apply Permutation_refl.
Qed.

Lemma oldPlace_spec old new mx tab l : retable old new mx tab -> tget old l <> None -> oldPlace old new (nw new l) = Some l.
Proof.
  intros R Hl. unfold oldPlace. destruct (find _ _) as [k|] eqn:E.
  - apply find_some in E. destruct E as [_ E]. apply andb_true_iff in E. destruct E as [E1 E2]. apply Nat.eqb_eq in E2. apply isLive_tget in E1. f_equal. apply (rt_inj _ _ _ _ R); assumption.
  - exfalso. assert (Hin : In l (seq 0 (length old))) by (apply in_seq; destruct (tget old l) eqn:E'; [apply tget_lt in E'; lia | congruence]).
    pose proof (find_none _ _ E l Hin) as K. cbn beta in K. apply isLive_tget in Hl. rewrite Hl in K. cbn [andb] in K. fold (nw new l) in K. rewrite Nat.eqb_refl in K. discriminate.
Qed.

(** ** the links of the edges *)
Definition reEdge (new : list nat) (e : edge) : edge := mkEdge (estart e) (eend e) (option_map (nw new) (elf e)) (option_map (nw new) (erf e)) (epts e) (eflags e).
Lemma renameEdges_spec new : forall ls m, NoDup ls -> (forall l, In l ls -> exists e a b, eAt m l = Some e /\ elf e = Some a /\ erf e = Some b /\ (a < length new)%nat /\ (b < length new)%nat) ->
  exists m', renameEdges m new ls = Ok m' /\ m' = set_edges m (edges m') /\ length (edges m') = length (edges m) /\
    forall l, eAt m' l = if in_dec Nat.eq_dec l ls then option_map (reEdge new) (eAt m l) else eAt m l.
Proof.
  induction ls as [|l ls IH]; intros m ND H; cbn [renameEdges].
  - exists m. split; [reflexivity|]. split; [destruct m; reflexivity|]. split; [reflexivity|]. intros l. destruct (in_dec Nat.eq_dec l []) as [[]|_]. reflexivity.
  - inversion ND as [|? ? Nl ND']; subst. destruct (H l (or_introl eq_refl)) as (e & a & b & He & Ha & Hb & La & Lb). rewrite (deref_edge _ _ _ He). cbn [bind]. rewrite Ha, Hb.
    assert (Va : vget new a = Ok (nw new a)) by (apply vget_iff, nth_error_nth'; exact La). assert (Vb : vget new b = Ok (nw new b)) by (apply vget_iff, nth_error_nth'; exact Lb).
    rewrite Va. cbn [bind]. rewrite Vb. cbn [bind]. set (m1 := putE _ _ _).
    assert (E1 : forall k, eAt m1 k = if Nat.eqb l k then Some (reEdge new e) else eAt m k).
    { intros k. unfold m1, putE, eAt. cbn [edges set_edges]. assert (Hlt : (l < length (edges m))%nat) by (apply tget_lt in He; exact He). rewrite tget_upd. apply Nat.ltb_lt in Hlt. rewrite Hlt. destruct (Nat.eqb l k); [|reflexivity]. unfold reEdge. rewrite Ha, Hb. reflexivity. }
    destruct (IH m1 ND') as (m' & E & Em & El & Ee).
    + intros k Hk. destruct (H k (or_intror Hk)) as (e' & a' & b' & Q). exists e', a', b'. rewrite E1. destruct (Nat.eqb_spec l k) as [<-|_]; [contradiction | exact Q].
    + exists m'. split; [exact E|]. split; [rewrite Em; reflexivity|]. split; [rewrite El; unfold m1, putE; cbn [edges set_edges]; apply list_upd_length|].
      intros k. rewrite Ee, E1. destruct (in_dec Nat.eq_dec k ls) as [I1|I1], (in_dec Nat.eq_dec k (l :: ls)) as [I2|I2], (Nat.eqb_spec l k) as [Q|Q]; try (exfalso; cbn [In] in I2; intuition congruence); auto.
      subst. rewrite He. reflexivity.
Qed.

Section Relabel.
Variable srt : list seg -> list seg.
Hypothesis Hsrt : sorter srt.
Variable unit : positive.
Notation cnt := (cnt srt unit).
Notation LInv := (LInv srt unit).
Notation IInv := (IInv srt unit).

Lemma renameRow_spec t new src : forall ps img, sameSize src img -> NoDup ps -> (forall x y, In (x, y) ps -> insideB src x y = true) ->
  (forall x y, In (x, y) ps -> exists w, renamePixel t new (ipx src x y) = Ok w) ->
  exists img', renameRow t new src img ps = Ok img' /\ sameSize src img' /\
    (forall x y, In (x, y) ps -> renamePixel t new (ipx src x y) = Ok (ipx img' x y)) /\ (forall x y, ~ In (x, y) ps -> ipx img' x y = ipx img x y).
Proof.
  induction ps as [|[x y] ps IH]; intros img Sz ND Hi Hr; cbn [renameRow].
  - exists img. split; [reflexivity|]. split; [exact Sz|]. split; [intros x y [] | reflexivity].
  - inversion ND as [|? ? Np ND']; subst. assert (Ixy : insideB src x y = true) by (apply Hi; left; reflexivity). unfold pixGet at 1. rewrite Ixy. cbn [bind].
    destruct (Hr x y (or_introl eq_refl)) as (w & Ew). rewrite Ew. cbn [bind]. unfold pixPut. rewrite (insideB_size src img x y Sz), Ixy. cbn [bind]. set (img1 := mkImg _ _ _).
    destruct (IH img1) as (img' & E & Sz' & P1 & P2); [destruct Sz; split; assumption | exact ND' | intros; apply Hi; right; assumption | intros; apply Hr; right; assumption|].
    exists img'. split; [exact E|]. split; [exact Sz'|]. split.
    + intros a b [Q|Q]; [|apply P1, Q]. injection Q as <- <-. rewrite (P2 x y Np). cbn [img1 ipx]. rewrite !Z.eqb_refl. exact Ew.
    + intros a b Q. rewrite P2 by (intros K; apply Q; right; exact K). cbn [img1 ipx]. destruct (Z.eqb_spec a x), (Z.eqb_spec b y); cbn [andb]; try reflexivity. subst. destruct Q. left. reflexivity.
Qed.

Record Renamed st (new : list nat) st' : Prop := {
  rn_rel : relF (lg st) (lg st');
  rn_face : forall l f, fAt (lg st) l = Some f -> fAt (lg st') (nw new l) = Some f;
  rn_from : forall k, fAt (lg st') k <> None -> exists l, fAt (lg st) l <> None /\ nw new l = k;
  rn_inj : forall l1 l2, fAt (lg st) l1 <> None -> fAt (lg st) l2 <> None -> nw new l1 = nw new l2 -> l1 = l2;
  rn_lft : forall d, lft (lg st') d = option_map (nw new) (lft (lg st) d);
  rn_size : lsize st' = lsize st; rn_sc : lsc st' = lsc st;
  rn_area : forall l, fAt (lg st) l <> None -> larea st' (nw new l) = larea st l;
  rn_im : match lim st, lim st' with
    | None, None => True
    | Some img, Some img' => sameSize img img' /\
        (forall x y, insideB img x y = true -> ipx img x y < 0 -> ipx img' x y = ipx img x y) /\
        (forall x y f, insideB img x y = true -> reads (lg st) (llut st) (ipx img x y) f -> reads (lg st') (llut st') (ipx img' x y) (nw new f))
    | _, _ => False end }.

Theorem changeFaceLabels_spec st new mx : LInv st -> nth_error new 0 = Some 0%nat -> goodL False (fun st' => LInv st' /\ Renamed st new st' /\ length new = length (faces (lg st))) (changeFaceLabels st new mx).
Proof.
  intros L H0. unfold changeFaceLabels. set (m := lg st). destruct (Nat.eqb_spec (length (faces m)) 0) as [E0|N0]; [exact I|].
  destruct (Nat.eqb_spec (length new) (length (faces m))) as [Hn|Hn]; cbn [negb]; [|exact I].
  destruct (fst (relabelFaces (faces m) new mx (seq 0 (length new)) (repeat None mx) (seq 0 (length new)))) as [tab|] eqn:Et; [|exact I].
  pose proof (relabelFaces_ok _ _ _ _ _ Hn Et) as R. clear Et.
  assert (M : MInv m) by (apply Inv_MInv; [apply L | intros E; apply N0; rewrite E; reflexivity]). pose proof (li_geo _ _ _ L) as G. fold m in G.
  pose proof (mi_v _ M) as V. pose proof (mi_f _ M) as F.
  assert (Nw0 : nw new 0 = 0%nat) by (unfold nw; apply nth_error_nth; exact H0).
  assert (Lf : forall d, In d (darts m) -> exists a, lft m d = Some a /\ fAt m a <> None).
  { intros d Hd. destruct (fi_cover _ _ _ _ F d Hd) as (a & A & x & H1 & H2 & _). exists a. split; [exact H1|]. unfold fanch in H2. destruct (fAt m a); [discriminate | discriminate H2]. }
  set (mt := set_faces m tab).
  destruct (renameEdges_spec new (liveFrom 0 (edges m)) mt) as (m' & Er & Em & El & Ee).
  { apply NoDup_filter, seq_NoDup. }
  { intros l Hl. apply liveFrom_in in Hl. destruct Hl as [_ Hl]. destruct (eAt m l) as [e|] eqn:He; [|unfold eAt in He; congruence].
    assert (Nl : l <> 0%nat) by (intros ->; rewrite (sv_e0 _ V) in He; discriminate).
    assert (D1 : In (Z.of_nat l) (darts m)) by (apply in_darts; rewrite elab_of_nat; split; [lia | congruence]).
    pose proof (darts_opp _ _ D1) as D2. destruct (Lf _ D1) as (a & A1 & A2), (Lf _ D2) as (b & B1 & B2). unfold lft in A1, B1. rewrite elab_opp, elab_of_nat, He in *. unfold e_lf in A1, B1.
    destruct (Z.ltb_spec 0 (Z.of_nat l)), (Z.ltb_spec 0 (- Z.of_nat l)); try lia. exists e, a, b. split; [exact He|]. split; [exact A1|]. split; [exact B1|]. rewrite Hn. split; apply fAt_len; assumption. }
  change (edges mt) with (edges m) in El.
  assert (Ee' : forall l, eAt m' l = option_map (reEdge new) (eAt m l)).
  { intros l. rewrite Ee. change (eAt mt l) with (eAt m l). destruct (in_dec Nat.eq_dec l (liveFrom 0 (edges m))) as [I1|I1]; [reflexivity|]. destruct (eAt m l) eqn:He; [|reflexivity].
    destruct I1. apply liveFrom_in. split; [lia|]. unfold eAt in He. rewrite He. discriminate. }
  assert (Rl : relF m m').
  { constructor; try (rewrite Em; reflexivity); auto. intros j. rewrite Ee'. destruct (eAt m j); cbn; auto. }
  assert (Ef : faces m' = tab) by (rewrite Em; reflexivity).
  assert (Lft : forall d, lft m' d = option_map (nw new) (lft m d)).
  { intros d. unfold lft. rewrite Ee'. destruct (eAt m (elab d)); cbn; [|reflexivity]. unfold e_lf. cbn. destruct (0 <? d); reflexivity. }
  assert (Fto : forall l f, fAt m l = Some f -> fAt m' (nw new l) = Some f) by (intros l f Hf; unfold fAt; rewrite Ef; apply (rt_to _ _ _ _ R); exact Hf).
  assert (Ffr : forall k, fAt m' k <> None -> exists l, fAt m l <> None /\ nw new l = k) by (intros k Hk; unfold fAt in Hk; rewrite Ef in Hk; apply (rt_from _ _ _ _ R); exact Hk).
  assert (Len : forall h : option face -> Z, h None = 0 -> (forall f, 0 <= h (Some f)) -> sumf h (faces m') = sumf h (faces m)).
  { intros h Hh0 Hh. pose proof (rt_perm _ _ _ _ R Datatypes.unit (fun f => repeat tt (Z.to_nat (h (Some f))))) as P. apply Permutation_length in P. apply (f_equal Z.of_nat) in P. rewrite !length_tmap in P. rewrite Ef.
    assert (K : forall o, (match o with Some a => Z.of_nat (length (repeat tt (Z.to_nat (h (Some a))))) | None => 0 end) = h o). { intros [f|]; [rewrite repeat_length; specialize (Hh f); lia | auto]. }
    rewrite (sumf_ext _ h tab), (sumf_ext _ h (faces m)) in P by (intros; apply K). exact P. }
  assert (V' : SInv m').
  { apply (rf_SInv m m' Rl V). rewrite (Len alive) by (try reflexivity; intros; cbn; lia). rewrite Em. cbn. apply (sv_fc _ V). }
  assert (F' : FIm m').
  { unfold FIm. rewrite (rf_darts _ _ Rl), (rf_phi _ _ Rl).
    assert (Fa : forall k A, fanch m' k = Some A -> exists l, fanch m l = Some A /\ nw new l = k).
    { intros k A H. unfold fanch in H. destruct (fAt m' k) as [f|] eqn:E; [|discriminate]. cbn in H. destruct (Ffr k) as (l & Hl & Q); [congruence|]. exists l. split; [|exact Q].
      unfold fanch. destruct (fAt m l) as [f'|] eqn:E'; [|congruence]. apply Fto in E'. rewrite Q, E in E'. injection E' as <-. exact H. }
    constructor.
    - intros d Hd. destruct (fi_cover _ _ _ _ F d Hd) as (l & A & a & K1 & K2 & K3 & K4). exists (nw new l), A, a. rewrite Lft, K1. split; [reflexivity|]. split; [|auto].
      unfold fanch in *. destruct (fAt m l) as [f|] eqn:E; [|discriminate]. rewrite (Fto _ _ E). exact K2.
    - intros k A a HA Ha. destruct (Fa k A HA) as (l & Hl & Q). destruct (fi_anchor _ _ _ _ F l A a Hl Ha) as [K1 K2]. split; [exact K1|]. rewrite Lft, K2. cbn. congruence.
    - intros d Hd. rewrite !Lft, (fi_phi _ _ _ _ F d Hd). reflexivity.
    - intros k A HA. destruct (Fa k A HA) as (l & Hl & _). apply (fi_nodup _ _ _ _ F l A Hl).
    - intros k A a b HA. destruct (Fa k A HA) as (l & Hl & _). apply (fi_sep _ _ _ _ F l A a b Hl). }
  assert (M' : MInv m').
  { constructor; auto.
    - destruct (fAt m 0) as [f|] eqn:E; [|destruct (mi_0 _ M E)]. apply Fto in E. rewrite Nw0 in E. rewrite E. discriminate.
    - rewrite (rf_Gm _ _ Rl), (Len ncont), (rf_nodes _ _ Rl) by (try reflexivity; intros; cbn; lia). pose proof (sv_ec _ V) as Q1. pose proof (sv_ec _ V') as Q2. rewrite (rf_ec _ _ Rl) in Q2. rewrite <- Q2, Q1. apply (mi_pl _ M).
    - rewrite (rf_Gm _ _ Rl). apply (indep_perm (links m)); [|apply (mi_in _ M)]. unfold links. rewrite Ef.
      rewrite (tmap_ext (fun f => star (map (stt m') (fanchors f))) (fun f => star (map (stt m) (fanchors f))) tab) by (intros i f _; f_equal; apply map_ext; intros; apply (rf_stt _ _ Rl)).
      symmetry. apply (rt_perm _ _ _ _ R).
    - rewrite (rf_Gm _ _ Rl), (Len alive) by (try reflexivity; intros; cbn; lia). pose proof (sv_ec _ V) as Q1. pose proof (sv_ec _ V') as Q2. rewrite (rf_ec _ _ Rl) in Q2. rewrite <- Q2, Q1. apply (mi_eu _ M). }
  assert (Sp : samePts m m') by (split; [exact El|]; intros l; rewrite Ee'; destruct (eAt m l); reflexivity).
  assert (G' : geo m').
  { intros d Hd. rewrite (rf_darts _ _ Rl) in Hd. destruct (G d Hd) as [K1 K2]. assert (Ed : dpts m' d = dpts m d) by (unfold dpts; rewrite Ee'; destruct (eAt m (elab d)); reflexivity).
    rewrite Ed, (rf_stt _ _ Rl). split; [exact K1|]. rewrite K2. unfold pos, nAt. rewrite (rf_nodes _ _ Rl). reflexivity. }
  rewrite Er. cbn [bind]. set (st1 := set_larea (set_lg st m') _).
  assert (Ar : forall l, fAt m l <> None -> larea st1 (nw new l) = larea st l).
  { intros l Hl. cbn [st1 larea set_larea]. rewrite (oldPlace_spec _ _ _ _ l R Hl). reflexivity. }
  assert (Ca : forall l s e, lsc st l = Some s -> eAt m' l = Some e -> scans (LabelImage_Cache.chain unit (epts e)) s).
  { intros l s e Hs He. rewrite Ee' in He. destruct (eAt m l) as [e0|] eqn:E; [|discriminate]. injection He as <-. apply (li_cache _ _ _ L l s e0 Hs E). }
  assert (Nwl : forall l, (length (edges m') <= l)%nat -> lsc st l = None) by (intros l Hl; rewrite El in Hl; apply (li_new _ _ _ L l Hl)).
  unfold ifImage. change (lim st1) with (lim st). destruct (lim st) as [img|] eqn:Hi.
  - pose proof (li_img _ _ _ L img Hi) as II. change (llut st1) with (llut st).
    assert (Px : forall x y, insideB img x y = true -> (ipx img x y < 0 /\ 0 < cnt m x y) \/ (cnt m x y = 0 /\ exists f, reads m (llut st) (ipx img x y) f)).
    { intros x y Hin. pose proof (cnt_nn srt unit m x y) as C. destruct (Z.eq_dec (cnt m x y) 0) as [K|K]; [right; split; [exact K | apply (ii_free _ _ _ _ II x y Hin K)]|].
      left. rewrite (ii_cross _ _ _ _ II x y Hin) by (fold m; lia). fold m. lia. }
    assert (Rp : forall v f, reads m (llut st) v f -> renamePixel (llut st) new v = Ok (Z.of_nat (nw new f))).
    { intros v f (A & B & C). unfold renamePixel. rewrite Z.geb_leb. destruct (Z.leb_spec 0 v); [|lia]. rewrite B. cbn [bind]. assert (Va : vget new f = Ok (nw new f)) by (apply vget_iff, nth_error_nth'; rewrite Hn; apply fAt_len, C).
      rewrite Va. reflexivity. }
    assert (Rn : forall v, v < 0 -> renamePixel (llut st) new v = Ok v) by (intros v Hv; unfold renamePixel; rewrite Z.geb_leb; destruct (Z.leb_spec 0 v); [lia | reflexivity]).
    destruct (renameRow_spec (llut st) new img (allPx (iw img) (ih img)) img) as (img' & E' & Sz & P1 & _).
    { split; reflexivity. } { apply allPx_nodup. } { intros x y H. apply insideB_iff, allPx_in, H. }
    { intros x y H. apply allPx_in in H. apply insideB_iff in H. destruct (Px x y H) as [[K _]|(_ & f & K)]; [eexists; apply (Rn _ K) | eexists; apply (Rp _ f K)]. }
    rewrite E'. cbn [bind goodL].
    assert (Pn : forall x y, insideB img x y = true -> renamePixel (llut st) new (ipx img x y) = Ok (ipx img' x y)) by (intros x y H; apply P1, allPx_in, insideB_iff, H). clear P1.
    assert (Neg : forall x y, insideB img x y = true -> ipx img x y < 0 -> ipx img' x y = ipx img x y) by (intros x y H K; specialize (Pn x y H); rewrite (Rn _ K) in Pn; congruence).
    assert (Rd : forall x y f, insideB img x y = true -> reads m (llut st) (ipx img x y) f -> reads m' (initIdentity (length tab)) (ipx img' x y) (nw new f)).
    { intros x y f H K. specialize (Pn x y H). rewrite (Rp _ f K) in Pn. injection Pn as <-. destruct K as (_ & _ & K). destruct (fAt m f) as [fc|] eqn:Efc; [|congruence]. apply Fto in Efc.
      split; [lia|]. rewrite Nat2Z.id. split; [|congruence]. apply lookup_init. rewrite <- Ef. apply fAt_len. congruence. }
    split; [|split; [|exact Hn]].
    + constructor; cbn [lg lsc lim set_lim set_llut st1 set_larea set_lg]; auto; [right; exact M'|]. intros i Q. injection Q as <-. constructor; cbn [lg lsc lim lsize llut set_lim set_llut st1 set_larea set_lg]; auto.
      * destruct (ii_size _ _ _ _ II) as [S1 S2], Sz as [-> ->]. auto.
      * rewrite <- Ef. apply lutOK_init.
      * intros x y Hin. rewrite (samePts_cnt srt unit _ _ x y Sp). intros K. rewrite (insideB_size img img' x y Sz) in Hin. destruct (Px x y Hin) as [[_ Q]|(_ & f & Q)]; [lia|]. exists (nw new f). apply (Rd x y f Hin Q).
      * intros x y Hin. rewrite (samePts_cnt srt unit _ _ x y Sp). intros K. rewrite (insideB_size img img' x y Sz) in Hin. destruct (Px x y Hin) as [[Q _]|(Q & _)]; [|lia]. rewrite (Neg x y Hin Q). apply (ii_cross _ _ _ _ II x y Hin K).
    + constructor; cbn [lg lsc lim lsize llut set_lim set_llut st1 set_larea set_lg]; fold m; auto; [apply (rt_inj _ _ _ _ R)|]. rewrite Hi. auto.
  - cbn [goodL]. split; [|split; [|exact Hn]].
    + constructor; cbn [lg lsc lim set_lim set_llut st1 set_larea set_lg]; auto; [right; exact M'|]. intros i Q. congruence.
    + constructor; cbn [lg lsc lim lsize llut set_lim set_llut st1 set_larea set_lg]; fold m; auto; [apply (rt_inj _ _ _ _ R)|]. rewrite Hi. exact I.
Qed.
End Relabel.
