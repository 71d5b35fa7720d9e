(** From the invariant to the statements. *)
From Verif Require Import Base Image_Model Image_Proofs Crack_Model Crack_Spec Crack_Proofs GeoMap_Model GeoMap_Spec GeoMap_Results CrackFollow_Model CrackFollow_Spec CrackFollow_Static CrackFollow_Loop CrackFollow_Map CrackFollow_Inv CrackFollow_Proofs.
Local Open Scope Z_scope.

Definition seg (x : dart) : point * point := (pt (fst x), pt (tgt x)).
Lemma seg_inj x y : seg x = seg y -> x = y.
Proof.
  unfold seg. intros H. assert (A : fst x = fst y) by (apply pt_inj; congruence). assert (B : tgt x = tgt y) by (apply pt_inj; congruence).
  destruct x as [p d], y as [q e]; cbn [fst] in A. subst q. f_equal. apply (mv_inj p). exact B.
Qed.

Lemma segments_chain src eight s w : w <> [] -> chain src eight s w ->
  segments (map (fun y : dart => pt (fst y)) w ++ [pt (tgt (last w dummy))]) = map seg w.
Proof.
  induction w as [|a w IH]; [contradiction|]. intros _ C. destruct w as [|b w].
  - reflexivity.
  - destruct C as [(N & T & E) C]. change (last (a :: b :: w) dummy) with (last (b :: w) dummy).
    specialize (IH ltac:(discriminate) C). cbn [map app] in IH |- *.
    match goal with |- segments (?u :: ?v :: ?r) = _ => change (segments (u :: v :: r)) with ((u, v) :: segments (v :: r)) end.
    rewrite IH. f_equal. unfold seg. rewrite E. reflexivity.
Qed.

Lemma dart_dec (a b : dart) : {a = b} + {a <> b}.
Proof. decide equality; [apply dir4_eq_dec|decide equality; apply Z.eq_dec]. Qed.
Lemma count_map_seg l x : count_occ segment_dec (map seg l) (seg x) = count_occ dart_dec l x.
Proof.
  induction l as [|a l IH]; [reflexivity|]. cbn [map count_occ]. rewrite IH.
  destruct (segment_dec (seg a) (seg x)) as [E|N].
  - apply seg_inj in E. subst. destruct (dart_dec x x) as [|N]; [reflexivity|contradiction].
  - destruct (dart_dec a x) as [->|_]; [contradiction|reflexivity].
Qed.

Lemma count_once {A} (dec : forall a b : A, {a = b} + {a <> b}) l x : NoDup l -> count_occ dec l x = if in_dec dec x l then 1%nat else 0%nat.
Proof.
  intros H. destruct (in_dec dec x l) as [I|I].
  - apply (NoDup_count_occ' dec l); auto.
  - apply count_occ_not_In. exact I.
Qed.

Section Res.
Variables (src : image) (eight : bool).
Hypothesis Hw : 1 <= iw src.
Hypothesis Hh : 1 <= ih src.

Lemma mapSegments_walks cc ni m L : G src eight (fun _ => False) cc ni m L -> mapSegments m = map seg (concat L).
Proof.
  intros I. destruct (g_edges _ _ _ _ _ _ _ I) as (es & E & F). unfold mapSegments. rewrite E. cbn [flat_map app].
  pose proof (g_walk _ _ _ _ _ _ _ I) as W. clear I E. revert W. induction F as [|o w es L (a & b & ->) F IH]; intros W; [reflexivity|].
  cbn [flat_map concat epts]. rewrite map_app, IH by (intros; apply W; right; assumption). f_equal.
  pose proof (W w (or_introl eq_refl)) as [W1 W2 _ _ _]. exact (segments_chain src eight _ w W1 W2).
Qed.

Lemma seg_crack x : crkD src x = true -> crackSegment src (fst (seg x)) (snd (seg x)) \/ crackSegment src (snd (seg x)) (fst (seg x)).
Proof.
  destruct x as [[a b] d]. unfold crkD, crk, seg, tgt, mv, pt; cbn [fst snd].
  destruct d; cbn [dirDiff fst snd]; intros K.
  - left. replace (b + 0) with b by lia. apply (cs_horizontal src a b K).
  - right. pose proof (proj2 (crack_shared src a (b + -1))) as E. replace (a + 0) with a by lia.
    pose proof (cs_vertical src a (b + -1)) as V. rewrite E in V. replace (b + -1 + 1) with b in V by lia. exact (V K).
  - right. pose proof (proj1 (crack_shared src (a + -1) b)) as E. replace (b + 0) with b by lia.
    pose proof (cs_horizontal src (a + -1) b) as V. rewrite E in V. replace (a + -1 + 1) with a in V by lia. exact (V K).
  - left. replace (a + 0) with a by lia. apply (cs_vertical src a b K).
Qed.
Lemma crack_seg a b : crackSegment src a b -> exists x, crkD src x = true /\ seg x = (a, b).
Proof.
  intros [x y K|x y K].
  - exists ((x, y), East). split; [exact K|]. unfold seg, tgt, mv, pt, cornerPoint; cbn [fst snd dirDiff]. replace (y + 0) with y by lia. reflexivity.
  - exists ((x, y), South). split; [exact K|]. unfold seg, tgt, mv, pt, cornerPoint; cbn [fst snd dirDiff]. replace (x + 0) with x by lia. reflexivity.
Qed.

Lemma crackEdgeMap_runs : exists g, crackEdgeMap src eight = Ok g /\ history geometric (gmapOf g) /\ faces (gmapOf g) = [].
Proof.
  destruct (crackEdgeMap_G src eight Hw Hh) as (cc & ni & m & L & E & I & U). exists (mkGen cc ni m).
  split; [exact E|]. split; [apply (g_hist _ _ _ _ _ _ _ I)|apply (g_faces _ _ _ _ _ _ _ I)].
Qed.

Lemma crackEdgeMap_segments g : crackEdgeMap src eight = Ok g ->
  (forall a b, In (a, b) (mapSegments (gmapOf g)) -> crackSegment src a b \/ crackSegment src b a) /\
  (forall a b, crackSegment src a b -> timesDrawn (gmapOf g) a b = 1%nat).
Proof.
  destruct (crackEdgeMap_G src eight Hw Hh) as (cc & ni & m & L & E & I & U). rewrite E. intros H. injection H as <-. cbn [gmapOf].
  pose proof (mapSegments_walks cc ni m L I) as S. split.
  - intros a b Hin. rewrite S in Hin. apply in_map_iff in Hin as (x & Ex & Hx).
    apply in_concat in Hx as (w & Hw' & Hx). pose proof (seg_crack x (wk_crk _ _ _ (g_walk _ _ _ _ _ _ _ I w Hw') x Hx)) as C.
    rewrite Ex in C. exact C.
  - intros a b Hc. apply crack_seg in Hc as (x & K & Ex). unfold timesDrawn. rewrite S, <- Ex.
    assert (Er : (b, a) = seg (rv x)) by (unfold seg in *; rewrite tgt_rv, fst_rv; congruence). rewrite Er.
    rewrite !count_map_seg. rewrite !(count_once dart_dec) by (apply (g_nodup _ _ _ _ _ _ _ I)).
    pose proof (g_once _ _ _ _ _ _ _ I) as O. pose proof (U x K) as Ux. rewrite Used_concat in Ux.
    destruct (in_dec dart_dec x (concat L)) as [A|A], (in_dec dart_dec (rv x) (concat L)) as [B|B]; try reflexivity.
    + exfalso. apply (O x (rv x) A B). rewrite rv_rv. reflexivity.
    + tauto.
Qed.

Lemma needsNode_crack x y : needsNode src eight x y = true -> exists d, crk src (x, y) d = true.
Proof.
  unfold needsNode. rewrite andb_true_iff. intros [H _]. apply Z.leb_le in H. unfold cracksAt in H.
  destruct (crackEast src x y) eqn:A; [exists East; exact A|]. destruct (crackSouth src x y) eqn:B; [exists South; exact B|].
  destruct (crackWest src x y) eqn:C; [exists West; exact C|]. exfalso. destruct (crackNorth src x y); cbn in H; lia.
Qed.

Lemma crackEdgeMap_nodes g : crackEdgeMap src eight = Ok g ->
  (forall x y, needsNode src eight x y = true -> exists l, posOf (gmapOf g) l = Some (cornerPoint x y)) /\
  (forall l v, posOf (gmapOf g) l = Some v -> exists x y, isCorner src x y /\ v = cornerPoint x y /\
      (needsNode src eight x y = true \/ mayStart src eight x y = true)) /\
  (forall l l' v, posOf (gmapOf g) l = Some v -> posOf (gmapOf g) l' = Some v -> l = l') /\
  (forall i e x y, isEdge (gmapOf g) i e -> In (cornerPoint x y) (innerPoints (epts e)) -> needsNode src eight x y = false).
Proof.
  destruct (crackEdgeMap_G src eight Hw Hh) as (cc & ni & m & L & E & I & U). rewrite E. intros H. injection H as <-. cbn [gmapOf].
  split; [|split; [|split]].
  - intros x y N. destruct (needsNode_crack x y N) as [d K]. pose proof (U ((x, y), d) K) as Ux. rewrite Used_split in Ux.
    destruct Ux as [Ux|Ux]; [apply (G_pass _ _ _ _ _ _ _ I) in Ux as [Ux _]; unfold isN in Ux; cbn [fst snd] in Ux; congruence|].
    destruct (g_info _ _ _ _ _ _ _ I (x, y) (crk_corner src _ _ K)) as [[_ X]|(l & _ & X & _)]; [exfalso; exact (X d Ux)|].
    exists l. exact X.
  - intros l v Hv. destruct (g_nodes _ _ _ _ _ _ _ I l v Hv) as ([x y] & C & -> & S). exists x, y. split; [exact C|]. split; [reflexivity|].
    destruct (g_info _ _ _ _ _ _ _ I (x, y) C) as [[Z0 _]|(l' & _ & _ & T & _)]; [rewrite Z0 in S; cbn in S; lia|exact T].
  - intros l l' v H1 H2. destruct (g_nodes _ _ _ _ _ _ _ I l v H1) as (p & C & E1 & S1).
    destruct (g_nodes _ _ _ _ _ _ _ I l' v H2) as (q & C' & E2 & S2). assert (p = q) by (apply pt_inj; congruence). subst q. lia.
  - intros i e x y He Hin. destruct (g_edges _ _ _ _ _ _ _ I) as (es & Ee & F).
    assert (W : exists w, In w L /\ walkEdge (Some e) w).
    { unfold isEdge, edgeP in He. rewrite Ee in He. destruct i as [|i]; [discriminate|]. cbn [nth_error] in He.
      clear - F He. revert i He. induction F as [|o w es L R F IH]; intros [|i] He; cbn in He; try discriminate.
      - injection He as ->. exists w. split; [left; reflexivity|exact R].
      - destruct (IH i He) as (v & A & B). exists v. split; [right; exact A|exact B]. }
    destruct W as (w & Hwl & a & b & Ew). injection Ew as ->. cbn [epts] in Hin.
    pose proof (g_walk _ _ _ _ _ _ _ I w Hwl) as [W1 W2 W3 _ _].
    unfold innerPoints in Hin. destruct w as [|u w]; [contradiction|]. cbn [map app tl] in Hin. rewrite removelast_last in Hin.
    apply in_map_iff in Hin as (z & Ez & Hz).
    assert (Ps : passes (u :: w) z) by (left; exact Hz).
    destruct (chain_pass src eight _ _ W2 W3 z Ps) as (N & _). assert (Eq : fst z = (x, y)) by (apply pt_inj; exact Ez).
    rewrite Eq in N. exact N.
Qed.
End Res.
