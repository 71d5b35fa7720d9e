(** sortEdgesDirectly and setSigmaMapping keep the rotation invariant. *)
From Coq Require Import QArith Sorted.
From Verif Require Import Base Orbit GeoMap_Model GeoMap_Views GeoMap_SInv GeoMap_Loops.
Local Open Scope Z_scope.

(** ** Sorting pairs *)

Lemma pairLe_total x y : pairLe x y = true \/ pairLe y x = true.
Proof.
  unfold pairLe. destruct (Qcompare_spec (fst x) (fst y)) as [E|E|E]; auto.
  - destruct (Qcompare_spec (fst y) (fst x)) as [E'|E'|E']; auto.
    destruct (Z.leb_spec (snd x) (snd y)); [auto|]. right. apply Z.leb_le. lia.
    exfalso. rewrite E in E'. apply (Qlt_irrefl _ E').
  - destruct (Qcompare_spec (fst y) (fst x)) as [E'|E'|E']; auto.
    + exfalso. rewrite E' in E. apply (Qlt_irrefl _ E).
    + exfalso. apply (Qlt_irrefl (fst x)). eapply Qlt_trans; eassumption.
Qed.

Lemma pairLe_le x y : pairLe x y = true -> (fst x <= fst y)%Q.
Proof.
  unfold pairLe. destruct (Qcompare_spec (fst x) (fst y)) as [E|E|E]; intros H; try discriminate.
  - rewrite E. apply Qle_refl.
  - apply Qlt_le_weak; assumption.
Qed.

Lemma pairLe_trans x y z : pairLe x y = true -> pairLe y z = true -> pairLe x z = true.
Proof.
  unfold pairLe.
  destruct (Qcompare_spec (fst x) (fst y)) as [E|E|E]; intros H; try discriminate;
  destruct (Qcompare_spec (fst y) (fst z)) as [E'|E'|E']; intros H'; try discriminate;
  destruct (Qcompare_spec (fst x) (fst z)) as [F|F|F]; try reflexivity;
  [apply Z.leb_le in H, H'; apply Z.leb_le; lia|exfalso..].
  - rewrite E, E' in F. apply (Qlt_irrefl _ F).
  - rewrite E in F. rewrite F in E'. apply (Qlt_irrefl _ E').
  - rewrite E in F. apply (Qlt_irrefl (fst z)). eapply Qlt_trans; eassumption.
  - rewrite F, E' in E. apply (Qlt_irrefl _ E).
  - rewrite E' in E. apply (Qlt_irrefl (fst x)). eapply Qlt_trans; eassumption.
  - rewrite F in E. apply (Qlt_irrefl (fst y)). eapply Qlt_trans; eassumption.
  - apply (Qlt_irrefl (fst x)). do 2 (eapply Qlt_trans; [eassumption|]). assumption.
Qed.

Lemma insertPair_perm x l : Permutation (x :: l) (insertPair x l).
Proof.
  induction l as [|y t IH]; [reflexivity|]. cbn [insertPair]. destruct (pairLe x y); [reflexivity|].
  rewrite <- IH. constructor.
Qed.
Lemma sortPairs_perm l : Permutation l (sortPairs l).
Proof.
  induction l as [|x t IH]; [reflexivity|]. cbn [sortPairs fold_right]. rewrite <- insertPair_perm.
  constructor. exact IH.
Qed.

Lemma insertPair_sorted x l : StronglySorted (fun a b => pairLe a b = true) l ->
  StronglySorted (fun a b => pairLe a b = true) (insertPair x l).
Proof.
  induction 1 as [|y t HS IH HF]; [repeat constructor|]. cbn [insertPair]. destruct (pairLe x y) eqn:E.
  - constructor; [constructor; assumption|]. constructor; [assumption|].
    rewrite Forall_forall in *. intros z Hz. apply (pairLe_trans x y z); auto.
  - constructor; [assumption|]. rewrite Forall_forall in *. intros z Hz.
    apply (Permutation_in _ (Permutation_sym (insertPair_perm x t))) in Hz. destruct Hz as [<-|Hz]; [|auto].
    destruct (pairLe_total x y); congruence.
Qed.
Lemma sortPairs_sorted l : StronglySorted (fun a b => pairLe a b = true) (sortPairs l).
Proof. induction l; [constructor|]. apply insertPair_sorted; assumption. Qed.

(** ** Collecting the darts of a node *)

Lemma dartAngle_cases m d : In d (darts m) -> (exists q, dartAngle m d = Ok q) \/ dartAngle m d = Exn.
Proof.
  intros Hd. destruct (live_edge m d Hd) as (e & Ee). unfold dartAngle. rewrite (gEdge_Ok _ _ _ Ee). cbn [bind].
  destruct (dartPts e d) as [|p0 [|p1 t]]; eauto.
Qed.

Lemma collectAngles_spec m a N : SI m (darts m) -> In a (darts m) -> per (sg m) a N ->
  forall n k, (k < N)%nat -> (N - k <= n)%nat ->
  (exists c, collectAngles n m a (iter k (sg m) a) = Ok c /\
     map snd c = map (fun i => iter i (sg m) a) (seq k (N - k)) /\
     forall q d, In (q, d) c -> dartAngle m d = Ok q) \/
  (collectAngles n m a (iter k (sg m) a) = Exn /\ exists d, In d (darts m) /\ dartAngle m d = Exn).
Proof.
  intros HS Ha HN. pose proof (si_perm _ _ HS) as HP.
  induction n as [|n IH]; intros k Hk Hn; [lia|]. cbn [collectAngles].
  assert (Hin : In (iter k (sg m) a) (darts m)) by (apply (iter_in _ _ _ HP); assumption).
  destruct (dartAngle_cases m _ Hin) as [(q & Eq)|E]; [|right; rewrite E; split; [reflexivity | eauto]].
  rewrite Eq. cbn [bind]. rewrite (getS_Ok m _ (si_cap _ _ HS _ Hin)). cbn [bind].
  change (sg m (iter k (sg m) a)) with (iter (Datatypes.S k) (sg m) a).
  destruct (Nat.eq_dec (Datatypes.S k) N) as [E|NE].
  - rewrite E, (pe_ret _ _ _ HN), Z.eqb_refl. left. eexists. split; [reflexivity|]. replace (N - k)%nat with 1%nat by lia.
    split; [reflexivity|]. intros q' d' [E'|[]]. injection E' as <- <-. assumption.
  - destruct (Z.eqb_spec (iter (Datatypes.S k) (sg m) a) a) as [E|_].
    { exfalso. revert E. apply (pe_min _ _ _ HN). lia. }
    destruct (IH (Datatypes.S k)) as [(c & -> & Hc & Hq)|(-> & Hx)]; [lia|lia| |].
    + left. eexists. split; [reflexivity|]. replace (N - k)%nat with (Datatypes.S (N - Datatypes.S k)) by lia.
      cbn [map seq snd]. split; [f_equal; assumption|]. intros q' d' [E'|Hi]; [|auto]. injection E' as <- <-. assumption.
    + right. split; [reflexivity | assumption].
Qed.

(** ** Writing the new order *)

Definition cyc (f : Z -> Z) (W : list Z) : Prop := match W with [] => True | x :: t => map f W = t ++ [x] end.

Lemma cyc_reach f x t z : map f (x :: t) = t ++ [z] -> forall y, In y (x :: t) -> reach f x y.
Proof.
  revert x. induction t as [|u t IH]; intros x E y Hy.
  - destruct Hy as [<-|[]]. apply reach_refl.
  - cbn in E. injection E as E0 E1. destruct Hy as [<-|Hy]; [apply reach_refl|].
    apply reach_step_l. rewrite E0. apply IH; assumption.
Qed.

Record onlyS m m' : Prop := { os_T : sameT m m'; os_cap : cap m' = cap m }.
Lemma onlyS_refl m : onlyS m m. Proof. split; [apply sameT_refl | reflexivity]. Qed.
Lemma onlyS_trans a b c : onlyS a b -> onlyS b c -> onlyS a c.
Proof. intros [] []. split; [apply (sameT_trans a b c); assumption | congruence]. Qed.

Lemma os_eAt m m' : onlyS m m' -> forall l, eAt m' l = eAt m l.
Proof. intros [T _] l. unfold eAt. rewrite (st_edges _ _ T). reflexivity. Qed.
Lemma os_stt m m' : onlyS m m' -> forall d, stt m' d = stt m d.
Proof. intros H d. unfold stt. rewrite (os_eAt _ _ H). reflexivity. Qed.
Lemma os_darts m m' : onlyS m m' -> darts m' = darts m.
Proof. intros [T _]. apply tables_darts, (st_edges _ _ T). Qed.
Lemma os_angle m m' : onlyS m m' -> forall d, dartAngle m' d = dartAngle m d.
Proof. intros [T _] d. unfold dartAngle, gEdge, edgeP. rewrite (st_edges _ _ T). reflexivity. Qed.

Lemma writeOrder_spec m first q pred l :
  (forall d, In d (first :: pred :: map snd l) -> Z.abs d <= cap m) ->
  NoDup (pred :: map snd l) -> NoDup (map snd l ++ [first]) ->
  (exists m', writeOrder m first q pred l = Ok m' /\ onlyS m m' /\
     map (sg m') (pred :: map snd l) = map snd l ++ [first] /\
     map (sgi m') (map snd l ++ [first]) = pred :: map snd l /\
     (forall x, ~ In x (pred :: map snd l) -> sg m' x = sg m x) /\
     (forall x, ~ In x (map snd l ++ [first]) -> sgi m' x = sgi m x) /\
     forall A x y B, (q, pred) :: l = A ++ x :: y :: B -> ~ (fst x == fst y)%Q) \/
  (writeOrder m first q pred l = Exn /\ exists A x y B, (q, pred) :: l = A ++ x :: y :: B /\ (fst x == fst y)%Q).
Proof.
  revert m q pred. induction l as [|[q' d] t IH]; intros m q pred Hc Hn1 Hn2.
  - left. cbn [writeOrder map app]. rewrite putS_Ok by (apply Hc; simpl; auto). cbn [bind].
    rewrite putSi_Ok by (apply Hc; simpl; auto). eexists. split; [reflexivity|]. cbn [sg sgi set_sg set_sgi].
    split; [repeat constructor|]. split; [cbn; rewrite updZ_eq; reflexivity|]. split; [rewrite updZ_eq; reflexivity|].
    split; [intros x Hx; apply updZ_neq; intros ->; apply Hx; left; reflexivity|].
    split; [intros x Hx; apply updZ_neq; intros ->; apply Hx; left; reflexivity|].
    intros [|a A] x y B E; [discriminate|]. injection E as _ E. destruct A; discriminate.
  - cbn [writeOrder map snd]. destruct (Qeq_bool q q') eqn:Eq.
    { right. split; [reflexivity|]. exists [], (q, pred), (q', d), t. split; [reflexivity|]. apply Qeq_bool_iff; assumption. }
    rewrite putS_Ok by (apply Hc; simpl; auto). cbn [bind]. rewrite putSi_Ok by (apply Hc; simpl; auto). cbn [bind].
    set (m1 := set_sgi _ _). cbn [map snd] in Hn1, Hn2. inversion Hn1 as [|? ? Hp Hn1']; subst.
    inversion Hn2 as [|? ? Hd Hn2']; subst.
    assert (O1 : onlyS m m1) by (split; [constructor; reflexivity | reflexivity]).
    destruct (IH m1 q' d) as [(m' & R & O & H1 & H2 & H3 & H4 & H5)|(R & A & x & y & B & E & H)]; auto.
    { intros x Hx. change (cap m1) with (cap m). apply Hc. destruct Hx as [<-|Hx]; [left; reflexivity | right; right; exact Hx]. }
    + left. exists m'. split; [exact R|]. split; [apply (onlyS_trans _ m1); assumption|]. split; [|split; [|split; [|split]]].
      * cbn [map]. cbn [map] in H1. rewrite H1. cbn [app]. f_equal. rewrite H3 by exact Hp. apply updZ_eq.
      * cbn [map app]. rewrite H2. f_equal. rewrite H4 by exact Hd. apply updZ_eq.
      * intros x Hx. rewrite H3 by (intros Hi; apply Hx; right; exact Hi). apply updZ_neq. intros ->. apply Hx. left; reflexivity.
      * intros x Hx. rewrite H4 by (intros Hi; apply Hx; right; exact Hi). apply updZ_neq. intros ->. apply Hx. left; reflexivity.
      * intros [|a A] x y B E.
        -- injection E as <- <- _. cbn [fst]. intros K. apply Qeq_bool_iff in K. congruence.
        -- injection E as _ E. apply (H5 A x y B E).
    + right. split; [exact R|]. exists ((q, pred) :: A), x, y, B. split; [rewrite E; reflexivity | assumption].
Qed.

(** ** Replacing the rotation *)

Lemma map_id_in {A} (f : A -> A) W : map f W = W -> forall x, In x W -> f x = x.
Proof. induction W as [|y t IH]; cbn; intros E x Hx; [destruct Hx|]. injection E as E0 E1. destruct Hx as [<-|Hx]; auto. Qed.

Lemma SI_newsg m m' : onlyS m m' -> SI m (darts m) ->
  perm_on (darts m) (sg m') (sgi m') -> (forall d, In d (darts m) -> stt m (sg m' d) = stt m d) ->
  (forall x y, In x (darts m) -> In y (darts m) -> stt m x = stt m y -> reach (sg m') x y) -> SI m' (darts m).
Proof.
  intros O HS HP Hst Hr. pose proof (os_T _ _ O) as T. constructor; auto.
  - intros d Hd. rewrite (os_eAt _ _ O). apply (si_live _ _ HS); assumption.
  - apply (si_nz _ _ HS).
  - intros d Hd. rewrite (os_cap _ _ O). apply (si_cap _ _ HS); assumption.
  - intros d Hd. rewrite !(os_stt _ _ O). auto.
  - intros d Hd. rewrite (os_stt _ _ O). unfold nAt. rewrite (st_nodes _ _ T). apply (si_node _ _ HS); assumption.
  - intros l n. unfold nAt. rewrite (st_nodes _ _ T). intros Hn. destruct (si_anchor _ _ HS l n Hn) as [(E & H)|(E & H1 & H2)].
    + left. split; [assumption|]. intros d Hd. rewrite (os_stt _ _ O). auto.
    + right. split; [assumption|]. rewrite (os_stt _ _ O). split; [assumption|]. intros d Hd. rewrite (os_stt _ _ O). intros Ed.
      apply Hr; auto. congruence.
Qed.

(** the darts at node [l] leave in strictly increasing angle along sigma *)
Definition angLt m (a b : Z) : Prop := exists p q, dartAngle m a = Ok p /\ dartAngle m b = Ok q /\ (p < q)%Q.
Definition sortedAt m (l : nat) : Prop := exists W,
  NoDup W /\ (forall x, In x W <-> In x (darts m) /\ stt m x = l) /\ StronglySorted (angLt m) W /\ cyc (sg m) W.

Definition sortFails m : Prop :=
  (exists d, In d (darts m) /\ dartAngle m d = Exn) \/
  (exists d d' q q', In d (darts m) /\ In d' (darts m) /\ d <> d' /\ stt m d = stt m d' /\
     dartAngle m d = Ok q /\ dartAngle m d' = Ok q' /\ (q == q')%Q).

Lemma strict_sorted m l : StronglySorted (fun a b => pairLe a b = true) l ->
  (forall A x y B, l = A ++ x :: y :: B -> ~ (fst x == fst y)%Q) ->
  (forall q d, In (q, d) l -> dartAngle m d = Ok q) -> StronglySorted (angLt m) (map snd l).
Proof.
  induction 1 as [|[q d] t HS IH HF]; intros Hs Hq; [constructor|]. cbn [map snd]. constructor.
  - apply IH; [|intros; apply Hq; right; assumption]. intros A x y B E. apply (Hs ((q, d) :: A) x y B). rewrite E. reflexivity.
  - destruct t as [|[q1 d1] t]; [constructor|]. rewrite Forall_forall in HF.
    assert (H1 : (q < q1)%Q).
    { pose proof (pairLe_le _ _ (HF _ (or_introl eq_refl))) as Hle. cbn [fst] in Hle.
      apply Qle_lteq in Hle as [H|H]; [assumption|]. exfalso. apply (Hs [] (q, d) (q1, d1) t eq_refl H). }
    apply Forall_forall. intros y Hy. apply in_map_iff in Hy as ([q2 d2] & <- & Hy). cbn [snd].
    exists q, q2. split; [apply Hq; left; reflexivity|]. split; [apply Hq; right; assumption|].
    destruct Hy as [E|Hy]; [injection E as <- <-; assumption|]. apply (Qlt_le_trans _ q1); [assumption|].
    inversion HS as [|? ? _ HF2]; subst. rewrite Forall_forall in HF2. apply (pairLe_le (q1, d1) (q2, d2)), HF2; assumption.
Qed.

Lemma sortNode_spec m l : SI m (darts m) -> (l < length (nodes m))%nat ->
  (exists m', sortNode m l = Ok m' /\ onlyS m m' /\ SI m' (darts m) /\ sortedAt m' l /\
     forall x, In x (darts m) -> stt m x <> l -> sg m' x = sg m x) \/
  (sortNode m l = Exn /\ sortFails m).
Proof.
  intros HS Hl. unfold sortNode. pose proof (si_perm _ _ HS) as HP.
  assert (Hnp : nodeP m l = Ok (nAt m l)).
  { unfold nodeP, vget, nAt, tget. destruct (nth_error (nodes m) l) eqn:E; [reflexivity|]. apply nth_error_None in E. lia. }
  rewrite Hnp. cbn [bind].
  assert (Htriv : (forall d, In d (darts m) -> stt m d <> l) -> sortedAt m l).
  { intros H. exists []. split; [constructor|]. split; [|split; [constructor | exact I]].
    intros x. split; [intros [] | intros [H1 H2]; apply (H x); assumption]. }
  destruct (nAt m l) as [nd|] eqn:En.
  2:{ left. exists m. split; [reflexivity|]. split; [apply onlyS_refl|]. split; [assumption|]. split; [|auto].
      apply Htriv. intros d Hd E. apply (si_node _ _ HS d Hd). congruence. }
  destruct (Z.eqb_spec (nanchor nd) 0) as [E0|N0].
  { left. exists m. split; [reflexivity|]. split; [apply onlyS_refl|]. split; [assumption|]. split; [|auto].
    apply Htriv. destruct (si_anchor _ _ HS l nd En) as [[_ H]|[H _]]; [assumption|]. exfalso. apply (si_nz _ _ HS _ H E0). }
  destruct (si_anchor _ _ HS l nd En) as [[H _]|(Ha & Hal & Hrc)]; [contradiction|]. set (a := nanchor nd) in *.
  destruct (min_period _ _ _ a HP Ha) as (N & HN & HL).
  pose proof (pe_pos _ _ _ HN) as HN0.
  destruct (collectAngles_spec m a N HS Ha HN (fuel m) 0%nat) as [(c & R & Hc & Hq)|(R & Hx)];
    [lia | pose proof (fuel_darts m); lia | |].
  2:{ right. change (iter 0 (sg m) a) with a in R. rewrite R. split; [reflexivity | left; assumption]. }
  change (iter 0 (sg m) a) with a in R. rewrite R. cbn [bind]. rewrite Nat.sub_0_r in Hc.
  pose proof (sortPairs_perm c) as Hpm. pose proof (sortPairs_sorted c) as Hss. set (cs := sortPairs c) in *.
  assert (HndO : NoDup (map snd cs)).
  { apply (Permutation_NoDup (Permutation_map snd Hpm)). rewrite Hc. apply (orb_nodup (darts m) (sg m) _ a N HP Ha HN). }
  assert (HW : forall x, In x (map snd cs) <-> In x (darts m) /\ stt m x = l).
  { intros x. transitivity (In x (map snd c)).
    { split; apply Permutation_in, Permutation_map; [symmetry|]; assumption. }
    rewrite Hc, in_map_iff. split.
    - intros (i & <- & _). split; [apply (iter_in _ _ _ HP); assumption|]. clear -HS HP Ha Hal.
      induction i as [|i IH]; [assumption|]. cbn [iter]. rewrite (si_st _ _ HS); [assumption|]. apply (iter_in _ _ _ HP); assumption.
    - intros [Hx Ex]. destruct (proj1 (per_reach (sg m) a N HN x) (Hrc x Hx Ex)) as (i & Hi & <-).
      exists i. split; [reflexivity | apply in_seq; lia]. }
  assert (Hqs : forall q d, In (q, d) cs -> dartAngle m d = Ok q).
  { intros q d Hi. apply Hq. apply (Permutation_in _ (Permutation_sym Hpm) Hi). }
  assert (Hne : cs <> []).
  { intros E. assert (In a (map snd cs)) as Hi by (apply HW; auto). rewrite E in Hi. destruct Hi. }
  destruct cs as [|[q d] t] eqn:Ecs; [contradiction|]. cbn [map snd] in HndO, HW.
  assert (HndR : NoDup (map snd t ++ [d])).
  { apply (Permutation_NoDup (Permutation_cons_append (map snd t) d)); assumption. }
  destruct (writeOrder_spec m d q d t) as [(m' & R' & O & H1 & H2 & H3 & H4 & H5)|(R' & A & [qx x] & [qy y] & B & E & Hxy)]; auto.
  - intros x Hx. apply (si_cap _ _ HS). assert (Hi : In x (d :: map snd t)) by (destruct Hx as [<-|Hx]; [left; reflexivity | exact Hx]).
    apply HW in Hi as [Hi _]; exact Hi.
  - left. exists m'. split; [exact R'|]. split; [exact O|].
    assert (Hin' : forall x, In x (map snd t ++ [d]) <-> In x (d :: map snd t)).
    { intros x. rewrite in_app_iff. simpl. tauto. }
    assert (HinW : forall x, In x (d :: map snd t) -> In (sg m' x) (d :: map snd t)).
    { intros x Hx. apply Hin'. rewrite <- H1. apply in_map; assumption. }
    assert (HinV : forall x, In x (d :: map snd t) -> In (sgi m' x) (d :: map snd t)).
    { intros x Hx. rewrite <- H2. apply in_map. apply Hin'; assumption. }
    assert (Hinv1 : forall x, In x (d :: map snd t) -> sgi m' (sg m' x) = x).
    { apply (map_id_in (fun x => sgi m' (sg m' x))). rewrite <- (map_map (sg m') (sgi m')), H1. exact H2. }
    assert (Hinv2 : forall x, In x (d :: map snd t) -> sg m' (sgi m' x) = x).
    { intros x Hx. apply Hin' in Hx. revert x Hx. apply (map_id_in (fun x => sg m' (sgi m' x))).
      rewrite <- (map_map (sgi m') (sg m')), H2. exact H1. }
    assert (Hout : forall x, In x (darts m) -> stt m x <> l -> sg m' x = sg m x /\ sgi m' x = sgi m x).
    { intros x Hx Ex. split; [apply H3 | apply H4; rewrite Hin']; rewrite HW; intros [_ K]; contradiction. }
    assert (HP' : perm_on (darts m) (sg m') (sgi m')).
    { intros x Hx. destruct (Nat.eq_dec (stt m x) l) as [El|Nl].
      - assert (Hw : In x (d :: map snd t)) by (apply HW; auto). split; [apply HW, HinW; assumption|].
        split; [apply HW, HinV; assumption|]. split; auto.
      - destruct (Hout x Hx Nl) as [-> ->]. destruct (HP x Hx) as (P1 & P2 & P3 & P4). split; [assumption|]. split; [assumption|].
        split.
        + destruct (Hout (sg m x) P1) as [_ ->]; [rewrite (si_st _ _ HS x Hx); assumption | assumption].
        + destruct (Hout (sgi m x) P2) as [-> _]; [rewrite (SI_st_si _ _ x HS Hx); assumption | assumption]. }
    assert (Hfrom : forall y, In y (d :: map snd t) -> reach (sg m') d y) by (apply (cyc_reach _ _ _ d); assumption).
    assert (Hd : In d (darts m)) by (apply HW; left; reflexivity).
    split; [|split].
    + apply (SI_newsg m m' O HS HP').
      * intros x Hx. destruct (Nat.eq_dec (stt m x) l) as [El|Nl].
        -- rewrite El. apply HW, HinW, HW. auto.
        -- destruct (Hout x Hx Nl) as [-> _]. apply (si_st _ _ HS); assumption.
      * intros x y Hx Hy E. destruct (Nat.eq_dec (stt m x) l) as [El|Nl].
        -- apply (reach_trans _ x d).
           ++ apply (reach_sym _ _ _ HP'); [assumption|]. apply Hfrom, HW; auto.
           ++ apply Hfrom, HW. split; [assumption | congruence].
        -- assert (Hr : reach (sg m) x y) by (apply (SI_orbit _ _ x y HS); assumption).
           revert Hr. apply (reach_ext _ _ (fun z => In z (darts m) /\ stt m z <> l)).
           ++ intros z [Hz Ez]. symmetry. apply (Hout z Hz Ez).
           ++ intros z [Hz Ez]. split; [apply (HP z Hz) | rewrite (si_st _ _ HS z Hz); assumption].
           ++ auto.
    + exists (d :: map snd t). split; [assumption|]. split; [|split].
      * intros x. rewrite (os_darts _ _ O), (os_stt _ _ O). apply HW.
      * pose proof (strict_sorted m _ Hss H5 Hqs) as K. cbn [map snd] in K. revert K. clear -O.
        generalize (d :: map snd t). induction 1 as [|u W _ IH HF]; [constructor|]. constructor; [assumption|].
        revert HF. apply Forall_impl. intros b (p & r & K1 & K2 & K3). exists p, r. rewrite !(os_angle _ _ O). auto.
      * exact H1.
    + intros x Hx Ex. apply (Hout x Hx Ex).
  - right. split; [exact R'|]. right. 
    assert (Hcut : map snd ((q, d) :: t) = map snd A ++ x :: y :: map snd B) by (rewrite E, map_app; reflexivity).
    cbn [map snd] in Hcut.
    assert (Hi1 : In x (d :: map snd t)) by (rewrite Hcut; apply in_or_app; right; left; reflexivity).
    assert (Hi2 : In y (d :: map snd t)) by (rewrite Hcut; apply in_or_app; right; right; left; reflexivity).
    apply HW in Hi1 as [Hx Ex], Hi2 as [Hy Ey].
    exists x, y, qx, qy. split; [assumption|]. split; [assumption|]. split.
    { rewrite Hcut in HndO. apply NoDup_app_inv in HndO as (_ & HndO & _). inversion HndO as [|? ? K _]; subst. intros ->. apply K. left; reflexivity. }
    split; [congruence|]. split; [apply Hqs; rewrite E; apply in_or_app; right; left; reflexivity|].
    split; [apply Hqs; rewrite E; apply in_or_app; right; right; left; reflexivity | exact Hxy].
Qed.

Lemma os_SInv m m' : onlyS m m' -> SI m' (darts m) -> SInv m -> SInv m'.
Proof.
  intros [T C] HS V. destruct V as [_ e0 cp ln nc ec fc]. constructor.
  - rewrite (tables_darts _ _ (st_edges _ _ T)). assumption.
  - unfold eAt. rewrite (st_edges _ _ T). assumption.
  - rewrite C; assumption.
  - rewrite C, (st_edges _ _ T); assumption.
  - rewrite (st_nc _ _ T), (st_nodes _ _ T); assumption.
  - rewrite (st_ec _ _ T), (st_edges _ _ T); assumption.
  - rewrite (st_fc _ _ T), (st_faces _ _ T); assumption.
Qed.

Lemma sortedAt_keep m m' l : onlyS m m' -> (forall x, In x (darts m) -> stt m x = l -> sg m' x = sg m x) ->
  sortedAt m l -> sortedAt m' l.
Proof.
  intros O H (W & H1 & H2 & H3 & H4). exists W. split; [assumption|]. split; [|split].
  - intros x. rewrite (os_darts _ _ O), (os_stt _ _ O). apply H2.
  - revert H3. clear -O. induction 1 as [|u W _ IH HF]; [constructor|]. constructor; [assumption|].
    revert HF. apply Forall_impl. intros b (p & r & K1 & K2 & K3). exists p, r. rewrite !(os_angle _ _ O). auto.
  - destruct W as [|x t]; [exact I|]. unfold cyc in *. rewrite <- H4. apply map_ext_in. intros y Hy. apply H2 in Hy as [Hy Ey]. auto.
Qed.

Lemma sortFails_os m m' : onlyS m m' -> sortFails m' -> sortFails m.
Proof.
  intros O [(d & H1 & H2)|(d & d' & q & q' & H)].
  - left. exists d. rewrite (os_darts _ _ O) in H1. rewrite (os_angle _ _ O) in H2. auto.
  - right. exists d, d', q, q'. rewrite (os_darts _ _ O), !(os_stt _ _ O), !(os_angle _ _ O) in H. assumption.
Qed.

Lemma sortNodes_spec ls : forall m, SI m (darts m) -> (forall l, In l ls -> (l < length (nodes m))%nat) -> NoDup ls ->
  (exists m', sortNodes m ls = Ok m' /\ onlyS m m' /\ SI m' (darts m) /\ (forall l, In l ls -> sortedAt m' l) /\
     (forall x, In x (darts m) -> ~ In (stt m x) ls -> sg m' x = sg m x)) \/
  (sortNodes m ls = Exn /\ sortFails m).
Proof.
  induction ls as [|l t IH]; intros m HS Hl Hn.
  - left. exists m. split; [reflexivity|]. split; [apply onlyS_refl|]. split; [assumption|]. split; [intros ? [] | reflexivity].
  - cbn [sortNodes]. inversion Hn as [|? ? Hnl Hnt]; subst.
    destruct (sortNode_spec m l HS (Hl l (or_introl eq_refl))) as [(m1 & -> & O1 & S1 & A1 & K1)|(-> & F)]; [|right; auto].
    cbn [bind]. pose proof (os_darts _ _ O1) as D1.
    destruct (IH m1) as [(m' & -> & O2 & S2 & A2 & K2)|(-> & F)]; auto.
    + rewrite D1; assumption.
    + intros k Hk. rewrite (st_nodes _ _ (os_T _ _ O1)). apply Hl; right; assumption.
    + left. exists m'. split; [reflexivity|]. split; [apply (onlyS_trans _ m1); assumption|].
      rewrite D1 in *. split; [assumption|]. split.
      * intros k [<-|Hk]; [|auto]. apply (sortedAt_keep m1 m' l O2); auto. intros x Hx Ex. apply K2; [rewrite <- D1; assumption|].
        rewrite Ex. assumption.
      * intros x Hx Hnx. rewrite K2; [|assumption|].
        -- apply K1; auto. intros E. apply Hnx. left. congruence.
        -- rewrite (os_stt _ _ O1). intros Hi. apply Hnx. right; assumption.
    + right. split; [reflexivity | apply (sortFails_os m m1); assumption].
Qed.

Lemma nAt_bound m l : nAt m l <> None -> (l < length (nodes m))%nat.
Proof. unfold nAt. destruct (tget (nodes m) l) eqn:E; [intros _; apply (tget_lt _ _ _ E) | congruence]. Qed.

(** what sortEdgesDirectly leaves behind *)
Record resorted m m' : Prop := {
  rs_eq : m' = mkMap (sg m') (sgi m') (cap m) (nodes m) (edges m) (faces m) (nodeCount m) (edgeCount m) (faceCount m) true;
  rs_inv : SInv m';
  rs_at : forall l, nAt m l <> None -> sortedAt m' l }.

Theorem sortEdgesDirectly_spec m : SInv m -> faces m = [] ->
  (exists m', sortEdgesDirectly m = Ok m' /\ resorted m m') \/ (sortEdgesDirectly m = Exn /\ sortFails m).
Proof.
  intros V Hf. unfold sortEdgesDirectly. rewrite Hf. cbn [length Nat.eqb negb].
  destruct (sortNodes_spec (seq 0 (length (nodes m))) m (sv_si _ V)) as [(m1 & -> & O & S1 & A & _)|(-> & F)].
  - intros l Hl. apply in_seq in Hl. lia.
  - apply seq_NoDup.
  - left. cbn [bind]. eexists. split; [reflexivity|].
    pose proof (os_SInv _ _ O S1 V) as V1. pose proof (os_T _ _ O) as T. constructor.
    + unfold set_sorted. cbn [sg sgi]. rewrite (os_cap _ _ O), (st_nodes _ _ T), (st_edges _ _ T), (st_faces _ _ T), (st_nc _ _ T), (st_ec _ _ T), (st_fc _ _ T). reflexivity.
    + destruct V1 as [[] ? ? ? ? ? ?]. constructor; [constructor; assumption|assumption..].
    + intros l Hl. destruct (A l) as (W & H1 & H2 & H3 & H4); [apply in_seq; pose proof (nAt_bound _ _ Hl); lia|].
      exists W. split; [assumption|]. split; [exact H2|]. split; [exact H3 | exact H4].
  - right. split; [reflexivity | assumption].
Qed.

(** the exception is thrown exactly in the stated cases *)
Lemma sorted_no_fail m m' : (forall l, nAt m l <> None -> sortedAt m' l) -> SInv m -> darts m' = darts m ->
  (forall x, stt m' x = stt m x) -> (forall d, dartAngle m' d = dartAngle m d) ->
  (forall d e, eAt m (elab d) = Some e -> In d (darts m) -> dartAngle m d <> Exn) -> ~ sortFails m.
Proof.
  intros HA V HD Hst Hang Hpts [(d & Hd & E)|(d & d' & q & q' & Hd & Hd' & Hne & Est & Eq & Eq' & Heq)].
  - destruct (live_edge m d Hd) as (e & Ee). apply (Hpts d e Ee Hd E).
  - pose proof (sv_si _ V) as HS. destruct (HA (stt m d) (si_node _ _ HS d Hd)) as (W & _ & H2 & H3 & _).
    assert (Hi : In d W) by (apply H2; rewrite HD, Hst; auto).
    assert (Hi' : In d' W) by (apply H2; rewrite HD, Hst; auto).
    assert (K : angLt m' d d' \/ angLt m' d' d).
    { clear -H3 Hi Hi' Hne. induction H3 as [|u W _ IH HF]; [destruct Hi|]. rewrite Forall_forall in HF.
      destruct Hi as [->|Hi], Hi' as [->|Hi']; [contradiction|left; auto|right; auto|auto]. }
    destruct K as [(p & r & K1 & K2 & K3)|(p & r & K1 & K2 & K3)]; rewrite Hang in K1, K2; rewrite Eq in *; rewrite Eq' in *;
      injection K1 as <-; injection K2 as <-; rewrite Heq in K3; apply (Qlt_irrefl _ K3).
Qed.

(** ** setSigmaMapping *)

Definition sigma_ok m (f : Z -> Z) : Prop :=
  (forall d, In d (darts m) -> In (f d) (darts m)) /\
  (forall d d', In d (darts m) -> In d' (darts m) -> f d = f d' -> d = d') /\
  (forall d, In d (darts m) -> stt m (f d) = stt m d) /\
  (forall d d', In d (darts m) -> In d' (darts m) -> stt m d = stt m d' -> reach f d d').

Lemma invertSigma_spec ls : forall m, (forall l, In l ls -> (l < length (edges m))%nat) ->
  eAt m 0 = None -> NoDup ls ->
  (forall d, In d (darts m) -> Z.abs d <= cap m /\ Z.abs (sg m d) <= cap m) ->
  (forall d d', In d (darts m) -> In d' (darts m) -> sg m d = sg m d' -> d = d') ->
  exists m', invertSigma m ls = Ok m' /\ onlyS m m' /\ sg m' = sg m /\
    (forall d, In d (darts m) -> In (elab d) ls -> sgi m' (sg m d) = d) /\
    (forall x, (forall d, In d (darts m) -> In (elab d) ls -> x <> sg m d) -> sgi m' x = sgi m x).
Proof.
  induction ls as [|l t IH]; intros m Hl E0 Hn Hc Hinj.
  - exists m. split; [reflexivity|]. split; [apply onlyS_refl|]. split; [reflexivity|]. split; [intros d _ [] | reflexivity].
  - cbn [invertSigma]. inversion Hn as [|? ? Hnl Hnt]; subst.
    assert (Hep : edgeP m l = Ok (eAt m l)).
    { unfold edgeP, vget, eAt, tget. destruct (nth_error (edges m) l) eqn:E; [reflexivity|].
      apply nth_error_None in E. specialize (Hl l (or_introl eq_refl)). lia. }
    rewrite Hep. cbn [bind]. destruct (eAt m l) as [e|] eqn:Ee.
    + assert (Hl0 : l <> 0%nat) by (intros ->; congruence).
      assert (Hd1 : In (Z.of_nat l) (darts m)) by (apply in_darts; rewrite elab_of_nat; split; [lia | congruence]).
      assert (Hd2 : In (- Z.of_nat l) (darts m)) by (apply darts_opp; assumption).
      rewrite getS_Ok by apply (Hc _ Hd1). cbn [bind]. rewrite putSi_Ok by apply (Hc _ Hd1). cbn [bind].
      rewrite getS_Ok by apply (Hc _ Hd2). cbn [bind]. rewrite putSi_Ok by apply (Hc _ Hd2). cbn [bind].
      set (m1 := set_sgi _ _).
      assert (O1 : onlyS m m1) by (split; [constructor; reflexivity | reflexivity]).
      destruct (IH m1) as (m' & -> & O & Hs & H1 & H2); auto.
      { intros k Hk. apply Hl. right; assumption. }
      exists m'. split; [reflexivity|]. split; [apply (onlyS_trans _ m1); assumption|]. split; [assumption|].
      change (darts m1) with (darts m) in *. change (sg m1) with (sg m) in *.
      assert (Hm1 : forall x, sgi m1 x = if x =? sg m (- Z.of_nat l) then - Z.of_nat l else if x =? sg m (Z.of_nat l) then Z.of_nat l else sgi m x) by reflexivity.
      split.
      * intros d Hd Hi. destruct (in_dec Nat.eq_dec (elab d) t) as [Hit|Hnit]; [auto|].
        rewrite H2.
        2:{ intros d' Hd' Hi' E. apply Hinj in E; auto. congruence. }
        destruct Hi as [E|Hi]; [|contradiction]. rewrite Hm1.
        assert (Ed : d = Z.of_nat l \/ d = - Z.of_nat l) by (apply elab_eq; rewrite elab_of_nat; auto).
        destruct Ed as [->| ->].
        -- destruct (Z.eqb_spec (sg m (Z.of_nat l)) (sg m (- Z.of_nat l))) as [E'|_]; [apply Hinj in E'; auto|]. rewrite Z.eqb_refl. reflexivity.
        -- rewrite Z.eqb_refl. reflexivity.
      * intros x Hx. rewrite H2 by (intros d Hd Hi; apply Hx; [assumption | right; assumption]). rewrite Hm1.
        destruct (Z.eqb_spec x (sg m (- Z.of_nat l))) as [E|_].
        { exfalso. apply (Hx _ Hd2); [left; rewrite elab_opp, elab_of_nat; reflexivity | assumption]. }
        destruct (Z.eqb_spec x (sg m (Z.of_nat l))) as [E|_]; [|reflexivity].
        exfalso. apply (Hx _ Hd1); [left; rewrite elab_of_nat; reflexivity | assumption].
    + destruct (IH m) as (m' & -> & O & Hs & H1 & H2); auto.
      { intros k Hk. apply Hl. right; assumption. }
      exists m'. split; [reflexivity|]. split; [assumption|]. split; [assumption|].
      assert (Hno : forall d, In d (darts m) -> l <> elab d).
      { intros d Hd E. apply in_darts in Hd as [_ Hd]. congruence. }
      split.
      * intros d Hd [E|Hi]; [exfalso; apply (Hno d Hd E) | auto].
      * intros x Hx. apply H2. intros d Hd Hi. apply Hx; [assumption | right; assumption].
Qed.

Lemma eAt_bound m l : eAt m l <> None -> (l < length (edges m))%nat.
Proof. unfold eAt. destruct (tget (edges m) l) eqn:E; [intros _; apply (tget_lt _ _ _ E) | congruence]. Qed.

Theorem setSigmaMapping_spec m f hs srt : SInv m -> faces m = [] -> sigma_ok m f ->
  setSigmaMapping m f hs srt = Exn \/
  exists m', setSigmaMapping m f hs srt = Ok m' /\ SInv m' /\
    m' = mkMap (sg m') (sgi m') (cap m) (nodes m) (edges m) (faces m) (nodeCount m) (edgeCount m) (faceCount m) srt /\
    forall d, In d (darts m) -> sg m' d = f d.
Proof.
  intros V Hf (F1 & F2 & F3 & F4). unfold setSigmaMapping. rewrite Hf. cbn [length Nat.eqb negb].
  destruct (hs <? Z.of_nat (length (edges m)) - 1); [left; reflexivity|]. right. cbv zeta.
  pose proof (sv_len _ V) as Hlen. set (n1 := Z.of_nat (length (edges m)) - 1) in *.
  rewrite Z.max_l by lia. set (m1 := set_sg _ _).
  assert (O1 : onlyS m m1) by (split; [constructor; reflexivity | reflexivity]).
  assert (Hb : forall d, In d (darts m) -> Z.abs d <= n1).
  { intros d Hd. apply in_darts in Hd as [_ Hd]. apply eAt_bound in Hd. unfold elab in Hd. subst n1. lia. }
  assert (Hs1 : forall d, In d (darts m) -> sg m1 d = f d).
  { intros d Hd. unfold m1. cbn [sg set_sg]. pose proof (Hb d Hd). destruct (Z.leb_spec (Z.abs d) n1); [reflexivity | lia]. }
  destruct (invertSigma_spec (seq 0 (length (edges m))) m1) as (m' & R & O & Hs & H1 & _).
  - intros l Hl. apply in_seq in Hl. cbn. lia.
  - apply (sv_e0 _ V).
  - apply seq_NoDup.
  - intros d Hd. change (darts m1) with (darts m) in Hd. change (cap m1) with (cap m). rewrite (Hs1 d Hd).
    split; apply (si_cap _ _ (sv_si _ V)); auto.
  - intros d d' Hd Hd'. change (darts m1) with (darts m) in Hd, Hd'. rewrite !Hs1 by assumption. apply F2; assumption.
  - change (length (edges m1)) with (length (edges m)). rewrite R. cbn [bind]. eexists. split; [reflexivity|].
    assert (Om : onlyS m m') by (apply (onlyS_trans _ m1); assumption).
    assert (Hsg : forall d, In d (darts m) -> sg m' d = f d) by (intros d Hd; rewrite Hs; auto).
    assert (Hsi : forall d, In d (darts m) -> sgi m' (f d) = d).
    { intros d Hd. rewrite <- (Hs1 d Hd). apply H1; [exact Hd|]. apply in_seq. apply in_darts in Hd as [_ Hd]. apply eAt_bound in Hd. lia. }
    assert (Hsur : forall d, In d (darts m) -> exists d', In d' (darts m) /\ f d' = d).
    { intros d Hd. pose proof (F4 (f d) d (F1 d Hd) Hd (F3 d Hd)) as Hr. destruct Hr as [[|k] E].
      - exists d. split; [assumption | exact E].
      - exists (iter k f (f d)). split; [|exact E]. clear -F1 Hd. induction k; cbn; auto. }
    assert (HP' : perm_on (darts m) (sg m') (sgi m')).
    { intros x Hx. destruct (Hsur x Hx) as (y & Hy & <-). rewrite (Hsg (f y)), (Hsi y), !Hsi, (Hsg y) by auto.
      repeat split; auto. }
    pose proof (SI_newsg m m' Om (sv_si _ V) HP') as HS'.
    assert (HSm : SI m' (darts m)).
    { apply HS'.
      - intros d Hd. rewrite Hsg by assumption. auto.
      - intros x y Hx Hy E. apply (reach_ext f _ (fun z => In z (darts m))); auto. intros z Hz. symmetry; auto. }
    pose proof (os_SInv _ _ Om HSm V) as V'. pose proof (os_T _ _ Om) as T.
    split; [|split].
    + destruct V' as [[] ? ? ? ? ? ?]. constructor; [constructor; assumption|assumption..].
    + unfold set_sorted. cbn [sg sgi]. rewrite (os_cap _ _ Om), (st_nodes _ _ T), (st_edges _ _ T), (st_faces _ _ T), (st_nc _ _ T), (st_ec _ _ T), (st_fc _ _ T). rewrite Hf. reflexivity.
    + exact Hsg.
Qed.
