(** embedFaces: the contours become faces and holes. *)
From Verif Require Import Base Orbit GraphRank Euler Links FaceInv Conj
  GeoMap_Model GeoMap_Views GeoMap_SInv GeoMap_Remove GeoMap_MergeEdges GeoMap_Loops GeoMap_MInv GeoMap_MergeFaces
  GeoMap_Area GeoMap_Init.
Local Open Scope Z_scope.

(** ** Helpers *)

Lemma FI_F_ext D f lf lf' F F' : (forall x, In x D -> lf' x = lf x) -> (forall x, In x D -> In (f x) D) ->
  (forall l, F' l = F l) -> FI D f lf F -> FI D f lf' F'.
Proof.
  intros H1 Hc H2 [A B C E G]. constructor.
  - intros d Hd. destruct (A d Hd) as (l & K & a & X1 & X2 & X3 & X4). exists l, K, a. rewrite H1, H2; auto.
  - intros l K a HK Ha. rewrite H2 in HK. destruct (B l K a HK Ha). split; [assumption|]. rewrite H1; auto.
  - intros d Hd. rewrite !H1; auto.
  - intros l K HK. rewrite H2 in HK. apply (E l K HK).
  - intros l K a b HK. rewrite H2 in HK. apply (G l K a b HK).
Qed.

Lemma FI_embed D f g lf F lf' F' l a p A :
  perm_on D f g -> FI D f lf F -> F l = Some [a] -> F p = Some A -> p <> l ->
  (forall x, In x D -> reach f a x -> lf' x = Some p) ->
  (forall x, In x D -> ~ reach f a x -> lf' x = lf x) ->
  F' l = None -> F' p = Some (A ++ [a]) -> (forall q, q <> l -> q <> p -> F' q = F q) ->
  FI D f lf' F'.
Proof.
  intros HP HF Hl Hp Hpl H1 H2 Fl Fp Fq.
  destruct (fi_anchor _ _ _ _ HF l [a] a Hl (or_introl eq_refl)) as [HaD Hal].
  assert (Hsame : forall x, In x D -> ~ reach f a x -> forall q, lf x = Some q -> q <> l).
  { intros x Hx Hn q Hq ->. destruct (fi_cover _ _ _ _ HF x Hx) as (l1 & K & b & E1 & E2 & E3 & E4).
    assert (l1 = l) by congruence; subst. rewrite Hl in E2. injection E2 as <-. destruct E3 as [<-|[]]. contradiction. }
  assert (Hancn : forall q K b, F q = Some K -> In b K -> q <> l -> ~ reach f a b).
  { intros q K b HK Hb Hq Hr.
    destruct (fi_unique D f g lf F l q [a] K a b HP HF Hl HK (or_introl eq_refl) Hb Hr) as [E _]. congruence. }
  assert (Hnew : forall q K b, F' q = Some K -> In b K -> (q = p /\ b = a) \/ (q <> l /\ exists K0, F q = Some K0 /\ In b K0)).
  { intros q K b HK Hb. destruct (Nat.eq_dec q l) as [->|Hq]; [congruence|].
    destruct (Nat.eq_dec q p) as [->|Hqp].
    - rewrite Fp in HK. injection HK as <-. apply in_app_iff in Hb as [Hb|[<-|[]]]; [right; split; eauto | left; auto].
    - rewrite Fq in HK by assumption. right; split; eauto. }
  constructor.
  - intros d Hd. destruct (reach_dec D f g HP a d HaD) as [Hr|Hr].
    + exists p, (A ++ [a]), a. split; [apply H1; assumption|]. split; [assumption|]. split; [apply in_or_app; right; left; reflexivity | assumption].
    + destruct (fi_cover _ _ _ _ HF d Hd) as (q & K & b & E1 & E2 & E3 & E4).
      pose proof (Hsame d Hd Hr q E1) as Hq. rewrite (H2 d Hd Hr).
      destruct (Nat.eq_dec q p) as [->|Hqp].
      * exists p, (A ++ [a]), b. split; [assumption|]. split; [assumption|]. split; [|assumption].
        apply in_or_app; left. congruence.
      * exists q, K, b. rewrite Fq by assumption. auto.
  - intros q K b HK Hb. destruct (Hnew q K b HK Hb) as [[-> ->]|(Hq & K0 & HK0 & Hb0)].
    + split; [assumption|]. apply H1; [assumption | apply reach_refl].
    + destruct (fi_anchor _ _ _ _ HF q K0 b HK0 Hb0) as [HbD Hbl]. split; [assumption|].
      rewrite H2; auto. apply (Hancn q K0 b); assumption.
  - intros d Hd. assert (Hfd : In (f d) D) by (apply HP; assumption).
    destruct (reach_dec D f g HP a d HaD) as [Hr|Hr].
    + rewrite (H1 d Hd Hr). apply H1; [assumption|]. apply reach_step_r; assumption.
    + rewrite (H2 d Hd Hr), H2; auto; [apply (fi_phi _ _ _ _ HF d Hd)|]. intros Hr2. apply Hr.
      apply (reach_trans _ _ (f d)); auto. apply (reach_sym _ _ _ HP); auto. exists 1%nat; reflexivity.
  - intros q K HK. destruct (Nat.eq_dec q l) as [->|Hq]; [congruence|].
    destruct (Nat.eq_dec q p) as [->|Hqp].
    + rewrite Fp in HK. injection HK as <-. apply NoDup_app_intro.
      * apply (fi_nodup _ _ _ _ HF p A Hp).
      * repeat constructor; simpl; tauto.
      * intros x Hx [<-|[]]. apply (Hancn p A a Hp Hx Hpl), reach_refl.
    + rewrite Fq in HK by assumption. apply (fi_nodup _ _ _ _ HF q K HK).
  - intros q K b c HK Hb Hc Hr. destruct (Nat.eq_dec q l) as [->|Hq]; [congruence|].
    destruct (Nat.eq_dec q p) as [->|Hqp].
    + rewrite Fp in HK. injection HK as <-. apply in_app_iff in Hb as [Hb|[<-|[]]], Hc as [Hc|[<-|[]]]; auto.
      * apply (fi_sep _ _ _ _ HF p A b c Hp Hb Hc Hr).
      * exfalso. apply (Hancn p A b Hp Hb Hpl). apply (reach_sym _ _ _ HP); auto.
        apply (fi_anchor _ _ _ _ HF p A b Hp Hb).
      * exfalso. apply (Hancn p A c Hp Hc Hpl Hr).
    + rewrite Fq in HK by assumption. apply (fi_sep _ _ _ _ HF q K b c HK Hb Hc Hr).
Qed.

Lemma tmap_upd_none {A B} (g : A -> list B) l i b : nth_error l i = Some None ->
  Permutation (tmap g (list_upd l i (Some b))) (g b ++ tmap g l).
Proof.
  revert i. induction l as [|o l IH]; intros [|i] H; try discriminate.
  - cbn in H. injection H as ->. reflexivity.
  - cbn in H. specialize (IH i H).
    change (Permutation ((match o with Some a => g a | None => [] end) ++ tmap g (list_upd l i (Some b)))
                        (g b ++ (match o with Some a => g a | None => [] end) ++ tmap g l)).
    rewrite IH, !app_assoc. apply Permutation_app_tail, Permutation_app_comm.
Qed.

Lemma list_upd_none {A} (l : list (option A)) i : tget l i = None -> list_upd l i None = l.
Proof.
  revert i. induction l as [|o l IH]; intros [|i] H; try reflexivity.
  - unfold tget in H; cbn in H. subst; reflexivity.
  - cbn. f_equal. apply IH. exact H.
Qed.

Lemma verts_in v G : In v (verts G) <-> exists a b, In (a, b) G /\ (v = a \/ v = b).
Proof.
  unfold verts. rewrite in_flat_map. split.
  - intros ([a b] & H & Hv). exists a, b. split; [assumption|]. cbn in Hv. intuition.
  - intros (a & b & H & Hv). exists (a, b). split; [assumption|]. cbn. intuition.
Qed.

Lemma conn_avoid K G y : (forall v, In v (verts K) -> ~ conn G v y) -> forall x, conn (K ++ G) x y -> conn G x y.
Proof.
  induction K as [|[a b] K IH]; intros Hv x Hc; [exact Hc|].
  assert (IH' := IH (fun v Hv' => Hv v (or_intror (or_intror Hv')))).
  change (conn ((a, b) :: K ++ G) x y) in Hc. apply conn_cons in Hc.
  destruct Hc as [Hc|[[_ Hc]|[_ Hc]]]; apply IH' in Hc; auto.
  - exfalso. apply (Hv b); auto. right; left; reflexivity.
  - exfalso. apply (Hv a); auto. left; reflexivity.
Qed.

Lemma star_snoc A x : star (A ++ [x]) = star A ++ match A with [] => [] | h :: _ => [(h, x)] end.
Proof. destruct A as [|h t]; [reflexivity|]. cbn. unfold spokes. rewrite map_app. reflexivity. Qed.

Lemma rf_raw m0 m x : relF m0 m -> raw m x = raw m0 x.
Proof.
  intros R. unfold raw. pose proof (rf_edge _ _ R (elab x)). destruct (eAt m0 (elab x)), (eAt m (elab x)); try contradiction; auto.
  unfold dartArea. destruct H as (_ & _ & -> & _). reflexivity.
Qed.

(** the order used by the sort puts an exterior contour before the interior
    contours it encloses *)
Lemma absBefore_ext eps a i : 1 <= eps -> 0 < i -> i <= - a -> absBefore eps a i = true.
Proof.
  intros He Hi Ha. unfold absBefore. cbv zeta.
  destruct (Z.ltb_spec a 0); [|lia]. destruct (Z.ltb_spec i 0); [lia|]. cbn [Bool.eqb negb].
  destruct (Z.ltb_spec (Z.abs (Z.abs a - Z.abs i)) eps); cbn [andb]; [reflexivity|].
  apply Z.ltb_lt. lia.
Qed.

Section Embed.
  Variables (m0 : gmap) (n : nat) (an : nat -> Z) (ar : nat -> Z) (ord : list nat) (eps : Z).
  Notation D := (darts m0).
  Notation ph := (phi m0).
  Notation st := (stt m0).
  Notation G := (Gm m0).
  Hypothesis V0 : SInv m0.
  Hypothesis Hnd : NoDup ord.
  Hypothesis Hord : forall l, In l ord <-> (0 < l < n)%nat.
  Hypothesis Han : forall l, In l ord -> In (an l) D.
  Hypothesis Hcov : forall x, In x D -> exists l, In l ord /\ reach ph (an l) x.
  Hypothesis Hsep : forall l l', In l ord -> In l' ord -> reach ph (an l) (an l') -> l = l'.
  Hypothesis Har : forall l, In l ord -> forall L, NoDup L -> (forall y, In y L <-> reach ph (an l) y) -> ar l = sumZ (raw m0) L.
  Hypothesis Heps : 1 <= eps.
  Hypothesis Hext : forall l l', In l ord -> In l' ord -> ar l <= 0 -> ar l' <= 0 -> conn G (st (an l)) (st (an l')) -> l = l'.
  Hypothesis Hsort : forall A B, ord = A ++ B -> forall p e, In p A -> In e B -> absBefore eps (ar e) (ar p) = false.

  Let HP : perm_on D ph (fun x => - sg m0 x) := phi_perm m0 (sv_si _ V0).
  Let nz x : In x D -> x <> 0 := si_nz _ _ (sv_si _ V0) x.

  Lemma ph_st x y : In x D -> reach ph x y -> conn G (st x) (st y).
  Proof. apply phi_conn_m; assumption. Qed.

  (** Every interior contour's component has an exterior contour, at least as large. *)
  Lemma ext_of l : In l ord -> 0 < ar l ->
    exists e, In e ord /\ ar e <= 0 /\ conn G (st (an l)) (st (an e)) /\ ar l <= - ar e.
  Proof.
    intros Hl Hpos.
    pose (lab := fun x => find (fun k => reachb D ph (an k) x) ord).
    assert (Hlab : forall x k, In x D -> In k ord -> (lab x = Some k <-> reach ph (an k) x)).
    { intros x k Hx Hk. unfold lab. split.
      - intros E. apply find_some in E as [E1 E2]. apply (reachb_spec D ph _ HP) in E2; auto.
      - intros Hr. destruct (find _ ord) as [k'|] eqn:E.
        + apply find_some in E as [E1 E2]. apply (reachb_spec D ph _ HP) in E2; auto. f_equal.
          apply Hsep; auto. apply (reach_trans _ _ x); auto. apply (reach_sym _ _ _ HP); auto.
        + exfalso. pose proof (find_none _ _ E _ Hk) as Hk2. cbv beta in Hk2. apply (reachb_spec D ph _ HP) in Hr; auto. congruence. }
    pose (cb := fun k => if conn_dec G (st (an l)) (st (an k)) then true else false).
    pose (C := filter cb ord).
    assert (HC : forall k, In k C <-> In k ord /\ conn G (st (an l)) (st (an k))).
    { intros k. unfold C. rewrite filter_In. unfold cb. destruct (conn_dec _ _ _); intuition. discriminate. }
    assert (HarC : forall k, In k ord -> ar k = sumZ (raw m0) (filter (fun x => optnat_eqb (lab x) (Some k)) D)).
    { intros k Hk. apply Har; auto; [apply NoDup_filter, nodup_darts|].
      intros y. rewrite filter_In, optnat_eqb_eq. split.
      - intros [Hy E]. apply Hlab; auto.
      - intros Hr. assert (Hy : In y D) by (apply (reach_in _ _ _ HP (an k)); auto). split; auto. apply Hlab; auto. }
    assert (Hsum : sumN ar C = 0).
    { assert (E : sumN ar C = sumN (fun k => sumZ (raw m0) (filter (fun x => optnat_eqb (lab x) (Some k)) D)) C).
      { assert (HCi : incl C ord) by (intros k Hk; apply HC; assumption).
        clear -HarC HCi. induction C as [|k t IH]; [reflexivity|]. cbn [sumN]. rewrite <- IH by (intros x Hx; apply HCi; right; assumption).
        rewrite HarC by (apply HCi; left; reflexivity). reflexivity. }
      rewrite E, sumN_fibers by (apply NoDup_filter; assumption).
      assert (Hin : forall x, In x (filter (fun x => match lab x with Some k => existsb (Nat.eqb k) C | None => false end) D)
                     <-> In x D /\ conn G (st (an l)) (st x)).
      { intros x. rewrite filter_In. split.
        - intros [Hx E1]. split; auto. destruct (lab x) as [k|] eqn:Ek; [|discriminate].
          apply existsb_exists in E1 as (k' & Hk' & E2). apply Nat.eqb_eq in E2. subst k'. apply HC in Hk' as [Hk Hcn].
          apply Hlab in Ek; auto. apply (conn_trans _ _ (st (an k))); auto. apply ph_st; auto.
        - intros [Hx Hcn]. split; auto. destruct (Hcov x Hx) as (k & Hk & Hr).
          assert (Ek : lab x = Some k) by (apply Hlab; auto). rewrite Ek. apply existsb_exists. exists k.
          split; [|apply Nat.eqb_refl]. apply HC. split; auto. apply (conn_trans _ _ (st x)); auto.
          apply conn_sym, ph_st; auto. }
      apply sumZ_anti.
      - apply NoDup_filter, nodup_darts.
      - intros x Hx. apply Hin in Hx as [Hx Hcn]. apply Hin. split; [apply darts_opp; assumption|].
        apply (conn_trans _ _ (st x)); auto. apply conn_dart; assumption.
      - intros x Hx. apply Hin in Hx as [Hx _]. apply raw_opp; auto. }
    assert (HlC : In l C) by (apply HC; split; [assumption | apply conn_refl]).
    destruct (find (fun k => ar k <=? 0) C) as [e|] eqn:Ee.
    - apply find_some in Ee as [E1 E2]. apply Z.leb_le in E2. pose proof E1 as E1'. apply HC in E1 as [HeO Hec].
      exists e. do 3 (split; [assumption|]).
      assert (HndC : NoDup C) by (apply NoDup_filter; assumption).
      destruct (in_split _ _ E1') as (C1 & C2 & EC).
      assert (HPC : Permutation C (e :: C1 ++ C2)) by (rewrite EC; symmetry; apply Permutation_middle).
      rewrite (sumN_perm ar _ _ HPC) in Hsum. cbn [sumN] in Hsum.
      assert (Hrest : forall k, In k (C1 ++ C2) -> In k C /\ k <> e).
      { intros k Hk. split; [apply (Permutation_in _ (Permutation_sym HPC)); right; assumption|].
        intros ->. apply (Permutation_NoDup HPC) in HndC. inversion HndC; contradiction. }
      assert (HlR : In l (C1 ++ C2)).
      { apply (Permutation_in _ HPC) in HlC. destruct HlC as [<-|HlC]; [lia | assumption]. }
      pose proof (sumN_pos ar (C1 ++ C2) l HlR) as Hs.
      assert (ar l <= sumN ar (C1 ++ C2)); [|lia]. apply Hs. intros k Hk.
      destruct (Hrest k Hk) as [HkC Hke]. apply HC in HkC as [HkO Hkc].
      destruct (Z.le_gt_cases (ar k) 0) as [Hle|]; [|lia]. exfalso. apply Hke. apply Hext; auto.
      apply (conn_trans _ _ (st (an l))); [apply conn_sym|]; assumption.
    - exfalso. assert (Hall : forall k, In k C -> 0 < ar k).
      { intros k Hk. pose proof (find_none _ _ Ee k Hk) as E. cbv beta in E. apply Z.leb_gt in E. assumption. }
      pose proof (sumN_pos ar C l HlC Hall). lia.
  Qed.

  (** so it comes before them in the sorted order *)
  Lemma ext_before A B l : ord = A ++ B -> In l A -> 0 < ar l ->
    exists e, In e A /\ ar e <= 0 /\ conn G (st (an l)) (st (an e)).
  Proof.
    intros E Hl Hp. assert (HlO : In l ord) by (rewrite E; apply in_or_app; auto).
    destruct (ext_of l HlO Hp) as (e & He & H1 & H2 & H3). exists e. split; auto.
    rewrite E in He. apply in_app_iff in He as [He|He]; auto. exfalso.
    pose proof (Hsort A B E l e Hl He) as Hs. rewrite absBefore_ext in Hs; [discriminate | assumption..].
  Qed.

  Definition vF (td : list nat) m (l : nat) : option (list Z) :=
    if existsb (Nat.eqb l) td then Some [an l] else fanch m l.
  Definition lk (fs : list (option face)) : graph := tmap (fun f => star (map st (fanchors f))) fs.

  Lemma vF_in td m l : In l td -> vF td m l = Some [an l].
  Proof.
    intros H. unfold vF. replace (existsb (Nat.eqb l) td) with true; [reflexivity|].
    symmetry. apply existsb_exists. exists l. split; [assumption | apply Nat.eqb_refl].
  Qed.
  Lemma vF_out td m l : ~ In l td -> vF td m l = fanch m l.
  Proof.
    intros H. unfold vF. destruct (existsb (Nat.eqb l) td) eqn:E; [|reflexivity].
    apply existsb_exists in E as (k & Hk & Ek). apply Nat.eqb_eq in Ek. subst; contradiction.
  Qed.

  Record EI m dn td : Prop := {
    ei_rel : relF m0 m;
    ei_len : length (faces m) = n;
    ei_fi : FI D ph (lft m) (vF td m);
    ei_td : forall l, In l td -> fAt m l = None;
    ei_ext : forall l, In l dn -> ar l <= 0 -> fAt m l = None;
    ei_0 : exists f, fAt m 0 = Some f /\ farea f = None;
    ei_anch : forall p f, fAt m p = Some f -> exists H, fanchors f = (if Nat.eqb p 0 then H else an p :: H) /\
        forall h, In h H -> exists l, In l dn /\ ar l <= 0 /\ h = an l;
    ei_int : forall p f, fAt m p = Some f -> p <> 0%nat -> In p dn /\ 0 < ar p;
    ei_area : forall p f v, fAt m p = Some f -> farea f = Some v -> v = faceSum m p;
    ei_in : indep (lk (faces m)) G;
    ei_vt : forall v, In v (verts (lk (faces m))) -> exists l, In l dn /\ ar l <= 0 /\ conn G v (st (an l));
    ei_cnt : sumf ncont (faces m) = Z.of_nat (length dn);
    ei_fc : faceCount m = sumf alive (faces m) + Z.of_nat (length td);
    ei_flag : forall p f, fAt m p = Some f -> fflags f = 0%N;
    ei_alive : sumf alive (faces m) = 1 + Z.of_nat (length (filter (fun l => 0 <? ar l) dn)) }.

  Lemma fi_single m td l : FI D ph (lft m) (vF td m) -> In l td -> In l ord ->
    forall x, In x D -> (lft m x = Some l <-> reach ph (an l) x).
  Proof.
    intros F Hl Hlo x Hx. pose proof (vF_in td m l Hl) as E. split.
    - intros Hx2. destruct (fi_cover _ _ _ _ F x Hx) as (l' & A & a & E1 & E2 & E3 & E4).
      assert (l' = l) by congruence; subst. rewrite E in E2. injection E2 as <-. destruct E3 as [<-|[]]. assumption.
    - intros Hr. rewrite (fi_reach D ph _ (lft m) _ (an l) x HP F (Han l Hlo) Hr).
      apply (fi_anchor _ _ _ _ F l [an l] (an l) E (or_introl eq_refl)).
  Qed.

  Lemma nth_None m dn td l : EI m dn td -> In l td -> In l ord -> nth_error (faces m) l = Some None.
  Proof.
    intros I Hl Hlo. pose proof (ei_td _ _ _ I l Hl) as E. unfold fAt, tget in E.
    destruct (nth_error (faces m) l) as [o|] eqn:En; [congruence|].
    apply nth_error_None in En. rewrite (ei_len _ _ _ I) in En. apply Hord in Hlo. lia.
  Qed.

  (** *** an interior contour becomes a face *)
  Lemma EI_int m dn l td : ord = dn ++ l :: td -> EI m dn (l :: td) -> 0 < ar l ->
    EI (putF m l (Some (mkFace [an l] (Some (ar l)) 0))) (dn ++ [l]) td.
  Proof.
    intros EO I Hp. set (f := mkFace [an l] (Some (ar l)) 0). set (m' := putF m l (Some f)).
    assert (Hlo : In l ord) by (rewrite EO; apply in_or_app; right; left; reflexivity).
    assert (Hltd : ~ In l td).
    { rewrite EO in Hnd. apply NoDup_remove_2 in Hnd. intros H; apply Hnd, in_or_app; auto. }
    assert (Hl0 : l <> 0%nat) by (apply Hord in Hlo; lia).
    pose proof (nth_None m dn _ l I (or_introl eq_refl) Hlo) as Hnth.
    assert (Hlen : (l < length (faces m))%nat) by (apply nth_error_Some; congruence).
    assert (HfA : forall j, fAt m' j = if Nat.eqb l j then Some f else fAt m j).
    { intros j. unfold fAt, m', putF. cbn. rewrite tget_upd. apply Nat.ltb_lt in Hlen. rewrite Hlen. reflexivity. }
    assert (Hlk : Permutation (lk (faces m')) (lk (faces m))).
    { exact (tmap_upd_none (fun f => star (map st (fanchors f))) _ _ f Hnth). }
    constructor.
    - pose proof (ei_rel _ _ _ I) as R. destruct R. constructor; assumption.
    - cbn. rewrite list_upd_length. apply I.
    - apply (FI_F_ext D ph (lft m) (lft m') (vF (l :: td) m)); auto; [apply HP | | apply I].
      intros j. destruct (in_dec Nat.eq_dec j td) as [Hj|Hj].
      + rewrite !vF_in; simpl; auto.
      + rewrite (vF_out td m' j Hj). unfold fanch. rewrite HfA. destruct (Nat.eqb_spec l j) as [->|N].
        * rewrite vF_in; simpl; auto.
        * rewrite vF_out by (simpl; tauto). reflexivity.
    - intros j Hj. rewrite HfA. destruct (Nat.eqb_spec l j) as [->|N]; [contradiction|].
      apply (ei_td _ _ _ I). right; assumption.
    - intros j Hj Hje. rewrite HfA. apply in_app_iff in Hj as [Hj|[<-|[]]]; [|lia].
      destruct (Nat.eqb_spec l j) as [->|N]; [lia|]. apply (ei_ext _ _ _ I); assumption.
    - rewrite HfA. destruct (Nat.eqb_spec l 0); [lia|]. apply I.
    - intros p g. rewrite HfA. destruct (Nat.eqb_spec l p) as [<-|N].
      + intros E; injection E as <-. exists []. destruct (Nat.eqb_spec l 0); [lia|]. split; [reflexivity | intros h []].
      + intros E. destruct (ei_anch _ _ _ I p g E) as (H & E1 & E2). exists H. split; [assumption|].
        intros h Hh. destruct (E2 h Hh) as (k & Hk & K). exists k. split; [apply in_or_app; auto | assumption].
    - intros p g. rewrite HfA. destruct (Nat.eqb_spec l p) as [<-|N].
      + intros _ _. split; [apply in_or_app; right; left; reflexivity | assumption].
      + intros E Hp0. destruct (ei_int _ _ _ I p g E Hp0). split; [apply in_or_app; auto | assumption].
    - intros p g v. rewrite HfA. change (faceSum m' p) with (faceSum m p). destruct (Nat.eqb_spec l p) as [<-|N].
      + intros E; injection E as <-. cbn. intros E; injection E as <-. unfold faceSum.
        rewrite (rf_darts _ _ (ei_rel _ _ _ I)).
        rewrite (sumZ_ext (raw m) (raw m0)) by (intros; apply rf_raw, I).
        apply (Har l Hlo); [apply NoDup_filter, nodup_darts|].
        intros y. rewrite filter_In, onFace_eq. pose proof (fi_single m _ l (ei_fi _ _ _ I) (or_introl eq_refl) Hlo) as FS. split.
        * intros [Hy E]. apply FS; assumption.
        * intros Hr. assert (Hy : In y D) by (apply (reach_in _ _ _ HP (an l)); auto). split; [assumption|]. apply FS; assumption.
      + apply (ei_area _ _ _ I).
    - apply (indep_perm _ _ _ (Permutation_sym Hlk)), I.
    - intros v Hv. assert (Hv' : In v (verts (lk (faces m)))).
      { apply verts_in in Hv as (a & b & H1 & H2). apply verts_in. exists a, b. split; [|assumption].
        apply (Permutation_in _ Hlk); assumption. }
      destruct (ei_vt _ _ _ I v Hv') as (k & Hk & K). exists k. split; [apply in_or_app; auto | assumption].
    - cbn [faces m' putF set_faces]. unfold m', putF; cbn [faces set_faces]. rewrite (sumf_upd _ _ _ _ _ Hnth), (ei_cnt _ _ _ I), app_length.
      cbn [ncont f fanchors length]. lia.
    - unfold m', putF; cbn [faces set_faces faceCount]. rewrite (sumf_upd _ _ _ _ _ Hnth), (ei_fc _ _ _ I).
      cbn [alive length]. lia.
    - intros p g. rewrite HfA. destruct (Nat.eqb_spec l p) as [<-|N]; [intros E; injection E as <-; reflexivity | apply I].
    - unfold m', putF; cbn [faces set_faces]. rewrite (sumf_upd _ _ _ _ _ Hnth), (ei_alive _ _ _ I), filter_app, app_length.
      cbn [filter]. apply Z.ltb_lt in Hp. rewrite Hp. cbn [alive length]. lia.
  Qed.

  (** *** an exterior contour becomes a hole *)
  Lemma EI_noconn m dn l td p f : ord = dn ++ l :: td -> EI m dn (l :: td) -> ar l <= 0 -> fAt m p = Some f ->
    forall b, In b (fanchors f) -> ~ conn G (st b) (st (an l)).
  Proof.
    intros EO I Hle Hf b Hb Hc.
    assert (Hlo : In l ord) by (rewrite EO; apply in_or_app; right; left; reflexivity).
    assert (Hldn : ~ In l dn).
    { rewrite EO in Hnd. apply NoDup_remove_2 in Hnd. intros H; apply Hnd, in_or_app; auto. }
    assert (Hdo : forall k, In k dn -> In k ord) by (intros k Hk; rewrite EO; apply in_or_app; auto).
    assert (Hcase : forall e, In e dn -> ar e <= 0 -> conn G (st (an e)) (st (an l)) -> False).
    { intros e He1 He2 Hce. assert (e = l) by (apply Hext; auto). subst; contradiction. }
    destruct (ei_anch _ _ _ I p f Hf) as (H & E1 & E2). rewrite E1 in Hb.
    destruct (Nat.eqb_spec p 0) as [Hp|Hp].
    - destruct (E2 b Hb) as (k & Hk & Hk2 & ->). apply (Hcase k); assumption.
    - destruct Hb as [<-|Hb].
      + destruct (ei_int _ _ _ I p f Hf Hp) as [Hpd Hpp].
        destruct (ext_before dn (l :: td) p EO Hpd Hpp) as (e & He & He2 & Hce).
        apply (Hcase e); auto. apply (conn_trans _ _ (st (an p))); [apply conn_sym|]; assumption.
      + destruct (E2 b Hb) as (k & Hk & Hk2 & ->). apply (Hcase k); assumption.
  Qed.

  Lemma EI_ext m dn l td p : ord = dn ++ l :: td -> EI m dn (l :: td) -> ar l <= 0 -> fAt m p <> None ->
    exists m', embedContour m p (an l) = Ok m' /\ EI (uninitFace m' l) (dn ++ [l]) td.
  Proof.
    intros EO I Hle Hp. destruct (fAt m p) as [f|] eqn:Hf; [|contradiction]. clear Hp. set (a := an l).
    assert (Hlo : In l ord) by (rewrite EO; apply in_or_app; right; left; reflexivity).
    assert (Hltd : ~ In l td).
    { rewrite EO in Hnd. apply NoDup_remove_2 in Hnd. intros H; apply Hnd, in_or_app; auto. }
    assert (Hl0 : l <> 0%nat) by (apply Hord in Hlo; lia).
    assert (HfN : fAt m l = None) by (apply (ei_td _ _ _ I); left; reflexivity).
    assert (Hpl : p <> l) by congruence.
    assert (Hptd : ~ In p (l :: td)) by (intros H; apply (ei_td _ _ _ I) in H; congruence).
    assert (Ha : In a D) by (apply Han; assumption).
    pose proof (ei_rel _ _ _ I) as R0. pose proof (ei_fi _ _ _ I) as F.
    pose proof (fi_single m _ l F (or_introl eq_refl) Hlo) as FS. fold a in FS.
    pose proof (EI_noconn m dn l td p f EO I Hle Hf) as Hnc. fold a in Hnc.
    pose proof (tget_lt _ _ _ Hf) as Hplt.
    set (B := fanchors f ++ [a]).
    set (m2 := putF m p (Some (set_anchors f B))).
    assert (R2 : relF m0 m2) by (destruct R0; constructor; assumption).
    pose proof (rf_SI _ _ R2 (sv_si _ V0)) as HS2.
    assert (Ha2 : In a (darts m2)) by (rewrite (rf_darts _ _ R2); assumption).
    unfold embedContour. rewrite (deref_face _ _ _ Hf). cbn [bind]. fold B. fold m2.
    destruct (labelWhile_all (fun o => optnat_eqb o (Some p)) m2 a p HS2 Ha2) as (m3 & Rl & RL).
    { intros y Hy. rewrite (rf_phi _ _ R2) in Hy. change (lft m2 y) with (lft m y).
      assert (HyD : In y D) by (apply (reach_in _ _ _ HP a); auto).
      rewrite (proj2 (FS y HyD) Hy). cbn. apply Nat.eqb_neq. auto. }
    { cbn. apply Nat.eqb_refl. }
    fold a. rewrite Rl. cbn [bind]. clear Rl. cbv beta iota zeta.
    pose proof (relF_trans _ _ _ R2 (relab_relF _ _ _ _ RL)) as R3.
    rewrite (rf_phi _ _ R2) in RL.
    assert (Ef3 : faces m3 = list_upd (faces m) p (Some (set_anchors f B))) by (rewrite (rl_eq _ _ _ _ RL); reflexivity).
    assert (Lin : forall x, In x D -> reach ph a x -> lft m3 x = Some p).
    { intros x Hx Hr. apply (rl_in _ _ _ _ RL); [rewrite (rf_darts _ _ R2)|]; assumption. }
    assert (Lout : forall x, In x D -> ~ reach ph a x -> lft m3 x = lft m x).
    { intros x Hx Hr. rewrite (rl_out _ _ _ _ RL x); auto. rewrite (rf_darts _ _ R2); assumption. }
    (* the area of the contour *)
    set (O := filter (fun x => reachb D ph a x) D).
    assert (HO : forall y, In y O <-> reach ph a y).
    { intros y. unfold O. rewrite filter_In. split.
      - intros [Hy E]. apply (reachb_spec D ph _ HP) in E; auto.
      - intros Hr. split; [apply (reach_in _ _ _ HP a); auto | apply (reachb_spec D ph _ HP); auto]. }
    assert (HOn : NoDup O) by apply NoDup_filter, nodup_darts.
    assert (HcA : contourArea m3 a = Ok (ar l)).
    { assert (Hsame : ar l = sumZ (raw m3) O).
      { rewrite (sumZ_ext (raw m3) (raw m0)) by (intros; apply rf_raw; assumption). apply (Har l Hlo); assumption. }
      rewrite Hsame. apply contourArea_raw; auto.
      - apply (rf_SI _ _ R3), V0.
      - rewrite (rf_darts _ _ R3); assumption.
      - intros y. rewrite (rf_phi _ _ R3). apply HO.
      - rewrite (rf_phi _ _ R3). intros x Hr El.
        assert (Hx : In x D) by (apply (reach_in _ _ _ HP a); auto).
        assert (Hx' : In (- x) D) by (apply darts_opp; assumption).
        destruct (reach_dec D ph _ HP a (- x) Ha) as [Hr'|Hr']; [assumption|]. exfalso.
        rewrite (Lin x Hx Hr), (Lout _ Hx' Hr') in El.
        destruct (fi_cover _ _ _ _ F (- x) Hx') as (q & K & b & E1 & E2 & E3 & E4).
        assert (q = p) by congruence; subst q. rewrite vF_out in E2 by assumption. unfold fanch in E2. rewrite Hf in E2. injection E2 as <-.
        apply (Hnc b E3).
        assert (HbD : In b D). { apply (fi_anchor _ _ _ _ F p (fanchors f) b); auto. rewrite vF_out by assumption. unfold fanch. rewrite Hf; reflexivity. }
        apply (conn_trans _ _ (st (- x))); [apply ph_st; auto|].
        apply (conn_trans _ _ (st x)); [apply conn_sym, conn_dart; assumption|].
        apply conn_sym, ph_st; auto. }
    set (nf := mkFace B (match farea f with Some v => Some (v + ar l) | None => None end) (fflags f)).
    assert (Hm4 : exists m4, (match farea f with
        | Some v => c <- contourArea m3 a ;; Ok (putF m3 p (Some (mkFace B (Some (v + c)) (fflags f))))
        | None => Ok m3
        end) = Ok m4 /\ m4 = set_faces m3 (list_upd (faces m) p (Some nf))).
    { unfold nf. destruct (farea f) as [v|] eqn:Efa.
      - rewrite HcA. cbn [bind]. eexists. split; [reflexivity|]. unfold putF. rewrite Ef3, list_upd_upd. reflexivity.
      - eexists. split; [reflexivity|].
        replace (mkFace B None (fflags f)) with (set_anchors f B) by (unfold set_anchors; rewrite Efa; reflexivity).
        rewrite <- Ef3. destruct m3; reflexivity. }
    destruct Hm4 as (m4 & -> & Em4). cbn [bind]. rewrite Z.eqb_refl. exists m4. split; [reflexivity|].
    set (m5 := uninitFace m4 l).
    assert (Hf5 : faces m5 = list_upd (faces m) p (Some nf)).
    { unfold m5, uninitFace, putF. cbn [faces set_faceCount set_faces]. rewrite Em4. cbn [faces set_faces].
      apply list_upd_none. rewrite tget_upd_neq by assumption. exact HfN. }
    assert (Hl5 : forall x, lft m5 x = lft m3 x) by (intros; unfold m5; rewrite Em4; reflexivity).
    assert (R5 : relF m0 m5).
    { clear -R3 Em4. unfold m5. rewrite Em4. destruct R3. constructor; assumption. }
    assert (HfA : forall j, fAt m5 j = if Nat.eqb p j then Some nf else fAt m j).
    { intros j. unfold fAt. rewrite Hf5, tget_upd. apply Nat.ltb_lt in Hplt. rewrite Hplt. reflexivity. }
    destruct (tmap_upd (fun f => star (map st (fanchors f))) (faces m) p f Hf) as (K & HK1 & HK2).
    specialize (HK2 (Some nf)). fold (lk (faces m)) in HK1. rewrite <- Hf5 in HK2. fold (lk (faces m5)) in HK2.
    unfold nf at 1 in HK2. cbn [fanchors] in HK2. unfold B in HK2. rewrite map_app in HK2. cbn [map] in HK2. rewrite star_snoc in HK2.
    set (nl := match map st (fanchors f) with [] => [] | h :: _ => [(h, st a)] end) in HK2.
    assert (HKn : Permutation (lk (faces m5)) (nl ++ lk (faces m))).
    { rewrite HK2, HK1. rewrite (Permutation_app_comm _ nl), <- app_assoc. reflexivity. }
    assert (Hav : forall v, In v (verts (lk (faces m))) -> ~ conn G v (st a)).
    { intros v Hv Hc. destruct (ei_vt _ _ _ I v Hv) as (k & Hk & Hk2 & Hkc).
      assert (k = l).
      { apply Hext; auto; [rewrite EO; apply in_or_app; auto|].
        apply (conn_trans _ _ v); [apply conn_sym|]; assumption. }
      subst k. rewrite EO in Hnd. apply NoDup_remove_2 in Hnd. apply Hnd, in_or_app; auto. }
    assert (Hin5 : indep (lk (faces m5)) G).
    { apply (indep_perm _ _ _ (Permutation_sym HKn)). unfold nl. destruct (fanchors f) as [|h t] eqn:Efa; [apply I|].
      cbn [map app]. apply indep_cons; [apply I|]. intros Hc. apply (Hnc h); [left; reflexivity|].
      apply (conn_avoid (lk (faces m))); assumption. }
    constructor.
    - exact R5.
    - rewrite Hf5, list_upd_length. apply I.
    - apply (FI_embed D ph _ (lft m) (vF (l :: td) m) (lft m5) (vF td m5) l a p (fanchors f) HP F); auto.
      + apply vF_in; left; reflexivity.
      + rewrite vF_out by assumption. unfold fanch; rewrite Hf; reflexivity.
      + intros; rewrite Hl5; auto.
      + intros; rewrite Hl5; auto.
      + rewrite vF_out by assumption. unfold fanch. rewrite HfA. destruct (Nat.eqb_spec p l); [contradiction|]. rewrite HfN; reflexivity.
      + rewrite vF_out by (intros Hi; apply Hptd; right; assumption). unfold fanch. rewrite HfA, Nat.eqb_refl. reflexivity.
      + intros q Hql Hqp. destruct (in_dec Nat.eq_dec q td) as [Hq|Hq].
        * rewrite !vF_in; simpl; auto.
        * rewrite !vF_out by (simpl; intuition). unfold fanch. rewrite HfA. destruct (Nat.eqb_spec p q); [congruence | reflexivity].
    - intros j Hj. rewrite HfA. destruct (Nat.eqb_spec p j) as [->|N]; [exfalso; apply Hptd; right; assumption|].
      apply (ei_td _ _ _ I). right; assumption.
    - intros j Hj Hje. rewrite HfA. destruct (Nat.eqb_spec p j) as [->|N].
      + apply in_app_iff in Hj as [Hj|[<-|[]]]; [|contradiction]. apply (ei_ext _ _ _ I) in Hj; [congruence | assumption].
      + apply in_app_iff in Hj as [Hj|[<-|[]]]; [apply (ei_ext _ _ _ I); assumption | assumption].
    - destruct (ei_0 _ _ _ I) as (f0 & E1 & E2). rewrite HfA. destruct (Nat.eqb_spec p 0) as [->|N].
      + exists nf. split; [reflexivity|]. assert (f0 = f) by congruence. subst. cbn. rewrite E2. reflexivity.
      + exists f0; auto.
    - intros q g. rewrite HfA. destruct (Nat.eqb_spec p q) as [<-|N].
      + intros E; injection E as <-. destruct (ei_anch _ _ _ I p f Hf) as (H & E1 & E2). exists (H ++ [a]). split.
        * cbn [fanchors nf]. unfold B. rewrite E1. destruct (Nat.eqb p 0); reflexivity.
        * intros h Hh. apply in_app_iff in Hh as [Hh|[<-|[]]].
          -- destruct (E2 h Hh) as (k & Hk & Hk2). exists k. split; [apply in_or_app; auto | assumption].
          -- exists l. split; [apply in_or_app; right; left; reflexivity|]. split; auto.
      + intros E. destruct (ei_anch _ _ _ I q g E) as (H & E1 & E2). exists H. split; [assumption|].
        intros h Hh. destruct (E2 h Hh) as (k & Hk & Hk2). exists k. split; [apply in_or_app; auto | assumption].
    - intros q g. rewrite HfA. intros E Hq.
      assert (Hq1 : exists g0, fAt m q = Some g0) by (destruct (Nat.eqb_spec p q) as [<-|N]; eauto).
      destruct Hq1 as (g0 & E0). destruct (ei_int _ _ _ I q g0 E0 Hq). split; [apply in_or_app; auto | assumption].
    - assert (Hraw : forall L, sumZ (raw m5) L = sumZ (raw m0) L /\ sumZ (raw m) L = sumZ (raw m0) L).
      { intros L. split; apply sumZ_ext; intros; apply rf_raw; assumption. }
      intros q g v. rewrite HfA. unfold faceSum. rewrite (rf_darts _ _ R5).
      destruct (Nat.eqb_spec p q) as [<-|N].
      + intros E; injection E as <-. cbn [farea nf]. destruct (farea f) as [w|] eqn:Efa; [|discriminate].
        intros E; injection E as <-. rewrite (ei_area _ _ _ I p f w Hf Efa). unfold faceSum. rewrite (rf_darts _ _ R0).
        rewrite (proj1 (Hraw _)), (proj2 (Hraw _)). rewrite (Har l Hlo O HOn HO).
        rewrite <- sumZ_app. apply sumZ_perm. apply NoDup_Permutation.
        * apply NoDup_app_intro; auto; [apply NoDup_filter, nodup_darts|].
          intros x Hx Hx2. apply filter_In in Hx as [Hx Hx3]. apply onFace_eq in Hx3. apply HO in Hx2.
          apply FS in Hx2; auto. congruence.
        * apply NoDup_filter, nodup_darts.
        * intros x. rewrite in_app_iff, HO, !filter_In, !onFace_eq, Hl5. split.
          -- intros [[Hx Hx2]|Hr].
             ++ split; [assumption|]. rewrite Lout; auto. intros Hr. apply FS in Hr; auto. congruence.
             ++ assert (Hx : In x D) by (apply (reach_in _ _ _ HP a); auto). split; auto.
          -- intros [Hx Hx2]. destruct (reach_dec D ph _ HP a x Ha) as [Hr|Hr]; [auto|]. left. rewrite Lout in Hx2 by assumption. auto.
      + intros E1 E2. rewrite (ei_area _ _ _ I q g v E1 E2). unfold faceSum. rewrite (rf_darts _ _ R0), (proj1 (Hraw _)), (proj2 (Hraw _)).
        apply sumZ_perm. apply filter_perm_in; try apply nodup_darts. intros x. rewrite !onFace_eq, Hl5.
        assert (Hql : q <> l) by congruence.
        split; intros [Hx Hx2]; split; auto; (destruct (reach_dec D ph _ HP a x Ha) as [Hr|Hr]; [|rewrite Lout in *; auto]).
        * exfalso. apply FS in Hr; auto. congruence.
        * exfalso. rewrite Lin in Hx2; auto. congruence.
    - exact Hin5.
    - intros v Hv.
      assert (Hv' : In v (verts nl) \/ In v (verts (lk (faces m)))).
      { rewrite <- in_app_iff, <- verts_app. apply verts_in in Hv as (x & y & H1 & H2). apply verts_in. exists x, y. split; [|assumption].
        apply (Permutation_in _ HKn); assumption. }
      destruct Hv' as [Hv'|Hv'].
      + unfold nl in Hv'. destruct (fanchors f) as [|h t] eqn:Efa; [destruct Hv'|]. cbn in Hv'.
        destruct Hv' as [<-|[<-|[]]].
        * destruct (ei_anch _ _ _ I p f Hf) as (H & E1 & E2). rewrite Efa in E1.
          destruct (Nat.eqb_spec p 0) as [Hp0|Hp0].
          -- destruct (E2 h) as (k & Hk & Hk2 & ->); [rewrite <- E1; left; reflexivity|].
             exists k. split; [apply in_or_app; auto|]. split; [assumption | apply conn_refl].
          -- injection E1 as -> _. destruct (ei_int _ _ _ I p f Hf Hp0) as [Hpd Hpp].
             destruct (ext_before dn (l :: td) p EO Hpd Hpp) as (e & He & He2 & Hce).
             exists e. split; [apply in_or_app; auto | auto].
        * exists l. split; [apply in_or_app; right; left; reflexivity|]. split; [assumption | apply conn_refl].
      + destruct (ei_vt _ _ _ I v Hv') as (k & Hk & Hk2). exists k. split; [apply in_or_app; auto | assumption].
    - rewrite Hf5, (sumf_tget _ _ _ _ _ Hf), (ei_cnt _ _ _ I), app_length. cbn [ncont nf fanchors length]. unfold B.
      rewrite app_length. cbn [length]. lia.
    - rewrite Hf5, (sumf_tget _ _ _ _ _ Hf). unfold m5, uninitFace. cbn [faceCount set_faceCount].
      rewrite Em4. cbn [faceCount set_faces]. rewrite (rl_eq _ _ _ _ RL). cbn [faceCount set_edges].
      change (faceCount m2) with (faceCount m). rewrite (ei_fc _ _ _ I). cbn [alive length]. lia.
    - intros q g. rewrite HfA. destruct (Nat.eqb_spec p q) as [<-|N]; [intros E; injection E as <-; cbn; apply (ei_flag _ _ _ I p f Hf) | apply I].
    - rewrite Hf5, (sumf_tget _ _ _ _ _ Hf), (ei_alive _ _ _ I), filter_app, app_length. cbn [filter].
      destruct (Z.ltb_spec 0 (ar l)); [lia|]. cbn [alive length]. lia.
  Qed.

  Lemma embedLoop_EI par : (forall m a, fAt m 0 <> None -> fAt m (par m a) <> None) ->
    forall td m dn, ord = dn ++ td -> EI m dn td ->
    exists m', embedLoop par m (map (fun l => (l, mkFace [an l] (Some (ar l)) 0)) td) = Ok m' /\ EI m' ord [].
  Proof.
    intros Hpar. induction td as [|l td IH]; intros m dn EO I.
    - exists m. split; [reflexivity|]. rewrite app_nil_r in EO. subst; assumption.
    - cbn [map embedLoop fanchors farea fflags]. unfold vget. cbn [nth_error bind].
      assert (EO' : ord = (dn ++ [l]) ++ td) by (rewrite <- app_assoc; assumption).
      destruct (Z.ltb_spec 0 (ar l)) as [Hp|Hp].
      + apply (IH _ _ EO'). apply EI_int; assumption.
      + destruct (EI_ext m dn l td (par m (an l)) EO I Hp) as (m' & -> & I').
        { apply Hpar. destruct (ei_0 _ _ _ I) as (f0 & -> & _). discriminate. }
        cbn [bind]. apply (IH _ _ EO' I').
  Qed.
End Embed.
