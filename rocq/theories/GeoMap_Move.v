(** Node::setPosition: end points of edges follow the node, nothing else changes. *)
From Verif Require Import Base Orbit GraphRank Euler Links FaceInv Conj
  GeoMap_Model GeoMap_Views GeoMap_SInv GeoMap_Remove GeoMap_MergeEdges GeoMap_Loops
  GeoMap_MInv GeoMap_Gone GeoMap_Bridge GeoMap_MergeFaces GeoMap_Area.
Local Open Scope Z_scope.

(** the polygon with its first ([a]) and last ([b]) point moved *)
Definition movedPts (a b : bool) (p : point) (l : list point) : list point :=
  let l := if a then list_upd l 0 p else l in if b then list_upd l (length l - 1) p else l.
Definition movedEdge (a b : bool) (p : point) (e : edge) : edge := set_pts e (movedPts a b p (epts e)).

Record Repos m l p m' : Prop := {
  rp_eq : m' = set_edges (set_nodes m (nodes m')) (edges m');
  rp_nlen : length (nodes m') = length (nodes m);
  rp_elen : length (edges m') = length (edges m);
  rp_node : exists nd, nAt m l = Some nd /\ forall j, nAt m' j = if Nat.eqb l j then Some (mkNode p (nanchor nd)) else nAt m j;
  rp_edge : forall j, eAt m' j = option_map (fun e => movedEdge (Nat.eqb (estart e) l) (Nat.eqb (eend e) l) p e) (eAt m j) }.

Lemma list_upd_twice {A} (l : list A) i j x : list_upd (list_upd l i x) j x = list_upd (list_upd l j x) i x.
Proof. revert i j. induction l as [|a l IH]; intros [|i] [|j]; cbn; f_equal; auto. Qed.
Lemma list_upd_same {A} (l : list A) i x : list_upd (list_upd l i x) i x = list_upd l i x.
Proof. revert i. induction l as [|a l IH]; intros [|i]; cbn; f_equal; auto. Qed.
Lemma movedPts_length a b p l : length (movedPts a b p l) = length l.
Proof. unfold movedPts. destruct a, b; rewrite ?list_upd_length; reflexivity. Qed.
Lemma movedPts_first a b p l : list_upd (movedPts a b p l) 0 p = movedPts true b p l.
Proof.
  unfold movedPts. destruct a, b; rewrite ?list_upd_length; auto.
  - rewrite list_upd_twice, list_upd_same. reflexivity.
  - apply list_upd_same.
  - apply list_upd_twice.
Qed.
Lemma movedPts_last a b p l : list_upd (movedPts a b p l) (length l - 1) p = movedPts a true p l.
Proof.
  unfold movedPts. destruct a, b; rewrite ?list_upd_length; auto; apply list_upd_same.
Qed.
Lemma movedPts_none p l : movedPts false false p l = l.
Proof. reflexivity. Qed.

(** the darts in [P] have been moved *)
Record partly m (P : Z -> bool) p m' : Prop := {
  pt_eq : m' = set_edges m (edges m');
  pt_len : length (edges m') = length (edges m);
  pt_edge : forall j, eAt m' j = option_map (movedEdge (P (Z.of_nat j)) (P (- Z.of_nat j)) p) (eAt m j) }.

Lemma partly_step m P p m1 d e : partly m P p m1 -> d <> 0 -> eAt m (elab d) = Some e -> epts e <> [] ->
  exists m2, moveEnd m1 d p = Ok m2 /\ partly m (fun x => P x || (x =? d)) p m2.
Proof.
  intros H Hd He Hp. pose proof (pt_edge _ _ _ _ H (elab d)) as E. rewrite He in E. cbn [option_map] in E.
  unfold moveEnd. rewrite (deref_edge _ _ _ E). cbn [bind].
  assert (L : length (epts (movedEdge (P (Z.of_nat (elab d))) (P (- Z.of_nat (elab d))) p e)) = length (epts e)) by apply movedPts_length.
  rewrite L. destruct (Nat.eqb_spec (length (epts e)) 0) as [E0|_]; [destruct (epts e); [contradiction | discriminate]|].
  eexists. split; [reflexivity|]. pose proof (tget_lt _ _ _ E) as Hlt. constructor.
  - unfold putE. rewrite (pt_eq _ _ _ _ H). reflexivity.
  - unfold putE. cbn [edges set_edges]. rewrite list_upd_length. apply H.
  - intros j. unfold putE, eAt. cbn [edges set_edges]. rewrite tget_upd. apply Nat.ltb_lt in Hlt. rewrite Hlt.
    destruct (Nat.eqb_spec (elab d) j) as [<-|N].
    + fold (eAt m (elab d)). rewrite He. cbn [option_map]. f_equal. unfold movedEdge, set_pts. cbn. f_equal.
      destruct (Z.ltb_spec 0 d) as [K|K].
      * assert (X : Z.of_nat (elab d) = d) by (unfold elab; lia). rewrite X, movedPts_first, Z.eqb_refl, orb_true_r.
        destruct (Z.eqb_spec (- d) d); [lia|]. rewrite orb_false_r. reflexivity.
      * assert (X : Z.of_nat (elab d) = - d) by (unfold elab; lia). rewrite X, Z.opp_involutive, movedPts_last, Z.eqb_refl, orb_true_r.
        destruct (Z.eqb_spec (- d) d); [lia|]. rewrite orb_false_r. reflexivity.
    + fold (eAt m1 j). rewrite (pt_edge _ _ _ _ H j).
      destruct (Z.eqb_spec (Z.of_nat j) d) as [X|_]; [exfalso; apply N; unfold elab; lia|].
      destruct (Z.eqb_spec (- Z.of_nat j) d) as [X|_]; [exfalso; apply N; unfold elab; lia|]. rewrite !orb_false_r. reflexivity.
Qed.

Lemma partly_ext m P Q p m' : eAt m 0 = None -> (forall x, In x (darts m) -> P x = Q x) -> partly m P p m' -> partly m Q p m'.
Proof.
  intros Z0 H [E L X]. constructor; auto. intros j. rewrite X. destruct (eAt m j) as [e|] eqn:Ej; [|reflexivity]. cbn. f_equal.
  destruct (Nat.eq_dec j 0) as [->|Nz]; [congruence|].
  rewrite (H (Z.of_nat j)), (H (- Z.of_nat j)); [reflexivity | |]; apply in_darts; rewrite ?elab_opp; (split; [lia|]); unfold elab; rewrite Zabs2Nat.id; congruence.
Qed.
Lemma partly_refl m p : partly m (fun _ => false) p m.
Proof.
  constructor; auto; [destruct m; reflexivity|]. intros j. destruct (eAt m j) as [[]|]; reflexivity.
Qed.

Lemma moveLoop_spec m a N p m0 (P : Z -> bool) :
  SI m0 (darts m0) -> In a (darts m0) -> per (sg m0) a N ->
  (forall x e, reach (sg m0) a x -> eAt m0 (elab x) = Some e -> epts e <> []) ->
  forall n k, (0 < n)%nat -> (n + k = N)%nat -> (n <= m)%nat -> forall m1, partly m0 P p m1 -> (forall x, P x = true <-> In x (map (fun i => iter i (sg m0) a) (seq 0 k))) ->
  exists m2, moveLoop m m1 a (iter k (sg m0) a) p = Ok m2 /\ partly m0 (fun x => existsb (Z.eqb x) (orb (sg m0) a N)) p m2.
Proof.
  intros Si Ha HN Hp n. revert m P. induction n as [|n IH]; intros m P k Hn Hk Hm m1 HP Hv; [lia|]. destruct m as [|m]; [lia|].
  set (d := iter k (sg m0) a) in *.
  assert (Hd : In d (darts m0)) by (apply (iter_in _ _ _ (si_perm _ _ Si)); assumption).
  destruct (live_edge m0 d Hd) as (e & He).
  destruct (partly_step m0 P p m1 d e HP (si_nz _ _ Si d Hd) He) as (m2 & E & H2).
  { apply (Hp d); [exists k; reflexivity | assumption]. }
  cbn [moveLoop]. rewrite E. cbn [bind].
  assert (Hg : getS m2 d = Ok (sg m0 d)).
  { rewrite (pt_eq _ _ _ _ H2). apply (getS_Ok m0 d). apply (si_cap _ _ Si); assumption. }
  rewrite Hg. cbn [bind].
  assert (Hv2 : forall x, P x || (x =? d) = true <-> In x (map (fun i => iter i (sg m0) a) (seq 0 (S k)))).
  { intros x. rewrite orb_true_iff, Hv, seq_S, map_app, in_app_iff. cbn [map In Nat.add]. rewrite Z.eqb_eq. fold d. intuition congruence. }
  change (sg m0 d) with (iter (S k) (sg m0) a).
  destruct (Z.eqb_spec (iter (S k) (sg m0) a) a) as [Er|Er].
  - assert (X : S k = N).
    { destruct (Nat.eq_dec (S k) N) as [X|X]; [assumption|]. exfalso. apply (pe_min _ _ _ HN (S k)); [lia | assumption]. }
    eexists. split; [reflexivity|]. destruct H2 as [H2a H2b H2c]. constructor; auto. intros j. rewrite H2c.
    assert (Q : forall x, P x || (x =? d) = existsb (Z.eqb x) (orb (sg m0) a N)).
    { intros x. apply eq_true_iff_eq. rewrite Hv2, existsb_exists. unfold orb. rewrite <- X. split.
      - intros K. exists x. split; [assumption | apply Z.eqb_refl].
      - intros (y & K & Ey). apply Z.eqb_eq in Ey. subst. assumption. }
    rewrite !Q. reflexivity.
  - destruct n as [|n]; [exfalso; apply Er; replace (S k) with N by lia; apply HN|].
    apply (IH m (fun x => P x || (x =? d)) (S k)); auto; lia.
Qed.

Theorem setPosition_spec m l p nd : SInv m -> nAt m l = Some nd ->
  (forall k e, eAt m k = Some e -> estart e = l \/ eend e = l -> epts e <> []) ->
  exists m', setPosition m l p = Ok m' /\ Repos m l p m'.
Proof.
  intros V Hn Hp. unfold setPosition. rewrite (deref_node _ _ _ Hn). cbn [bind]. set (m0 := putN m l (Some (mkNode p (nanchor nd)))).
  pose proof (tget_lt _ _ _ Hn) as Hlt.
  assert (N0 : forall j, nAt m0 j = if Nat.eqb l j then Some (mkNode p (nanchor nd)) else nAt m j).
  { intros j. unfold m0, putN, nAt. cbn [nodes set_nodes]. rewrite tget_upd. apply Nat.ltb_lt in Hlt. rewrite Hlt. reflexivity. }
  assert (L0 : length (nodes m0) = length (nodes m)) by (apply list_upd_length).
  assert (D0 : darts m0 = darts m) by reflexivity.
  assert (S0 : SI m0 (darts m0)).
  { pose proof (sv_si _ V) as S. constructor; try apply S.
    - intros d Hd. rewrite N0. destruct (Nat.eqb l (stt m0 d)); [discriminate | apply (si_node _ _ S d Hd)].
    - intros j n Hj. rewrite N0 in Hj. destruct (Nat.eqb_spec l j) as [<-|_]; [|apply (si_anchor _ _ S j n Hj)].
      injection Hj as <-. apply (si_anchor _ _ S l nd Hn). }
  assert (fin : forall m' (P : Z -> bool), partly m0 P p m' -> (forall x, In x (darts m) -> P x = Nat.eqb (stt m x) l) -> Repos m l p m').
  { intros m' P HP HQ. constructor.
    - rewrite (pt_eq _ _ _ _ HP). reflexivity.
    - rewrite (pt_eq _ _ _ _ HP). exact L0.
    - apply HP.
    - exists nd. split; [assumption|]. intros j. replace (nAt m' j) with (nAt m0 j) by (rewrite (pt_eq _ _ _ _ HP); reflexivity). apply N0.
    - intros j. rewrite (pt_edge _ _ _ _ HP). change (eAt m0 j) with (eAt m j). destruct (eAt m j) as [e|] eqn:Ej; [|reflexivity]. cbn. f_equal.
      destruct (Nat.eq_dec j 0) as [->|Nz]; [rewrite (sv_e0 _ V) in Ej; discriminate|].
      assert (Ex : eAt m (elab (Z.of_nat j)) = Some e) by (rewrite elab_of_nat; assumption).
      rewrite (HQ (Z.of_nat j)), (HQ (- Z.of_nat j)).
      2,3: apply in_darts; rewrite ?elab_opp, Ex; split; [lia | discriminate].
      unfold stt. rewrite elab_opp, Ex. unfold e_st. destruct (Z.ltb_spec 0 (Z.of_nat j)); [|lia]. destruct (Z.ltb_spec 0 (- Z.of_nat j)); [lia|]. reflexivity. }
  destruct (si_anchor _ _ (sv_si _ V) l nd Hn) as [(A0 & B0)|(A0 & B0 & C0)].
  - rewrite A0. eexists. split; [reflexivity|]. apply (fin _ (fun _ => false)); [apply partly_refl|].
    intros x Hx. symmetry. apply Nat.eqb_neq. apply B0. assumption.
  - destruct (Z.eqb_spec (nanchor nd) 0) as [E|_]; [exfalso; apply (si_nz _ _ (sv_si _ V) _ A0 E)|].
    destruct (min_period _ _ _ _ (si_perm _ _ S0) A0) as (N & HN & HL).
    destruct (moveLoop_spec (fuel m0) (nanchor nd) N p m0 (fun _ => false) S0 A0 HN) with (n := N) (k := 0%nat) (m1 := m0) as (m2 & E & H2).
    + intros x e Hr He. change (eAt m0) with (eAt m) in He. apply (Hp _ _ He).
      assert (Hs : stt m x = l /\ In x (darts m)).
      { destruct Hr as (i & <-). clear He. induction i as [|i [IH1 IH2]]; [split; assumption|]. cbn [iter]. split.
        - rewrite <- IH1. apply (si_st _ _ (sv_si _ V)); assumption.
        - apply (si_perm _ _ (sv_si _ V)); assumption. }
      destruct Hs as [Hs Hx]. unfold stt in Hs. rewrite He in Hs. unfold e_st in Hs. destruct (0 <? x); auto.
    + apply HN.
    + lia.
    + pose proof (fuel_darts m0). lia.
    + apply partly_refl.
    + intros x. cbn. intuition discriminate.
    + cbn [iter] in E. exists m2. split; [exact E|]. apply (fin _ _ H2). intros x Hx. apply eq_true_iff_eq. rewrite existsb_exists, Nat.eqb_eq. split.
      * intros (y & Hy & Ey). apply Z.eqb_eq in Ey. subst y. apply (orb_in _ _ _ HN) in Hy. clear Hx.
        assert (stt m x = l /\ In x (darts m)); [|tauto]. destruct Hy as (i & <-). induction i as [|i [IH1 IH2]]; [split; assumption|]. cbn [iter]. split.
        -- rewrite <- IH1. apply (si_st _ _ (sv_si _ V)); assumption.
        -- apply (si_perm _ _ (sv_si _ V)); assumption.
      * intros Hs. exists x. split; [|apply Z.eqb_refl]. apply (orb_in _ _ _ HN). apply C0; assumption.
Qed.

(** ** Invariants *)

Lemma repos_views m l p m' : Repos m l p m' -> darts m' = darts m /\ elabs m' = elabs m /\
  (forall x, stt m' x = stt m x) /\ (forall x, lft m' x = lft m x) /\ faces m' = faces m /\
  sg m' = sg m /\ sgi m' = sgi m /\ cap m' = cap m /\ nodeCount m' = nodeCount m /\ edgeCount m' = edgeCount m /\
  faceCount m' = faceCount m /\ (forall j, option_map nanchor (nAt m' j) = option_map nanchor (nAt m j)).
Proof.
  intros R.
  assert (H : forall l, isLive m' l = isLive m l).
  { intros j. unfold isLive. rewrite (rp_edge _ _ _ _ R j). destruct (eAt m j); reflexivity. }
  assert (EL : elabs m' = elabs m) by (unfold elabs; rewrite (rp_elen _ _ _ _ R), (filter_ext _ _ H); reflexivity).
  split; [unfold darts; rewrite EL; reflexivity|]. split; [assumption|]. split; [|split; [|split; [|split; [|split; [|split; [|split; [|split; [|split]]]]]]]].
  - intros x. unfold stt. rewrite (rp_edge _ _ _ _ R). destruct (eAt m (elab x)); reflexivity.
  - intros x. unfold lft. rewrite (rp_edge _ _ _ _ R). destruct (eAt m (elab x)); reflexivity.
  - rewrite (rp_eq _ _ _ _ R). reflexivity.
  - rewrite (rp_eq _ _ _ _ R). reflexivity.
  - rewrite (rp_eq _ _ _ _ R). reflexivity.
  - rewrite (rp_eq _ _ _ _ R). reflexivity.
  - rewrite (rp_eq _ _ _ _ R). reflexivity.
  - rewrite (rp_eq _ _ _ _ R). reflexivity.
  - rewrite (rp_eq _ _ _ _ R). reflexivity.
  - intros j. destruct (rp_node _ _ _ _ R) as (nd & Hn & K). rewrite K. destruct (Nat.eqb_spec l j) as [<-|_]; [rewrite Hn|]; reflexivity.
Qed.

Lemma repos_alive m l p m' : Repos m l p m' -> sumf alive (edges m') = sumf alive (edges m).
Proof.
  intros R. apply sumf_tgets; [reflexivity | apply R|]. intros j. pose proof (rp_edge _ _ _ _ R j) as K. unfold eAt in K. rewrite K.
  destruct (tget (edges m) j); reflexivity.
Qed.
Lemma repos_aliveN m l p m' : Repos m l p m' -> sumf alive (nodes m') = sumf alive (nodes m).
Proof.
  intros R. destruct (repos_views m l p m' R) as (_ & _ & _ & _ & _ & _ & _ & _ & _ & _ & _ & K).
  apply sumf_tgets; [reflexivity | apply R|]. intros j. specialize (K j). unfold nAt in K. destruct (tget (nodes m) j), (tget (nodes m') j); try discriminate; reflexivity.
Qed.
Lemma repos_busy m l p m' : Repos m l p m' -> sumf busy (nodes m') = sumf busy (nodes m).
Proof.
  intros R. destruct (repos_views m l p m' R) as (_ & _ & _ & _ & _ & _ & _ & _ & _ & _ & _ & K).
  apply sumf_tgets; [reflexivity | apply R|]. intros j. specialize (K j). unfold nAt in K. destruct (tget (nodes m) j) as [n|], (tget (nodes m') j) as [n'|]; try discriminate; [|reflexivity].
  cbn in K. injection K as K. cbn. rewrite K. reflexivity.
Qed.

Lemma repos_SInv m l p m' : Repos m l p m' -> SInv m -> SInv m'.
Proof.
  intros R V. destruct (repos_views m l p m' R) as (ED & EL & Es & El & Ef & Eg & Egi & Ec & Enc & Eec & Efc & En).
  pose proof (sv_si _ V) as Si. constructor.
  - rewrite ED. constructor.
    + rewrite Eg, Egi. apply Si.
    + intros d Hd. pose proof (si_live _ _ Si d Hd) as K. rewrite (rp_edge _ _ _ _ R). destruct (eAt m (elab d)); [discriminate | contradiction].
    + apply Si.
    + rewrite Ec. apply Si.
    + intros d Hd. rewrite Eg, !Es. apply Si; assumption.
    + intros d Hd. rewrite Es. pose proof (si_node _ _ Si d Hd) as K. specialize (En (stt m d)). destruct (nAt m (stt m d)); [|contradiction]. destruct (nAt m' (stt m d)); discriminate.
    + intros j n Hn. specialize (En j). rewrite Hn in En. destruct (nAt m j) as [n0|] eqn:E0; [|discriminate]. cbn in En. injection En as En. rewrite Eg, En.
      destruct (si_anchor _ _ Si j n0 E0) as [(A & B)|(A & B & C)].
      * left. split; [assumption|]. intros d Hd. rewrite Es. auto.
      * right. split; [assumption|]. rewrite Es. split; [assumption|]. intros d Hd. rewrite Es. auto.
  - rewrite (rp_edge _ _ _ _ R), (sv_e0 _ V). reflexivity.
  - rewrite Ec; apply V.
  - rewrite (rp_elen _ _ _ _ R), Ec; apply V.
  - rewrite Enc, (repos_aliveN m l p m' R); apply V.
  - rewrite Eec, (repos_alive m l p m' R); apply V.
  - rewrite Efc, Ef; apply V.
Qed.

Lemma repos_FI m l p m' : Repos m l p m' -> FIm m -> FIm m'.
Proof.
  intros R F. destruct (repos_views m l p m' R) as (ED & _ & _ & El & Ef & _ & Egi & _). unfold FIm. rewrite ED.
  assert (Ep : forall x, phi m' x = phi m x) by (intros; unfold phi; rewrite Egi; reflexivity).
  assert (EA : forall l, fanch m' l = fanch m l) by (intros; unfold fanch, fAt; rewrite Ef; reflexivity).
  assert (ER : forall x y, reach (phi m') x y <-> reach (phi m) x y).
  { intros x y. split; apply (reach_ext _ _ (fun _ => True)); auto. }
  constructor.
  - intros d Hd. destruct (fi_cover _ _ _ _ F d Hd) as (j & A & a & H1 & H2 & H3 & H4).
    exists j, A, a. rewrite El, EA, ER. auto.
  - intros j A a HA Ha. rewrite El. rewrite EA in HA. apply (fi_anchor _ _ _ _ F j A a HA Ha).
  - intros d Hd. rewrite !El, Ep. apply (fi_phi _ _ _ _ F d Hd).
  - intros j A HA. rewrite EA in HA. apply (fi_nodup _ _ _ _ F j A HA).
  - intros j A a b HA Ha Hb Hr. rewrite EA in HA. apply ER in Hr.
    apply (fi_sep _ _ _ _ F j A a b HA Ha Hb Hr).
Qed.

Lemma repos_MInv m l p m' : Repos m l p m' -> MInv m -> MInv m'.
Proof.
  intros R M. destruct (repos_views m l p m' R) as (ED & EL & Es & El & Ef & _).
  assert (EG : Gm m' = Gm m) by (unfold Gm, pairs; rewrite EL; apply map_ext; intros; rewrite !Es; reflexivity).
  pose proof (repos_alive m l p m' R) as EA. pose proof (repos_busy m l p m' R) as EB.
  constructor.
  - apply (repos_SInv m l p); [assumption | apply M].
  - apply (repos_FI m l p); [assumption | apply M].
  - unfold fAt. rewrite Ef. apply M.
  - rewrite EG, Ef, EB, EA. apply M.
  - rewrite EG. replace (links m') with (links m); [apply (mi_in _ M)|].
    unfold links. rewrite Ef. unfold tmap. apply flat_map_ext. intros [f|]; [|reflexivity]. f_equal. apply map_ext. intros; symmetry; apply Es.
  - rewrite EG, EA, Ef. apply M.
Qed.
