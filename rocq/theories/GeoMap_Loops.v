(** The loops that walk along a contour: they terminate within their fuel and
    visit exactly the darts of the contour. *)
From Verif Require Import Base Orbit Conj FaceInv GeoMap_Model GeoMap_Views GeoMap_SInv GeoMap_Remove
  GeoMap_MergeEdges.
Local Open Scope Z_scope.

Record per (f : Z -> Z) (x : Z) (N : nat) : Prop := {
  pe_pos : (0 < N)%nat;
  pe_ret : iter N f x = x;
  pe_min : forall i, (0 < i < N)%nat -> iter i f x <> x }.

Lemma min_period D f g x : perm_on D f g -> In x D -> exists N, per f x N /\ (N <= length D)%nat.
Proof.
  intros HP Hx. destruct (period D f g HP x Hx) as (n & Hn & Hr).
  assert (Hs : forall k, (exists i, (0 < i <= k)%nat /\ iter i f x = x /\ forall j, (0 < j < i)%nat -> iter j f x <> x)
              \/ forall i, (0 < i <= k)%nat -> iter i f x <> x).
  { induction k as [|k [(i & Hi & H1 & H2)|IH]].
    - right; intros; lia.
    - left; exists i; split; [lia | auto].
    - destruct (Z.eq_dec (iter (S k) f x) x) as [E|E].
      + left; exists (S k); split; [lia|]. split; [assumption|]. intros j Hj; apply IH; lia.
      + right; intros i Hi. destruct (Nat.eq_dec i (S k)) as [->|]; [assumption | apply IH; lia]. }
  destruct (Hs n) as [(i & Hi & H1 & H2)|H]; [|exfalso; apply (H n); auto; lia].
  exists i; split; [constructor; auto; lia | lia].
Qed.

Section Per.
  Variables (D : list Z) (f g : Z -> Z) (x : Z) (N : nat).
  Hypothesis HP : perm_on D f g.
  Hypothesis Hx : In x D.
  Hypothesis HN : per f x N.

  Lemma per_inj i j : (i < N)%nat -> (j < N)%nat -> iter i f x = iter j f x -> i = j.
  Proof.
    assert (Hlt : forall i j, (i < j < N)%nat -> iter i f x <> iter j f x).
    { intros i0 j0 Hij E. apply (pe_min _ _ _ HN (j0 - i0)); [lia|].
      symmetry. apply (iter_inj D f g HP i0); auto; [apply (iter_in D f g HP); assumption|].
      rewrite <- iter_add. replace (i0 + (j0 - i0))%nat with j0 by lia. assumption. }
    intros Hi Hj E. destruct (lt_eq_lt_dec i j) as [[H|H]|H]; auto; exfalso.
    - apply (Hlt i j); auto.
    - apply (Hlt j i); auto.
  Qed.

  Lemma per_reach y : reach f x y <-> exists i, (i < N)%nat /\ iter i f x = y.
  Proof.
    split; [|intros (i & _ & H); exists i; assumption].
    revert y. apply reach_ind_r.
    - exists 0%nat; split; [apply HN | reflexivity].
    - intros y _ (i & Hi & E). destruct (Nat.eq_dec (S i) N) as [En|En].
      + exists 0%nat; split; [apply HN|]. simpl. rewrite <- E.
        change (x = iter (S i) f x). rewrite En. symmetry; apply HN.
      + exists (S i); split; [lia|]. simpl; rewrite E; reflexivity.
  Qed.

  (** the contour as a list, from the dart after [x] round to [x] *)
  Definition orb : list Z := map (fun i => iter i f x) (seq 0 N).
  Lemma orb_in y : In y orb <-> reach f x y.
  Proof.
    unfold orb. rewrite in_map_iff, per_reach. split.
    - intros (i & E & Hi). apply in_seq in Hi. exists i; split; [lia | assumption].
    - intros (i & Hi & E). exists i; split; [assumption | apply in_seq; lia].
  Qed.
  Lemma orb_nodup : NoDup orb.
  Proof.
    unfold orb. assert (H : forall l, (forall i, In i l -> (i < N)%nat) -> NoDup l -> NoDup (map (fun i => iter i f x) l)).
    { intros l Hl Hnd. induction Hnd as [|a l Hni Hnd IH]; simpl; constructor.
      - intros Hi. apply in_map_iff in Hi as (j & E & Hj). apply per_inj in E; [subst; contradiction | |]; apply Hl; simpl; auto.
      - apply IH. intros; apply Hl; right; assumption. }
    apply H; [|apply seq_NoDup]. intros i Hi; apply in_seq in Hi; lia.
  Qed.
End Per.

Lemma fuel_darts m : (length (darts m) + 1 <= fuel m)%nat.
Proof. unfold fuel. rewrite length_darts. pose proof (length_elabs m). lia. Qed.

Lemma nextPhi_Ok m d : SI m (darts m) -> In d (darts m) -> nextPhi m d = Ok (phi m d).
Proof.
  intros S Hd. unfold nextPhi. apply getSi_Ok. rewrite Z.abs_opp. apply (si_cap _ _ S); assumption.
Qed.

(** ** findComponentAnchor *)

Lemma orbitHas_spec m a d N : SI m (darts m) -> In a (darts m) -> per (phi m) a N ->
  forall n k, (k < N)%nat -> (N - k <= n)%nat ->
  exists b, orbitHas n m a d (iter k (phi m) a) = Ok b /\
    (b = true <-> exists i, (k < i < N)%nat /\ iter i (phi m) a = d).
Proof.
  intros S Ha HN. pose proof (phi_perm m S) as HP.
  induction n as [|n IH]; intros k Hk Hn; [lia|].
  cbn [orbitHas].
  assert (Hin : In (iter k (phi m) a) (darts m)) by (apply (iter_in _ _ _ HP); assumption).
  rewrite (nextPhi_Ok m _ S Hin). cbn [bind].
  change (phi m (iter k (phi m) a)) with (iter (Datatypes.S k) (phi m) a).
  destruct (Nat.eq_dec (Datatypes.S k) N) as [E|E].
  - rewrite E, (pe_ret _ _ _ HN), Z.eqb_refl. exists false. split; [reflexivity|].
    split; [discriminate | intros (i & Hi & _); lia].
  - destruct (Z.eqb_spec (iter (Datatypes.S k) (phi m) a) a) as [K|K].
    { exfalso. apply (pe_min _ _ _ HN (Datatypes.S k)); [lia | assumption]. }
    destruct (Z.eqb_spec (iter (Datatypes.S k) (phi m) a) d) as [K'|K'].
    + exists true. split; [reflexivity|]. split; auto. intros _. exists (Datatypes.S k). split; [lia | assumption].
    + destruct (IH (Datatypes.S k)) as (b & R & Hb); [lia | lia|].
      exists b; split; [exact R|]. rewrite Hb. split; intros (i & Hi & Ei).
      * exists i; split; [lia | assumption].
      * exists i; split; [|assumption]. destruct (Nat.eq_dec i (Datatypes.S k)) as [->|]; [contradiction | lia].
Qed.

Lemma orbitHas_reach m a d : SI m (darts m) -> In a (darts m) -> a <> d ->
  exists b, orbitHas (fuel m) m a d a = Ok b /\ (b = true <-> reach (phi m) a d).
Proof.
  intros S Ha Hne. pose proof (phi_perm m S) as HP.
  destruct (min_period _ _ _ a HP Ha) as (N & HN & HL).
  destruct (orbitHas_spec m a d N S Ha HN (fuel m) 0) as (b & R & Hb).
  - apply HN.
  - pose proof (fuel_darts m); lia.
  - exists b. split; [exact R|]. rewrite Hb, (per_reach (phi m) a N HN). split.
    + intros (i & Hi & E); exists i; split; [lia | assumption].
    + intros (i & Hi & E). exists i; split; [|assumption]. destruct i; [|lia]. simpl in E. contradiction.
Qed.

Lemma findEq_spec l d k : match findEq l d k with
  | Some i => (k <= i)%nat /\ nth_error l (i - k) = Some d
  | None => ~ In d l
  end.
Proof.
  revert k. induction l as [|a t IH]; intros k; simpl; [auto|].
  destruct (Z.eqb_spec a d) as [->|N].
  - split; [lia|]. rewrite Nat.sub_diag. reflexivity.
  - specialize (IH (S k)). destruct (findEq t d (S k)) as [i|].
    + destruct IH as [A B]. split; [lia|]. replace (i - k)%nat with (S (i - S k)) by lia. exact B.
    + intros [H|H]; auto.
Qed.

Lemma findOrbit_spec m l d k : SI m (darts m) -> (forall a, In a l -> In a (darts m) /\ a <> d) ->
  (exists a, In a l /\ reach (phi m) a d) ->
  exists i a, findOrbit m l d k = Ok (i + k)%nat /\ nth_error l i = Some a /\ reach (phi m) a d.
Proof.
  intros S. revert k. induction l as [|a t IH]; intros k Hl (c & Hc & Hr); [destruct Hc|].
  cbn [findOrbit]. destruct (Hl a (or_introl eq_refl)) as [Ha Hne].
  destruct (orbitHas_reach m a d S Ha Hne) as (b & -> & Hb). cbn [bind].
  destruct b.
  - exists 0%nat, a. split; [reflexivity|]. split; [reflexivity | apply Hb; reflexivity].
  - destruct (IH (Datatypes.S k)) as (i & a' & R & Hi & Hr').
    + intros; apply Hl; right; assumption.
    + destruct Hc as [->|Hc]; [|exists c; auto]. apply Hb in Hr; discriminate.
    + exists (Datatypes.S i), a'. split; [rewrite R; f_equal; lia | auto].
Qed.

Lemma findComponentAnchor_spec m l d : SI m (darts m) -> (forall a, In a l -> In a (darts m)) ->
  (exists a, In a l /\ reach (phi m) a d) ->
  exists i a, findComponentAnchor m l d = Ok i /\ nth_error l i = Some a /\ reach (phi m) a d.
Proof.
  intros S Hl Hex. unfold findComponentAnchor. pose proof (findEq_spec l d 0) as H.
  destruct (findEq l d 0) as [i|].
  - destruct H as [_ H]. rewrite Nat.sub_0_r in H. exists i, d. repeat split; auto. apply reach_refl.
  - destruct (findOrbit_spec m l d 0 S) as (i & a & R & Hi & Hr); auto.
    { intros a Ha; split; auto. intros ->; contradiction. }
    exists i, a. rewrite Nat.add_0_r in R. auto.
Qed.

(** ** contourArea *)

Definition dwt m d : Z :=
  match eAt m (elab d) with
  | Some e => if isBridge e then 0 else dartArea e d
  | None => 0
  end.

Fixpoint sumZ (f : Z -> Z) (l : list Z) : Z := match l with [] => 0 | x :: t => f x + sumZ f t end.
Lemma sumZ_app f l t : sumZ f (l ++ t) = sumZ f l + sumZ f t.
Proof. induction l; simpl; lia. Qed.
Lemma sumZ_perm f l t : Permutation l t -> sumZ f l = sumZ f t.
Proof. induction 1; simpl; lia. Qed.
Lemma sumZ_ext f g l : (forall x, In x l -> f x = g x) -> sumZ f l = sumZ g l.
Proof. induction l; simpl; intros H; auto. rewrite H, IHl; auto. Qed.

Lemma phiD_perm m D : SI m D -> (forall x, In x D -> In (- x) D) ->
  perm_on D (phi m) (fun x => - sg m x).
Proof.
  intros S Ho x Hx. unfold phi.
  destruct (si_perm _ _ S (- x) (Ho x Hx)) as (A & B & C & E).
  destruct (si_perm _ _ S x Hx) as (A' & B' & C' & E').
  repeat split; auto.
  - rewrite E. lia.
  - rewrite Z.opp_involutive. assumption.
Qed.

Lemma contourAreaLoop_spec m D a N : SI m D -> (forall x, In x D -> In (- x) D) -> In a D -> per (phi m) a N ->
  forall n k acc, (k < N)%nat -> (N - k <= n)%nat ->
  contourAreaLoop n m a (iter k (phi m) a) acc =
    Ok (acc + sumZ (dwt m) (map (fun i => iter i (phi m) a) (seq k (N - k)))).
Proof.
  intros S Ho Ha HN. pose proof (phiD_perm m D S Ho) as HP.
  induction n as [|n IH]; intros k acc Hk Hn; [lia|].
  cbn [contourAreaLoop].
  assert (Hin : In (iter k (phi m) a) D) by (apply (iter_in _ _ _ HP); assumption).
  destruct (eAt m (elab (iter k (phi m) a))) as [e|] eqn:He; [|exfalso; apply (si_live _ _ S _ Hin); assumption].
  rewrite (gEdge_Ok _ _ _ He). cbn [bind].
  assert (HnP : nextPhi m (iter k (phi m) a) = Ok (phi m (iter k (phi m) a))).
  { unfold nextPhi. apply getSi_Ok. rewrite Z.abs_opp. apply (si_cap _ _ S); assumption. }
  rewrite HnP. cbn [bind].
  change (phi m (iter k (phi m) a)) with (iter (Datatypes.S k) (phi m) a).
  assert (Hacc : (if isBridge e then acc else acc + dartArea e (iter k (phi m) a)) = acc + dwt m (iter k (phi m) a)).
  { unfold dwt; rewrite He. destruct (isBridge e); lia. }
  rewrite Hacc.
  replace (N - k)%nat with (Datatypes.S (N - Datatypes.S k)) by lia. cbn [seq map sumZ].
  destruct (Nat.eq_dec (Datatypes.S k) N) as [E|E].
  - rewrite E, (pe_ret _ _ _ HN), Z.eqb_refl, Nat.sub_diag. cbn [seq map sumZ]. f_equal; lia.
  - destruct (Z.eqb_spec (iter (Datatypes.S k) (phi m) a) a) as [K|K].
    { exfalso. apply (pe_min _ _ _ HN (Datatypes.S k)); [lia | assumption]. }
    rewrite IH by lia. f_equal; lia.
Qed.

(** The area of a contour is the sum over its darts, each taken once. *)
Lemma contourAreaD_spec m D a : SI m D -> (forall x, In x D -> In (- x) D) ->
  (length D + 1 <= fuel m)%nat -> In a D ->
  exists L, NoDup L /\ (forall y, In y L <-> reach (phi m) a y) /\
    contourArea m a = Ok (sumZ (dwt m) L).
Proof.
  intros S Ho Hf Ha. pose proof (phiD_perm m D S Ho) as HP.
  destruct (min_period _ _ _ a HP Ha) as (N & HN & HL).
  exists (orb (phi m) a N). split; [apply (orb_nodup D (phi m) _ a N HP Ha HN)|].
  split; [intros y; apply orb_in; assumption|].
  unfold contourArea. change a with (iter 0 (phi m) a) at 2.
  rewrite (contourAreaLoop_spec m D a N S Ho Ha HN); [|apply HN | lia].
  rewrite Nat.sub_0_r. reflexivity.
Qed.

Lemma contourArea_spec m a : SI m (darts m) -> In a (darts m) ->
  exists L, NoDup L /\ (forall y, In y L <-> reach (phi m) a y) /\
    contourArea m a = Ok (sumZ (dwt m) L).
Proof.
  intros S Ha. apply (contourAreaD_spec m (darts m)); auto; [intros; apply darts_opp; assumption | apply fuel_darts].
Qed.

Lemma sumAreas_spec m l : SI m (darts m) -> (forall a, In a l -> In a (darts m)) ->
  exists v, sumAreas m l = Ok v.
Proof.
  intros S. induction l as [|a t IH]; intros Hl; simpl; [eexists; reflexivity|].
  destruct (contourArea_spec m a S (Hl a (or_introl eq_refl))) as (L & _ & _ & ->). cbn [bind].
  destruct IH as (v & ->); [intros; apply Hl; right; assumption|]. cbn [bind]. eexists; reflexivity.
Qed.

(** ** Relabelling contours *)

(** [m'] is [m] with some darts' face labels changed *)
Record relab m (P : Z -> Prop) s m' : Prop := {
  rl_eq : m' = set_edges m (edges m');
  rl_len : length (edges m') = length (edges m);
  rl_edge : forall j, match eAt m j, eAt m' j with
      | None, None => True
      | Some e, Some e' => estart e' = estart e /\ eend e' = eend e /\ epts e' = epts e /\ eflags e' = eflags e
      | _, _ => False
      end;
  rl_in : forall x, In x (darts m) -> P x -> lft m' x = Some s;
  rl_out : forall x, In x (darts m) -> ~ P x -> lft m' x = lft m x }.

Lemma rl_darts m P s m' : relab m P s m' -> darts m' = darts m.
Proof.
  intros R. unfold darts, elabs. rewrite (rl_len _ _ _ _ R).
  assert (H : forall l, isLive m' l = isLive m l).
  { intros l. unfold isLive. pose proof (rl_edge _ _ _ _ R l) as K.
    destruct (eAt m l), (eAt m' l); try reflexivity; contradiction. }
  rewrite (filter_ext _ _ H). reflexivity.
Qed.
Lemma rl_stt m P s m' x : relab m P s m' -> stt m' x = stt m x.
Proof.
  intros R. unfold stt. pose proof (rl_edge _ _ _ _ R (elab x)) as K.
  destruct (eAt m (elab x)), (eAt m' (elab x)); try contradiction; auto.
  destruct K as (A & B & _). unfold e_st. rewrite A, B; reflexivity.
Qed.

Lemma set_lf_views e d v : e_lf (set_lf e d v) d = v.
Proof. unfold set_lf, e_lf. destruct (0 <? d); reflexivity. Qed.
Lemma set_lf_opp e d v : d <> 0 -> e_lf (set_lf e d v) (- d) = e_lf e (- d).
Proof. intros H. unfold set_lf, e_lf. destruct (Z.ltb_spec 0 d), (Z.ltb_spec 0 (- d)); try lia; reflexivity. Qed.

Lemma set_lf_rec e d v : let e' := set_lf e d v in
  estart e' = estart e /\ eend e' = eend e /\ epts e' = epts e /\ eflags e' = eflags e.
Proof. unfold set_lf; destruct (0 <? d); cbn; auto. Qed.

Lemma relab_step m P s m' d e :
  (forall x, In x (darts m) -> x <> 0) ->
  relab m P s m' -> In d (darts m) -> eAt m' (elab d) = Some e ->
  relab m (fun x => P x \/ x = d) s (putE m' (elab d) (Some (set_lf e d (Some s)))).
Proof.
  intros Hnz R Hd He.
  assert (Hd0 : d <> 0) by auto.
  assert (HE : forall j, eAt (putE m' (elab d) (Some (set_lf e d (Some s)))) j =
      if Nat.eqb (elab d) j then Some (set_lf e d (Some s)) else eAt m' j).
  { intros j. unfold eAt, putE; cbn [edges set_edges]. rewrite tget_upd.
    pose proof (tget_lt _ _ _ He) as L. apply Nat.ltb_lt in L; rewrite L; reflexivity. }
  constructor.
  - rewrite (rl_eq _ _ _ _ R) at 1. reflexivity.
  - unfold putE; cbn [edges set_edges]. rewrite list_upd_length. apply R.
  - intros j. rewrite HE. pose proof (rl_edge _ _ _ _ R j) as K.
    destruct (Nat.eqb_spec (elab d) j) as [<-|]; [|exact K].
    rewrite He in K. destruct (eAt m (elab d)) as [e0|]; [|contradiction].
    destruct K as (A & B & C & E). destruct (set_lf_rec e d (Some s)) as (A' & B' & C' & E'). 
    repeat split; congruence.
  - intros x Hx HP. unfold lft. rewrite HE.
    destruct (Nat.eqb_spec (elab d) (elab x)) as [E|E].
    + symmetry in E. apply elab_eq in E as [->| ->].
      * apply set_lf_views.
      * rewrite set_lf_opp by assumption. destruct HP as [HP|HP]; [|lia].
        pose proof (rl_in _ _ _ _ R (- d) Hx HP) as K. unfold lft in K. rewrite elab_opp, He in K. exact K.
    + destruct HP as [HP| ->]; [|congruence]. apply (rl_in _ _ _ _ R x Hx HP).
  - intros x Hx HP. unfold lft at 1. rewrite HE.
    destruct (Nat.eqb_spec (elab d) (elab x)) as [E|E].
    + symmetry in E. apply elab_eq in E as [->| ->]; [exfalso; apply HP; auto|].
      rewrite set_lf_opp by assumption.
      rewrite <- (rl_out _ _ _ _ R (- d) Hx) by auto. unfold lft. rewrite elab_opp, He. reflexivity.
    + apply (rl_out _ _ _ _ R x Hx). auto.
Qed.

Lemma relab_ext m P Q s m' : (forall x, In x (darts m) -> (P x <-> Q x)) -> relab m P s m' -> relab m Q s m'.
Proof.
  intros H R. constructor; try apply R.
  - intros x Hx HQ. apply R; [assumption | apply H; assumption].
  - intros x Hx HQ. apply R; [assumption|]. intros HP; apply HQ, H; assumption.
Qed.

Lemma relab_refl m s : relab m (fun _ => False) s m.
Proof.
  constructor; auto; try tauto.
  - destruct m; reflexivity.
  - intros j; destruct (eAt m j); auto.
Qed.

Lemma relabelLoop_spec m a N s m0 (P : Z -> Prop) :
  SI m (darts m) -> In a (darts m) -> per (phi m) a N ->
  (forall y, reach (phi m) a y -> lft m y <> Some s) ->
  (forall y, reach (phi m) a y -> ~ P y) ->
  forall n k m1, (k <= N)%nat -> (N - k < n)%nat ->
  relab m (fun x => P x \/ exists i, (0 < i <= k)%nat /\ iter i (phi m) a = x) s m1 ->
  m0 = m ->
  exists m', relabelLoop n m1 (iter k (phi m) a) s = Ok m' /\
    relab m (fun x => P x \/ reach (phi m) a x) s m'.
Proof.
  intros S Ha HN Hnl HnP. pose proof (phi_perm m S) as HP.
  induction n as [|n IH]; intros k m1 Hk Hn R Em; [lia|].
  cbn [relabelLoop].
  assert (Hin : In (iter k (phi m) a) (darts m)) by (apply (iter_in _ _ _ HP); assumption).
  assert (Hnp : nextPhi m1 (iter k (phi m) a) = Ok (iter (Datatypes.S k) (phi m) a)).
  { rewrite (rl_eq _ _ _ _ R). change (nextPhi m (iter k (phi m) a) = Ok (iter (Datatypes.S k) (phi m) a)).
    apply (nextPhi_Ok m _ S Hin). }
  rewrite Hnp. cbn [bind].
  set (x := iter (Datatypes.S k) (phi m) a) in *.
  assert (Hx : In x (darts m)) by (apply (iter_in _ _ _ HP); assumption).
  assert (Hx1 : In x (darts m1)) by (rewrite (rl_darts _ _ _ _ R); assumption).
  destruct (live_edge m1 x Hx1) as (e & He). rewrite (gEdge_Ok _ _ _ He). cbn [bind].
  assert (Elf : e_lf e x = lft m1 x) by (unfold lft; rewrite He; reflexivity). rewrite Elf.
  destruct (Nat.eq_dec k N) as [->|HkN].
  - (* wrapped around *)
    assert (Ex : x = iter 1 (phi m) a).
    { unfold x. change (phi m (iter N (phi m) a) = phi m a). rewrite (pe_ret _ _ _ HN). reflexivity. }
    rewrite (rl_in _ _ _ _ R x Hx).
    + simpl. rewrite Nat.eqb_refl. exists m1. split; [reflexivity|].
      apply (relab_ext m _ _ s m1) with (2 := R). intros y Hy.
      rewrite (per_reach (phi m) a N HN). split; (intros [K|(i & Hi & E)]; [left; exact K|right]).
      * destruct (Nat.eq_dec i N) as [->|]; [|exists i; split; [lia | assumption]].
        exists 0%nat; split; [apply HN|]. rewrite (pe_ret _ _ _ HN) in E. exact E.
      * destruct i; [|exists (Datatypes.S i); split; [lia | assumption]].
        exists N. split; [pose proof (pe_pos _ _ _ HN); lia|]. rewrite (pe_ret _ _ _ HN). exact E.
    + right; exists 1%nat; split; [pose proof (pe_pos _ _ _ HN); lia | auto].
  - assert (Hno : ~ (P x \/ exists i, (0 < i <= k)%nat /\ iter i (phi m) a = x)).
    { intros [K|(i & Hi & E)].
      - apply (HnP x); [|assumption]. exists (Datatypes.S k); reflexivity.
      - destruct (Nat.eq_dec (Datatypes.S k) N) as [E1|E1].
        + unfold x in E. rewrite E1, (pe_ret _ _ _ HN) in E.
          apply (pe_min _ _ _ HN i); [lia | assumption].
        + apply (per_inj (darts m) (phi m) _ a N HP Ha HN i (Datatypes.S k)) in E; lia. }
    rewrite (rl_out _ _ _ _ R x Hx Hno).
    assert (Hnx : optnat_eqb (lft m x) (Some s) = false).
    { assert (K : lft m x <> Some s) by (apply Hnl; exists (Datatypes.S k); reflexivity).
      destruct (lft m x) as [q|]; [|reflexivity]. simpl. apply Nat.eqb_neq. congruence. }
    rewrite Hnx.
    destruct (IH (Datatypes.S k) (putE m1 (elab x) (Some (set_lf e x (Some s))))) as (m' & R' & RL); auto; try lia.
    + apply (relab_ext m (fun y => (P y \/ exists i, (0 < i <= k)%nat /\ iter i (phi m) a = y) \/ y = x)).
      * intros y Hy. split.
        -- intros [[K|(i & Hi & E)]| ->]; [left; exact K | right; exists i; split; [lia | assumption] |].
           right; exists (Datatypes.S k); split; [lia | reflexivity].
        -- intros [K|(i & Hi & E)]; [left; left; exact K|].
           destruct (Nat.eq_dec i (Datatypes.S k)) as [->|]; [right; symmetry; exact E|].
           left; right; exists i; split; [lia | assumption].
      * apply relab_step; auto. apply (si_nz _ _ S).
    + exists m'. split; [exact R' | exact RL].
Qed.

Lemma relabelAll_spec m s l : SI m (darts m) -> NoDup l ->
  (forall a, In a l -> In a (darts m)) ->
  (forall a b, In a l -> In b l -> reach (phi m) a b -> a = b) ->
  (forall a y, In a l -> reach (phi m) a y -> lft m y <> Some s) ->
  exists m', relabelAll m l s = Ok m' /\ relab m (fun x => exists a, In a l /\ reach (phi m) a x) s m'.
Proof.
  intros S Hnd Hl Hsep Hnl.
  pose proof (phi_perm m S) as HP.
  assert (Hgen : forall t done m1, l = done ++ t ->
     relab m (fun x => exists a, In a done /\ reach (phi m) a x) s m1 ->
     exists m', relabelAll m1 t s = Ok m' /\ relab m (fun x => exists a, In a l /\ reach (phi m) a x) s m').
  { induction t as [|a t IH]; intros done m1 El R.
    - exists m1. rewrite app_nil_r in El; subst done. auto.
    - cbn [relabelAll].
      assert (Ha : In a l) by (rewrite El; apply in_or_app; right; left; reflexivity).
      destruct (min_period _ _ _ a HP (Hl a Ha)) as (N & HN & HL).
      assert (Hfu : fuel m1 = fuel m) by (unfold fuel; rewrite (rl_len _ _ _ _ R); reflexivity).
      destruct (relabelLoop_spec m a N s m (fun x => exists b, In b done /\ reach (phi m) b x) S (Hl a Ha) HN) with
        (n := fuel m1) (k := 0%nat) (m1 := m1) as (m2 & R2 & RL2); auto.
      + intros y Hy; eapply Hnl; eassumption.
      + intros y Hy (b & Hb & Hby).
        assert (Hbl : In b l) by (rewrite El; apply in_or_app; left; assumption).
        assert (a = b).
        { apply Hsep; auto. apply (reach_trans _ _ y); auto. apply (reach_sym _ _ _ HP); auto. }
        subst b. rewrite El in Hnd. apply NoDup_remove_2 in Hnd. apply Hnd, in_or_app; auto.
      + lia.
      + rewrite Hfu. pose proof (fuel_darts m). lia.
      + apply (relab_ext m (fun x => exists b, In b done /\ reach (phi m) b x)); auto.
        intros x Hx. split; [auto|]. intros [K|(i & Hi & _)]; [exact K | lia].
      + cbn [iter] in R2. rewrite R2. cbn [bind].
        apply (IH (done ++ [a]) m2).
        * rewrite El, <- app_assoc. reflexivity.
        * apply (relab_ext m (fun x => (exists b, In b done /\ reach (phi m) b x) \/ reach (phi m) a x)); auto.
          intros x Hx. split.
          -- intros [(b & Hb & K)|K]; [exists b | exists a]; split; auto; apply in_or_app; simpl; auto.
          -- intros (b & Hb & K). apply in_app_or in Hb as [Hb|[<-|[]]]; [left; exists b; auto | right; assumption]. }
  apply (Hgen l [] m eq_refl).
  apply (relab_ext m (fun _ => False)); [|apply relab_refl].
  intros x _. split; [tauto | intros (b & [] & _)].
Qed.
