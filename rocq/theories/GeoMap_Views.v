(** Views of the GeoMap state and the rotation invariant (proof side).

    [eAt] / [nAt] / [fAt] read the cell tables, [stt] is the start node of a dart,
    [lft] its left face, [darts m] lists the darts of all live edges.  [SI m D]
    says that sigma is a permutation of [D] compatible with start nodes and
    node anchors. *)
From Verif Require Import Base Orbit GeoMap_Model.
Local Open Scope Z_scope.

Definition tget {A} (l : list (option A)) (i : nat) : option A :=
  match nth_error l i with Some o => o | None => None end.
Definition eAt m l := tget (edges m) l.
Definition nAt m l := tget (nodes m) l.
Definition fAt m l := tget (faces m) l.

Lemma tget_lt {A} (l : list (option A)) i a : tget l i = Some a -> (i < length l)%nat.
Proof.
  unfold tget. destruct (nth_error l i) eqn:E; [|discriminate]. intros _.
  apply nth_error_Some; rewrite E; discriminate.
Qed.

Lemma tget_upd {A} (l : list (option A)) i j x :
  tget (list_upd l i x) j =
  if Nat.eqb i j then (if (i <? length l)%nat then x else None) else tget l j.
Proof.
  unfold tget. rewrite nth_error_upd. destruct (Nat.eqb_spec i j); [|reflexivity].
  destruct (i <? length l)%nat; reflexivity.
Qed.

Lemma tget_upd_eq {A} (l : list (option A)) i x : (i < length l)%nat -> tget (list_upd l i x) i = x.
Proof.
  intros H. rewrite tget_upd, Nat.eqb_refl. apply Nat.ltb_lt in H; rewrite H; reflexivity.
Qed.

Lemma tget_upd_neq {A} (l : list (option A)) i j x : i <> j -> tget (list_upd l i x) j = tget l j.
Proof. intros H. rewrite tget_upd. destruct (Nat.eqb_spec i j); [contradiction | reflexivity]. Qed.

Lemma tget_upd_None {A} (l : list (option A)) i j :
  tget (list_upd l i None) j = if Nat.eqb i j then None else tget l j.
Proof. rewrite tget_upd. destruct (Nat.eqb i j); [destruct (i <? length l)%nat|]; reflexivity. Qed.

Lemma tget_app_r {A} (l : list (option A)) o : tget (l ++ [o]) (length l) = o.
Proof. unfold tget. rewrite nth_error_app2, Nat.sub_diag by lia. reflexivity. Qed.

Lemma tget_app_l {A} (l t : list (option A)) i : (i < length l)%nat -> tget (l ++ t) i = tget l i.
Proof. intros H; unfold tget; rewrite nth_error_app1 by assumption; reflexivity. Qed.

Lemma tget_ge {A} (l : list (option A)) i : (length l <= i)%nat -> tget l i = None.
Proof. intros H; unfold tget. apply nth_error_None in H; rewrite H; reflexivity. Qed.

Lemma tget_app_one {A} (l : list (option A)) o i :
  tget (l ++ [o]) i = if Nat.eqb i (length l) then o else tget l i.
Proof.
  destruct (Nat.eqb_spec i (length l)) as [->|H]; [apply tget_app_r|].
  destruct (Nat.lt_ge_cases i (length l)) as [H1|H1]; [apply tget_app_l; assumption|].
  rewrite !tget_ge; auto. rewrite app_length; simpl; lia.
Qed.

Lemma tget_repeat {A} (l : list (option A)) n i : tget (l ++ repeat None n) i = tget l i.
Proof.
  destruct (Nat.lt_ge_cases i (length l)) as [H1|H1]; [apply tget_app_l; assumption|].
  rewrite (tget_ge l i H1). unfold tget. rewrite nth_error_app2 by assumption.
  destruct (nth_error (repeat None n) (i - length l)) eqn:E; [|reflexivity].
  apply nth_error_In, repeat_spec in E; assumption.
Qed.

(* ------------------------------------------------------------------ *)
(** ** Sums over tables *)

Fixpoint sumf {A} (f : A -> Z) (l : list A) : Z :=
  match l with [] => 0 | a :: t => f a + sumf f t end.

Lemma sumf_app {A} (f : A -> Z) l t : sumf f (l ++ t) = sumf f l + sumf f t.
Proof. induction l; simpl; lia. Qed.

Lemma sumf_upd {A} (f : A -> Z) l i x o :
  nth_error l i = Some o -> sumf f (list_upd l i x) = sumf f l - f o + f x.
Proof.
  revert i; induction l as [|a t IH]; intros [|i]; simpl; intros H; try discriminate.
  - injection H as ->; lia.
  - rewrite (IH i H); lia.
Qed.

Lemma sumf_repeat {A} (f : A -> Z) a n : f a = 0 -> sumf f (repeat a n) = 0.
Proof. intros H; induction n; simpl; lia. Qed.

Lemma sumf_ext {A} (f g : A -> Z) l : (forall a, In a l -> f a = g a) -> sumf f l = sumf g l.
Proof. induction l; simpl; intros H; auto. rewrite H, IHl; auto. Qed.

Lemma sumf_nonneg {A} (f : A -> Z) l : (forall a, 0 <= f a) -> 0 <= sumf f l.
Proof. intros H; induction l as [|a t IH]; simpl; [lia|]. specialize (H a); lia. Qed.

Definition alive {A} (o : option A) : Z := match o with Some _ => 1 | None => 0 end.
Definition busy (o : option node) : Z :=
  match o with Some n => if nanchor n =? 0 then 0 else 1 | None => 0 end.
Definition ncont (o : option face) : Z :=
  match o with Some f => Z.of_nat (length (fanchors f)) | None => 0 end.

Lemma sumf_tget {A} (f : option A -> Z) (l : list (option A)) i a x :
  tget l i = Some a -> sumf f (list_upd l i x) = sumf f l - f (Some a) + f x.
Proof.
  unfold tget; intros H. destruct (nth_error l i) as [o|] eqn:E; [|discriminate]; subst.
  apply sumf_upd; assumption.
Qed.

(* ------------------------------------------------------------------ *)
(** ** Darts *)

Definition stt m d : nat := match eAt m (elab d) with Some e => e_st e d | None => O end.
Definition lft m d : option nat := match eAt m (elab d) with Some e => e_lf e d | None => None end.

Definition isLive m (l : nat) : bool := match eAt m l with Some _ => true | None => false end.
Definition elabs m : list Z := map Z.of_nat (filter (isLive m) (seq 1 (length (edges m)))).
Definition darts m : list Z := elabs m ++ map Z.opp (elabs m).
Definition phi m d : Z := sgi m (- d).

Lemma elab_opp d : elab (- d) = elab d.
Proof. unfold elab; lia. Qed.

Lemma elab_of_nat l : elab (Z.of_nat l) = l.
Proof. unfold elab; lia. Qed.

Lemma elab_eq x y : elab x = elab y <-> x = y \/ x = - y.
Proof. unfold elab; lia. Qed.

Lemma in_elabs m l : In l (elabs m) <-> 0 < l /\ eAt m (elab l) <> None.
Proof.
  unfold elabs. rewrite in_map_iff. split.
  - intros (k & <- & H). apply filter_In in H as [H1 H2]. apply in_seq in H1.
    rewrite elab_of_nat. split; [lia|]. unfold isLive in H2. destruct (eAt m k); congruence.
  - intros [H1 H2]. exists (elab l). split; [unfold elab; lia|].
    apply filter_In. unfold isLive. destruct (eAt m (elab l)) eqn:E; [|congruence].
    split; [|reflexivity]. apply in_seq. apply tget_lt in E. unfold elab in *; lia.
Qed.

Lemma nodup_elabs m : NoDup (elabs m).
Proof.
  apply FinFun.Injective_map_NoDup; [intros x y; lia|]. apply NoDup_filter, seq_NoDup.
Qed.

Lemma in_darts m d : In d (darts m) <-> d <> 0 /\ eAt m (elab d) <> None.
Proof.
  unfold darts. rewrite in_app_iff, in_map_iff. split.
  - intros [H|(x & <- & H)]; apply in_elabs in H as [H1 H2]; [split; [lia | assumption]|].
    rewrite elab_opp; split; [lia | assumption].
  - intros [H1 H2]. destruct (Z.lt_ge_cases 0 d) as [H|H].
    + left; apply in_elabs; auto.
    + right; exists (- d); split; [lia|]. apply in_elabs. rewrite elab_opp; split; [lia | assumption].
Qed.

Lemma darts_opp m d : In d (darts m) -> In (- d) (darts m).
Proof. rewrite !in_darts, elab_opp; intros [H1 H2]; split; [lia | assumption]. Qed.

Lemma darts_opp_iff m d : In (- d) (darts m) <-> In d (darts m).
Proof. split; intros H; [rewrite <- (Z.opp_involutive d)|]; apply darts_opp; assumption. Qed.

Lemma length_darts m : length (darts m) = (2 * length (elabs m))%nat.
Proof. unfold darts; rewrite app_length, map_length; lia. Qed.

Lemma length_elabs m : (length (elabs m) <= length (edges m))%nat.
Proof.
  unfold elabs; rewrite map_length. rewrite <- (seq_length (length (edges m)) 1) at 2.
  generalize (seq 1 (length (edges m))). intros l; induction l; simpl; [lia|].
  destruct (isLive m a); simpl; lia.
Qed.

Lemma live_edges m m' :
  (forall l, eAt m' l = None <-> eAt m l = None) -> forall d, In d (darts m') <-> In d (darts m).
Proof. intros H d; rewrite !in_darts, H; reflexivity. Qed.

(* ------------------------------------------------------------------ *)
(** ** Evaluating the accessors *)

Lemma deref_node m l n : nAt m l = Some n -> deref (nodeP m l) = Ok n.
Proof.
  unfold nAt, tget, nodeP. destruct (nth_error (nodes m) l); [|discriminate].
  intros ->; reflexivity.
Qed.
Lemma deref_face m l n : fAt m l = Some n -> deref (faceP m l) = Ok n.
Proof.
  unfold fAt, tget, faceP. destruct (nth_error (faces m) l); [|discriminate].
  intros ->; reflexivity.
Qed.
Lemma deref_edge m l n : eAt m l = Some n -> deref (edgeP m l) = Ok n.
Proof.
  unfold eAt, tget, edgeP. destruct (nth_error (edges m) l); [|discriminate].
  intros ->; reflexivity.
Qed.
Lemma require_edge m l n : eAt m l = Some n -> require (edgeP m l) = Ok n.
Proof.
  unfold eAt, tget, edgeP. destruct (nth_error (edges m) l); [|discriminate].
  intros ->; reflexivity.
Qed.
Lemma require_edge_None m l : eAt m l = None -> require (edgeP m l) = Exn.
Proof.
  unfold eAt, tget, edgeP. destruct (nth_error (edges m) l) as [o|]; [|reflexivity].
  intros ->; reflexivity.
Qed.
Lemma gEdge_Ok m d e : eAt m (elab d) = Some e -> gEdge m d = Ok e.
Proof. apply require_edge. Qed.
Lemma gEdge_Exn m d : eAt m (elab d) = None -> gEdge m d = Exn.
Proof. apply require_edge_None. Qed.

Lemma deref_node_inv m l n : deref (nodeP m l) = Ok n -> nAt m l = Some n.
Proof.
  unfold nAt, tget, nodeP. destruct (nth_error (nodes m) l) as [[x|]|]; simpl; congruence.
Qed.
Lemma deref_face_inv m l n : deref (faceP m l) = Ok n -> fAt m l = Some n.
Proof.
  unfold fAt, tget, faceP. destruct (nth_error (faces m) l) as [[x|]|]; simpl; congruence.
Qed.
Lemma deref_edge_inv m l n : deref (edgeP m l) = Ok n -> eAt m l = Some n.
Proof.
  unfold eAt, tget, edgeP. destruct (nth_error (edges m) l) as [[x|]|]; simpl; congruence.
Qed.

Lemma live_edge m d : In d (darts m) -> exists e, eAt m (elab d) = Some e.
Proof.
  intros H; apply in_darts in H as [_ H]. destruct (eAt m (elab d)) as [e|]; [exists e; reflexivity | congruence].
Qed.

Lemma getS_Ok m d : Z.abs d <= cap m -> getS m d = Ok (sg m d).
Proof. intros H; unfold getS, inCap. apply Z.leb_le in H; rewrite H; reflexivity. Qed.
Lemma getSi_Ok m d : Z.abs d <= cap m -> getSi m d = Ok (sgi m d).
Proof. intros H; unfold getSi, inCap. apply Z.leb_le in H; rewrite H; reflexivity. Qed.
Lemma putS_Ok m d v : Z.abs d <= cap m -> putS m d v = Ok (set_sg m (updZ (sg m) d v)).
Proof. intros H; unfold putS, inCap. apply Z.leb_le in H; rewrite H; reflexivity. Qed.
Lemma putSi_Ok m d v : Z.abs d <= cap m -> putSi m d v = Ok (set_sgi m (updZ (sgi m) d v)).
Proof. intros H; unfold putSi, inCap. apply Z.leb_le in H; rewrite H; reflexivity. Qed.

Lemma updZ_eq f d v : updZ f d v d = v.
Proof. unfold updZ; rewrite Z.eqb_refl; reflexivity. Qed.
Lemma updZ_neq f d v x : x <> d -> updZ f d v x = f x.
Proof. unfold updZ; destruct (Z.eqb_spec x d); [contradiction | reflexivity]. Qed.

(* ------------------------------------------------------------------ *)
(** ** The rotation invariant *)

Record SI m (D : list Z) : Prop := {
  si_perm : perm_on D (sg m) (sgi m);
  si_live : forall d, In d D -> eAt m (elab d) <> None;
  si_nz : forall d, In d D -> d <> 0;
  si_cap : forall d, In d D -> Z.abs d <= cap m;
  si_st : forall d, In d D -> stt m (sg m d) = stt m d;
  si_node : forall d, In d D -> nAt m (stt m d) <> None;
  si_anchor : forall l n, nAt m l = Some n ->
      (nanchor n = 0 /\ forall d, In d D -> stt m d <> l) \/
      (In (nanchor n) D /\ stt m (nanchor n) = l /\
       forall d, In d D -> stt m d = l -> reach (sg m) (nanchor n) d) }.

Lemma SI_ext m D D' : (forall x, In x D <-> In x D') -> SI m D -> SI m D'.
Proof.
  intros H S. constructor.
  - intros x Hx. apply H in Hx. destruct (si_perm _ _ S x Hx) as (A & B & C & E).
    repeat split; auto; apply H; assumption.
  - intros d Hd; apply (si_live _ _ S); apply H; assumption.
  - intros d Hd; apply (si_nz _ _ S); apply H; assumption.
  - intros d Hd; apply (si_cap _ _ S); apply H; assumption.
  - intros d Hd; apply (si_st _ _ S); apply H; assumption.
  - intros d Hd; apply (si_node _ _ S); apply H; assumption.
  - intros l n Hn. destruct (si_anchor _ _ S l n Hn) as [[H1 H2]|(H1 & H2 & H3)].
    + left; split; auto. intros d Hd; apply H2; apply H; assumption.
    + right; split; [apply H; assumption|]. split; auto. intros d Hd; apply H3; apply H; assumption.
Qed.

(** The sigma orbit of a dart is the set of darts at its start node. *)
Lemma SI_orbit m D x y : SI m D -> In x D -> In y D ->
  (reach (sg m) x y <-> stt m x = stt m y).
Proof.
  intros S Hx Hy. split.
  - intros Hr. assert (HG : forall z, reach (sg m) x z -> In z D /\ stt m z = stt m x).
    { apply reach_ind_r; [auto|]. intros z Hr' [Hz E].
      split; [apply (si_perm _ _ S); assumption|]. rewrite (si_st _ _ S) by assumption; assumption. }
    destruct (HG y Hr); congruence.
  - intros E. destruct (nAt m (stt m x)) as [n|] eqn:En; [|exfalso; apply (si_node _ _ S x Hx); assumption].
    destruct (si_anchor _ _ S _ _ En) as [[_ H]|(H1 & H2 & H3)].
    + exfalso; apply (H x Hx); reflexivity.
    + apply (reach_trans _ _ (nanchor n)); [|apply H3; auto].
      apply (reach_sym D (sg m) (sgi m) (si_perm _ _ S)); auto.
Qed.

Lemma SI_st_si m D d : SI m D -> In d D -> stt m (sgi m d) = stt m d.
Proof.
  intros S Hd. destruct (si_perm _ _ S d Hd) as (_ & H & _ & E).
  rewrite <- (si_st _ _ S (sgi m d)) by assumption. rewrite E; reflexivity.
Qed.

(** ** detachDart *)

Record detached m d m' : Prop := {
  dt_edges : edges m' = edges m;
  dt_faces : faces m' = faces m;
  dt_cap : cap m' = cap m;
  dt_nc : nodeCount m' = nodeCount m;
  dt_ec : edgeCount m' = edgeCount m;
  dt_fc : faceCount m' = faceCount m;
  dt_sorted : sorted m' = sorted m;
  dt_nlen : length (nodes m') = length (nodes m);
  dt_alive : sumf alive (nodes m') = sumf alive (nodes m);
  dt_busy : sumf busy (nodes m') = sumf busy (nodes m) - (if sg m d =? d then 1 else 0);
  dt_pos : forall l, option_map npos (nAt m' l) = option_map npos (nAt m l);
  dt_node : forall l, l <> stt m d -> nAt m' l = nAt m l }.

Lemma detach_spec m D d : SI m D -> In d D ->
  exists m', detachDart m d = Ok m' /\ SI m' (rmz d D) /\ detached m d m' /\
    (forall x, In x D -> x <> d -> sg m' x = skp (sg m) d x) /\
    (forall x, In x D -> x <> d -> sgi m' x = skp (sgi m) d x).
Proof.
  intros S Hd.
  pose proof (si_perm _ _ S) as HP.
  destruct (HP d Hd) as (Hs & Hi & Hgf & Hfg).
  set (succ := sg m d) in *. set (pred := sgi m d) in *.
  destruct (eAt m (elab d)) as [e|] eqn:He; [|exfalso; apply (si_live _ _ S d Hd); assumption].
  destruct (nAt m (stt m d)) as [nd|] eqn:En; [|exfalso; apply (si_node _ _ S d Hd); assumption].
  assert (Hst : stt m d = e_st e d) by (unfold stt; rewrite He; reflexivity).
  set (m1 := set_sgi (set_sg m (updZ (sg m) pred succ)) (updZ (sgi m) succ pred)).
  set (m' := if nanchor nd =? d
             then putN m1 (stt m d) (Some (set_anchor nd (if succ =? d then 0 else succ))) else m1).
  assert (Hrun : detachDart m d = Ok m').
  { unfold detachDart, startLabel. rewrite (gEdge_Ok _ _ _ He). cbn [bind].
    rewrite <- Hst, (deref_node _ _ _ En). cbn [bind].
    rewrite getS_Ok by (apply (si_cap _ _ S); assumption). cbn [bind].
    rewrite getSi_Ok by (apply (si_cap _ _ S); assumption). cbn [bind].
    rewrite putS_Ok by (apply (si_cap _ _ S); assumption). cbn [bind].
    rewrite putSi_Ok by (apply (si_cap _ _ S); assumption). cbn [bind].
    fold succ pred. cbn [sgi set_sg]. fold m1. unfold m'. destruct (nanchor nd =? d); reflexivity. }
  assert (Esg : sg m' = updZ (sg m) pred succ) by (unfold m'; destruct (nanchor nd =? d); reflexivity).
  assert (Esgi : sgi m' = updZ (sgi m) succ pred) by (unfold m'; destruct (nanchor nd =? d); reflexivity).
  assert (Hsg : forall x, In x D -> x <> d -> sg m' x = skp (sg m) d x).
  { intros x Hx Hxd. rewrite Esg. unfold skp. destruct (Z.eq_dec x pred) as [->|Hne].
    - rewrite updZ_eq. rewrite Hfg, Z.eqb_refl. reflexivity.
    - rewrite updZ_neq by assumption. destruct (Z.eqb_spec (sg m x) d) as [E|E]; [|reflexivity].
      exfalso; apply Hne. unfold pred. rewrite <- E. symmetry; apply HP; assumption. }
  assert (Hsgi : forall x, In x D -> x <> d -> sgi m' x = skp (sgi m) d x).
  { intros x Hx Hxd. rewrite Esgi. unfold skp. destruct (Z.eq_dec x succ) as [->|Hne].
    - rewrite updZ_eq. rewrite Hgf, Z.eqb_refl. reflexivity.
    - rewrite updZ_neq by assumption. destruct (Z.eqb_spec (sgi m x) d) as [E|E]; [|reflexivity].
      exfalso; apply Hne. unfold succ. rewrite <- E. symmetry; apply HP; assumption. }
  assert (Eed : edges m' = edges m) by (unfold m'; destruct (nanchor nd =? d); reflexivity).
  assert (EstA : forall x, stt m' x = stt m x) by (intros x; unfold stt, eAt; rewrite Eed; reflexivity).
  assert (Hnlt : (stt m d < length (nodes m))%nat) by (eapply tget_lt; exact En).
  assert (Hanch := si_anchor _ _ S _ _ En).
  assert (Hloop : nanchor nd = d -> succ = d -> forall x, In x D -> stt m x = stt m d -> x = d).
  { intros Ea Es x Hx Ex. assert (Hr : reach (sg m) d x) by (apply (SI_orbit m D); auto).
    revert x Hr Hx Ex. apply (reach_ind_r (sg m) d (fun x => In x D -> stt m x = stt m d -> x = d)); [reflexivity|].
    intros y Hr IH HyD' Ey.
    assert (In y D) by (eapply (reach_in D (sg m) (sgi m)); [exact HP | exact Hd | exact Hr]).
    assert (y = d). { apply IH; auto. rewrite <- Ey. symmetry; apply (si_st _ _ S); assumption. }
    subst y. exact Es. }
  assert (Hbusy1 : busy (Some nd) = 1).
  { simpl. destruct (Z.eqb_spec (nanchor nd) 0) as [E0|]; [|reflexivity].
    destruct Hanch as [[_ Hx]|(H1 & _)]; [exfalso; apply (Hx d Hd); reflexivity|].
    exfalso; apply (si_nz _ _ S (nanchor nd)); assumption. }
  exists m'. split; [exact Hrun|]. split; [|split; [|split; assumption]].
  - assert (HPs : perm_on (rmz d D) (skp (sg m) d) (skp (sgi m) d)) by (apply skp_perm; assumption).
    assert (HP' : perm_on (rmz d D) (sg m') (sgi m')).
    { intros x Hx. pose proof (HPs x Hx) as (A & B & C & E).
      pose proof Hx as Hx'. apply in_rmz in Hx' as [HxD Hxd].
      rewrite Hsg, Hsgi by assumption.
      apply in_rmz in A as [A1 A2]. apply in_rmz in B as [B1 B2].
      rewrite (Hsgi (skp (sg m) d x)), (Hsg (skp (sgi m) d x)) by assumption.
      repeat split; auto; apply in_rmz; split; assumption. }
    assert (Hreach : forall x y, In x D -> x <> d -> In y D -> y <> d ->
               (reach (sg m') x y <-> reach (sg m) x y)).
    { intros x y Hx Hxd Hy Hyd. rewrite <- (skp_reach D (sg m) (sgi m) HP d Hd x y); auto.
      split; apply (reach_ext _ _ (fun z => In z (rmz d D))).
      - intros z Hz; apply in_rmz in Hz; apply Hsg; tauto.
      - intros z Hz; apply HP'; assumption.
      - apply in_rmz; auto.
      - intros z Hz; apply in_rmz in Hz; symmetry; apply Hsg; tauto.
      - intros z Hz; apply HPs; assumption.
      - apply in_rmz; auto. }
    constructor.
    + exact HP'.
    + intros x Hx; apply in_rmz in Hx as [Hx _]. unfold eAt; rewrite Eed. apply (si_live _ _ S x Hx).
    + intros x Hx; apply in_rmz in Hx as [Hx _]. apply (si_nz _ _ S x Hx).
    + intros x Hx; apply in_rmz in Hx as [Hx _]. replace (cap m') with (cap m); [apply (si_cap _ _ S x Hx)|].
      unfold m'; destruct (nanchor nd =? d); reflexivity.
    + intros x Hx; apply in_rmz in Hx as [Hx Hxd]. rewrite !EstA, Hsg by assumption. unfold skp.
      destruct (Z.eqb_spec (sg m x) d) as [E|E]; [|apply (si_st _ _ S); assumption].
      rewrite <- (si_st _ _ S x) by assumption. rewrite E. apply (si_st _ _ S); assumption.
    + intros x Hx; apply in_rmz in Hx as [Hx Hxd]. rewrite EstA.
      pose proof (si_node _ _ S x Hx) as Hn. unfold m'. destruct (nanchor nd =? d); [|exact Hn].
      unfold nAt, putN; cbn [nodes set_nodes]. rewrite tget_upd.
      destruct (Nat.eqb_spec (stt m d) (stt m x)); [|exact Hn].
      apply Nat.ltb_lt in Hnlt. cbn [nodes set_sgi set_sg m1]. rewrite Hnlt. discriminate.
    + intros l n Hn.
      destruct (Nat.eq_dec l (stt m d)) as [->|Hl].
      * destruct Hanch as [[_ Hx]|(H1 & H2 & H3)]; [exfalso; apply (Hx d Hd); reflexivity|].
        unfold m' in Hn. destruct (Z.eqb_spec (nanchor nd) d) as [Ea|Ea].
        -- unfold nAt, putN in Hn; cbn [nodes set_nodes m1 set_sgi set_sg] in Hn.
           rewrite tget_upd_eq in Hn by assumption. injection Hn as <-. cbn [nanchor set_anchor].
           destruct (Z.eqb_spec succ d) as [Es|Es].
           ++ left; split; [reflexivity|]. intros x Hx Ex. rewrite EstA in Ex.
              apply in_rmz in Hx as [HxD Hxd]. apply Hxd, Hloop; auto.
           ++ right. split; [apply in_rmz; auto|]. rewrite EstA.
              assert (Ess : stt m succ = stt m d) by (apply (si_st _ _ S); assumption).
              split; [assumption|]. intros x Hx Ex. rewrite EstA in Ex.
              apply in_rmz in Hx as [HxD Hxd]. apply Hreach; auto.
              apply (SI_orbit m D); auto. congruence.
        -- change (nAt m1 (stt m d)) with (nAt m (stt m d)) in Hn. rewrite En in Hn. injection Hn as <-.
           right. split; [apply in_rmz; auto|]. rewrite EstA. split; auto.
           intros x Hx Ex. rewrite EstA in Ex. apply in_rmz in Hx as [HxD Hxd]. apply Hreach; auto.
      * assert (Hn' : nAt m l = Some n).
        { unfold m' in Hn. destruct (nanchor nd =? d); [|exact Hn].
          unfold nAt, putN in Hn; cbn [nodes set_nodes m1 set_sgi set_sg] in Hn.
          rewrite tget_upd_neq in Hn by auto. exact Hn. }
        destruct (si_anchor _ _ S l n Hn') as [[H1 H2]|(H1 & H2 & H3)].
        -- left; split; auto. intros x Hx. rewrite EstA. apply in_rmz in Hx as [Hx _]. auto.
        -- right. assert (nanchor n <> d) by congruence.
           split; [apply in_rmz; auto|]. rewrite EstA. split; auto.
           intros x Hx Ex. rewrite EstA in Ex. apply in_rmz in Hx as [HxD Hxd]. apply Hreach; auto.
  - unfold m'. constructor; destruct (Z.eqb_spec (nanchor nd) d) as [Ea|Ea]; try reflexivity.
    + unfold putN; cbn [nodes set_nodes]. apply list_upd_length.
    + unfold putN; cbn [nodes set_nodes m1 set_sgi set_sg].
      rewrite (sumf_tget alive _ _ _ _ En). simpl; lia.
    + unfold putN; cbn [nodes set_nodes m1 set_sgi set_sg].
      rewrite (sumf_tget busy _ _ _ _ En), Hbusy1. cbn [busy nanchor set_anchor]. fold succ.
      destruct (Z.eqb_spec succ d) as [Es|Es]; [simpl; lia|].
      destruct (Z.eqb_spec succ 0) as [E0|_]; [exfalso; apply (si_nz _ _ S succ); assumption | lia].
    + cbn [nodes m1 set_sgi set_sg]. fold succ. destruct (Z.eqb_spec succ d) as [Es|Es]; [|lia].
      exfalso. destruct Hanch as [[_ Hx]|(H1 & H2 & H3)]; [apply (Hx d Hd); reflexivity|].
      apply Ea. assert (Hr : reach (sg m) (nanchor nd) d) by (apply H3; auto).
      apply (reach_sym D (sg m) (sgi m) HP) in Hr; auto.
      clear -Hr Es. destruct Hr as [k Hk]. rewrite <- Hk.
      induction k; [reflexivity|]. simpl. simpl in Hk.
      assert (forall j, iter j (sg m) d = d) by (induction j; simpl; [reflexivity | rewrite IHj; exact Es]).
      rewrite H. exact Es.
    + intros l. unfold nAt, putN; cbn [nodes set_nodes m1 set_sgi set_sg]. rewrite tget_upd.
      destruct (Nat.eqb_spec (stt m d) l) as [El|]; [|reflexivity].
      rewrite El in Hnlt, En. rewrite El. apply Nat.ltb_lt in Hnlt; rewrite Hnlt.
      unfold nAt in En; rewrite En; reflexivity.
    + intros l Hl. unfold nAt, putN; cbn [nodes set_nodes m1 set_sgi set_sg].
      apply tget_upd_neq; auto.
Qed.
