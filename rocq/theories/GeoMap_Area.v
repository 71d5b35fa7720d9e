(** Sums of signed dart areas over contours, faces and components. *)
From Verif Require Import Base Orbit GraphRank Euler Links FaceInv Conj
  GeoMap_Model GeoMap_Views GeoMap_SInv GeoMap_Remove GeoMap_MergeEdges GeoMap_Loops GeoMap_MInv GeoMap_MergeFaces.
Local Open Scope Z_scope.

(** twice the signed area between the dart's polyline and the origin *)
Definition raw m d : Z := match eAt m (elab d) with Some e => dartArea e d | None => 0 end.

Lemma raw_opp m d : d <> 0 -> raw m (- d) = - raw m d.
Proof.
  intros Hd. unfold raw. rewrite elab_opp. destruct (eAt m (elab d)) as [e|]; [|reflexivity]. unfold dartArea.
  destruct (Z.ltb_spec 0 (- d)), (Z.ltb_spec 0 d); lia.
Qed.

Lemma optnat_eqb_eq a b : optnat_eqb a b = true <-> a = b.
Proof.
  destruct a, b; cbn; split; try discriminate; auto; try congruence.
  - intros H; apply Nat.eqb_eq in H; congruence.
  - intros H; injection H as ->; apply Nat.eqb_refl.
Qed.

Lemma dwt_raw m d : d <> 0 -> dwt m d = if optnat_eqb (lft m d) (lft m (- d)) then 0 else raw m d.
Proof.
  intros Hd. unfold dwt, lft, raw. rewrite elab_opp. destruct (eAt m (elab d)) as [e|]; [|reflexivity].
  unfold isBridge, e_lf. destruct (Z.ltb_spec 0 d), (Z.ltb_spec 0 (- d)); try lia; auto.
  replace (optnat_eqb (elf e) (erf e)) with (optnat_eqb (erf e) (elf e)); [reflexivity|].
  destruct (elf e), (erf e); cbn; auto. apply Nat.eqb_sym.
Qed.

(** ** Sums *)

Lemma sumZ_opp f l : sumZ (fun x => - f x) l = - sumZ f l.
Proof. induction l; simpl; lia. Qed.
Lemma sumZ_add f g l : sumZ (fun x => f x + g x) l = sumZ f l + sumZ g l.
Proof. induction l; simpl; lia. Qed.
Lemma sumZ_map f g l : sumZ f (map g l) = sumZ (fun x => f (g x)) l.
Proof. induction l; simpl; congruence. Qed.
Lemma sumZ_zero f l : (forall x, In x l -> f x = 0) -> sumZ f l = 0.
Proof. induction l as [|a l IH]; simpl; intros H; auto. rewrite (H a), IH; auto. Qed.

Lemma sumZ_anti f L : NoDup L -> (forall x, In x L -> In (- x) L) ->
  (forall x, In x L -> f (- x) = - f x) -> sumZ f L = 0.
Proof.
  intros Hnd Ho Hf.
  assert (HP : Permutation L (map Z.opp L)).
  { apply NoDup_Permutation; auto.
    - apply FinFun.Injective_map_NoDup; auto. intros x y E; lia.
    - intros x. rewrite in_map_iff. split.
      + intros Hx. exists (- x). split; [lia | auto].
      + intros (y & <- & Hy). auto. }
  pose proof (sumZ_perm f _ _ HP) as E. rewrite sumZ_map in E.
  rewrite (sumZ_ext (fun x => f (- x)) (fun x => - f x)) in E by auto. rewrite sumZ_opp in E. lia.
Qed.

Lemma sumZ_filter f p L : sumZ f (filter p L) = sumZ (fun x => if p x then f x else 0) L.
Proof. induction L as [|a L IH]; simpl; auto. destruct (p a); simpl; lia. Qed.

Lemma filter_perm_in {A} (p q : A -> bool) (L L' : list A) : NoDup L -> NoDup L' ->
  (forall x, In x L /\ p x = true <-> In x L' /\ q x = true) -> Permutation (filter p L) (filter q L').
Proof.
  intros H1 H2 H. apply NoDup_Permutation; try (apply NoDup_filter; assumption).
  intros x. rewrite !filter_In. apply H.
Qed.

Lemma nodup_darts m : NoDup (darts m).
Proof.
  unfold darts. apply NoDup_app_intro; [apply nodup_elabs | |].
  - apply FinFun.Injective_map_NoDup; [intros x y E; lia | apply nodup_elabs].
  - intros x H1 H2. apply in_map_iff in H2 as (y & <- & H2). apply in_elabs in H1, H2. lia.
Qed.

(** The area the code computes for a contour is the plain sum over its darts: the
    edges it leaves out contribute twice with opposite signs. *)
Lemma contourArea_raw m a L : SI m (darts m) -> In a (darts m) ->
  NoDup L -> (forall y, In y L <-> reach (phi m) a y) ->
  (forall x, reach (phi m) a x -> lft m x = lft m (- x) -> reach (phi m) a (- x)) ->
  contourArea m a = Ok (sumZ (raw m) L).
Proof.
  intros HS Ha HL HLr Hb. pose proof (phi_perm m HS) as HP.
  destruct (contourArea_spec m a HS Ha) as (L' & HL' & HLr' & ->). f_equal.
  rewrite (sumZ_perm _ L' L) by (apply NoDup_Permutation; auto; intros; rewrite HLr, HLr'; reflexivity).
  clear L' HL' HLr'.
  assert (Hin : forall x, In x L -> In x (darts m)) by (intros x Hx; apply HLr in Hx; apply (reach_in _ _ _ HP a); assumption).
  assert (E : sumZ (raw m) L = sumZ (dwt m) L + sumZ (raw m) (filter (fun x => optnat_eqb (lft m x) (lft m (- x))) L)).
  { rewrite sumZ_filter, <- sumZ_add. apply sumZ_ext. intros x Hx.
    rewrite dwt_raw by (apply (si_nz _ _ HS); auto). destruct (optnat_eqb _ _); lia. }
  rewrite E, (sumZ_anti (raw m)); [lia | | |].
  - apply NoDup_filter; assumption.
  - intros x Hx. apply filter_In in Hx as [Hx Hx2]. apply filter_In. apply optnat_eqb_eq in Hx2. split.
    + apply HLr. apply Hb; [apply HLr; assumption | assumption].
    + rewrite Z.opp_involutive. apply optnat_eqb_eq. auto.
  - intros x Hx. apply filter_In in Hx as [Hx _]. apply raw_opp, (si_nz _ _ HS); auto.
Qed.

(** ** Face sums *)

Definition onFace m l x : bool := optnat_eqb (lft m x) (Some l).
Definition faceSum m l : Z := sumZ (raw m) (filter (onFace m l) (darts m)).

Lemma onFace_eq m l x : onFace m l x = true <-> lft m x = Some l.
Proof. apply optnat_eqb_eq. Qed.

(** sums over labels *)
Fixpoint sumN (f : nat -> Z) (l : list nat) : Z := match l with [] => 0 | x :: t => f x + sumN f t end.

Lemma sumN_fibers (w : Z -> Z) (lab : Z -> option nat) (L : list Z) ls : NoDup ls ->
  sumN (fun l => sumZ w (filter (fun x => optnat_eqb (lab x) (Some l)) L)) ls =
  sumZ w (filter (fun x => match lab x with Some l => existsb (Nat.eqb l) ls | None => false end) L).
Proof.
  intros Hnd. induction L as [|a L IH].
  - cbn. clear. induction ls; simpl; lia.
  - cbn [filter].
    assert (E : sumN (fun l => sumZ w (if optnat_eqb (lab a) (Some l) then a :: filter (fun x => optnat_eqb (lab x) (Some l)) L
                                else filter (fun x => optnat_eqb (lab x) (Some l)) L)) ls =
      (if match lab a with Some l => existsb (Nat.eqb l) ls | None => false end then w a else 0) +
      sumN (fun l => sumZ w (filter (fun x => optnat_eqb (lab x) (Some l)) L)) ls).
    { clear IH. induction ls as [|k ls IHl]; [destruct (lab a); reflexivity|]. inversion Hnd; subst.
      cbn [sumN existsb]. rewrite IHl by assumption. destruct (lab a) as [q|] eqn:Eq; [|cbn; lia].
      cbn [optnat_eqb]. destruct (Nat.eqb_spec q k) as [->|N].
      - cbn [orb sumZ]. replace (existsb (Nat.eqb k) ls) with false; [cbn; lia|].
        symmetry. apply Bool.not_true_iff_false. intros Hx. apply existsb_exists in Hx as (z & Hz & Ez).
        apply Nat.eqb_eq in Ez; subst; contradiction.
      - cbn [orb]. cbn; destruct (existsb _ _); lia. }
    rewrite E, IH. destruct (match lab a with Some l => existsb (Nat.eqb l) ls | None => false end); cbn [sumZ]; lia.
Qed.

Lemma sumN_pos f ls l : In l ls -> (forall x, In x ls -> 0 < f x) -> f l <= sumN f ls.
Proof.
  induction ls as [|a t IH]; intros Hl Hp; [destruct Hl|]. cbn [sumN].
  assert (Hn : forall t, (forall x, In x t -> 0 < f x) -> 0 <= sumN f t).
  { clear. induction t as [|b t IH]; intros H; [cbn; lia|]. cbn [sumN].
    specialize (IH (fun x Hx => H x (or_intror Hx))). pose proof (H b (or_introl eq_refl)). lia. }
  destruct Hl as [->|Hl].
  - specialize (Hn t (fun x Hx => Hp x (or_intror Hx))). lia.
  - specialize (IH Hl (fun x Hx => Hp x (or_intror Hx))). pose proof (Hp a (or_introl eq_refl)). lia.
Qed.
Lemma sumN_perm f l t : Permutation l t -> sumN f l = sumN f t.
Proof. induction 1; simpl; lia. Qed.
