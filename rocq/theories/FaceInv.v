(** Faces as sets of contours, abstractly.

    Pure mathematics: [FI D phi lf F] says that the face labelling [lf] of the
    darts [D] and the anchor lists [F] describe exactly the orbits of [phi]:
    every dart lies on exactly one listed contour, which belongs to its own face.
    The lemmas say how this is preserved when two contours are joined, one is
    split, or elements are dropped from / inserted into contours. *)
From Verif Require Import Base Orbit.
Local Open Scope Z_scope.

Record FI (D : list Z) (phi : Z -> Z) (lf : Z -> option nat) (F : nat -> option (list Z)) : Prop := {
  fi_cover : forall d, In d D -> exists l A a,
      lf d = Some l /\ F l = Some A /\ In a A /\ reach phi a d;
  fi_anchor : forall l A a, F l = Some A -> In a A -> In a D /\ lf a = Some l;
  fi_phi : forall d, In d D -> lf (phi d) = lf d;
  fi_nodup : forall l A, F l = Some A -> NoDup A;
  fi_sep : forall l A a b, F l = Some A -> In a A -> In b A -> reach phi a b -> a = b }.

Lemma fi_reach D phi psi lf F x y :
  perm_on D phi psi -> FI D phi lf F -> In x D -> reach phi x y -> lf y = lf x.
Proof.
  intros HP HF Hx Hr. revert y Hr. apply reach_ind_r; [reflexivity|].
  intros y Hr IH. rewrite (fi_phi _ _ _ _ HF); auto.
  eapply reach_in; eassumption.
Qed.

(** Any two listed anchors on a common contour are the same anchor of the same face. *)
Lemma fi_unique D phi psi lf F l l' A A' a b :
  perm_on D phi psi -> FI D phi lf F ->
  F l = Some A -> F l' = Some A' -> In a A -> In b A' -> reach phi a b -> l = l' /\ a = b.
Proof.
  intros HP HF HA HA' Ha Hb Hr.
  destruct (fi_anchor _ _ _ _ HF _ _ _ HA Ha) as [HaD Hal].
  destruct (fi_anchor _ _ _ _ HF _ _ _ HA' Hb) as [HbD Hbl].
  assert (l = l').
  { rewrite (fi_reach D phi psi lf F a b HP HF HaD Hr) in Hbl. congruence. }
  subst l'. rewrite HA in HA'; injection HA' as <-.
  split; auto. eapply fi_sep; eassumption.
Qed.

Section Merge.
  Variables D D' : list Z.
  Variables phi psi phi' : Z -> Z.
  Variables lf lf' : Z -> option nat.
  Variables F F' : nat -> option (list Z).
  Variables d e : Z.
  Variables S_ M : nat.
  Variables A1 A2 R1 R2 B b : list Z.
  Variables a1 a2 : Z.
  Hypothesis HP : perm_on D phi psi.
  Hypothesis HF : FI D phi lf F.
  Hypothesis Hd : In d D.
  Hypothesis He : In e D.
  Hypothesis HlS : lf d = Some S_.
  Hypothesis HlM : lf e = Some M.
  Hypothesis HSM : S_ <> M.
  Hypothesis HFS : F S_ = Some A1.
  Hypothesis HFM : F M = Some A2.
  Hypothesis HA1 : Permutation A1 (a1 :: R1).
  Hypothesis HA2 : Permutation A2 (a2 :: R2).
  Hypothesis Hr1 : reach phi a1 d.
  Hypothesis Hr2 : reach phi a2 e.
  Hypothesis HD' : forall x, In x D' <-> In x D /\ x <> d /\ x <> e.
  Let U x := reach phi x d \/ reach phi x e.
  Hypothesis Hphi' : forall x y, In x D' -> In y D' ->
    (reach phi' x y <-> reach phi x y \/ (U x /\ U y)).
  Hypothesis Hcl : forall x, In x D' -> In (phi' x) D'.
  Hypothesis Hlf' : forall x, In x D' -> lf' x = match lf x with
      | Some l => Some (if Nat.eqb l M then S_ else l) | None => None end.
  Hypothesis HFS' : F' S_ = Some B.
  Hypothesis HFM' : F' M = None.
  Hypothesis HFo' : forall l, l <> S_ -> l <> M -> F' l = F l.
  Hypothesis HB : Permutation B (b ++ R1 ++ R2).
  Hypothesis Hb : (b = [] /\ forall x, In x D' -> ~ U x) \/
                  (exists x, b = [x] /\ In x D' /\ U x).

  Let U_lf x : In x D -> U x -> lf x = Some S_ \/ lf x = Some M.
  Proof.
    intros Hx [H|H]; [left|right];
      rewrite <- (fi_reach D phi psi lf F x _ HP HF Hx H); assumption.
  Qed.

  Let U_dec x : In x D -> {U x} + {~ U x}.
  Proof.
    intros Hx. destruct (reach_dec D phi psi HP x d Hx) as [H|H]; [left; left; assumption|].
    destruct (reach_dec D phi psi HP x e Hx) as [H2|H2]; [left; right; assumption|].
    right; intros [K|K]; auto.
  Qed.

  Let nd1 : NoDup (a1 :: R1).
  Proof. eapply Permutation_NoDup; [exact HA1 | eapply fi_nodup; eassumption]. Qed.
  Let nd2 : NoDup (a2 :: R2).
  Proof. eapply Permutation_NoDup; [exact HA2 | eapply fi_nodup; eassumption]. Qed.

  Let inA1 x : In x A1 <-> x = a1 \/ In x R1.
  Proof.
    split; intros H.
    - apply (Permutation_in _ HA1) in H. destruct H; auto.
    - apply (Permutation_in _ (Permutation_sym HA1)). simpl; destruct H; auto.
  Qed.
  Let inA2 x : In x A2 <-> x = a2 \/ In x R2.
  Proof.
    split; intros H.
    - apply (Permutation_in _ HA2) in H. destruct H; auto.
    - apply (Permutation_in _ (Permutation_sym HA2)). simpl; destruct H; auto.
  Qed.

  (* the remaining anchors are off the joined contour *)
  Let R1_facts x : In x R1 -> In x D' /\ lf x = Some S_ /\ ~ U x.
  Proof.
    intros Hx.
    assert (HxA : In x A1) by (apply inA1; auto).
    destruct (fi_anchor _ _ _ _ HF _ _ _ HFS HxA) as [HxD Hxl].
    assert (Hnu : ~ U x).
    { intros [H|H].
      - assert (E : a1 = x).
        { eapply (fi_sep _ _ _ _ HF); [exact HFS | apply inA1; auto | exact HxA|].
          apply (reach_trans _ _ d); auto. apply (reach_sym D phi psi HP); auto. }
        inversion nd1; subst; contradiction.
      - assert (Hl := fi_reach D phi psi lf F x e HP HF HxD H). congruence. }
    repeat split; auto. apply HD'. repeat split; auto; intros ->; apply Hnu.
    - left; apply reach_refl.
    - right; apply reach_refl.
  Qed.
  Let R2_facts x : In x R2 -> In x D' /\ lf x = Some M /\ ~ U x.
  Proof.
    intros Hx.
    assert (HxA : In x A2) by (apply inA2; auto).
    destruct (fi_anchor _ _ _ _ HF _ _ _ HFM HxA) as [HxD Hxl].
    assert (Hnu : ~ U x).
    { intros [H|H].
      - assert (Hl := fi_reach D phi psi lf F x d HP HF HxD H). congruence.
      - assert (E : a2 = x).
        { eapply (fi_sep _ _ _ _ HF); [exact HFM | apply inA2; auto | exact HxA|].
          apply (reach_trans _ _ e); auto. apply (reach_sym D phi psi HP); auto. }
        inversion nd2; subst; contradiction. }
    repeat split; auto. apply HD'. repeat split; auto; intros ->; apply Hnu.
    - left; apply reach_refl.
    - right; apply reach_refl.
  Qed.
  Let b_facts x : In x b -> In x D' /\ U x.
  Proof.
    intros Hx. destruct Hb as [[-> _]|(y & -> & Hy & HU)]; [destruct Hx|].
    destruct Hx as [->|[]]; auto.
  Qed.
  Let inB x : In x B <-> In x b \/ In x R1 \/ In x R2.
  Proof.
    split; intros H.
    - apply (Permutation_in _ HB) in H. rewrite !in_app_iff in H; tauto.
    - apply (Permutation_in _ (Permutation_sym HB)). rewrite !in_app_iff; tauto.
  Qed.
  Let D'_D x : In x D' -> In x D.
  Proof. intros H; apply HD' in H; tauto. Qed.
  Let lf'S x : In x D' -> lf x = Some S_ \/ lf x = Some M -> lf' x = Some S_.
  Proof.
    intros Hx [H|H]; rewrite Hlf', H by assumption.
    - destruct (Nat.eqb_spec S_ M); congruence.
    - rewrite Nat.eqb_refl; reflexivity.
  Qed.

  Lemma FI_merge : FI D' phi' lf' F'.
  Proof.
    constructor.
    - intros x Hx. pose proof (D'_D x Hx) as HxD.
      destruct (U_dec x HxD) as [HU|HU].
      + destruct Hb as [[_ Hn]|(y & -> & Hy & HUy)]; [exfalso; apply (Hn x); assumption|].
        exists S_, B, y. repeat split; auto.
        * apply inB; left; left; reflexivity.
        * apply Hphi'; auto.
      + destruct (fi_cover _ _ _ _ HF x HxD) as (l & A & a & Hl & HA & Ha & Hr).
        destruct (fi_anchor _ _ _ _ HF _ _ _ HA Ha) as [HaD Hal].
        assert (HaU : ~ U a).
        { assert (Hrs := reach_sym D phi psi HP a x HaD Hr).
          intros [K|K]; apply HU; [left|right]; eapply reach_trans; eassumption. }
        assert (HaD' : In a D').
        { apply HD'. repeat split; auto; intros ->; apply HaU; [left|right]; apply reach_refl. }
        assert (Hr' : reach phi' a x) by (apply Hphi'; auto).
        destruct (Nat.eq_dec l M) as [->|HlM'].
        * exists S_, B, a. repeat split; auto.
          apply inB. rewrite HFM in HA; injection HA as <-. apply inA2 in Ha.
          destruct Ha as [->|Ha]; auto. exfalso; apply HaU; right; assumption.
        * destruct (Nat.eq_dec l S_) as [->|HlS'].
          -- exists S_, B, a. repeat split; auto.
             apply inB. rewrite HFS in HA; injection HA as <-. apply inA1 in Ha.
             destruct Ha as [->|Ha]; auto. exfalso; apply HaU; left; assumption.
          -- exists l, A, a. repeat split; auto.
             ++ rewrite Hlf', Hl by assumption. destruct (Nat.eqb_spec l M); congruence.
             ++ rewrite HFo'; auto.
    - intros l A a HA Ha.
      destruct (Nat.eq_dec l M) as [->|HlM']; [congruence|].
      destruct (Nat.eq_dec l S_) as [->|HlS'].
      + rewrite HFS' in HA; injection HA as <-. apply inB in Ha.
        destruct Ha as [Ha|[Ha|Ha]].
        * destruct (b_facts a Ha) as [H1 H2]. split; auto.
        * destruct (R1_facts a Ha) as (H1 & H2 & _). auto.
        * destruct (R2_facts a Ha) as (H1 & H2 & _). auto.
      + rewrite HFo' in HA by assumption.
        destruct (fi_anchor _ _ _ _ HF _ _ _ HA Ha) as [HaD Hal].
        assert (HaD' : In a D').
        { apply HD'. repeat split; auto; intros ->; congruence. }
        split; auto. rewrite Hlf', Hal by assumption. destruct (Nat.eqb_spec l M); congruence.
    - intros x Hx. pose proof (Hcl x Hx) as Hx'.
      assert (Hr : reach phi' x (phi' x)) by apply reach_step.
      apply Hphi' in Hr; auto. destruct Hr as [Hr|[H1 H2]].
      + rewrite !Hlf' by assumption.
        rewrite (fi_reach D phi psi lf F x _ HP HF (D'_D x Hx) Hr). reflexivity.
      + rewrite !lf'S; auto.
    - intros l A HA.
      destruct (Nat.eq_dec l M) as [->|HlM']; [congruence|].
      destruct (Nat.eq_dec l S_) as [->|HlS'].
      + rewrite HFS' in HA; injection HA as <-.
        eapply Permutation_NoDup; [apply Permutation_sym; exact HB|].
        apply NoDup_app_intro; [|apply NoDup_app_intro|].
        * destruct Hb as [[-> _]|(y & -> & _)]; repeat constructor. intros [].
        * inversion nd1; assumption.
        * inversion nd2; assumption.
        * intros x H1 H2. destruct (R1_facts x H1) as (_ & K1 & _).
          destruct (R2_facts x H2) as (_ & K2 & _). congruence.
        * intros x H1 H2. destruct (b_facts x H1) as [_ HU]. apply in_app_or in H2.
          destruct H2 as [H2|H2];
            [destruct (R1_facts x H2) as (_ & _ & K) | destruct (R2_facts x H2) as (_ & _ & K)];
            contradiction.
      + rewrite HFo' in HA by assumption. eapply fi_nodup; eassumption.
    - intros l A x y HA Hx Hy Hr.
      destruct (Nat.eq_dec l M) as [->|HlM']; [congruence|].
      destruct (Nat.eq_dec l S_) as [->|HlS'].
      + rewrite HFS' in HA; injection HA as <-.
        apply inB in Hx. apply inB in Hy.
        assert (HxD' : In x D').
        { destruct Hx as [H|[H|H]]; [apply b_facts in H | apply R1_facts in H | apply R2_facts in H]; tauto. }
        assert (HyD' : In y D').
        { destruct Hy as [H|[H|H]]; [apply b_facts in H | apply R1_facts in H | apply R2_facts in H]; tauto. }
        apply Hphi' in Hr; auto.
        assert (HUcase : (U x /\ U y) \/ (reach phi x y /\ ~ (U x /\ U y))).
        { destruct (U_dec x (D'_D x HxD')); destruct (U_dec y (D'_D y HyD')); tauto. }
        destruct HUcase as [[H1 H2]|[Hr' Hn]].
        * assert (Hbx : In x b).
          { destruct Hx as [H|[H|H]]; auto; [apply R1_facts in H | apply R2_facts in H]; tauto. }
          assert (Hby : In y b).
          { destruct Hy as [H|[H|H]]; auto; [apply R1_facts in H | apply R2_facts in H]; tauto. }
          destruct Hb as [[-> _]|(z & -> & _)]; [destruct Hbx|].
          destruct Hbx as [<-|[]]; destruct Hby as [<-|[]]; reflexivity.
        * assert (Hnx : ~ U x).
          { intros H; apply Hn; split; auto.
            assert (Hrs := reach_sym D phi psi HP x y (D'_D x HxD') Hr').
            destruct H; [left|right]; eapply reach_trans; eassumption. }
          assert (Hny : ~ U y).
          { intros H; apply Hnx. destruct H; [left|right]; eapply reach_trans; eassumption. }
          assert (Hlxy := fi_reach D phi psi lf F x y HP HF (D'_D x HxD') Hr').
          destruct Hx as [H|[H|H]]; [apply b_facts in H; tauto | |].
          -- destruct Hy as [K|[K|K]]; [apply b_facts in K; tauto | |].
             ++ eapply (fi_sep _ _ _ _ HF); [exact HFS | | | exact Hr']; apply inA1; auto.
             ++ apply R1_facts in H; apply R2_facts in K. exfalso.
                destruct H as (_ & H & _), K as (_ & K & _). congruence.
          -- destruct Hy as [K|[K|K]]; [apply b_facts in K; tauto | |].
             ++ apply R2_facts in H; apply R1_facts in K. exfalso.
                destruct H as (_ & H & _), K as (_ & K & _). congruence.
             ++ eapply (fi_sep _ _ _ _ HF); [exact HFM | | | exact Hr']; apply inA2; auto.
      + rewrite HFo' in HA by assumption.
        destruct (fi_anchor _ _ _ _ HF _ _ _ HA Hx) as [HxD Hxl].
        destruct (fi_anchor _ _ _ _ HF _ _ _ HA Hy) as [HyD Hyl].
        assert (HxD' : In x D') by (apply HD'; repeat split; auto; intros ->; congruence).
        assert (HyD' : In y D') by (apply HD'; repeat split; auto; intros ->; congruence).
        apply Hphi' in Hr; auto. destruct Hr as [Hr|[HU _]].
        * eapply fi_sep; eassumption.
        * apply U_lf in HU; auto. destruct HU; congruence.
  Qed.
End Merge.

Section Split.
  Variables D D' : list Z.
  Variables phi psi phi' : Z -> Z.
  Variables lf lf' : Z -> option nat.
  Variables F F' : nat -> option (list Z).
  Variables d e : Z.
  Variable S_ : nat.
  Variables A R B b1 b2 : list Z.
  Variable a : Z.
  Hypothesis HP : perm_on D phi psi.
  Hypothesis HF : FI D phi lf F.
  Hypothesis Hd : In d D.
  Hypothesis He : In e D.
  Hypothesis Hde : d <> e.
  Hypothesis Hrde : reach phi d e.
  Hypothesis HlS : lf d = Some S_.
  Hypothesis HFS : F S_ = Some A.
  Hypothesis HA : Permutation A (a :: R).
  Hypothesis Hra : reach phi a d.
  Hypothesis HD' : forall x, In x D' <-> In x D /\ x <> d /\ x <> e.
  Let phi1 := swp phi d e.
  Hypothesis Hphi' : forall x y, In x D' -> In y D' -> (reach phi' x y <-> reach phi1 x y).
  Hypothesis Hcl : forall x, In x D' -> In (phi' x) D'.
  Hypothesis Hlf' : forall x, In x D' -> lf' x = lf x.
  Hypothesis HFS' : F' S_ = Some B.
  Hypothesis HFo' : forall l, l <> S_ -> F' l = F l.
  Hypothesis HB : Permutation B (b1 ++ b2 ++ R).
  Hypothesis Hb1 : (b1 = [] /\ forall x, In x D' -> ~ reach phi1 x d) \/
                   (exists x, b1 = [x] /\ In x D' /\ reach phi1 x d).
  Hypothesis Hb2 : (b2 = [] /\ forall x, In x D' -> ~ reach phi1 x e) \/
                   (exists x, b2 = [x] /\ In x D' /\ reach phi1 x e).

  Let HP1 : perm_on D phi1 (fun z => tr d e (psi z)) := swp_perm D phi psi d e HP Hd He.

  Let sub x y : In x D -> reach phi1 x y -> reach phi x y.
  Proof. intros Hx H; eapply (swp_sub D phi psi HP d e); eassumption. Qed.

  Let ndR : NoDup (a :: R).
  Proof. eapply Permutation_NoDup; [exact HA | eapply fi_nodup; eassumption]. Qed.

  Let inA x : In x A <-> x = a \/ In x R.
  Proof.
    split; intros H.
    - apply (Permutation_in _ HA) in H. destruct H; auto.
    - apply (Permutation_in _ (Permutation_sym HA)). simpl; destruct H; auto.
  Qed.
  Let inB x : In x B <-> In x b1 \/ In x b2 \/ In x R.
  Proof.
    split; intros H.
    - apply (Permutation_in _ HB) in H. rewrite !in_app_iff in H; tauto.
    - apply (Permutation_in _ (Permutation_sym HB)). rewrite !in_app_iff; tauto.
  Qed.
  Let D'_D x : In x D' -> In x D.
  Proof. intros H; apply HD' in H; tauto. Qed.
  Let R_facts x : In x R -> In x D' /\ lf x = Some S_ /\ ~ reach phi x d.
  Proof.
    intros Hx.
    assert (HxA : In x A) by (apply inA; auto).
    destruct (fi_anchor _ _ _ _ HF _ _ _ HFS HxA) as [HxD Hxl].
    assert (Hn : ~ reach phi x d).
    { intros H. assert (E : a = x).
      { eapply (fi_sep _ _ _ _ HF); [exact HFS | apply inA; auto | exact HxA|].
        apply (reach_trans _ _ d); auto. apply (reach_sym D phi psi HP); auto. }
      inversion ndR; subst; contradiction. }
    repeat split; auto. apply HD'. repeat split; auto; intros ->; apply Hn.
    - apply reach_refl.
    - apply (reach_sym D phi psi HP); auto.
  Qed.
  Let b1_facts x : In x b1 -> In x D' /\ reach phi1 x d.
  Proof.
    intros Hx. destruct Hb1 as [[-> _]|(y & -> & Hy & HU)]; [destruct Hx|].
    destruct Hx as [->|[]]; auto.
  Qed.
  Let b2_facts x : In x b2 -> In x D' /\ reach phi1 x e.
  Proof.
    intros Hx. destruct Hb2 as [[-> _]|(y & -> & Hy & HU)]; [destruct Hx|].
    destruct Hx as [->|[]]; auto.
  Qed.
  Let to_d x : In x D -> reach phi1 x d \/ reach phi1 x e -> reach phi x d.
  Proof.
    intros Hx [H|H]; [apply sub; assumption|].
    apply (reach_trans _ _ e); [apply sub; assumption|].
    apply (reach_sym D phi psi HP); auto.
  Qed.
  Let not_both x : In x D -> reach phi1 x d -> reach phi1 x e -> False.
  Proof.
    intros Hx H1 H2. apply (split_xy D phi psi HP d e Hd He Hde Hrde).
    apply (reach_trans _ _ x); auto. apply (reach_sym D phi1 _ HP1); auto.
  Qed.

  Lemma FI_split : FI D' phi' lf' F'.
  Proof.
    constructor.
    - intros x Hx. pose proof (D'_D x Hx) as HxD.
      destruct (reach_dec D phi psi HP x d HxD) as [Hxd|Hxd].
      + assert (Hl : lf' x = Some S_).
        { rewrite Hlf' by assumption. rewrite <- HlS. symmetry.
          apply (fi_reach D phi psi lf F); assumption. }
        destruct (swp_split D phi d e x HxD Hxd) as [H|H].
        * destruct Hb1 as [[_ Hn]|(y & -> & Hy & Hyr)]; [exfalso; apply (Hn x); assumption|].
          exists S_, B, y. repeat split; auto; [apply inB; left; left; reflexivity|].
          apply Hphi'; auto. apply (reach_trans _ _ d); auto.
          apply (reach_sym D phi1 _ HP1); auto.
        * destruct Hb2 as [[_ Hn]|(y & -> & Hy & Hyr)]; [exfalso; apply (Hn x); assumption|].
          exists S_, B, y. repeat split; auto; [apply inB; right; left; left; reflexivity|].
          apply Hphi'; auto. apply (reach_trans _ _ e); auto.
          apply (reach_sym D phi1 _ HP1); auto.
      + destruct (fi_cover _ _ _ _ HF x HxD) as (l & A' & c & Hl & HA' & Hc & Hr).
        destruct (fi_anchor _ _ _ _ HF _ _ _ HA' Hc) as [HcD Hcl'].
        assert (Hnd : ~ reach phi c d).
        { intros H; apply Hxd. apply (reach_trans _ _ c); auto.
          apply (reach_sym D phi psi HP); auto. }
        assert (Hne : ~ reach phi c e).
        { intros H; apply Hnd. apply (reach_trans _ _ e); auto.
          apply (reach_sym D phi psi HP); auto. }
        assert (HcD' : In c D').
        { apply HD'; repeat split; auto; intros ->; [apply Hnd | apply Hne]; apply reach_refl. }
        assert (Hr' : reach phi' c x).
        { apply Hphi'; auto. apply swp_other; assumption. }
        destruct (Nat.eq_dec l S_) as [->|HlS'].
        * exists S_, B, c. repeat split; auto; [rewrite Hlf'; assumption|].
          apply inB. rewrite HFS in HA'; injection HA' as <-. apply inA in Hc.
          destruct Hc as [->|Hc]; auto. contradiction.
        * exists l, A', c. repeat split; auto; [rewrite Hlf'; assumption | rewrite HFo'; assumption].
    - intros l A' c HA' Hc. destruct (Nat.eq_dec l S_) as [->|HlS'].
      + rewrite HFS' in HA'; injection HA' as <-. apply inB in Hc.
        assert (Hgo : In c D' /\ reach phi c d -> In c D' /\ lf' c = Some S_).
        { intros [H1 H2]; split; auto. rewrite Hlf' by assumption. rewrite <- HlS.
          symmetry; apply (fi_reach D phi psi lf F); auto. }
        destruct Hc as [H|[H|H]].
        * destruct (b1_facts c H). apply Hgo; split; auto.
        * destruct (b2_facts c H). apply Hgo; split; auto.
        * destruct (R_facts c H) as (H1 & H2 & _). split; auto. rewrite Hlf'; assumption.
      + rewrite HFo' in HA' by assumption.
        destruct (fi_anchor _ _ _ _ HF _ _ _ HA' Hc) as [HcD Hcl'].
        assert (Hle : lf e = Some S_).
        { rewrite <- HlS. apply (fi_reach D phi psi lf F); assumption. }
        assert (HcD' : In c D') by (apply HD'; repeat split; auto; intros ->; congruence).
        split; auto. rewrite Hlf'; assumption.
    - intros x Hx. pose proof (Hcl x Hx) as Hx'.
      assert (Hr : reach phi' x (phi' x)) by apply reach_step.
      apply Hphi' in Hr; auto. rewrite !Hlf' by assumption.
      apply (fi_reach D phi psi lf F); auto.
    - intros l A' HA'. destruct (Nat.eq_dec l S_) as [->|HlS'].
      + rewrite HFS' in HA'; injection HA' as <-.
        eapply Permutation_NoDup; [apply Permutation_sym; exact HB|].
        apply NoDup_app_intro; [|apply NoDup_app_intro|].
        * destruct Hb1 as [[-> _]|(y & -> & _)]; repeat constructor. intros [].
        * destruct Hb2 as [[-> _]|(y & -> & _)]; repeat constructor. intros [].
        * inversion ndR; assumption.
        * intros x H1 H2. destruct (b2_facts x H1) as [H3 H4].
          destruct (R_facts x H2) as (_ & _ & H5). apply H5, to_d; auto.
        * intros x H1 H2. destruct (b1_facts x H1) as [H3 H4]. apply in_app_or in H2.
          destruct H2 as [H2|H2].
          -- destruct (b2_facts x H2). apply (not_both x); auto.
          -- destruct (R_facts x H2) as (_ & _ & H5). apply H5, to_d; auto.
      + rewrite HFo' in HA' by assumption. eapply fi_nodup; eassumption.
    - intros l A' x y HA' Hx Hy Hr. destruct (Nat.eq_dec l S_) as [->|HlS'].
      + rewrite HFS' in HA'; injection HA' as <-. apply inB in Hx. apply inB in Hy.
        assert (HxD' : In x D').
        { destruct Hx as [H|[H|H]]; [apply b1_facts in H | apply b2_facts in H | apply R_facts in H]; tauto. }
        assert (HyD' : In y D').
        { destruct Hy as [H|[H|H]]; [apply b1_facts in H | apply b2_facts in H | apply R_facts in H]; tauto. }
        apply Hphi' in Hr; auto.
        assert (Hrs := reach_sym D phi1 _ HP1 x y (D'_D x HxD') Hr).
        assert (Hrp := sub x y (D'_D x HxD') Hr).
        assert (Hrps := sub y x (D'_D y HyD') Hrs).
        destruct Hx as [H|[H|H]]; destruct Hy as [K|[K|K]].
        * destruct Hb1 as [[-> _]|(z & -> & _)]; [destruct H|].
          destruct H as [<-|[]]; destruct K as [<-|[]]; reflexivity.
        * exfalso. apply b1_facts in H; apply b2_facts in K. apply (not_both x); auto; [tauto|].
          apply (reach_trans _ _ y); tauto.
        * exfalso. apply b1_facts in H; apply R_facts in K. destruct K as (_ & _ & K). apply K.
          apply (reach_trans _ _ x); auto. apply to_d; auto. tauto.
        * exfalso. apply b2_facts in H; apply b1_facts in K. apply (not_both y); auto; [tauto|].
          apply (reach_trans _ _ x); tauto.
        * destruct Hb2 as [[-> _]|(z & -> & _)]; [destruct H|].
          destruct H as [<-|[]]; destruct K as [<-|[]]; reflexivity.
        * exfalso. apply b2_facts in H; apply R_facts in K. destruct K as (_ & _ & K). apply K.
          apply (reach_trans _ _ x); auto. apply to_d; auto. tauto.
        * exfalso. apply R_facts in H; apply b1_facts in K. destruct H as (_ & _ & H). apply H.
          apply (reach_trans _ _ y); auto. apply to_d; auto. tauto.
        * exfalso. apply R_facts in H; apply b2_facts in K. destruct H as (_ & _ & H). apply H.
          apply (reach_trans _ _ y); auto. apply to_d; auto. tauto.
        * eapply (fi_sep _ _ _ _ HF); [exact HFS | | | exact Hrp]; apply inA; auto.
      + rewrite HFo' in HA' by assumption.
        destruct (fi_anchor _ _ _ _ HF _ _ _ HA' Hx) as [HxD Hxl].
        destruct (fi_anchor _ _ _ _ HF _ _ _ HA' Hy) as [HyD Hyl].
        assert (Hle : lf e = Some S_).
        { rewrite <- HlS. apply (fi_reach D phi psi lf F); assumption. }
        assert (HxD' : In x D') by (apply HD'; repeat split; auto; intros ->; congruence).
        assert (HyD' : In y D') by (apply HD'; repeat split; auto; intros ->; congruence).
        apply Hphi' in Hr; auto. eapply fi_sep; try eassumption. apply sub; auto.
  Qed.
End Split.

(** Dropping darts from contours, anchors moved along their contours. *)
Lemma FI_shrink D D' phi psi phi' lf lf' F F' :
  perm_on D phi psi -> FI D phi lf F ->
  (forall x, In x D' -> In x D) ->
  (forall x y, In x D' -> In y D' -> (reach phi' x y <-> reach phi x y)) ->
  (forall x, In x D' -> In (phi' x) D') ->
  (forall x, In x D' -> lf' x = lf x) ->
  (forall l, match F l, F' l with
             | None, None => True
             | Some A, Some A' => Forall2 (fun a a' => reach phi a a' /\ In a' D') A A'
             | _, _ => False
             end) ->
  FI D' phi' lf' F'.
Proof.
  intros HP HF HDD Hphi' Hcl Hlf' HFF.
  assert (Hin2 : forall (P : Z -> Z -> Prop) A A' a', Forall2 P A A' -> In a' A' -> exists a, In a A /\ P a a').
  { intros P A A' a' H2. induction H2; intros Hi; [destruct Hi|].
    destruct Hi as [->|Hi]; [exists x; simpl; auto|].
    destruct (IHForall2 Hi) as (a0 & H3 & H4); exists a0; simpl; auto. }
  assert (Hin1 : forall (P : Z -> Z -> Prop) A A' a, Forall2 P A A' -> In a A -> exists a', In a' A' /\ P a a').
  { intros P A A' a H2. induction H2; intros Hi; [destruct Hi|].
    destruct Hi as [->|Hi]; [exists y; simpl; auto|].
    destruct (IHForall2 Hi) as (a0 & H3 & H4); exists a0; simpl; auto. }
  assert (HFi : forall l A', F' l = Some A' -> exists A, F l = Some A /\
              Forall2 (fun a a' => reach phi a a' /\ In a' D') A A').
  { intros l A' H. specialize (HFF l). rewrite H in HFF. destruct (F l) as [A|]; [|destruct HFF].
    exists A; auto. }
  constructor.
  - intros x Hx.
    destruct (fi_cover _ _ _ _ HF x (HDD x Hx)) as (l & A & a & Hl & HA & Ha & Hr).
    destruct (fi_anchor _ _ _ _ HF _ _ _ HA Ha) as [HaD Hal].
    specialize (HFF l). rewrite HA in HFF. destruct (F' l) as [A'|] eqn:E; [|destruct HFF].
    destruct (Hin1 _ _ _ _ HFF Ha) as (a' & Ha' & Hr' & HaD').
    exists l, A', a'. repeat split; auto; [rewrite Hlf'; assumption|].
    apply Hphi'; auto. apply (reach_trans _ _ a); auto. apply (reach_sym D phi psi HP); auto.
  - intros l A' a' HA' Ha'. destruct (HFi l A' HA') as (A & HA & H2).
    destruct (Hin2 _ _ _ _ H2 Ha') as (a & Ha & Hr & HaD').
    destruct (fi_anchor _ _ _ _ HF _ _ _ HA Ha) as [HaD Hal].
    split; auto. rewrite Hlf' by assumption. rewrite (fi_reach D phi psi lf F a a'); auto.
  - intros x Hx. rewrite !Hlf' by auto. apply (fi_reach D phi psi lf F); auto.
    apply Hphi'; auto. apply reach_step.
  - intros l A' HA'. destruct (HFi l A' HA') as (A & HA & H2).
    pose proof (fi_nodup _ _ _ _ HF _ _ HA) as Hnd.
    assert (Hsep : forall a b, In a A -> In b A -> reach phi a b -> a = b).
    { intros; eapply fi_sep; eassumption. }
    assert (HAD : forall a, In a A -> In a D).
    { intros a Ha; eapply fi_anchor; eassumption. }
    clear HA HA'. induction H2 as [|a a' A A' [Hr HaD'] H2 IH]; constructor.
    + intros Hi. destruct (Hin2 _ _ _ _ H2 Hi) as (b & Hb & Hrb & _).
      inversion Hnd; subst. assert (a = b); [|subst; contradiction].
      apply Hsep; simpl; auto. apply (reach_trans _ _ a'); auto.
      apply (reach_sym D phi psi HP); auto. apply HAD; right; assumption.
    + inversion Hnd; subst. apply IH; auto.
      * intros; apply Hsep; simpl; auto.
      * intros; apply HAD; simpl; auto.
  - intros l A' x' y' HA' Hx' Hy' Hr. destruct (HFi l A' HA') as (A & HA & H2).
    destruct (Hin2 _ _ _ _ H2 Hx') as (x & Hx & Hrx & HxD').
    destruct (Hin2 _ _ _ _ H2 Hy') as (y & Hy & Hry & HyD').
    apply Hphi' in Hr; auto.
    assert (x = y).
    { eapply (fi_sep _ _ _ _ HF); try eassumption. apply (reach_trans _ _ x'); auto.
      apply (reach_trans _ _ y'); auto. apply (reach_sym D phi psi HP); auto.
      eapply fi_anchor; eassumption. }
    subst y.
    (* positions *)
    pose proof (fi_nodup _ _ _ _ HF _ _ HA) as Hnd.
    assert (Hsep : forall a b, In a A -> In b A -> reach phi a b -> a = b).
    { intros; eapply fi_sep; eassumption. }
    assert (HAD : forall a, In a A -> In a D).
    { intros a Ha; eapply fi_anchor; eassumption. }
    clear HA HA' Hr. induction H2 as [|a a' A A' [Hra HaD'] H2 IH]; [destruct Hx|].
    assert (Hone : forall z' , In z' A' -> reach phi x z' -> x = a -> False).
    { intros z' Hz' Hrz ->. destruct (Hin2 _ _ _ _ H2 Hz') as (b & Hb & Hrb & _).
      inversion Hnd; subst. assert (a = b); [|subst; contradiction].
      apply Hsep; simpl; auto. apply (reach_trans _ _ z'); auto.
      apply (reach_sym D phi psi HP); auto. apply HAD; right; assumption. }
    destruct (Z.eq_dec x a) as [Exa|Exa].
    + destruct Hx' as [<-|Hx']; [|exfalso; eapply Hone; eassumption].
      destruct Hy' as [<-|Hy']; [reflexivity | exfalso; eapply (Hone y'); eassumption].
    + assert (Hax : forall z', reach phi x z' -> a' = z' -> False).
      { intros z' Hz' <-. apply Exa. symmetry. apply Hsep; simpl; auto.
        apply (reach_trans _ _ a'); auto. apply (reach_sym D phi psi HP); auto. }
      inversion Hnd; subst.
      apply IH; auto.
      * destruct Hx' as [E|E]; auto. exfalso; exact (Hax x' Hrx E).
      * destruct Hy' as [E|E]; auto. exfalso; exact (Hax y' Hry E).
      * destruct Hx as [E|E]; [congruence | assumption].
      * destruct Hy as [E|E]; [congruence | assumption].
      * intros; apply Hsep; simpl; auto.
      * intros; apply HAD; simpl; auto.
Qed.

(** Inserting darts into contours. *)
Lemma FI_grow D D' phi psi phi' lf lf' F :
  perm_on D phi psi -> FI D phi lf F ->
  (forall x, In x D -> In x D') ->
  (forall x y, In x D -> In y D -> (reach phi' x y <-> reach phi x y)) ->
  (forall x, In x D' -> exists y, In y D /\ reach phi' y x /\ lf' x = lf y) ->
  (forall x, In x D -> lf' x = lf x) ->
  (forall x, In x D' -> lf' (phi' x) = lf' x) ->
  FI D' phi' lf' F.
Proof.
  intros HP HF HDD Hphi' Hnew Hlf' Hphil. constructor.
  - intros x Hx. destruct (Hnew x Hx) as (y & Hy & Hr & Hl).
    destruct (fi_cover _ _ _ _ HF y Hy) as (l & A & a & Hla & HA & Ha & Hra).
    exists l, A, a. repeat split; auto; [congruence|].
    apply (reach_trans _ _ y); auto. apply Hphi'; auto. eapply fi_anchor; eassumption.
  - intros l A a HA Ha. destruct (fi_anchor _ _ _ _ HF _ _ _ HA Ha). split; auto.
    rewrite Hlf'; assumption.
  - assumption.
  - apply HF.
  - intros l A a b HA Ha Hb Hr. apply Hphi' in Hr.
    + eapply fi_sep; eassumption.
    + eapply fi_anchor; eassumption.
    + eapply fi_anchor; eassumption.
Qed.
