(** mergeEdges: what it does to the tables and why the rotation stays sound. *)
From Verif Require Import Base Orbit Conj FaceInv GeoMap_Model GeoMap_Views GeoMap_SInv GeoMap_Remove.
Local Open Scope Z_scope.

Definition fanch m l : option (list Z) := option_map fanchors (fAt m l).

(** faces describe the contours *)
Definition FIm m : Prop := FI (darts m) (phi m) (lft m) (fanch m).

Lemma phi_perm m : SI m (darts m) -> perm_on (darts m) (phi m) (fun x => - sg m x).
Proof.
  intros S x Hx. unfold phi.
  pose proof (si_perm _ _ S) as HP.
  destruct (HP x Hx) as (A & B & C & E).
  destruct (HP (- x) (darts_opp _ _ Hx)) as (A' & B' & C' & E').
  repeat split; auto.
  - apply darts_opp; assumption.
  - rewrite E'; lia.
  - rewrite Z.opp_involutive; assumption.
Qed.

Record Deg2 m d1 d2 : Prop := {
  g2_1 : In d1 (darts m);
  g2_2 : In d2 (darts m);
  g2_12 : sg m d1 = d2;
  g2_21 : sg m d2 = d1;
  g2_ne : d1 <> d2;
  g2_no : d1 <> - d2 }.

Section Deg2Facts.
  Variables (m : gmap) (d1 d2 : Z).
  Hypothesis V : SInv m.
  Hypothesis G : Deg2 m d1 d2.
  Let S := sv_si _ V.
  Let HP := si_perm _ _ S.

  Lemma g2_0 : d2 <> 0.
  Proof. apply (si_nz _ _ S), G. Qed.
  Lemma g2_2' : In (- d2) (darts m).
  Proof. apply darts_opp, G. Qed.
  Lemma g2_1' : In (- d1) (darts m).
  Proof. apply darts_opp, G. Qed.
  Lemma g2_si1 : sgi m d1 = d2.
  Proof. rewrite <- (g2_21 _ _ _ G). apply HP, G. Qed.
  Lemma g2_si2 : sgi m d2 = d1.
  Proof. rewrite <- (g2_12 _ _ _ G). apply HP, G. Qed.
  Lemma g2_st : stt m d1 = stt m d2.
  Proof. rewrite <- (g2_12 _ _ _ G). symmetry; apply (si_st _ _ S), G. Qed.

  (** the node has no other darts *)
  Lemma g2_only x : In x (darts m) -> stt m x = stt m d2 -> x = d1 \/ x = d2.
  Proof.
    intros Hx E.
    assert (Hr : reach (sg m) d2 x) by (apply (SI_orbit m (darts m)); auto; exact (g2_2 _ _ _ G)).
    revert x Hr Hx E. apply (reach_ind_r (sg m) d2 (fun x => _ -> _ -> x = d1 \/ x = d2)); [auto|].
    intros y Hr IH _ _.
    assert (Hy : In y (darts m)) by (eapply (reach_in _ _ _ HP); [exact (g2_2 _ _ _ G) | exact Hr]).
    assert (Ey : stt m y = stt m d2) by (symmetry; apply (SI_orbit m (darts m)); auto; exact (g2_2 _ _ _ G)).
    destruct (IH Hy Ey) as [->| ->]; [right|left]; apply G.
  Qed.

  Lemma g2_far : stt m (- d2) <> stt m d2.
  Proof.
    intros E. destruct (g2_only _ g2_2' E) as [H|H].
    - apply (g2_no _ _ _ G); auto.
    - pose proof g2_0; lia.
  Qed.
  Lemma g2_far1 : stt m (- d1) <> stt m d2.
  Proof.
    intros E. destruct (g2_only _ g2_1' E) as [H|H].
    - assert (d1 <> 0) by (apply (si_nz _ _ S), G). lia.
    - apply (g2_no _ _ _ G); lia.
  Qed.

  Lemma g2_in1 : In d1 (rest m d2).
  Proof. apply in_rest. repeat split; apply G. Qed.

  Lemma g2_phi : phi m (- d2) = d1 /\ phi m (- d1) = d2 /\ phi m d2 <> d2.
  Proof.
    unfold phi. rewrite !Z.opp_involutive. repeat split; [apply g2_si2 | apply g2_si1|].
    intros E. apply (f_equal (sg m)) in E. rewrite (g2_21 _ _ _ G) in E.
    destruct (HP _ g2_2') as (_ & _ & _ & F). rewrite F in E. apply (g2_no _ _ _ G); auto.
  Qed.
End Deg2Facts.

(** ** Moving anchors off the edge *)

Lemma moveAnchor_spec m l el : (forall a, In a l -> Z.abs a <= cap m) ->
  exists l', moveAnchor m l el = Ok l' /\
    ((l' = l /\ forall a, In a l -> elab a <> el) \/
     (exists u a v, l = u ++ a :: v /\ l' = u ++ phi m a :: v /\ elab a = el /\
        forall b, In b u -> elab b <> el)).
Proof.
  induction l as [|a t IH]; intros Hc; simpl.
  - exists []; split; auto.
  - destruct (Nat.eqb_spec (elab a) el) as [E|E].
    + unfold nextPhi. rewrite getSi_Ok by (rewrite Z.abs_opp; apply Hc; left; reflexivity). cbn [bind].
      exists (phi m a :: t). split; [reflexivity|]. right. exists [], a, t. repeat split; auto; try (intros b []; fail).
    + destruct IH as (l' & Hr & H); [intros; apply Hc; right; assumption|].
      rewrite Hr. cbn [bind]. exists (a :: l'). split; [reflexivity|].
      destruct H as [[-> Hn]|(u & b & v & -> & -> & Hb & Hn)].
      * left; split; auto. intros b [<-|Hb]; auto.
      * right. exists (a :: u), b, v. repeat split; auto. intros c [<-|Hc']; auto.
Qed.

(** a list of anchors moved along their contours, off the edge [d2] *)
Definition movedOff m d2 (A A' : list Z) : Prop :=
  Forall2 (fun a a' => reach (phi m) a a' /\ In a' (rest m d2)) A A'.

Lemma Forall2_same {A} (P : A -> A -> Prop) l : (forall a, In a l -> P a a) -> Forall2 P l l.
Proof. induction l; intros H; constructor; auto; [apply H; left; reflexivity|]. apply IHl; intros; apply H; right; assumption. Qed.

Lemma Forall2_mid {A} (P : A -> A -> Prop) u v a b :
  (forall x, In x u -> P x x) -> P a b -> (forall x, In x v -> P x x) ->
  Forall2 P (u ++ a :: v) (u ++ b :: v).
Proof.
  intros Hu Hab Hv. apply Forall2_app; [apply Forall2_same; assumption|].
  constructor; [assumption | apply Forall2_same; assumption].
Qed.

(** Result of the face part: faces with anchors moved, everything else equal. *)
Record facesMoved m d2 m0 : Prop := {
  fm_eq : m0 = set_faces m (faces m0);
  fm_len : length (faces m0) = length (faces m);
  fm_face : forall l, match fAt m l, fAt m0 l with
      | None, None => True
      | Some f, Some f' => farea f' = farea f /\ fflags f' = fflags f /\
                           movedOff m d2 (fanchors f) (fanchors f')
      | _, _ => False
      end;
  fm_cnt : sumf ncont (faces m0) = sumf ncont (faces m);
  fm_alive : sumf alive (faces m0) = sumf alive (faces m) }.

Definition movePart m (e2 : edge) d2 : res gmap :=
  if Nat.eqb (length (faces m)) 0 then Ok m else
        match e_lf e2 d2, e_lf e2 (- d2) with
        | Some l, Some r =>
            f <- deref (faceP m l) ;;
            _ <- deref (faceP m r) ;;
            a <- moveAnchor m (fanchors f) (elab d2) ;;
            let m := putF m l (Some (set_anchors f a)) in
            f <- deref (faceP m r) ;;
            a <- moveAnchor m (fanchors f) (elab d2) ;;
            Ok (putF m r (Some (set_anchors f a)))
        | _, _ => Exn
        end.

Lemma fAt_putF m l f j : (l < length (faces m))%nat ->
  fAt (putF m l (Some f)) j = if Nat.eqb l j then Some f else fAt m j.
Proof.
  intros H. unfold fAt, putF; cbn [faces set_faces]. rewrite tget_upd.
  apply Nat.ltb_lt in H; rewrite H; reflexivity.
Qed.

Lemma elab_two x d : elab x = elab d <-> x = d \/ x = - d.
Proof. apply elab_eq. Qed.

Lemma movePart_spec m d1 d2 e2 :
  SInv m -> faces m = [] \/ FIm m -> Deg2 m d1 d2 -> eAt m (elab d2) = Some e2 ->
  exists m0, movePart m e2 d2 = Ok m0 /\ facesMoved m d2 m0.
Proof.
  intros V HF G He2. unfold movePart.
  destruct HF as [HF|HF].
  { rewrite HF. simpl. exists m. split; [reflexivity|]. constructor; try reflexivity.
    - destruct m; reflexivity.
    - intros l. unfold fAt; rewrite HF. destruct l; exact I. }
  set (S := sv_si _ V).
  pose proof (phi_perm m S) as HPp.
  pose proof (g2_2 _ _ _ G) as H2. pose proof (g2_2' m d1 d2 G) as H2'.
  assert (Hz : d2 <> 0) by exact (g2_0 m d1 d2 V G).
  destruct (g2_phi m d1 d2 V G) as (P1 & P2 & P3).
  destruct (fi_cover _ _ _ _ HF d2 H2) as (l & A & a & Hl & HA & _).
  destruct (fi_cover _ _ _ _ HF (- d2) H2') as (r & B & b & Hr & HB & _).
  unfold lft in Hl, Hr. rewrite He2 in Hl. rewrite elab_opp, He2 in Hr. rewrite Hl, Hr.
  unfold fanch in HA, HB.
  destruct (fAt m l) as [f|] eqn:Ef; [|discriminate]. simpl in HA. injection HA as <-.
  destruct (fAt m r) as [g|] eqn:Eg; [|discriminate]. simpl in HB. injection HB as <-.
  pose proof (tget_lt _ _ _ Ef) as Hlf. pose proof (tget_lt _ _ _ Eg) as Hlr.
  destruct (Nat.eqb_spec (length (faces m)) 0) as [E0|_]; [lia|].
  rewrite (deref_face _ _ _ Ef). cbn [bind]. rewrite (deref_face _ _ _ Eg). cbn [bind].
  assert (Hfa : forall j h x, fAt m j = Some h -> In x (fanchors h) -> In x (darts m) /\ lft m x = Some j).
  { intros j h x Hj Hx. eapply (fi_anchor _ _ _ _ HF); [unfold fanch; rewrite Hj; reflexivity | assumption]. }
  assert (Hsep : forall j h x y, fAt m j = Some h -> In x (fanchors h) -> In y (fanchors h) ->
             reach (phi m) x y -> x = y).
  { intros j h x y Hj. eapply (fi_sep _ _ _ _ HF). unfold fanch; rewrite Hj; reflexivity. }
  assert (Hnd : forall j h, fAt m j = Some h -> NoDup (fanchors h)).
  { intros j h Hj. eapply (fi_nodup _ _ _ _ HF). unfold fanch; rewrite Hj; reflexivity. }
  assert (Hcapf : forall j h, fAt m j = Some h -> forall x, In x (fanchors h) -> Z.abs x <= cap m).
  { intros j h Hj x Hx. apply (si_cap _ _ S). eapply Hfa; eassumption. }
  assert (Hlft : lft m d2 = Some l) by (unfold lft; rewrite He2; exact Hl).
  assert (Hrgt : lft m (- d2) = Some r) by (unfold lft; rewrite elab_opp, He2; exact Hr).
  assert (Hrest : forall x, In x (darts m) -> elab x <> elab d2 -> In x (rest m d2)).
  { intros x Hx Hn. apply in_rest. repeat split; auto; intros ->; apply Hn; [reflexivity | apply elab_opp]. }
  assert (HphiD : forall x, In x (darts m) -> In (phi m x) (darts m)).
  { intros x Hx; apply HPp; assumption. }
  assert (Hd1r : In d1 (rest m d2)) by (apply g2_in1; assumption).
  (* untouched faces *)
  assert (Hother : forall j h, fAt m j = Some h -> j <> l -> j <> r -> movedOff m d2 (fanchors h) (fanchors h)).
  { intros j h Hj Hjl Hjr. apply Forall2_same. intros x Hx. split; [apply reach_refl|].
    destruct (Hfa j h x Hj Hx) as [HxD Hxl]. apply Hrest; auto.
    intros E. apply elab_two in E as [->| ->]; congruence. }
  destruct (moveAnchor_spec m (fanchors f) (elab d2)) as (l1 & R1 & C1); [eapply Hcapf; eassumption|].
  rewrite R1. cbn [bind].
  set (m1 := putF m l (Some (set_anchors f l1))).
  destruct (Nat.eq_dec l r) as [Elr|Hlr'].
  - subst r. rewrite Ef in Eg; injection Eg as <-. assert (E1 : fAt m1 l = Some (set_anchors f l1)).
    { unfold m1; rewrite fAt_putF by assumption; rewrite Nat.eqb_refl; reflexivity. }
    rewrite (deref_face _ _ _ E1). cbn [bind fanchors set_anchors].
    assert (Hl1 : forall x, In x l1 -> In x (darts m)).
    { destruct C1 as [[-> _]|(u & x0 & v & Ea & -> & Ha & Hn)].
      - intros x Hx; apply (Hfa l f x Ef Hx).
      - intros x Hx. apply in_app_or in Hx. simpl in Hx.
        assert (Hor : In x (fanchors f) \/ x = phi m x0).
        { rewrite Ea, in_app_iff; simpl; intuition. }
        destruct Hor as [Hor| ->]; [eapply Hfa; eassumption|]. apply HphiD.
        apply (Hfa l f x0 Ef). rewrite Ea. apply in_or_app; right; left; reflexivity. }
    destruct (moveAnchor_spec m1 l1 (elab d2)) as (l2 & R2 & C2).
    { intros x Hx. apply (si_cap _ _ S). auto. }
    rewrite R2. cbn [bind].
    assert (Hmv : movedOff m d2 (fanchors f) l2).
    { destruct C1 as [[-> Hn1]|(u & x0 & v & Ea & -> & Ha & Hn)].
      - destruct C2 as [[-> _]|(u & y & v & Ea & _ & Hy & _)].
        + apply Forall2_same. intros x Hx. split; [apply reach_refl|].
          apply Hrest; [eapply Hfa; eassumption | auto].
        + exfalso. apply (Hn1 y); auto. rewrite Ea. apply in_or_app; right; left; reflexivity.
      - assert (HinA : forall x, In x (fanchors f) <-> In x u \/ x = x0 \/ In x v).
        { intros x; rewrite Ea, in_app_iff; simpl; intuition. }
        pose proof (Hnd l f Ef) as Hndf. rewrite Ea in Hndf.
        apply NoDup_remove in Hndf as [_ Hx0]. rewrite in_app_iff in Hx0.
        assert (Hx0D : In x0 (darts m)) by (eapply Hfa; [eassumption | apply HinA; auto]).
        assert (HuvD : forall x, In x u \/ In x v -> In x (darts m)).
        { intros x Hx. eapply Hfa; [eassumption | apply HinA; tauto]. }
        (* the partner dart, if it is an anchor too, is on another contour *)
        assert (Hpart : forall x, In x v -> elab x = elab d2 -> x = - x0 /\ ~ reach (phi m) x0 x).
        { intros x Hx Ex. split.
          - rewrite <- Ha in Ex. apply elab_two in Ex as [->|]; [exfalso; tauto | assumption].
          - intros Hrx. apply Hx0. right.
            assert (x0 = x) by (eapply (Hsep l f); [eassumption | apply HinA; auto | apply HinA; auto | assumption]).
            subst; assumption. }
        apply elab_two in Ha as Ha'.
        destruct C2 as [[-> Hn2]|(u' & y & v' & Ea' & -> & Hy & Hn2)].
        + rewrite Ea. apply Forall2_mid.
          * intros x Hx. split; [apply reach_refl|]. apply Hrest; auto.
          * split; [apply reach_step|]. apply Hrest; auto.
            apply Hn2. apply in_or_app; right; left; reflexivity.
          * intros x Hx. split; [apply reach_refl|]. apply Hrest; auto.
            apply Hn2. apply in_or_app; right; right; assumption.
        + change (phi m1 y) with (phi m y).
          destruct (Nat.eq_dec (elab (phi m x0)) (elab d2)) as [Ephi|Ephi].
          * (* the moved anchor is still on the edge *)
            assert (x0 = d2 /\ phi m x0 = - d2) as [-> Ephi'].
            { destruct Ha' as [->| ->].
              - split; [reflexivity|]. apply elab_two in Ephi as [E|E]; [contradiction | assumption].
              - exfalso. rewrite P1 in Ephi. apply elab_two in Ephi as [E|E]; [apply (g2_ne _ _ _ G) | apply (g2_no _ _ _ G)]; assumption. }
            assert (Eu : u' = u /\ y = phi m d2 /\ v' = v).
            { clear -Ea' Hn Hn2 Hy Ephi. revert u' Ea' Hn2. induction u as [|c u IH]; intros [|c' u'] Ea' Hn2; simpl in Ea'.
              - injection Ea'; intros; subst; auto.
              - injection Ea'; intros; subst. exfalso; apply (Hn2 (phi m d2)); [left; reflexivity | assumption].
              - injection Ea'; intros; subst. exfalso; apply (Hn y); [left; reflexivity | assumption].
              - injection Ea'; intros E ->. destruct (IH (fun b Hb => Hn b (or_intror Hb)) u' E (fun b Hb => Hn2 b (or_intror Hb))) as (-> & -> & ->); auto. }
            destruct Eu as (-> & -> & ->). rewrite Ea. rewrite Ephi', P1.
            apply Forall2_mid.
            -- intros x Hx. split; [apply reach_refl|]. apply Hrest; auto.
            -- split; [|assumption]. apply reach_step_l. rewrite Ephi'. rewrite <- P1. apply reach_step.
            -- intros x Hx. split; [apply reach_refl|]. apply Hrest; auto.
               intros E. destruct (Hpart x Hx E) as [-> Hnr]. apply Hnr. rewrite <- Ephi'. apply reach_step.
          * (* the second anchor found is the partner dart, later in the list *)
            assert (Hyv : In y v /\ exists w, u' = u ++ phi m x0 :: w /\ v = w ++ y :: v').
            { clear -Ea' Hn Hy Ephi Hn2. revert u' Ea' Hn2. induction u as [|c u IH]; intros [|c' u'] Ea' Hn2; simpl in Ea'.
              - injection Ea'; intros; subst. contradiction.
              - injection Ea'; intros; subst. split; [apply in_or_app; right; left; reflexivity|].
                exists u'; split; reflexivity.
              - injection Ea'; intros; subst. exfalso; apply (Hn y); [left; reflexivity | assumption].
              - injection Ea'; intros E ->. destruct (IH (fun b Hb => Hn b (or_intror Hb)) u' E (fun b Hb => Hn2 b (or_intror Hb))) as (? & w & -> & ->).
                split; [assumption|]. exists w; split; reflexivity. }
            destruct Hyv as (Hyv & w & -> & Ev). destruct (Hpart y Hyv Hy) as [Ey Hnr].
            rewrite Ea, Ev. rewrite <- app_assoc. simpl.
            apply Forall2_app; [apply Forall2_same|constructor; [|apply Forall2_mid]].
            -- intros x Hx. split; [apply reach_refl|]. apply Hrest; auto.
            -- split; [apply reach_step|]. apply Hrest; auto.
            -- intros x Hx. split; [apply reach_refl|]. apply Hrest.
               ++ apply HuvD; right; rewrite Ev; apply in_or_app; auto.
               ++ intros E. apply (Hn2 x); [|assumption]. apply in_or_app; right; right; assumption.
            -- split; [apply reach_step|]. apply Hrest.
               ++ apply HphiD. apply HuvD; auto.
               ++ intros E. destruct Ha' as [->| ->].
                  ** rewrite Ey, P1 in E. apply elab_two in E as [E|E]; [apply (g2_ne _ _ _ G) | apply (g2_no _ _ _ G)]; assumption.
                  ** rewrite Z.opp_involutive in Ey. subst y. apply elab_two in E as [E|E]; [contradiction|].
                     apply Hnr. apply (reach_sym _ _ _ HPp); auto. rewrite <- E. apply reach_step.
            -- intros x Hx. split; [apply reach_refl|].
               assert (Hxv : In x v) by (rewrite Ev; apply in_or_app; right; right; assumption).
               apply Hrest; auto. intros E. destruct (Hpart x Hxv E) as [Ex _].
               pose proof (Hnd l f Ef) as Hndf. rewrite Ea, Ev in Hndf.
               apply NoDup_app_inv in Hndf as (_ & Hndf & _). inversion Hndf as [|? ? _ Hndv].
               apply NoDup_remove_2 in Hndv. apply Hndv. apply in_or_app; right. rewrite Ey, <- Ex; assumption. }
    exists (putF m1 l (Some (set_anchors (set_anchors f l1) l2))). split; [reflexivity|].
    constructor.
    + reflexivity.
    + unfold m1, putF; cbn [faces set_faces]. rewrite !list_upd_length; reflexivity.
    + intros j. rewrite fAt_putF by (unfold m1, putF; cbn [faces set_faces]; rewrite list_upd_length; assumption).
      unfold m1; rewrite fAt_putF by assumption.
      destruct (Nat.eqb_spec l j) as [<-|Hj].
      * rewrite Ef. cbn [farea fflags fanchors set_anchors]. auto.
      * destruct (fAt m j) as [h|] eqn:Ej; [|exact I]. repeat split; auto.
        apply (Hother j h Ej); auto.
    + assert (Hlen : length l2 = length (fanchors f)) by (clear -Hmv; induction Hmv; simpl; congruence).
      unfold m1, putF; cbn [faces set_faces]. rewrite list_upd_upd.
      rewrite (sumf_tget ncont _ _ _ _ Ef). cbn [ncont fanchors set_anchors]. rewrite Hlen. lia.
    + unfold m1, putF; cbn [faces set_faces]. rewrite list_upd_upd.
      rewrite (sumf_tget alive _ _ _ _ Ef). simpl; lia.
  - assert (E1 : fAt m1 r = Some g).
    { unfold m1; rewrite fAt_putF by assumption. destruct (Nat.eqb_spec l r); [contradiction | assumption]. }
    rewrite (deref_face _ _ _ E1). cbn [bind].
    destruct (moveAnchor_spec m1 (fanchors g) (elab d2)) as (l2 & R2 & C2).
    { intros x Hx. eapply (Hcapf r g); eassumption. }
    rewrite R2. cbn [bind].
    assert (Hside : forall j h x0 lx, fAt m j = Some h -> lft m x0 = Some j -> lft m (- x0) <> Some j ->
        x0 = d2 \/ x0 = - d2 ->
        ((lx = fanchors h /\ forall a, In a (fanchors h) -> elab a <> elab d2) \/
         (exists u a v, fanchors h = u ++ a :: v /\ lx = u ++ phi m a :: v /\ elab a = elab d2 /\
            forall b, In b u -> elab b <> elab d2)) -> movedOff m d2 (fanchors h) lx).
    { intros j h x0 lx Hj Hlx Hnx Hx0 C.
      destruct C as [[-> Hn]|(u & y & v & Ea & -> & Ey & Hn)].
      - apply Forall2_same. intros x Hx. split; [apply reach_refl|]. apply Hrest; [eapply Hfa; eassumption | auto].
      - assert (HinA : forall x, In x (fanchors h) <-> In x u \/ x = y \/ In x v).
        { intros x; rewrite Ea, in_app_iff; simpl; intuition. }
        assert (Hone : forall x, In x (fanchors h) -> elab x = elab d2 -> x = x0).
        { intros x Hx Ex. destruct (Hfa j h x Hj Hx) as [_ Hxl].
          assert (x = x0 \/ x = - x0) as [->| ->]; auto; [|congruence].
          apply elab_two in Ex. destruct Hx0 as [->| ->]; [assumption|]. rewrite Z.opp_involutive; tauto. }
        assert (Eyx : y = x0) by (apply Hone; auto; apply HinA; auto). subst y.
        pose proof (Hnd j h Hj) as Hndf. rewrite Ea in Hndf.
        apply NoDup_remove in Hndf as [_ Hni]. rewrite in_app_iff in Hni.
        assert (Hx0D : In x0 (darts m)) by (eapply Hfa; [eassumption | apply HinA; auto]).
        rewrite Ea. apply Forall2_mid.
        + intros x Hx. split; [apply reach_refl|]. apply Hrest; [eapply Hfa; [eassumption | apply HinA; auto] | auto].
        + split; [apply reach_step|]. apply Hrest; auto. intros E.
          assert (Hphil : lft m (phi m x0) = Some j) by (rewrite (fi_phi _ _ _ _ HF) by assumption; assumption).
          assert (phi m x0 = x0 \/ phi m x0 = - x0) as [K|K].
          { apply elab_two in E. destruct Hx0 as [->| ->]; [assumption|]. rewrite Z.opp_involutive; tauto. }
          * destruct Hx0 as [->| ->]; [contradiction|]. rewrite P1 in K. apply (g2_no _ _ _ G); assumption.
          * congruence.
        + intros x Hx. split; [apply reach_refl|]. apply Hrest; [eapply Hfa; [eassumption | apply HinA; auto]|].
          intros E. apply Hni. right. rewrite <- (Hone x); auto. apply HinA; auto. }
    assert (M1 : movedOff m d2 (fanchors f) l1).
    { apply (Hside l f d2 l1); auto. congruence. }
    assert (M2 : movedOff m d2 (fanchors g) l2).
    { apply (Hside r g (- d2) l2); auto. rewrite Z.opp_involutive; congruence. }
    exists (putF m1 r (Some (set_anchors g l2))). split; [reflexivity|].
    constructor.
    + reflexivity.
    + unfold m1, putF; cbn [faces set_faces]. rewrite !list_upd_length; reflexivity.
    + intros j. rewrite fAt_putF by (unfold m1, putF; cbn [faces set_faces]; rewrite list_upd_length; assumption).
      unfold m1; rewrite fAt_putF by assumption.
      destruct (Nat.eqb_spec r j) as [<-|Hj]; [|destruct (Nat.eqb_spec l j) as [<-|Hj']].
      * rewrite Eg. cbn [farea fflags fanchors set_anchors]. auto.
      * rewrite Ef. cbn [farea fflags fanchors set_anchors]. auto.
      * destruct (fAt m j) as [h|] eqn:Ej; [|exact I]. repeat split; auto.
        apply (Hother j h Ej); auto.
    + assert (Hlen1 : length l1 = length (fanchors f)) by (clear -M1; induction M1; simpl; congruence).
      assert (Hlen2 : length l2 = length (fanchors g)) by (clear -M2; induction M2; simpl; congruence).
      unfold fAt in E1. unfold putF at 1; cbn [faces set_faces]. rewrite (sumf_tget ncont _ _ _ _ E1).
      unfold m1, putF; cbn [faces set_faces]. rewrite (sumf_tget ncont _ _ _ _ Ef).
      cbn [ncont fanchors set_anchors]. rewrite Hlen1, Hlen2. lia.
    + unfold fAt in E1. unfold putF at 1; cbn [faces set_faces]. rewrite (sumf_tget alive _ _ _ _ E1).
      unfold m1, putF; cbn [faces set_faces]. rewrite (sumf_tget alive _ _ _ _ Ef). simpl; lia.
Qed.

(** ** The merge proper *)

(** the points of a dart in its own direction *)
Definition dpts m d : list point :=
  match eAt m (elab d) with
  | Some e => if 0 <? d then epts e else rev (epts e)
  | None => []
  end.

Definition mergedEdge d2 mn (e1 e2 : edge) : edge :=
  if negb (Nat.eqb (estart e1) mn)
  then mkEdge (estart e1) (e_st e2 (- d2)) (elf e1) (erf e1)
           (concatPts (epts e1) (epts e2) true (negb (Nat.eqb (estart e2) mn))) (eflags e1)
  else mkEdge (e_st e2 (- d2)) (eend e1) (elf e1) (erf e1)
           (concatPts (epts e1) (epts e2) false (Nat.eqb (estart e2) mn)) (eflags e1).

Definition mergeTail m d1 d2 e1' en mn : res gmap :=
  let m := putE m (elab d1) (Some e1') in
  succ <- getS m (- d2) ;;
  m <- (if succ =? - d2 then
          m <- putS m d1 d1 ;; putSi m d1 d1
        else
          pred <- getSi m (- d2) ;;
          m <- putS m pred d1 ;;
          m <- putS m d1 succ ;;
          m <- putSi m succ d1 ;;
          putSi m d1 pred) ;;
  nd <- deref (nodeP m en) ;;
  let m := putN m en (Some (set_anchor nd d1)) in
  let m := uninitNode m mn in
  let m := uninitEdge m (elab d2) in
  Ok m.

Record Merged m d1 d2 m' : Prop := {
  mg_faces : faces m' = faces m;
  mg_cap : cap m' = cap m;
  mg_sorted : sorted m' = sorted m;
  mg_fc : faceCount m' = faceCount m;
  mg_nc : nodeCount m' = nodeCount m - 1;
  mg_ec : edgeCount m' = edgeCount m - 1;
  mg_elen : length (edges m') = length (edges m);
  mg_nlen : length (nodes m') = length (nodes m);
  mg_busy : sumf busy (nodes m') = sumf busy (nodes m) - 1;
  mg_nalive : sumf alive (nodes m') = sumf alive (nodes m) - 1;
  mg_ealive : sumf alive (edges m') = sumf alive (edges m) - 1;
  mg_edge : exists e1 e2, eAt m (elab d1) = Some e1 /\ eAt m (elab d2) = Some e2 /\
     forall j, eAt m' j = if Nat.eqb (elab d2) j then None
       else if Nat.eqb (elab d1) j then Some (mergedEdge d2 (stt m d2) e1 e2) else eAt m j;
  mg_node : exists nd, nAt m (stt m (- d2)) = Some nd /\
     forall j, nAt m' j = if Nat.eqb (stt m d2) j then None
       else if Nat.eqb (stt m (- d2)) j then Some (set_anchor nd d1) else nAt m j;
  mg_sg : forall x, In x (rest m d2) -> sg m' x = cnj d1 (- d2) (sg m) x;
  mg_sgi : forall x, In x (rest m d2) -> sgi m' x = cnj d1 (- d2) (sgi m) x }.

Section MergeTail.
  Variables (m : gmap) (d1 d2 : Z) (e1 e2 : edge).
  Hypothesis V : SInv m.
  Hypothesis G : Deg2 m d1 d2.
  Hypothesis He1 : eAt m (elab d1) = Some e1.
  Hypothesis He2 : eAt m (elab d2) = Some e2.
  Let S := sv_si _ V.
  Let HP := si_perm _ _ S.
  Let mn := stt m d2.
  Let en := stt m (- d2).

  Lemma elab12 : elab d1 <> elab d2.
  Proof. intros E. apply elab_eq in E as [E|E]; [apply (g2_ne _ _ _ G) | apply (g2_no _ _ _ G)]; assumption. Qed.

  Lemma mt_succ : sg m (- d2) <> d1 /\ sg m (- d2) <> d2.
  Proof.
    destruct (HP _ (g2_2' _ _ _ G)) as (_ & _ & C & _).
    pose proof (g2_0 m d1 d2 V G).
    split; intros E; rewrite E in C.
    - rewrite (g2_si1 m d1 d2 V G) in C. lia.
    - rewrite (g2_si2 m d1 d2 V G) in C. apply (g2_no _ _ _ G); assumption.
  Qed.
  Lemma mt_pred : sgi m (- d2) <> d1 /\ sgi m (- d2) <> d2.
  Proof.
    destruct (HP _ (g2_2' _ _ _ G)) as (_ & _ & _ & C).
    pose proof (g2_0 m d1 d2 V G).
    split; intros E; rewrite E in C.
    - rewrite (g2_12 _ _ _ G) in C. lia.
    - rewrite (g2_21 _ _ _ G) in C. apply (g2_no _ _ _ G); assumption.
  Qed.

  Lemma mt_cnj x : In x (rest m d2) ->
    cnj d1 (- d2) (sg m) x =
      (if x =? d1 then (if sg m (- d2) =? - d2 then d1 else sg m (- d2))
       else if sg m x =? - d2 then d1 else sg m x) /\
    cnj d1 (- d2) (sgi m) x =
      (if x =? d1 then (if sgi m (- d2) =? - d2 then d1 else sgi m (- d2))
       else if sgi m x =? - d2 then d1 else sgi m x).
  Proof.
    intros Hx. apply in_rest in Hx as (Hx & H2 & H2').
    destruct mt_succ as [A1 A2]. destruct mt_pred as [B1 B2].
    destruct (HP x Hx) as (X1 & X2 & X3 & X4).
    unfold cnj. destruct (Z.eqb_spec x d1) as [->|Hx1].
    - rewrite tr_l. split.
      + destruct (Z.eqb_spec (sg m (- d2)) (- d2)) as [E|E]; [rewrite E; apply tr_r|]. apply tr_o; auto.
      + destruct (Z.eqb_spec (sgi m (- d2)) (- d2)) as [E|E]; [rewrite E; apply tr_r|]. apply tr_o; auto.
    - rewrite (tr_o _ _ x) by auto. split.
      + destruct (Z.eqb_spec (sg m x) (- d2)) as [E|E]; [rewrite E; apply tr_r|]. apply tr_o; auto.
        intros F. rewrite F, (g2_si1 m d1 d2 V G) in X3. congruence.
      + destruct (Z.eqb_spec (sgi m x) (- d2)) as [E|E]; [rewrite E; apply tr_r|]. apply tr_o; auto.
        intros F. rewrite F, (g2_12 _ _ _ G) in X4. congruence.
  Qed.

  Lemma mergeTail_spec :
    exists m', mergeTail m d1 d2 (mergedEdge d2 mn e1 e2) en mn = Ok m' /\ Merged m d1 d2 m'.
  Proof.
    pose proof (g2_1 _ _ _ G) as H1. pose proof (g2_2 _ _ _ G) as H2.
    pose proof (g2_1' m d1 d2 G) as H1'. pose proof (g2_2' m d1 d2 G) as H2'.
    assert (Hz : d2 <> 0) by exact (g2_0 m d1 d2 V G).
    destruct mt_succ as [A1 A2]. destruct mt_pred as [B1 B2].
    destruct (HP _ H2') as (Hs & Hp & X3 & X4).
    pose proof (si_cap _ _ S) as Hcap.
    destruct (nAt m en) as [nd|] eqn:Hnd; [|exfalso; apply (si_node _ _ S (- d2)); assumption].
    destruct (nAt m mn) as [nm|] eqn:Hnm; [|exfalso; apply (si_node _ _ S d2); assumption].
    assert (Hen : mn <> en) by (intros E; apply (g2_far m d1 d2 V G); symmetry; exact E).
    assert (Hanm : nanchor nm <> 0).
    { intros E. destruct (si_anchor _ _ S mn nm Hnm) as [[_ K]|(K & _)]; [eapply K; [exact H2 | reflexivity]|].
      rewrite E in K. apply (si_nz _ _ S) in K; congruence. }
    assert (Hand : nanchor nd <> 0).
    { intros E. destruct (si_anchor _ _ S en nd Hnd) as [[_ K]|(K & _)]; [eapply K; [exact H2' | reflexivity]|].
      rewrite E in K. apply (si_nz _ _ S) in K; congruence. }
    assert (Hd1z : d1 <> 0) by (apply (si_nz _ _ S); assumption).
    pose proof (tget_lt _ _ _ Hnd) as Lnd. pose proof (tget_lt _ _ _ Hnm) as Lnm.
    pose proof (tget_lt _ _ _ He1) as Le1. pose proof (tget_lt _ _ _ He2) as Le2.
    (* the rotation after the update *)
    set (m1 := putE m (elab d1) (Some (mergedEdge d2 mn e1 e2))).
    assert (Hrot : exists s si,
      (m2 <- (if sg m1 (- d2) =? - d2 then
          m <- putS m1 d1 d1 ;; putSi m d1 d1
        else
          pred <- getSi m1 (- d2) ;;
          m <- putS m1 pred d1 ;;
          m <- putS m d1 (sg m1 (- d2)) ;;
          m <- putSi m (sg m1 (- d2)) d1 ;;
          putSi m d1 pred) ;; Ok m2) = Ok (set_sgi (set_sg m1 s) si) /\
      (forall x, In x (rest m d2) -> s x = cnj d1 (- d2) (sg m) x) /\
      (forall x, In x (rest m d2) -> si x = cnj d1 (- d2) (sgi m) x)).
    { change (sg m1) with (sg m).
      destruct (Z.eqb_spec (sg m (- d2)) (- d2)) as [E|E].
      - rewrite putS_Ok by (apply Hcap; assumption). cbn [bind].
        rewrite putSi_Ok by (apply Hcap; assumption). cbn [bind].
        eexists _, _. split; [reflexivity|].
        assert (E' : sgi m (- d2) = - d2) by (rewrite E in X3; exact X3).
        split; intros x Hx; destruct (mt_cnj x Hx) as [C1 C2]; rewrite ?C1, ?C2; apply in_rest in Hx as (Hx & Hx2 & Hx2');
          destruct (HP x Hx) as (Y1 & Y2 & Y3 & Y4); cbn [sg sgi set_sg m1 putE set_edges].
        + rewrite E, Z.eqb_refl. unfold updZ. destruct (Z.eqb_spec x d1); [reflexivity|].
          destruct (Z.eqb_spec (sg m x) (- d2)) as [F|]; [|reflexivity].
          rewrite F, E' in Y3. congruence.
        + rewrite E', Z.eqb_refl. unfold updZ. destruct (Z.eqb_spec x d1); [reflexivity|].
          destruct (Z.eqb_spec (sgi m x) (- d2)) as [F|]; [|reflexivity].
          rewrite F, E in Y4. congruence.
      - change (sgi m (- d2)) with (sgi m1 (- d2)) in *.
        rewrite getSi_Ok by (apply Hcap; assumption). cbn [bind].
        rewrite putS_Ok by (apply Hcap; assumption). cbn [bind].
        rewrite putS_Ok by (apply Hcap; assumption). cbn [bind].
        rewrite putSi_Ok by (apply Hcap; assumption). cbn [bind].
        rewrite putSi_Ok by (apply Hcap; assumption). cbn [bind].
        eexists _, _. split; [reflexivity|].
        assert (E' : sgi m (- d2) <> - d2).
        { intros F. apply E. rewrite <- F at 1. exact X4. }
        cbn [sg sgi set_sg set_sgi m1 putE set_edges] in *.
        split; intros x Hx; destruct (mt_cnj x Hx) as [C1 C2]; rewrite ?C1, ?C2; apply in_rest in Hx as (Hx & Hx2 & Hx2');
          destruct (HP x Hx) as (Y1 & Y2 & Y3 & Y4).
        + destruct (Z.eqb_spec (sg m (- d2)) (- d2)); [contradiction|]. unfold updZ.
          destruct (Z.eqb_spec x d1); [reflexivity|].
          destruct (Z.eqb_spec x (sgi m (- d2))) as [->|N].
          * rewrite X4, Z.eqb_refl. reflexivity.
          * destruct (Z.eqb_spec (sg m x) (- d2)) as [F|]; [|reflexivity].
            rewrite <- F, Y3 in N. congruence.
        + destruct (Z.eqb_spec (sgi m (- d2)) (- d2)); [contradiction|]. unfold updZ.
          destruct (Z.eqb_spec x d1); [reflexivity|].
          destruct (Z.eqb_spec x (sg m (- d2))) as [->|N].
          * rewrite X3, Z.eqb_refl. reflexivity.
          * destruct (Z.eqb_spec (sgi m x) (- d2)) as [F|]; [|reflexivity].
            rewrite <- F, Y4 in N. congruence. }
    destruct Hrot as (s & si & Hr & Hs1 & Hs2).
    unfold mergeTail. fold m1. cbv zeta.
    rewrite getS_Ok by (apply Hcap; assumption). cbn [bind].
    match type of Hr with bind ?X _ = _ => destruct X as [m2| | |] eqn:Er; try discriminate end.
    cbn [bind] in Hr. injection Hr as ->. cbn [bind].
    set (m2 := set_sgi (set_sg m1 s) si).
    assert (Hnd2 : nAt m2 en = Some nd) by exact Hnd.
    rewrite (deref_node _ _ _ Hnd2). cbn [bind].
    eexists; split; [reflexivity|].
    assert (NN : nodes (uninitEdge (uninitNode (putN m2 en (Some (set_anchor nd d1))) mn) (elab d2))
                 = list_upd (list_upd (nodes m) en (Some (set_anchor nd d1))) mn None) by reflexivity.
    assert (EE : edges (uninitEdge (uninitNode (putN m2 en (Some (set_anchor nd d1))) mn) (elab d2))
                 = list_upd (list_upd (edges m) (elab d1) (Some (mergedEdge d2 mn e1 e2))) (elab d2) None) by reflexivity.
    assert (Hnm' : tget (list_upd (nodes m) en (Some (set_anchor nd d1))) mn = Some nm).
    { rewrite tget_upd_neq by auto. exact Hnm. }
    assert (He2' : tget (list_upd (edges m) (elab d1) (Some (mergedEdge d2 mn e1 e2))) (elab d2) = Some e2).
    { rewrite tget_upd_neq by apply elab12. exact He2. }
    constructor; try reflexivity.
    - rewrite EE, !list_upd_length; reflexivity.
    - rewrite NN, !list_upd_length; reflexivity.
    - rewrite NN. rewrite (sumf_tget busy _ _ _ _ Hnm'), (sumf_tget busy _ _ _ _ Hnd).
      cbn [busy nanchor set_anchor].
      destruct (Z.eqb_spec (nanchor nm) 0), (Z.eqb_spec (nanchor nd) 0), (Z.eqb_spec d1 0); try contradiction; lia.
    - rewrite NN. rewrite (sumf_tget alive _ _ _ _ Hnm'), (sumf_tget alive _ _ _ _ Hnd). simpl; lia.
    - rewrite EE. rewrite (sumf_tget alive _ _ _ _ He2'), (sumf_tget alive _ _ _ _ He1). simpl; lia.
    - exists e1, e2. split; [assumption|]. split; [assumption|]. intros j.
      unfold eAt. rewrite EE, tget_upd_None. destruct (Nat.eqb (elab d2) j); [reflexivity|].
      rewrite tget_upd. destruct (Nat.eqb (elab d1) j); [|reflexivity].
      apply Nat.ltb_lt in Le1; rewrite Le1; reflexivity.
    - exists nd. split; [assumption|]. intros j.
      unfold nAt. rewrite NN, tget_upd_None. fold mn en. destruct (Nat.eqb mn j); [reflexivity|].
      rewrite tget_upd. destruct (Nat.eqb en j); [|reflexivity].
      apply Nat.ltb_lt in Lnd; rewrite Lnd; reflexivity.
    - exact Hs1.
    - exact Hs2.
  Qed.
End MergeTail.

Lemma e_st_stt m d e : eAt m (elab d) = Some e -> e_st e d = stt m d.
Proof. intros H; unfold stt; rewrite H; reflexivity. Qed.
Lemma e_st_stt' m d e : eAt m (elab d) = Some e -> e_st e (- d) = stt m (- d).
Proof. intros H; unfold stt; rewrite elab_opp, H; reflexivity. Qed.

(** Views of the merged map. *)
Section MergedViews.
  Variables (m : gmap) (d1 d2 : Z) (m' : gmap).
  Hypothesis V : SInv m.
  Hypothesis G : Deg2 m d1 d2.
  Hypothesis M : Merged m d1 d2 m'.
  Let S := sv_si _ V.
  Let HP := si_perm _ _ S.

  Lemma md_darts x : In x (darts m') <-> In x (rest m d2).
  Proof.
    destruct (mg_edge _ _ _ _ M) as (e1 & e2 & E1 & E2 & E).
    rewrite in_rest, !in_darts, E.
    destruct (Nat.eqb_spec (elab d2) (elab x)) as [K|K].
    - symmetry in K; apply elab_eq in K. split; [intros [_ H]; congruence | tauto].
    - assert (x <> d2 /\ x <> - d2).
      { split; intros ->; apply K; [reflexivity | symmetry; apply elab_opp]. }
      destruct (Nat.eqb_spec (elab d1) (elab x)) as [L|L]; [rewrite <- L, E1|]; intuition congruence.
  Qed.

  Lemma md_stt x : In x (rest m d2) -> stt m' x = stt m (tr d1 (- d2) x).
  Proof.
    intros Hx. destruct (mg_edge _ _ _ _ M) as (e1 & e2 & E1 & E2 & E).
    apply in_rest in Hx as (Hx & N1 & N2).
    unfold stt at 1. rewrite E.
    destruct (Nat.eqb_spec (elab d2) (elab x)) as [K|K]; [symmetry in K; apply elab_eq in K; tauto|].
    assert (Hz1 : d1 <> 0) by (apply (si_nz _ _ S), G).
    pose proof (g2_st m d1 d2 V G) as Est.
    pose proof (g2_far1 m d1 d2 V G) as F1.
    rewrite <- (e_st_stt _ _ _ E1) in Est. rewrite <- (e_st_stt' _ _ _ E1) in F1.
    destruct (Nat.eqb_spec (elab d1) (elab x)) as [L|L].
    - symmetry in L; apply elab_eq in L as [->| ->].
      + rewrite tr_l. unfold mergedEdge. rewrite (e_st_stt' _ _ _ E2).
        unfold e_st in Est, F1 |- *. destruct (Z.ltb_spec 0 d1).
        * rewrite Est, Nat.eqb_refl. reflexivity.
        * destruct (Z.ltb_spec 0 (- d1)); [|lia].
          destruct (Nat.eqb_spec (estart e1) (stt m d2)); [contradiction | reflexivity].
      + rewrite tr_o by (try apply N2; lia).
        rewrite <- (e_st_stt' _ _ _ E1). unfold mergedEdge.
        unfold e_st in Est, F1 |- *. destruct (Z.ltb_spec 0 d1), (Z.ltb_spec 0 (- d1)); try lia.
        * rewrite Est, Nat.eqb_refl. reflexivity.
        * destruct (Nat.eqb_spec (estart e1) (stt m d2)); [contradiction | reflexivity].
    - rewrite tr_o; auto. intros ->; apply L; reflexivity.
  Qed.

  Lemma md_lft x : In x (rest m d2) -> lft m' x = lft m x.
  Proof.
    intros Hx. destruct (mg_edge _ _ _ _ M) as (e1 & e2 & E1 & E2 & E).
    apply in_rest in Hx as (Hx & N1 & N2).
    unfold lft. rewrite E.
    destruct (Nat.eqb_spec (elab d2) (elab x)) as [K|K]; [symmetry in K; apply elab_eq in K; tauto|].
    destruct (Nat.eqb_spec (elab d1) (elab x)) as [L|L]; [|reflexivity].
    rewrite <- L, E1. unfold mergedEdge, e_lf. destruct (negb _); reflexivity.
  Qed.

  Lemma md_tr x : In x (rest m d2) -> In (tr d1 (- d2) x) (darts m).
  Proof. intros Hx. apply in_rest in Hx. apply tr_in; try apply (g2_2' m d1 d2 G); [apply G | tauto]. Qed.

  Lemma md_st_ne x : In x (rest m d2) -> stt m (tr d1 (- d2) x) <> stt m d2.
  Proof.
    intros Hx E. destruct (g2_only m d1 d2 V G _ (md_tr x Hx) E) as [K|K]; apply in_rest in Hx as (Hx & N1 & N2).
    - unfold tr in K. destruct (Z.eqb_spec x d1) as [->|]; [apply (g2_no _ _ _ G); auto|].
      destruct (Z.eqb_spec x (- d2)); congruence.
    - unfold tr in K. destruct (Z.eqb_spec x d1) as [->|].
      + pose proof (g2_0 m d1 d2 V G). lia.
      + destruct (Z.eqb_spec x (- d2)); congruence.
  Qed.

  Lemma md_perm : perm_on (rest m d2) (cnj d1 (- d2) (sg m)) (cnj d1 (- d2) (sgi m)).
  Proof.
    apply (sub_perm (darts m) (sg m) (sgi m) d1 d2 HP); try apply G; [apply g2_2' with (d1 := d1); assumption|].
    apply (g2_0 m d1 d2 V G).
  Qed.

  Lemma md_SI : SI m' (rest m d2).
  Proof.
    pose proof md_perm as HQ.
    assert (Hreach : forall x y, In x (rest m d2) -> reach (cnj d1 (- d2) (sg m)) x y -> reach (sg m') x y).
    { intros x y Hx Hr. apply (reach_ext (cnj d1 (- d2) (sg m)) (sg m') (fun z => In z (rest m d2))); auto.
      - intros z Hz; symmetry; apply (mg_sg _ _ _ _ M); assumption.
      - intros z Hz; apply HQ; assumption. }
    constructor.
    - intros x Hx. destruct (HQ x Hx) as (A & B & C & E).
      rewrite (mg_sg _ _ _ _ M x Hx), (mg_sgi _ _ _ _ M x Hx). repeat split; auto.
      + rewrite (mg_sgi _ _ _ _ M _ A); assumption.
      + rewrite (mg_sg _ _ _ _ M _ B); assumption.
    - intros d Hd. apply md_darts in Hd. apply in_darts in Hd; tauto.
    - intros d Hd. apply in_rest in Hd. apply (si_nz _ _ S); tauto.
    - intros d Hd. apply in_rest in Hd. rewrite (mg_cap _ _ _ _ M). apply (si_cap _ _ S); tauto.
    - intros d Hd. rewrite (mg_sg _ _ _ _ M d Hd).
      destruct (HQ d Hd) as (A & _). rewrite !md_stt by assumption.
      unfold cnj. rewrite tr_invol. apply (si_st _ _ S), md_tr; assumption.
    - intros d Hd. rewrite md_stt by assumption.
      destruct (mg_node _ _ _ _ M) as (nd & Hnd & E). rewrite E.
      destruct (Nat.eqb_spec (stt m d2) (stt m (tr d1 (- d2) d))) as [K|K].
      + exfalso; apply (md_st_ne d Hd); auto.
      + destruct (Nat.eqb _ _); [discriminate|]. apply (si_node _ _ S), md_tr; assumption.
    - intros l n Hn. destruct (mg_node _ _ _ _ M) as (nd & Hnd & E). rewrite E in Hn.
      destruct (Nat.eqb_spec (stt m d2) l) as [K|K]; [discriminate|].
      destruct (Nat.eqb_spec (stt m (- d2)) l) as [L|L].
      + injection Hn as <-. cbn [nanchor set_anchor]. right.
        pose proof (g2_in1 m d1 d2 G) as Hi.
        split; [assumption|]. split; [rewrite md_stt, tr_l by assumption; assumption|].
        intros d Hd Hs. apply Hreach; [assumption|]. apply cnj_reach. rewrite tr_l.
        rewrite md_stt in Hs by assumption.
        apply (SI_orbit m (darts m)); auto; [apply (g2_2' m d1 d2 G) | apply md_tr; assumption | congruence].
      + destruct (si_anchor _ _ S l n Hn) as [[A B]|(A & B & C)].
        * left. split; auto. intros d Hd. rewrite md_stt by assumption. apply B, md_tr; assumption.
        * right.
          assert (Ha : In (nanchor n) (rest m d2)).
          { apply in_rest. repeat split; auto; intros F; rewrite F in B; congruence. }
          assert (Hne : nanchor n <> d1).
          { intros F; rewrite F in B. rewrite (g2_st m d1 d2 V G) in B; congruence. }
          assert (Ht : tr d1 (- d2) (nanchor n) = nanchor n).
          { apply tr_o; auto. apply in_rest in Ha; tauto. }
          split; [assumption|]. split; [rewrite md_stt, Ht by assumption; assumption|].
          intros d Hd Hs. apply Hreach; [assumption|]. apply cnj_reach. rewrite Ht.
          rewrite md_stt in Hs by assumption. apply C; [apply md_tr; assumption | assumption].
  Qed.

  Lemma md_SInv : SInv m'.
  Proof.
    constructor.
    - apply (SI_ext m' (rest m d2)); [intros x; symmetry; apply md_darts | apply md_SI].
    - destruct (mg_edge _ _ _ _ M) as (e1 & e2 & E1 & E2 & E). rewrite E.
      destruct (Nat.eqb (elab d2) 0); [reflexivity|].
      destruct (Nat.eqb_spec (elab d1) 0) as [K|]; [|apply (sv_e0 _ V)].
      rewrite K, (sv_e0 _ V) in E1; discriminate.
    - rewrite (mg_cap _ _ _ _ M). apply V.
    - rewrite (mg_cap _ _ _ _ M), (mg_elen _ _ _ _ M). apply V.
    - rewrite (mg_nc _ _ _ _ M), (mg_nalive _ _ _ _ M), (sv_nc _ V). reflexivity.
    - rewrite (mg_ec _ _ _ _ M), (mg_ealive _ _ _ _ M), (sv_ec _ V). reflexivity.
    - rewrite (mg_fc _ _ _ _ M), (mg_faces _ _ _ _ M). apply V.
  Qed.

  (** the contours of the merged map are the old contours without the edge *)
  Lemma md_phi x : In x (rest m d2) -> phi m' x = skp (skp (phi m) d2) (- d2) x.
  Proof.
    intros Hx. unfold phi at 1. rewrite (mg_sgi _ _ _ _ M) by (apply rest_opp; assumption).
    apply in_rest in Hx as (Hx & N1 & N2).
    apply (sub_phi (darts m) (sg m) (sgi m) d1 d2 HP); try apply G; auto.
    - apply (g2_2' m d1 d2 G).
    - apply (g2_0 m d1 d2 V G).
    - apply darts_opp; assumption.
  Qed.

  Lemma md_phi_reach x y : In x (rest m d2) -> In y (rest m d2) ->
    (reach (phi m') x y <-> reach (phi m) x y).
  Proof.
    intros Hx Hy. pose proof (g2_0 m d1 d2 V G) as Hz.
    pose proof (phi_perm m S) as HPp.
    assert (HPs : perm_on (rest m d2) (phi m') (fun x => - sg m' x)).
    { intros z Hz'. apply md_darts in Hz'. pose proof (phi_perm m' (sv_si _ md_SInv)) as Q.
      destruct (Q z Hz') as (A & B & C). rewrite <- !md_darts. auto. }
    rewrite <- (skp2_reach (darts m) (phi m) (fun x => - sg m x) d2 (- d2) x y); auto; try apply in_rest in Hx; try apply in_rest in Hy; try tauto.
    - split; apply (reach_ext _ _ (fun z => In z (rest m d2))); try (apply in_rest; assumption).
      + intros z Hz'; apply md_phi; assumption.
      + intros z Hz'; apply HPs; assumption.
      + intros z Hz'; symmetry; apply md_phi; assumption.
      + intros z Hz'. rewrite <- md_phi by assumption. apply HPs; assumption.
    - apply G.
    - apply (g2_2' m d1 d2 G).
    - lia.
  Qed.

  Lemma md_pts : dpts m' (- d1) = dpts m (- d1) ++ skipn 1 (dpts m d2).
  Proof.
    destruct (mg_edge _ _ _ _ M) as (e1 & e2 & E1 & E2 & E).
    unfold dpts. rewrite !elab_opp, E, E1, E2.
    destruct (Nat.eqb_spec (elab d2) (elab d1)) as [K|K]; [exfalso; apply (elab12 m d1 d2 G); auto|].
    rewrite Nat.eqb_refl.
    assert (Hz1 : d1 <> 0) by (apply (si_nz _ _ S), G).
    pose proof (g2_0 m d1 d2 V G) as Hz2.
    pose proof (g2_st m d1 d2 V G) as Est.
    pose proof (g2_far1 m d1 d2 V G) as F1. pose proof (g2_far m d1 d2 V G) as F2.
    rewrite <- (e_st_stt _ _ _ E1) in Est. rewrite <- (e_st_stt' _ _ _ E1) in F1.
    rewrite <- (e_st_stt' _ _ _ E2) in F2. pose proof (e_st_stt _ _ _ E2) as Est2.
    unfold mergedEdge. set (mn := stt m d2) in *.
    unfold e_st in *.
    assert (HR : Nat.eqb (estart e2) mn = (0 <? d2)).
    { destruct (Z.ltb_spec 0 d2), (Z.ltb_spec 0 (- d2)); try lia;
        destruct (Nat.eqb_spec (estart e2) mn); congruence. }
    rewrite HR.
    assert (rev_firstn : forall (q : list point), rev (firstn (length q - 1) (rev q)) = skipn 1 q).
    { intros [|a q]; [reflexivity|]. simpl. rewrite Nat.sub_0_r.
      rewrite firstn_app, rev_length, Nat.sub_diag. simpl. rewrite app_nil_r.
      rewrite firstn_all2 by (rewrite rev_length; lia). apply rev_involutive. }
    destruct (Z.ltb_spec 0 d1), (Z.ltb_spec 0 (- d1)); try lia.
    - rewrite Est, Nat.eqb_refl. cbn [negb epts]. unfold concatPts.
      destruct (0 <? d2); rewrite rev_app_distr; f_equal.
      + apply rev_firstn.
      + pose proof (rev_firstn (rev (epts e2))) as Q. rewrite rev_length, rev_involutive in Q. exact Q.
    - destruct (Nat.eqb_spec (estart e1) mn); [contradiction|]. cbn [negb epts]. unfold concatPts.
      destruct (0 <? d2); reflexivity.
  Qed.
End MergedViews.

(** [mergeEdges] either throws, or finds a degree-2 node between two distinct
    edges; then it moves face anchors, and if no hook objects, merges. *)
Lemma mergeEdges_full hk m d : SInv m -> faces m = [] \/ FIm m ->
  goodE (~ In d (darts m) \/ elab (sg m d) = elab d \/ sg m (sg m d) <> d) (fun r => exists d1 d2 m0,
     Deg2 m d1 d2 /\ facesMoved m d2 m0 /\
     (d1, d2) = (if ((0 <? d) && (sg m d <? 0))%bool then (sg m d, d) else (d, sg m d)) /\
     (((hkMergeEdges hk m0 d1 && hkNode hk m0 (stt m d2))%bool = false /\ snd r = None /\ fst r = m0) \/
      ((hkMergeEdges hk m0 d1 && hkNode hk m0 (stt m d2))%bool = true /\ snd r = Some (elab d1) /\ Merged m0 d1 d2 (fst r))))
   (mergeEdges hk m d).
Proof.
  intros V HF. unfold mergeEdges.
  destruct (eAt m (elab d)) as [e|] eqn:Ed; [|rewrite (require_edge_None _ _ Ed); left; intros K; apply in_darts in K; tauto].
  rewrite (require_edge _ _ _ Ed). cbn [bind].
  set (S := sv_si _ V).
  assert (Hd : In d (darts m)).
  { apply in_darts. split; [|congruence]. intros ->. change (elab 0) with 0%nat in Ed. rewrite (sv_e0 _ V) in Ed. discriminate. }
  pose proof (si_perm _ _ S) as HP.
  destruct (HP d Hd) as (Hs & _).
  rewrite getS_Ok by (apply (si_cap _ _ S); assumption). cbn [bind].
  destruct (Nat.eqb_spec (elab (sg m d)) (elab d)) as [E|E]; [right; left; exact E|].
  rewrite getS_Ok by (apply (si_cap _ _ S); assumption). cbn [bind].
  destruct (Z.eqb_spec (sg m (sg m d)) d) as [E2|E2]; [|right; right; exact E2]. cbn [negb]. cbv zeta.
  rewrite E2.
  set (sw := ((0 <? d) && (sg m d <? 0))%bool).
  set (d1 := if sw then sg m d else d). set (d2 := if sw then d else sg m d).
  assert (G : Deg2 m d1 d2).
  { assert (Hne : sg m d <> d) by (intros K; apply E; rewrite K; reflexivity).
    assert (Hno : sg m d <> - d) by (intros K; apply E; rewrite K; apply elab_opp).
    unfold d1, d2; destruct sw; constructor; auto; try congruence; try lia. }
  assert (Hd12 : (d1, d2) = if sw then (sg m d, d) else (d, sg m d)) by (unfold d1, d2; destruct sw; auto).
  clearbody d1 d2. clearbody sw.
  destruct (live_edge m d1 (g2_1 _ _ _ G)) as (e1 & He1).
  destruct (live_edge m d2 (g2_2 _ _ _ G)) as (e2 & He2).
  rewrite (deref_edge _ _ _ He1). cbn [bind].
  unfold startLabel. rewrite (gEdge_Ok _ _ _ He2). cbn [bind].
  rewrite (e_st_stt _ _ _ He2).
  destruct (nAt m (stt m d2)) as [nm|] eqn:Hnm; [|exfalso; apply (si_node _ _ S d2); [apply G | assumption]].
  rewrite (deref_node _ _ _ Hnm). cbn [bind].
  rewrite (deref_edge _ _ _ He2). cbn [bind].
  fold (movePart m e2 d2).
  destruct (movePart_spec m d1 d2 e2 V HF G He2) as (m0 & R & FM).
  rewrite R. cbn [bind].
  destruct (hkMergeEdges hk m0 d1) eqn:Hk1; cbn [negb].
  2:{ exists d1, d2, m0. cbn [fst snd]. rewrite Hk1. repeat (split; [assumption|]). left; auto. }
  destruct (hkNode hk m0 (stt m d2)) eqn:Hk2; cbn [negb].
  2:{ exists d1, d2, m0. cbn [fst snd]. rewrite Hk1, Hk2. repeat (split; [assumption|]). left; auto. }
  assert (V0 : SInv m0).
  { rewrite (fm_eq _ _ _ FM). destruct V as [V1 V2 V3 V4 V5 V6 V7]. constructor; auto.
    - destruct V1; constructor; assumption.
    - change (faceCount m = sumf alive (faces m0)). rewrite (fm_alive _ _ _ FM). assumption. }
  assert (G0 : Deg2 m0 d1 d2) by (rewrite (fm_eq _ _ _ FM); destruct G; constructor; assumption).
  assert (Est0 : forall x, stt m0 x = stt m x) by (intros x; rewrite (fm_eq _ _ _ FM); reflexivity).
  assert (Ee0 : forall x, eAt m0 x = eAt m x) by (intros x; rewrite (fm_eq _ _ _ FM); reflexivity).
  destruct (mergeTail_spec m0 d1 d2 e1 e2 V0 G0) as (m' & R' & MG); [rewrite Ee0; assumption | rewrite Ee0; assumption|].
  rewrite !Est0 in R'.
  rewrite (e_st_stt' _ _ _ He2) in *.
  unfold mergeTail, mergedEdge in R'. rewrite (e_st_stt' _ _ _ He2) in R'. cbv zeta in R'.
  cbn [goodE].
  match goal with |- goodE _ _ ?X => assert (Hx : X = Ok (m', Some (elab d1))) end.
  { clear -R'. cbv zeta.
    destruct (getS _ (- d2)) as [succ| | |]; cbn [bind] in *; try discriminate.
    match type of R' with bind ?X _ = _ => destruct X as [m2| | |]; cbn [bind] in *; try discriminate end.
    match type of R' with bind ?X _ = _ => destruct X as [nd| | |]; cbn [bind] in *; try discriminate end.
    injection R' as <-. reflexivity. }
  rewrite Hx. cbn [goodE fst snd]. exists d1, d2, m0. rewrite Hk1, Hk2. repeat (split; [assumption|]). right; auto.
Qed.

Lemma mergeEdges_spec hk m d : SInv m -> faces m = [] \/ FIm m ->
  good (fun r => exists d1 d2 m0,
     Deg2 m d1 d2 /\ facesMoved m d2 m0 /\
     (d1, d2) = (if ((0 <? d) && (sg m d <? 0))%bool then (sg m d, d) else (d, sg m d)) /\
     (((hkMergeEdges hk m0 d1 && hkNode hk m0 (stt m d2))%bool = false /\ snd r = None /\ fst r = m0) \/
      ((hkMergeEdges hk m0 d1 && hkNode hk m0 (stt m d2))%bool = true /\ snd r = Some (elab d1) /\ Merged m0 d1 d2 (fst r))))
   (mergeEdges hk m d).
Proof. intros V HF. exact (goodE_good _ _ _ (mergeEdges_full hk m d V HF)). Qed.
