(** Several hooks on one signal (C43). *)
From Verif Require Import Base Orbit GraphRank Euler Links FaceInv Conj
  GeoMap_Model GeoMap_Views GeoMap_SInv GeoMap_Remove GeoMap_MergeEdges GeoMap_SplitEdge GeoMap_Loops GeoMap_MInv
  GeoMap_Gone GeoMap_Bridge GeoMap_MergeFaces GeoMap_Subdiv
  GeoMap_History GeoMap_Spec GeoMap_Facts GeoMap_Results GeoMap_Results2 GeoMap_Examples GeoMap_Results5.
Local Open Scope Z_scope.

(** cppmap.hxx 78-93: interruptable_accumulator, called by boost::signals2 with
    iterators whose dereferencing calls the slot.  Returns the answer and the
    number of slots called. *)
Fixpoint accumulate {A} (slots : list (A -> bool)) (a : A) : bool * nat :=
  match slots with
  | [] => (true, 0%nat)
  | s :: t => if s a then let (b, n) := accumulate t a in (b, S n) else (false, 1%nat)
  end.

Theorem accumulate_spec {A} (slots : list (A -> bool)) a b n : accumulate slots a = (b, n) ->
  (b = true <-> forall s, In s slots -> s a = true) /\
  (b = true -> n = length slots) /\
  (b = false -> exists k s, n = S k /\ nth_error slots k = Some s /\ s a = false) /\
  (forall k s, (S k < n)%nat -> nth_error slots k = Some s -> s a = true).
Proof.
  revert b n. induction slots as [|s t IH]; cbn [accumulate]; intros b n E.
  - injection E as <- <-. split; [split; [intros _ s [] | reflexivity]|]. split; [reflexivity|]. split; [discriminate | intros; lia].
  - destruct (s a) eqn:Es.
    + destruct (accumulate t a) as [b0 n0] eqn:E0. injection E as <- <-. destruct (IH b0 n0 eq_refl) as (I1 & I2 & I3 & I4). split; [|split; [|split]].
      * rewrite I1. split; intros H x; [intros [<-|Hx]; auto | intros Hx; apply H; right; assumption].
      * intros H. cbn. rewrite I2; auto.
      * intros H. destruct (I3 H) as (k & x & -> & K1 & K2). exists (S k), x. auto.
      * intros [|k] x Hk Hx; [injection Hx as <-; assumption|]. apply (I4 k x); [lia | assumption].
    + injection E as <- <-. split; [|split; [|split]].
      * split; [discriminate|]. intros H. rewrite <- Es. apply H. left; reflexivity.
      * discriminate.
      * intros _. exists 0%nat, s. auto.
      * intros; lia.
Qed.

(** slots registered with the four veto-able signals; here they look at the cell
    they are called with *)
Record slots := { onNode : list (nat -> bool); onMergeEdges : list (Z -> bool); onBridge : list (Z -> bool); onMergeFaces : list (Z -> bool) }.
Definition hooksOf (s : slots) : hooks :=
  {| hkNode := fun _ l => fst (accumulate (onNode s) l); hkMergeEdges := fun _ d => fst (accumulate (onMergeEdges s) d);
     hkBridge := fun _ d => fst (accumulate (onBridge s) d); hkMergeFaces := fun _ d => fst (accumulate (onMergeFaces s) d) |}.
Definition allAgree {A} (l : list (A -> bool)) (a : A) : Prop := forall s, In s l -> s a = true.

Lemma agree_iff {A} (l : list (A -> bool)) a : fst (accumulate l a) = true <-> allAgree l a.
Proof. destruct (accumulate l a) as [b n] eqn:E. apply (accumulate_spec l a b n E). Qed.

(** mergeFaces calls the hooks with the dart that has the surviving face on its left *)
Definition facesDart m d d' : Prop := exists l r vl vr, leftLabel m d = Ok (Some l) /\ rightLabel m d = Ok (Some r) /\
  reportedArea m l vl /\ reportedArea m r vr /\
  d' = (if Nat.eqb l 0 then d else if Nat.eqb r 0 then - d else if vl <? vr then - d else d).
(** mergeEdges calls them with the dart of the edge that is kept, removeNodeHook with
    the shared node *)
Definition edgesDart m d d' : Prop := exists d2, nextSigma m d = Ok d2 /\ d' = (if ((0 <? d) && (d2 <? 0))%bool then d2 else d).

Theorem hooks_decide m s : history anyCall m ->
  (forall d, (exists m' l, mergeEdges (hooksOf s) m d = Ok (m', Some l)) <->
     isDart m d /\ (exists d2, nextSigma m d = Ok d2 /\ elab d2 <> elab d /\ nextSigma m d2 = Ok d) /\
     (forall d', edgesDart m d d' -> allAgree (onMergeEdges s) d') /\
     (forall n, startLabel m d = Ok n -> allAgree (onNode s) n)) /\
  (initialised m ->
   (forall d, (exists m' l, removeBridge (hooksOf s) m d = Ok (m', Some l)) <->
     isDart m d /\ leftLabel m d = rightLabel m d /\ startLabel m d <> endLabel m d /\ allAgree (onBridge s) d) /\
   (forall d, (exists m' l, mergeFaces (hooksOf s) m d = Ok (m', Some l)) <->
     isDart m d /\ leftLabel m d <> rightLabel m d /\ forall d', facesDart m d d' -> allAgree (onMergeFaces s) d')) /\
  (forall l nd, isNode m l nd -> ((exists m', removeIsolatedNode (hooksOf s) m l = Ok (m', true)) <-> allAgree (onNode s) l)).
Proof.
  intros H. pose proof (history_Inv _ m H) as HI. pose proof (Inv_SInv m HI) as V. pose proof (sv_si _ V) as HS.
  destruct (performed_iff m yes H) as [PE PI]; [repeat split|]. split; [|split].
  - intros d. pose proof (mergeEdges_full (hooksOf s) m d V (Inv_FI m HI)) as G.
    assert (Q : In d (darts m) -> nextSigma m d = Ok (sg m d) /\ In (sg m d) (darts m)) by (apply sigma_next; assumption).
    assert (X : forall r, (exists d1 d2 m0, Deg2 m d1 d2 /\ facesMoved m d2 m0 /\
       (d1, d2) = (if ((0 <? d) && (sg m d <? 0))%bool then (sg m d, d) else (d, sg m d)) /\
       (((hkMergeEdges (hooksOf s) m0 d1 && hkNode (hooksOf s) m0 (stt m d2))%bool = false /\ snd r = None /\ fst r = m0) \/
        ((hkMergeEdges (hooksOf s) m0 d1 && hkNode (hooksOf s) m0 (stt m d2))%bool = true /\ snd r = Some (elab d1) /\ Merged m0 d1 d2 (fst r)))) ->
       In d (darts m) /\ elab (sg m d) <> elab d /\ sg m (sg m d) = d /\
       ((exists l, snd r = Some l) <-> (forall d', edgesDart m d d' -> allAgree (onMergeEdges s) d') /\ (forall n, startLabel m d = Ok n -> allAgree (onNode s) n))).
    { intros r (d1 & d2 & m0 & G2 & _ & E12 & K).
      assert (X : In d (darts m) /\ elab (sg m d) <> elab d /\ sg m (sg m d) = d).
      { pose proof (elab12 m d1 d2 G2) as K0. destruct G2 as [A1 A2 A3 A4 A5 A6]. destruct (_ && _)%bool in E12; injection E12 as E1 E2.
        - rewrite <- E1, <- E2. auto.
        - rewrite <- E2, <- E1. split; [assumption|]. split; [congruence | assumption]. }
      destruct X as (X1 & X2 & X3). split; [assumption|]. split; [assumption|]. split; [assumption|].
      assert (Est : stt m d2 = stt m d).
      { destruct (_ && _)%bool in E12; injection E12 as E1 E2; rewrite E2; [reflexivity | apply (si_st _ _ HS d X1)]. }
      assert (Y : (hkMergeEdges (hooksOf s) m0 d1 && hkNode (hooksOf s) m0 (stt m d2))%bool = true <->
        (forall d', edgesDart m d d' -> allAgree (onMergeEdges s) d') /\ (forall n, startLabel m d = Ok n -> allAgree (onNode s) n)).
      { rewrite andb_true_iff, Est. cbn [hkMergeEdges hkNode hooksOf]. rewrite !agree_iff. split; intros [Y1 Y2]; split.
        - intros d' (x & E & ->). rewrite (proj1 (Q X1)) in E. injection E as <-. revert E12. destruct ((0 <? d) && (sg m d <? 0))%bool; intros E12; injection E12 as E1 E2; (rewrite <- E1; assumption) || congruence.
        - intros n En. rewrite (startLabel_Ok m d X1) in En. injection En as <-. assumption.
        - apply Y1. exists (sg m d). split; [apply Q; assumption|]. revert E12. destruct ((0 <? d) && (sg m d <? 0))%bool; intros E12; injection E12 as E1 E2; (rewrite <- E1; assumption) || congruence.
        - apply Y2, startLabel_Ok; assumption. }
      rewrite <- Y. destruct K as [(K & -> & _)|(K & -> & _)]; rewrite K; split; intros Z; try discriminate; [destruct Z; discriminate | reflexivity | eauto]. }
    split.
    + intros (m' & l & E). rewrite E in G. destruct (X (m', Some l) G) as (X1 & X2 & X3 & X4). split; [apply isDart_iff; assumption|]. split.
      * exists (sg m d). destruct (Q X1) as [Q1 Q2]. split; [assumption|]. split; [assumption|]. rewrite <- X3 at 2. apply sigma_next; assumption.
      * apply X4. exists l. reflexivity.
    + intros (Hd & Hpre & Hag). destruct (mergeEdges (hooksOf s) m d) as [[m' r]| | |] eqn:E; cbn in G; try contradiction.
      * destruct (X (m', r) G) as (_ & _ & _ & X4). destruct (proj2 X4 Hag) as (l & El). cbn in El. subst r. eauto.
      * exfalso. pose proof Hd as Hd1. apply isDart_iff in Hd1. destruct Hpre as (d2 & N1 & N2 & N3). destruct (Q Hd1) as [Q1 Q2]. rewrite Q1 in N1. injection N1 as <-.
        rewrite (proj1 (sigma_next m HS _ Q2)) in N3. injection N3 as N3. destruct G as [G|[G|G]]; auto.
  - intros Hi. assert (M : MInv m) by (apply (history_MInv anyCall); assumption). split; intros d.
    + pose proof (removeBridge_full (hooksOf s) m d M) as G. split.
      * intros (m' & l & E). rewrite E in G. cbn in G. destruct G as (Hd & fl & E1 & E2 & E3 & [(_ & K & _)|(K & _)]); [discriminate|]. split; [apply isDart_iff; assumption|].
        rewrite leftLabel_Ok, rightLabel_Ok, startLabel_Ok, endLabel_Ok by assumption. split; [congruence|]. split; [congruence|]. apply agree_iff; assumption.
      * intros (Hd & E1 & E2 & Ag). apply isDart_iff in Hd. rewrite leftLabel_Ok, rightLabel_Ok in E1 by assumption. rewrite startLabel_Ok, endLabel_Ok in E2 by assumption.
        destruct (removeBridge (hooksOf s) m d) as [[m' r]| | |]; cbn in G; try contradiction.
        -- destruct G as (_ & fl & _ & _ & _ & [(K & _)|(_ & K & _)]); [apply agree_iff in Ag; congruence|]. subst; eauto.
        -- exfalso. destruct G as [G|[G|G]]; congruence.
    + pose proof (mergeFaces_full (hooksOf s) m d M) as G.
      assert (X : forall r, (In d (darts m) /\ exists mc d' s0 mm, cached m mc /\ survives m mc d d' s0 mm /\
          lft m d' = Some s0 /\ lft m (- d') = Some mm /\ s0 <> mm /\
          ((hkMergeFaces (hooksOf s) mc d' = false /\ snd r = None /\ fst r = mc) \/
           (hkMergeFaces (hooksOf s) mc d' = true /\ snd r = Some s0 /\ FMerged mc d' s0 mm (fst r)))) ->
          In d (darts m) /\ lft m d <> lft m (- d) /\ ((exists l, snd r = Some l) <-> forall d', facesDart m d d' -> allAgree (onMergeFaces s) d')).
      { intros r (Hd & mc & d' & s0 & mm & C & Sv & El & Er & Hne & K). split; [assumption|].
        destruct Sv as (l & rr & fl & fr & vl & vr & L1 & L2 & F1 & F2 & A1 & A2 & Hc & Hs).
        destruct (Hs Hne) as (Hm & Hs1 & Hs2).
        assert (RA : forall k f v w, fAt mc k = Some f -> farea f = Some v -> reportedArea m k w <-> w = v).
        { intros k f v w Hk Hv. pose proof (ca_face _ _ C k) as K1. rewrite Hk in K1. destruct (fAt m k) as [f0|] eqn:E0; [|contradiction].
          unfold reportedArea. rewrite (faceArea_val m k f0 w E0). destruct K1 as (_ & _ & [K1|(K1 & w1 & K2 & K3)]); [rewrite <- K1, Hv; split; congruence|].
          rewrite K1, K3. split; congruence. }
        assert (Hlr : l <> rr) by (destruct Hc as [(_ & -> & ->)|(_ & -> & ->)]; congruence).
        assert (Hd0 : d <> 0) by (apply in_darts in Hd; tauto).
        split; [congruence|].
        assert (Y : forall x, facesDart m d x <-> x = d').
        { assert (Ed' : d' = (if Nat.eqb l 0 then d else if Nat.eqb rr 0 then - d else if vl <? vr then - d else d)).
          { destruct Hc as [(E1 & E2 & E3)|(E1 & E2 & E3)].
            - subst d' s0 mm. destruct (Nat.eqb_spec l 0); [reflexivity|]. destruct (Nat.eqb_spec rr 0); [contradiction|].
              destruct (Hs1 eq_refl) as [Z|Z]; [|contradiction]. destruct (Z.ltb_spec vl vr); [lia | reflexivity].
            - subst d' s0 mm. destruct (Nat.eqb_spec l 0); [contradiction|]. destruct (Nat.eqb_spec rr 0); [reflexivity|].
              destruct (Hs2 eq_refl) as [Z|Z]; [|contradiction]. destruct (Z.ltb_spec vl vr); [reflexivity | lia]. }
          intros x. unfold facesDart. rewrite (leftLabel_Ok m d Hd), (rightLabel_Ok m d Hd), L1, L2. split.
          - intros (l' & r' & v1 & v2 & E1 & E2 & R1 & R2 & ->). injection E1 as <-. injection E2 as <-.
            apply (RA l fl vl v1 F1 A1) in R1. apply (RA rr fr vr v2 F2 A2) in R2. subst v1 v2. congruence.
          - intros ->. exists l, rr, vl, vr. split; [reflexivity|]. split; [reflexivity|]. split; [apply (RA l fl vl vl F1 A1); reflexivity|].
            split; [apply (RA rr fr vr vr F2 A2); reflexivity | exact Ed']. }
        destruct K as [(K & Kr & _)|(K & Kr & _)]; rewrite Kr; cbn [hkMergeFaces hooksOf] in K.
        - split; [intros (? & ?); discriminate|]. intros Z. specialize (Z d' (proj2 (Y d') eq_refl)). apply agree_iff in Z. congruence.
        - split; [|eauto]. intros _ x Hx. apply Y in Hx. rewrite Hx. apply agree_iff; assumption. }
      split.
      * intros (m' & l & E). rewrite E in G. destruct (X (m', Some l) G) as (X1 & X2 & X3). split; [apply isDart_iff; assumption|].
        rewrite leftLabel_Ok, rightLabel_Ok by assumption. split; [congruence|]. apply X3. exists l; reflexivity.
      * intros (Hd & E1 & Ag). apply isDart_iff in Hd. rewrite leftLabel_Ok, rightLabel_Ok in E1 by assumption.
        destruct (mergeFaces (hooksOf s) m d) as [[m' r]| | |]; cbn in G; try contradiction.
        -- destruct (X (m', r) G) as (_ & _ & X3). destruct (proj2 X3 Ag) as (l & El). cbn in El. subst r. eauto.
        -- exfalso. destruct G as [G|G]; congruence.
  - intros l nd Hn. apply isNode_iff in Hn. unfold removeIsolatedNode. rewrite (deref_node _ _ _ Hn). cbn [bind hkNode hooksOf]. rewrite <- agree_iff.
    destruct (fst (accumulate (onNode s) l)); split; eauto; intros K; try discriminate. destruct K; discriminate.
Qed.
