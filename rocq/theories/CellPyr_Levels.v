(** C85: the pyramid with the pixel based map and its statistics. *)
From Coq Require Import Lia.
From Verif Require Import Base CellMap_Model CellMap_Spec CellMap_Proofs CellMap_Main CellSigma_Spec CellSigma_Proofs CellSigma_Results CellLink_Spec CellFace_Spec CellContour_Spec CellCall_Results CellPlane_Spec CellPlane_Results Pack_Model Pack_Proofs Pyramid_Model Pyramid_Spec Pyramid_Proofs
  CellStats_Model CellStats_Spec CellStats_Main CellStats_Results CellPyr_Model CellPyr_Spec CellPyr_Main.
Local Open Scope Z_scope.

(** ** lastChanges is not read *)
Definition unseen (s t : cstats) : Prop := hide s = hide t.
Definition unseenR (a b : res (cmap * cstats)) : Prop :=
  match a, b with Ok (m, s), Ok (n, t) => m = n /\ unseen s t | Exn, Exn | UB, UB | NoFuel, NoFuel => True | _, _ => False end.
Lemma unseen_parts s t : unseen s t <-> faceStats s = faceStats t /\ edgeStats s = edgeStats t /\ mergedEdges s = mergedEdges t /\ flags s = flags t.
Proof. destruct s as [a b c d e], t as [a' b' c' d' e']. unfold unseen, hide, CellStats_Model.setLast. cbn. split; [intros Q; injection Q as -> -> -> ->; auto|intros (-> & -> & -> & ->); reflexivity]. Qed.
Lemma hide_hide s : unseen (hide s) s. Proof. reflexivity. Qed.
Lemma touch_unseen s t r r' : unseen s t -> unseen (touch s r) (touch t r').
Proof. rewrite !unseen_parts. destruct s, t. cbn. auto. Qed.
Lemma bind_unseen {A} (r : res A) f g : (forall a, r = Ok a -> unseenR (f a) (g a)) -> unseenR (bind r f) (bind r g).
Proof. intros H. destruct r; cbn; auto. Qed.

Section Data.
Variables original gradient : vimg.
Variable maxValue : Z.
Notation hist := (shistory original gradient maxValue).
Notation exec := (statExec original gradient maxValue).
Notation pex := (pexec original gradient maxValue).

Lemma exec_unseen m s t c : unseen s t -> unseenR (exec m s c) (exec m t c).
Proof.
  intros U. pose proof (proj1 (unseen_parts s t) U) as (A & B & C & D). destruct c as [d|d|d|d]; cbn [statExec].
  - apply bind_unseen. intros r _. apply bind_unseen. intros f _. cbn. split; [reflexivity|apply touch_unseen, U].
  - assert (Q : preMergeFaces original m s d = preMergeFaces original m t d) by (unfold preMergeFaces, preRemoveEdge; rewrite A; reflexivity). rewrite Q. apply bind_unseen. intros x _. apply bind_unseen. intros r _. apply bind_unseen. intros f _. unfold postRemoveEdge. rewrite A.
    destruct (put (faceStats t) (clabel (finf f)) x); cbn; auto. split; [reflexivity|]. apply touch_unseen, unseen_parts. destruct s, t; cbn in *. auto.
  - assert (Q : preRemoveEdge original m s d = preRemoveEdge original m t d) by (unfold preRemoveEdge; rewrite A; reflexivity). rewrite Q. apply bind_unseen. intros x _. apply bind_unseen. intros r _. apply bind_unseen. intros f _. unfold postRemoveEdge. rewrite A.
    destruct (put (faceStats t) (clabel (finf f)) x); cbn; auto. split; [reflexivity|]. apply touch_unseen, unseen_parts. destruct s, t; cbn in *. auto.
  - assert (Q : preMergeEdges gradient maxValue m s d = preMergeEdges gradient maxValue m t d) by (unfold preMergeEdges; rewrite B; reflexivity). rewrite Q. apply bind_unseen. intros x _. apply bind_unseen. intros r _. apply bind_unseen. intros e _. unfold postMergeEdges. rewrite B, C.
    destruct (put (edgeStats t) (clabel (einf e)) (snd x)) as [v| | |]; cbn [bind]; [|exact I..]. destruct (lastMerged (Datatypes.S (length (mergedEdges t))) (mergedEdges t) (clabel (einf e))) as [j| | |]; cbn [bind]; [|exact I..]. destruct (put (mergedEdges t) j (if clabel (einf e) =? fst (fst x) then snd (fst x) else fst (fst x))); cbn; auto. split; [reflexivity|]. apply touch_unseen, unseen_parts. destruct s, t; cbn in *. auto.
Qed.
Lemma unseen_Ok m s t c m' s' : unseen s t -> exec m s c = Ok (m', s') -> exists t', exec m t c = Ok (m', t') /\ unseen s' t'.
Proof. intros U E. pose proof (exec_unseen m s t c U) as Q. rewrite E in Q. destruct (exec m t c) as [[n t']| | |]; cbn in Q; try contradiction. destruct Q as (<- & Q). eauto. Qed.

Lemma pack_unpack d : 0 <= ddir d < 8 -> 0 <= dcx d < 2 ^ 14 -> 0 <= dcy d < 2 ^ 14 -> unpack (pack d) = d.
Proof. intros A B C. destruct (serialize_roundtrip (ddir d) (dcx d) (dcy d) A B C) as (z & E & _ & D). unfold pack. rewrite E. unfold unpack. rewrite D. destruct d; reflexivity. Qed.

Notation lapp := (lapply original gradient maxValue).
Notation internal := (internal lstate lapp).
Notation atom := (performAtom lstate lapp lsame lends ldegree lanchor).

Section Base.
Variable m0 : cmap.
Hypothesis Small : iw (cim m0) <= 2 ^ 14 /\ ih (cim m0) <= 2 ^ 14.

(** a level with a map of the plane and right statistics *)
Definition good (st : lstate) : Prop := exists m s since lost, st = Some (m, hide s) /\ phistory m /\ hist m0 since lost m s.

Lemma internal_Ok e z l m s m' s' : st lstate l = Some (m, hide s) -> exec m s (callOf e (unpack z)) = Ok (m', s') -> internal e z l = (Done, mkLevel lstate (index lstate l) (sub lstate l + 1) (Some (m', hide s'))).
Proof.
  intros L E. unfold Pyramid_Model.internal, lapply. rewrite L. destruct (unseen_Ok m s (hide s) (callOf e (unpack z)) m' s' (eq_sym (hide_hide s)) E) as (t' & -> & U). unfold unseen in U. rewrite U. reflexivity.
Qed.
Lemma internal_Exn e z l m s : st lstate l = Some (m, hide s) -> exec m s (callOf e (unpack z)) = Exn -> internal e z l = (Thrown, l).
Proof.
  intros L E. unfold Pyramid_Model.internal, lapply. rewrite L. pose proof (exec_unseen m s (hide s) (callOf e (unpack z)) (eq_sym (hide_hide s))) as Q. rewrite E in Q. destruct (exec m (hide s) _) as [[? ?]| | |]; try contradiction. destruct l; cbn in *. subst. reflexivity.
Qed.
Lemma edge_internal z l m s m' s' : st lstate l = Some (m, hide s) -> removeEdgeOf original gradient maxValue m s (unpack z) = Ok (m', s') ->
  removeEdgeInternal lstate lapp lsame z l = (Done, mkLevel lstate (index lstate l) (sub lstate l + 1) (Some (m', hide s'))).
Proof.
  intros L E. unfold removeEdgeInternal, lsame. rewrite L. unfold removeEdgeOf in E. bnd E a Ea. bnd E b Eb. rewrite Ea, Eb. destruct (a =? b); eapply internal_Ok; eassumption.
Qed.
Lemma alone_internal n l m s m' s' y since lost : st lstate l = Some (m, hide s) -> hist m0 since lost m s -> framed (cim m) -> 0 <= n -> at_ (cnodes m) n = Ok y -> 0 <= ndegree y -> (ndegree y = 0 -> isPlace (cim m) (nanchor y)) -> removeAlone original gradient maxValue m s n = Ok (m', s') ->
  exists k, (if (ldegree (Z.to_nat n) (st lstate l) =? 0)%nat then internal RemoveIsolatedNode (lanchor (Z.to_nat n) (st lstate l)) l else (Done, l)) = (Done, mkLevel lstate (index lstate l) k (Some (m', hide s'))).
Proof.
  intros L H Fr Pn Y G A E. apply at_Ok in Y as (_ & Y'). rewrite L. cbn [ldegree lanchor]. rewrite Y'. unfold removeAlone in E. rewrite (proj2 (at_Ok _ _ _) (conj Pn Y')) in E. cbn [bind] in E. destruct (Z.eqb_spec (ndegree y) 0) as [Z0|Z0].
  - rewrite Z0. cbn [Z.to_nat Nat.eqb]. destruct (A Z0) as ((X & X' & _) & D & _). destruct (hist_size _ _ _ _ _ _ _ _ H) as (W & I). eexists. eapply (internal_Ok RemoveIsolatedNode); [exact L|]. cbn [callOf]. rewrite pack_unpack by lia. exact E.
  - injection E as <- <-. exists (sub lstate l). replace (Z.to_nat (ndegree y) =? 0)%nat with false by (symmetry; apply Nat.eqb_neq; lia). destruct l; cbn in *. rewrite L. reflexivity.
Qed.
(** what an operation does to a level *)
Lemma pcallOf_euler e d : pcallOf (Euler e) d = PEuler (callOf e d).
Proof. destruct e; reflexivity. Qed.
Lemma atom_runs t z l m s since lost : st lstate l = Some (m, hide s) -> phistory m -> hist m0 since lost m s -> pAllowed (cim m) (pcallOf t (unpack z)) ->
  (exists m' s' n lost', pex m s (pcallOf t (unpack z)) = Ok (m', s') /\ phistory m' /\ hist m0 since lost' m' s' /\ atom t z l = (Done, mkLevel lstate (index lstate l) n (Some (m', hide s')))) \/
  ((exists e, t = Euler e) /\ pex m s (pcallOf t (unpack z)) = Exn /\ atom t z l = (Thrown, l)).
Proof.
  intros L Ph Hs A. destruct t as [e| |]; [rewrite pcallOf_euler in *|..]; cbn [pcallOf pAllowed] in A.
  - cbn [pexec performAtom]. destruct (calls_return m (phistory_khistory m Ph) _ A) as [(m' & k & E)|E].
    + left. destruct (with_stats original gradient maxValue m0 since lost m s Ph Hs _ m' k A E) as (s' & lost' & Es & H' & P'). exists m', s'. eexists. exists lost'. split; [exact Es|]. split; [exact P'|]. split; [exact H'|]. exact (internal_Ok e z l m s m' s' L Es).
    + right. destruct (calls_same original gradient maxValue m0 since lost m s _ Hs A) as (_ & Y). split; [eauto|]. split; [apply Y, E|]. exact (internal_Exn e z l m s L (Y E)).
  - left. destruct (edge_goes original gradient maxValue m0 since lost m s Ph Hs (unpack z) A) as (m' & s' & k & lost' & E & _ & _ & H' & P'). exists m', s'. eexists. exists lost'. split; [exact E|]. split; [exact P'|]. split; [exact H'|]. apply (edge_internal z l m s m' s' L E).
  - left. destruct (ends_go original gradient maxValue m0 since lost m s (unpack z) Ph Hs A) as (m' & s' & k & lost' & E & _ & _ & (H' & P') & Ran). exists m', s'.
    destruct Ran as (n1 & n2 & m1 & s1 & y1 & m2 & s2 & lost1 & lost2 & Nn & Pn1 & Pn2 & E1 & P1 & H1 & Y1 & G1 & A1 & E2 & P2 & H2 & Eq & Df).
    assert (K : forall la m s, st lstate la = Some (m, s) -> lends z (st lstate la) = match (el <- edgeLabel (cim m) (unpack z) ;; e <- at_ (cedges m) el ;; n1 <- startNodeLabel (cim m) (estart e) ;; n2 <- startNodeLabel (cim m) (eend e) ;; Ok (n1, n2)) with Ok (n1, n2) => (Z.to_nat n1, Z.to_nat n2) | _ => (O, O) end) by (intros la x y ->; reflexivity).
    cbn [performAtom]. rewrite (K l m (hide s) L), Nn. rewrite (edge_internal z l m s m1 s1 L E1). cbn [andThen].
    set (l1 := mkLevel lstate (index lstate l) (sub lstate l + 1) (Some (m1, hide s1))).
    assert (Fr1 : framed (cim m1)) by apply (phistory_planar m1 P1). assert (Fr2 : framed (cim m2)) by apply (phistory_planar m2 P2).
    destruct (alone_internal n1 l1 m1 s1 m2 s2 y1 since lost1 eq_refl H1 Fr1 Pn1 Y1 G1 A1 E2) as (k2 & Q2). rewrite Q2. cbn [andThen]. destruct (Nat.eqb_spec (Z.to_nat n1) (Z.to_nat n2)) as [Q|Q].
    + destruct (Eq ltac:(lia)) as (-> & ->). exists k2, lost'. auto.
    + destruct (Df ltac:(lia)) as (y2 & Y2 & G2 & A2 & E3). set (l2 := mkLevel lstate (index lstate l1) k2 (Some (m2, hide s2))). cbn [negb andb].
      destruct (alone_internal n2 l2 m2 s2 m' s' y2 since lost2 eq_refl H2 Fr2 Pn2 Y2 G2 A2 E3) as (k3 & Q3). rewrite Q3. exists k3, lost'. auto.
Qed.

(** ** The levels *)
Notation add := (addAndPerform lstate lapp lsame lends ldegree lanchor lcells).
Notation built := (built original gradient maxValue).
Notation orderly := (orderly lstate lapp lsame lends ldegree lanchor lcells).
Lemma good_runs t z l : good (st lstate l) -> fits t z (st lstate l) -> (exists l', atom t z l = (Done, l') /\ good (st lstate l')) \/ atom t z l = (Thrown, l).
Proof.
  intros (m & s & since & lost & L & Ph & H) F. unfold fits in F. rewrite L in F. destruct (atom_runs t z l m s since lost L Ph H F) as [(m' & s' & n & lost' & _ & P' & H' & E)|(_ & _ & E)]; [left|right; exact E].
  eexists. split; [exact E|]. cbn [st]. exists m', s', since, lost'. auto.
Qed.
Lemma store_top p : top lstate (maybeStore lstate lcells p) = top lstate p. Proof. unfold maybeStore. destruct (_ <=? _)%nat; reflexivity. Qed.
Lemma add_top p t z o p' : good (st lstate (top lstate p)) -> fits t z (st lstate (top lstate p)) -> add p t z = (o, p') -> (o = Done -> good (st lstate (top lstate p'))) /\ (o = Thrown -> composing lstate p <> 0 -> top lstate p' = top lstate p).
Proof.
  intros G F E. unfold addAndPerform in E. destruct (composing lstate p =? 0) eqn:C.
  - cbn zeta in E. cbn [perform setHistory top] in E. destruct (good_runs t z (top lstate p) G F) as [(l' & Q & G')|Q]; rewrite Q in E.
    + injection E as <- <-. split; [intros _; rewrite store_top; exact G'|discriminate].
    + apply Z.eqb_eq in C. split; [|intros _ N; contradiction]. intros ->. destruct (cutAbove lstate lapp lsame lends ldegree lanchor lcells _ _) as [[| |] ?]; discriminate E.
  - destruct (back (history lstate p)) as [[t' z'|ops]|]; [injection E as <- <-; split; discriminate| |injection E as <- <-; split; discriminate]. cbn [perform] in E.
    destruct (good_runs t z (top lstate p) G F) as [(l' & Q & G')|Q]; rewrite Q in E; injection E as <- <-; split; try discriminate; auto.
Qed.
Lemma cut_composing p l p' : cutApex lstate lcells (setTop lstate p l) = (Done, p') -> composing lstate p' = composing lstate p.
Proof. unfold cutApex. destruct (_ <? _)%nat; [discriminate|]. cbn zeta. destruct (nth_error _ _) as [[k c]|]; intros E; [|discriminate E]. injection E as <-. reflexivity. Qed.
Lemma in_seen walk p seen : orderly walk p seen -> composing lstate p = 0 -> Forall (fun l => good (st lstate l)) seen -> good (st lstate (top lstate p)).
Proof. intros O C F. destruct (counts_ok lstate lapp lsame lends ldegree lanchor lcells walk p seen O C) as (_ & I & _). rewrite Forall_forall in F. exact (F _ I). Qed.
Lemma Forall_first {A} (P : A -> Prop) n l : Forall P l -> Forall P (firstn n l).
Proof. intros F. rewrite Forall_forall in *. intros x I. apply F. rewrite <- (firstn_skipn n l). apply in_or_app. left. exact I. Qed.
Theorem built_good walk m s p seen : good (Some (m, hide s)) -> built walk m s p seen -> orderly walk p seen /\ Forall (fun l => good (st lstate l)) seen /\ good (st lstate (top lstate p)).
Proof.
  intros G B. induction B as [|p seen t z p' B IH C I F E|p seen t z p' B IH C F E|p seen t z p' B IH C F E|p seen p' B IH C L E|p seen p' B IH C L E|p seen p' B IH C E|p seen p' B IH C Bk E|p seen k p' B IH E|p seen l p' B IH I E|p seen l B IH I|p seen k l B IH Wk C K E|p seen k n l b B IH Wk C K E];
    try (destruct IH as (O & Fo & To)).
  - split; [apply o_new|]. split; [constructor; [exact G|constructor]|exact G].
  - destruct (add_top p t z Done p' To F E) as (T' & _). specialize (T' eq_refl). split; [eapply o_op; eassumption|]. split; [apply Forall_app; auto|exact T'].
  - destruct (add_top p t z Done p' To F E) as (T' & _). specialize (T' eq_refl). split; [eapply o_op_inside; eassumption|]. auto.
  - destruct (add_top p t z Thrown p' To F E) as (_ & T'). specialize (T' eq_refl C). split; [eapply o_op_fails; eassumption|]. split; [exact Fo|rewrite T'; exact To].
  - split; [eapply o_begin; eassumption|]. split; [exact Fo|]. unfold beginComposite in E. injection E as <-. destruct (composing lstate p =? 0); exact To.
  - split; [eapply o_change; eassumption|]. split; [exact Fo|]. unfold changeIntoComposite in E. destruct (composing lstate p =? 0) eqn:C0; [apply Z.eqb_eq in C0; contradiction|]. injection E as <-. exact To.
  - split; [eapply o_end_inner; eassumption|]. split; [exact Fo|]. unfold endComposite in E. cbn zeta in E. destruct (_ =? _) in E; [|injection E as <-; exact To]. destruct (back _) as [[? ?|ops]|] in E; try discriminate E. injection E as <-. rewrite store_top. exact To.
  - assert (T' : good (st lstate (top lstate p'))). { unfold endComposite in E. cbn zeta in E. destruct (_ =? _) in E; [|injection E as <-; exact To]. destruct (back _) as [[? ?|ops]|] in E; try discriminate E. injection E as <-. rewrite store_top. exact To. }
    split; [eapply o_end; eassumption|]. split; [apply Forall_app; auto|exact T'].
  - assert (O' : orderly walk p' (firstn (k + 1) seen)) by (eapply o_cut; eassumption). split; [exact O'|]. split; [apply Forall_first, Fo|].
    assert (C : composing lstate p = 0). { destruct (Z.eq_dec (composing lstate p) 0) as [C|C]; [exact C|]. destruct (composing_ok lstate lapp lsame lends ldegree lanchor lcells walk p seen O C) as (_ & X & _). rewrite X in E. discriminate E. }
    unfold cutAbove in E. destruct (negb _) in E; [discriminate E|]. destruct (_ <? _)%nat in E; [|injection E as <-; exact To]. destruct (gotoLevel lstate lapp lsame lends ldegree lanchor p k (top lstate p)) as [[| |] l]; [|discriminate E..].
    apply (in_seen walk p' _ O'); [rewrite (cut_composing p l p' E); exact C|apply Forall_first, Fo].
  - assert (O' : orderly walk p' (firstn (index lstate l + 1) seen)) by (eapply o_cut_level; eassumption). split; [exact O'|]. split; [apply Forall_first, Fo|].
    assert (C : composing lstate p = 0). { destruct (Z.eq_dec (composing lstate p) 0) as [C|C]; [exact C|]. destruct (composing_ok lstate lapp lsame lends ldegree lanchor lcells walk p seen O C) as (_ & _ & X). rewrite X in E. discriminate E. }
    unfold cutAboveLevel in E. destruct (negb _) in E; [discriminate E|]. destruct (negb _) in E; [|injection E as <-; exact To].
    apply (in_seen walk p' _ O'); [rewrite (cut_composing p l p' E); exact C|apply Forall_first, Fo].
  - split; [apply o_store; assumption|]. split; [exact Fo|exact To].
  - assert (O' : orderly walk (setTop lstate p l) seen) by (eapply o_goto; eassumption). split; [exact O'|]. split; [exact Fo|]. apply (in_seen walk _ _ O'); [exact C|exact Fo].
  - assert (O' : orderly walk (setTop lstate p l) seen) by (eapply o_approach; eassumption). split; [exact O'|]. split; [exact Fo|]. apply (in_seen walk _ _ O'); [exact C|exact Fo].
Qed.

(** the levels are the ones there have been, all of them maps of the plane with right statistics *)
Theorem levels_right walk m s since lost p seen k l : phistory m -> hist m0 since lost m s -> built walk m s p seen -> nth_error seen k = Some l ->
  getLevel lstate lapp lsame lends ldegree lanchor p k = Some (Done, l) /\ index lstate l = k /\ exists m' s' since' lost', st lstate l = Some (m', hide s') /\ phistory m' /\ hist m0 since' lost' m' s'.
Proof.
  intros Ph H B N. assert (G : good (Some (m, hide s))) by (exists m, s, since, lost; auto). destruct (built_good walk m s p seen G B) as (O & Fo & _). split; [exact (getLevel_ok _ _ _ _ _ _ _ walk p seen k l O N)|].
  split; [destruct (PInv_closed _ _ _ _ _ _ _ _ _ (orderly_PInv _ _ _ _ _ _ _ _ _ _ O)) as (h & more & _ & St & _); apply (proj1 (proj2 St) _ _ N)|]. rewrite Forall_forall in Fo. exact (Fo l (nth_error_In _ _ N)).
Qed.
(** a new operation: never undefined, and the top level is what the operation makes of it *)
Theorem operation_right walk m s since lost p seen t z : phistory m -> hist m0 since lost m s -> built walk m s p seen -> (composing lstate p = 0 -> index lstate (top lstate p) = length (history lstate p)) -> fits t z (st lstate (top lstate p)) ->
  exists m1 s1 since1 lost1, st lstate (top lstate p) = Some (m1, hide s1) /\ phistory m1 /\ hist m0 since1 lost1 m1 s1 /\
    ((exists p' m2 s2, add p t z = (Done, p') /\ pex m1 s1 (pcallOf t (unpack z)) = Ok (m2, s2) /\ st lstate (top lstate p') = Some (m2, hide s2)) \/
     ((exists e, t = Euler e) /\ pex m1 s1 (pcallOf t (unpack z)) = Exn /\ exists p', add p t z = (Thrown, p') /\ top lstate p' = top lstate p)).
Proof.
  intros Ph H B C F. assert (G : good (Some (m, hide s))) by (exists m, s, since, lost; auto). destruct (built_good walk m s p seen G B) as (O & _ & (m1 & s1 & since1 & lost1 & L & P1 & H1)). exists m1, s1, since1, lost1. split; [exact L|]. split; [exact P1|]. split; [exact H1|].
  assert (F' := F). unfold fits in F'. rewrite L in F'. pose proof (orderly_PInv _ _ _ _ _ _ _ _ _ _ O) as (_ & _ & I).
  destruct (atom_runs t z (top lstate p) m1 s1 since1 lost1 L P1 H1 F') as [(m2 & s2 & n & lost2 & E & _ & _ & A)|(Te & E & A)]; [left|right; split; [exact Te|]; split; [exact E|]]; unfold addAndPerform; destruct (composing lstate p =? 0) eqn:C0; cbn zeta; cbn [perform setHistory top].
  - rewrite A. eexists. exists m2, s2. split; [reflexivity|]. split; [exact E|]. rewrite store_top. reflexivity.
  - destruct I as (h & ops & l0 & Hh & _). rewrite Hh, back_app. rewrite A. eexists. exists m2, s2. split; [reflexivity|]. split; [exact E|reflexivity].
  - rewrite A. apply Z.eqb_eq in C0. specialize (C C0). unfold cutAbove, levelCount. cbn [setTop top setHistory history]. rewrite app_length. cbn [length]. replace (negb (index lstate (top lstate p) =? length (history lstate p) + 1 + 1 - 1)%nat) with true by (symmetry; apply Bool.negb_true_iff, Nat.eqb_neq; lia).
    eexists. split; [reflexivity|reflexivity].
  - destruct I as (h & ops & l0 & Hh & _). rewrite Hh, back_app, A. eexists. split; [reflexivity|reflexivity].
Qed.
End Base.
End Data.
