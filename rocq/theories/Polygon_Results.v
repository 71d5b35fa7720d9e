(** C24, C25, C47: results about polygons in terms of the operations. *)
From Coq Require Import Reals Lra.
From Verif Require Import Base GeoMap_Model Polygon_Model Polygon_Spec Polygon_Proofs.
Local Open Scope Z_scope.

Lemma length_any okP okS p : made okP okS p -> snd (qLength p) = trueLength (ppts p).
Proof. intro H. apply qLength_val. exact (made_lenOK okP okS p H). Qed.
Lemma area_flat okS p : made flatPush okS p -> snd (qArea2 p) = trueArea2 (ppts p).
Proof. intro H. apply qArea2_val. exact (made_areaOK okS p H). Qed.
Lemma bbox_inward okP p : made okP inward p -> isBox (ppts p) (snd (qBBox p)).
Proof. intro H. apply qBBox_val. exact (made_bbOK okP p H). Qed.
Lemma pushed_twice l : let p := fold_left pushBack l emptyPoly in ppts p = l /\ snd (qArea2 p) = 2 * trueArea2 l.
Proof.
  cbn zeta. destruct (pushed_area l emptyPoly eq_refl eq_refl) as [V [E A]]. rewrite E in A. split; [exact E|].
  unfold qArea2. rewrite V. exact A.
Qed.

Lemma poly_points p q i x l :
  ppts (pushBack p x) = ppts p ++ [x] /\
  ppts (fst (qLength p)) = ppts p /\ ppts (fst (qArea2 p)) = ppts p /\ ppts (fst (qBBox p)) = ppts p /\
  ppts (reversePoly p) = rev (ppts p) /\
  ppts (snd (extend p q)) = ppts q /\
  (forall f t, ppts q = f :: t -> lastPt (ppts p) = Some f -> ppts (fst (extend p q)) = ppts p ++ t) /\
  (forall f t, ppts q = f :: t -> lastPt (ppts p) <> Some f -> ppts (fst (extend p q)) = ppts p ++ ppts q) /\
  (ppts q = [] -> ppts (fst (extend p q)) = ppts p) /\
  (forall l1 y l2, ppts p = l1 ++ y :: l2 -> length l1 = i ->
     (exists r, setPoint p i x = Ok r /\ ppts r = l1 ++ x :: l2) /\ (exists r, erasePt p i = Ok r /\ ppts r = l1 ++ l2) /\
     (exists r r', splitPoly p i = Ok (r, r') /\ ppts r = l1 ++ [y] /\ ppts r' = y :: l2)) /\
  (forall l1 l2, ppts p = l1 ++ l2 -> length l1 = i ->
     (exists r, insertPt p i x = Ok r /\ ppts r = l1 ++ x :: l2) /\ (exists r, insertRange p i l = Ok r /\ ppts r = l1 ++ l ++ l2)).
Proof.
  split; [unfold pushBack; destruct (lastPt (ppts p)); reflexivity|].
  split; [apply qLength_pts|]. split; [apply qArea2_pts|]. split; [apply qBBox_pts|]. split; [reflexivity|]. split; [apply extend_snd_pts|].
  split. { intros f t E L. rewrite extend_fst_pts, E, L. unfold pointEqb. rewrite !Z.eqb_refl. reflexivity. }
  split. { intros f t E L. rewrite extend_fst_pts, E. destruct (lastPt (ppts p)) as [b|]; [|reflexivity].
    destruct (pointEqb f b) eqn:Q; [|reflexivity]. apply pointEqb_eq in Q. congruence. }
  split. { intros E. rewrite extend_fst_pts, E. reflexivity. }
  split.
  - intros l1 y l2 E L.
    assert (N : nth_error (ppts p) i = Some y) by (rewrite E, nth_error_app2 by lia; replace (i - length l1)%nat with 0%nat by lia; reflexivity).
    assert (F : firstn i (ppts p) = l1) by (rewrite E, firstn_app; replace (i - length l1)%nat with 0%nat by lia; rewrite firstn_all2 by lia; apply app_nil_r).
    assert (SK : skipn (S i) (ppts p) = l2).
    { rewrite E. replace (S i) with (length (l1 ++ [y])) by (rewrite app_length; cbn; lia). change (y :: l2) with ([y] ++ l2). rewrite app_assoc, skipn_app, skipn_all, Nat.sub_diag. reflexivity. }
    assert (V : forall j, vget (ppts p) j = match nth_error (ppts p) j with Some a => Ok a | None => UB end) by reflexivity.
    assert (LL : (i < length (ppts p))%nat) by (apply nth_error_Some; congruence).
    split; [|split].
    + unfold setPoint. rewrite V, N. cbn [bind].
      assert (K : exists len, (if plenV p then
            l <- (if (0 <? i)%nat then a <- vget (ppts p) (i - 1) ;; Ok (plen p + (segLen a x - segLen a y))%R else Ok (plen p)) ;;
            (if (i <? length (ppts p) - 1)%nat then b <- vget (ppts p) (i + 1) ;; Ok (l + (segLen b x - segLen b y))%R else Ok l)
          else Ok (plen p)) = Ok len).
      { destruct (plenV p); [|eexists; reflexivity].
        assert (A : exists l, (if (0 <? i)%nat then a <- vget (ppts p) (i - 1) ;; Ok (plen p + (segLen a x - segLen a y))%R else Ok (plen p)) = Ok l).
        { destruct (0 <? i)%nat; [|eexists; reflexivity]. rewrite V. destruct (nth_error (ppts p) (i - 1)) eqn:Q; [eexists; reflexivity|apply nth_error_None in Q; lia]. }
        destruct A as [l0 A]. rewrite A. cbn [bind]. destruct (i <? length (ppts p) - 1)%nat eqn:B; [|eexists; reflexivity].
        apply Nat.ltb_lt in B. rewrite V. destruct (nth_error (ppts p) (i + 1)) eqn:Q; [eexists; reflexivity|apply nth_error_None in Q; lia]. }
      destruct K as [len K]. rewrite K. cbn [bind]. eexists. split; [reflexivity|]. cbn [ppts].
      rewrite (list_upd_split _ _ _ x N), F, SK. reflexivity.
    + unfold erasePt. rewrite V, N. cbn [bind]. eexists. split; [reflexivity|]. cbn [ppts]. unfold remove_nth. rewrite F, SK. reflexivity.
    + assert (K : exists r r', splitPoly p i = Ok (r, r')).
      { unfold splitPoly. rewrite (proj2 (Nat.ltb_lt _ _) LL). destruct (Nat.eqb i 0) eqn:Z; [|eexists; eexists; reflexivity].
        apply Nat.eqb_eq in Z. subst i. rewrite Z, V in *. rewrite N. cbn [bind]. eexists; eexists; reflexivity. }
      destruct K as [r [r' K]]. exists r, r'. split; [exact K|]. destruct (splitPoly_pts _ _ _ _ K) as [_ [-> ->]].
      rewrite E. split.
      * change (y :: l2) with ([y] ++ l2). rewrite app_assoc. replace (S i) with (length (l1 ++ [y])) by (rewrite app_length; cbn; lia).
        rewrite firstn_app, firstn_all, Nat.sub_diag. cbn [firstn]. apply app_nil_r.
      * rewrite <- L, skipn_app, skipn_all, Nat.sub_diag. reflexivity.
  - intros l1 l2 E L. assert (LE : (length (ppts p) <? i)%nat = false) by (apply Nat.ltb_ge; rewrite E, app_length; lia).
    assert (F : firstn i (ppts p) = l1) by (rewrite E, <- L, firstn_app, firstn_all, Nat.sub_diag; apply app_nil_r).
    assert (SK : skipn i (ppts p) = l2) by (rewrite E, <- L, skipn_app, skipn_all, Nat.sub_diag; reflexivity).
    assert (V : forall j, vget (ppts p) j = match nth_error (ppts p) j with Some a => Ok a | None => UB end) by reflexivity.
    split.
    + unfold insertPt. rewrite LE.
      match goal with |- exists r, bind ?e _ = _ /\ _ => assert (K : exists len, e = Ok len) end.
      { apply Nat.ltb_ge in LE. destruct (plenV p); [|eexists; reflexivity].
        destruct (0 <? i)%nat eqn:Z.
        - rewrite !V. destruct (nth_error (ppts p) (i - 1)) as [a|] eqn:Q; [|apply nth_error_None in Q; apply Nat.ltb_lt in Z; lia]. cbn [bind].
          destruct (i <? length (ppts p))%nat eqn:B; [|eexists; reflexivity]. apply Nat.ltb_lt in B.
          destruct (nth_error (ppts p) i) as [b|] eqn:Q2; [|apply nth_error_None in Q2; lia]. eexists; reflexivity.
        - cbn [bind]. destruct (i <? length (ppts p))%nat eqn:B; [|eexists; reflexivity]. apply Nat.ltb_lt in B.
          rewrite V. destruct (nth_error (ppts p) i) as [b|] eqn:Q2; [|apply nth_error_None in Q2; lia]. eexists; reflexivity. }
      destruct K as [len K]. rewrite K. cbn [bind]. eexists. split; [reflexivity|]. cbn [ppts]. unfold insert_at. rewrite F, SK. reflexivity.
    + unfold insertRange. rewrite LE. eexists. split; [reflexivity|]. cbn [ppts]. rewrite F, SK. reflexivity.
Qed.

Lemma reverse_law l : trueArea2 (rev l) = - trueArea2 l /\ trueLength (rev l) = trueLength l.
Proof. split; [apply trueArea2_rev|apply trueLength_rev]. Qed.
Lemma split_law p i : (i < length (ppts p))%nat -> exists a b, splitPoly p i = Ok (a, b) /\
  ppts (fst (extend a b)) = ppts p /\
  trueLength (ppts p) = (trueLength (ppts a) + trueLength (ppts b))%R /\
  trueArea2 (ppts p) = trueArea2 (ppts a) + trueArea2 (ppts b).
Proof.
  intro B. assert (K : exists a b, splitPoly p i = Ok (a, b)).
  { unfold splitPoly. rewrite (proj2 (Nat.ltb_lt _ _) B). destruct (Nat.eqb i 0) eqn:Z; [|eexists; eexists; reflexivity].
    unfold vget. destruct (nth_error (ppts p) 0) eqn:N; [eexists; eexists; reflexivity|apply nth_error_None in N; lia]. }
  destruct K as [a [b K]]. exists a, b. split; [exact K|]. split; [exact (split_extend _ _ _ _ K)|].
  destruct (splitPoly_pts _ _ _ _ K) as [_ [-> ->]]. split.
  - change trueLength with (psum distance). apply split_sum; [apply distance_self|exact B].
  - apply eq_IZR. rewrite plus_IZR, !trueArea2_psum. apply split_sum; [apply crossR_self|exact B].
Qed.

(** ** Counterexamples *)
Definition pushed3 : poly := pushBack (pushBack (pushBack emptyPoly (0, 0)) (0, 2)) (2, 2).
Lemma pushed3_made : made anyPush anySet pushed3.
Proof. unfold pushed3. repeat (apply m_push; [|exact I]). apply m_empty. Qed.
Lemma area_refuted : exists p, made anyPush anySet p /\ snd (qArea2 p) <> trueArea2 (ppts p).
Proof. exists pushed3. split; [exact pushed3_made|]. vm_compute. discriminate. Qed.

Definition boxed3 : poly := fst (qBBox (ofPoints [(0, 0); (5, 5); (10, 10)])).
Lemma bbox_refuted : exists p, made anyPush anySet p /\ ~ isBox (ppts p) (snd (qBBox p)).
Proof.
  destruct (setPoint boxed3 1 (20, 5)) as [p| | |] eqn:E; [|discriminate E..].
  exists p. split.
  - refine (m_set _ _ boxed3 1 (20, 5) p _ I E). apply m_bbox. apply m_points.
  - injection E as <-. unfold qBBox. cbn [pbbV snd]. intros [H _].
    specialize (H (20, 5) (or_intror (or_introl eq_refl))). destruct H as [[_ H] _]. vm_compute in H. apply H. reflexivity.
Qed.
Lemma poke_refuted : exists p q x, made flatPush inward p /\ poke p 0 x = Ok q /\
  snd (qLength q) <> trueLength (ppts q) /\ snd (qArea2 q) <> trueArea2 (ppts q) /\ ~ isBox (ppts q) (snd (qBBox q)).
Proof.
  set (p := fst (qBBox (fst (qArea2 (fst (qLength (ofPoints [(0, 0); (0, 2); (2, 2)]))))))).
  exists p, (mkPoly [(-12, -3); (0, 2); (2, 2)] true (plen p) true (parea2 p) true (pbb p)), (-12, -3).
  split; [apply m_bbox; apply m_area; apply m_length; apply m_points|]. split; [reflexivity|]. split; [|split].
  - unfold qLength. cbn [plenV snd plen ppts].
    change (plen p) with (0 + segLen (0, 0)%Z (0, 2)%Z + segLen (0, 2)%Z (2, 2)%Z)%R. rewrite !segLen_distance.
    change (trueLength [(-12, -3); (0, 2); (2, 2)]) with (distance (-12, -3)%Z (0, 2)%Z + (distance (0, 2)%Z (2, 2)%Z + 0))%R.
    assert (A : distance (0, 0) (0, 2) = 2%R).
    { unfold distance. cbn [fst snd]. transitivity (sqrt (2 * 2)); [f_equal; cbn; lra|apply sqrt_square; lra]. }
    assert (B : distance (-12, -3) (0, 2) = 13%R).
    { unfold distance. cbn [fst snd]. transitivity (sqrt (13 * 13)); [f_equal; cbn; lra|apply sqrt_square; lra]. }
    rewrite A, B. lra.
  - vm_compute. discriminate.
  - unfold qBBox. cbn [pbbV snd]. intros [H _].
    specialize (H (-12, -3) (or_introl eq_refl)). destruct H as [_ [H _]]. vm_compute in H. apply H. reflexivity.
Qed.

(** a triangle with sides 3, 4, 5 *)
Definition triangle : poly := pushBack (pushBack (pushBack (ofPoints [(0, 0)]) (0, 3)) (4, 0)) (0, 0).
Lemma triangle_made : made flatPush inward triangle.
Proof.
  unfold triangle. repeat (apply m_push; [|intro V; discriminate V]). apply m_points.
Qed.
Lemma triangle_length : snd (qLength triangle) = 12%R.
Proof.
  rewrite (length_any _ _ _ triangle_made).
  change (trueLength (ppts triangle)) with (distance (0, 0)%Z (0, 3)%Z + (distance (0, 3)%Z (4, 0)%Z + (distance (4, 0)%Z (0, 0)%Z + 0)))%R.
  assert (A : distance (0, 0) (0, 3) = 3%R).
  { unfold distance. cbn [fst snd]. transitivity (sqrt (3 * 3)); [f_equal; cbn; lra|apply sqrt_square; lra]. }
  assert (B : distance (0, 3) (4, 0) = 5%R).
  { unfold distance. cbn [fst snd]. transitivity (sqrt (5 * 5)); [f_equal; cbn; lra|apply sqrt_square; lra]. }
  assert (C : distance (4, 0) (0, 0) = 4%R).
  { unfold distance. cbn [fst snd]. transitivity (sqrt (4 * 4)); [f_equal; cbn; lra|apply sqrt_square; lra]. }
  rewrite A, B, C. lra.
Qed.
