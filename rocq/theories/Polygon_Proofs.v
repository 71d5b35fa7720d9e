(** The cached length, area and bounding box of polygons. *)
From Coq Require Import Reals Lra.
From Verif Require Import Base GeoMap_Model Polygon_Model Polygon_Spec.
Local Open Scope Z_scope.

Definition psum (f : point -> point -> R) (l : list point) : R :=
  fold_right Rplus 0%R (map (fun s => f (fst s) (snd s)) (pairsOf l)).
Definition link (f : point -> point -> R) (l l' : list point) : R :=
  match lastPt l, l' with Some b, c :: _ => f b c | _, _ => 0%R end.
Definition crossR (p q : point) : R := IZR (fst q * snd p - fst p * snd q).

Lemma psum_nil f : psum f [] = 0%R.
Proof. reflexivity. Qed.
Lemma psum_one f a : psum f [a] = 0%R.
Proof. reflexivity. Qed.
Lemma psum_cons f a b l : psum f (a :: b :: l) = (f a b + psum f (b :: l))%R.
Proof. reflexivity. Qed.
Lemma lastPt_cons a b l : lastPt (a :: b :: l) = lastPt (b :: l).
Proof. reflexivity. Qed.
Lemma lastPt_some a l : exists b, lastPt (a :: l) = Some b.
Proof. revert a; induction l as [|c l IH]; intro a; [exists a; reflexivity|]. rewrite lastPt_cons. apply IH. Qed.
Lemma psum_app f l l' : psum f (l ++ l') = (psum f l + link f l l' + psum f l')%R.
Proof.
  induction l as [|a l IH].
  - cbn [app]. unfold link, psum at 2. cbn. lra.
  - destruct l as [|b l].
    + destruct l' as [|c l']; [unfold psum, link; cbn; lra|]. cbn [app]. rewrite psum_cons.
      unfold link, psum at 2. cbn. lra.
    + change ((a :: b :: l) ++ l') with (a :: b :: (l ++ l')). rewrite psum_cons, psum_cons.
      change (b :: l ++ l') with ((b :: l) ++ l'). rewrite IH.
      unfold link. rewrite lastPt_cons. lra.
Qed.
Lemma lastPt_snoc l a : lastPt (l ++ [a]) = Some a.
Proof.
  induction l as [|b l IH]; [reflexivity|]. destruct l as [|c l]; [reflexivity|].
  change ((b :: c :: l) ++ [a]) with (b :: c :: (l ++ [a])). rewrite lastPt_cons. exact IH.
Qed.
Lemma lastPt_app l a l' : lastPt (l ++ a :: l') = lastPt (a :: l').
Proof.
  induction l as [|b l IH]; [reflexivity|]. destruct l as [|c l]; [reflexivity|].
  change ((b :: c :: l) ++ a :: l') with (b :: c :: (l ++ a :: l')). rewrite lastPt_cons. exact IH.
Qed.
Lemma lastPt_snoc_inv l b : lastPt l = Some b -> exists l', l = l' ++ [b].
Proof.
  induction l as [|a l IH]; [discriminate|]. destruct l as [|c l].
  - intros [=->]. exists []. reflexivity.
  - rewrite lastPt_cons. intro H. destruct (IH H) as [l' E]. exists (a :: l'). rewrite E. reflexivity.
Qed.
Lemma lastPt_hd_rev l b : lastPt l = Some b -> exists t, rev l = b :: t.
Proof. intro H. destruct (lastPt_snoc_inv l b H) as [l' ->]. rewrite rev_app_distr. exists (rev l'). reflexivity. Qed.
Lemma psum_rev f l : psum f (rev l) = psum (fun a b => f b a) l.
Proof.
  induction l as [|a l IH]; [reflexivity|]. cbn [rev]. rewrite psum_app, IH.
  destruct l as [|b l]; [unfold link, psum; cbn; lra|].
  rewrite psum_cons. unfold link. cbn [rev]. rewrite lastPt_snoc, psum_one. lra.
Qed.
Lemma psum_share f l b r : f b b = 0%R -> lastPt l = Some b -> psum f (l ++ r) = (psum f l + psum f (b :: r))%R.
Proof.
  intros E H. rewrite psum_app. unfold link. rewrite H. destruct r as [|c r]; [rewrite psum_nil, psum_one; lra|].
  rewrite psum_cons. lra.
Qed.
Lemma psum_ext f g l : (forall a b, f a b = g a b) -> psum f l = psum g l.
Proof. intro H. unfold psum. f_equal. apply map_ext. intros [a b]. apply H. Qed.

Lemma distance_sym p q : distance p q = distance q p.
Proof. unfold distance. f_equal. lra. Qed.
Lemma distance_self p : distance p p = 0%R.
Proof. unfold distance. transitivity (sqrt 0); [f_equal; lra|apply sqrt_0]. Qed.
Lemma segLen_distance p q : segLen p q = distance p q.
Proof. unfold segLen, distance. f_equal. rewrite plus_IZR, !mult_IZR, !minus_IZR. ring. Qed.
Lemma crossR_anti p q : crossR q p = (- crossR p q)%R.
Proof. unfold crossR. rewrite <- opp_IZR. f_equal. ring. Qed.
Lemma crossR_self p : crossR p p = 0%R.
Proof. unfold crossR. f_equal. ring. Qed.

Lemma trueLength_psum l : trueLength l = psum distance l.
Proof. reflexivity. Qed.
Lemma trueArea2_psum l : IZR (trueArea2 l) = psum crossR l.
Proof.
  unfold trueArea2, psum. induction (pairsOf l) as [|[a b] t IH]; [reflexivity|].
  cbn [map fold_right]. rewrite plus_IZR, IH. reflexivity.
Qed.
Lemma lengthLoop_psum l : forall prev acc, lengthLoop prev l acc = (acc + psum distance (prev :: l))%R.
Proof.
  induction l as [|q t IH]; intros prev acc; cbn [lengthLoop]; [unfold psum; cbn; lra|].
  rewrite IH, psum_cons, segLen_distance. lra.
Qed.
Lemma computeLength_ok l : computeLength l = trueLength l.
Proof. destruct l as [|p t]; [reflexivity|]. change (lengthLoop p t 0%R = psum distance (p :: t)). rewrite lengthLoop_psum. lra. Qed.
Lemma areaLoop_sum l : forall prev acc, areaLoop prev l acc = acc + trueArea2 (prev :: l).
Proof.
  induction l as [|q t IH]; intros prev acc; cbn [areaLoop]; [unfold trueArea2; cbn; lia|].
  rewrite IH. change (trueArea2 (prev :: q :: t)) with (fst q * snd prev - fst prev * snd q + trueArea2 (q :: t)). lia.
Qed.
Lemma computeArea2_ok l : computeArea2 l = trueArea2 l.
Proof. destruct l as [|p t]; [reflexivity|]. unfold computeArea2. rewrite areaLoop_sum. lia. Qed.

(** ** Splitting lists at positions *)
Lemma nth_split_at {A} (l : list A) i a : nth_error l i = Some a -> l = firstn i l ++ a :: skipn (S i) l.
Proof.
  revert i; induction l as [|b l IH]; intros [|i] H; try discriminate.
  - injection H as ->. reflexivity.
  - cbn [firstn skipn app]. f_equal. apply IH. exact H.
Qed.
Lemma list_upd_split {A} (l : list A) i a x : nth_error l i = Some a -> list_upd l i x = firstn i l ++ x :: skipn (S i) l.
Proof.
  revert i; induction l as [|b l IH]; intros [|i] H; try discriminate.
  - reflexivity.
  - cbn [list_upd firstn app]. rewrite (IH i H). reflexivity.
Qed.
Lemma lastPt_firstn l i a : nth_error l i = Some a -> lastPt (firstn (S i) l) = Some a.
Proof.
  revert i; induction l as [|b l IH]; intros [|i] H; try discriminate.
  - injection H as ->. reflexivity.
  - cbn [nth_error] in H. change (firstn (S (S i)) (b :: l)) with (b :: firstn (S i) l).
    pose proof (IH i H) as E. destruct (firstn (S i) l) as [|c t]; [discriminate|]. rewrite lastPt_cons. exact E.
Qed.
Lemma hd_skipn {A} (l : list A) i a : nth_error l i = Some a -> exists t, skipn i l = a :: t.
Proof.
  revert i; induction l as [|b l IH]; intros [|i] H; try discriminate.
  - injection H as ->. exists l. reflexivity.
  - exact (IH i H).
Qed.

(** ** length() *)
Definition lenOK (p : poly) : Prop := plenV p = true -> plen p = trueLength (ppts p).
Definition areaOK (p : poly) : Prop := pareaV p = true -> parea2 p = trueArea2 (ppts p).

Lemma qLength_val p : lenOK p -> snd (qLength p) = trueLength (ppts p).
Proof. intro H. unfold qLength. destruct (plenV p) eqn:E; [exact (H E)|]. cbn [snd]. apply computeLength_ok. Qed.
Lemma qLength_pts p : ppts (fst (qLength p)) = ppts p.
Proof. unfold qLength. destruct (plenV p); reflexivity. Qed.
Lemma qLength_lenOK p : lenOK p -> lenOK (fst (qLength p)).
Proof.
  intro H. unfold qLength. destruct (plenV p) eqn:E; [exact H|]. intros _. cbn [fst plen ppts]. apply computeLength_ok.
Qed.
Lemma qLength_areaOK p : areaOK p -> areaOK (fst (qLength p)).
Proof. unfold qLength, areaOK. destruct (plenV p); exact (fun H => H). Qed.
Lemma qArea2_val p : areaOK p -> snd (qArea2 p) = trueArea2 (ppts p).
Proof. intro H. unfold qArea2. destruct (pareaV p) eqn:E; [exact (H E)|]. cbn [snd]. apply computeArea2_ok. Qed.
Lemma qArea2_pts p : ppts (fst (qArea2 p)) = ppts p.
Proof. unfold qArea2. destruct (pareaV p); reflexivity. Qed.
Lemma qArea2_areaOK p : areaOK p -> areaOK (fst (qArea2 p)).
Proof.
  intro H. unfold qArea2. destruct (pareaV p) eqn:E; [exact H|]. intros _. cbn [fst parea2 ppts]. apply computeArea2_ok.
Qed.
Lemma qArea2_lenOK p : lenOK p -> lenOK (fst (qArea2 p)).
Proof. unfold qArea2, lenOK. destruct (pareaV p); exact (fun H => H). Qed.
Lemma qBBox_pts p : ppts (fst (qBBox p)) = ppts p.
Proof. unfold qBBox. destruct (pbbV p); reflexivity. Qed.
Lemma qBBox_lenOK p : lenOK p -> lenOK (fst (qBBox p)).
Proof. unfold qBBox, lenOK. destruct (pbbV p); exact (fun H => H). Qed.
Lemma qBBox_areaOK p : areaOK p -> areaOK (fst (qBBox p)).
Proof. unfold qBBox, areaOK. destruct (pbbV p); exact (fun H => H). Qed.

Lemma pointEqb_eq a b : pointEqb a b = true -> a = b.
Proof.
  unfold pointEqb. destruct a, b. cbn [fst snd]. intro H. apply andb_true_iff in H. destruct H as [H H'].
  apply Z.eqb_eq in H. apply Z.eqb_eq in H'. congruence.
Qed.
Lemma pointEqb_neq a b : pointEqb a b = false -> a <> b.
Proof. intros H ->. unfold pointEqb in H. rewrite !Z.eqb_refl in H. discriminate. Qed.

(** what extend does, without the lets *)
Definition ext1 (p other : poly) : poly * poly :=
  if pbbV p then (fst (qBBox other), mkPoly (ppts p) (plenV p) (plen p) (pareaV p) (parea2 p) true (boxJoin (pbb p) (snd (qBBox other))))
  else (other, p).
Lemma extend_eq p other : extend p other =
  let other1 := fst (ext1 p other) in let p1 := snd (ext1 p other) in
  match ppts other1 with
  | [] => (p1, other1)
  | f :: rest =>
      let t := match lastPt (ppts p1) with
               | None => (ppts other1, 0%R, 0)
               | Some b => if pointEqb f b then (rest, 0%R, 0) else (ppts other1, segLen b f, 2 * (fst f * snd b - snd f * fst b))
               end in
      let o2 := if plenV p1 then fst (qLength other1) else other1 in
      let len := if plenV p1 then (plen p1 + snd (fst t) + snd (qLength other1))%R else plen p1 in
      let o3 := if pareaV p1 then fst (qArea2 o2) else o2 in
      let area := if pareaV p1 then parea2 p1 + snd t + snd (qArea2 o2) else parea2 p1 in
      (mkPoly (ppts p1 ++ fst (fst t)) (plenV p1) len (pareaV p1) area (pbbV p1) (pbb p1), o3)
  end.
Proof.
  unfold extend, ext1.
  destruct (qBBox other) as [o b]. cbn [fst snd].
  assert (K : forall (o p : poly),
    match ppts o with
    | [] => (p, o)
    | f :: rest =>
      let '(add, dl, da) :=
        match lastPt (ppts p) with
        | None => (ppts o, 0%R, 0)
        | Some b => if pointEqb f b then (rest, 0%R, 0)
                    else (ppts o, segLen b f, 2 * (fst f * snd b - snd f * fst b))
        end in
      let '(other, len) := if plenV p then let (other, l) := qLength o in (other, (plen p + dl + l)%R) else (o, plen p) in
      let '(other, area) := if pareaV p then let (other, a) := qArea2 other in (other, parea2 p + da + a) else (other, parea2 p) in
      (mkPoly (ppts p ++ add) (plenV p) len (pareaV p) area (pbbV p) (pbb p), other)
    end =
    match ppts o with
    | [] => (p, o)
    | f :: rest =>
      let t := match lastPt (ppts p) with
               | None => (ppts o, 0%R, 0)
               | Some b => if pointEqb f b then (rest, 0%R, 0) else (ppts o, segLen b f, 2 * (fst f * snd b - snd f * fst b))
               end in
      let o2 := if plenV p then fst (qLength o) else o in
      let len := if plenV p then (plen p + snd (fst t) + snd (qLength o))%R else plen p in
      let o3 := if pareaV p then fst (qArea2 o2) else o2 in
      let area := if pareaV p then parea2 p + snd t + snd (qArea2 o2) else parea2 p in
      (mkPoly (ppts p ++ fst (fst t)) (plenV p) len (pareaV p) area (pbbV p) (pbb p), o3)
    end).
  { clear. intros o p. destruct (ppts o) as [|f rest]; [reflexivity|].
    match goal with |- context [match lastPt (ppts p) with None => ?a | Some b => _ end] =>
      set (t := match lastPt (ppts p) with None => _ | Some b => _ end) end.
    destruct t as [[add dl] da]. cbn [fst snd].
    destruct (plenV p).
    - destruct (qLength o) as [o2 lv]. cbn [fst snd]. destruct (pareaV p); [destruct (qArea2 o2)|]; reflexivity.
    - destruct (pareaV p); [destruct (qArea2 o)|]; reflexivity. }
  destruct (pbbV p); cbn [fst snd]; apply K.
Qed.
Lemma ext1_pts p o : ppts (fst (ext1 p o)) = ppts o /\ ppts (snd (ext1 p o)) = ppts p.
Proof. unfold ext1. destruct (pbbV p); cbn [fst snd ppts]; [split; [apply qBBox_pts|reflexivity]|split; reflexivity]. Qed.
Lemma extend_snd_pts p o : ppts (snd (extend p o)) = ppts o.
Proof.
  rewrite extend_eq. cbn zeta. destruct (ppts (fst (ext1 p o))) eqn:E; cbn [snd].
  - apply ext1_pts.
  - transitivity (ppts (fst (ext1 p o))); [|apply ext1_pts].
    destruct (plenV _), (pareaV _); rewrite ?qArea2_pts, ?qLength_pts; reflexivity.
Qed.
Lemma extend_fst_pts p o :
  ppts (fst (extend p o)) = match ppts o with
                            | [] => ppts p
                            | f :: rest => match lastPt (ppts p) with
                                           | Some b => if pointEqb f b then ppts p ++ rest else ppts p ++ ppts o
                                           | None => ppts p ++ ppts o
                                           end
                            end.
Proof.
  rewrite extend_eq. cbn zeta. destruct (ext1_pts p o) as [E1 E2]. rewrite E1, E2.
  destruct (ppts o) as [|f rest] eqn:E; [exact E2|]. cbn [fst ppts].
  destruct (lastPt (ppts p)) as [b|]; [destruct (pointEqb f b)|]; reflexivity.
Qed.

Lemma extend_lenOK p o : lenOK p -> lenOK o -> lenOK (fst (extend p o)) /\ lenOK (snd (extend p o)).
Proof.
  intros Hp Ho. pose proof (extend_fst_pts p o) as EP. rewrite extend_eq in EP |- *. cbn zeta in EP |- *.
  destruct (ext1_pts p o) as [E1 E2].
  assert (H1 : lenOK (fst (ext1 p o))) by (unfold ext1; destruct (pbbV p); [apply qBBox_lenOK; exact Ho|exact Ho]).
  assert (H2 : lenOK (snd (ext1 p o))) by (unfold ext1; destruct (pbbV p); exact Hp).
  set (o1 := fst (ext1 p o)) in *. set (p1 := snd (ext1 p o)) in *.
  destruct (ppts o1) as [|f rest] eqn:E; [split; assumption|].
  cbn [fst snd] in EP |- *. split.
  - unfold lenOK. cbn [plenV plen ppts] in EP |- *. intro V. rewrite V, EP, (qLength_val o1 H1), (H2 V), <- E1, E, E2.
    change trueLength with (psum distance).
    destruct (lastPt (ppts p)) as [b|] eqn:L.
    + destruct (pointEqb f b) eqn:Q; cbn [fst snd].
      * apply pointEqb_eq in Q. subst f. rewrite (psum_share distance (ppts p) b rest (distance_self b) L). lra.
      * rewrite psum_app. unfold link. rewrite L, segLen_distance. lra.
    + cbn [fst snd]. destruct (ppts p) as [|a t]; [|destruct (lastPt_some a t) as [b Hb]; rewrite Hb in L; discriminate].
      cbn [app]. rewrite psum_nil. lra.
  - destruct (plenV p1), (pareaV p1); repeat first [apply qArea2_lenOK | apply qLength_lenOK]; exact H1.
Qed.

Lemma setPoint_inv p i x p' : setPoint p i x = Ok p' ->
  exists old, nth_error (ppts p) i = Some old /\ ppts p' = list_upd (ppts p) i x /\ plenV p' = plenV p /\ pareaV p' = false.
Proof.
  unfold setPoint. intro H. apply bind_Ok in H. destruct H as [old [Ho H]]. apply vget_Ok in Ho.
  apply bind_Ok in H. destruct H as [len [_ H]]. injection H as <-. exists old. repeat split. exact Ho.
Qed.
Lemma setPoint_len p i x p' : setPoint p i x = Ok p' -> plenV p = true -> forall old, nth_error (ppts p) i = Some old ->
  plen p' = (plen p + (if (0 <? i)%nat then match nth_error (ppts p) (i - 1) with Some a => segLen a x - segLen a old | None => 0 end else 0)
             + (match nth_error (ppts p) (i + 1) with Some b => segLen b x - segLen b old | None => 0 end))%R.
Proof.
  unfold setPoint. intros H V old Ho. apply bind_Ok in H. destruct H as [old' [Ho' H]]. apply vget_Ok in Ho'.
  assert (old' = old) by congruence. subst old'. rewrite V in H.
  apply bind_Ok in H. destruct H as [len [Hl H]]. injection H as <-. cbn [plen].
  apply bind_Ok in Hl. destruct Hl as [l1 [H1 H2]].
  assert (B : l1 = (plen p + (if (0 <? i)%nat then match nth_error (ppts p) (i - 1) with Some a => segLen a x - segLen a old | None => 0 end else 0))%R).
  { destruct (0 <? i)%nat.
    - apply bind_Ok in H1. destruct H1 as [a [Ha H1]]. apply vget_Ok in Ha. rewrite Ha. injection H1 as <-. reflexivity.
    - injection H1 as <-. lra. }
  rewrite <- B. clear B H1.
  destruct (i <? length (ppts p) - 1)%nat eqn:B.
  - apply bind_Ok in H2. destruct H2 as [b [Hb H2]]. apply vget_Ok in Hb. rewrite Hb. injection H2 as <-. reflexivity.
  - injection H2 as <-. apply Nat.ltb_ge in B.
    replace (nth_error (ppts p) (i + 1)) with (@None point); [lra|]. symmetry. apply nth_error_None. lia.
Qed.

Lemma psum_mid f l1 x l2 : psum f (l1 ++ x :: l2) = (psum f l1 + link f l1 [x] + link f [x] l2 + psum f l2)%R.
Proof.
  rewrite psum_app. change (x :: l2) with ([x] ++ l2). rewrite (psum_app f [x] l2), psum_one. unfold link.
  cbn [app lastPt].
  destruct (lastPt l1); lra.
Qed.
Lemma lastPt_nil_inv l : lastPt l = None -> l = [].
Proof. destruct l as [|a t]; [reflexivity|]. destruct (lastPt_some a t) as [b ->]. discriminate. Qed.
Lemma link_firstn f l i x : (i <= length l)%nat ->
  link f (firstn i l) [x] = (if (0 <? i)%nat then match nth_error l (i - 1) with Some a => f a x | None => 0%R end else 0%R).
Proof.
  intro Hi. unfold link. destruct i as [|i]; [reflexivity|].
  change (0 <? S i)%nat with true. cbn [Nat.sub]. rewrite Nat.sub_0_r.
  destruct (nth_error l i) as [a|] eqn:E.
  - rewrite (lastPt_firstn l i a E). reflexivity.
  - apply nth_error_None in E. lia.
Qed.
Lemma link_skipn f l i x :
  link f [x] (skipn i l) = (match nth_error l i with Some b => f x b | None => 0%R end).
Proof.
  unfold link. cbn [lastPt]. destruct (nth_error l i) as [b|] eqn:E.
  - destruct (hd_skipn l i b E) as [t ->]. reflexivity.
  - apply nth_error_None in E. rewrite skipn_all2 by lia. reflexivity.
Qed.

Lemma setPoint_lenOK p i x p' : lenOK p -> setPoint p i x = Ok p' -> lenOK p'.
Proof.
  intros Hp H V. destruct (setPoint_inv p i x p' H) as [old [Ho [E [EV _]]]]. rewrite EV in V.
  rewrite (setPoint_len p i x p' H V old Ho), (Hp V), E. change trueLength with (psum distance).
  rewrite (list_upd_split _ _ _ x Ho). rewrite (nth_split_at _ _ _ Ho) at 1.
  rewrite !psum_mid, !link_skipn.
  assert (Hi : (i <= length (ppts p))%nat) by (assert (K : (i < length (ppts p))%nat) by (apply nth_error_Some; congruence); lia).
  rewrite !link_firstn by exact Hi. replace (i + 1)%nat with (S i) by lia.
  destruct (0 <? i)%nat; [destruct (nth_error (ppts p) (i - 1))|]; (destruct (nth_error (ppts p) (S i)) as [b|];
    rewrite ?segLen_distance, ?(distance_sym b x), ?(distance_sym b old); lra).
Qed.

Lemma insertPt_lenOK p i x p' : lenOK p -> insertPt p i x = Ok p' -> lenOK p'.
Proof.
  intros Hp H. unfold insertPt in H. destruct (length (ppts p) <? i)%nat eqn:B; [discriminate|]. apply Nat.ltb_ge in B.
  apply bind_Ok in H. destruct H as [len [Hl H]]. injection H as <-. intro V. cbn [plenV plen ppts] in V |- *.
  rewrite V in Hl. apply bind_Ok in Hl. destruct Hl as [l1 [H1 H2]].
  assert (E : len = (plen p + (if (0 <? i)%nat then match nth_error (ppts p) (i - 1) with Some a => segLen a x | None => 0 end else 0) +
    match nth_error (ppts p) i with Some b => segLen b x | None => 0 end -
    match nth_error (ppts p) i with Some b => if (0 <? i)%nat then match nth_error (ppts p) (i - 1) with Some a => segLen a b | None => 0 end else 0 | None => 0 end)%R).
  { assert (E1 : l1 = (plen p + (if (0 <? i)%nat then match nth_error (ppts p) (i - 1) with Some a => segLen a x | None => 0 end else 0))%R).
    { destruct (0 <? i)%nat; [|injection H1 as <-; lra]. apply bind_Ok in H1. destruct H1 as [a [Ha H1]]. apply vget_Ok in Ha.
      rewrite Ha. injection H1 as <-. reflexivity. }
    rewrite <- E1. destruct (i <? length (ppts p))%nat eqn:B2.
    - apply bind_Ok in H2. destruct H2 as [b [Hb H2]]. apply vget_Ok in Hb. rewrite Hb.
      destruct (0 <? i)%nat.
      + apply bind_Ok in H2. destruct H2 as [a [Ha H2]]. apply vget_Ok in Ha. rewrite Ha. injection H2 as <-. reflexivity.
      + injection H2 as <-. lra.
    - injection H2 as <-. apply Nat.ltb_ge in B2.
      replace (nth_error (ppts p) i) with (@None point); [lra|]. symmetry. apply nth_error_None. lia. }
  rewrite E, (Hp V). change trueLength with (psum distance). unfold insert_at. rewrite psum_mid, link_skipn, link_firstn by exact B.
  rewrite <- (firstn_skipn i (ppts p)) at 1. rewrite psum_app.
  assert (L : link distance (firstn i (ppts p)) (skipn i (ppts p)) =
    match nth_error (ppts p) i with Some b => if (0 <? i)%nat then match nth_error (ppts p) (i - 1) with Some a => distance a b | None => 0 end else 0 | None => 0 end%R).
  { destruct (nth_error (ppts p) i) as [b|] eqn:N.
    - destruct (hd_skipn _ _ _ N) as [t ->]. transitivity (link distance (firstn i (ppts p)) [b]); [reflexivity|]. apply link_firstn. exact B.
    - apply nth_error_None in N. rewrite (skipn_all2 (ppts p)) by lia. unfold link. destruct (lastPt _); reflexivity. }
  rewrite L. clear. destruct (0 <? i)%nat; [destruct (nth_error (ppts p) (i - 1))|]; (destruct (nth_error (ppts p) i) as [b|];
    rewrite ?segLen_distance, ?(distance_sym b x); lra).
Qed.

(** concatenate without the lets *)
Lemma concatenate_inv p o ae re p' o' : concatenate p o ae re = Ok (p', o') ->
  exists b, let l := if re then rev (ppts o) else ppts o in
  ppts p <> [] /\
  (if ae then lastPt (ppts p) = Some b /\ exists t, l = b :: t /\ ppts p' = ppts p ++ t
   else (exists t, ppts p = b :: t) /\ exists t, l = t ++ [b] /\ ppts p' = t ++ ppts p) /\
  plenV p' = plenV p /\ pareaV p' = pareaV p /\ pbbV p' = pbbV p /\
  let o1 := if plenV p then fst (qLength o) else o in
  let o2 := if pareaV p then fst (qArea2 o1) else o1 in
  plen p' = (if plenV p then (plen p + snd (qLength o))%R else plen p) /\
  parea2 p' = (if pareaV p then (if re then parea2 p - snd (qArea2 o1) else parea2 p + snd (qArea2 o1)) else parea2 p) /\
  pbb p' = (if pbbV p then boxJoin (pbb p) (snd (qBBox o2)) else pbb p) /\
  o' = (if pbbV p then fst (qBBox o2) else o2).
Proof.
  unfold concatenate. destruct (ppts p) as [|f t] eqn:EP; [discriminate|].
  destruct (lastPt (f :: t)) as [b|] eqn:EL; [|discriminate].
  destruct (ppts o) as [|f' t'] eqn:EO; [discriminate|].
  destruct (lastPt (f' :: t')) as [b'|] eqn:EL'; [|discriminate].
  destruct (if re then if ae then pointEqb b b' else pointEqb f f' else if ae then pointEqb b f' else pointEqb f b') eqn:M; [|discriminate].
  intro H. exists (if ae then b else f). cbn zeta.
  assert (PTS : ppts p' = (if ae then (f :: t) ++ tl (if re then rev (f' :: t') else f' :: t') else removelast (if re then rev (f' :: t') else f' :: t') ++ f :: t) /\
    plenV p' = plenV p /\ pareaV p' = pareaV p /\ pbbV p' = pbbV p /\
    let o1 := if plenV p then fst (qLength o) else o in
    let o2 := if pareaV p then fst (qArea2 o1) else o1 in
    plen p' = (if plenV p then (plen p + snd (qLength o))%R else plen p) /\
    parea2 p' = (if pareaV p then (if re then parea2 p - snd (qArea2 o1) else parea2 p + snd (qArea2 o1)) else parea2 p) /\
    pbb p' = (if pbbV p then boxJoin (pbb p) (snd (qBBox o2)) else pbb p) /\
    o' = (if pbbV p then fst (qBBox o2) else o2)).
  { cbn zeta. destruct (plenV p).
    - destruct (qLength o) as [o1 lv]. cbn [fst snd]. destruct (pareaV p).
      + destruct (qArea2 o1) as [o2 av]. cbn [fst snd]. destruct (pbbV p).
        * destruct (qBBox o2) as [o3 bv]. cbn [fst snd]. injection H as <- <-. repeat split.
        * injection H as <- <-. repeat split.
      + destruct (pbbV p).
        * destruct (qBBox o1) as [o3 bv]. cbn [fst snd]. injection H as <- <-. repeat split.
        * injection H as <- <-. repeat split.
    - destruct (pareaV p).
      + destruct (qArea2 o) as [o2 av]. cbn [fst snd]. destruct (pbbV p).
        * destruct (qBBox o2) as [o3 bv]. cbn [fst snd]. injection H as <- <-. repeat split.
        * injection H as <- <-. repeat split.
      + destruct (pbbV p).
        * destruct (qBBox o) as [o3 bv]. cbn [fst snd]. injection H as <- <-. repeat split.
        * injection H as <- <-. repeat split. }
  destruct PTS as [EPT REST]. split; [discriminate|]. split; [|exact REST]. clear REST H.
  destruct ae.
  - split; [reflexivity|]. destruct re.
    + apply pointEqb_eq in M. subst b'. destruct (lastPt_hd_rev _ _ EL') as [u Eu]. rewrite Eu in EPT |- *.
      exists u. split; [reflexivity|]. exact EPT.
    + apply pointEqb_eq in M. subst f'. exists t'. split; [reflexivity|exact EPT].
  - split; [exists t; reflexivity|]. destruct re.
    + apply pointEqb_eq in M. subst f'. cbn [rev] in EPT |- *. exists (rev t'). split; [reflexivity|].
      rewrite EPT, removelast_last. reflexivity.
    + apply pointEqb_eq in M. subst b'. destruct (lastPt_snoc_inv _ _ EL') as [u Eu]. rewrite Eu in EPT |- *.
      exists u. split; [reflexivity|]. rewrite EPT, removelast_last. reflexivity.
Qed.
Lemma concatenate_sum f p o ae re p' o' : (forall a, f a a = 0%R) -> concatenate p o ae re = Ok (p', o') ->
  psum f (ppts p') = (psum f (ppts p) + psum f (if re then rev (ppts o) else ppts o))%R.
Proof.
  intros F H. destruct (concatenate_inv _ _ _ _ _ _ H) as [b [_ [K _]]]. destruct ae.
  - destruct K as [L [t [E ->]]]. rewrite E. apply psum_share; [apply F|exact L].
  - destruct K as [[t E] [u [E' ->]]]. rewrite E', E. rewrite !psum_app.
    rewrite psum_one. unfold link. destruct (lastPt u); lra.
Qed.
Lemma concatenate_lenOK p o ae re p' o' : lenOK p -> lenOK o -> concatenate p o ae re = Ok (p', o') -> lenOK p' /\ lenOK o'.
Proof.
  intros Hp Ho H. pose proof (concatenate_sum distance _ _ _ _ _ _ distance_self H) as S.
  destruct (concatenate_inv _ _ _ _ _ _ H) as [b [_ [_ [EV [_ [_ [EL [_ [_ ->]]]]]]]]]. split.
  - intro V. rewrite EV in V. rewrite EL, V, (Hp V), (qLength_val o Ho). change trueLength with (psum distance). rewrite S.
    destruct re; [|lra]. rewrite psum_rev.
    assert (E : psum (fun a c => distance c a) (ppts o) = psum distance (ppts o)) by (apply psum_ext; intros; apply distance_sym).
    rewrite E. lra.
  - destruct (pbbV p), (pareaV p), (plenV p); repeat first [apply qBBox_lenOK | apply qArea2_lenOK | apply qLength_lenOK]; exact Ho.
Qed.

Theorem made_lenOK okP okS p : made okP okS p -> lenOK p.
Proof.
  induction 1.
  - intros _. reflexivity.
  - intro V. discriminate.
  - apply qLength_lenOK; assumption.
  - apply qArea2_lenOK; assumption.
  - apply qBBox_lenOK; assumption.
  - intro V. discriminate.
  - unfold pushBack. destruct (lastPt (ppts p)) as [b|] eqn:L; intro V; cbn [plenV plen ppts] in V |- *.
    + rewrite V, (IHmade V). change trueLength with (psum distance). rewrite psum_app. unfold link. rewrite L, segLen_distance. rewrite psum_one. cbn [fst snd]. lra.
    + rewrite (IHmade V). apply lastPt_nil_inv in L. rewrite L. reflexivity.
  - apply extend_lenOK; assumption.
  - apply extend_lenOK; assumption.
  - eapply setPoint_lenOK; eassumption.
  - unfold erasePt in H0. apply bind_Ok in H0. destruct H0 as [old [_ H0]]. injection H0 as <-. intro V. discriminate.
  - eapply insertPt_lenOK; eassumption.
  - unfold insertRange in H0. destruct (length (ppts p) <? i)%nat; [discriminate|]. injection H0 as <-. intro V. discriminate.
  - unfold splitPoly in H0. destruct (i <? length (ppts p))%nat; [|discriminate]. destruct (Nat.eqb i 0).
    + apply bind_Ok in H0. destruct H0 as [f [_ H0]]. injection H0 as <- <-. intro V. discriminate.
    + injection H0 as <- <-. intro V. discriminate.
  - unfold splitPoly in H0. destruct (i <? length (ppts p))%nat; [|discriminate]. destruct (Nat.eqb i 0).
    + apply bind_Ok in H0. destruct H0 as [f [_ H0]]. injection H0 as <- <-. exact IHmade.
    + injection H0 as <- <-. intro V. discriminate.
  - intro V. cbn [plenV plen ppts reversePoly] in V |- *. rewrite (IHmade V). change trueLength with (psum distance). rewrite psum_rev. apply psum_ext.
    intros a b. apply distance_sym.
  - intro V. discriminate.
  - exact (proj1 (concatenate_lenOK _ _ _ _ _ _ IHmade1 IHmade2 H1)).
  - exact (proj2 (concatenate_lenOK _ _ _ _ _ _ IHmade1 IHmade2 H1)).
Qed.

(** ** partialArea() *)
Lemma area_from_R p : (pareaV p = true -> IZR (parea2 p) = psum crossR (ppts p)) -> areaOK p.
Proof. intros H V. apply eq_IZR. rewrite (H V). symmetry. apply trueArea2_psum. Qed.
Lemma area_to_R p : areaOK p -> pareaV p = true -> IZR (parea2 p) = psum crossR (ppts p).
Proof. intros H V. rewrite (H V). apply trueArea2_psum. Qed.

Lemma extend_areaOK p o : areaOK p -> areaOK o ->
  (forall f t, ppts o = f :: t -> lastPt (ppts p) <> Some f -> flatPush p f) ->
  areaOK (fst (extend p o)).
Proof.
  intros Hp Ho Hf. pose proof (extend_fst_pts p o) as EP. rewrite extend_eq in EP |- *. cbn zeta in EP |- *.
  destruct (ext1_pts p o) as [E1 E2].
  assert (H1 : areaOK (fst (ext1 p o))) by (unfold ext1; destruct (pbbV p); [apply qBBox_areaOK; exact Ho|exact Ho]).
  assert (H2 : areaOK (snd (ext1 p o))) by (unfold ext1; destruct (pbbV p); exact Hp).
  assert (V1 : pareaV (snd (ext1 p o)) = pareaV p) by (unfold ext1; destruct (pbbV p); reflexivity).
  set (o1 := fst (ext1 p o)) in *. set (p1 := snd (ext1 p o)) in *.
  destruct (ppts o1) as [|f rest] eqn:E; [assumption|].
  cbn [fst snd] in EP |- *. apply area_from_R. cbn [pareaV parea2 ppts] in EP |- *. intro V. rewrite V.
  assert (H3 : areaOK (if plenV p1 then fst (qLength o1) else o1)) by (destruct (plenV p1); [apply qLength_areaOK|]; exact H1).
  assert (E3 : ppts (if plenV p1 then fst (qLength o1) else o1) = ppts o) by (rewrite <- E1; destruct (plenV p1); [rewrite qLength_pts|]; congruence).
  rewrite (qArea2_val _ H3), E3, EP, !plus_IZR, (area_to_R p1 H2 V), trueArea2_psum, <- E1, E2.
  destruct (lastPt (ppts p)) as [b|] eqn:L.
  - destruct (pointEqb f b) eqn:Q; cbn [fst snd].
    + apply pointEqb_eq in Q. subst f. rewrite (psum_share crossR (ppts p) b rest (crossR_self b) L). lra.
    + rewrite psum_app. unfold link. rewrite L. apply pointEqb_neq in Q.
      assert (Z : fst f * snd b - snd f * fst b = 0).
      { refine (Hf f rest (eq_sym E1) _ (eq_trans (eq_sym V1) V) b _); [|exact L || reflexivity]. intro Hx. apply Q. congruence. }
      rewrite Z. unfold crossR. replace (fst f * snd b - fst b * snd f) with 0 by lia. cbn. lra.
  - cbn [fst snd]. apply lastPt_nil_inv in L. rewrite L. cbn [app]. rewrite psum_nil. lra.
Qed.
Lemma extended_areaOK p o : areaOK o -> areaOK (snd (extend p o)).
Proof.
  intro Ho. rewrite extend_eq. cbn zeta.
  assert (H1 : areaOK (fst (ext1 p o))) by (unfold ext1; destruct (pbbV p); [apply qBBox_areaOK; exact Ho|exact Ho]).
  destruct (ppts (fst (ext1 p o))); [exact H1|]. cbn [snd].
  destruct (plenV _), (pareaV _); repeat first [apply qArea2_areaOK | apply qLength_areaOK]; exact H1.
Qed.
Lemma concatenate_areaOK p o ae re p' o' : areaOK p -> areaOK o -> concatenate p o ae re = Ok (p', o') -> areaOK p' /\ areaOK o'.
Proof.
  intros Hp Ho H. pose proof (concatenate_sum crossR _ _ _ _ _ _ crossR_self H) as S.
  destruct (concatenate_inv _ _ _ _ _ _ H) as [b [_ [_ [_ [EV [_ [_ [EA [_ ->]]]]]]]]]. split.
  - apply area_from_R. intro V. rewrite EV in V. rewrite EA, V, S.
    assert (H3 : areaOK (if plenV p then fst (qLength o) else o)) by (destruct (plenV p); [apply qLength_areaOK|]; exact Ho).
    assert (E3 : ppts (if plenV p then fst (qLength o) else o) = ppts o) by (destruct (plenV p); [rewrite qLength_pts|]; reflexivity).
    destruct re; [rewrite minus_IZR|rewrite plus_IZR]; rewrite (area_to_R p Hp V), (qArea2_val _ H3), E3, trueArea2_psum; [|lra].
    rewrite psum_rev.
    assert (N : psum (fun a c => crossR c a) (ppts o) = (- psum crossR (ppts o))%R).
    { clear. unfold psum. induction (pairsOf (ppts o)) as [|[a c] t IH]; cbn [map fold_right]; [lra|].
      rewrite IH. cbn [fst snd]. rewrite crossR_anti. lra. }
    rewrite N. lra.
  - destruct (pbbV p), (pareaV p), (plenV p); repeat first [apply qBBox_areaOK | apply qArea2_areaOK | apply qLength_areaOK]; exact Ho.
Qed.

Lemma trueArea2_rev l : trueArea2 (rev l) = - trueArea2 l.
Proof.
  apply eq_IZR. rewrite opp_IZR, !trueArea2_psum, psum_rev.
  unfold psum. induction (pairsOf l) as [|[a c] t IH]; cbn [map fold_right]; [lra|].
  rewrite IH. cbn [fst snd]. rewrite crossR_anti. lra.
Qed.

Theorem made_areaOK okS p : made flatPush okS p -> areaOK p.
Proof.
  induction 1.
  - intros _. reflexivity.
  - intro V. discriminate.
  - apply qLength_areaOK; assumption.
  - apply qArea2_areaOK; assumption.
  - apply qBBox_areaOK; assumption.
  - intro V. discriminate.
  - unfold pushBack. destruct (lastPt (ppts p)) as [b|] eqn:L.
    + apply area_from_R. cbn [pareaV parea2 ppts]. intro V. rewrite V, (H0 V b L), psum_app. unfold link. rewrite L, psum_one.
      replace (parea2 p + 2 * 0) with (parea2 p) by lia. rewrite (area_to_R p IHmade V).
      assert (Z : crossR b v = 0%R) by (unfold crossR; replace (fst v * snd b - fst b * snd v) with 0 by (pose proof (H0 V b L); lia); reflexivity).
      rewrite Z. lra.
    + intro V. cbn [pareaV parea2 ppts] in V |- *. rewrite (IHmade V). apply lastPt_nil_inv in L. rewrite L. reflexivity.
  - apply extend_areaOK; assumption.
  - apply extended_areaOK; assumption.
  - destruct (setPoint_inv _ _ _ _ H1) as [old [_ [_ [_ E]]]]. intro V. congruence.
  - unfold erasePt in H0. apply bind_Ok in H0. destruct H0 as [old [_ H0]]. injection H0 as <-. intro V. discriminate.
  - unfold insertPt in H0. destruct (length (ppts p) <? i)%nat; [discriminate|]. apply bind_Ok in H0. destruct H0 as [len [_ H0]].
    injection H0 as <-. intro V. discriminate.
  - unfold insertRange in H0. destruct (length (ppts p) <? i)%nat; [discriminate|]. injection H0 as <-. intro V. discriminate.
  - unfold splitPoly in H0. destruct (i <? length (ppts p))%nat; [|discriminate]. destruct (Nat.eqb i 0).
    + apply bind_Ok in H0. destruct H0 as [f [_ H0]]. injection H0 as <- <-. intro V. discriminate.
    + injection H0 as <- <-. intro V. discriminate.
  - unfold splitPoly in H0. destruct (i <? length (ppts p))%nat; [|discriminate]. destruct (Nat.eqb i 0).
    + apply bind_Ok in H0. destruct H0 as [f [_ H0]]. injection H0 as <- <-. exact IHmade.
    + injection H0 as <- <-. intro V. discriminate.
  - intro V. cbn [pareaV parea2 ppts reversePoly] in V |- *. rewrite V, (IHmade V). symmetry. apply trueArea2_rev.
  - intro V. discriminate.
  - exact (proj1 (concatenate_areaOK _ _ _ _ _ _ IHmade1 IHmade2 H1)).
  - exact (proj2 (concatenate_areaOK _ _ _ _ _ _ IHmade1 IHmade2 H1)).
Qed.

(** polygons built by push_back alone report twice their area *)
Lemma pushed_area l : forall p, pareaV p = true -> parea2 p = 2 * trueArea2 (ppts p) ->
  let q := fold_left pushBack l p in pareaV q = true /\ ppts q = ppts p ++ l /\ parea2 q = 2 * trueArea2 (ppts q).
Proof.
  induction l as [|v l IH]; intros p V E; cbn zeta; cbn [fold_left].
  - rewrite app_nil_r. auto.
  - assert (K : pareaV (pushBack p v) = true /\ ppts (pushBack p v) = ppts p ++ [v] /\ parea2 (pushBack p v) = 2 * trueArea2 (ppts (pushBack p v))).
    { unfold pushBack. destruct (lastPt (ppts p)) as [b|] eqn:L; cbn [pareaV ppts parea2].
      - split; [exact V|]. split; [reflexivity|]. rewrite V, E.
        assert (S : trueArea2 (ppts p ++ [v]) = trueArea2 (ppts p) + (fst v * snd b - snd v * fst b)).
        { apply eq_IZR. rewrite plus_IZR, !trueArea2_psum, psum_app. unfold link. rewrite L, psum_one.
          unfold crossR. rewrite !minus_IZR, !mult_IZR. lra. }
        rewrite S. lia.
      - split; [exact V|]. split; [reflexivity|]. rewrite E. apply lastPt_nil_inv in L. rewrite L. reflexivity. }
    destruct K as [K1 [K2 K3]]. destruct (IH _ K1 K3) as [J1 [J2 J3]]. split; [exact J1|]. split; [|exact J3].
    rewrite J2, K2, <- app_assoc. reflexivity.
Qed.

(** ** boundingBox() *)
Definition bbOK (p : poly) : Prop := pbbV p = true -> isBox (ppts p) (pbb p).

Lemma isBox_ext l l' o : (forall p, In p l <-> In p l') -> isBox l o -> isBox l' o.
Proof.
  intros E. destruct o as [b|]; cbn [isBox].
  - unfold isBBox. intros [H [H1 [H2 [H3 H4]]]]. split; [intros p Hp; apply H; apply E; exact Hp|].
    destruct H1 as [p1 [I1 E1]], H2 as [p2 [I2 E2]], H3 as [p3 [I3 E3]], H4 as [p4 [I4 E4]].
    apply E in I1. apply E in I2. apply E in I3. apply E in I4.
    split; [exists p1; auto|]. split; [exists p2; auto|]. split; [exists p3; auto|exists p4; auto].
  - intros ->. destruct l' as [|a t]; [reflexivity|]. exfalso. apply (proj2 (E a)). left. reflexivity.
Qed.
Lemma isBox_add l o v : isBox l o -> isBox (v :: l) (boxAdd o v).
Proof.
  destruct o as [b|]; cbn [isBox boxAdd].
  - unfold isBBox. cbn [bx0 by0 bx1 by1]. intros [H [[p1 [I1 E1]] [[p2 [I2 E2]] [[p3 [I3 E3]] [p4 [I4 E4]]]]]].
    split.
    + intros p [<-|Hp]; unfold inBox; [lia|]. specialize (H p Hp). unfold inBox in H. lia.
    + split; [|split; [|split]].
      * destruct (Z.min_spec (bx0 b) (fst v)) as [[_ E]|[_ E]]; rewrite E; [exists p1|exists v]; (split; [|lia || reflexivity]); [right; exact I1|left; reflexivity].
      * destruct (Z.max_spec (bx1 b) (fst v)) as [[_ E]|[_ E]]; rewrite E; [exists v|exists p2]; (split; [|lia || reflexivity]); [left; reflexivity|right; exact I2].
      * destruct (Z.min_spec (by0 b) (snd v)) as [[_ E]|[_ E]]; rewrite E; [exists p3|exists v]; (split; [|lia || reflexivity]); [right; exact I3|left; reflexivity].
      * destruct (Z.max_spec (by1 b) (snd v)) as [[_ E]|[_ E]]; rewrite E; [exists v|exists p4]; (split; [|lia || reflexivity]); [left; reflexivity|right; exact I4].
  - intros ->. unfold isBBox. cbn [bx0 by0 bx1 by1]. split; [intros p [<-|[]]; unfold inBox; lia|].
    repeat split; exists v; split; try reflexivity; left; reflexivity.
Qed.
Lemma isBox_fold l : forall l0 o, isBox l0 o -> isBox (rev l ++ l0) (fold_left boxAdd l o).
Proof.
  induction l as [|v l IH]; intros l0 o H; [exact H|]. cbn [fold_left rev]. rewrite <- app_assoc. cbn [app]. apply IH. apply isBox_add. exact H.
Qed.
Lemma isBox_computed l : isBox l (fold_left boxAdd l None).
Proof.
  apply (isBox_ext (rev l ++ [])).
  - intro p. rewrite app_nil_r. symmetry. apply in_rev.
  - apply isBox_fold. reflexivity.
Qed.
Lemma isBox_join l l' o o' : isBox l o -> isBox l' o' -> isBox (l ++ l') (boxJoin o o').
Proof.
  destruct o as [b|], o' as [b'|]; cbn [isBox boxJoin].
  - unfold isBBox. cbn [bx0 by0 bx1 by1].
    intros [H [[p1 [I1 E1]] [[p2 [I2 E2]] [[p3 [I3 E3]] [p4 [I4 E4]]]]]] [H' [[q1 [J1 F1]] [[q2 [J2 F2]] [[q3 [J3 F3]] [q4 [J4 F4]]]]]].
    split.
    + intros p Hp. apply in_app_iff in Hp. unfold inBox in *. destruct Hp as [Hp|Hp]; [specialize (H p Hp)|specialize (H' p Hp)]; lia.
    + split; [|split; [|split]].
      * destruct (Z.min_spec (bx0 b) (bx0 b')) as [[_ E]|[_ E]]; rewrite E; [exists p1|exists q1]; (split; [apply in_app_iff; auto|assumption]).
      * destruct (Z.max_spec (bx1 b) (bx1 b')) as [[_ E]|[_ E]]; rewrite E; [exists q2|exists p2]; (split; [apply in_app_iff; auto|assumption]).
      * destruct (Z.min_spec (by0 b) (by0 b')) as [[_ E]|[_ E]]; rewrite E; [exists p3|exists q3]; (split; [apply in_app_iff; auto|assumption]).
      * destruct (Z.max_spec (by1 b) (by1 b')) as [[_ E]|[_ E]]; rewrite E; [exists q4|exists p4]; (split; [apply in_app_iff; auto|assumption]).
  - intros H ->. rewrite app_nil_r. exact H.
  - intros -> H. exact H.
  - intros -> ->. reflexivity.
Qed.

Lemma qBBox_val p : bbOK p -> isBox (ppts p) (snd (qBBox p)).
Proof. intro H. unfold qBBox. destruct (pbbV p) eqn:E; [exact (H E)|]. apply isBox_computed. Qed.
Lemma qBBox_bbOK p : bbOK p -> bbOK (fst (qBBox p)).
Proof. intro H. unfold qBBox. destruct (pbbV p) eqn:E; [exact H|]. intros _. apply isBox_computed. Qed.
Lemma qLength_bbOK p : bbOK p -> bbOK (fst (qLength p)).
Proof. unfold qLength, bbOK. destruct (plenV p); exact (fun H => H). Qed.
Lemma qArea2_bbOK p : bbOK p -> bbOK (fst (qArea2 p)).
Proof. unfold qArea2, bbOK. destruct (pareaV p); exact (fun H => H). Qed.

Lemma in_list_upd_iff {A} (l : list A) i a x y : nth_error l i = Some a ->
  In y (list_upd l i x) <-> y = x \/ exists j, j <> i /\ nth_error l j = Some y.
Proof.
  intro H. assert (B : (i < length l)%nat) by (apply nth_error_Some; congruence). split.
  - intro Hy. apply In_nth_error in Hy. destruct Hy as [j Hj]. rewrite nth_error_upd in Hj.
    destruct (Nat.eqb i j) eqn:E.
    + left. destruct (i <? length l)%nat; congruence.
    + right. exists j. apply Nat.eqb_neq in E. split; [lia|exact Hj].
  - intros [->|[j [Hn Hj]]].
    + apply nth_error_In with i. rewrite nth_error_upd, Nat.eqb_refl. rewrite (proj2 (Nat.ltb_lt _ _) B). reflexivity.
    + apply nth_error_In with j. rewrite nth_error_upd. rewrite (proj2 (Nat.eqb_neq i j)) by lia. exact Hj.
Qed.

Lemma setPoint_bb p i x p' : setPoint p i x = Ok p' -> forall old, nth_error (ppts p) i = Some old ->
  pbb p' = pbb p /\ pbbV p' = pbbV p && negb match pbb p with
    | None => false
    | Some b => ((fst x <? fst old) && (fst old =? bx1 b)) || ((fst old <? fst x) && (fst old =? bx0 b)) ||
                ((snd x <? snd old) && (snd old =? by1 b)) || ((snd old <? snd x) && (snd old =? by0 b))
    end.
Proof.
  unfold setPoint. intros H old Ho. apply bind_Ok in H. destruct H as [old' [Ho' H]]. apply vget_Ok in Ho'.
  assert (old' = old) by congruence. subst old'.
  apply bind_Ok in H. destruct H as [len [_ H]]. injection H as <-. split; reflexivity.
Qed.
Lemma upd_keeps {A} (l : list A) i old x q : nth_error l i = Some old -> In q l -> q <> old -> In q (list_upd l i x).
Proof.
  intros Ho Hq N. apply (in_list_upd_iff l i old); [exact Ho|]. right. apply In_nth_error in Hq. destruct Hq as [j Hj].
  exists j. split; [|exact Hj]. intros ->. congruence.
Qed.
Lemma point_dec (a b : point) : {a = b} + {a <> b}.
Proof. decide equality; apply Z.eq_dec. Qed.
Lemma setPoint_bbOK p i x p' : bbOK p -> inward p i x -> setPoint p i x = Ok p' -> bbOK p'.
Proof.
  intros Hp Hin H V. destruct (setPoint_inv p i x p' H) as [old [Ho [E _]]].
  destruct (setPoint_bb p i x p' H old Ho) as [EB EV]. rewrite EV in V. apply andb_true_iff in V. destruct V as [V NS].
  apply negb_true_iff in NS. specialize (Hp V). rewrite EB, E.
  assert (Io : In old (ppts p)) by (eapply nth_error_In; exact Ho).
  destruct (pbb p) as [b|]; cbn [isBox] in Hp |- *; [|rewrite Hp in Io; destruct Io].
  pose proof (Hin V _ _ _ _ Hp) as IX. destruct Hp as [HA [[p1 [I1 E1]] [[p2 [I2 E2]] [[p3 [I3 E3]] [p4 [I4 E4]]]]]].
  apply orb_false_iff in NS. destruct NS as [NS N4]. apply orb_false_iff in NS. destruct NS as [NS N3].
  apply orb_false_iff in NS. destruct NS as [N1 N2]. unfold inBox in IX.
  assert (Ix : In x (list_upd (ppts p) i x)) by (apply (in_list_upd_iff _ _ old); [exact Ho|left; reflexivity]).
  split.
  - intros q Hq. apply (in_list_upd_iff _ _ old) in Hq; [|exact Ho]. destruct Hq as [->|[j [_ Hj]]]; [exact IX|].
    apply HA. eapply nth_error_In; exact Hj.
  - split; [|split; [|split]].
    + destruct (point_dec p1 old) as [->|N]; [|exists p1; split; [eapply upd_keeps; eassumption|exact E1]].
      exists x. split; [exact Ix|]. apply andb_false_iff in N2. rewrite Z.ltb_ge, Z.eqb_neq in N2. lia.
    + destruct (point_dec p2 old) as [->|N]; [|exists p2; split; [eapply upd_keeps; eassumption|exact E2]].
      exists x. split; [exact Ix|]. apply andb_false_iff in N1. rewrite Z.ltb_ge, Z.eqb_neq in N1. lia.
    + destruct (point_dec p3 old) as [->|N]; [|exists p3; split; [eapply upd_keeps; eassumption|exact E3]].
      exists x. split; [exact Ix|]. apply andb_false_iff in N4. rewrite Z.ltb_ge, Z.eqb_neq in N4. lia.
    + destruct (point_dec p4 old) as [->|N]; [|exists p4; split; [eapply upd_keeps; eassumption|exact E4]].
      exists x. split; [exact Ix|]. apply andb_false_iff in N3. rewrite Z.ltb_ge, Z.eqb_neq in N3. lia.
Qed.
Lemma in_remove_nth {A} (l : list A) i old q : nth_error l i = Some old -> In q l <-> q = old \/ In q (remove_nth l i).
Proof.
  intro H. unfold remove_nth. rewrite (nth_split_at l i old H) at 1. rewrite !in_app_iff. cbn [In]. intuition congruence.
Qed.
Lemma erasePt_bbOK p i p' : bbOK p -> erasePt p i = Ok p' -> bbOK p'.
Proof.
  unfold erasePt. intros Hp H. apply bind_Ok in H. destruct H as [old [Ho H]]. apply vget_Ok in Ho. injection H as <-.
  intro V. cbn [pbbV pbb ppts] in V |- *. apply andb_true_iff in V. destruct V as [V NB]. apply negb_true_iff in NB. specialize (Hp V).
  assert (Io : In old (ppts p)) by (eapply nth_error_In; exact Ho).
  destruct (pbb p) as [b|]; cbn [isBox] in Hp |- *; [|rewrite Hp in Io; destruct Io].
  apply orb_false_iff in NB. destruct NB as [NB N4]. apply orb_false_iff in NB. destruct NB as [NB N3].
  apply orb_false_iff in NB. destruct NB as [N1 N2]. rewrite Z.eqb_neq in N1, N2, N3, N4.
  assert (K : forall q, In q (ppts p) -> q <> old -> In q (remove_nth (ppts p) i)).
  { intros q Hq N. apply (in_remove_nth _ _ _ q Ho) in Hq. destruct Hq; [contradiction|assumption]. }
  destruct Hp as [HA [[p1 [I1 E1]] [[p2 [I2 E2]] [[p3 [I3 E3]] [p4 [I4 E4]]]]]].
  split.
  - intros q Hq. apply HA. apply (in_remove_nth _ _ _ q Ho). right. exact Hq.
  - split; [|split; [|split]]; [exists p1|exists p2|exists p3|exists p4]; (split; [apply K; [assumption|congruence]|assumption]).
Qed.
Lemma insertPt_bbOK p i x p' : bbOK p -> insertPt p i x = Ok p' -> bbOK p'.
Proof.
  unfold insertPt. intros Hp H. destruct (length (ppts p) <? i)%nat; [discriminate|]. apply bind_Ok in H. destruct H as [len [_ H]].
  injection H as <-. intro V. cbn [pbbV pbb ppts] in V |- *. rewrite V. apply (isBox_ext (x :: ppts p)).
  - intro q. unfold insert_at. rewrite <- (firstn_skipn i (ppts p)) at 1. cbn [In]. rewrite !in_app_iff. cbn [In]. tauto.
  - apply isBox_add. exact (Hp V).
Qed.
Lemma ext1_bbOK p o : bbOK p -> bbOK o -> bbOK (fst (ext1 p o)) /\
  (pbbV p = true -> pbbV (snd (ext1 p o)) = true /\ isBox (ppts p ++ ppts o) (pbb (snd (ext1 p o)))) /\ (pbbV p = false -> pbbV (snd (ext1 p o)) = false).
Proof.
  intros Hp Ho. unfold ext1. destruct (pbbV p) eqn:V; cbn [fst snd pbbV pbb].
  - split; [apply qBBox_bbOK; exact Ho|]. split; [|discriminate]. intros _. split; [reflexivity|].
    apply isBox_join; [exact (Hp V)|apply qBBox_val; exact Ho].
  - split; [exact Ho|]. split; [discriminate|]. intros _. exact V.
Qed.
Lemma lastPt_In l b : lastPt l = Some b -> In b l.
Proof. intro H. destruct (lastPt_snoc_inv l b H) as [l' ->]. apply in_app_iff. right. left. reflexivity. Qed.
Lemma extend_bbOK p o : bbOK p -> bbOK o -> bbOK (fst (extend p o)) /\ bbOK (snd (extend p o)).
Proof.
  intros Hp Ho. pose proof (extend_fst_pts p o) as EP. rewrite extend_eq in EP |- *. cbn zeta in EP |- *.
  destruct (ext1_pts p o) as [E1 E2]. destruct (ext1_bbOK p o Hp Ho) as [H1 [H2 H3]].
  set (o1 := fst (ext1 p o)) in *. set (p1 := snd (ext1 p o)) in *.
  destruct (ppts o1) as [|f rest] eqn:E.
  - split; [|exact H1]. intro V. cbn [fst] in *. destruct (pbbV p) eqn:VP; [|rewrite (H3 eq_refl) in V; discriminate].
    destruct (H2 eq_refl) as [_ H4]. rewrite <- E1, app_nil_r in H4. rewrite E2. exact H4.
  - cbn [fst snd] in EP |- *. split.
    + intro V. cbn [pbbV pbb ppts] in V, EP |- *. destruct (pbbV p) eqn:VP; [|rewrite (H3 eq_refl) in V; discriminate].
      destruct (H2 eq_refl) as [_ H4]. rewrite EP. apply (isBox_ext (ppts p ++ ppts o)); [|exact H4].
      rewrite <- E1. intro q. destruct (lastPt (ppts p)) as [b|] eqn:L; [|reflexivity].
      destruct (pointEqb f b) eqn:Q; [|reflexivity]. apply pointEqb_eq in Q. subst f.
      rewrite !in_app_iff. cbn [In]. pose proof (lastPt_In _ _ L) as I. split.
      * intros [K|[<-|K]]; auto.
      * tauto.
    + destruct (plenV p1), (pareaV p1); repeat first [apply qArea2_bbOK | apply qLength_bbOK]; exact H1.
Qed.
Lemma concatenate_bbOK p o ae re p' o' : bbOK p -> bbOK o -> concatenate p o ae re = Ok (p', o') -> bbOK p' /\ bbOK o'.
Proof.
  intros Hp Ho H. destruct (concatenate_inv _ _ _ _ _ _ H) as [b [_ [K [_ [_ [EV [_ [_ [EB ->]]]]]]]]].
  assert (H3 : bbOK (if pareaV p then fst (qArea2 (if plenV p then fst (qLength o) else o)) else (if plenV p then fst (qLength o) else o)))
    by (destruct (pareaV p), (plenV p); repeat first [apply qArea2_bbOK | apply qLength_bbOK]; exact Ho).
  assert (E3 : ppts (if pareaV p then fst (qArea2 (if plenV p then fst (qLength o) else o)) else (if plenV p then fst (qLength o) else o)) = ppts o)
    by (destruct (pareaV p), (plenV p); rewrite ?qArea2_pts, ?qLength_pts; reflexivity).
  split.
  - intro V. rewrite EV in V. rewrite EB, V. apply (isBox_ext (ppts p ++ ppts o)).
    + assert (R : forall q, In q (ppts o) <-> In q (if re then rev (ppts o) else ppts o)) by (intro q; destruct re; [apply in_rev|reflexivity]).
      intro q. rewrite in_app_iff, R. destruct ae.
      * destruct K as [L [t [E ->]]]. rewrite E, in_app_iff. cbn [In]. pose proof (lastPt_In _ _ L) as I. split; [intros [K|[<-|K]]; auto|tauto].
      * destruct K as [[t E] [u [E' ->]]]. rewrite E', E, !in_app_iff. cbn [In]. tauto.
    + apply isBox_join; [exact (Hp V)|]. rewrite <- E3. apply qBBox_val. exact H3.
  - destruct (pbbV p); [apply qBBox_bbOK|]; exact H3.
Qed.

Theorem made_bbOK okP p : made okP inward p -> bbOK p.
Proof.
  induction 1.
  - intro V. discriminate.
  - intro V. discriminate.
  - apply qLength_bbOK; assumption.
  - apply qArea2_bbOK; assumption.
  - apply qBBox_bbOK; assumption.
  - exact IHmade.
  - intro V. unfold pushBack in V |- *. destruct (lastPt (ppts p)); cbn [pbbV pbb ppts] in V |- *; rewrite V;
      (apply (isBox_ext (v :: ppts p)); [intro q; rewrite in_app_iff; cbn [In]; tauto|apply isBox_add; exact (IHmade V)]).
  - apply extend_bbOK; assumption.
  - apply extend_bbOK; assumption.
  - eapply setPoint_bbOK; eassumption.
  - eapply erasePt_bbOK; eassumption.
  - eapply insertPt_bbOK; eassumption.
  - unfold insertRange in H0. destruct (length (ppts p) <? i)%nat; [discriminate|]. injection H0 as <-. intro V. discriminate.
  - unfold splitPoly in H0. destruct (i <? length (ppts p))%nat; [|discriminate]. destruct (Nat.eqb i 0).
    + apply bind_Ok in H0. destruct H0 as [f [_ H0]]. injection H0 as <- <-. intro V. discriminate.
    + injection H0 as <- <-. intro V. discriminate.
  - unfold splitPoly in H0. destruct (i <? length (ppts p))%nat; [|discriminate]. destruct (Nat.eqb i 0).
    + apply bind_Ok in H0. destruct H0 as [f [_ H0]]. injection H0 as <- <-. intro V. discriminate.
    + injection H0 as <- <-. intro V. discriminate.
  - intro V. cbn [pbbV pbb ppts reversePoly] in V |- *. apply (isBox_ext (ppts p)); [intro q; apply in_rev|exact (IHmade V)].
  - intro V. discriminate.
  - exact (proj1 (concatenate_bbOK _ _ _ _ _ _ IHmade1 IHmade2 H1)).
  - exact (proj2 (concatenate_bbOK _ _ _ _ _ _ IHmade1 IHmade2 H1)).
Qed.

(** ** Laws *)
Lemma trueLength_rev l : trueLength (rev l) = trueLength l.
Proof. change trueLength with (psum distance). rewrite psum_rev. apply psum_ext. intros a b. apply distance_sym. Qed.
Lemma splitPoly_pts p i p' r : splitPoly p i = Ok (p', r) ->
  (i < length (ppts p))%nat /\ ppts p' = firstn (S i) (ppts p) /\ ppts r = skipn i (ppts p).
Proof.
  unfold splitPoly. destruct (i <? length (ppts p))%nat eqn:B; [|discriminate]. apply Nat.ltb_lt in B. destruct (Nat.eqb i 0) eqn:Z.
  - apply Nat.eqb_eq in Z. subst i. intro H. apply bind_Ok in H. destruct H as [f [Hf H]]. apply vget_Ok in Hf. injection H as <- <-.
    split; [exact B|]. cbn [ppts skipn]. destruct (ppts p) as [|a t]; [discriminate|]. injection Hf as ->. split; reflexivity.
  - intro H. injection H as <- <-. split; [exact B|]. split; reflexivity.
Qed.
Lemma split_share l i a : nth_error l i = Some a -> exists t, skipn i l = a :: t /\ lastPt (firstn (S i) l) = Some a /\ firstn (S i) l ++ t = l.
Proof.
  intro H. destruct (hd_skipn l i a H) as [t E]. exists t. split; [exact E|]. split; [apply lastPt_firstn; exact H|].
  assert (E' : t = skipn (S i) l).
  { clear H. revert i E. induction l as [|b l IH]; intros [|i] E; cbn [skipn] in E |- *; try discriminate.
    - congruence.
    - apply (IH i E). }
  rewrite E'. apply firstn_skipn.
Qed.
Lemma split_extend p i p' r : splitPoly p i = Ok (p', r) -> ppts (fst (extend p' r)) = ppts p.
Proof.
  intro H. destruct (splitPoly_pts _ _ _ _ H) as [B [E1 E2]].
  destruct (nth_error (ppts p) i) as [a|] eqn:N; [|apply nth_error_None in N; lia].
  destruct (split_share _ _ _ N) as [t [T1 [T2 T3]]].
  rewrite extend_fst_pts, E2, T1, E1, T2. unfold pointEqb. rewrite !Z.eqb_refl. exact T3.
Qed.
Lemma split_sum f l i : (forall a, f a a = 0%R) -> (i < length l)%nat -> psum f l = (psum f (firstn (S i) l) + psum f (skipn i l))%R.
Proof.
  intros F B. destruct (nth_error l i) as [a|] eqn:N; [|apply nth_error_None in N; lia].
  destruct (split_share _ _ _ N) as [t [T1 [T2 T3]]]. rewrite T1. rewrite <- T3 at 1. apply psum_share; [apply F|exact T2].
Qed.
