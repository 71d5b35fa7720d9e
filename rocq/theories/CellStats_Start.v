(** C80 to C83: the constructor of the statistics. *)
From Coq Require Import Lia.
From Verif Require Import Base CellMap_Model CellMap_Spec CellMap_Scan CellMap_Proofs CellMap_Main CellSigma_Spec CellSigma_Proofs CellSigma_Results CellLink_Spec CellLink_Proofs CellLink_Check CellFace_Spec CellFace_Walk CellFace_Step CellFace_Results CellMap_Init CellEuler_Clear CellStats_Model CellStats_Spec CellStats_Step CellStats_Main CellStats_Chain CellStats_Inv.
Local Open Scope Z_scope.

(** ** The cells with an entry have different labels *)
Lemma labels_from {A} (g : A -> cinfo) (cs : list A) : forall k, (forall l c, nth_error cs l = Some c -> initialized (g c) = true -> clabel (g c) = Z.of_nat (k + l)) ->
  NoDup (map (fun c => clabel (g c)) (filter (fun c => initialized (g c)) cs)) /\ forall c, In c (filter (fun c => initialized (g c)) cs) -> Z.of_nat k <= clabel (g c).
Proof.
  induction cs as [|a cs IH]; intros k H; cbn [filter map]; [split; [constructor|intros c []]|].
  destruct (IH (Datatypes.S k)) as (N & B). { intros l c E I. rewrite (H (Datatypes.S l) c E I). lia. }
  destruct (initialized (g a)) eqn:I.
  - pose proof (H O a eq_refl I) as La. split.
    + cbn [map]. constructor; [|exact N]. intros J. apply in_map_iff in J. destruct J as (c & E & J). apply B in J. lia.
    + intros c [<-|J]; [lia|]. apply B in J. lia.
  - split; [exact N|]. intros c J. apply B in J. lia.
Qed.

Section Data.
Variables original gradient : vimg.
Variable maxValue : Z.

Lemma noStat_merge o : statMerge noStat o = o. Proof. destruct o; reflexivity. Qed.
Lemma noAvg_merge o : avgMerge noAvg o = o. Proof. destruct o; reflexivity. Qed.
Lemma put_total {A} (v : list A) l a : 0 <= l -> (Z.to_nat l < length v)%nat -> put v l a = Ok (list_upd v (Z.to_nat l) a).
Proof. intros P L. unfold put. replace (_ && _) with true by (symmetry; rewrite andb_true_iff, Z.leb_le, Z.ltb_lt; lia). unfold vset. rewrite (proj2 (Nat.ltb_lt _ _)) by assumption. reflexivity. Qed.

Lemma init_faces m : sound m -> bigEnough original (cim m) -> forall L, (forall f, In f L -> exists l, clabel (finf f) = Z.of_nat l /\ isCell m Region l (finf f)) -> NoDup (map (fun f => clabel (finf f)) L) ->
  forall v, (forall f, In f L -> nth_error v (Z.to_nat (clabel (finf f))) = Some noStat) ->
  exists v', forEach (initFace original m) L v = Ok v' /\ length v' = length v /\
    (forall f, In f L -> exists a, nth_error v' (Z.to_nat (clabel (finf f))) = Some a /\ statOf original (fun x y => owns (cim m) Region (clabel (finf f)) x y /\ inBase (cim m) x y) a) /\
    (forall l, ~ In (Z.of_nat l) (map (fun f => clabel (finf f)) L) -> nth_error v' l = nth_error v l).
Proof.
  intros So B. induction L as [|f L IH]; intros C Nd v V; cbn [forEach]; [exists v; split; [reflexivity|]; split; [reflexivity|]; split; [intros f []|reflexivity]|].
  destruct (C f (or_introl eq_refl)) as (l & Lb & Ce). pose proof (V f (or_introl eq_refl)) as Vf. cbn [map] in Nd. inversion_clear Nd as [|? ? N1 N2].
  destruct (scan_stat m Region l (finf f) original So Ce B) as (ps & o & Sc & Is & St). unfold initFace. rewrite Lb, Sc in *. cbn [bind]. rewrite Nat2Z.id in Vf.
  assert (At : at_ v (Z.of_nat l) = Ok noStat) by (apply at_Ok; split; [lia|rewrite Nat2Z.id; exact Vf]). rewrite At. cbn [bind]. rewrite Is. cbn [bind]. rewrite noStat_merge.
  assert (Lt : (l < length v)%nat) by (apply nth_error_Some; congruence). rewrite put_total by (rewrite ?Nat2Z.id; lia). cbn [bind]. rewrite Nat2Z.id.
  destruct (IH (fun g I => C g (or_intror I)) N2 (list_upd v l o)) as (v' & Ev & Le & P & Q).
  { intros g I. rewrite nth_error_upd_neq; [apply V; right; exact I|]. intros E. apply N1. destruct (C g (or_intror I)) as (j & Lj & _). apply in_map_iff. exists g. split; [|exact I]. rewrite Lj in E. rewrite Nat2Z.id in E. congruence. }
  fold (initFace original). exists v'. split; [exact Ev|]. split; [rewrite Le; apply list_upd_length|]. split.
  - intros g [<-|I]; [|apply P, I]. exists o. rewrite Lb, Nat2Z.id. split; [|exact St]. rewrite Q by exact N1. apply nth_error_upd_eq, Lt.
  - intros j Nj. cbn [map] in Nj. rewrite Q by (intros I; apply Nj; right; exact I). apply nth_error_upd_neq. intros ->. apply Nj. left. exact Lb.
Qed.

(** the sides of the first dart of an edge tell whether it is along the infinite face *)
Lemma outer_sides m d : faced m -> isDart (cim m) d -> (sideOf (cim m) 1 d = 0 \/ sideOf (cim m) (-1) d = 0) <-> outerEdge (cim m) (edgeOf (cim m) d).
Proof.
  intros F D. assert (Fr : framed (cim m)) by apply F. split.
  - intros [Q|Q]; [apply (side_outer m 1 d F (or_introl eq_refl) D Q)|apply (side_outer m (-1) d F (or_intror eq_refl) D Q)].
  - intros (u & v0 & j & Ij & Ol & Or). destruct (border_faces m d (edgeOf (cim m) d) u v0 j 0 (fh_start m F) D (edgeLabel_dart (cim m) Fr d (proj1 D) (proj1 (proj2 D))) Ol Ij Or) as [Q|Q];
    [rewrite leftFace_is in Q by (auto; apply D); injection Q; auto|rewrite rightFace_is in Q by (auto; apply D); injection Q; auto].
Qed.

Lemma init_edges m : faced m -> bigEnough gradient (cim m) -> forall L, (forall e, In e L -> exists l, clabel (einf e) = Z.of_nat l /\ isEdge m l e) -> NoDup (map (fun e => clabel (einf e)) L) ->
  forall v p, (forall e, In e L -> nth_error v (Z.to_nat (clabel (einf e))) = Some noAvg) -> (forall e, In e L -> (Z.to_nat (clabel (einf e)) < length p)%nat) ->
  exists v' p', forEach (initEdge gradient maxValue m) L (v, p) = Ok (v', p') /\ length v' = length v /\ length p' = length p /\
    (forall e, In e L -> exists a, nth_error v' (Z.to_nat (clabel (einf e))) = Some a /\
       ((outerEdge (cim m) (clabel (einf e)) /\ a = Avg 1 maxValue /\ exists f, nth_error p (Z.to_nat (clabel (einf e))) = Some f /\ nth_error p' (Z.to_nat (clabel (einf e))) = Some (flagTo f EPBorder true)) \/
        (~ outerEdge (cim m) (clabel (einf e)) /\ avgOf gradient (fun x y => owns (cim m) Line (clabel (einf e)) x y /\ inBase (cim m) x y) a /\ nth_error p' (Z.to_nat (clabel (einf e))) = nth_error p (Z.to_nat (clabel (einf e)))))) /\
    (forall l, ~ In (Z.of_nat l) (map (fun e => clabel (einf e)) L) -> nth_error v' l = nth_error v l /\ nth_error p' l = nth_error p l).
Proof.
  intros Fa B. assert (So : sound m) by apply Fa. assert (Fr : framed (cim m)) by apply Fa. assert (Wi : wired m) by apply Fa.
  induction L as [|e L IH]; intros C Nd v p V P; cbn [forEach]; [exists v, p; split; [reflexivity|]; split; [reflexivity|]; split; [reflexivity|]; split; [intros e []|auto]|].
  destruct (C e (or_introl eq_refl)) as (l & Lb & (Ne & Ie)). pose proof (V e (or_introl eq_refl)) as Vf. pose proof (P e (or_introl eq_refl)) as Pf. cbn [map] in Nd. inversion_clear Nd as [|? ? N1 N2].
  destruct Wi as (_ & _ & _ & _ & Te & _). destruct (Te l e Ne Ie) as (_ & T). assert (D : dartOfEdge (cim m) (Z.of_nat l) (estart e)) by (apply T; left; reflexivity). destruct D as (D & De).
  assert (Ce : isCell m Line l (einf e)) by (split; [cbn [cellsOf]; rewrite nth_error_map, Ne; reflexivity|exact Ie]).
  unfold initEdge. cbn [fst snd]. rewrite Lb in *. rewrite Nat2Z.id in *. rewrite leftFace_is by (auto; apply D). cbn [bind].
  assert (At : at_ v (Z.of_nat l) = Ok noAvg) by (apply at_Ok; split; [lia|rewrite Nat2Z.id; exact Vf]).
  assert (Lt : (l < length v)%nat) by (apply nth_error_Some; congruence).
  destruct (nth_error p l) as [f|] eqn:Ef; [|apply nth_error_None in Ef; lia]. assert (Ap : at_ p (Z.of_nat l) = Ok f) by (apply at_Ok; split; [lia|rewrite Nat2Z.id; exact Ef]).
  set (r := (if sideOf (cim m) 1 (estart e) =? 0 then Ok 0 else rightFaceLabel (cim m) (estart e))).
  assert (Rr : exists w, r = Ok w /\ ((sideOf (cim m) 1 (estart e) =? 0) || (w =? 0) = true <-> outerEdge (cim m) (Z.of_nat l))).
  { rewrite <- De. unfold r. destruct (sideOf (cim m) 1 (estart e) =? 0) eqn:Q.
    - exists 0. split; [reflexivity|]. rewrite <- (outer_sides m _ Fa D). apply Z.eqb_eq in Q. cbn. tauto.
    - rewrite rightFace_is by (auto; apply D). eexists. split; [reflexivity|]. rewrite <- (outer_sides m _ Fa D). apply Z.eqb_neq in Q. cbn [orb]. rewrite Z.eqb_eq. tauto. }
  destruct Rr as (w & Er & Ow). rewrite Er. cbn [bind]. rewrite At. cbn [bind].
  assert (Nl : forall g, In g L -> l <> Z.to_nat (clabel (einf g))). { intros g I E. apply N1. destruct (C g (or_intror I)) as (j & Lj & _). apply in_map_iff. exists g. split; [|exact I]. rewrite Lj in E. rewrite Nat2Z.id in E. congruence. }
  destruct ((sideOf (cim m) 1 (estart e) =? 0) || (w =? 0)).
  - rewrite put_total by (rewrite ?Nat2Z.id; lia). cbn [bind]. rewrite (flagEdge_is p _ EPBorder true f Ap). cbn [bind fst]. rewrite Nat2Z.id.
    destruct (IH (fun g I => C g (or_intror I)) N2 (list_upd v l (avgAdd noAvg maxValue)) (list_upd p l (flagTo f EPBorder true))) as (v' & p' & Ev & Le & Lp & Q1 & Q2).
    { intros g I. rewrite nth_error_upd_neq by (apply Nl, I). apply V. right. exact I. } { intros g I. rewrite list_upd_length. apply P. right. exact I. }
    rewrite list_upd_length in Le. rewrite list_upd_length in Lp. exists v', p'. split; [exact Ev|]. split; [exact Le|]. split; [exact Lp|]. destruct (Q2 l N1) as (X1 & X2). rewrite nth_error_upd_eq in X1 by assumption. rewrite nth_error_upd_eq in X2 by assumption. split.
    + intros g [E|I].
      * subst g. rewrite Lb, Nat2Z.id. eexists. split; [exact X1|]. left. split; [tauto|]. split; [reflexivity|]. exists f. auto.
      * destruct (Q1 g I) as (a & Na & A). exists a. split; [exact Na|]. rewrite !nth_error_upd_neq in A by (apply Nl, I). exact A.
    + intros j Nj. cbn [map] in Nj. destruct (Q2 j (fun I => Nj (or_intror I))) as (Y1 & Y2). rewrite Y1, Y2. rewrite !nth_error_upd_neq; [auto| |]; intros ->; apply Nj; left; exact Lb.
  - destruct (scan_avg m Line l (einf e) gradient So Ce B) as (ps & o & Sc & Is & St). rewrite Sc. cbn [bind]. rewrite Is. cbn [bind]. rewrite noAvg_merge. rewrite put_total by (rewrite ?Nat2Z.id; lia). cbn [bind]. rewrite Nat2Z.id.
    destruct (IH (fun g I => C g (or_intror I)) N2 (list_upd v l o) p) as (v' & p' & Ev & Le & Lp & Q1 & Q2).
    { intros g I. rewrite nth_error_upd_neq by (apply Nl, I). apply V. right. exact I. } { intros g I. apply P. right. exact I. }
    rewrite list_upd_length in Le. exists v', p'. split; [exact Ev|]. split; [exact Le|]. split; [exact Lp|]. destruct (Q2 l N1) as (X1 & X2). rewrite nth_error_upd_eq in X1 by assumption. split.
    + intros g [E|I].
      * subst g. rewrite Lb, Nat2Z.id. eexists. split; [exact X1|]. right. split; [intros Q; apply Ow in Q; discriminate Q|]. split; [exact St|congruence].
      * apply (Q1 g I).
    + intros j Nj. cbn [map] in Nj. destruct (Q2 j (fun I => Nj (or_intror I))) as (Y1 & Y2). rewrite Y1, Y2. rewrite !nth_error_upd_neq; [auto|]; intros ->; apply Nj; left; exact Lb.
Qed.

Lemma filter_map_nth {A} (g : A -> cinfo) (cs : list A) c : In c (filter (fun c => initialized (g c)) cs) -> exists l, nth_error cs l = Some c /\ initialized (g c) = true.
Proof. intros I. apply filter_In in I. destruct I as (I & Q). apply In_nth_error in I. destruct I as (l & I). eauto. Qed.
Lemma zero_live m : sound m -> exists f t, cfaces m = f :: t /\ initialized (finf f) = true.
Proof.
  intros So. destruct (pixel_live m 0 0 Region 0 So) as (_ & c & (C & I)); [|discriminate|].
  - destruct So as ((W & _) & Fr & _). destruct W as (W1 & W2 & _). split; [lia|]. split; [lia|]. apply Fr; lia.
  - cbn [cellsOf Z.to_nat] in C. destruct (cfaces m) as [|f t]; [discriminate C|]. cbn in C. exists f, t. split; [reflexivity|]. congruence.
Qed.

(** the constructor returns, and this is what it returns *)
Lemma new_facts m p : faced m -> bigEnough original (cim m) -> bigEnough gradient (cim m) -> (length (cedges m) <= length p)%nat ->
  exists s, newStats original gradient maxValue m p = Ok s /\ (forall since, kept original gradient maxValue m since (fun _ _ => False) m s) /\ length (flags s) = length p /\
    (forall l e, isEdge m l e -> outerEdge (cim m) (Z.of_nat l) -> nth_error (edgeStats s) l = Some (Avg 1 maxValue) /\ exists f, nth_error p l = Some f /\ nth_error (flags s) l = Some (flagTo f EPBorder true)) /\
    (forall l, ~ (exists e, isEdge m l e /\ outerEdge (cim m) (Z.of_nat l)) -> nth_error (flags s) l = nth_error p l).
Proof.
  intros Fa Bo Bg Lp. assert (So : sound m) by apply Fa. unfold newStats. destruct (zero_live m So) as (f0 & fs & Ef & If).
  assert (Lab : forall l f, nth_error (cfaces m) l = Some f -> initialized (finf f) = true -> clabel (finf f) = Z.of_nat (0 + l)).
  { intros l f E I. apply (live_facts m Region l (finf f) So). split; [cbn [cellsOf]; rewrite nth_error_map, E; reflexivity|exact I]. }
  assert (Lae : forall l e, nth_error (cedges m) l = Some e -> initialized (einf e) = true -> clabel (einf e) = Z.of_nat (0 + l)).
  { intros l f E I. apply (live_facts m Line l (einf f) So). split; [cbn [cellsOf]; rewrite nth_error_map, E; reflexivity|exact I]. }
  pose proof (labels_from finf (cfaces m) 0 Lab) as (Ndf & _). pose proof (labels_from einf (cedges m) 0 Lae) as (Nde & _).
  assert (Fl : filter (fun f => initialized (finf f)) (cfaces m) = f0 :: filter (fun f => initialized (finf f)) fs) by (rewrite Ef; cbn [filter]; rewrite If; reflexivity). rewrite Fl. rewrite Fl in Ndf. cbn [map] in Ndf. inversion_clear Ndf as [|? ? Nf1 Nf2].
  assert (L0 : clabel (finf f0) = 0). { assert (Q : nth_error (cfaces m) 0 = Some f0) by (rewrite Ef; reflexivity). exact (Lab O f0 Q If). }
  assert (Inf : forall f, In f (filter (fun f => initialized (finf f)) fs) -> exists l, clabel (finf f) = Z.of_nat l /\ isCell m Region l (finf f) /\ (l < length (cfaces m))%nat).
  { intros f I. assert (J : In f (filter (fun f => initialized (finf f)) (cfaces m))) by (rewrite Fl; right; exact I). destruct (filter_map_nth finf _ _ J) as (l & E & Q). exists l. split; [exact (Lab l f E Q)|]. split; [split; [cbn [cellsOf]; rewrite nth_error_map, E; reflexivity|exact Q]|]. apply nth_error_Some. congruence. }
  destruct (init_faces m So Bo (filter (fun f => initialized (finf f)) fs) (fun f I => match Inf f I with ex_intro _ l (conj a (conj b _)) => ex_intro _ l (conj a b) end) Nf2 (repeat noStat (Datatypes.S (length (cfaces m))))) as (v & Ev & Lv & V1 & V2).
  { intros f I. destruct (Inf f I) as (l & Lb & _ & Lt). rewrite Lb, Nat2Z.id. rewrite (nth_error_nth' _ noStat) by (rewrite repeat_length; lia). f_equal. apply nth_repeat. }
  rewrite Ev. cbn [bind]. rewrite repeat_length in Lv.
  assert (Ine : forall e, In e (filter (fun e => initialized (einf e)) (cedges m)) -> exists l, clabel (einf e) = Z.of_nat l /\ isEdge m l e /\ (l < length (cedges m))%nat).
  { intros f I. destruct (filter_map_nth einf _ _ I) as (l & E & Q). exists l. split; [exact (Lae l f E Q)|]. split; [split; [exact E|exact Q]|]. apply nth_error_Some. congruence. }
  destruct (init_edges m Fa Bg (filter (fun e => initialized (einf e)) (cedges m)) (fun f I => match Ine f I with ex_intro _ l (conj a (conj b _)) => ex_intro _ l (conj a b) end) Nde (repeat noAvg (Datatypes.S (length (cedges m)))) p) as (w & p' & Ew & Lw & Lp' & W1 & W2).
  { intros f I. destruct (Ine f I) as (l & Lb & _ & Lt). rewrite Lb, Nat2Z.id. rewrite (nth_error_nth' _ noAvg) by (rewrite repeat_length; lia). f_equal. apply nth_repeat. }
  { intros f I. destruct (Ine f I) as (l & Lb & _ & Lt). rewrite Lb, Nat2Z.id. lia. }
  rewrite Ew. cbn [bind fst snd]. rewrite repeat_length in Lw.
  assert (Li : forall l e, isEdge m l e -> In e (filter (fun e => initialized (einf e)) (cedges m))) by (intros l e (E & I); apply filter_In; split; [eapply nth_error_In, E|exact I]).
  eexists. split; [reflexivity|]. cbn [flags edgeStats]. split; [|split; [exact Lp'|split]].
  - intros since. split; [exact Fa|]. split; [|split; [|split; [|split; [|split; [|split]]]]]; cbn [faceStats edgeStats mergedEdges flags lastChanges].
    + split; [reflexivity|]. split; [reflexivity|]. split.
      * intros a x y x' y' (_ & _ & P) (_ & _ & Q). congruence.
      * intros a x y (_ & _ & P). rewrite P. discriminate.
    + intros x y [].
    + intros l c (C & I). cbn [cellsOf] in C. rewrite nth_error_map in C. destruct (nth_error (cfaces m) l) as [f|] eqn:E; [|discriminate C]. injection C as <-. assert (Lt : (l < length (cfaces m))%nat) by (apply nth_error_Some; congruence).
      destruct (nth_error v l) as [a|] eqn:Na; [|apply nth_error_None in Na; lia]. exists a. split; [reflexivity|]. intros Nl. destruct l as [|l].
      { specialize (Nl eq_refl). assert (Q : nth_error v 0 = Some noStat). { rewrite V2; [|rewrite L0 in Nf1; exact Nf1]. reflexivity. }
        assert (a = noStat) by congruence. subst a. assert (Em : forall g, amount original g (fun x y => owns (cim m) Region (Z.of_nat 0) x y /\ inBase (cim m) x y /\ ~ False) 0); [|split; [apply Em|split; apply Em]].
        intros g. exists []. split; [constructor|]. split; [|reflexivity]. intros x y. split; [intros []|]. intros (O & Ba & _). apply (Nl x y O Ba). }
      assert (J : In f (filter (fun f => initialized (finf f)) fs)). { apply filter_In. split; [|exact I]. rewrite Ef in E. cbn in E. eapply nth_error_In, E. }
      destruct (V1 f J) as (b & Nb & B). pose proof (Lab (Datatypes.S l) f E I) as Lb. cbn [Nat.add] in Lb. rewrite Lb in Nb, B. rewrite Nat2Z.id in Nb. assert (b = a) by congruence. subst b. refine (stat_ext _ _ _ _ _ B). intros x y. tauto.
    + intros l c (C & I). cbn [cellsOf] in C. rewrite nth_error_map in C. destruct (nth_error (cedges m) l) as [e|] eqn:E; [|discriminate C]. injection C as <-. pose proof (Lae l e E I) as Lb. cbn in Lb.
      destruct (W1 e (Li l e (conj E I))) as (a & Na & A). rewrite Lb in Na, A. rewrite Nat2Z.id in Na. exists a. split; [exact Na|]. tauto.
    + intros l c C. pose proof C as (C' & I). cbn [cellsOf] in C'. rewrite nth_error_map in C'. destruct (nth_error (cedges m) l) as [e|] eqn:E; [|discriminate C']. injection C' as <-. assert (Lt : (l < length (cedges m))%nat) by (apply nth_error_Some; congruence).
      exists [Z.of_nat l]. split; [apply cn_end|split].
      * apply at_Ok. split; [lia|]. rewrite Nat2Z.id, nth_error_map. rewrite (nth_error_nth' _ O) by (rewrite seq_length; lia). cbn [option_map]. rewrite seq_nth by lia. reflexivity.
      * constructor; [intros []|constructor].
      * intros a. split.
        -- intros [<-|[]]. destruct (live_pixel m Line l (einf e)) as (x & y & O); [apply So|apply C|exact I|]. exists x, y. auto.
        -- intros (x & y & (_ & _ & P) & (_ & _ & Q)). left. congruence.
    + intros a x y O. destruct (pixel_live m x y Line a So O ltac:(discriminate)) as (_ & c & (C & _)). cbn [cellsOf] in C. rewrite nth_error_map in C. destruct (nth_error (cedges m) (Z.to_nat a)) eqn:E; [|discriminate C]. assert (Z.to_nat a < length (cedges m))%nat by (apply nth_error_Some; congruence). lia.
    + intros x y X Y _. unfold inRect. cbn. lia.
  - intros l e He O. pose proof He as (E & I). pose proof (Lae l e E I) as Lb. cbn in Lb. destruct (W1 e (Li l e He)) as (a & Na & A). rewrite Lb in Na, A. rewrite Nat2Z.id in Na, A. destruct A as [(_ & -> & A)|(A & _)]; [|contradiction]. auto.
  - intros l N. destruct (in_dec Z.eq_dec (Z.of_nat l) (map (fun e => clabel (einf e)) (filter (fun e => initialized (einf e)) (cedges m)))) as [J|J].
    + apply in_map_iff in J. destruct J as (e & Eq & J). destruct (Ine e J) as (j & Lj & He & _). assert (j = l) by lia. subst j. destruct (W1 e J) as (a & Na & A). rewrite Lj in A. rewrite Nat2Z.id in A. destruct A as [(O & _)|(_ & _ & A)]; [|exact A]. exfalso. apply N. eauto.
    + apply (W2 l J).
Qed.

(** ** Everything *)
Notation hist := (shistory original gradient maxValue).
Lemma whole_base m0 m v : whole m0 m -> bigEnough v (cim m0) -> bigEnough v (cim m).
Proof. intros (W & H & _) B. unfold bigEnough in *. rewrite W, H. exact B. Qed.
Theorem hist_kept m0 since lost m s : hist m0 since lost m s -> kept original gradient maxValue m0 since lost m s /\ bigEnough original (cim m0) /\ bigEnough gradient (cim m0).
Proof.
  induction 1 as [p s since Fa Bo Bg Lp N|since lost m s c m' s' H IH A E|since lost m s l e flag on s' b H IH A E|since lost m s H IH|since lost m s since' H IH].
  - destruct (new_facts m0 p Fa Bo Bg Lp) as (s1 & E & K & _). rewrite N in E. injection E as <-. auto.
  - destruct IH as (K & Bo & Bg). split; [|auto]. pose proof K as (_ & Wh & _). exact (kept_call original gradient maxValue m0 since lost m s c m' s' (whole_base _ _ _ Wh Bo) (whole_base _ _ _ Wh Bg) K A E).
  - destruct IH as (K & B). split; [|exact B]. destruct K as (Fa & Wh & Lo & Fk & Ek & Mk & Fl & No). unfold protectEdge in E. bnd E r Er. injection E as <- _.
    split; [exact Fa|]. split; [exact Wh|]. split; [exact Lo|]. split; [exact Fk|]. split; [exact Ek|]. split; [exact Mk|]. split; [|exact No]. cbn [flags setFlags]. destruct A as (A & Ia).
    destruct (Mk l (einf e)) as (ch & C & Nd & P); [split; [cbn [cellsOf]; rewrite nth_error_map, A; reflexivity|exact Ia]|].
    destruct (protectLoop_is _ _ _ flag on C Nd (Datatypes.S (length (mergedEdges s))) (flags s)) as (p' & b' & Lp & Le & _).
    { pose proof (chain_length _ _ _ C Nd). lia. } { intros x I. apply P in I. destruct I as (u & v & O & _). apply (Fl x u v O). }
    rewrite Lp in Er. injection Er as <-. cbn [fst]. intros a x y O. rewrite Le. apply (Fl a x y O).
  - destruct IH as (K & B). split; [|exact B]. destruct K as (Fa & Wh & Lo & Fk & Ek & Mk & Fl & No). repeat (split; [assumption|]). intros x y X Y N. destruct (N eq_refl).
  - destruct IH as (K & B). split; [|exact B]. destruct K as (Fa & Wh & Lo & Fk & Ek & Mk & Fl & No). repeat (split; [assumption|]). cbn [assignStats lastChanges setLast]. intros x y X Y _. destruct B as ((B1 & B2) & _). destruct Wh as (W & H' & _). rewrite <- W in B1. rewrite <- H' in B2.
    unfold inRect. cbn [rx0 ry0 rx1 ry1]. assert (Q : forall a, -4 <= a -> 0 <= 2 * Z.quot a 2 + 4).
    { clear. intros a A. destruct (Z.le_gt_cases 0 a). { pose proof (Z.quot_pos a 2 ltac:(lia) ltac:(lia)). lia. } replace a with (- (- a)) by lia. rewrite Z.quot_opp_l by lia. pose proof (Z.quot_le_mono (- a) 4 2 ltac:(lia) ltac:(lia)) as M. change (Z.quot 4 2) with 2 in M. lia. }
    pose proof (Q (vw original - iw (cim m)) ltac:(lia)). pose proof (Q (vh original - ih (cim m)) ltac:(lia)). lia.
Qed.
End Data.
