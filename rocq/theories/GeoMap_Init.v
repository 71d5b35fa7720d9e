(** initContours: one preliminary face per contour. *)
From Verif Require Import Base Orbit GraphRank Euler Links FaceInv Conj
  GeoMap_Model GeoMap_Views GeoMap_SInv GeoMap_Remove GeoMap_MergeEdges GeoMap_Loops GeoMap_MInv GeoMap_MergeFaces.
Local Open Scope Z_scope.

(** Same graph; only faces and face labels differ. *)
Record relF m0 m : Prop := {
  rf_sg : sg m = sg m0; rf_sgi : sgi m = sgi m0; rf_cap : cap m = cap m0;
  rf_nodes : nodes m = nodes m0; rf_nc : nodeCount m = nodeCount m0; rf_ec : edgeCount m = edgeCount m0;
  rf_sorted : sorted m = sorted m0; rf_len : length (edges m) = length (edges m0);
  rf_edge : forall j, match eAt m0 j, eAt m j with
      | None, None => True
      | Some e, Some e' => estart e' = estart e /\ eend e' = eend e /\ epts e' = epts e /\ eflags e' = eflags e
      | _, _ => False
      end }.

Lemma relF_refl m : relF m m.
Proof. constructor; auto. intros j; destruct (eAt m j); auto. Qed.
Lemma relF_trans a b c : relF a b -> relF b c -> relF a c.
Proof.
  intros X Y. destruct X as [X1 X2 X3 X4 X5 X6 X7 X8 X9], Y as [Y1 Y2 Y3 Y4 Y5 Y6 Y7 Y8 Y9].
  constructor; try congruence. intros j. specialize (X9 j). specialize (Y9 j).
  destruct (eAt a j), (eAt b j), (eAt c j); try contradiction; auto. intuition congruence.
Qed.
Lemma relab_relF m P s m' : relab m P s m' -> relF m m'.
Proof.
  intros R. constructor; try (rewrite (rl_eq _ _ _ _ R); reflexivity); try apply R.
Qed.

Section RelF.
  Variables m0 m : gmap.
  Hypothesis R : relF m0 m.
  Lemma rf_live j : eAt m j = None <-> eAt m0 j = None.
  Proof. pose proof (rf_edge _ _ R j). destruct (eAt m0 j), (eAt m j); try contradiction; split; congruence. Qed.
  Lemma rf_elabs : elabs m = elabs m0.
  Proof.
    unfold elabs. rewrite (rf_len _ _ R). f_equal. apply filter_ext. intros l. unfold isLive.
    pose proof (rf_edge _ _ R l). destruct (eAt m0 l), (eAt m l); try contradiction; reflexivity.
  Qed.
  Lemma rf_darts : darts m = darts m0.
  Proof. unfold darts. rewrite rf_elabs. reflexivity. Qed.
  Lemma rf_stt x : stt m x = stt m0 x.
  Proof.
    unfold stt. pose proof (rf_edge _ _ R (elab x)). destruct (eAt m0 (elab x)), (eAt m (elab x)); try contradiction; auto.
    unfold e_st. destruct H as (-> & -> & _). reflexivity.
  Qed.
  Lemma rf_phi : phi m = phi m0.
  Proof. unfold phi. rewrite (rf_sgi _ _ R). reflexivity. Qed.
  Lemma rf_Gm : Gm m = Gm m0.
  Proof. unfold Gm, pairs. rewrite rf_elabs. apply map_ext. intros; rewrite !rf_stt; reflexivity. Qed.
  Lemma rf_fuel : fuel m = fuel m0.
  Proof. unfold fuel. rewrite (rf_len _ _ R). reflexivity. Qed.
  Lemma rf_SI : SI m0 (darts m0) -> SI m (darts m).
  Proof.
    intros HS. rewrite rf_darts. apply (SI_frame m0); auto.
    - rewrite (rf_cap _ _ R); lia.
    - intros; rewrite (rf_sg _ _ R), (rf_sgi _ _ R); auto.
    - intros; apply rf_stt.
    - intros x Hx. rewrite rf_live. exact (si_live _ _ HS x Hx).
    - intros x Hx. unfold nAt. rewrite (rf_nodes _ _ R). apply (si_node _ _ HS x Hx).
    - intros l n Hn. unfold nAt in Hn. rewrite (rf_nodes _ _ R) in Hn. exists n; auto.
  Qed.
  Lemma rf_SInv : SInv m0 -> faceCount m = sumf alive (faces m) -> SInv m.
  Proof.
    intros V Hfc. constructor; auto.
    - apply rf_SI, V.
    - apply rf_live, V.
    - rewrite (rf_cap _ _ R); apply V.
    - rewrite (rf_cap _ _ R), (rf_len _ _ R); apply V.
    - rewrite (rf_nc _ _ R), (rf_nodes _ _ R). apply V.
    - rewrite (rf_ec _ _ R), (sv_ec _ V). apply sumf_tgets; [reflexivity | symmetry; apply R|].
      intros j. pose proof (rf_edge _ _ R j) as K. unfold eAt in K.
      destruct (tget (edges m0) j), (tget (edges m) j); try contradiction; reflexivity.
  Qed.
End RelF.

(** the labelling loop *)
Lemma labelWhile_spec stop m a N s :
  SI m (darts m) -> In a (darts m) -> per (phi m) a N ->
  (forall y, reach (phi m) a y -> stop (lft m y) = false) -> stop (Some s) = true ->
  forall n k m1, (k <= N)%nat -> (N - k < n)%nat ->
  relab m (fun x => exists i, (i < k)%nat /\ iter i (phi m) a = x) s m1 ->
  exists m', labelWhile n stop m1 (iter k (phi m) a) s = Ok (m', a) /\
    relab m (fun x => reach (phi m) a x) s m'.
Proof.
  intros HS Ha HN Hns Hst. pose proof (phi_perm m HS) as HP.
  induction n as [|n IH]; intros k m1 Hk Hn R; [lia|].
  cbn [labelWhile].
  assert (Hin : In (iter k (phi m) a) (darts m)) by (apply (iter_in _ _ _ HP); assumption).
  set (x := iter k (phi m) a) in *.
  assert (Hx1 : In x (darts m1)) by (rewrite (rl_darts _ _ _ _ R); assumption).
  destruct (live_edge m1 x Hx1) as (e & He). rewrite (gEdge_Ok _ _ _ He). cbn [bind].
  assert (Elf : e_lf e x = lft m1 x) by (unfold lft; rewrite He; reflexivity). rewrite Elf.
  destruct (Nat.eq_dec k N) as [->|HkN].
  - assert (Ex : x = a) by (apply (pe_ret _ _ _ HN)).
    rewrite (rl_in _ _ _ _ R x Hin).
    2:{ exists 0%nat. split; [apply HN | rewrite Ex; reflexivity]. }
    rewrite Hst, Ex. exists m1. split; [reflexivity|].
    apply (relab_ext m _ _ s m1) with (2 := R). intros y Hy. symmetry. apply (per_reach (phi m) a N HN).
  - assert (Hno : ~ exists i, (i < k)%nat /\ iter i (phi m) a = x).
    { intros (i & Hi & E). apply (per_inj (darts m) (phi m) _ a N HP Ha HN) in E; lia. }
    rewrite (rl_out _ _ _ _ R x Hin Hno). rewrite (Hns x) by (exists k; reflexivity).
    set (m2 := putE m1 (elab x) (Some (set_lf e x (Some s)))).
    assert (Hnp : nextPhi m2 x = Ok (iter (S k) (phi m) a)).
    { unfold m2. rewrite (rl_eq _ _ _ _ R). change (nextPhi m x = Ok (phi m x)). apply (nextPhi_Ok m _ HS Hin). }
    rewrite Hnp. cbn [bind]. apply IH; try lia.
    apply (relab_ext m (fun y => (exists i, (i < k)%nat /\ iter i (phi m) a = y) \/ y = x)).
    + intros y Hy. split.
      * intros [(i & Hi & E)| ->]; [exists i; split; [lia | assumption] | exists k; split; [lia | reflexivity]].
      * intros (i & Hi & E). destruct (Nat.eq_dec i k) as [->|]; [right; symmetry; exact E | left; exists i; split; [lia | assumption]].
    + apply relab_step; auto. apply (si_nz _ _ HS).
Qed.

Lemma labelWhile_all stop m a s :
  SI m (darts m) -> In a (darts m) ->
  (forall y, reach (phi m) a y -> stop (lft m y) = false) -> stop (Some s) = true ->
  exists m', labelWhile (fuel m) stop m a s = Ok (m', a) /\ relab m (fun x => reach (phi m) a x) s m'.
Proof.
  intros HS Ha H1 H2. destruct (min_period _ _ _ a (phi_perm m HS) Ha) as (N & HN & HL).
  pose proof (fuel_darts m).
  apply (labelWhile_spec stop m a N s HS Ha HN H1 H2 (fuel m) 0 m); try lia.
  apply (relab_ext m (fun _ => False)); [|apply relab_refl]. intros x _. split; [tauto | intros (i & Hi & _); lia].
Qed.

Record CI m0 m : Prop := {
  ci_rel : relF m0 m;
  ci_f0 : fAt m 0 = Some (mkFace [] None 0);
  ci_faces : forall l, (0 < l < length (faces m))%nat -> exists a, fAt m l = Some (mkFace [a] None 0) /\
      In a (darts m0) /\ forall x, In x (darts m0) -> (lft m x = Some l <-> reach (phi m0) a x);
  ci_lab : forall x l, In x (darts m0) -> lft m x = Some l -> (0 < l < length (faces m))%nat;
  ci_fc : faceCount m = Z.of_nat (length (faces m)) }.

Lemma sumf_all_some {A} (l : list (option A)) : (forall i, (i < length l)%nat -> tget l i <> None) ->
  sumf alive l = Z.of_nat (length l).
Proof.
  induction l as [|o l IH]; intros H; [reflexivity|]. cbn [sumf length]. rewrite IH.
  - specialize (H 0%nat). unfold tget in H. cbn in H. destruct o; [unfold alive; rewrite ?Nat2Z.inj_succ; lia | exfalso; apply H; [lia | reflexivity]].
  - intros i Hi. apply (H (S i)). simpl; lia.
Qed.

Lemma CI_pos m0 m : CI m0 m -> (0 < length (faces m))%nat.
Proof. intros C. apply (tget_lt _ _ _ (ci_f0 _ _ C)). Qed.

Lemma CI_fc m0 m : CI m0 m -> faceCount m = sumf alive (faces m).
Proof.
  intros C. rewrite (ci_fc _ _ C). symmetry. apply sumf_all_some. intros i Hi.
  destruct i as [|i]; [fold (fAt m 0); rewrite (ci_f0 _ _ C); discriminate|].
  destruct (ci_faces _ _ C (S i)) as (a & E & _); [lia|]. fold (fAt m (S i)). rewrite E. discriminate.
Qed.

Lemma newFace_CI m0 m d : SInv m0 -> CI m0 m -> In d (darts m0) -> lft m d = None ->
  exists m', newFace m d = Ok m' /\ CI m0 m' /\ lft m' d <> None /\
    (forall x, In x (darts m0) -> lft m x <> None -> lft m' x <> None).
Proof.
  intros V C Hd Hn. pose proof (CI_pos _ _ C) as Hp.
  pose proof (ci_rel _ _ C) as R0.
  unfold newFace. destruct (Nat.eqb_spec (length (faces m)) 0) as [|_]; [lia|].
  set (l := length (faces m)) in *.
  set (m1 := set_faceCount (set_faces m (faces m ++ [Some (mkFace [d] None 0)])) (faceCount m + 1)).
  assert (R1 : relF m0 m1) by (apply (relF_trans _ m); [assumption|]; constructor; try reflexivity; intros j; destruct (eAt m j) eqn:E; unfold m1, eAt in *; cbn; rewrite E; auto).
  pose proof (rf_SI _ _ R1 (sv_si _ V)) as HS1.
  assert (Hd1 : In d (darts m1)) by (rewrite (rf_darts _ _ R1); assumption).
  pose proof (phi_perm m0 (sv_si _ V)) as HP0.
  assert (Hlm1 : forall x, lft m1 x = lft m x) by reflexivity.
  assert (Hall : forall y, reach (phi m0) d y -> lft m y = None).
  { intros y Hr. destruct (lft m y) as [q|] eqn:E; [|reflexivity]. exfalso.
    assert (Hy : In y (darts m0)) by (apply (reach_in _ _ _ HP0 d); assumption).
    pose proof (ci_lab _ _ C y q Hy E) as Hq. destruct (ci_faces _ _ C q Hq) as (a & _ & Ha & K).
    apply K in E; [|assumption]. assert (reach (phi m0) a d).
    { apply (reach_trans _ _ y); auto. apply (reach_sym _ _ _ HP0); assumption. }
    apply K in H; [congruence | assumption]. }
  unfold claimLoop.
  destruct (labelWhile_all (fun o => match o with None => false | Some _ => true end) m1 d l HS1 Hd1) as (m2 & R2 & RL).
  { intros y Hy. rewrite (rf_phi _ _ R1) in Hy. rewrite Hlm1, (Hall y Hy). reflexivity. }
  { reflexivity. }
  rewrite R2. cbn [bind fst]. exists m2. split; [reflexivity|].
  rewrite (rf_phi _ _ R1) in RL.
  assert (Ef : faces m2 = faces m ++ [Some (mkFace [d] None 0)]) by (rewrite (rl_eq _ _ _ _ RL); reflexivity).
  assert (Hin : forall x, In x (darts m0) -> reach (phi m0) d x -> lft m2 x = Some l).
  { intros x Hx Hr. apply (rl_in _ _ _ _ RL); [rewrite (rf_darts _ _ R1)|]; assumption. }
  assert (Hout : forall x, In x (darts m0) -> ~ reach (phi m0) d x -> lft m2 x = lft m x).
  { intros x Hx Hr. rewrite (rl_out _ _ _ _ RL x); auto. rewrite (rf_darts _ _ R1); assumption. }
  assert (Hfold : forall x, In x (darts m0) -> lft m x <> None -> lft m2 x = lft m x).
  { intros x Hx Hl. apply (Hout x Hx). intros Hr. apply Hl, Hall, Hr. }
  split; [|split].
  - constructor.
    + apply (relF_trans _ m1); [assumption | eapply relab_relF; exact RL].
    + unfold fAt. rewrite Ef, tget_app_l by assumption. apply C.
    + intros j Hj. unfold fAt. rewrite Ef in *. rewrite app_length in Hj; cbn [length] in Hj. rewrite tget_app_one. fold l.
      destruct (Nat.eqb_spec j l) as [->|Hjl].
      * exists d. split; [reflexivity|]. split; [assumption|]. intros x Hx. split.
        -- intros E. destruct (reach_dec (darts m0) (phi m0) _ HP0 d x Hd) as [Hr|Hr]; auto. exfalso.
           rewrite Hout in E by assumption. apply (ci_lab _ _ C) in E; auto. unfold l in E; lia.
        -- intros Hr. apply Hin; assumption.
      * destruct (ci_faces _ _ C j) as (a & Ea & HaD & K); [fold l; lia|]. exists a. split; [exact Ea|]. split; [assumption|].
        intros x Hx. rewrite <- (K x Hx). destruct (reach_dec (darts m0) (phi m0) _ HP0 d x Hd) as [Hr|Hr].
        -- rewrite (Hin x Hx Hr), (Hall x Hr). split; [congruence | discriminate].
        -- rewrite (Hout x Hx Hr). reflexivity.
    + intros x j Hx E. rewrite Ef, app_length; cbn [length]. fold l.
      destruct (reach_dec (darts m0) (phi m0) _ HP0 d x Hd) as [Hr|Hr].
      * rewrite (Hin x Hx Hr) in E. injection E as <-. lia.
      * rewrite (Hout x Hx Hr) in E. apply (ci_lab _ _ C) in E; auto. fold l in E. lia.
    + rewrite Ef, app_length. rewrite (rl_eq _ _ _ _ RL). cbn. rewrite (ci_fc _ _ C). lia.
  - rewrite (Hin d Hd (reach_refl _ _)). discriminate.
  - intros x Hx Hl. rewrite Hfold; assumption.
Qed.

Lemma initContoursLoop_CI m0 : SInv m0 -> forall ls m, CI m0 m ->
  (forall l, In l ls -> (l < length (edges m0))%nat) ->
  exists m', initContoursLoop m ls = Ok m' /\ CI m0 m' /\
    (forall x, In x (darts m0) -> (In (elab x) ls \/ lft m x <> None) -> lft m' x <> None).
Proof.
  intros V. induction ls as [|l t IH]; intros m C Hls.
  - exists m. split; [reflexivity|]. split; [assumption|]. intros x _ [[]|H]; assumption.
  - cbn [initContoursLoop].
    assert (Hlt : (l < length (edges m0))%nat) by (apply Hls; left; reflexivity).
    assert (Hlt1 : (l < length (edges m))%nat) by (rewrite (rf_len _ _ (ci_rel _ _ C)); assumption).
    unfold edgeP at 1. destruct (nth_error (edges m) l) as [o|] eqn:Eo; [|apply nth_error_None in Eo; lia]. cbn [bind].
    assert (EA : eAt m l = o) by (unfold eAt, tget; rewrite Eo; reflexivity).
    destruct o as [e|].
    2:{ destruct (IH m C) as (m' & R & C' & H); [intros; apply Hls; right; assumption|].
        exists m'. split; [assumption|]. split; [assumption|]. intros x Hx [[E|Hi]|Hl]; apply H; auto.
        exfalso. apply in_darts in Hx as [_ Hx]. apply Hx. rewrite <- E. apply (rf_live _ _ (ci_rel _ _ C)). assumption. }
    set (d := Z.of_nat l).
    assert (El : elab d = l) by apply elab_of_nat.
    assert (He0 : eAt m0 l <> None) by (rewrite <- (rf_live _ _ (ci_rel _ _ C)); congruence).
    assert (Hl0 : l <> 0%nat) by (intros ->; apply He0, V).
    assert (Hd : In d (darts m0)) by (apply in_darts; rewrite El; split; [unfold d; lia | assumption]).
    assert (Hd' : In (- d) (darts m0)) by (apply darts_opp; assumption).
    assert (Elf : lft m d = elf e /\ lft m (- d) = erf e).
    { unfold lft. rewrite elab_opp, El, EA. unfold e_lf, d. destruct (Z.ltb_spec 0 (Z.of_nat l)), (Z.ltb_spec 0 (- Z.of_nat l)); try lia; auto. }
    destruct Elf as [L1 L2].
    assert (S1 : exists m1, (match elf e with None => newFace m d | Some _ => Ok m end) = Ok m1 /\ CI m0 m1 /\
       lft m1 d <> None /\ (forall x, In x (darts m0) -> lft m x <> None -> lft m1 x <> None)).
    { destruct (elf e) as [q|] eqn:Eq.
      - exists m. split; [reflexivity|]. split; [assumption|]. split; [congruence | auto].
      - destruct (newFace_CI m0 m d V C Hd) as (m1 & R & H); [congruence|]. exists m1; auto. }
    destruct S1 as (m1 & -> & C1 & H1 & K1). cbn [bind].
    destruct (eAt m1 l) as [e1|] eqn:EA1.
    2:{ exfalso. apply He0. apply (rf_live _ _ (ci_rel _ _ C1)). assumption. }
    rewrite (deref_edge _ _ _ EA1). cbn [bind].
    assert (L3 : lft m1 (- d) = erf e1).
    { unfold lft. rewrite elab_opp, El, EA1. unfold e_lf, d. destruct (Z.ltb_spec 0 (- Z.of_nat l)); try lia; auto. }
    assert (S2 : exists m2, (match erf e1 with None => newFace m1 (- d) | Some _ => Ok m1 end) = Ok m2 /\ CI m0 m2 /\
       lft m2 (- d) <> None /\ (forall x, In x (darts m0) -> lft m1 x <> None -> lft m2 x <> None)).
    { destruct (erf e1) as [q|] eqn:Eq.
      - exists m1. split; [reflexivity|]. split; [assumption|]. split; [congruence | auto].
      - destruct (newFace_CI m0 m1 (- d) V C1 Hd') as (m2 & R & H); [congruence|]. exists m2; auto. }
    destruct S2 as (m2 & -> & C2 & H2 & K2). cbn [bind].
    destruct (IH m2 C2) as (m' & R & C' & H); [intros; apply Hls; right; assumption|].
    exists m'. split; [assumption|]. split; [assumption|]. intros x Hx [[E|Hi]|Hl]; apply H; auto; right.
    rewrite <- El in E. symmetry in E. apply elab_eq in E as [->| ->]; auto.
Qed.

Lemma initContours_spec m0 : SInv m0 -> faces m0 = [] -> (forall x, In x (darts m0) -> lft m0 x = None) ->
  exists m1, initContours m0 = Ok m1 /\ CI m0 m1 /\ (forall x, In x (darts m0) -> lft m1 x <> None).
Proof.
  intros V Hf Hn. unfold initContours, newFace. rewrite Hf. cbn [length Nat.eqb app bind].
  set (m1 := set_faceCount (set_faces m0 [Some (mkFace [] None 0)]) (faceCount m0 + 1)).
  assert (Hfc : faceCount m0 = 0) by (rewrite (sv_fc _ V), Hf; reflexivity).
  assert (C1 : CI m0 m1).
  { constructor.
    - constructor; try reflexivity. intros j. change (eAt m1 j) with (eAt m0 j). destruct (eAt m0 j); auto.
    - reflexivity.
    - cbn. intros l Hl. lia.
    - intros x l Hx E. change (lft m1 x) with (lft m0 x) in E. rewrite Hn in E; [discriminate | assumption].
    - cbn. lia. }
  destruct (initContoursLoop_CI m0 V (seq 0 (length (edges m1))) m1 C1) as (m' & R & C' & H).
  { intros l Hl. apply in_seq in Hl. change (edges m1) with (edges m0) in Hl. lia. }
  exists m'. split; [exact R|]. split; [assumption|]. intros x Hx. apply H; auto. left.
  apply in_seq. change (edges m1) with (edges m0). destruct (live_edge _ _ Hx) as (e & He). apply tget_lt in He. lia.
Qed.

Lemma CI_FI m0 m : SInv m0 -> CI m0 m -> (forall x, In x (darts m0) -> lft m x <> None) -> FIm m.
Proof.
  intros V C Hall. pose proof (ci_rel _ _ C) as R. pose proof (phi_perm m0 (sv_si _ V)) as HP.
  unfold FIm. rewrite (rf_darts _ _ R), (rf_phi _ _ R).
  assert (HF : forall l A, fanch m l = Some A -> (l = 0%nat /\ A = []) \/
     exists a, A = [a] /\ (0 < l < length (faces m))%nat /\ In a (darts m0) /\ forall x, In x (darts m0) -> (lft m x = Some l <-> reach (phi m0) a x)).
  { intros l A HA. unfold fanch in HA. destruct (fAt m l) as [f|] eqn:Ef; [|discriminate]. injection HA as <-.
    destruct l as [|l]; [left; rewrite (ci_f0 _ _ C) in Ef; injection Ef as <-; auto|right].
    pose proof (tget_lt _ _ _ Ef) as Hl. destruct (ci_faces _ _ C (S l)) as (a & E & K); [lia|].
    rewrite E in Ef. injection Ef as <-. exists a. split; [reflexivity|]. split; [lia | exact K]. }
  constructor.
  - intros d Hd. destruct (lft m d) as [l|] eqn:E; [|exfalso; apply (Hall d Hd E)].
    destruct (ci_faces _ _ C l (ci_lab _ _ C d l Hd E)) as (a & Ef & Ha & K).
    exists l, [a], a. split; [reflexivity|]. split; [unfold fanch; rewrite Ef; reflexivity|]. split; [left; reflexivity|].
    apply K; assumption.
  - intros l A a HA Ha. destruct (HF l A HA) as [[_ ->]|(b & -> & _ & Hb & K)]; [destruct Ha|].
    destruct Ha as [<-|[]]. split; [assumption|]. apply K; [assumption | apply reach_refl].
  - intros d Hd. destruct (lft m d) as [l|] eqn:E; [|exfalso; apply (Hall d Hd E)].
    destruct (ci_faces _ _ C l (ci_lab _ _ C d l Hd E)) as (a & Ef & Ha & K).
    apply K; [apply HP; assumption|]. apply reach_step_r. apply K; assumption.
  - intros l A HA. destruct (HF l A HA) as [[_ ->]|(b & -> & _)]; repeat constructor; simpl; tauto.
  - intros l A a b HA Ha Hb _. destruct (HF l A HA) as [[_ ->]|(c & -> & _)]; [destruct Ha|].
    destruct Ha as [<-|[]], Hb as [<-|[]]; reflexivity.
Qed.
