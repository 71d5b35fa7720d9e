(** What the constructor does to the anchors and degrees of the nodes and to the ends of the edges. *)
From Verif Require Import Base CellMap_Model CellMap_Spec CellMap_Init CellMap_Scan CellMap_Main CellMap_InitProofs CellSigma_Spec CellSigma_Proofs CellSigma_Results
  CellLink_Spec CellLink_Proofs CellLink_Main CellLink_Check CellFace_Spec CellStart_Spec CellStart_Walk CellStart_Ends.
From Coq Require Import Sorting.Sorted.
Local Open Scope Z_scope.

(** ** The pixels are visited row by row *)
Definition before (p q : Z * Z) : Prop := snd p < snd q \/ (snd p = snd q /\ fst p < fst q).
Lemma sorted_app {A} (R : A -> A -> Prop) l1 l2 : StronglySorted R l1 -> StronglySorted R l2 -> (forall a b, In a l1 -> In b l2 -> R a b) -> StronglySorted R (l1 ++ l2).
Proof.
  intros H1 H2 H. induction H1 as [|a l S IH F]; [exact H2|]. cbn. constructor; [apply IH; intros x y X Y; apply H; [right|]; assumption|].
  apply Forall_app. split; [exact F|]. apply Forall_forall. intros b B. apply H; [left; reflexivity|exact B].
Qed.
Lemma sorted_split {A} (R : A -> A -> Prop) l1 a l2 : StronglySorted R (l1 ++ a :: l2) -> forall b, In b l2 -> R a b.
Proof.
  induction l1 as [|h t IH]; cbn; intros H b B; inversion H as [|? ? S F]; subst; [|exact (IH S b B)]. rewrite Forall_forall in F. apply F, B.
Qed.
Lemma sorted_map {A B} (R : A -> A -> Prop) (Q : B -> B -> Prop) (f : A -> B) l : (forall a b, R a b -> Q (f a) (f b)) -> StronglySorted R l -> StronglySorted Q (map f l).
Proof.
  intros H S. induction S as [|a l S IH F]; cbn; constructor; auto. rewrite Forall_forall in F |- *. intros b B0. apply in_map_iff in B0. destruct B0 as (c & <- & C). apply H, F, C.
Qed.
Lemma seq_sorted n : forall s, StronglySorted lt (seq s n).
Proof. induction n as [|n IH]; intros s; cbn; constructor; auto. apply Forall_forall. intros b B. apply in_seq in B. lia. Qed.
Lemma upFrom_sorted a b : StronglySorted Z.lt (upFrom a b).
Proof. unfold upFrom. apply (sorted_map lt); [intros; lia|apply seq_sorted]. Qed.
Lemma rows_sorted xs ys : StronglySorted Z.lt xs -> StronglySorted Z.lt ys -> StronglySorted before (flat_map (fun y => map (fun x => (x, y)) xs) ys).
Proof.
  intros X Y. induction Y as [|y ys S IH F]; cbn; [constructor|]. apply sorted_app; auto.
  - apply (sorted_map Z.lt); [|exact X]. intros a b H. right. cbn. auto.
  - intros p q P Q. apply in_map_iff in P. destruct P as (x & <- & _). apply in_flat_map in Q. destruct Q as (y' & Y' & Q). apply in_map_iff in Q. destruct Q as (x' & <- & _).
    left. cbn. rewrite Forall_forall in F. apply F, Y'.
Qed.
Lemma left_first r done x y rest : rectPoints r = done ++ (x, y) :: rest -> inRect r (x - 1) y -> In (x - 1, y) done.
Proof.
  intros E I. apply rectPoints_in in I. rewrite E in I. apply in_app_or in I. destruct I as [I|[I|I]]; [exact I|injection I as I; lia|]. exfalso.
  assert (S : StronglySorted before (done ++ (x, y) :: rest)) by (rewrite <- E; apply rows_sorted; apply upFrom_sorted).
  destruct (sorted_split _ _ _ _ S _ I) as [H|[_ H]]; cbn in H; lia.
Qed.

(** ** What stays the same *)
Definition nview (n : ninfo) : bool * dart * Z := (initialized (ninf n), nanchor n, ndegree n).
Definition eview (e : einfo) : bool * dart * dart := (initialized (einf e), estart e, eend e).
Definition kept (m m' : cmap) : Prop := cinit m' = cinit m /\ map nview (cnodes m') = map nview (cnodes m) /\ map eview (cedges m') = map eview (cedges m).
Lemma kept_refl m : kept m m. Proof. split; [|split]; reflexivity. Qed.
Lemma kept_trans a b c : kept a b -> kept b c -> kept a c.
Proof. intros (A & B & C) (A' & B' & C'). split; [|split]; congruence. Qed.
Lemma kept_face m l f m' : updFace m l f = Ok m' -> kept m m' /\ cim m' = cim m.
Proof. unfold updFace. intros H. bnd H n E. bnd H v Ev. injection H as <-. split; [split; [|split]|]; reflexivity. Qed.
Lemma kept_edge m l g m' : updEdge m l (onEdge g) = Ok m' -> (forall c, clabel (g c) = clabel c) -> kept m m' /\ cim m' = cim m.
Proof.
  unfold updEdge. intros H Hg. bnd H n E. bnd H v Ev. injection H as <-. apply put_Ok in Ev. apply at_Ok in E. subst v. split; [|reflexivity]. split; [reflexivity|]. split; [reflexivity|]. cbn.
  apply (map_same_upd eview _ _ n); [apply E|]. unfold eview, onEdge, initialized. cbn. rewrite Hg. reflexivity.
Qed.
Lemma kept_node m l g m' : updNode m l (onNode g) = Ok m' -> (forall c, clabel (g c) = clabel c) -> kept m m' /\ cim m' = cim m.
Proof.
  unfold updNode. intros H Hg. bnd H n E. bnd H v Ev. injection H as <-. apply put_Ok in Ev. apply at_Ok in E. subst v. split; [|reflexivity]. split; [reflexivity|]. split; [|reflexivity]. cbn.
  apply (map_same_upd nview _ _ n); [apply E|]. unfold nview, onNode, initialized. cbn. rewrite Hg. reflexivity.
Qed.
Lemma view_nth {A B} (f : A -> B) v w l a : map f v = map f w -> nth_error v l = Some a -> exists b, nth_error w l = Some b /\ f b = f a.
Proof.
  intros E H. apply (map_nth_error f) in H. rewrite E in H. rewrite nth_error_map in H. destruct (nth_error w l) as [b|]; [|discriminate H]. injection H as H. exists b. auto.
Qed.
Lemma kept_node_at m m' l n : kept m m' -> nth_error (cnodes m') l = Some n -> exists n0, nth_error (cnodes m) l = Some n0 /\ initialized (ninf n0) = initialized (ninf n) /\ nanchor n0 = nanchor n /\ ndegree n0 = ndegree n.
Proof. intros (_ & K & _) H. destruct (view_nth nview _ _ _ _ K H) as (n0 & H0 & E). injection E as E1 E2 E3. exists n0. auto. Qed.
Lemma kept_sym m m' : kept m m' -> kept m' m.
Proof. intros (A & B & C). split; [|split]; auto. Qed.
Lemma kept_edge_at m m' l e : kept m m' -> nth_error (cedges m') l = Some e -> exists e0, nth_error (cedges m) l = Some e0 /\ initialized (einf e0) = initialized (einf e) /\ estart e0 = estart e /\ eend e0 = eend e.
Proof. intros (_ & _ & K) H. destruct (view_nth eview _ _ _ _ K H) as (n0 & H0 & E). injection E as E1 E2 E3. exists n0. auto. Qed.

Lemma around_image : forall f s a d s', initEdgesAround f s a d = Ok s' -> cim s' = cim s.
Proof.
  induction f as [|f IH]; intros s a d s' H; cbn [initEdgesAround] in H; [discriminate H|].
  bnd H l El. destruct (negb _); [discriminate H|]. bnd H e Ee. bnd H sa Ea. bnd H d' Ed. bnd H q Eqq.
  assert (cim sa = cim s) as Ca.
  { destruct (initialized (einf e)); [injection Ea as <-; reflexivity|]. bnd Ea o Eo. bnd Ea sb Eb. injection Ea as <-. unfold updEdge in Eb. bnd Eb x Ex. bnd Eb v Ev. injection Eb as <-. reflexivity. }
  destruct q; [injection H as <-; exact Ca|]. rewrite (IH _ _ _ _ H). exact Ca.
Qed.
Lemma edgesOf_image s i s' : initEdgesOf s i = Ok s' -> cim s' = cim s.
Proof.
  intros H. unfold initEdgesOf in H. bnd H n En. destruct (negb _); [injection H as <-; reflexivity|]. bnd H q Eqq. destruct q; [injection H as <-; reflexivity|]. exact (around_image _ _ _ _ _ H).
Qed.

Lemma make_fair im d a : framed im -> neat im -> joined im -> ringed im -> isPlace im d -> Z.odd (ddir d) = false -> makeDart im d = Ok a -> fair im (nodeOf im d) a /\ ((exists e, dartOfNode im (nodeOf im d) e) -> isDart im a).
Proof.
  intros Fr Ne Jo Ri P O H. pose proof P as (V & D & T & _). unfold makeDart in H. bnd H c Ec. destruct (negb _); [discriminate H|]. bnd H p Ep. destruct (ctypeEqb (ptype p) Vertex); [discriminate H|].
  bnd H d1 E1. assert (d1 = d) as ->.
  { unfold walkFuel in E1. cbn [diagonalLoop] in E1. unfold badDiagonalConfig, isDiagonal in E1. rewrite O in E1. cbn [bind] in E1. injection E1 as <-. reflexivity. }
  bnd H q Eqq. apply (neighbor_type im Fr d 0 q V) in Eqq. rewrite Eqq in H.
  assert (F : fair im (nodeOf im d) d). { split; [exact P|]. split; [reflexivity|]. intros L. split; [exact V|]. split; [exact D|]. split; [exact L|]. rewrite O. discriminate. }
  destruct (ctypeEqb (typeAt im d 0) Line) eqn:E.
  - injection H as <-. split; [exact F|]. intros _. apply F. apply CellSigma_Proofs.ctypeEqb_eq, E.
  - apply CellSigma_Proofs.ctypeEqb_ne in E. exact (careful_fair im Fr Ne Jo Ri _ d a F E H).
Qed.

Section Init.
Variable crackArea : img -> Z -> Z -> Z.
Variable outerRegions : img -> Z -> Z -> list Z.
Variable components : img -> (Z -> Z -> Z) * nat.
Variable im : img.
Hypothesis Wf : wfImg im.
Hypothesis Fr : framed im.
Hypothesis Cl : clean im.
Let Ne : neat im. Proof. apply Cl. Qed.
Let Jo : joined im. Proof. apply Cl. Qed.
Let Ri : ringed im. Proof. apply Cl. Qed.
Let Pl : plain im. Proof. apply Cl. Qed.
Let Ai : airy im. Proof. apply Cl. Qed.
Let Fi : filled im. Proof. apply Cl. Qed.
Let Sl : slim im. Proof. apply Cl. Qed.
Let Sm : smooth im. Proof. apply Cl. Qed.
Let Dr : drawn im. Proof. apply Cl. Qed.
Let Li : light im. Proof. apply Cl. Qed.
Let W1 : way 1. Proof. left. reflexivity. Qed.

(** ** The nodes *)
Lemma count_unique (P : dart -> Prop) ds n : NoDup ds -> (forall d, In d ds <-> P d) -> manyDarts P n -> Z.of_nat (length ds) = n.
Proof.
  intros N I (es & N' & I' & <-). f_equal. apply Nat.le_antisymm; apply NoDup_incl_length; auto; intros d H; [apply I', I, H|apply I, I', H].
Qed.
Lemma degree_is a r f : isDart im a -> (r < f)%nat -> (forall j, (0 < j < r)%nat -> sigmas im j a <> Ok a) -> (0 < r)%nat -> sigmas im r a = Ok a -> Z.of_nat r < 2 ^ 16 ->
  degreeLoop f im a a 0 = Ok (Z.of_nat r).
Proof.
  intros A Hf L Pr E B.
  assert (G : forall k f i d, (k + i = r)%nat -> (0 < k)%nat -> (k < f)%nat -> sigmas im i a = Ok d -> degreeLoop f im a d (Z.of_nat i) = Ok (Z.of_nat r)).
  { clear f Hf. induction k as [|k IH]; intros f i d K Kp Hf Sd; [lia|]. destruct f as [|f]; [lia|]. cbn [degreeLoop].
    destruct (sigmas_ok im Fr Ne Jo i a A) as (d0 & S0 & D0 & _). assert (d0 = d) by congruence. subst d0.
    destruct (sigma_defined im Fr Ne 1 d W1 D0) as (x & U & V & _). unfold nextSigma. rewrite U. cbn [bind].
    assert (Dx : isDart im x) by apply V. unfold dartEq. rewrite singular_dart by auto. cbn [bind negb].
    assert (Sx : sigmas im (Datatypes.S i) a = Ok x).
    { replace (Datatypes.S i) with (i + 1)%nat by lia. rewrite (sigmas_add im i 1 a d Sd). cbn [sigmas]. unfold nextSigma. rewrite U. reflexivity. }
    replace ((Z.of_nat i + 1) mod 2 ^ 16) with (Z.of_nat (Datatypes.S i)) by (rewrite Z.mod_small; lia).
    destruct (Nat.eq_dec k 0) as [->|Kz].
    - replace (Datatypes.S i) with r in * by lia. assert (x = a) by congruence. subst x. unfold dartEqb. rewrite !Z.eqb_refl. reflexivity.
    - destruct (dartEqb x a) eqn:Q.
      + apply dart_ext in Q; [|apply Dx|apply A]. subst x. exfalso. apply (L (Datatypes.S i)); auto. lia.
      + apply IH; auto; lia. }
  apply (G r f O a); auto; lia.
Qed.
Lemma first_hub d a g : isPlace im d -> Z.odd (ddir d) = false -> makeDart im d = Ok a ->
  (s <- isSingular im a ;; if s : bool then Ok 0 else degreeLoop (walkFuel im) im a a 0) = Ok g -> hub im (nodeOf im d) a g.
Proof.
  intros P O M H. destruct (make_fair im d a Fr Ne Jo Ri P O M) as (F & X). rewrite (fair_single im Fr _ _ F) in H. cbn [bind] in H. pose proof F as (Pa & Na & Q). destruct (Li (nodeOf im d)) as (n & Rn & Mn).
  destruct (ctypeEqb (typeAt im a 0) Line) eqn:E; cbn [negb] in H.
  - apply CellSigma_Proofs.ctypeEqb_eq in E. specialize (Q E). destruct (sigma_turn im Fr Ne Jo Ri a Q) as (r & ds & Pr & Er & Lr & Ld & Nd & Id). rewrite Na in Id.
    pose proof (count_unique _ _ _ Nd Id Mn) as C. rewrite Ld in C. assert (r < walkFuel im)%nat as Fu.
    { rewrite <- Ld. apply (turn_fuel im); auto; [intros e Ie; apply Id in Ie; apply Ie|]. intros ->. cbn in Ld. lia. }
    rewrite (degree_is a r (walkFuel im)) in H by (auto; lia). injection H as <-. split; [lia|]. split; [rewrite C; exact Mn|]. split; [exact Pa|]. split; [exact Na|]. split; [intros _; exact Q|lia].
  - apply CellSigma_Proofs.ctypeEqb_ne in E. injection H as <-. assert (n = 0) as ->.
    { destruct (Z.eq_dec n 0) as [->|Nn]; [reflexivity|]. exfalso. destruct (many_some _ _ Mn ltac:(lia)) as (e & De). apply E. apply X. exists e. exact De. }
    split; [lia|]. split; [exact Mn|]. split; [exact Pa|]. split; [exact Na|]. split; [lia|intros _; exact E].
Qed.

Definition hubs (m : cmap) : Prop := forall l n, nth_error (cnodes m) l = Some n -> initialized (ninf n) = true -> hub im (Z.of_nat l) (nanchor n) (ndegree n).
Definition met (m : cmap) (ps : list (Z * Z)) : Prop := forall x y, In (x, y) ps -> vertexAt im x y -> exists n, nth_error (cnodes m) (Z.to_nat (plabel (ipix im x y))) = Some n /\ initialized (ninf n) = true.
Lemma hubs_kept m m' : kept m m' -> hubs m -> hubs m'.
Proof. intros K H l n Hn I. destruct (kept_node_at _ _ _ _ K Hn) as (n0 & H0 & E1 & <- & <-). apply (H l n0 H0). congruence. Qed.
Lemma met_kept m m' ps : kept m m' -> met m ps -> met m' ps.
Proof. intros K H x y I V. destruct (H x y I V) as (n & Hn & In). destruct (kept_node_at _ _ _ _ (kept_sym _ _ K) Hn) as (n0 & H0 & E1 & _). exists n0. split; congruence. Qed.

Lemma node_pixel m areas x y st' done rest : cim m = im -> innerPoints im = done ++ (x, y) :: rest -> hubs m -> met m done -> initNodePix crackArea (m, areas) (x, y) = Ok st' ->
  cim (fst st') = im /\ cinit (fst st') = cinit m /\ cedges (fst st') = cedges m /\ hubs (fst st') /\ met (fst st') (done ++ [(x, y)]).
Proof.
  intros C E Hu Me H. unfold initNodePix in H. cbn [fst snd] in H. rewrite C in H. bnd H p Ep. apply readPix_Ok in Ep. destruct Ep as [[Ix Iy] ->].
  destruct (ctypeEqb (ptype (ipix im x y)) Vertex) eqn:Et; cbn [negb] in H.
  2: { injection H as <-. cbn [fst]. split; [exact C|]. split; [reflexivity|]. split; [reflexivity|]. split; [exact Hu|]. intros u v I V. apply in_app_or in I. destruct I as [I|[I|[]]]; [apply Me; assumption|].
       injection I as -> ->. apply CellSigma_Proofs.ctypeEqb_ne in Et. destruct V as (_ & _ & V). contradiction. }
  apply CellSigma_Proofs.ctypeEqb_eq in Et. assert (V : vertexAt im x y) by (split; [exact Ix|]; split; [exact Iy|exact Et]).
  set (l := plabel (ipix im x y)) in *. destruct (l <? Z.of_nat (length (cnodes m))); cbn [negb] in H; [|discriminate H]. bnd H n En. bnd H st1 E1. bnd H m2 E2. injection H as <-. cbn [fst].
  assert (G : cim (fst st1) = im /\ cinit (fst st1) = cinit m /\ cedges (fst st1) = cedges m /\ hubs (fst st1) /\ met (fst st1) (done ++ [(x, y)])).
  { apply at_Ok in En. destruct En as [L0 Hn]. destruct (initialized (ninf n)) eqn:I.
    - injection E1 as <-. cbn [fst]. split; [exact C|]. split; [reflexivity|]. split; [reflexivity|]. split; [exact Hu|]. intros u v Iu Vu. apply in_app_or in Iu. destruct Iu as [Iu|[Iu|[]]]; [apply Me; assumption|].
      injection Iu as <- <-. exists n. auto.
    - bnd E1 a Ea. assert (E1' : exists g, (s <- isSingular im a ;; if s : bool then Ok 0 else degreeLoop (walkFuel im) im a a 0) = Ok g /\ exists m1, updNode m l (fun n => NInfo (CInfo l (cbounds (ninf n)) (csize (ninf n))) a g) = Ok m1 /\ fst st1 = addCounts m1 1 0 0).
      { bnd E1 s Es. bnd E1 g Eg. bnd E1 m1 Em. bnd E1 ar Ear. injection E1 as <-. exists g. split; [rewrite Es; exact Eg|]. exists m1. split; [exact Em|reflexivity]. }
      destruct E1' as (g & Eg & m1 & Em & ->). unfold updNode in Em. bnd Em n' En'. apply at_Ok in En'. assert (n' = n) by (destruct En'; congruence). subst n'. bnd Em v Ev. injection Em as <-. apply put_Ok in Ev. subst v.
      cbn [addCounts setNodes cim cinit cedges].
      assert (P : isPlace im (Dart x y 4)).
      { split; [exact V|]. split; [cbn; lia|]. split; [|discriminate]. intros T. pose proof (vertex_inner im Fr x y V) as [VX VY]. rewrite type0 in T by (cbn; lia). cbn in T. replace (x + -1) with (x - 1) in T by lia. replace (y + 0) with y in T by lia.
        assert (V' : vertexAt im (x - 1) y) by (split; [lia|]; split; [lia|exact T]). pose proof (vertex_inner im Fr _ _ V') as [VX' _].
        assert (In (x - 1, y) done) as Id by (apply (left_first _ _ _ _ _ E); unfold inRect; cbn; lia).
        destruct (Me _ _ Id V') as (q & Hq & Iq). assert (owns im Vertex l (x - 1) y) as (_ & _ & O).
        { pose proof (Jo x y 4 l ltac:(lia) (vertex_owns im x y V)) as J. cbn in J. replace (x + -1) with (x - 1) in J by lia. replace (y + 0) with y in J by lia. exact (J V'). }
        rewrite O in Hq. cbn [plabel] in Hq. congruence. }
      pose proof (first_hub (Dart x y 4) a g P eq_refl Ea Eg) as Hb. change (nodeOf im (Dart x y 4)) with l in Hb.
      pose proof Wf as (_ & _ & _ & W4). specialize (W4 x y Ix Iy). fold l in W4.
      assert (LT : (Z.to_nat l < length (cnodes m))%nat) by (apply nth_error_Some; congruence).
      split; [exact C|]. split; [reflexivity|]. split; [reflexivity|]. split.
      + intros k q Hk Ik. cbn [addCounts setNodes cnodes] in Hk. rewrite nth_error_upd in Hk. destruct (Nat.eqb_spec (Z.to_nat l) k) as [<-|Nk]; [|apply (Hu k q Hk Ik)].
        destruct (_ <? _)%nat; [|discriminate Hk]. injection Hk as <-. cbn [nanchor ndegree]. rewrite Z2Nat.id by exact L0. exact Hb.
      + intros u v Iu Vu. cbn [addCounts setNodes cnodes]. destruct (Nat.eq_dec (Z.to_nat l) (Z.to_nat (plabel (ipix im u v)))) as [<-|Nk].
        * rewrite nth_error_upd_eq by exact LT. eexists. split; [reflexivity|]. apply initialized_iff. cbn. unfold maxLabel. lia.
        * rewrite nth_error_upd_neq by exact Nk. apply in_app_or in Iu. destruct Iu as [Iu|[Iu|[]]]; [apply Me; assumption|]. injection Iu as <- <-. exfalso. apply Nk. reflexivity. }
  destruct G as (G1 & G2 & G3 & G4 & G5). destruct (kept_node _ _ _ _ E2) as (K & KI); [reflexivity|].
  assert (cedges m2 = cedges (fst st1)) as Ke by (unfold updNode in E2; bnd E2 q Eqq; bnd E2 v Ev; injection E2 as <-; reflexivity).
  split; [congruence|]. split; [destruct K as (K1 & _); congruence|]. split; [congruence|]. split; [exact (hubs_kept _ _ K G4)|exact (met_kept _ _ _ K G5)].
Qed.

Lemma stuff_kept areas m i m' : stuffNode outerRegions areas m i = Ok m' -> kept m m' /\ cedges m' = cedges m.
Proof.
  unfold stuffNode. intros H. bnd H n En. destruct (negb _); [injection H as <-; split; [apply kept_refl|reflexivity]|]. bnd H area Ea. destruct (area =? _); [injection H as <-; split; [apply kept_refl|reflexivity]|].
  bnd H ax Eax. bnd H f Ef. pose proof H as H'. apply kept_node in H; [|reflexivity]. destruct H as [K _]. split; [exact K|]. unfold updNode in H'. bnd H' q Eqq. bnd H' v Ev. injection H' as <-. reflexivity.
Qed.

Lemma nodes_made m m' : cim m = im -> (forall l n, nth_error (cnodes m) l = Some n -> initialized (ninf n) = false) ->
  initNodeList crackArea outerRegions m = Ok m' -> cinit m' = cinit m /\ cedges m' = cedges m /\ hubs m' /\ met m' (innerPoints im).
Proof.
  intros C N H. unfold initNodeList in H. bnd H st Est. rewrite C in Est.
  assert (A : cim (fst st) = im /\ cinit (fst st) = cinit m /\ cedges (fst st) = cedges m /\ hubs (fst st) /\ met (fst st) (innerPoints im)).
  { refine (forEach_inv (initNodePix crackArea) (fun done s => cim (fst s) = im /\ cinit (fst s) = cinit m /\ cedges (fst s) = cedges m /\ hubs (fst s) /\ met (fst s) done) _ _ _ _ _ Est).
    - intros done [x y] rest [s ar] s' El (A1 & A2 & A3 & A4 & A5) Hs. cbn [fst] in *. destruct (node_pixel s ar x y s' done rest A1 El A4 A5 Hs) as (B1 & B2 & B3 & B4 & B5).
      split; [exact B1|]. split; [congruence|]. split; [congruence|]. auto.
    - split; [exact C|]. split; [reflexivity|]. split; [reflexivity|]. split; [intros l n Hn I; rewrite (N l n Hn) in I; discriminate I|intros x y []]. }
  destruct A as (A1 & A2 & A3 & A4 & A5).
  assert (K : kept (fst st) m' /\ cedges m' = cedges (fst st)).
  { refine (forEach_inv (stuffNode outerRegions (snd st)) (fun _ s => kept (fst st) s /\ cedges s = cedges (fst st)) _ _ _ _ _ H); [|split; [apply kept_refl|reflexivity]].
    intros done a rest s s' _ [K1 K2] Hs. destruct (stuff_kept _ _ _ _ Hs) as [K3 K4]. split; [exact (kept_trans _ _ _ K1 K3)|congruence]. }
  destruct K as [K Ke]. split; [destruct K as (K1 & _); congruence|]. split; [congruence|]. split; [exact (hubs_kept _ _ K A4)|exact (met_kept _ _ _ K A5)].
Qed.

(** ** The edges *)
Definition lined (m : cmap) : Prop := forall l e, nth_error (cedges m) l = Some e -> initialized (einf e) = true ->
  exists n, isDart im (estart e) /\ edgeOf im (estart e) = Z.of_nat l /\ lineTo im (estart e) n /\ eend e = far im n (estart e).
Definition hasEdge (m : cmap) (l : Z) : Prop := 0 <= l /\ exists e, nth_error (cedges m) (Z.to_nat l) = Some e /\ initialized (einf e) = true.
Definition edging (m m' : cmap) : Prop :=
  cim m' = im /\ cinit m' = false /\ cnodes m' = cnodes m /\ lined m' /\ forall l, hasEdge m l -> hasEdge m' l.

Lemma edges_around a : isDart im a -> forall f m d m', cim m = im -> cinit m = false -> lined m -> isDart im d -> initEdgesAround f m a d = Ok m' ->
  edging m m' /\ forall j x, sigmas im j d = Ok x -> (forall i, (0 < i <= j)%nat -> sigmas im i d <> Ok a) -> hasEdge m' (edgeOf im x).
Proof.
  intros Da. induction f as [|f IH]; intros m d m' C CI Ln D H; cbn [initEdgesAround] in H; [discriminate H|]. rewrite C in H.
  rewrite (edgeLabel_dart im Fr) in H by apply D. cbn [bind] in H. set (l := edgeOf im d) in *. destruct (l <? _); cbn [negb] in H; [|discriminate H].
  bnd H e Ee. bnd H m1 E1. bnd H d' Ed. bnd H q Eqq. pose proof Ee as Ee'. apply at_Ok in Ee'. destruct Ee' as [L0 He].
  assert (G : edging m m1 /\ hasEdge m1 l).
  { destruct (initialized (einf e)) eqn:I.
    - injection E1 as <-. split; [split; [exact C|]; split; [exact CI|]; split; [reflexivity|]; split; [exact Ln|auto]|]. split; [exact L0|]. exists e. auto.
    - bnd E1 o Eo. unfold nextAlpha in Eo. rewrite C, (singular_dart im Fr d D), CI in Eo. cbn [bind] in Eo. destruct (line_ends im Fr Sl Sm Pl d D) as (n & Lt & Bn). rewrite (jump_to im Fr Sl Sm d n D Lt Bn) in Eo. injection Eo as <-.
      bnd E1 m2 E2. injection E1 as <-. unfold updEdge in E2. rewrite Ee in E2. cbn [bind] in E2. bnd E2 v Ev. injection E2 as <-. apply put_Ok in Ev. subst v.
      assert (LT : (Z.to_nat l < length (cedges m))%nat) by (apply nth_error_Some; congruence).
      assert (NI : initialized (CInfo l (cbounds (einf e)) 0) = true).
      { apply initialized_iff. cbn. pose proof (dart_owns im Fr d D) as (OX & OY & _). pose proof Wf as (_ & _ & _ & W4). specialize (W4 _ _ OX OY). fold (edgeOf im d) in W4. unfold maxLabel. fold l in W4. lia. }
      split.
      + split; [exact C|]. split; [exact CI|]. split; [reflexivity|]. split.
        * intros k x Hk Ik. cbn [addCounts setEdges cedges] in Hk. rewrite nth_error_upd in Hk. destruct (Nat.eqb_spec (Z.to_nat l) k) as [<-|Nk]; [|exact (Ln k x Hk Ik)].
          destruct (_ <? _)%nat; [|discriminate Hk]. injection Hk as <-. cbn [estart eend]. exists n. split; [exact D|]. split; [rewrite Z2Nat.id by exact L0; reflexivity|]. split; [exact Lt|reflexivity].
        * intros k (K0 & x & Hx & Ix). split; [exact K0|]. cbn [addCounts setEdges cedges]. destruct (Nat.eq_dec (Z.to_nat l) (Z.to_nat k)) as [<-|Nk].
          -- rewrite nth_error_upd_eq by exact LT. eexists. split; [reflexivity|exact NI].
          -- rewrite nth_error_upd_neq by exact Nk. exists x. auto.
      + split; [exact L0|]. cbn [addCounts setEdges cedges]. rewrite nth_error_upd_eq by exact LT. eexists. split; [reflexivity|exact NI]. }
  destruct G as ((G1 & G2 & G3 & G4 & G5) & G6).
  destruct (sigma_defined im Fr Ne 1 d W1 D) as (x & U & V & _). unfold nextSigma in Ed. rewrite U in Ed. injection Ed as <-. pose proof (proj1 V) as Dx.
  unfold dartEq in Eqq. rewrite (singular_dart im Fr x Dx) in Eqq. cbn [bind negb] in Eqq. injection Eqq as <-.
  assert (Step : forall j, sigmas im (Datatypes.S j) d = sigmas im j x) by (intros j; cbn [sigmas]; unfold nextSigma; rewrite U; reflexivity).
  destruct (dartEqb x a) eqn:Q.
  - injection H as <-. apply dart_ext in Q; [|apply Dx|apply Da]. subst x. split; [split; [exact G1|]; split; [exact G2|]; split; [exact G3|]; split; [exact G4|exact G5]|].
    intros [|j] y Hy Nj; [injection Hy as <-; exact G6|]. exfalso. apply (Nj 1%nat); [lia|]. rewrite Step. reflexivity.
  - destruct (IH m1 x m' G1 G2 G4 Dx H) as ((B1 & B2 & B3 & B4 & B5) & B6). split; [split; [exact B1|]; split; [exact B2|]; split; [congruence|]; split; [exact B4|intros k Hk; apply B5, G5, Hk]|].
    intros [|j] y Hy Nj; [injection Hy as <-; apply B5, G6|]. rewrite Step in Hy. apply (B6 j y Hy). intros i Hi. rewrite <- Step. apply Nj. lia.
Qed.
Lemma orbit_short a e : isDart im a -> isDart im e -> nodeOf im e = nodeOf im a -> exists j, sigmas im j a = Ok e /\ forall i, (0 < i <= j)%nat -> sigmas im i a <> Ok a.
Proof.
  intros A E N. destruct (Ri a e (dart_place im a A) (dart_place im e E) (eq_sym N)) as (k & K). assert (Dk : isDart im (places k im 1 a)) by (rewrite K; exact E).
  destruct (sigmas_reach im Fr Ne k a A Dk) as (i & _ & _ & R). rewrite K in R. clear k K Dk. induction i as [i IH] using lt_wf_ind.
  destruct (Forall_dec (fun q => sigmas im q a <> Ok a) (fun q => match res_dec (sigmas im q a) (Ok a) with left H => right (fun N => N H) | right H => left H end) (seq 1 i)) as [F|F].
  - exists i. split; [exact R|]. intros q Hq. rewrite Forall_forall in F. apply F, in_seq. lia.
  - apply neg_Forall_Exists_neg in F; [|intros q; destruct (res_dec (sigmas im q a) (Ok a)); [right|left]; tauto]. apply Exists_exists in F. destruct F as (q & Hq & Eqq). apply in_seq in Hq.
    assert (Eqq' : sigmas im q a = Ok a) by (destruct (res_dec (sigmas im q a) (Ok a)); [assumption|contradiction]).
    apply (IH (i - q)%nat); [lia|]. rewrite <- R. replace i with (q + (i - q))%nat at 2 by lia. symmetry. apply sigmas_add, Eqq'.
Qed.
Lemma edges_of m i m' : cim m = im -> cinit m = false -> lined m -> hubs m -> initEdgesOf m i = Ok m' ->
  edging m m' /\ forall e n, nth_error (cnodes m) i = Some n -> initialized (ninf n) = true -> dartOfNode im (Z.of_nat i) e -> hasEdge m' (edgeOf im e).
Proof.
  intros C CI Ln Hu H. unfold initEdgesOf in H. bnd H n En. apply at_Ok in En. destruct En as [_ Hn]. rewrite Nat2Z.id in Hn.
  assert (Same : edging m m) by (split; [exact C|]; split; [exact CI|]; split; [reflexivity|]; split; [exact Ln|auto]).
  destruct (initialized (ninf n)) eqn:I; cbn [negb] in H.
  2: { injection H as <-. split; [exact Same|]. intros e n' Hn' I'. congruence. }
  destruct (Hu i n Hn I) as (Rg & Mg & P & No & Dg & Zg). rewrite C in H.
  assert (isSingular im (nanchor n) = Ok (negb (ctypeEqb (typeAt im (nanchor n) 0) Line))) as Es by (unfold isSingular; rewrite neighbor_read by (auto; apply P); reflexivity).
  rewrite Es in H. cbn [bind] in H. destruct (Z.eq_dec (ndegree n) 0) as [G0|G0].
  - specialize (Zg G0). apply CellSigma_Proofs.ctypeEqb_ne in Zg. rewrite Zg in H. cbn [negb] in H. injection H as <-. split; [exact Same|]. intros e n' _ _ De. exfalso. pose proof (many_in _ _ _ Mg De). lia.
  - specialize (Dg ltac:(lia)). assert (typeAt im (nanchor n) 0 = Line) as T by apply Dg. rewrite T in H. cbn [ctypeEqb negb] in H.
    destruct (edges_around (nanchor n) Dg _ _ _ _ C CI Ln Dg H) as (E1 & E2). split; [exact E1|]. intros e n' _ _ (De & Ne').
    destruct (orbit_short (nanchor n) e Dg De ltac:(congruence)) as (j & J1 & J2). exact (E2 j e J1 J2).
Qed.
Lemma edges_made m m' : cim m = im -> cinit m = false -> lined m -> hubs m -> met m (innerPoints im) -> initEdgeList m = Ok m' ->
  cim m' = im /\ cinit m' = false /\ cnodes m' = cnodes m /\ lined m' /\ forall d, isDart im d -> hasEdge m' (edgeOf im d).
Proof.
  intros C CI Ln Hu Me H. unfold initEdgeList in H.
  assert (G : edging m m' /\ forall i e n, In i (seq 0 (length (cnodes m))) -> nth_error (cnodes m) i = Some n -> initialized (ninf n) = true -> dartOfNode im (Z.of_nat i) e -> hasEdge m' (edgeOf im e)).
  { refine (forEach_inv initEdgesOf (fun done s => edging m s /\ forall i e n, In i done -> nth_error (cnodes m) i = Some n -> initialized (ninf n) = true -> dartOfNode im (Z.of_nat i) e -> hasEdge s (edgeOf im e)) _ _ _ _ _ H).
    - intros done i rest s s' _ ((A1 & A2 & A3 & A4 & A5) & A6) Hs. assert (Hus : hubs s) by (unfold hubs; rewrite A3; exact Hu).
      destruct (edges_of s i s' A1 A2 A4 Hus Hs) as ((B1 & B2 & B3 & B4 & B5) & B6). split; [split; [exact B1|]; split; [exact B2|]; split; [congruence|]; split; [exact B4|intros l Hl; apply B5, A5, Hl]|].
      intros k e n Ik Hk In De. apply in_app_or in Ik. destruct Ik as [Ik|[<-|[]]]; [apply B5, (A6 k e n Ik Hk In De)|]. rewrite <- A3 in Hk. exact (B6 e n Hk In De).
    - split; [split; [exact C|]; split; [exact CI|]; split; [reflexivity|]; split; [exact Ln|auto]|]. intros i e n []. }
  destruct G as ((G1 & G2 & G3 & G4 & _) & G6). split; [exact G1|]. split; [exact G2|]. split; [exact G3|]. split; [exact G4|]. intros d D. pose proof D as (V & _).
  destruct (Me (dcx d) (dcy d)) as (n & Hn & In); auto; [apply rectPoints_in; pose proof (vertex_inner im Fr _ _ V); unfold inRect; cbn; lia|].
  assert (0 <= nodeOf im d) as N0. { pose proof Wf as (_ & _ & _ & W4). destruct V as (VX & VY & _). apply (W4 _ _ VX VY). }
  apply (G6 (Z.to_nat (nodeOf im d)) d n); auto; [apply in_seq; split; [lia|]; cbn; apply nth_error_Some; unfold nodeOf; congruence|]. split; [exact D|]. rewrite Z2Nat.id by exact N0. reflexivity.
Qed.

(** ** The faces *)
Lemma push_kept m l a m' : pushAnchor m l a = Ok m' -> kept m m' /\ cim m' = cim m.
Proof. apply kept_face. Qed.
Definition keptI (m m' : cmap) : Prop := kept m m' /\ cim m' = cim m.
Lemma keptI_refl m : keptI m m. Proof. split; [apply kept_refl|reflexivity]. Qed.
Lemma keptI_trans a b c : keptI a b -> keptI b c -> keptI a c.
Proof. intros [A A'] [B B']. split; [exact (kept_trans _ _ _ A B)|congruence]. Qed.
Lemma keptI_counts m a b c : keptI m (addCounts m a b c). Proof. split; [split; [|split]|]; reflexivity. Qed.
Lemma inner_kept comp l x y st k st' : innerContour comp l x y st k = Ok st' -> keptI (fst st) (fst st').
Proof.
  unfold innerContour. intros H. destruct (insideImg _ _ _); cbn [negb] in H; [|discriminate]. destruct (_ =? 0); [injection H as <-; apply keptI_refl|].
  bnd H b Eb. destruct b; [injection H as <-; apply keptI_refl|]. bnd H done Ed. bnd H p Ep. bnd H a Ea. bnd H m1 E1. injection H as <-. exact (push_kept _ _ _ _ E1).
Qed.
Lemma face_kept comp st p st' : initFacePix comp st p = Ok st' -> keptI (fst st) (fst st').
Proof.
  unfold initFacePix. intros H. bnd H c Ec. destruct (ptype c); [| |injection H as <-; apply keptI_refl|injection H as <-; apply keptI_refl].
  - destruct (negb _); [discriminate H|]. bnd H f Ef. bnd H st1 E1. bnd H m' E2. injection H as <-. cbn [fst]. apply (keptI_trans _ (fst st1)); [|exact (kept_face _ _ _ _ E2)].
    destruct (initialized (finf f)).
    + refine (forEach_inv (innerContour comp _ _ _) (fun _ s => keptI (fst st) (fst s)) _ _ _ _ (keptI_refl _) E1).
      intros done a rest s s' _ S1 Hs. exact (keptI_trans _ _ _ S1 (inner_kept _ _ _ _ _ _ _ Hs)).
    + bnd E1 m1 Em. bnd E1 q Eqq. bnd E1 a Ea. bnd E1 m3 E3. injection E1 as <-. cbn [fst]. apply (keptI_trans _ m1); [exact (kept_face _ _ _ _ Em)|].
      apply (keptI_trans _ (addCounts m1 0 0 1)); [apply keptI_counts|exact (push_kept _ _ _ _ E3)].
  - bnd H m' E1. injection H as <-. apply (kept_edge _ _ _ _ E1). reflexivity.
Qed.
Lemma faces_kept m m' : initFaceList components m = Ok m' -> keptI m m'.
Proof.
  unfold initFaceList. intros H. bnd H m1 E1. bnd H a Ea. bnd H a' Ea'. bnd H m3 E3. bnd H done Ed. bnd H st Est. injection H as <-.
  apply (keptI_trans _ m1); [exact (kept_face _ _ _ _ E1)|]. apply (keptI_trans _ (addCounts m1 0 0 1)); [apply keptI_counts|]. apply (keptI_trans _ m3); [exact (push_kept _ _ _ _ E3)|].
  refine (forEach_inv (initFacePix _) (fun _ s => keptI m3 (fst s)) _ _ _ _ _ Est); [|apply keptI_refl]. intros dn p rest s s' _ S1 Hs. exact (keptI_trans _ _ _ S1 (face_kept _ _ _ _ Hs)).
Qed.

(** ** The map *)
Theorem import_faced m : import crackArea outerRegions components im = Ok m -> cim m = im -> faced m.
Proof.
  intros H CM. pose proof H as Him. unfold import in H. bnd H m1 E1. bnd H m2 E2. bnd H m3 E3. set (b := blank im _ _ _) in *.
  destruct (nodes_made b m1) as (A1 & A2 & A3 & A4); [reflexivity| |exact E1|].
  { intros l n Hn. unfold b, blank in Hn. cbn [cnodes] in Hn. apply nth_error_In, repeat_spec in Hn. subst n. reflexivity. }
  assert (L1 : lined m1).
  { intros l e He I. rewrite A2 in He. unfold b, blank in He. cbn [cedges] in He. apply nth_error_In, repeat_spec in He. subst e. discriminate I. }
  destruct (faces_kept m2 m3 E3) as (K3 & I3).
  assert (I2 : cim m2 = cim m1).
  { refine (forEach_inv initEdgesOf (fun _ s => cim s = cim m1) _ _ _ _ eq_refl E2). intros done i rest s s' _ C Hs. rewrite <- C. exact (edgesOf_image _ _ _ Hs). }
  assert (C1 : cim m1 = im). { injection H as <-. cbn [cim] in CM. congruence. }
  destruct (edges_made m1 m2 C1 A1 L1 A3 A4 E2) as (B1 & B2 & B3 & B4 & B5).
  assert (Nm : forall l n, nth_error (cnodes m) l = Some n -> initialized (ninf n) = true -> hub im (Z.of_nat l) (nanchor n) (ndegree n)).
  { injection H as <-. cbn [cnodes]. apply (hubs_kept _ _ K3). unfold hubs. rewrite B3. exact A3. }
  assert (Em : forall l e, nth_error (cedges m) l = Some e -> initialized (einf e) = true ->
    exists n, isDart im (estart e) /\ edgeOf im (estart e) = Z.of_nat l /\ lineTo im (estart e) n /\ eend e = far im n (estart e)).
  { injection H as <-. cbn [cedges]. intros l e He Ie. destruct (kept_edge_at _ _ _ _ K3 He) as (e0 & H0 & X1 & <- & <-). apply (B4 l e0 H0). congruence. }
  assert (Li' : forall l x y, owns im Line l x y -> exists c, isCell m Line (Z.to_nat l) c).
  { intros l x y O. destruct (proj2 (proj2 Dr) l x y O) as (d & D & El). destruct (B5 d D) as (L0 & e & He & Ie). rewrite El in He. destruct (kept_edge_at _ _ _ _ (kept_sym _ _ K3) He) as (e0 & H0 & X1 & _).
    exists (einf e0). injection H as <-. split; [cbn [cellsOf cedges]; apply map_nth_error, H0|congruence]. }
  assert (So : sound m). { apply (import_right crackArea outerRegions components im m Wf Fr Him). rewrite CM. exact Li'. }
  split; [|rewrite CM; split; [exact Pl|]; split; [exact Ai|]; split; [exact Fi|]].
  - split; [injection H as <-; reflexivity|]. split; [split; [exact So|]; rewrite CM; auto|]. rewrite CM. split; [exact Ri|]. split; [apply Cl|]. split; [|exact Nm].
    intros l e He Ie. destruct (Em l e He Ie) as (n & D & El & Lt & ->). rewrite <- El. apply two_ends; auto.
  - intros l e (He & Ie). destruct (Em l e He Ie) as (n & D & El & Lt & ->). split; [apply line_facing; auto|]. rewrite <- El. apply (line_bordered im Fr Sl Sm Fi (estart e) n); auto.
Qed.
End Init.
