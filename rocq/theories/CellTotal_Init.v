(** C76: the constructor of the pixel based map returns. *)
From Coq Require Import Lia.
From Verif Require Import Base CellMap_Model CellMap_Spec CellMap_Init CellMap_Proofs CellMap_Main CellMap_InitProofs CellSigma_Spec CellSigma_Proofs CellSigma_Results CellLink_Spec CellLink_Proofs CellLink_Main CellLink_Check
  CellFace_Spec CellFace_Walk CellStart_Spec CellStart_Walk CellStart_Ends CellStart_Init CellContour_View CellCall_Base CellCall_Careful CellTotal_Anchor CellTotal_Spec.
From Coq Require Import Sorting.Sorted.
Local Open Scope Z_scope.

Lemma forEach_total {A S} (f : S -> A -> res S) (I : list A -> S -> Prop) (l : list A) :
  (forall done a rest s, l = done ++ a :: rest -> I done s -> exists s', f s a = Ok s' /\ I (done ++ [a]) s') -> forall s, I [] s -> exists s', forEach f l s = Ok s' /\ I l s'.
Proof.
  intros Hs. assert (K : forall t done s, l = done ++ t -> I done s -> exists s', forEach f t s = Ok s' /\ I l s').
  { induction t as [|a t IH]; intros done s E Hi; cbn [forEach].
    - exists s. split; [reflexivity|]. rewrite app_nil_r in E. subst done. exact Hi.
    - destruct (Hs done a t s E Hi) as (s1 & E1 & I1). rewrite E1. cbn [bind]. apply (IH (done ++ [a]) s1); auto. rewrite <- app_assoc. exact E. }
  intros s Hi. exact (K l [] s eq_refl Hi).
Qed.
Lemma prior_in r done p rest q : rectPoints r = done ++ p :: rest -> inRect r (fst q) (snd q) -> before q p -> In q done.
Proof.
  intros E I B. destruct q as [u v]. apply rectPoints_in in I. rewrite E in I. apply in_app_or in I. destruct I as [I|[I|I]]; [exact I|subst p; unfold before in B; cbn in B; lia|]. exfalso.
  assert (S : StronglySorted before (done ++ p :: rest)) by (rewrite <- E; apply rows_sorted; apply upFrom_sorted).
  destruct (sorted_split _ _ _ _ S _ I) as [H|[H1 H2]]; unfold before in B; cbn in *; lia.
Qed.
Lemma read_total im x y : 0 <= x < iw im -> 0 <= y < ih im -> readPix im x y = Ok (ipix im x y).
Proof. intros X Y. unfold readPix, insideImg. destruct (Z.leb_spec 0 x), (Z.leb_spec 0 y), (Z.ltb_spec x (iw im)), (Z.ltb_spec y (ih im)); try lia. reflexivity. Qed.
Lemma label_max im t x y : 0 <= x < iw im -> 0 <= y < ih im -> ptype (ipix im x y) = t -> plabel (ipix im x y) <= maxLabelOf im t.
Proof.
  intros X Y T. unfold maxLabelOf.
  assert (G : forall l a, let r := fold_left (fun a p => let c := ipix im (fst p) (snd p) in if ctypeEqb (ptype c) t then Z.max a (plabel c) else a) l a in
    a <= r /\ forall u v, In (u, v) l -> ptype (ipix im u v) = t -> plabel (ipix im u v) <= r).
  { induction l as [|[u v] l IH]; intros a; cbv zeta; cbn [fold_left]; [split; [lia|intros ? ? []]|]. cbn [fst snd]. cbv zeta in IH.
    destruct (IH (if ctypeEqb (ptype (ipix im u v)) t then Z.max a (plabel (ipix im u v)) else a)) as [I1 I2]. destruct (ctypeEqb (ptype (ipix im u v)) t) eqn:E.
    - split; [lia|]. intros p q [I|I] Tq; [injection I as <- <-; lia|auto].
    - split; [lia|]. intros p q [I|I] Tq; [injection I as <- <-; apply CellSigma_Proofs.ctypeEqb_ne in E; contradiction|auto]. }
  apply (proj2 (G (allPoints im) 0)); auto. apply rectPoints_in. unfold inRect. cbn. lia.
Qed.

Section Total.
Variable crackArea : img -> Z -> Z -> Z.
Variable outerRegions : img -> Z -> Z -> list Z.
Variable components : img -> (Z -> Z -> Z) * nat.
Variable im : img.
Hypothesis Wf : wfImg im.
Hypothesis Fr : framed im.
Hypothesis Cl : clean im.
Hypothesis Ra : rightAreas crackArea im.
Let Ne : neat im. Proof. apply Cl. Qed.
Let Jo : joined im. Proof. apply Cl. Qed.
Let Ri : ringed im. Proof. apply Cl. Qed.
Let Pl : plain im. Proof. apply Cl. Qed.
Let Ai : airy im. Proof. apply Cl. Qed.
Let Fi : filled im. Proof. apply Cl. Qed.
Let Sl : slim im. Proof. apply Cl. Qed.
Let Sm : smooth im. Proof. apply Cl. Qed.
Let Dr : drawn im. Proof. apply Cl. Qed.
Let Li : light im. Proof. apply Cl. Qed.
Let W1 : way 1. Proof. left. reflexivity. Qed.

(** ** The nodes *)
Definition measured (m : cmap) (areas : list Z) : Prop := forall l n, nth_error (cnodes m) l = Some n -> initialized (ninf n) = true ->
  exists a, nth_error areas l = Some a /\ manyPixels (owns im Vertex (Z.of_nat l)) a.
Definition roomy (m : cmap) : Prop := forall t, t <> ErrorType -> maxLabelOf im t < Z.of_nat (length (cellsOf m t)).
Lemma roomy_here m t l x y : roomy m -> t <> ErrorType -> owns im t l x y -> here m t l.
Proof.
  intros R T (X & Y & E). pose proof Wf as (_ & _ & _ & W4). specialize (W4 x y X Y). pose proof (label_max im t x y X Y) as L. rewrite E in L, W4. cbn in L, W4. specialize (L eq_refl). specialize (R t T). unfold here. lia.
Qed.
Lemma roomy_sized m m' : sized m m' -> roomy m -> roomy m'.
Proof. intros S R t T. rewrite S. apply R, T. Qed.
Lemma sized_counts m a b c : sized m (addCounts m a b c). Proof. intros t. destruct t; reflexivity. Qed.
Lemma put_length {A} (v w : list A) l a : put v l a = Ok w -> length w = length v /\ 0 <= l /\ (Z.to_nat l < length v)%nat /\ w = list_upd v (Z.to_nat l) a.
Proof.
  intros H. pose proof (put_Ok _ _ _ _ H) as E. unfold put in H. destruct ((0 <=? l) && (l <? Z.of_nat (length v)))%bool eqn:Q; [|discriminate H]. apply andb_true_iff in Q. destruct Q as [Q1 Q2].
  apply Z.leb_le in Q1. apply Z.ltb_lt in Q2. subst w. rewrite list_upd_length. split; [reflexivity|]. split; [exact Q1|]. split; [lia|reflexivity].
Qed.

Definition nodeInv (k : nat) (done : list (Z * Z)) (st : cmap * list Z) : Prop :=
  cim (fst st) = im /\ hubs im (fst st) /\ met im (fst st) done /\ roomy (fst st) /\ length (cnodes (fst st)) = k /\ length (snd st) = k /\ measured (fst st) (snd st).
Lemma node_pix_total k done p rest st : innerPoints im = done ++ p :: rest -> nodeInv k done st -> exists st', initNodePix crackArea st p = Ok st' /\ nodeInv k (done ++ [p]) st'.
Proof.
  intros E (C & Hu & Me & Ro & Lk & La & Ms). destruct p as [x y]. destruct st as [m areas]. cbn [fst snd] in *.
  assert (In0 : In (x, y) (innerPoints im)) by (rewrite E; apply in_or_app; right; left; reflexivity). apply rectPoints_in in In0. unfold inRect in In0. cbn in In0.
  enough (G : exists st', initNodePix crackArea (m, areas) (x, y) = Ok st' /\ roomy (fst st') /\ length (cnodes (fst st')) = k /\ length (snd st') = k /\ measured (fst st') (snd st')).
  { destruct G as (st' & H & G1 & G2 & G3 & G4). exists st'. split; [exact H|]. destruct (node_pixel crackArea im Wf Fr Cl m areas x y st' done rest C E Hu Me H) as (B1 & _ & _ & B4 & B5). unfold nodeInv. auto 8. }
  unfold initNodePix. cbn [fst snd]. rewrite C. rewrite read_total by lia. cbn [bind].
  destruct (ctypeEqb (ptype (ipix im x y)) Vertex) eqn:Et; cbn [negb]; [|exists (m, areas); cbn [fst snd]; auto].
  apply CellSigma_Proofs.ctypeEqb_eq in Et. assert (V : vertexAt im x y) by (split; [lia|]; split; [lia|exact Et]). pose proof (vertex_owns im x y V) as Ow.
  set (l := plabel (ipix im x y)) in *. pose proof (roomy_here m Vertex l x y Ro ltac:(discriminate) Ow) as H. pose proof H as H'. unfold here in H'. cbn [cellsOf] in H'. rewrite map_length in H'.
  destruct (Z.ltb_spec l (Z.of_nat (length (cnodes m)))) as [_|X]; [|lia]. cbn [negb]. destruct (at_total (cnodes m) l H') as (n & En). rewrite En. cbn [bind].
  assert (NL : l <> maxLabel) by (pose proof Wf as (_ & _ & _ & W4); specialize (W4 x y (proj1 V) (proj1 (proj2 V))); fold l in W4; unfold maxLabel; lia).
  pose proof En as En'. apply at_Ok in En'. destruct En' as [L0 Hn].
  assert (G : exists st1, (if initialized (ninf n) then Ok (m, areas) else
            a <- makeDart im (Dart x y 4) ;; s <- isSingular im a ;;
            deg <- (if s : bool then Ok 0 else degreeLoop (walkFuel im) im a a 0) ;;
            m1 <- updNode m l (fun n => NInfo (CInfo l (cbounds (ninf n)) (csize (ninf n))) a deg) ;;
            areas <- put areas l (crackArea im x y) ;;
            Ok (addCounts m1 1 0 0, areas)) = Ok st1 /\ sized m (fst st1) /\ length (cnodes (fst st1)) = k /\ length (snd st1) = k /\ measured (fst st1) (snd st1)).
  { destruct (initialized (ninf n)) eqn:I; [exists (m, areas); cbn [fst snd]; auto using sized_same|].
    (* the pixels before belong to other nodes *)
    assert (Ot : forall u v, owns im Vertex l u v -> ~ before (u, v) (x, y)).
    { intros u v Ou B. assert (Vu : vertexAt im u v) by (destruct Ou as (O1 & O2 & O3); split; [exact O1|]; split; [exact O2|]; rewrite O3; reflexivity). pose proof (vertex_inner im Fr u v Vu) as [VX VY].
      assert (Iu : In (u, v) done) by (apply (prior_in _ _ _ _ (u, v) E); [unfold inRect; cbn; lia|exact B]). destruct (Me u v Iu Vu) as (q & Hq & Iq). destruct Ou as (_ & _ & O3). rewrite O3 in Hq. cbn [plabel] in Hq. congruence. }
    assert (Oj : forall j, 0 <= j < 8 -> vertexAt im (x + dirX j) (y + dirY j) -> ~ before (x + dirX j, y + dirY j) (x, y)) by (intros j J Vj; apply Ot, (Jo x y j l J Ow Vj)).
    pose proof (vertex_inner im Fr x y V) as [VX VY].
    assert (P : isPlace im (Dart x y 4)).
    { split; [exact V|]. split; [cbn; lia|]. split; [|discriminate]. intros T. rewrite type0 in T by (cbn; lia). cbn [dcx dcy ddir] in T. apply (Oj 4); [lia| |unfold before; cbn; lia]. split; [cbn; lia|]. split; [cbn; lia|exact T]. }
    assert (No : noticed im (Dart x y 4)).
    { split; [reflexivity|]. intros _ T. unfold typeAt in T. cbn [dcx dcy ddir] in T. change ((4 + -1) mod 8) with 3 in T. apply (Oj 3); [lia| |unfold before; cbn; lia]. split; [cbn; lia|]. split; [cbn; lia|exact T]. }
    destruct (hub_total im Fr (Dart x y 4) P No) as (a & Ea). rewrite Ea. cbn [bind]. destruct (make_fair im (Dart x y 4) a Fr Ne Jo Ri P eq_refl Ea) as (Fa & _).
    destruct (degree_total im Fr Cl _ a Fa) as (g & Eg). destruct (isSingular im a) as [s| | |] eqn:Es; try discriminate Eg. cbn [bind] in Eg |- *. rewrite Eg. cbn [bind].
    match goal with |- context [updNode m l ?f] => set (fn := f) end. destruct (node_total m l fn H) as (m1 & Em & Sz & _). rewrite Em. cbn [bind].
    destruct (put_total areas l (crackArea im x y)) as (ar & Ear); [lia|]. rewrite Ear. cbn [bind]. eexists. split; [reflexivity|]. cbn [fst snd].
    destruct (put_length _ _ _ _ Ear) as (Ll & _ & Lt & ->). unfold updNode in Em. rewrite En in Em. cbn [bind] in Em. bnd Em v Ev. injection Em as <-. destruct (put_length _ _ _ _ Ev) as (Lv & _ & Lv2 & ->).
    split; [exact Sz|]. split; [cbn [addCounts setNodes cnodes]; lia|]. split; [lia|]. intros i q Hq Iq. cbn [addCounts setNodes cnodes] in Hq. destruct (Nat.eq_dec (Z.to_nat l) i) as [<-|Ni].
    - exists (crackArea im x y). split; [apply nth_error_upd_eq; exact Lt|]. rewrite Z2Nat.id by exact L0. apply Ra. split; [exact Ow|]. intros u v Ou. specialize (Ot u v Ou). unfold before in Ot. cbn in Ot.
      destruct (Z.lt_trichotomy y v) as [?|[?|?]]; [left; lia| |exfalso; apply Ot; left; lia]. right. split; [lia|]. destruct (Z.le_gt_cases x u); [lia|]. exfalso. apply Ot. right. lia.
    - rewrite nth_error_upd_neq in Hq by exact Ni. rewrite nth_error_upd_neq by exact Ni. exact (Ms i q Hq Iq). }
  destruct G as (st1 & E1 & S1 & K1 & K2 & M1). rewrite E1. cbn [bind].
  destruct (node_total (fst st1) l (onNode (addPixel x y))) as (m2 & E2 & S2 & _). { apply (sized_here m); [exact S1|exact H]. } rewrite E2. cbn [bind].
  eexists. split; [reflexivity|]. cbn [fst snd]. destruct (kept_node _ _ _ _ E2) as (K & _); [reflexivity|].
  split; [apply (roomy_sized (fst st1)); [exact S2|apply (roomy_sized m); assumption]|]. split; [pose proof (S2 Vertex) as Q; cbn [cellsOf] in Q; rewrite !map_length in Q; lia|]. split; [exact K2|].
  intros i q Hq Iq. destruct (kept_node_at _ _ _ _ K Hq) as (n0 & H0 & X1 & _). apply (M1 i n0 H0). congruence.
Qed.
Lemma stuff_total areas m i : cim m = im -> nodesDone m -> measured m areas -> (i < length (cnodes m))%nat -> stuffNode outerRegions areas m i = Ok m.
Proof.
  intros C (_ & _ & _ & _ & Ex & _) Ms Li0. unfold stuffNode. destruct (at_total (cnodes m) (Z.of_nat i)) as (n & En); [lia|]. rewrite En. cbn [bind].
  destruct (initialized (ninf n)) eqn:I; cbn [negb]; [|reflexivity]. apply at_Ok in En. destruct En as [_ Hn]. rewrite Nat2Z.id in Hn.
  destruct (Ex i (ninf n)) as (E1 & _ & E3); [cbn [cellsOf]; apply map_nth_error, Hn|exact I|]. rewrite C in E3. rewrite E1. destruct (Ms i n Hn I) as (a & Ha & Ma).
  assert (at_ areas (Z.of_nat i) = Ok a) as -> by (apply at_Ok; split; [lia|rewrite Nat2Z.id; exact Ha]). cbn [bind]. rewrite (manyPixels_unique _ _ _ Ma E3), Z.eqb_refl. reflexivity.
Qed.
Lemma node_list_total m : cim m = im -> short m -> counted m -> phase im [] Vertex (cellsOf m Vertex) -> (forall l n, nth_error (cnodes m) l = Some n -> initialized (ninf n) = false) -> roomy m ->
  exists m', initNodeList crackArea outerRegions m = Ok m' /\ cim m' = im /\ sized m m'.
Proof.
  intros C SH CT PH Un Ro. unfold initNodeList. rewrite C.
  destruct (forEach_total (initNodePix crackArea) (nodeInv (length (cnodes m))) (innerPoints im)) with (s := (m, repeat 0 (length (cnodes m)))) as (st & Est & (C1 & _ & _ & _ & L1 & L2 & M1)).
  { intros done p rest st E I. exact (node_pix_total _ done p rest st E I). }
  { unfold nodeInv. cbn [fst snd]. split; [exact C|]. split; [intros l n Hn I; rewrite (Un l n Hn) in I; discriminate I|]. split; [intros x y []|]. split; [exact Ro|]. split; [reflexivity|]. split; [apply repeat_length|].
    intros l n Hn I; rewrite (Un l n Hn) in I; discriminate I. }
  rewrite Est. cbn [bind].
  assert (Nd : nodesDone (fst st) /\ forall u, u <> Vertex -> cellsOf (fst st) u = cellsOf m u).
  { rewrite <- C in Wf, Fr, PH, Est. destruct (nodes_loop crackArea _ _ _ Wf SH CT PH Est) as (A & B & Cc & D & E). split; [|exact E].
    split; [rewrite A; exact Wf|]. split; [rewrite A; exact Fr|]. split; [exact D|]. split; [exact Cc|]. rewrite A. split.
    - intros l c Hl I. apply (phase_exact crackArea outerRegions components _ _ _ Fr B l c Hl I). intros [? _]; discriminate.
    - intros l x y O. refine (phase_cell crackArea outerRegions components _ _ _ Fr B _ l x y O _); [discriminate | intros [? _]; discriminate]. }
  destruct Nd as [Nd Ou]. exists (fst st).
  destruct (forEach_total (stuffNode outerRegions (snd st)) (fun _ s => s = fst st) (seq 0 (length (cnodes (fst st))))) with (s := fst st) as (s' & Es & ->); [|reflexivity|].
  { intros done i rest s E ->. exists (fst st). split; [|reflexivity]. apply stuff_total; auto. assert (I : In i (seq 0 (length (cnodes (fst st))))) by (rewrite E; apply in_or_app; right; left; reflexivity). apply in_seq in I. lia. }
  split; [exact Es|]. split; [exact C1|]. intros t. destruct (ctype_dec t Vertex) as [->|N]; [cbn [cellsOf]; rewrite !map_length; exact L1|rewrite Ou by exact N; reflexivity].
Qed.

(** ** The edges *)
Lemma around_total a : isDart im a -> forall m, cim m = im -> cinit m = false -> roomy m -> exists m', initEdgesAround (walkFuel im) m a a = Ok m' /\ sized m m'.
Proof.
  intros A. destruct (sigma_turn im Fr Ne Jo Ri a A) as (r & ds & Pr & Er & Lr & Ld & Nd & Id).
  assert (r < walkFuel im)%nat as Fu. { rewrite <- Ld. apply (turn_fuel im); auto; [intros e Ie; apply Id in Ie; apply Ie|]. intros ->. cbn in Ld. lia. }
  assert (G : forall k f i d m, (k + i = r)%nat -> (0 < k)%nat -> (k < f)%nat -> sigmas im i a = Ok d -> cim m = im -> cinit m = false -> roomy m -> exists m', initEdgesAround f m a d = Ok m' /\ sized m m').
  { induction k as [|k IH]; intros f i d m K Kp Hf Sd C CI Ro; [lia|]. destruct f as [|f]; [lia|]. cbn [initEdgesAround]. rewrite C.
    destruct (sigmas_ok im Fr Ne Jo i a A) as (d0 & S0 & D0 & _). assert (d0 = d) by congruence. subst d0.
    rewrite (edgeLabel_dart im Fr) by apply D0. cbn [bind]. pose proof (roomy_here m Line _ _ _ Ro ltac:(discriminate) (dart_owns im Fr d D0)) as H. set (l := edgeOf im d) in *.
    pose proof H as H'. unfold here in H'. cbn [cellsOf] in H'. rewrite map_length in H'. destruct (Z.ltb_spec l (Z.of_nat (length (cedges m)))) as [_|X]; [|lia]. cbn [negb].
    destruct (at_total (cedges m) l H') as (e & Ee). rewrite Ee. cbn [bind].
    assert (Q : exists m1, (if initialized (einf e) then Ok m else o <- nextAlpha m d ;; m1 <- updEdge m l (fun e => EInfo (CInfo l (cbounds (einf e)) 0) d o) ;; Ok (addCounts m1 0 1 0)) = Ok m1 /\ sized m m1 /\ cim m1 = im /\ cinit m1 = false).
    { destruct (initialized (einf e)); [exists m; split; [reflexivity|]; split; [apply sized_same; reflexivity|auto]|]. unfold nextAlpha. rewrite C, (singular_dart im Fr d D0), CI. cbn [bind].
      destruct (line_ends im Fr Sl Sm Pl d D0) as (n & Lt & Bn). rewrite (jump_to im Fr Sl Sm d n D0 Lt Bn). cbn [bind].
      match goal with |- context [updEdge m l ?g] => set (fn := g) end. destruct (edge_total m l fn H) as (m1 & Em & Sz & Ci). rewrite Em. cbn [bind]. eexists. split; [reflexivity|]. split; [exact Sz|]. split; [cbn; congruence|].
      unfold updEdge in Em. rewrite Ee in Em. cbn [bind] in Em. bnd Em v Ev. injection Em as <-. exact CI. }
    destruct Q as (m1 & -> & S1 & C1 & CI1). cbn [bind].
    destruct (sigma_defined im Fr Ne 1 d W1 D0) as (x & U & V & _). unfold nextSigma. rewrite U. cbn [bind].
    assert (Dx : isDart im x) by apply V. unfold dartEq. rewrite singular_dart by auto. cbn [bind negb].
    assert (Sx : sigmas im (Datatypes.S i) a = Ok x).
    { replace (Datatypes.S i) with (i + 1)%nat by lia. rewrite (sigmas_add im i 1 a d Sd). cbn [sigmas]. unfold nextSigma. rewrite U. reflexivity. }
    destruct (dartEqb x a) eqn:Qx; [exists m1; auto|]. destruct (Nat.eq_dec k 0) as [->|Kz].
    - exfalso. replace (Datatypes.S i) with r in * by lia. assert (x = a) by congruence. subst x. unfold dartEqb in Qx. rewrite !Z.eqb_refl in Qx. discriminate Qx.
    - destruct (IH f (Datatypes.S i) x m1) as (m' & E' & S'); auto; try lia; [apply (roomy_sized m); assumption|]. exists m'. split; [exact E'|exact (sized_trans _ _ _ S1 S')]. }
  intros m C CI Ro. apply (G r (walkFuel im) O a m); auto; lia.
Qed.
Lemma edge_list_total m : cim m = im -> cinit m = false -> lined im m -> hubs im m -> roomy m -> exists m', initEdgeList m = Ok m' /\ sized m m'.
Proof.
  intros C CI Ln Hu Ro. unfold initEdgeList.
  destruct (forEach_total initEdgesOf (fun _ s => edging im m s /\ sized m s) (seq 0 (length (cnodes m)))) with (s := m) as (m' & E & (_ & S)).
  3: { exists m'. split; [exact E|exact S]. }
  2: { split; [split; [exact C|]; split; [exact CI|]; split; [reflexivity|]; split; [exact Ln|auto]|apply sized_same; reflexivity]. }
  intros done i rest s Es ((A1 & A2 & A3 & A4 & A5) & A6). assert (Hus : hubs im s) by (unfold hubs; rewrite A3; exact Hu). pose proof (roomy_sized _ _ A6 Ro) as Ros.
  assert (Ii : (i < length (cnodes m))%nat). { assert (I : In i (seq 0 (length (cnodes m)))) by (rewrite Es; apply in_or_app; right; left; reflexivity). apply in_seq in I. lia. }
  enough (G : exists s', initEdgesOf s i = Ok s' /\ sized s s').
  { destruct G as (s' & Hs & Sz). exists s'. split; [exact Hs|]. split; [|exact (sized_trans _ _ _ A6 Sz)]. destruct (edges_of crackArea outerRegions components im Wf Fr Cl s i s' A1 A2 A4 Hus Hs) as ((B1 & B2 & B3 & B4 & B5) & _).
    split; [exact B1|]. split; [exact B2|]. split; [congruence|]. split; [exact B4|intros l Hl; apply B5, A5, Hl]. }
  unfold initEdgesOf. rewrite A3. destruct (at_total (cnodes m) (Z.of_nat i)) as (n & En); [lia|]. rewrite En. cbn [bind]. apply at_Ok in En. destruct En as [_ Hn]. rewrite Nat2Z.id in Hn.
  destruct (initialized (ninf n)) eqn:I; cbn [negb]; [|exists s; split; [reflexivity|apply sized_same; reflexivity]]. destruct (Hu i n Hn I) as (Rg & Mg & P & No & Dg & Zg). rewrite A1.
  assert (isSingular im (nanchor n) = Ok (negb (ctypeEqb (typeAt im (nanchor n) 0) Line))) as Eq1 by (unfold isSingular; rewrite neighbor_read by (auto; apply P); reflexivity).
  rewrite Eq1. cbn [bind]. destruct (ctypeEqb (typeAt im (nanchor n) 0) Line) eqn:T; cbn [negb]; [|exists s; split; [reflexivity|apply sized_same; reflexivity]]. apply CellSigma_Proofs.ctypeEqb_eq in T.
  apply around_total; auto. apply Dg. destruct (Z.eq_dec (ndegree n) 0) as [Z0|]; [exfalso; exact (Zg Z0 T)|lia].
Qed.

(** ** The faces *)
Hypothesis Rp : rightParts components im.
Hypothesis Ru : ruled im.
Let comp := fst (components im).
Definition flag (fl : list bool) (i : Z) : Prop := nth_error fl (Z.to_nat i) = Some true.
(** the contours next to the pixels looked at *)
Definition passed (fl : list bool) (ps : list (Z * Z)) : Prop := forall u v, contour im u v -> v = 1 \/ In (u, v - 1) ps -> flag fl (comp u v).
Definition hasFace (m : cmap) (l : Z) : Prop := exists c, nth_error (cellsOf m Region) (Z.to_nat l) = Some c /\ initialized c = true.
Definition facesSeen (m : cmap) (ps : list (Z * Z)) : Prop := hasFace m 0 /\ forall l x y, In (x, y) ps -> owns im Region l x y -> hasFace m l.
(** what does not change while the faces are made *)
Definition ready (m : cmap) : Prop := cim m = im /\ cinit m = false /\ lined im m /\ (forall d, isDart im d -> hasEdge m (edgeOf im d)) /\ roomy m.

Lemma contour_inner x y : contour im x y -> 0 < x < iw im - 1 /\ 0 < y < ih im - 1.
Proof.
  intros (X & Y & T). destruct (Z.eq_dec x 0); [|destruct (Z.eq_dec x (iw im - 1)); [|destruct (Z.eq_dec y 0); [|destruct (Z.eq_dec y (ih im - 1)); [|lia]]]];
    (exfalso; apply T; rewrite (Fr x y X Y) by lia; reflexivity).
Qed.
Lemma vertex_or_line x y : contour im x y -> ptype (ipix im x y) <> Vertex -> lineAt im x y.
Proof. intros (X & Y & T) V. split; [exact X|]. split; [exact Y|]. pose proof (Pl x y X Y) as P. destruct (ptype (ipix im x y)); congruence. Qed.
Lemma contour_dec x y : 0 <= x < iw im -> 0 <= y < ih im -> {contour im x y} + {ptype (ipix im x y) = Region}.
Proof. intros X Y. destruct (ctype_dec (ptype (ipix im x y)) Region) as [E|E]; [right; exact E|left]. split; [exact X|]. split; [exact Y|exact E]. Qed.
Lemma ready_kept m m' : keptI m m' -> sized m m' -> ready m -> ready m'.
Proof.
  intros (K & I) S (C & CI & Ln & He & Ro). split; [congruence|]. split; [destruct K as (K1 & _); congruence|]. split; [|split; [|exact (roomy_sized _ _ S Ro)]].
  - intros l e Hl Ie. destruct (kept_edge_at _ _ _ _ K Hl) as (e0 & H0 & X1 & <- & <-). apply (Ln l e0 H0). congruence.
  - intros d D. destruct (He d D) as (L0 & e & Hl & Ie). split; [exact L0|]. destruct (kept_edge_at _ _ _ _ (kept_sym _ _ K) Hl) as (e0 & H0 & X1 & _). exists e0. split; [exact H0|congruence].
Qed.
Lemma push_total m l a : here m Region l -> exists m', pushAnchor m l a = Ok m' /\ sized m m' /\ cim m' = cim m.
Proof. intros H. apply (face_total m l _ H). Qed.
Lemma flag_range (fl : list bool) i : length fl = Datatypes.S (snd (components im)) -> 1 <= i <= Z.of_nat (snd (components im)) -> exists b, at_ fl i = Ok b.
Proof. intros L R. apply at_total. lia. Qed.
Lemma same_label k l x y : In k [0; 2; 4; 6] -> owns im Region l x y -> 0 <= x + dirX k < iw im -> 0 <= y + dirY k < ih im -> ptype (ipix im (x + dirX k) (y + dirY k)) = Region -> owns im Region l (x + dirX k) (y + dirY k).
Proof.
  intros K O X Y T. split; [exact X|]. split; [exact Y|]. pose proof (Fi x y k l K O X Y T) as Q. destruct (ipix im _ _). cbn in *. congruence.
Qed.

Lemma has_upd m l g m' : updFace m l (onFace g) = Ok m' -> (forall c, initialized c = true -> initialized (g c) = true) -> forall k, hasFace m k -> hasFace m' k.
Proof.
  unfold updFace. intros H G k (c & Hc & Ic). bnd H f Ef. bnd H v Ev. injection H as <-. destruct (put_length _ _ _ _ Ev) as (_ & _ & Lt & ->). apply at_Ok in Ef. destruct Ef as [_ Ef]. unfold hasFace. cbn [cellsOf setFaces cfaces] in *.
  rewrite map_upd. destruct (Nat.eq_dec (Z.to_nat l) (Z.to_nat k)) as [Ek|N]; [rewrite <- Ek in *|].
  - rewrite nth_error_upd_eq by (rewrite map_length; exact Lt). eexists. split; [reflexivity|]. cbn. apply G. rewrite nth_error_map, Ef in Hc. injection Hc as <-. exact Ic.
  - rewrite nth_error_upd_neq by exact N. eauto.
Qed.
Lemma has_set m l g m' : updFace m l (onFace g) = Ok m' -> (forall c, initialized (g c) = true) -> hasFace m' l.
Proof.
  unfold updFace. intros H G. bnd H f Ef. bnd H v Ev. injection H as <-. destruct (put_length _ _ _ _ Ev) as (_ & _ & Lt & ->). unfold hasFace. cbn [cellsOf setFaces cfaces].
  rewrite map_upd, nth_error_upd_eq by (rewrite map_length; exact Lt). eexists. split; [reflexivity|]. cbn. apply G.
Qed.
Lemma has_same m m' k : cellsOf m' Region = cellsOf m Region -> hasFace m k -> hasFace m' k.
Proof. unfold hasFace. intros ->. auto. Qed.
Lemma edge_faces m l f m' : updEdge m l f = Ok m' -> cellsOf m' Region = cellsOf m Region.
Proof. unfold updEdge. intros H. bnd H e E. bnd H v Ev. injection H as <-. reflexivity. Qed.

Lemma has_upd_back m l g m' : updFace m l (onFace g) = Ok m' -> (forall c, initialized (g c) = initialized c) -> forall k, hasFace m' k -> hasFace m k.
Proof.
  unfold updFace. intros H G k (c & Hc & Ic). bnd H f Ef. bnd H v Ev. injection H as <-. destruct (put_length _ _ _ _ Ev) as (_ & _ & Lt & ->). apply at_Ok in Ef. destruct Ef as [_ Ef]. unfold hasFace. cbn [cellsOf setFaces cfaces] in *.
  rewrite map_upd in Hc. destruct (Nat.eq_dec (Z.to_nat l) (Z.to_nat k)) as [Ek|N]; [rewrite <- Ek in *|].
  - rewrite nth_error_upd_eq in Hc by (rewrite map_length; exact Lt). injection Hc as <-. cbn in Ic. rewrite G in Ic. exists (finf f). split; [apply map_nth_error, Ef|exact Ic].
  - rewrite nth_error_upd_neq in Hc by exact N. eauto.
Qed.
Lemma has_other m l g m' : updFace m l (onFace g) = Ok m' -> forall k, Z.to_nat l <> Z.to_nat k -> hasFace m' k -> hasFace m k.
Proof.
  unfold updFace. intros H k N (c & Hc & Ic). bnd H f Ef. bnd H v Ev. injection H as <-. apply put_Ok in Ev. subst v. unfold hasFace. cbn [cellsOf setFaces cfaces] in *.
  rewrite map_upd, nth_error_upd_neq in Hc by exact N. eauto.
Qed.

(** *** The anchors that are listed *)
Definition compOf (a : dart) : Z := comp (dcx a) (dcy a).
(** a colouring of the faces and the contours; an anchor's face and contour have one colour *)
Definition told (w : Z -> Z -> bool) (m : cmap) : Prop :=
  (forall l x y u v, owns im Region l x y -> owns im Region l u v -> w x y = w u v) /\
  (forall x y u v, contour im x y -> contour im u v -> comp x y = comp u v -> w x y = w u v) /\
  (forall l cs a u v, nth_error (anchors m) l = Some cs -> In a cs -> owns im Region (Z.of_nat l) u v -> w u v = w (dcx a) (dcy a)).
(** the anchors of a face lie at its border, on different contours; and faces and contours seen hang together *)
Definition anch (m : cmap) (fl : list bool) : Prop :=
  (forall l cs, nth_error (anchors m) l = Some cs -> NoDup (map compOf cs) /\ forall a, In a cs -> hasFace m (Z.of_nat l) /\ fits im (Z.of_nat l) a /\ isPlace im a /\ flag fl (compOf a)) /\
  (forall w, told w m -> (forall l u v, 0 <= l -> hasFace m l -> owns im Region l u v -> w u v = w 0 0) /\ (forall u v, contour im u v -> flag fl (comp u v) -> w u v = w 0 0)).
Lemma anch_same m m' fl : anchors m' = anchors m -> (forall k, hasFace m' k <-> hasFace m k) -> anch m fl -> anch m' fl.
Proof.
  intros Ea Hf (A & B). split.
  - intros l cs Hl. rewrite Ea in Hl. destruct (A l cs Hl) as (N & Q). split; [exact N|]. intros a Ia. destruct (Q a Ia) as (Q1 & Q2). split; [apply Hf, Q1|exact Q2].
  - intros w Tw. destruct (B w) as (B1 & B2); [unfold told in *; rewrite Ea in Tw; exact Tw|]. split; [|exact B2]. intros l u v L0 Hl. apply B1; [exact L0|]. apply Hf, Hl.
Qed.
Lemma place_contour a : isPlace im a -> contour im (dcx a) (dcy a).
Proof. intros (V & _). destruct V as (X & Y & T). split; [exact X|]. split; [exact Y|]. rewrite T. discriminate. Qed.
Lemma anch_add m fl m' fl' l cs a x y : anch m fl -> nth_error (anchors m) (Z.to_nat l) = Some cs -> anchors m' = list_upd (anchors m) (Z.to_nat l) (cs ++ [a]) ->
  (forall k, 0 <= k -> hasFace m' k <-> hasFace m k \/ k = l) -> (forall u v, contour im u v -> flag fl' (comp u v) <-> flag fl (comp u v) \/ comp u v = compOf a) ->
  0 <= l -> owns im Region l x y -> fits im l a -> isPlace im a -> ~ In (compOf a) (map compOf cs) -> hasFace m l \/ flag fl (compOf a) \/ l = 0 -> anch m' fl'.
Proof.
  intros (A & B) Hl Ea Hf Hg L0 Ox Ft P N Or. pose proof (place_contour a P) as Ca.
  assert (Lt : (Z.to_nat l < length (anchors m))%nat) by (apply nth_error_Some; congruence).
  assert (Mo : forall b, isPlace im b -> flag fl (compOf b) -> flag fl' (compOf b)) by (intros b Pb Fb; apply (Hg _ _ (place_contour b Pb)); left; exact Fb).
  split.
  - intros l' cs' Hl'. rewrite Ea in Hl'. destruct (Nat.eq_dec (Z.to_nat l) l') as [Ek|Nk].
    + subst l'. rewrite nth_error_upd_eq in Hl' by exact Lt. injection Hl' as <-. destruct (A _ _ Hl) as (Nd & Q). rewrite Z2Nat.id in * by exact L0. split.
      * rewrite map_app. cbn [map]. clear - Nd N. induction (map compOf cs) as [|h t IH]; cbn; [constructor; [intros []|constructor]|].
        inversion Nd; subst. constructor; [intros I; apply in_app_or in I; destruct I as [I|[I|[]]]; [auto|subst; apply N; left; reflexivity]|apply IH; auto]. intros I. apply N. right. exact I.
      * intros b Ib. apply in_app_or in Ib. destruct Ib as [Ib|[<-|[]]].
        -- destruct (Q b Ib) as (Q1 & Q2 & Q3 & Q4). split; [apply Hf; auto|]. split; [exact Q2|]. split; [exact Q3|apply Mo; assumption].
        -- split; [apply Hf; auto|]. split; [exact Ft|]. split; [exact P|]. apply (Hg _ _ Ca). right. reflexivity.
    + rewrite nth_error_upd_neq in Hl' by exact Nk. destruct (A _ _ Hl') as (Nd & Q). split; [exact Nd|]. intros b Ib. destruct (Q b Ib) as (Q1 & Q2 & Q3 & Q4). split; [apply Hf; [lia|auto]|]. split; [exact Q2|]. split; [exact Q3|apply Mo; assumption].
  - intros w (T1 & T2 & T3). assert (Tm : told w m).
    { split; [exact T1|]. split; [exact T2|]. intros l' cs' b u v Hl' Ib Ou. destruct (Nat.eq_dec (Z.to_nat l) l') as [Ek|Nk].
      - subst l'. rewrite Hl in Hl'. injection Hl' as <-. apply (T3 (Z.to_nat l) (cs ++ [a])); [rewrite Ea; apply nth_error_upd_eq, Lt|apply in_or_app; left; exact Ib|exact Ou].
      - apply (T3 l' cs'); [rewrite Ea, nth_error_upd_neq by exact Nk; exact Hl'|exact Ib|exact Ou]. }
    destruct (B w Tm) as (B1 & B2).
    assert (Ta : forall u v, owns im Region l u v -> w u v = w (dcx a) (dcy a)).
    { intros u v Ou. apply (T3 (Z.to_nat l) (cs ++ [a])); [rewrite Ea; apply nth_error_upd_eq, Lt|apply in_or_app; right; left; reflexivity|]. rewrite Z2Nat.id by exact L0. exact Ou. }
    assert (O0 : owns im Region 0 0 0). { pose proof Wf as (W1' & W2' & _). split; [lia|]. split; [lia|]. apply Fr; lia. }
    assert (Wl : w x y = w 0 0 /\ w (dcx a) (dcy a) = w 0 0).
    { destruct Or as [Or|[Or| ->]].
      - pose proof (B1 l x y L0 Or Ox) as Q. split; [exact Q|]. rewrite <- (Ta x y Ox). exact Q.
      - pose proof (B2 _ _ Ca Or) as Q. split; [|exact Q]. rewrite (Ta x y Ox). exact Q.
      - pose proof (T1 0 x y 0 0 Ox O0) as Q. split; [exact Q|]. rewrite <- (Ta x y Ox). exact Q. }
    destruct Wl as [Wl Wa]. split.
    + intros k u v K0 Hk Ou. apply (Hf k K0) in Hk. destruct Hk as [Hk| ->]; [exact (B1 k u v K0 Hk Ou)|]. rewrite (T1 l u v x y Ou Ox). exact Wl.
    + intros u v Cu Fu. apply (Hg u v Cu) in Fu. destruct Fu as [Fu|Fu]; [exact (B2 u v Cu Fu)|]. rewrite (T2 u v _ _ Cu Ca Fu). exact Wa.
Qed.

(** *** Contours *)
Lemma step_comp x y k : 0 <= k < 8 -> contour im x y -> contour im (x + dirX k) (y + dirY k) -> comp (x + dirX k) (y + dirY k) = comp x y.
Proof. intros K A B. apply (proj2 (proj2 Rp)); assumption. Qed.
Lemma next_comp n a : way n -> isPlace im a -> compOf (placeNext im n a) = compOf a.
Proof.
  intros W P. pose proof (proj1 (place_next im Fr n a W P)) as P'. pose proof (place_contour _ P) as Ca. pose proof (place_contour _ P') as Cb. revert Cb. unfold compOf, placeNext. destruct (Z.odd (ddir a)); [reflexivity|].
  destruct (ctypeEqb (typeAt im a n) Vertex); [cbn [go dcx dcy]; intros Cb; apply step_comp; auto; apply Z.mod_pos_bound; lia|]. destruct (ctypeEqb (typeAt im a (2 * n)) Vertex); [cbn [go dcx dcy]; intros Cb; apply step_comp; auto; apply Z.mod_pos_bound; lia|reflexivity].
Qed.
Lemma places_comp k a : isPlace im a -> compOf (places k im 1 a) = compOf a.
Proof. revert a. induction k as [|k IH]; intros a P; cbn [places]; [reflexivity|]. rewrite IH by (apply place_next; auto). apply next_comp; auto. Qed.
Lemma node_comp a b : isPlace im a -> isPlace im b -> nodeOf im a = nodeOf im b -> compOf a = compOf b.
Proof. intros A B E. destruct (Ri a b A B E) as (k & <-). symmetry. apply places_comp, A. Qed.
Lemma line_contour x y : lineAt im x y -> contour im x y.
Proof. intros (X & Y & T). split; [exact X|]. split; [exact Y|]. rewrite T. discriminate. Qed.
Lemma along_comp x y u v : lineAt im x y -> along im x y u v -> lineAt im u v /\ comp u v = comp x y.
Proof.
  intros L A. induction A as [|u v k A (IL & IH) K L']; [auto|]. split; [exact L'|]. rewrite step_comp; [exact IH|apply K|apply line_contour, IL|apply line_contour, L'].
Qed.
Lemma dart_comp a : isDart im a -> contour im (dcx a + dirX (ddir a)) (dcy a + dirY (ddir a)) /\ comp (dcx a + dirX (ddir a)) (dcy a + dirY (ddir a)) = compOf a.
Proof.
  intros D. pose proof (dart_place im a D) as P. pose proof P as (V & K & _). destruct D as (_ & _ & T & _). unfold typeAt in T. rewrite Z.add_0_r, Z.mod_small in T by exact K.
  assert (C : contour im (dcx a + dirX (ddir a)) (dcy a + dirY (ddir a))).
  { pose proof (vertex_inner im Fr _ _ V). pose proof (dirX_bound (ddir a)). pose proof (dirY_bound (ddir a)). split; [lia|]. split; [lia|]. rewrite T. discriminate. }
  split; [exact C|]. apply step_comp; [exact K|apply place_contour, P|exact C].
Qed.
Lemma edge_comp a x y : isDart im a -> lineAt im x y -> edgeOf im a = plabel (ipix im x y) -> compOf a = comp x y.
Proof.
  intros D L E. destruct (dart_comp a D) as (C & <-). pose proof D as (V & K & T & _). unfold typeAt in T. rewrite Z.add_0_r, Z.mod_small in T by exact K. destruct C as (CX & CY & _).
  assert (O1 : owns im Line (plabel (ipix im x y)) x y) by (destruct L as (LX & LY & LT); split; [exact LX|]; split; [exact LY|]; destruct (ipix im x y); cbn in *; congruence).
  assert (O2 : owns im Line (plabel (ipix im x y)) (dcx a + dirX (ddir a)) (dcy a + dirY (ddir a))) by (split; [exact CX|]; split; [exact CY|]; unfold edgeOf in E; destruct (ipix im (dcx a + dirX (ddir a)) (dcy a + dirY (ddir a))); cbn in *; congruence).
  apply along_comp; [exact L|]. exact (proj1 (proj2 Dr) _ _ _ _ _ O1 O2).
Qed.
Lemma push_anchors m l a m' : pushAnchor m l a = Ok m' -> exists cs, nth_error (anchors m) (Z.to_nat l) = Some cs /\ anchors m' = list_upd (anchors m) (Z.to_nat l) (cs ++ [a]).
Proof.
  unfold pushAnchor, updFace. intros H. bnd H f Ef. bnd H v Ev. injection H as <-. apply put_Ok in Ev. subst v. apply at_Ok in Ef. destruct Ef as [_ Ef]. unfold anchors. cbn [cfaces setFaces]. rewrite map_upd.
  exists (fcontours f). split; [apply map_nth_error, Ef|reflexivity].
Qed.

(** the contour below a pixel, or right below it, is looked for where the pixels beside are regions *)
Lemma inner_total l x y m (fl : list bool) ps rest k : innerPoints im = ps ++ (x, y) :: rest -> ready m -> length fl = Datatypes.S (snd (components im)) -> passed fl ps ->
  anch m fl -> hasFace m l -> owns im Region l x y -> 0 <= k < 8 -> (k = 7 -> contour im x (y + 1) -> flag fl (comp x (y + 1))) ->
  exists m' fl', innerContour comp l x y (m, fl) k = Ok (m', fl') /\ ready m' /\ length fl' = length fl /\ (forall i, flag fl i -> flag fl' i) /\
    (contour im (x + dirX k) (y + dirY k) -> flag fl' (comp (x + dirX k) (y + dirY k))) /\ anch m' fl' /\ hasFace m' l.
Proof.
  intros E Re Lf Pa An Hl O K K7. pose proof Re as (C & CI & Ln & He & Ro). assert (In0 : In (x, y) (innerPoints im)) by (rewrite E; apply in_or_app; right; left; reflexivity). apply rectPoints_in in In0. unfold inRect in In0. cbn in In0.
  pose proof (dirX_bound k) as BX. pose proof (dirY_bound k) as BY. unfold innerContour. cbn [fst snd]. rewrite C.
  assert (insideImg im (x + dirX k) (y + dirY k) = true) as ->.
  { unfold insideImg. destruct (Z.leb_spec 0 (x + dirX k)), (Z.leb_spec 0 (y + dirY k)), (Z.ltb_spec (x + dirX k) (iw im)), (Z.ltb_spec (y + dirY k) (ih im)); first [reflexivity | lia]. }
  cbn [negb]. pose proof Rp as (R0 & R1 & R2). fold comp in R0, R1, R2.
  destruct (contour_dec (x + dirX k) (y + dirY k)) as [Ck|Tk]; [lia|lia| |].
  2: { rewrite R0 by (auto; lia). cbn. exists m, fl. split; [reflexivity|]. split; [exact Re|]. split; [reflexivity|]. split; [auto|]. split; [intros (_ & _ & T); contradiction|auto]. }
  pose proof (R1 _ _ Ck) as Rk. set (i := comp (x + dirX k) (y + dirY k)) in *. destruct (Z.eqb_spec i 0) as [?|_]; [lia|].
  destruct (flag_range fl i Lf Rk) as (b & Eb). rewrite Eb. cbn [bind]. apply at_Ok in Eb. destruct Eb as [_ Hb]. destruct b.
  { exists m, fl. split; [reflexivity|]. split; [exact Re|]. split; [reflexivity|]. split; [auto|]. split; [intros _; exact Hb|auto]. }
  destruct (put_total fl i true) as (fl' & Ef); [lia|]. rewrite Ef. cbn [bind]. destruct (put_length _ _ _ _ Ef) as (Lf' & _ & Lt & ->).
  rewrite read_total by (apply Ck). cbn [bind].
  assert (Nf : ~ flag fl i) by (unfold flag; congruence).
  (* pixels done before *)
  assert (Y2 : 2 <= y). { destruct (Z.eq_dec y 1) as [->|]; [|lia]. exfalso. destruct (proj2 Ru x) as (_ & _ & T); [lia|]. destruct O as (_ & _ & O). rewrite O in T. apply T. reflexivity. }
  assert (Pr : forall u v, contour im u v -> v < y \/ v = y \/ (v = y + 1 /\ u < x) -> flag fl (comp u v)).
  { intros u v Cu B. pose proof (contour_inner u v Cu) as [UX UY]. apply Pa; auto. destruct (Z.eq_dec v 1); [auto|right]. apply (prior_in _ _ _ _ (u, v - 1) E); [unfold inRect; cbn; lia|]. unfold before. cbn. lia. }
  (* the pixels beside a contour pixel belong to the same contour *)
  assert (Nb : forall j u v, 0 <= j < 8 -> u = x + dirX k + dirX j -> v = y + dirY k + dirY j -> v < y \/ v = y \/ (v = y + 1 /\ u < x) -> 0 <= u < iw im -> 0 <= v < ih im -> ptype (ipix im u v) = Region).
  { intros j u v J -> -> B U V. destruct (contour_dec _ _ U V) as [Cu|T]; [|exact T]. exfalso. apply Nf. unfold i. rewrite <- (R2 _ _ j J Ck Cu). apply Pr; auto. }
  assert (K67 : k = 6 \/ k = 7).
  { destruct (dir8 _ K) as [->|[->|[->|[->|[->|[->|[->| ->]]]]]]]; auto; exfalso; apply Nf; apply Pr; auto; cbn; lia. }
  pose proof O as (OX & OY & OP).
  assert (Ea : exists a, (if ctypeEqb (ptype (ipix im (x + dirX k) (y + dirY k))) Vertex then anchorAt m l (swapCenterNeighbor (Dart x y k)) else anchorOf m l (ipix im (x + dirX k) (y + dirY k))) = Ok a /\ fits im l a /\ isPlace im a /\ compOf a = i).
  { destruct K67 as [-> | ->]; cbn [dirX dirY] in *.
    - (* below *)
      assert (Tw : ptype (ipix im (x - 1) y) = Region) by (apply (Nb 3); cbn; lia). assert (Te : ptype (ipix im (x + 1) y) = Region) by (apply (Nb 1); cbn; lia).
      assert (Ow : owns im Region l (x - 1) y). { replace (x - 1) with (x + dirX 4) by (cbn; lia). replace y with (y + dirY 4) at 1 by (cbn; lia). apply same_label; cbn; auto; [lia|lia|]. replace (x + -1) with (x - 1) by lia. replace (y + 0) with y by lia. exact Tw. }
      destruct (ctypeEqb (ptype (ipix im (x + 0) (y + 1))) Vertex) eqn:Et.
      + apply CellSigma_Proofs.ctypeEqb_eq in Et. replace (swapCenterNeighbor (Dart x y 6)) with (Dart (x + 0) (y + 1) 2) by reflexivity. set (d := Dart (x + 0) (y + 1) 2).
        assert (A0 : owns im Region l (dcx d + dirX ((ddir d + 0) mod 8)) (dcy d + dirY ((ddir d + 0) mod 8))) by (cbn; replace (x + 0 + 0) with x by lia; replace (y + 1 + -1) with y by lia; exact O).
        assert (A1 : owns im Region l (dcx d + dirX ((ddir d + 1) mod 8)) (dcy d + dirY ((ddir d + 1) mod 8))) by (cbn; replace (x + 0 + -1) with (x - 1) by lia; replace (y + 1 + -1) with y by lia; exact Ow).
        destruct A0 as (_ & _ & A0). destruct A1 as (_ & _ & A1).
        assert (Pd : isPlace im d) by (split; [split; [apply Ck|]; split; [apply Ck|exact Et]|]; split; [cbn; lia|]; unfold typeAt; rewrite A0; cbn; split; [discriminate|discriminate]).
        destruct (anchor_place im Fr Cl m l d C) as (a0 & a & _ & _ & G1 & G2 & G3 & G4); unfold typeAt, labelAt; rewrite ?A0, ?A1; auto.
        * split; [reflexivity|]. intros _. unfold typeAt. cbn. replace (x + 0 + 1) with (x + 1) by lia. replace (y + 1 + -1) with y by lia. rewrite Te. discriminate.
        * exists a. split; [exact G1|]. split; [exact G2|]. split; [exact G3|]. exact (node_comp a d G3 Pd G4).
      + apply CellSigma_Proofs.ctypeEqb_ne in Et. assert (La : lineAt im (x + 0) (y + 1)) by (apply vertex_or_line; auto).
        destruct (anchor_line im Fr Cl m l (x + 0) (y + 1) 2 C CI Ln He) as (a & G1 & G2 & G3 & G4); [exact La|cbn; auto|cbn; replace (x + 0 + 0) with x by lia; replace (y + 1 + -1) with y by lia; exact O|].
        exists a. split; [exact G1|]. split; [exact G2|]. split; [apply dart_place, G3|]. exact (edge_comp a _ _ G3 La G4).
    - (* below on the right *)
      assert (Te : ptype (ipix im (x + 1) y) = Region) by (apply (Nb 2); cbn; lia).
      assert (Ts : ptype (ipix im x (y + 1)) = Region).
      { destruct (contour_dec x (y + 1)) as [Cs|T]; [lia|lia| |exact T]. exfalso. apply Nf. unfold i. pose proof (R2 x (y + 1) 0 ltac:(lia) Cs) as Q. cbn in Q. replace (y + 1 + 0) with (y + 1) in Q by lia. rewrite (Q Ck). apply K7; auto. }
      assert (Oe : owns im Region l (x + 1) y). { replace (x + 1) with (x + dirX 0) by (cbn; lia). replace y with (y + dirY 0) at 1 by (cbn; lia). apply same_label; cbn; auto; [lia|lia|]. replace (y + 0) with y by lia. exact Te. }
      assert (Os : owns im Region l x (y + 1)). { replace x with (x + dirX 6) at 1 by (cbn; lia). change (y + 1) with (y + dirY 6). apply same_label; cbn; auto 6; [lia|lia|]. replace (x + 0) with x by lia. exact Ts. }
      destruct (ctypeEqb (ptype (ipix im (x + 1) (y + 1))) Vertex) eqn:Et.
      + apply CellSigma_Proofs.ctypeEqb_eq in Et. replace (swapCenterNeighbor (Dart x y 7)) with (Dart (x + 1) (y + 1) 3) by reflexivity. set (d := Dart (x + 1) (y + 1) 3).
        assert (A0 : owns im Region l (dcx d + dirX ((ddir d + 0) mod 8)) (dcy d + dirY ((ddir d + 0) mod 8))) by (cbn; replace (x + 1 + -1) with x by lia; replace (y + 1 + -1) with y by lia; exact O).
        assert (A1 : owns im Region l (dcx d + dirX ((ddir d + 1) mod 8)) (dcy d + dirY ((ddir d + 1) mod 8))) by (cbn; replace (x + 1 + -1) with x by lia; replace (y + 1 + 0) with (y + 1) by lia; exact Os).
        assert (A2 : owns im Region l (dcx d + dirX ((ddir d + -1) mod 8)) (dcy d + dirY ((ddir d + -1) mod 8))) by (cbn; replace (x + 1 + 0) with (x + 1) by lia; replace (y + 1 + -1) with y by lia; exact Oe).
        destruct A0 as (_ & _ & A0). destruct A1 as (_ & _ & A1). destruct A2 as (_ & _ & A2).
        assert (Pd : isPlace im d) by (split; [split; [apply Ck|]; split; [apply Ck|exact Et]|]; split; [cbn; lia|]; unfold typeAt; rewrite A0, A1, A2; cbn; split; [discriminate|]; intros _; split; discriminate).
        destruct (anchor_place im Fr Cl m l d C) as (a0 & a & _ & _ & G1 & G2 & G3 & G4); unfold typeAt, labelAt; rewrite ?A0, ?A1; auto.
        * split; [|discriminate]. apply not_line_not_bad. unfold typeAt. rewrite A0. discriminate.
        * exists a. split; [exact G1|]. split; [exact G2|]. split; [exact G3|]. exact (node_comp a d G3 Pd G4).
      + apply CellSigma_Proofs.ctypeEqb_ne in Et. assert (La : lineAt im (x + 1) (y + 1)) by (apply vertex_or_line; auto).
        destruct (anchor_line im Fr Cl m l (x + 1) (y + 1) 2 C CI Ln He) as (a & G1 & G2 & G3 & G4); [exact La|cbn; auto|cbn; replace (x + 1 + 0) with (x + 1) by lia; replace (y + 1 + -1) with y by lia; exact Oe|].
        exists a. split; [exact G1|]. split; [exact G2|]. split; [apply dart_place, G3|]. exact (edge_comp a _ _ G3 La G4). }
  destruct Ea as (a & Ea & Ft & Pc & Ci). rewrite Ea. cbn [bind]. destruct (push_total m l a) as (m' & Em & Sz & _); [exact (roomy_here m Region l x y Ro ltac:(discriminate) O)|]. rewrite Em. cbn [bind].
  exists m', (list_upd fl (Z.to_nat i) true). split; [reflexivity|]. split; [exact (ready_kept m m' (push_kept _ _ _ _ Em) Sz Re)|]. split; [exact Lf'|]. split.
  - intros j Fj. unfold flag in *. destruct (Nat.eq_dec (Z.to_nat i) (Z.to_nat j)) as [<-|Q]; [apply nth_error_upd_eq; exact Lt|]. rewrite nth_error_upd_neq by exact Q. exact Fj.
  - split; [intros _; unfold flag; apply nth_error_upd_eq; exact Lt|]. assert (Hm : forall j, hasFace m' j <-> hasFace m j) by (intros j; split; apply has_same; [symmetry|]; apply (proj1 (proj2 (push_same _ _ _ _ Em)))).
    split; [|apply Hm, Hl]. destruct (push_anchors _ _ _ _ Em) as (cs & Hc & Ec). assert (L0 : 0 <= l) by (pose proof (proj1 (roomy_here m Region l x y Ro ltac:(discriminate) O)); lia).
    apply (anch_add m fl m' _ l cs a x y An Hc Ec); auto.
    + intros j J. rewrite Hm. split; [auto|]. intros [Hj| ->]; assumption.
    + intros u v Cu. pose proof (R1 u v Cu) as Ru'. unfold flag. rewrite Ci. destruct (Z.eq_dec (comp u v) i) as [->|Ni].
      * rewrite nth_error_upd_eq by exact Lt. tauto.
      * rewrite nth_error_upd_neq by lia. tauto.
    + intros Ic. apply in_map_iff in Ic. destruct Ic as (b & Eb & Ib). destruct (proj1 An _ _ Hc) as (_ & Q). destruct (Q b Ib) as (_ & _ & _ & Fb). rewrite Eb, Ci in Fb. contradiction.
Qed.

Lemma inners_total l x y m (fl : list bool) ps rest : innerPoints im = ps ++ (x, y) :: rest -> ready m -> length fl = Datatypes.S (snd (components im)) -> passed fl ps -> anch m fl -> hasFace m l -> owns im Region l x y ->
  exists m' fl', forEach (innerContour comp l x y) [0; 1; 2; 3; 4; 5; 6; 7] (m, fl) = Ok (m', fl') /\ ready m' /\ length fl' = length fl /\ (forall i, flag fl i -> flag fl' i) /\
    (contour im x (y + 1) -> flag fl' (comp x (y + 1))) /\ anch m' fl'.
Proof.
  intros E Re Lf Pa An Hl O.
  destruct (forEach_total (innerContour comp l x y) (fun dk st => ready (fst st) /\ length (snd st) = length fl /\ (forall i, flag fl i -> flag (snd st) i) /\
     (forall k, In k dk -> contour im (x + dirX k) (y + dirY k) -> flag (snd st) (comp (x + dirX k) (y + dirY k))) /\ anch (fst st) (snd st) /\ hasFace (fst st) l) [0; 1; 2; 3; 4; 5; 6; 7]) with (s := (m, fl)) as ((m' & fl') & H & A1 & A2 & A3 & A4 & A5 & A6).
  - intros dk k rk [m1 fl1] Ek (B1 & B2 & B3 & B4 & B5 & B6). cbn [fst snd] in *.
    assert (Ik : In k [0; 1; 2; 3; 4; 5; 6; 7]) by (rewrite Ek; apply in_or_app; right; left; reflexivity).
    destruct (inner_total l x y m1 fl1 ps rest k E B1) as (m2 & fl2 & H & C1 & C2 & C3 & C4 & C5 & C6); [congruence|intros u v Cu Q; apply B3, Pa; assumption|exact B5|exact B6|exact O|cbn in Ik; lia| |].
    + intros -> Cs. replace x with (x + dirX 6) by (cbn; lia). change (y + 1) with (y + dirY 6). apply B4.
      * assert (I6 : In 6 [0; 1; 2; 3; 4; 5; 6; 7]) by (cbn; tauto). rewrite Ek in I6. apply in_app_or in I6. destruct I6 as [I6|[I6|I6]]; [exact I6|discriminate I6|]. exfalso.
        assert (S : StronglySorted Z.lt (dk ++ 7 :: rk)) by (rewrite <- Ek; repeat constructor). pose proof (sorted_split _ _ _ _ S _ I6). lia.
      * cbn. replace (x + 0) with x by lia. exact Cs.
    + exists (m2, fl2). split; [exact H|]. cbn [fst snd]. split; [exact C1|]. split; [congruence|]. split; [auto|]. split; [|auto]. intros j Ij Cj. apply in_app_or in Ij. destruct Ij as [Ij|[<-|[]]]; auto.
  - cbn [fst snd]. split; [exact Re|]. split; [reflexivity|]. split; [auto|]. split; [intros k []|auto].
  - exists m', fl'. cbn [fst snd] in *. split; [exact H|]. split; [exact A1|]. split; [exact A2|]. split; [exact A3|]. split; [|exact A5]. intros Cs. pose proof (A4 6) as Q. cbn in Q. replace (x + 0) with x in Q by lia. apply Q; auto 10.
Qed.

(** above the pixels of a node *)
Lemma climb n u v : owns im Vertex n u v -> exists v', 0 < v' <= v /\ owns im Vertex n u v' /\ ptype (ipix im u (v' - 1)) <> Vertex.
Proof.
  intros O. assert (G : forall k v, (Z.to_nat v <= k)%nat -> owns im Vertex n u v -> exists v', 0 < v' <= v /\ owns im Vertex n u v' /\ ptype (ipix im u (v' - 1)) <> Vertex); [|exact (G _ v (le_n _) O)].
  clear v O. induction k as [|k IH]; intros v Hv O; assert (V : vertexAt im u v) by (destruct O as (O1 & O2 & O3); split; [exact O1|]; split; [exact O2|]; rewrite O3; reflexivity); pose proof (vertex_inner im Fr u v V) as [UX UY]; [lia|].
  destruct (ctype_dec (ptype (ipix im u (v - 1))) Vertex) as [T|T]; [|exists v; split; [lia|]; auto].
  destruct (IH (v - 1)) as (v' & B & Q); [lia| |exists v'; split; [lia|exact Q]].
  pose proof (Jo u v 2 n ltac:(lia) O) as J. cbn in J. replace (u + 0) with u in J by lia. replace (v + -1) with (v - 1) in J by lia. apply J. split; [lia|]. split; [lia|exact T].
Qed.

Definition faceInv (ps : list (Z * Z)) (st : cmap * list bool) : Prop := ready (fst st) /\ length (snd st) = Datatypes.S (snd (components im)) /\ passed (snd st) ps /\ facesSeen (fst st) ps /\ anch (fst st) (snd st).

Lemma face_pix_total done p rest st : innerPoints im = done ++ p :: rest -> faceInv done st -> exists st', initFacePix comp st p = Ok st' /\ faceInv (done ++ [p]) st'.
Proof.
  intros E (Re & Lf & Pa & Hs & An). destruct p as [x y]. destruct st as [m fl]. cbn [fst snd] in *. pose proof Re as (C & CI & Ln & He & Ro).
  assert (In0 : In (x, y) (innerPoints im)) by (rewrite E; apply in_or_app; right; left; reflexivity). apply rectPoints_in in In0. unfold inRect in In0. cbn in In0.
  pose proof Rp as (R0 & R1 & R2). fold comp in R0, R1, R2. pose proof Hs as (H0 & Hs1).
  assert (Pr : forall u v, contour im u v -> v < y \/ v = y -> flag fl (comp u v)).
  { intros u v Cu B. pose proof (contour_inner u v Cu) as [UX UY]. apply Pa; auto. destruct (Z.eq_dec v 1); [auto|right]. apply (prior_in _ _ _ _ (u, v - 1) E); [unfold inRect; cbn; lia|]. unfold before. cbn. lia. }
  assert (Step : forall fl', (forall i, flag fl i -> flag fl' i) -> (contour im x (y + 1) -> flag fl' (comp x (y + 1))) -> passed fl' (done ++ [(x, y)])).
  { intros fl' Mo Sp u v Cu [->|I]; [apply Mo, Pa; auto|]. apply in_app_or in I. destruct I as [I|[I|[]]]; [apply Mo, Pa; auto|]. injection I as <- Ev. assert (v = y + 1) as -> by lia. apply Sp, Cu. }
  assert (Plain : contour im x y -> passed fl (done ++ [(x, y)])).
  { intros Cp. apply Step; [auto|]. intros Cs. pose proof (R2 x y 6 ltac:(lia) Cp) as Q. cbn in Q. replace (x + 0) with x in Q by lia. rewrite (Q Cs). apply Pr; [exact Cp|lia]. }
  assert (Other : ptype (ipix im x y) <> Region -> forall m', (forall k, hasFace m k -> hasFace m' k) -> facesSeen m' (done ++ [(x, y)])).
  { intros T m' Mo. split; [apply Mo, H0|]. intros l u v I O. apply in_app_or in I. destruct I as [I|[I|[]]]; [apply Mo, (Hs1 l u v I O)|]. injection I as <- <-. destruct O as (_ & _ & O). rewrite O in T. exfalso. apply T. reflexivity. }
  unfold initFacePix. cbn [fst snd]. rewrite C, read_total by lia. cbn [bind]. destruct (ptype (ipix im x y)) eqn:T.
  3: { exists (m, fl). split; [reflexivity|]. split; [exact Re|]. split; [exact Lf|]. split; [apply Plain; split; [lia|]; split; [lia|rewrite T; discriminate]|]. split; [apply Other; [discriminate|auto]|exact An]. }
  3: { exists (m, fl). split; [reflexivity|]. split; [exact Re|]. split; [exact Lf|]. split; [apply Plain; split; [lia|]; split; [lia|rewrite T; discriminate]|]. split; [apply Other; [discriminate|auto]|exact An]. }
  2: { assert (O : owns im Line (plabel (ipix im x y)) x y) by (split; [lia|]; split; [lia|]; destruct (ipix im x y); cbn in *; congruence).
       destruct (edge_total m (plabel (ipix im x y)) (onEdge (addPixel x y)) (roomy_here m Line _ x y Ro ltac:(discriminate) O)) as (m' & Em & Sz & _). rewrite Em. cbn [bind]. exists (m', fl). split; [reflexivity|]. cbn [fst snd].
       split; [apply (ready_kept m); auto; apply (kept_edge _ _ _ _ Em); reflexivity|]. split; [exact Lf|]. split; [apply Plain; split; [lia|]; split; [lia|rewrite T; discriminate]|].
       split; [apply Other; [discriminate|]; intros k; apply has_same, (edge_faces _ _ _ _ Em)|]. apply (anch_same m); [exact (anchors_edge _ _ _ _ Em)| |exact An]. intros k. split; apply has_same; [symmetry|]; apply (edge_faces _ _ _ _ Em). }
  set (l := plabel (ipix im x y)) in *. assert (O : owns im Region l x y) by (split; [lia|]; split; [lia|]; unfold l; destruct (ipix im x y); cbn in *; congruence).
  pose proof (roomy_here m Region l x y Ro ltac:(discriminate) O) as H. pose proof H as H'. unfold here in H'. cbn [cellsOf] in H'. rewrite map_length in H'.
  destruct (Z.ltb_spec l (Z.of_nat (length (cfaces m)))) as [_|X]; [|lia]. cbn [negb]. destruct (at_total (cfaces m) l H') as (f & Ef). rewrite Ef. cbn [bind]. apply at_Ok in Ef. destruct Ef as [L0 Hf].
  assert (NL : l <> maxLabel) by (pose proof Wf as (_ & _ & _ & W4); specialize (W4 x y ltac:(lia) ltac:(lia)); fold l in W4; unfold maxLabel; lia).
  assert (Y2 : 2 <= y). { destruct (Z.eq_dec y 1) as [->|]; [|lia]. exfalso. destruct (proj2 Ru x) as (_ & _ & T'); [lia|]. congruence. }
  assert (G : exists st1, (if initialized (finf f) then forEach (innerContour comp l x y) [0; 1; 2; 3; 4; 5; 6; 7] (m, fl)
              else
                m1 <- updFace m l (onFace (fun c => CInfo l (cbounds c) (csize c))) ;;
                let m2 := addCounts m1 0 0 1 in
                q <- readPix im (x - 1) y ;;
                a <- (if ctypeEqb (ptype q) Vertex then anchorAt m2 l (Dart (x - 1) y 0) else anchorOf m2 l q) ;;
                m3 <- pushAnchor m2 l a ;; Ok (m3, fl)) = Ok st1 /\ ready (fst st1) /\ length (snd st1) = length fl /\ passed (snd st1) (done ++ [(x, y)]) /\ (forall k, hasFace m k -> hasFace (fst st1) k) /\ hasFace (fst st1) l /\ anch (fst st1) (snd st1)).
  { destruct (initialized (finf f)) eqn:I.
    - assert (Hl : hasFace m l) by (exists (finf f); split; [cbn [cellsOf]; apply map_nth_error, Hf|exact I]).
      destruct (inners_total l x y m fl done rest E Re Lf Pa An Hl O) as (m' & fl' & Em & A1 & A2 & A3 & A4 & A5). exists (m', fl'). split; [exact Em|]. cbn [fst snd]. split; [exact A1|]. split; [exact A2|]. split; [apply Step; assumption|].
      assert (S : cellsOf m' Region = cellsOf m Region) by (apply (proj2 (inners_same _ _ _ _ _ _ _ Em))). split; [intros k; apply has_same, S|]. split; [apply (has_same m); assumption|exact A5].
    - (* the first pixel of the face *)
      assert (Nl : ~ hasFace m l). { intros (c & Hc & Ic). cbn [cellsOf] in Hc. rewrite nth_error_map, Hf in Hc. injection Hc as <-. congruence. }
      assert (Nw : forall u v, owns im Region l u v -> v < y \/ (v = y /\ u < x) -> False).
      { intros u v Ou B. apply Nl. destruct (Z.eq_dec l 0) as [Z0|NZ]; [rewrite Z0; exact H0|]. pose proof Ou as (UX & UY & UP). apply (Hs1 l u v); [|exact Ou]. apply (prior_in _ _ _ _ (u, v) E); [|unfold before; cbn; lia].
        unfold inRect. cbn. destruct (Z.eq_dec u 0); [|destruct (Z.eq_dec u (iw im - 1)); [|destruct (Z.eq_dec v 0); [|destruct (Z.eq_dec v (ih im - 1)); [|lia]]]]; (rewrite (Fr u v UX UY) in UP by lia; congruence). }
      match goal with |- context [updFace m l ?g] => set (fn := g) end. destruct (face_total m l fn H) as (m1 & Em & Sz & Ci). rewrite Em. cbn [bind]. cbv zeta. rewrite read_total by lia. cbn [bind].
      set (m2 := addCounts m1 0 0 1). assert (K2 : keptI m m2) by (apply (keptI_trans _ m1); [exact (kept_face _ _ _ _ Em)|apply keptI_counts]). assert (S2 : sized m m2) by (apply (sized_trans _ m1); [exact Sz|apply sized_counts]).
      pose proof (ready_kept m m2 K2 S2 Re) as Re2. pose proof Re2 as (C2 & CI2 & Ln2 & He2 & Ro2).
      assert (Cw : contour im (x - 1) y).
      { destruct (contour_dec (x - 1) y) as [Cw|Tw]; [lia|lia|exact Cw|]. exfalso. apply (Nw (x - 1) y); [|lia].
        replace (x - 1) with (x + dirX 4) by (cbn; lia). replace y with (y + dirY 4) at 1 by (cbn; lia). apply same_label; cbn; auto; [lia|lia|]. replace (x + -1) with (x - 1) by lia. replace (y + 0) with y by lia. exact Tw. }
      assert (Oe : owns im Region l (x - 1 + dirX 0) (y + dirY 0)) by (cbn; replace (x - 1 + 1) with x by lia; replace (y + 0) with y by lia; exact O).
      assert (Ea : exists a, (if ctypeEqb (ptype (ipix im (x - 1) y)) Vertex then anchorAt m2 l (Dart (x - 1) y 0) else anchorOf m2 l (ipix im (x - 1) y)) = Ok a /\ fits im l a /\ isPlace im a /\ compOf a = comp (x - 1) y).
      { destruct (ctypeEqb (ptype (ipix im (x - 1) y)) Vertex) eqn:Et.
        - apply CellSigma_Proofs.ctypeEqb_eq in Et. set (d := Dart (x - 1) y 0). assert (V : vertexAt im (x - 1) y) by (split; [lia|]; split; [lia|exact Et]).
          pose proof Oe as (_ & _ & OP). assert (Td : typeAt im d 0 = Region) by (unfold typeAt; cbn [d dcx dcy ddir]; change ((0 + 0) mod 8) with 0; rewrite OP; reflexivity).
          assert (Ld : labelAt im d 0 = l) by (unfold labelAt; cbn [d dcx dcy ddir]; change ((0 + 0) mod 8) with 0; rewrite OP; reflexivity).
          assert (P : isPlace im d) by (split; [exact V|]; split; [cbn; lia|]; split; [congruence|discriminate]).
          destruct (darts_dec im Cl (nodeOf im d)) as [(e & De)|No].
          { destruct (anchor_darts im Fr Cl m2 l d e C2 P Td Ld De) as (a0 & a & _ & _ & G1 & G2 & G3 & G4). exists a. split; [exact G1|]. split; [exact G2|]. split; [exact G3|]. exact (node_comp a d G3 P G4). }
          exfalso.
          destruct (climb _ _ _ (vertex_owns im _ _ V)) as (v' & Bv & Ov & Tv). set (d' := Dart (x - 1) v' 2).
          assert (V' : vertexAt im (x - 1) v') by (destruct Ov as (O1 & O2 & O3); split; [exact O1|]; split; [exact O2|]; rewrite O3; reflexivity).
          assert (P' : isPlace im d').
          { split; [exact V'|]. split; [cbn; lia|]. split; [|discriminate]. unfold typeAt. cbn. replace (x - 1 + 0) with (x - 1) by lia. replace (v' + -1) with (v' - 1) by lia. exact Tv. }
          assert (En : nodeOf im d' = nodeOf im d) by (unfold nodeOf; cbn [d d' dcx dcy]; destruct Ov as (_ & _ & O3); rewrite O3; reflexivity).
          assert (No' : forall e, isDart im e -> nodeOf im e <> nodeOf im d) by (intros e De Ee; exact (No e (conj De Ee))).
          destruct (side_alone im Fr Pl Fi Jo Ri d' d P' P En ltac:(rewrite En; exact No')) as (T' & L'). rewrite Ld in L'. unfold typeAt in T'. unfold labelAt in L'. cbn in T', L'. replace (x - 1 + 0) with (x - 1) in * by lia. replace (v' + -1) with (v' - 1) in * by lia.
          apply (Nw (x - 1) (v' - 1)); [|lia]. split; [lia|]. split; [lia|]. destruct (ipix im (x - 1) (v' - 1)). cbn in *. congruence.
        - apply CellSigma_Proofs.ctypeEqb_ne in Et. assert (La : lineAt im (x - 1) y) by (apply vertex_or_line; auto).
          destruct (anchor_line im Fr Cl m2 l (x - 1) y 0 C2 CI2 Ln2 He2) as (a & G1 & G2 & G3 & G4); [exact La|cbn; auto|exact Oe|].
          exists a. split; [exact G1|]. split; [exact G2|]. split; [apply dart_place, G3|]. exact (edge_comp a _ _ G3 La G4). }
      destruct Ea as (a & Ea & Ft & Pc & Cc). rewrite Ea. cbn [bind]. destruct (push_total m2 l a) as (m3 & E3 & S3 & _); [apply (sized_here m); assumption|]. rewrite E3. cbn [bind]. exists (m3, fl). split; [reflexivity|]. cbn [fst snd].
      split; [exact (ready_kept m2 m3 (push_kept _ _ _ _ E3) S3 Re2)|]. split; [reflexivity|]. split.
      + apply Step; [auto|]. intros Cs. pose proof (R2 (x - 1) y 7 ltac:(lia) Cw) as Q. cbn in Q. replace (x - 1 + 1) with x in Q by lia. rewrite (Q Cs). apply Pr; [exact Cw|lia].
      + assert (S : cellsOf m3 Region = cellsOf m1 Region) by (rewrite (proj1 (proj2 (push_same _ _ _ _ E3))); reflexivity).
        split; [intros k Hk; apply (has_same m1); [exact S|]; apply (has_upd m l _ m1 Em); [intros c _; apply initialized_iff; exact NL|exact Hk]|].
        assert (H3 : hasFace m3 l) by (apply (has_same m1); [exact S|]; apply (has_set m l _ m1 Em); intros c; apply initialized_iff; exact NL). split; [exact H3|].
        destruct (push_anchors _ _ _ _ E3) as (cs & Hc & Ec). assert (A2 : anchors m2 = anchors m) by (unfold m2; rewrite <- (anchors_face _ _ _ _ Em); reflexivity). rewrite A2 in Hc, Ec.
        assert (cs = []) as ->. { destruct cs as [|b cs]; [reflexivity|]. exfalso. destruct (proj1 An _ _ Hc) as (_ & Q). destruct (Q b (or_introl eq_refl)) as (Hb & _). rewrite Z2Nat.id in Hb by exact L0. contradiction. }
        pose proof (Pr _ _ Cw ltac:(lia)) as Fw. rewrite <- Cc in Fw.
        apply (anch_add m fl m3 fl l [] a x y An Hc Ec); auto.
        -- intros k K0. split.
           ++ intros Hk. destruct (Z.eq_dec k l) as [->|Nk]; [auto|left]. apply (has_same m3 m1) in Hk; [|symmetry; exact S]. apply (has_other _ _ _ _ Em k); [lia|exact Hk].
           ++ intros [Hk| ->]; [|exact H3]. apply (has_same m1); [exact S|]. apply (has_upd m l _ m1 Em); [intros c _; apply initialized_iff; exact NL|exact Hk].
        -- intros u v Cu. split; [auto|]. intros [Fu|Fu]; [exact Fu|rewrite Fu; exact Fw]. }
  destruct G as (st1 & E1 & A1 & A2 & A3 & A4 & A5 & A6). cbv zeta in E1. rewrite E1. cbn [bind]. pose proof A1 as (_ & _ & _ & _ & Ro1).
  destruct (face_total (fst st1) l (onFace (addPixel x y)) (roomy_here _ Region l x y Ro1 ltac:(discriminate) O)) as (m' & Em & Sz & Ci). rewrite Em. cbn [bind]. exists (m', snd st1). split; [reflexivity|]. cbn [fst snd].
  assert (Mo : forall k, hasFace (fst st1) k -> hasFace m' k) by (apply (has_upd _ _ _ _ Em); auto).
  split; [apply (ready_kept (fst st1)); auto; exact (kept_face _ _ _ _ Em)|]. split; [cbn [fst snd]; rewrite A2; exact Lf|]. split; [exact A3|]. split; [split; [apply Mo, A4, H0|]|].
  2: { apply (anch_same (fst st1)); [exact (anchors_face _ _ _ _ Em)| |exact A6]. intros k. split; [apply (has_upd_back _ _ _ _ Em); reflexivity|apply Mo]. }
  intros k u v I Ou. apply in_app_or in I. destruct I as [I|[I|[]]]; [apply Mo, A4, (Hs1 k u v I Ou)|]. injection I as <- <-. destruct O as (_ & _ & O1). destruct Ou as (_ & _ & O2). assert (k = l) as -> by congruence. apply Mo, A5.
Qed.
Lemma first_row x : 0 < x < iw im - 1 -> comp x 1 = comp 1 1.
Proof.
  intros X. replace x with (1 + Z.of_nat (Z.to_nat (x - 1))) by lia. assert (B : Z.of_nat (Z.to_nat (x - 1)) < iw im - 2) by lia. revert B. generalize (Z.to_nat (x - 1)) as k. clear x X.
  induction k as [|k IH]; intros B; [reflexivity|]. rewrite <- IH by lia. pose proof (proj2 (proj2 Rp) (1 + Z.of_nat k) 1 0 ltac:(lia)) as Q. fold comp in Q. cbn [dirX dirY] in Q.
  replace (1 + Z.of_nat (Datatypes.S k)) with (1 + Z.of_nat k + 1) by lia. change (1 + 0) with 1 in Q. apply Q; apply (proj2 Ru); lia.
Qed.
(** no face is there, and no anchor *)
Definition bare (m : cmap) : Prop := forall l f, nth_error (cfaces m) l = Some f -> fcontours f = [] /\ initialized (finf f) = false.
Lemma bare_anchors m l cs : bare m -> nth_error (anchors m) l = Some cs -> cs = [].
Proof. unfold anchors. intros B H. rewrite nth_error_map in H. destruct (nth_error (cfaces m) l) as [f|] eqn:E; [|discriminate]. injection H as <-. apply (B l f E). Qed.
Lemma bare_none m k : bare m -> ~ hasFace m k.
Proof. intros B (c & Hc & Ic). cbn [cellsOf] in Hc. rewrite nth_error_map in Hc. destruct (nth_error (cfaces m) (Z.to_nat k)) as [f|] eqn:E; [|discriminate]. injection Hc as <-. destruct (B _ f E). congruence. Qed.
Lemma unflagged n i : ~ flag (repeat false n) i.
Proof. unfold flag. intros H. apply nth_error_In, repeat_spec in H. discriminate. Qed.
Lemma bare_anch m n : bare m -> anch m (repeat false n).
Proof.
  intros B. split.
  - intros l cs Hl. apply (bare_anchors m l cs B) in Hl. subst cs. split; [constructor|intros a []].
  - intros w _. split; [intros l u v _ Hl; exfalso; exact (bare_none m l B Hl)|intros u v _ Fu; exfalso; exact (unflagged n _ Fu)].
Qed.
Lemma face_list_total m : ready m -> bare m -> exists m' fl, initFaceList components m = Ok m' /\ cim m' = im /\ faceInv (innerPoints im) (m', fl).
Proof.
  intros Re Ba. pose proof Re as (C & CI & Ln & He & Ro). pose proof Rp as (R0 & R1 & R2). fold comp in R0, R1, R2. pose proof (proj1 Ru) as V. pose proof (vertex_inner im Fr 1 1 V) as [VX VY].
  unfold initFaceList. rewrite C. fold comp. cbv zeta.
  assert (H : here m Region 0) by (unfold here; specialize (Ro Region ltac:(discriminate)); pose proof (maxLabelOf_small im Region Wf); lia).
  match goal with |- context [updFace m 0 ?g] => set (fn := g) end. destruct (face_total m 0 fn H) as (m1 & Em & Sz & Ci). rewrite Em. cbn [bind].
  assert (P : isPlace im (Dart 1 1 4)). { split; [exact V|]. split; [cbn; lia|]. split; [|discriminate]. unfold typeAt. cbn. rewrite (Fr 0 1) by lia. discriminate. }
  assert (No : noticed im (Dart 1 1 4)). { split; [reflexivity|]. intros _. unfold typeAt. cbn. rewrite (Fr 0 0) by lia. discriminate. }
  assert (T4 : typeAt im (Dart 1 1 4) 0 = Region /\ labelAt im (Dart 1 1 4) 0 = 0 /\ typeAt im (Dart 1 1 4) 1 = Region /\ labelAt im (Dart 1 1 4) 1 = 0).
  { unfold typeAt, labelAt. cbn. rewrite (Fr 0 1), (Fr 0 2) by lia. auto. }
  destruct (anchor_place im Fr Cl m 0 (Dart 1 1 4) C P No) as (a & a' & Ea & Ep & _ & Ft & Pc & Nc); try apply T4. rewrite Ea. cbn [bind]. rewrite Ep. cbn [bind]. set (m2 := addCounts m1 0 0 1).
  assert (S2 : sized m m2) by (apply (sized_trans _ m1); [exact Sz|apply sized_counts]).
  assert (K2 : keptI m m2) by (apply (keptI_trans _ m1); [exact (kept_face _ _ _ _ Em)|apply keptI_counts]).
  destruct (push_total m2 0 a') as (m3 & E3 & S3 & _); [apply (sized_here m); assumption|]. rewrite E3. cbn [bind].
  assert (Cv : contour im 1 1) by (apply (proj2 Ru); lia). pose proof (R1 1 1 Cv) as Rv.
  destruct (put_total (repeat false (Datatypes.S (snd (components im)))) (comp 1 1) true) as (fl & Efl); [rewrite repeat_length; lia|]. rewrite Efl. cbn [bind]. destruct (put_length _ _ _ _ Efl) as (Lf & _ & Lt & ->). rewrite repeat_length in Lf.
  destruct (forEach_total (initFacePix comp) faceInv (innerPoints im)) with (s := (m3, list_upd (repeat false (Datatypes.S (snd (components im)))) (Z.to_nat (comp 1 1)) true)) as (st & Est & Fs).
  - intros done p rest st E I. exact (face_pix_total done p rest st E I).
  - split; [exact (ready_kept m2 m3 (push_kept _ _ _ _ E3) S3 (ready_kept m m2 K2 S2 Re))|]. cbn [fst snd]. split; [exact Lf|]. split.
    + intros u v Cu [->|[]]. pose proof (contour_inner u 1 Cu) as [UX _]. rewrite (first_row u UX). unfold flag. apply nth_error_upd_eq. exact Lt.
    + assert (S : cellsOf m3 Region = cellsOf m1 Region) by (rewrite (proj1 (proj2 (push_same _ _ _ _ E3))); reflexivity).
      assert (H3 : hasFace m3 0) by (apply (has_same m1); [exact S|]; apply (has_set m 0 _ m1 Em); intros c; apply initialized_iff; discriminate).
      split; [split; [exact H3|intros l x y []]|].
      destruct (push_anchors _ _ _ _ E3) as (cs & Hc & Ec). assert (A2 : anchors m2 = anchors m) by (unfold m2; rewrite <- (anchors_face _ _ _ _ Em); reflexivity). rewrite A2 in Hc, Ec.
      pose proof (bare_anchors m _ _ Ba Hc) as ->. pose proof (node_comp a' (Dart 1 1 4) Pc P Nc) as Cc. unfold compOf at 2 in Cc. cbn [dcx dcy] in Cc.
      apply (anch_add m (repeat false (Datatypes.S (snd (components im)))) m3 _ 0 [] a' 0 0 (bare_anch m _ Ba) Hc Ec); auto; [| |lia|split; [lia|]; split; [lia|apply Fr; lia]].
      * intros k K0. split.
        -- intros Hk. destruct (Z.eq_dec k 0) as [->|Nk]; [auto|left]. apply (has_same m3 m1) in Hk; [|symmetry; exact S]. apply (has_other _ _ _ _ Em k); [lia|exact Hk].
        -- intros [Hk| ->]; [|exact H3]. exfalso. exact (bare_none m k Ba Hk).
      * intros u v Cu. pose proof (R1 u v Cu) as Ru'. rewrite Cc. destruct (Z.eq_dec (comp u v) (comp 1 1)) as [Q|Ni].
        -- split; [auto|]. intros _. unfold flag. rewrite Q. apply nth_error_upd_eq. exact Lt.
        -- split; [|intros [Q|Q]; [exfalso; exact (unflagged _ _ Q)|contradiction]]. unfold flag. rewrite nth_error_upd_neq by lia. auto.
  - rewrite Est. cbn [bind]. exists (fst st), (snd st). split; [reflexivity|]. split; [apply (proj1 Fs)|]. destruct st. exact Fs.
Qed.

Lemma node_faces m l g m' : updNode m l g = Ok m' -> cfaces m' = cfaces m.
Proof. unfold updNode. intros H. bnd H n E. bnd H v Ev. injection H as <-. reflexivity. Qed.
Lemma nodes_faces m m' : initNodeList crackArea outerRegions m = Ok m' -> cfaces m' = cfaces m.
Proof.
  unfold initNodeList. intros H. bnd H st Est. assert (A : cfaces (fst st) = cfaces m).
  { refine (forEach_inv (initNodePix crackArea) (fun _ s => cfaces (fst s) = cfaces m) _ _ _ _ _ Est); [|reflexivity]. intros done p rest s s' _ I Hs. unfold initNodePix in Hs. bnd Hs c Ec.
    destruct (negb (ctypeEqb (ptype c) Vertex)); [injection Hs as <-; exact I|]. destruct (negb _); [discriminate|]. bnd Hs n En. bnd Hs st1 E1. bnd Hs m2 E2. injection Hs as <-. cbn [fst]. rewrite (node_faces _ _ _ _ E2).
    destruct (initialized (ninf n)); [injection E1 as <-; exact I|]. bnd E1 a Ea. bnd E1 sg Esg. bnd E1 dg Edg. bnd E1 m1 Em. bnd E1 ar Ear. injection E1 as <-. cbn [fst]. rewrite <- I. exact (node_faces _ _ _ _ Em). }
  rewrite <- A. refine (forEach_inv (stuffNode outerRegions (snd st)) (fun _ s => cfaces s = cfaces (fst st)) _ _ _ _ eq_refl H). intros done i rest s s' _ I Hs. unfold stuffNode in Hs. bnd Hs n En.
  destruct (negb _); [injection Hs as <-; exact I|]. bnd Hs ar Ear. destruct (_ =? _); [injection Hs as <-; exact I|]. cbv zeta in Hs. bnd Hs ax Eax. bnd Hs f Ef. rewrite (node_faces _ _ _ _ Hs). exact I.
Qed.
Lemma edges_faces m m' : initEdgeList m = Ok m' -> cfaces m' = cfaces m.
Proof.
  unfold initEdgeList. intros H. refine (forEach_inv initEdgesOf (fun _ s => cfaces s = cfaces m) _ _ _ _ eq_refl H). intros done i rest s s' _ I Hs. rewrite <- I. clear I H. unfold initEdgesOf in Hs. bnd Hs n En.
  destruct (negb _); [injection Hs as <-; reflexivity|]. bnd Hs sg Esg. destruct sg; [injection Hs as <-; reflexivity|]. revert Hs. generalize (nanchor n) at 2 as d. generalize (nanchor n) as e. generalize (walkFuel (cim s)) as k. intros k e d. clear En Esg n. revert s d.
  induction k as [|k IH]; intros s d Hs; cbn [initEdgesAround] in Hs; [discriminate|]. bnd Hs l El. destruct (negb _); [discriminate|]. bnd Hs ed Eed. bnd Hs m1 E1. bnd Hs d' Ed. bnd Hs q Eqq.
  assert (A : cfaces m1 = cfaces s).
  { destruct (initialized (einf ed)); [injection E1 as <-; reflexivity|]. bnd E1 o Eo. bnd E1 m2 E2. injection E1 as <-. cbn. unfold updEdge in E2. bnd E2 n0 E0. bnd E2 v Ev. injection E2 as <-. reflexivity. }
  destruct q; [injection Hs as <-; exact A|]. rewrite <- A. exact (IH _ _ Hs).
Qed.
Theorem import_total : exists m fl, import crackArea outerRegions components im = Ok m /\ cim m = im /\ passed fl (innerPoints im) /\ facesSeen m (innerPoints im) /\ anch m fl.
Proof.
  unfold import. set (b := blank im (maxLabelOf im Vertex) (maxLabelOf im Line) (maxLabelOf im Region)).
  pose proof (maxLabelOf_small im Vertex Wf) as MV. pose proof (maxLabelOf_small im Line Wf) as ML. pose proof (maxLabelOf_small im Region Wf) as MR.
  assert (BC : forall t, t <> ErrorType -> cellsOf b t = repeat newInfo (Z.to_nat (maxLabelOf im t + 1))) by (intros t Ht; unfold b; rewrite blank_cells; destruct t; try contradiction; reflexivity).
  assert (Ro : roomy b). { intros t Ht. rewrite BC by exact Ht. rewrite repeat_length. destruct t; try contradiction; lia. }
  assert (SH : short b). { intros t. destruct (ctype_dec t ErrorType) as [->|N]; [cbn; lia|]. rewrite BC by exact N. rewrite repeat_length. destruct t; try contradiction; lia. }
  assert (CT : counted b). { intros t N. rewrite BC by exact N. generalize (Z.to_nat (maxLabelOf im t + 1)) as n. intros n. assert (filter initialized (repeat newInfo n) = []) as -> by (induction n; cbn; auto). destruct t; reflexivity. }
  assert (Un : forall l n, nth_error (cnodes b) l = Some n -> initialized (ninf n) = false) by (intros l n Hn; unfold b, blank in Hn; cbn [cnodes] in Hn; apply nth_error_In, repeat_spec in Hn; subst n; reflexivity).
  destruct (node_list_total b eq_refl SH CT) as (m1 & E1 & C1 & S1); [rewrite BC by discriminate; apply phase_new; discriminate|exact Un|exact Ro|]. rewrite E1. cbn [bind].
  destruct (nodes_made crackArea outerRegions im Wf Fr Cl b m1 eq_refl Un E1) as (A1 & A2 & A3 & A4).
  assert (L1 : lined im m1). { intros l e Hl I. rewrite A2 in Hl. unfold b, blank in Hl. cbn [cedges] in Hl. apply nth_error_In, repeat_spec in Hl. subst e. discriminate I. }
  pose proof (roomy_sized _ _ S1 Ro) as Ro1. destruct (edge_list_total m1 C1 A1 L1 A3 Ro1) as (m2 & E2 & S2). rewrite E2. cbn [bind].
  destruct (edges_made crackArea outerRegions components im Wf Fr Cl m1 m2 C1 A1 L1 A3 A4 E2) as (B1 & B2 & B3 & B4 & B5).
  destruct (face_list_total m2) as (m3 & fl & E3 & C3 & F3).
  { split; [exact B1|]. split; [exact B2|]. split; [exact B4|]. split; [exact B5|exact (roomy_sized _ _ S2 Ro1)]. }
  { intros l f Hf. rewrite (edges_faces _ _ E2), (nodes_faces _ _ E1) in Hf. unfold b, blank in Hf. cbn [cfaces] in Hf. apply nth_error_In, repeat_spec in Hf. subst f. split; reflexivity. }
  rewrite E3. cbn [bind]. destruct F3 as (_ & _ & P3 & H3 & A3'). cbn [fst snd] in *. eexists. exists fl. split; [reflexivity|]. split; [exact C3|]. split; [exact P3|]. split; [exact H3|exact A3'].
Qed.
End Total.
