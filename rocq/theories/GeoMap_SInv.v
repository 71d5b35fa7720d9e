(** The rotation invariant and the graph-construction operations. *)
From Verif Require Import Base Orbit Conj GeoMap_Model GeoMap_Views.
Local Open Scope Z_scope.

Record SInv m : Prop := {
  sv_si : SI m (darts m);
  sv_e0 : eAt m 0 = None;
  sv_cap : 1 <= cap m;
  sv_len : 1 <= Z.of_nat (length (edges m)) <= cap m + 1;
  sv_nc : nodeCount m = sumf alive (nodes m);
  sv_ec : edgeCount m = sumf alive (edges m);
  sv_fc : faceCount m = sumf alive (faces m) }.

(** Outcome of a call with valid arguments: a normal result or a C++ exception. *)
Definition good {A} (P : A -> Prop) (r : res A) : Prop :=
  match r with Ok a => P a | Exn => True | UB => False | NoFuel => False end.

(** … and when the exception is thrown. *)
Definition goodE {A} (E : Prop) (P : A -> Prop) (r : res A) : Prop :=
  match r with Ok a => P a | Exn => E | UB => False | NoFuel => False end.
Lemma goodE_good {A} E (P : A -> Prop) r : goodE E P r -> good P r.
Proof. destruct r; simpl; auto. Qed.

Lemma good_bind {A B} (P : A -> Prop) (Q : B -> Prop) r k :
  good P r -> (forall a, P a -> good Q (k a)) -> good Q (bind r k).
Proof. destruct r; simpl; auto. Qed.

Lemma good_mono {A} (P Q : A -> Prop) r : good P r -> (forall a, P a -> Q a) -> good Q r.
Proof. destruct r; simpl; auto. Qed.

(** Operations that only touch the sigma tables. *)
Record sameT m m' : Prop := {
  st_edges : edges m' = edges m;
  st_nodes : nodes m' = nodes m;
  st_faces : faces m' = faces m;
  st_nc : nodeCount m' = nodeCount m;
  st_ec : edgeCount m' = edgeCount m;
  st_fc : faceCount m' = faceCount m;
  st_sorted : sorted m' = sorted m }.

Lemma sameT_refl m : sameT m m.
Proof. constructor; reflexivity. Qed.
Lemma sameT_trans a b c : sameT a b -> sameT b c -> sameT a c.
Proof. intros [] []; constructor; congruence. Qed.

(** ** Growing the tables *)

Lemma growSigma_spec n m d : 1 <= cap m -> Z.abs d <= cap m + Z.of_nat n ->
  exists m', growSigma n m d = Ok m' /\ sameT m m' /\ cap m <= cap m' /\ Z.abs d <= cap m' /\
    (forall x, Z.abs x <= cap m -> sg m' x = sg m x /\ sgi m' x = sgi m x).
Proof.
  revert m. induction n as [|n IH]; intros m Hc Hd; simpl.
  - replace (inCap m d) with true by (symmetry; apply Z.leb_le; lia).
    exists m; repeat split; auto; lia.
  - destruct (inCap m d) eqn:E.
    + apply Z.leb_le in E. exists m; repeat split; auto; lia.
    + destruct (IH (resizeSigma m)) as (m' & Hr & HT & Hcap & Hd' & Hx).
      * cbn [cap resizeSigma]; lia.
      * cbn [cap resizeSigma]; lia.
      * exists m'. split; [exact Hr|]. split.
        { eapply sameT_trans; [|exact HT]. constructor; reflexivity. }
        cbn [cap resizeSigma] in Hcap, Hx. repeat split; auto; try lia.
        -- destruct (Hx x) as [A B]; [lia|]. rewrite A. cbn [sg resizeSigma].
           replace (inCap m x) with true by (symmetry; apply Z.leb_le; assumption). reflexivity.
        -- destruct (Hx x) as [A B]; [lia|]. rewrite B. cbn [sgi resizeSigma].
           replace (inCap m x) with true by (symmetry; apply Z.leb_le; assumption). reflexivity.
Qed.

Lemma SI_sg_ext m m' D :
  edges m' = edges m -> nodes m' = nodes m -> cap m <= cap m' ->
  (forall x, In x D -> sg m' x = sg m x /\ sgi m' x = sgi m x) -> SI m D -> SI m' D.
Proof.
  intros He Hn Hc Hx S.
  assert (Hst : forall x, stt m' x = stt m x) by (intros; unfold stt, eAt; rewrite He; reflexivity).
  constructor.
  - intros x Hi. destruct (si_perm _ _ S x Hi) as (A & B & C & E).
    destruct (Hx x Hi) as [-> ->]. repeat split; auto.
    + destruct (Hx _ A) as [_ ->]; assumption.
    + destruct (Hx _ B) as [-> _]; assumption.
  - intros d Hd. unfold eAt; rewrite He; apply (si_live _ _ S); assumption.
  - apply (si_nz _ _ S).
  - intros d Hd. pose proof (si_cap _ _ S d Hd); lia.
  - intros d Hd. rewrite !Hst. destruct (Hx d Hd) as [-> _]. apply (si_st _ _ S); assumption.
  - intros d Hd. rewrite Hst. unfold nAt; rewrite Hn. apply (si_node _ _ S); assumption.
  - intros l n. unfold nAt; rewrite Hn; intros Hl.
    destruct (si_anchor _ _ S l n Hl) as [[A B]|(A & B & C)]; [left|right].
    + split; auto. intros d Hd; rewrite Hst; auto.
    + rewrite Hst. repeat split; auto. intros d Hd; rewrite Hst; intros E.
      apply (reach_ext (sg m) (sg m') (fun z => In z D)); auto.
      * intros z Hz; symmetry; apply Hx; assumption.
      * intros z Hz; apply (si_perm _ _ S); assumption.
Qed.

(** ** Inserting a dart before another one *)

Section Insert.
  Variable D : list Z.
  Variables f g : Z -> Z.
  Hypothesis HP : perm_on D f g.
  Variables succ x : Z.
  Hypothesis Hs : In succ D.
  Hypothesis Hx : ~ In x D.
  Let old := g succ.
  Let f' := updZ (updZ f old x) x succ.
  Let g' := updZ (updZ g succ x) x old.

  Lemma ins_perm : perm_on (x :: D) f' g'.
  Proof.
    destruct (HP succ Hs) as (Hfs & Hold & Hgf & Hfg). fold old in Hold, Hfg.
    assert (Hox : old <> x) by (intros E; apply Hx; rewrite <- E; assumption).
    assert (Hsx : succ <> x) by (intros E; apply Hx; rewrite <- E; assumption).
    intros z [<-|Hz].
    - unfold f', g'. rewrite !updZ_eq, !updZ_neq, !updZ_eq by assumption.
      rewrite (updZ_neq _ x succ old), updZ_eq by assumption. simpl; auto.
    - assert (Hzx : z <> x) by (intros E; apply Hx; rewrite <- E; assumption).
      destruct (HP z Hz) as (A & B & C & E).
      assert (Hfz : f z <> x) by (intros E'; apply Hx; rewrite <- E'; assumption).
      assert (Hgz : g z <> x) by (intros E'; apply Hx; rewrite <- E'; assumption).
      unfold f', g'. rewrite !(updZ_neq _ x _ z) by assumption.
      repeat split.
      + unfold updZ at 1. destruct (z =? old); simpl; auto.
      + unfold updZ at 1. destruct (z =? succ); simpl; auto.
      + unfold updZ at 3. destruct (Z.eqb_spec z old) as [->|N].
        * rewrite updZ_eq; reflexivity.
        * rewrite !updZ_neq; auto. intros E'. apply N. unfold old. rewrite <- E'. congruence.
      + unfold updZ at 3. destruct (Z.eqb_spec z succ) as [->|N].
        * rewrite updZ_eq; reflexivity.
        * rewrite !updZ_neq; auto. intros E'. apply N. rewrite <- Hfg, <- E'. congruence.
  Qed.

  Lemma ins_reach y z : In y D -> reach f y z -> reach f' y z.
  Proof.
    intros Hy Hr. revert z Hr. apply reach_ind_r; [apply reach_refl|].
    intros z Hr IH.
    assert (Hz : In z D) by (eapply (reach_in D f g); eassumption).
    assert (Hzx : z <> x) by (intros E; apply Hx; rewrite <- E; assumption).
    apply (reach_trans _ _ z); auto. destruct (Z.eq_dec z old) as [->|N].
    - exists 2%nat. simpl. unfold f' at 2. rewrite (updZ_neq _ x succ old), updZ_eq by assumption.
      unfold f'. rewrite updZ_eq. unfold old. symmetry; apply HP; assumption.
    - exists 1%nat. simpl. unfold f'. rewrite !updZ_neq by assumption. reflexivity.
  Qed.

  Lemma ins_new : reach f' x succ /\ reach f' old x.
  Proof.
    assert (Hox : old <> x).
    { intros E; apply Hx; rewrite <- E. apply HP; assumption. }
    split; exists 1%nat; simpl; unfold f'.
    - apply updZ_eq.
    - rewrite (updZ_neq _ x), updZ_eq by assumption; reflexivity.
  Qed.
End Insert.

(** insertSigmaPredecessor in front of a dart that starts at the same node *)
Lemma insert_spec m D succ x :
  SI m D -> 1 <= cap m -> In succ D -> ~ In x D -> x <> 0 -> eAt m (elab x) <> None ->
  stt m x = stt m succ ->
  exists m', insertSigmaPredecessor m succ x = Ok m' /\ SI m' (x :: D) /\ sameT m m' /\
             cap m <= cap m' /\ Z.abs x <= cap m'.
Proof.
  intros S Hc Hs Hx Hx0 Hlx Est.
  destruct (growSigma_spec (Z.abs_nat x) m x Hc ltac:(lia)) as (m1 & Hg & HT & Hcap & Hxc & Hsg).
  assert (S1 : SI m1 D).
  { apply (SI_sg_ext m); auto; try apply HT. intros y Hy; apply Hsg, (si_cap _ _ S); assumption. }
  destruct HT as [T1 T2 T3 T4 T5 T6 T7].
  pose proof (si_perm _ _ S1) as HP.
  assert (Hcs : Z.abs succ <= cap m1) by (apply (si_cap _ _ S1); assumption).
  set (old := sgi m1 succ).
  assert (Hold : In old D) by (apply HP; assumption).
  assert (Hco : Z.abs old <= cap m1) by (apply (si_cap _ _ S1); assumption).
  set (m' := set_sgi (set_sg m1 (updZ (updZ (sg m1) old x) x succ)) (updZ (updZ (sgi m1) succ x) x old)).
  exists m'. split.
  { unfold insertSigmaPredecessor. rewrite Hg. cbn [bind].
    destruct (Z.eqb_spec succ 0) as [E|_]; [exfalso; apply (si_nz _ _ S succ); assumption|].
    rewrite getSi_Ok by assumption. cbn [bind]. fold old.
    rewrite putS_Ok by assumption. cbn [bind]. rewrite putS_Ok by assumption. cbn [bind].
    rewrite putSi_Ok by assumption. cbn [bind]. rewrite putSi_Ok by assumption. reflexivity. }
  assert (Hst : forall y, stt m' y = stt m1 y) by reflexivity.
  assert (Hstx : stt m1 x = stt m1 succ) by (unfold stt, eAt; rewrite T1; exact Est).
  split; [|split; [constructor; assumption | split; assumption]].
  assert (HPi : perm_on (x :: D) (sg m') (sgi m')) by (apply ins_perm; assumption).
  constructor.
  - exact HPi.
  - intros d [<-|Hd]; unfold eAt; cbn [edges m' set_sgi set_sg].
    + rewrite T1; exact Hlx.
    + apply (si_live _ _ S1 d Hd).
  - intros d [<-|Hd]; [assumption | apply (si_nz _ _ S1); assumption].
  - intros d [<-|Hd]; [assumption | apply (si_cap _ _ S1); assumption].
  - intros d Hd. rewrite !Hst. destruct Hd as [<-|Hd].
    + cbn [sg m' set_sgi set_sg]. rewrite updZ_eq. symmetry; exact Hstx.
    + assert (d <> x) by (intros ->; contradiction).
      cbn [sg m' set_sgi set_sg]. rewrite updZ_neq by assumption. unfold updZ.
      destruct (Z.eqb_spec d old) as [->|_]; [|apply (si_st _ _ S1); assumption].
      rewrite Hstx. unfold old. symmetry. apply (SI_st_si m1 D); assumption.
  - intros d Hd. rewrite Hst. change (nAt m' (stt m1 d)) with (nAt m1 (stt m1 d)).
    destruct Hd as [<-|Hd]; [|apply (si_node _ _ S1); assumption].
    rewrite Hstx; apply (si_node _ _ S1); assumption.
  - intros l n Hn. change (nAt m' l) with (nAt m1 l) in Hn.
    destruct (si_anchor _ _ S1 l n Hn) as [[A B]|(A & B & C)]; [left|right].
    + split; auto. intros d [<-|Hd]; rewrite Hst; auto. rewrite Hstx; auto.
    + rewrite Hst. split; [right; assumption|]. split; auto.
      intros d Hd Ed. rewrite Hst in Ed.
      assert (HR := ins_reach D (sg m1) (sgi m1) HP succ x Hs Hx).
      destruct Hd as [<-|Hd]; [|apply HR; auto].
      apply (reach_trans _ _ old).
      * apply HR; auto. apply C; auto. unfold old. rewrite (SI_st_si m1 D) by assumption. congruence.
      * apply (ins_new D (sg m1) (sgi m1) HP succ x Hs Hx).
Qed.

Lemma setNodeAnchor_Ok m l nd a : nAt m l = Some nd ->
  setNodeAnchor m l a = Ok (putN m l (Some (set_anchor nd a))).
Proof. intros H; unfold setNodeAnchor; rewrite (deref_node _ _ _ H); reflexivity. Qed.

Lemma nAt_putN m l n j : (l < length (nodes m))%nat ->
  nAt (putN m l (Some n)) j = if Nat.eqb l j then Some n else nAt m j.
Proof.
  intros H. unfold nAt, putN; cbn [nodes set_nodes]. rewrite tget_upd.
  apply Nat.ltb_lt in H; rewrite H; reflexivity.
Qed.

(** moving a node anchor to another dart of the node *)
Lemma anchor_spec m D l nd a :
  SI m D -> nAt m l = Some nd -> In a D -> stt m a = l ->
  SI (putN m l (Some (set_anchor nd a))) D.
Proof.
  intros S Hl Ha Hst.
  pose proof (tget_lt _ _ _ Hl) as Hlt.
  destruct S as [S1 S2 S3 S4 S5 S6 S7]. constructor; auto.
  - intros d Hd. rewrite nAt_putN by assumption. change (stt (putN _ _ _) d) with (stt m d).
    destruct (Nat.eqb l (stt m d)); [discriminate | auto].
  - intros j n. rewrite nAt_putN by assumption. destruct (Nat.eqb_spec l j) as [->|Hj]; [|apply S7].
    intros E; injection E as <-. right. cbn [nanchor set_anchor]. split; auto. split; [exact Hst|].
    intros d Hd Ed. change (stt (putN _ _ _) d) with (stt m d) in Ed.
    apply (SI_orbit m D); [constructor; assumption | assumption | assumption | congruence].
Qed.

(** attaching a dart at a node through the node's own anchor *)
Lemma attach_spec m D l nd x :
  SI m D -> 1 <= cap m -> nAt m l = Some nd -> ~ In x D -> x <> 0 ->
  eAt m (elab x) <> None -> stt m x = l ->
  exists m1 m2, insertSigmaPredecessor m (nanchor nd) x = Ok m1 /\
             setNodeAnchor m1 l x = Ok m2 /\ SI m2 (x :: D) /\
             edges m2 = edges m /\ faces m2 = faces m /\ sorted m2 = sorted m /\
             nodeCount m2 = nodeCount m /\ edgeCount m2 = edgeCount m /\ faceCount m2 = faceCount m /\
             cap m <= cap m2 /\ Z.abs x <= cap m2 /\
             nodes m2 = list_upd (nodes m) l (Some (set_anchor nd x)).
Proof.
  intros S Hc Hl Hx Hx0 Hlx Hst.
  pose proof (tget_lt _ _ _ Hl) as Hlt.
  destruct (si_anchor _ _ S l nd Hl) as [[A B]|(A & B & C)].
  - destruct (growSigma_spec (Z.abs_nat x) m x Hc ltac:(lia)) as (m0 & Hg & HT & Hcap & Hxc & Hsg).
    assert (S0 : SI m0 D).
    { apply (SI_sg_ext m); auto; try apply HT. intros y Hy; apply Hsg, (si_cap _ _ S); assumption. }
    destruct HT as [T1 T2 T3 T4 T5 T6 T7].
    set (m1 := set_sgi (set_sg m0 (updZ (sg m0) x x)) (updZ (sgi m0) x x)).
    assert (Hl1 : nAt m1 l = Some nd) by (unfold nAt; cbn [nodes m1 set_sgi set_sg]; rewrite T2; exact Hl).
    exists m1, (putN m1 l (Some (set_anchor nd x))).
    split.
    { unfold insertSigmaPredecessor. rewrite Hg. cbn [bind]. rewrite A. simpl (0 =? 0).
      rewrite putS_Ok by assumption. cbn [bind]. rewrite putSi_Ok by assumption. reflexivity. }
    split; [apply setNodeAnchor_Ok; assumption|].
    split; [|cbn [putN set_nodes m1 set_sgi set_sg edges faces sorted nodeCount edgeCount faceCount cap nodes];
             rewrite T2; repeat split; auto].
    assert (EE : forall y, stt (putN m1 l (Some (set_anchor nd x))) y = stt m y).
    { intros y; unfold stt, eAt; cbn [edges putN set_nodes m1 set_sgi set_sg]; rewrite T1; reflexivity. }
    assert (EN : forall j, nAt (putN m1 l (Some (set_anchor nd x))) j =
                   if Nat.eqb l j then Some (set_anchor nd x) else nAt m j).
    { intros j. rewrite nAt_putN; [unfold nAt; cbn [nodes m1 set_sgi set_sg]; rewrite T2; reflexivity|].
      cbn [nodes m1 set_sgi set_sg]. rewrite T2; exact Hlt. }
    assert (Eo : forall y, In y D -> updZ (sg m0) x x y = sg m0 y /\ updZ (sgi m0) x x y = sgi m0 y).
    { intros y Hy; split; apply updZ_neq; intros ->; contradiction. }
    constructor; cbn [sg sgi cap putN set_nodes m1 set_sgi set_sg].
    + intros y [<-|Hy].
      * rewrite !updZ_eq. simpl; auto.
      * destruct (Eo y Hy) as [-> ->]. destruct (si_perm _ _ S0 y Hy) as (P1 & P2 & P3 & P4).
        destruct (Eo _ P1) as [_ ->]. destruct (Eo _ P2) as [-> _]. simpl; auto.
    + intros d [<-|Hd]; unfold eAt; cbn [edges putN set_nodes m1 set_sgi set_sg]; [rewrite T1; exact Hlx|].
      apply (si_live _ _ S0 d Hd).
    + intros d [<-|Hd]; [assumption | apply (si_nz _ _ S0); assumption].
    + intros d [<-|Hd]; [assumption | apply (si_cap _ _ S0); assumption].
    + intros d [<-|Hd]; [rewrite updZ_eq; reflexivity|].
      rewrite !EE. destruct (Eo d Hd) as [-> _]. destruct (Hsg d) as [-> _]; [apply (si_cap _ _ S); assumption|].
      apply (si_st _ _ S); assumption.
    + intros d Hd. rewrite EN, EE. destruct (Nat.eqb_spec l (stt m d)); [discriminate|].
      destruct Hd as [<-|Hd]; [congruence | apply (si_node _ _ S); assumption].
    + intros j n Hj. rewrite EN in Hj. destruct (Nat.eqb_spec l j) as [->|Hlj].
      * injection Hj as <-. right. cbn [nanchor set_anchor]. split; [left; reflexivity|].
        rewrite EE. split; [assumption|]. intros d [<-|Hd]; [intros; apply reach_refl|].
        rewrite EE; intros E. exfalso; apply (B d Hd E).
      * destruct (si_anchor _ _ S j n Hj) as [[A' B']|(A' & B' & C')]; [left|right].
        -- split; auto. intros d [<-|Hd]; rewrite EE; [congruence | auto].
        -- rewrite EE. split; [right; assumption|]. split; auto.
           intros d [<-|Hd]; rewrite EE; [congruence|]. intros E.
           apply (reach_ext (sg m) _ (fun z => In z D)); auto.
           ++ intros z Hz. destruct (Eo z Hz) as [-> _]. symmetry.
              apply Hsg, (si_cap _ _ S); assumption.
           ++ intros z Hz; apply (si_perm _ _ S); assumption.
  - destruct (insert_spec m D (nanchor nd) x S Hc A Hx Hx0 Hlx) as (m1 & Hr & S1 & HT & Hcap & Hxc); [congruence|].
    destruct HT as [T1 T2 T3 T4 T5 T6 T7].
    assert (Hl1 : nAt m1 l = Some nd) by (unfold nAt; rewrite T2; exact Hl).
    exists m1, (putN m1 l (Some (set_anchor nd x))).
    split; [exact Hr|]. split; [apply setNodeAnchor_Ok; assumption|].
    split; [apply anchor_spec; auto; [left; reflexivity | unfold stt, eAt; rewrite T1; exact Hst]|].
    cbn [putN set_nodes edges faces sorted nodeCount edgeCount faceCount cap nodes].
    rewrite T2; repeat split; auto.
Qed.

(** ** addNode *)

Lemma tables_darts m m' : edges m' = edges m -> darts m' = darts m.
Proof.
  intros H; unfold darts, elabs, isLive, eAt; rewrite H; reflexivity.
Qed.

Lemma addNode_inv m p : SInv m -> SInv (fst (addNode m p)).
Proof.
  intros V. unfold addNode; cbn [fst].
  set (m' := set_nodeCount _ _).
  assert (HD : darts m' = darts m) by (apply tables_darts; reflexivity).
  assert (EN : forall l, nAt m' l = if Nat.eqb l (length (nodes m)) then Some (mkNode p 0) else nAt m l)
    by (intros l; apply tget_app_one).
  assert (Hlt : forall d, In d (darts m) -> stt m d <> length (nodes m)).
  { intros d Hd E. apply (si_node _ _ (sv_si _ V) d Hd). rewrite E. apply tget_ge; lia. }
  destruct V as [S V2 V3 V4 V5 V6 V7]. constructor; auto.
  - rewrite HD. destruct S as [S1 S2 S3 S4 S5 S6 S7]. constructor; auto.
    + intros d Hd. rewrite EN. change (stt m' d) with (stt m d).
      destruct (Nat.eqb_spec (stt m d) (length (nodes m))); [discriminate | auto].
    + intros l n. rewrite EN. destruct (Nat.eqb_spec l (length (nodes m))) as [->|Hl]; [|apply S7].
      intros E; injection E as <-. left; split; [reflexivity | exact Hlt].
  - cbn [nodeCount m' set_nodeCount nodes set_nodes]. rewrite sumf_app, V5. simpl; lia.
Qed.

Lemma addNodeL_inv m p l : SInv m -> SInv (fst (addNodeL m p l)).
Proof.
  intros V. unfold addNodeL. apply addNode_inv.
  set (m' := set_nodes _ _).
  assert (HD : darts m' = darts m) by (apply tables_darts; reflexivity).
  assert (EN : forall l, nAt m' l = nAt m l) by (intros j; apply tget_repeat).
  destruct V as [S V2 V3 V4 V5 V6 V7]. constructor; auto.
  - rewrite HD. destruct S as [S1 S2 S3 S4 S5 S6 S7]. constructor; auto.
    + intros d Hd. rewrite EN. apply S6; assumption.
    + intros j n. rewrite EN. apply S7.
  - cbn [nodeCount m' nodes set_nodes]. rewrite sumf_app, sumf_repeat by reflexivity. lia.
Qed.

(** ** addEdge *)

Definition sa_ok m (a : sigmaAnchor) : Prop :=
  match a with SAnode l => nAt m l <> None | SAdart _ => True end.

Lemma resolve_spec m a : SInv m -> sa_ok m a ->
  good (fun r => nAt m (sa_node r) <> None /\
    (if sa_sing r then exists n, nAt m (sa_node r) = Some n /\ nanchor n = 0
     else In (sa_dart r) (darts m) /\ stt m (sa_dart r) = sa_node r)) (resolveSA m a).
Proof.
  intros V Ha. destruct a as [l|d]; simpl in Ha.
  - destruct (nAt m l) as [n|] eqn:En; [|congruence].
    unfold resolveSA. rewrite (deref_node _ _ _ En). cbn [bind].
    destruct (Z.eqb_spec (nanchor n) 0) as [E|E]; simpl.
    + rewrite En. split; [discriminate|]. exists n; auto.
    + destruct (sorted m); simpl; [exact I|]. rewrite En. split; [discriminate|].
      destruct (si_anchor _ _ (sv_si _ V) l n En) as [[A _]|(A & B & _)]; [contradiction | auto].
  - unfold resolveSA, startLabel.
    destruct (eAt m (elab d)) as [e|] eqn:He.
    + rewrite (gEdge_Ok _ _ _ He). simpl.
      assert (Hd : In d (darts m)).
      { apply in_darts. split; [|congruence]. intros ->. change (elab 0) with O in He.
        rewrite (sv_e0 _ V) in He; discriminate. }
      assert (Est : stt m d = e_st e d) by (unfold stt; rewrite He; reflexivity).
      rewrite <- Est. split; [apply (si_node _ _ (sv_si _ V)); assumption | auto].
    + rewrite (gEdge_Exn _ _ He). exact I.
Qed.

(** a fresh edge entry before its darts are linked *)
Lemma fresh_edge m sn en lf rf pts fl k :
  SInv m ->
  let m1 := fst (newEdge (set_edges m (edges m ++ repeat None k)) sn en lf rf pts fl) in
  let l := snd (newEdge (set_edges m (edges m ++ repeat None k)) sn en lf rf pts fl) in
  SI m1 (darts m) /\ l = (length (edges m) + k)%nat /\
  (forall j, eAt m1 j = if Nat.eqb j l then Some (mkEdge sn en lf rf pts fl) else eAt m j) /\
  (forall d, In d (darts m) -> elab d <> l) /\
  (forall x, In x (darts m1) <-> In x (- Z.of_nat l :: Z.of_nat l :: darts m)).
Proof.
  intros V m1 l.
  assert (El : l = (length (edges m) + k)%nat).
  { unfold l, newEdge; cbn [snd edges set_edges]. rewrite app_length, repeat_length; reflexivity. }
  assert (EE : forall j, eAt m1 j = if Nat.eqb j l then Some (mkEdge sn en lf rf pts fl) else eAt m j).
  { intros j. unfold m1, newEdge, eAt; cbn [fst edges set_edgeCount set_edges].
    rewrite tget_app_one. fold l. rewrite tget_repeat, app_length, repeat_length, El. reflexivity. }
  assert (Hl : forall j, eAt m j <> None -> j <> l).
  { intros j Hj ->. apply Hj. apply tget_ge. lia. }
  assert (Hdl : forall d, In d (darts m) -> elab d <> l).
  { intros d Hd. apply Hl. apply in_darts in Hd; tauto. }
  assert (Hst : forall d, In d (darts m) -> stt m1 d = stt m d).
  { intros d Hd. unfold stt. rewrite EE. destruct (Nat.eqb_spec (elab d) l) as [E|]; [|reflexivity].
    exfalso; apply (Hdl d Hd E). }
  split; [|split; [exact El | split; [exact EE | split; [exact Hdl|]]]].
  - destruct (sv_si _ V) as [S1 S2 S3 S4 S5 S6 S7]. constructor; auto.
    + intros d Hd. rewrite EE. destruct (Nat.eqb (elab d) l); [discriminate | auto].
    + intros d Hd. rewrite !Hst; [apply S5; assumption | assumption | apply S1; assumption].
    + intros d Hd. rewrite Hst by assumption. apply S6; assumption.
    + intros j n Hj. destruct (S7 j n Hj) as [[A B]|(A & B & C)]; [left|right].
      * split; auto. intros d Hd; rewrite Hst by assumption; auto.
      * rewrite Hst by assumption. repeat split; auto. intros d Hd. rewrite Hst by assumption. auto.
  - intros x. rewrite in_darts, EE. simpl. rewrite in_darts.
    pose proof (sv_len _ V) as HL.
    destruct (Nat.eqb_spec (elab x) l) as [E|E].
    + split; [|intros _; split; [unfold elab in E; lia | discriminate]].
      intros [Hx _]. unfold elab in E. lia.
    + split; [intros [A B]; auto|]. intros [H|[H|H]]; auto; exfalso; apply E; subst x; unfold elab; lia.
Qed.

Lemma list_upd_upd {A} (l : list A) i x y : list_upd (list_upd l i x) i y = list_upd l i y.
Proof. revert i; induction l; intros [|i]; simpl; auto. f_equal; apply IHl. Qed.

Lemma addEdge_inv m sa ea pts label : SInv m -> sa_ok m sa -> sa_ok m ea ->
  good (fun r => SInv (fst r) /\ faces (fst r) = faces m /\
     faces m = [] /\ (length (edges m) <= snd r)%nat /\ edgeCount (fst r) = edgeCount m + 1 /\
     (exists s e, resolveSA m sa = Ok s /\ resolveSA m ea = Ok e /\
        (forall l, eAt (fst r) l = if Nat.eqb l (snd r)
               then Some (mkEdge (sa_node s) (sa_node e) None None pts 0) else eAt m l)) /\
     nodeCount (fst r) = nodeCount m /\ length (nodes (fst r)) = length (nodes m) /\
     (forall l, option_map npos (nAt (fst r) l) = option_map npos (nAt m l)) /\
     length (edges (fst r)) = S (snd r))
    (addEdge m sa ea pts label).
Proof.
  intros V Hsa Hea. unfold addEdge.
  pose proof (resolve_spec m sa V Hsa) as Gs. pose proof (resolve_spec m ea V Hea) as Ge.
  destruct (resolveSA m sa) as [s| | |] eqn:Es; simpl in Gs; try contradiction; try exact I.
  destruct (resolveSA m ea) as [e| | |] eqn:Ee; simpl in Ge; try contradiction; try exact I.
  cbn [bind].
  destruct (Nat.eqb_spec (length (faces m)) 0) as [Ef|Ef]; [|exact I]. cbn [negb].
  destruct Gs as [Gs1 Gs2], Ge as [Ge1 Ge2].
  assert (Hfaces : faces m = []) by (destruct (faces m); [reflexivity | discriminate]).
  pose proof (fresh_edge m (sa_node s) (sa_node e) None None pts 0 (label - length (edges m)) V) as HF.
  remember (newEdge (set_edges m (edges m ++ repeat None (label - length (edges m))))
              (sa_node s) (sa_node e) None None pts 0) as NE eqn:ENE.
  destruct NE as [m1 l]. cbn [fst snd] in HF.
  destruct HF as (S1 & El & EE & Hdl & HD).
  assert (Em1 : nodes m1 = nodes m /\ faces m1 = faces m /\ cap m1 = cap m /\ sorted m1 = sorted m /\
                nodeCount m1 = nodeCount m /\ faceCount m1 = faceCount m /\
                edgeCount m1 = edgeCount m + 1 /\
                edges m1 = (edges m ++ repeat None (label - length (edges m))) ++
                           [Some (mkEdge (sa_node s) (sa_node e) None None pts 0)]).
  { unfold newEdge in ENE. injection ENE as -> _. cbn. repeat split; reflexivity. }
  destruct Em1 as (N1 & F1 & C1 & So1 & NC1 & FC1 & EC1 & ED1).
  cbn [bind].
  set (d := Z.of_nat l).
  pose proof (sv_len _ V) as HL. pose proof (sv_cap _ V) as HC.
  assert (Hd0 : d <> 0) by (unfold d; lia).
  assert (Hdnot : ~ In d (darts m)).
  { intros H. apply (Hdl d H). unfold d, elab; lia. }
  assert (Hdnot' : ~ In (- d) (darts m)).
  { intros H. apply (Hdl (- d) H). unfold d, elab; lia. }
  assert (Hled : eAt m1 (elab d) <> None).
  { rewrite EE. unfold d; rewrite elab_of_nat, Nat.eqb_refl; discriminate. }
  assert (Hstd : stt m1 d = sa_node s).
  { unfold stt. rewrite EE. unfold d; rewrite elab_of_nat, Nat.eqb_refl. unfold e_st.
    destruct (Z.ltb_spec 0 (Z.of_nat l)); [reflexivity | lia]. }
  assert (Hstd' : stt m1 (- d) = sa_node e).
  { unfold stt. rewrite EE. unfold d; rewrite elab_opp, elab_of_nat, Nat.eqb_refl. unfold e_st.
    destruct (Z.ltb_spec 0 (- Z.of_nat l)); [lia | reflexivity]. }
  assert (Hsto : forall x, In x (darts m) -> stt m1 x = stt m x).
  { intros x Hx. unfold stt. rewrite EE.
    destruct (Nat.eqb_spec (elab x) l) as [E|]; [exfalso; apply (Hdl x Hx E) | reflexivity]. }
  (* first insertion *)
  assert (Hins1 : exists m2,
     (if sa_sing s then
          nd <- deref (nodeP m1 (sa_node s)) ;;
          m <- insertSigmaPredecessor m1 (nanchor nd) d ;;
          setNodeAnchor m (sa_node s) d
        else insertSigmaPredecessor m1 (sa_dart s) d) = Ok m2 /\
     SI m2 (d :: darts m) /\ edges m2 = edges m1 /\ faces m2 = faces m1 /\
     nodeCount m2 = nodeCount m1 /\ edgeCount m2 = edgeCount m1 /\ faceCount m2 = faceCount m1 /\
     cap m1 <= cap m2 /\ Z.abs d <= cap m2 /\
     (nodes m2 = nodes m1 \/ exists nd, nAt m1 (sa_node s) = Some nd /\
          nodes m2 = list_upd (nodes m1) (sa_node s) (Some (set_anchor nd d)))).
  { destruct (sa_sing s).
    - destruct Gs2 as (nd & Hnd & Ha).
      assert (Hnd1 : nAt m1 (sa_node s) = Some nd) by (unfold nAt; rewrite N1; exact Hnd).
      rewrite (deref_node _ _ _ Hnd1). cbn [bind].
      destruct (attach_spec m1 (darts m) (sa_node s) nd d S1) as
          (ma & mb & R1 & R2 & R3 & R4 & R5 & R6 & R7 & R8 & R9 & R10 & R11 & R12); auto; try (rewrite C1; assumption).
      exists mb. rewrite R1. cbn [bind]. rewrite R2. repeat (split; [first [reflexivity | assumption]|]). right; exists nd; auto.
    - destruct Gs2 as [Hin Hst2].
      destruct (insert_spec m1 (darts m) (sa_dart s) d S1) as (ma & R1 & R2 & R3 & R4 & R5); auto;
        try (rewrite C1; assumption).
      { rewrite (Hsto (sa_dart s)) by assumption. congruence. }
      destruct R3. exists ma. repeat (split; [first [reflexivity | assumption]|]). left; assumption. }
  destruct Hins1 as (m2 & R1 & S2 & ED2 & F2 & NC2 & EC2 & FC2 & C2 & Cd2 & N2).
  rewrite R1. cbn [bind].
  assert (Hst2 : forall x, stt m2 x = stt m1 x) by (intros x; unfold stt, eAt; rewrite ED2; reflexivity).
  assert (HnA2 : forall j, nAt m1 j <> None -> nAt m2 j <> None).
  { intros j Hj. destruct N2 as [N2|(nd & Hnd & N2)]; unfold nAt; rewrite N2; [exact Hj|].
    rewrite tget_upd. pose proof (tget_lt _ _ _ Hnd) as Hlt. apply Nat.ltb_lt in Hlt; rewrite Hlt.
    destruct (Nat.eqb (sa_node s) j); [discriminate | exact Hj]. }
  assert (Hdd : ~ In (- d) (d :: darts m)).
  { intros [E|E]; [lia | contradiction]. }
  assert (Hlm2 : eAt m2 (elab (- d)) <> None).
  { rewrite elab_opp. unfold eAt; rewrite ED2. exact Hled. }
  assert (Hins2 : exists m3,
     (if (eqSA e s && (area2 pts <? 0))%bool then
          insertSigmaPredecessor m2 d (- d)
        else if sa_sing e then
          nd <- deref (nodeP m2 (sa_node e)) ;;
          m <- insertSigmaPredecessor m2 (nanchor nd) (- d) ;;
          setNodeAnchor m (sa_node e) (- d)
        else insertSigmaPredecessor m2 (sa_dart e) (- d)) = Ok m3 /\
     SI m3 (- d :: d :: darts m) /\ edges m3 = edges m2 /\ faces m3 = faces m2 /\
     nodeCount m3 = nodeCount m2 /\ edgeCount m3 = edgeCount m2 /\ faceCount m3 = faceCount m2 /\
     cap m2 <= cap m3 /\ Z.abs (- d) <= cap m3 /\
     (nodes m3 = nodes m2 \/ exists nd, nAt m2 (sa_node e) = Some nd /\
          nodes m3 = list_upd (nodes m2) (sa_node e) (Some (set_anchor nd (- d))))).
  { assert (Hc2 : 1 <= cap m2) by lia.
    destruct (eqSA e s && (area2 pts <? 0))%bool eqn:Eq.
    - apply andb_prop in Eq as [Eq _].
      assert (Hnn : sa_node e = sa_node s).
      { unfold eqSA in Eq. destruct (sa_sing e) eqn:E1, (sa_sing s) eqn:E2; simpl in Eq; try discriminate.
        - apply Nat.eqb_eq; assumption.
        - apply Z.eqb_eq in Eq. destruct Gs2, Ge2. congruence. }
      destruct (insert_spec m2 (d :: darts m) d (- d) S2) as (ma & Q1 & Q2 & Q3 & Q4 & Q5); auto; try lia.
      { left; reflexivity. }
      { rewrite !Hst2. congruence. }
      destruct Q3. exists ma. repeat (split; [first [reflexivity | assumption]|]). left; assumption.
    - destruct (sa_sing e) eqn:E1.
      + destruct (nAt m2 (sa_node e)) as [nd|] eqn:Hnd.
        2:{ exfalso. apply (HnA2 (sa_node e)); auto. unfold nAt; rewrite N1; exact Ge1. }
        rewrite (deref_node _ _ _ Hnd). cbn [bind].
        destruct (attach_spec m2 (d :: darts m) (sa_node e) nd (- d) S2) as
          (ma & mb & Q1 & Q2 & Q3 & Q4 & Q5 & Q6 & Q7 & Q8 & Q9 & Q10 & Q11 & Q12); auto; try lia.
        { rewrite Hst2; assumption. }
        exists mb. rewrite Q1. cbn [bind]. rewrite Q2. repeat (split; [first [reflexivity | assumption]|]). right; exists nd; auto.
      + destruct Ge2 as [Hin Hste].
        destruct (insert_spec m2 (d :: darts m) (sa_dart e) (- d) S2) as (ma & Q1 & Q2 & Q3 & Q4 & Q5); auto; try lia.
        { right; assumption. }
        { rewrite !Hst2, (Hsto (sa_dart e)) by assumption. congruence. }
        destruct Q3. exists ma. repeat (split; [first [reflexivity | assumption]|]). left; assumption. }
  destruct Hins2 as (m3 & R3 & S3 & ED3 & F3 & NC3 & EC3 & FC3 & C3 & Cd3 & N3).
  rewrite R3. cbn [bind good fst snd].
  assert (Eed : edges m3 = edges m1) by congruence.
  assert (Hpos1 : forall j, option_map npos (nAt m2 j) = option_map npos (nAt m1 j)).
  { intros j. destruct N2 as [N2|(nd & Hnd & N2)]; unfold nAt; rewrite N2; [reflexivity|].
    rewrite tget_upd. pose proof (tget_lt _ _ _ Hnd) as Hlt. apply Nat.ltb_lt in Hlt; rewrite Hlt.
    destruct (Nat.eqb_spec (sa_node s) j) as [E|]; [|reflexivity]. unfold nAt in Hnd. rewrite <- E, Hnd; reflexivity. }
  assert (Hpos2 : forall j, option_map npos (nAt m3 j) = option_map npos (nAt m2 j)).
  { intros j. destruct N3 as [N3|(nd & Hnd & N3)]; unfold nAt; rewrite N3; [reflexivity|].
    rewrite tget_upd. pose proof (tget_lt _ _ _ Hnd) as Hlt. apply Nat.ltb_lt in Hlt; rewrite Hlt.
    destruct (Nat.eqb_spec (sa_node e) j) as [E|]; [|reflexivity]. unfold nAt in Hnd. rewrite <- E, Hnd; reflexivity. }
  assert (Hal1 : sumf alive (nodes m2) = sumf alive (nodes m1)).
  { destruct N2 as [N2|(nd & Hnd & N2)]; rewrite N2; [reflexivity|].
    rewrite (sumf_tget alive _ _ _ _ Hnd). simpl; lia. }
  assert (Hal2 : sumf alive (nodes m3) = sumf alive (nodes m2)).
  { destruct N3 as [N3|(nd & Hnd & N3)]; rewrite N3; [reflexivity|].
    rewrite (sumf_tget alive _ _ _ _ Hnd). simpl; lia. }
  assert (Hlen1 : length (nodes m2) = length (nodes m1)).
  { destruct N2 as [N2|(nd & Hnd & N2)]; rewrite N2; [reflexivity | apply list_upd_length]. }
  assert (Hlen2 : length (nodes m3) = length (nodes m2)).
  { destruct N3 as [N3|(nd & Hnd & N3)]; rewrite N3; [reflexivity | apply list_upd_length]. }
  assert (HEE : forall j, eAt m3 j = eAt m1 j) by (intros j; unfold eAt; rewrite Eed; reflexivity).
  assert (Hlene : length (edges m3) = S l).
  { rewrite Eed, ED1, !app_length, repeat_length, El. simpl; lia. }
  split; [|repeat split; try congruence].
  - constructor.
    + apply (SI_ext m3 (- d :: d :: darts m)); [|assumption]. intros x. unfold d; rewrite <- HD.
      symmetry. apply live_edges. intros j. rewrite HEE; reflexivity.
    + rewrite HEE, EE. destruct (Nat.eqb_spec 0 l) as [E|_]; [lia | apply (sv_e0 _ V)].
    + lia.
    + rewrite Hlene. unfold d in Cd3. lia.
    + rewrite NC3, NC2, NC1, Hal2, Hal1, N1. apply (sv_nc _ V).
    + rewrite EC3, EC2, EC1, ED3, ED2, ED1, !sumf_app, sumf_repeat, (sv_ec _ V) by reflexivity. simpl; lia.
    + rewrite FC3, FC2, FC1, F3, F2, F1. apply (sv_fc _ V).
  - lia.
  - exists s, e. repeat split; auto. intros j. rewrite HEE. apply EE.
  - intros j. rewrite Hpos2, Hpos1. unfold nAt; rewrite N1; reflexivity.
Qed.
