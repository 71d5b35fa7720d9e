(** C71: what findComponentAnchor() finds. *)
From Coq Require Import Lia.
From Verif Require Import Base CellMap_Model CellMap_Spec CellMap_Main CellSigma_Spec CellSigma_Proofs CellSigma_Results CellLink_Spec CellLink_Proofs CellLink_Main CellLink_Results CellLink_Check CellFace_Spec CellFace_Walk CellFace_Main CellFace_Step CellContour_Orbit CellContour_Spec CellContour_Phi.
Local Open Scope Z_scope.

Section Find.
Variable m : cmap.
Hypothesis Fa : faced m.
Let Wi : wired m. Proof. apply Fa. Qed.
Let im := cim m.
Let Fr : framed im. Proof. apply Wi. Qed.
Let D := isDart im.

(** a node without edges is surrounded by one face *)
Lemma lonely_region d : lonely im d -> typeAt im d 0 = Region.
Proof.
  intros (P & N). destruct Fa as (_ & Pl & Ai & Fi & _). assert (Jo : joined im) by apply Wi. assert (Ri : ringed im) by apply Wi.
  apply (side_alone im Fr Pl Fi Jo Ri d d); auto.
Qed.
Lemma lonely_label a b : lonely im a -> lonely im b -> nodeOf im a = nodeOf im b -> labelAt im a 0 = labelAt im b 0.
Proof.
  intros (P & N) (Q & _) E. destruct Fa as (_ & Pl & Ai & Fi & _). assert (Jo : joined im) by apply Wi. assert (Ri : ringed im) by apply Wi.
  apply (side_alone im Fr Pl Fi Jo Ri b a); auto. rewrite <- E. exact N.
Qed.
Lemma lonely_left d : lonely im d -> beside im d -> leftFaceLabel im d = Ok (labelAt im d 0).
Proof.
  intros (P & N) B. destruct Fa as (_ & Pl & Ai & Fi & _). assert (Jo : joined im) by apply Wi. assert (Ri : ringed im) by apply Wi. assert (Ne : neat im) by apply Wi.
  rewrite leftFace_is by (auto; apply P). f_equal. apply alone_side; auto.
Qed.
Lemma single_lonely d : lonely im d -> isSingular im d = Ok true.
Proof. intros L. unfold isSingular. rewrite neighbor_read by (auto; apply L). cbn [bind]. fold (typeAt im d 0). rewrite (lonely_region d L). reflexivity. Qed.
Lemma phi_lonely d : lonely im d -> nextPhi m d = Ok d.
Proof. intros L. unfold nextPhi, nextAlpha. fold im. rewrite (single_lonely d L). cbn [bind]. unfold prevSigma, sigmaStep. rewrite (single_lonely d L). reflexivity. Qed.
(** the face on the left does not change along a contour *)
Lemma side_phi d : D d -> sideOf im 1 (phi m d) = sideOf im 1 d.
Proof.
  intros H. destruct (alpha_opposite m d (dh_start m Wi) H) as (b & A & Db & _). pose proof (phi_next m Wi d b H A) as N.
  destruct (faced_edge m d b Fa H A) as ((F1 & F2) & _). destruct Fa as (_ & Pl & Ai & Fi & _). assert (Ne : neat im) by apply Wi.
  pose proof (side_next im Fr Ne Pl Ai Fi (-1) b _ ltac:(right; reflexivity) Db N) as S. cbn [Z.opp] in S. fold im in F1. congruence.
Qed.
Lemma side_orb a x : D a -> orb (phi m) a x -> sideOf im 1 x = sideOf im 1 a.
Proof. intros H (k & <-). revert a H. induction k; intros a H; cbn [it]; [reflexivity|]. rewrite IHk by (apply (phi_closed m Wi), H). apply side_phi, H. Qed.
Lemma border_contour l a x : onBorder im l a -> contour m a x -> onBorder im l x.
Proof.
  intros [(H & S)|(L & S)] Q.
  - apply (contour_dart m Wi) in Q; [|exact H]. left. split; [apply (phi_to m Wi a); auto|]. rewrite (side_orb a x); auto.
  - apply (contour_lonely m) in Q; [|exact L]. destruct Q as (Lx & E). right. split; auto. rewrite <- (lonely_label a x); auto.
Qed.

(** ** phiSearch *)
Lemma search c r l : D c -> it r (phi m) c = c -> (forall j, (0 < j < r)%nat -> it j (phi m) c <> c) -> forall f j, (j < r)%nat -> (r - j <= f)%nat ->
  exists b, phiSearch f m c (it j (phi m) c) l = Ok b /\ (b = true <-> exists i, (j < i < r)%nat /\ edgeOf im (it i (phi m) c) = l).
Proof.
  intros Hc E F. induction f as [|f IH]; intros j J Hf; [lia|]. cbn [phiSearch]. pose proof (its_D m Wi j c Hc) as Hj.
  destruct (phi_ok m Wi _ Hj) as (P & Hp). rewrite P. cbn [bind]. rewrite <- it_S in Hp |- *. unfold dartEq. rewrite singular_dart by auto. cbn [bind negb].
  destruct (dartEqb (it (Datatypes.S j) (phi m) c) c) eqn:Q; cbn [bind].
  - apply dart_ext in Q; [|apply Hp|apply Hc]. assert (Datatypes.S j = r). { destruct (Nat.eq_dec (Datatypes.S j) r) as [|N]; auto. exfalso. apply (F (Datatypes.S j)); [lia|exact Q]. }
    exists false. split; [reflexivity|]. split; [discriminate|]. intros (i & I & _). lia.
  - assert (N : Datatypes.S j <> r). { intros X. rewrite X, E in Q. unfold dartEqb in Q. rewrite !Z.eqb_refl in Q. discriminate Q. }
    rewrite edgeLabel_dart by (auto; apply Hp). cbn [bind]. fold im. destruct (Z.eqb_spec (edgeOf im (it (Datatypes.S j) (phi m) c)) l) as [L|L].
    + exists true. split; [reflexivity|]. split; auto. intros _. exists (Datatypes.S j). split; [lia|exact L].
    + destruct (IH (Datatypes.S j) ltac:(lia) ltac:(lia)) as (b & B1 & B2). exists b. split; [exact B1|]. rewrite B2. split; intros (i & I & Li); exists i; (split; [|exact Li]); [lia|].
      destruct (Nat.eq_dec i (Datatypes.S j)) as [->|]; [contradiction|lia].
Qed.
Lemma search_dart c l : D c -> edgeOf im c <> l -> exists b, phiSearch (walkFuel im) m c c l = Ok b /\ (b = true <-> exists x, contour m c x /\ D x /\ edgeOf im x = l).
Proof.
  intros H N. destruct (phi_round m Wi c H) as (r & R & Rf & E & F). destruct (search c r l H E F (walkFuel im) 0%nat R ltac:(fold im in Rf; lia)) as (b & B1 & B2). exists b. split; [exact B1|]. rewrite B2. split.
  - intros (i & I & L). exists (it i (phi m) c). split; [apply contour_dart; auto; exists i; reflexivity|]. split; [apply its_D; auto|exact L].
  - intros (x & Q & _ & L). apply (contour_dart m Wi) in Q; [|exact H]. destruct (orb_bound (phi m) c x r E R Q) as (j & J & Ej). exists j. split; [|rewrite Ej; exact L].
    destruct j as [|j]; [cbn in Ej; subst x; contradiction|lia].
Qed.
Lemma search_lonely c l : lonely im c -> phiSearch (walkFuel im) m c c l = Ok false.
Proof.
  intros L. destruct (walkFuel im) as [|f] eqn:W; [unfold walkFuel in W; lia|]. cbn [phiSearch]. rewrite (phi_lonely c L). cbn [bind]. unfold dartEq. fold im. rewrite (single_lonely c L). cbn [bind negb].
  rewrite nodeLabel_dart by apply L. cbn [bind]. rewrite Z.eqb_refl. reflexivity.
Qed.

Definition known (cs : list dart) : Prop := forall a, In a cs -> D a \/ lonely im a.
Lemma known_tail c t : known (c :: t) -> (D c \/ lonely im c) /\ known t.
Proof. intros K. split; [apply K; left; reflexivity|]. intros a I. apply K. right. exact I. Qed.
Lemma find_edge cs l : known cs -> forall i, exists o, findEdge im cs l i = Ok o /\
  match o with
  | Some k => exists j a, k = (i + j)%nat /\ nth_error cs j = Some a /\ D a /\ edgeOf im a = l
  | None => forall a, In a cs -> D a -> edgeOf im a <> l
  end.
Proof.
  induction cs as [|c t IH]; intros K i; cbn [findEdge]; [exists None; split; [reflexivity|intros a []]|].
  destruct (known_tail c t K) as (Kc & Kt). destruct (IH Kt (S i)) as (o & Eo & Q).
  assert (G : ~ (D c /\ edgeOf im c = l) -> exists o, findEdge im t l (S i) = Ok o /\ match o with Some k => exists j a, k = (i + j)%nat /\ nth_error (c :: t) j = Some a /\ D a /\ edgeOf im a = l | None => forall a, In a (c :: t) -> D a -> edgeOf im a <> l end).
  { intros N. exists o. split; [exact Eo|]. destruct o as [k|].
    - destruct Q as (j & a & -> & J & Q). exists (S j), a. split; [lia|]. split; auto.
    - intros a [<-|I] Da L; [apply N; auto|apply (Q a I Da L)]. }
  destruct Kc as [Dc|Lc].
  - rewrite singular_dart by auto. cbn [bind]. rewrite edgeLabel_dart by (auto; apply Dc). cbn [bind]. destruct (Z.eqb_spec (edgeOf im c) l) as [L|L]; [|apply G; tauto].
    exists (Some i). split; [reflexivity|]. exists 0%nat, c. split; [lia|]. auto.
  - rewrite (single_lonely c Lc). cbn [bind]. apply G. intros (X & _). apply (lonely_not m c Lc X).
Qed.
Lemma find_contour cs l : known cs -> (forall a, In a cs -> D a -> edgeOf im a <> l) -> forall i, exists o, findContour m cs l i = Ok o /\
  match o with
  | Some k => exists j a x, k = (i + j)%nat /\ nth_error cs j = Some a /\ contour m a x /\ D x /\ edgeOf im x = l
  | None => forall a x, In a cs -> contour m a x -> D x -> edgeOf im x <> l
  end.
Proof.
  induction cs as [|c t IH]; intros K N i; cbn [findContour]; [exists None; split; [reflexivity|intros a x []]|].
  destruct (known_tail c t K) as (Kc & Kt). destruct (IH Kt (fun a I => N a (or_intror I)) (S i)) as (o & Eo & Q).
  assert (B : exists b, phiSearch (walkFuel im) m c c l = Ok b /\ (b = true <-> exists x, contour m c x /\ D x /\ edgeOf im x = l)).
  { destruct Kc as [Dc|Lc]; [apply search_dart; auto; apply N; auto; left; reflexivity|]. exists false. split; [apply search_lonely, Lc|]. split; [discriminate|].
    intros (x & C & Dx & _). exfalso. apply (contour_lonely m) in C; [|exact Lc]. apply (lonely_not m x (proj1 C) Dx). }
  destruct B as (b & B1 & B2). fold im. rewrite B1. cbn [bind]. destruct b.
  - exists (Some i). split; [reflexivity|]. destruct (proj1 B2 eq_refl) as (x & C & Dx & L). exists 0%nat, c, x. split; [lia|]. auto.
  - exists o. split; [exact Eo|]. destruct o as [k|].
    + destruct Q as (j & a & x & -> & J & Q). exists (S j), a, x. split; [lia|]. split; auto.
    + intros a x [<-|I] C Dx L; [|apply (Q a x I C Dx L)]. assert (X : false = true) by (apply B2; exists x; auto). discriminate X.
Qed.
Lemma find_node cs l : known cs -> forall i, exists o, findNode im cs l i = Ok o /\
  match o with
  | Some k => exists j a, k = (i + j)%nat /\ nth_error cs j = Some a /\ nodeOf im a = l
  | None => forall a, In a cs -> nodeOf im a <> l
  end.
Proof.
  induction cs as [|c t IH]; intros K i; cbn [findNode]; [exists None; split; [reflexivity|intros a []]|].
  destruct (known_tail c t K) as (Kc & Kt). destruct (IH Kt (S i)) as (o & Eo & Q).
  assert (V : vertexAt im (dcx c) (dcy c)) by (destruct Kc as [X|X]; apply X). rewrite nodeLabel_dart by exact V. cbn [bind]. destruct (Z.eqb_spec (nodeOf im c) l) as [L|L].
  - exists (Some i). split; [reflexivity|]. exists 0%nat, c. split; [lia|]. auto.
  - exists o. split; [exact Eo|]. destruct o as [k|].
    + destruct Q as (j & a & -> & J & Q). exists (S j), a. split; [lia|]. split; auto.
    + intros a [<-|I]; [exact L|apply (Q a I)].
Qed.

(** [i] is the position of the only anchor whose contour has a dart of the edge *)
Lemma find_dart cs d i a x : known cs -> D d -> nth_error cs i = Some a -> contour m a x -> D x -> edgeOf im x = edgeOf im d ->
  (forall j b y, nth_error cs j = Some b -> contour m b y -> D y -> edgeOf im y = edgeOf im d -> j = i) -> findComponentAnchor m cs d = Ok i.
Proof.
  intros K Hd Hi C Dx L U. unfold findComponentAnchor. destruct (Nat.eqb_spec (length cs) 1) as [Le|Le].
  - destruct cs as [|c [|c' t]]; cbn in Le; try lia. destruct i as [|[|i]]; [reflexivity|discriminate Hi|discriminate Hi].
  - fold im. rewrite singular_dart by auto. cbn [bind]. rewrite edgeLabel_dart by (auto; apply Hd). cbn [bind].
    destruct (find_edge cs (edgeOf im d) K 0%nat) as (o & Eo & Q). fold im in Eo. rewrite Eo. cbn [bind]. destruct o as [k|].
    + destruct Q as (j & b & -> & J & Db & Lb). cbn. f_equal. apply (U j b b); auto. apply contour_refl; auto.
    + destruct (find_contour cs (edgeOf im d) K Q 0%nat) as (o & Eo' & Q'). rewrite Eo'. cbn [bind]. destruct o as [k|]; cbn [orFail].
      * destruct Q' as (j & b & y & -> & J & Cy & Dy & Ly). cbn. f_equal. apply (U j b y); auto.
      * exfalso. apply (Q' a x (nth_error_In _ _ Hi) C Dx L).
Qed.
Lemma find_lonely cs d i a : known cs -> lonely im d -> nth_error cs i = Some a -> contour m a d ->
  (forall j b, nth_error cs j = Some b -> contour m b d -> j = i) -> findComponentAnchor m cs d = Ok i.
Proof.
  intros K Hd Hi C U. unfold findComponentAnchor. destruct (Nat.eqb_spec (length cs) 1) as [Le|Le].
  - destruct cs as [|c [|c' t]]; cbn in Le; try lia. destruct i as [|[|i]]; [reflexivity|discriminate Hi|discriminate Hi].
  - fold im. rewrite (single_lonely d Hd). cbn [bind]. rewrite nodeLabel_dart by apply Hd. cbn [bind].
    assert (Eq_ : forall b, In b cs -> nodeOf im b = nodeOf im d -> contour m b d).
    { intros b I E. destruct (K b I) as [Db|Lb]; [exfalso; apply (proj2 Hd b Db E)|]. apply contour_lonely; auto. }
    destruct (find_node cs (nodeOf im d) K 0%nat) as (o & Eo & Q). fold im in Eo. rewrite Eo. cbn [bind]. destruct o as [k|]; cbn [orFail].
    + destruct Q as (j & b & -> & J & E). cbn. f_equal. apply (U j b J). apply Eq_; auto. eapply nth_error_In, J.
    + exfalso. apply (Q a (nth_error_In _ _ Hi)). apply (contour_sym m Wi) in C. apply (contour_lonely m) in C; [|exact Hd]. symmetry. apply C.
Qed.
End Find.
