(** C71: what becomes of the contours when an edge is taken away. *)
From Coq Require Import Lia Permutation.
From Verif Require Import Base CellMap_Model CellMap_Spec CellMap_Main CellSigma_Spec CellSigma_Proofs CellSigma_Results CellLink_Spec CellLink_Proofs CellLink_Main CellLink_Results CellLink_Check CellFace_Spec CellFace_Walk CellFace_Main CellFace_Step CellContour_Orbit CellContour_Spec CellContour_Phi CellContour_Find.
Local Open Scope Z_scope.

Lemma apart_perm (R : dart -> dart -> Prop) (Rs : forall a b, R a b -> R b a) u v : Permutation u v -> apart R u -> apart R v.
Proof.
  induction 1 as [|x u v P IH|x y u|u v w P1 IH1 P2 IH2]; cbn [apart]; auto.
  - intros (A & B). split; [|auto]. intros b I. apply A. apply (Permutation_in b (Permutation_sym P) I).
  - intros (A & B & C). split; [|split; [|exact C]].
    + intros b [<-|I]; [intros Q; apply (A x (or_introl eq_refl)), Rs, Q|apply B, I].
    + intros b I. apply A. right. exact I.
Qed.
Lemma cover_perm (T : dart -> Prop) (R : dart -> dart -> Prop) (Rs : forall a b, R a b -> R b a) u v : Permutation u v -> cover T R u -> cover T R v.
Proof.
  intros P (A & B & C). split; [|split].
  - intros a I. apply A. apply (Permutation_in a (Permutation_sym P) I).
  - intros x X. destruct (B x X) as (a & I & Q). exists a. split; auto. apply (Permutation_in a P I).
  - apply (apart_perm R Rs u); auto.
Qed.
Lemma covers_cover m l cs : faced m -> (covers m l cs <-> cover (onBorder (cim m) l) (contour m) cs /\ forall a, In a cs -> isDart (cim m) a \/ beside (cim m) a).
Proof.
  intros Fa. assert (Wi : wired m) by apply Fa. rewrite cover_index.
  - unfold covers. split; [intros (A & B); split; [split; [intros a I; apply A, I|exact B]|intros a I; apply A, I]|intros ((A & B) & C); split; auto].
  - apply (contour_sym m Wi).
  - apply (contour_trans m Wi).
  - intros a [(X & _)|(X & _)]; apply contour_refl; auto.
Qed.
Lemma border_unique im l k x : onBorder im l x -> onBorder im k x -> l = k.
Proof.
  intros [(A & B)|(A & B)] [(C & E)|(C & E)]; try congruence; exfalso; [apply (proj2 C x A)|apply (proj2 A x C)]; reflexivity.
Qed.
Lemma border_known im l x : onBorder im l x -> isDart im x \/ lonely im x.
Proof. intros [(A & _)|(A & _)]; auto. Qed.
(** a dart that is its own neighbour is the only one of its node *)
Lemma own_neighbour im a : framed im -> neat im -> ringed im -> isDart im a -> nextDart im (-1) a a -> forall d, isDart im d -> nodeOf im d = nodeOf im a -> d = a.
Proof.
  intros Fr Ne Ri A N d D E. assert (N' : nextDart im 1 a a) by (apply (next_back im Fr (-1)); auto; right; reflexivity).
  destruct (two_around im a a Fr Ne Ri A A N' N' d D E); auto.
Qed.

Section Cut.
Variables (m m' : cmap) (s el : Z) (gone : list (ctype * Z)) (a b : dart).
Hypothesis Fa : faced m.
Hypothesis Fa' : faced m'.
Hypothesis Ta : takenOver m m' Region s gone.
Hypothesis Ge : In (Line, el) gone.
Hypothesis Gg : forall u k, In (u, k) gone -> (u = Line /\ k = el) \/ u = Region.
Hypothesis Da : isDart (cim m) a.
Hypothesis Ea : edgeOf (cim m) a = el.
Hypothesis Ab : nextAlpha m a = Ok b.
Hypothesis Sa : ren gone s (sideOf (cim m) 1 a) = s.
Hypothesis Sb : ren gone s (sideOf (cim m) 1 b) = s.
Let im := cim m.
Let im' := cim m'.
Let Wi : wired m. Proof. apply Fa. Qed.
Let Wi' : wired m'. Proof. apply Fa'. Qed.
Let Fr : framed im. Proof. apply Wi. Qed.
Let Fr' : framed im'. Proof. apply Wi'. Qed.
Let Jo : joined im. Proof. apply Wi. Qed.
Let Ne : neat im. Proof. apply Wi. Qed.
Let Ri : ringed im. Proof. apply Wi. Qed.
Let Ti' : tidy m'. Proof. apply Wi'. Qed.
Let Re : repaint im im' Region s gone := taken_repaint _ _ _ _ _ Ta.
Let W1 : way 1. Proof. left. reflexivity. Qed.
Let Wm : way (-1). Proof. right. reflexivity. Qed.
Let f := phi m.
Let g := phi m'.

Lemma ab_facts : isDart im b /\ b <> a /\ nextAlpha m b = Ok a /\ edgeOf im b = el /\ forall x, isDart im x -> (edgeOf im x = el <-> x = a \/ x = b).
Proof.
  destruct (alpha_opposite m a (dh_start m Wi) Da) as (b' & A & Db & N & Bk & U). assert (b' = b) by congruence. subst b'. split; auto. split; auto. split; auto.
  assert (G : forall x, isDart im x -> (edgeOf im x = el <-> x = a \/ x = b)).
  { intros x Dx. rewrite <- U by exact Dx. rewrite !edgeLabel_dart by (auto; apply Dx || apply Da). fold im. change (edgeOf im a = el) in Ea. rewrite Ea. split; congruence. }
  split; [apply G; auto|exact G].
Qed.
Let Db : isDart im b. Proof. apply ab_facts. Qed.
Let Nab : a <> b. Proof. intros X. apply ab_facts. auto. Qed.
Let Ba : nextAlpha m b = Ok a. Proof. apply ab_facts. Qed.

Lemma dart_stay x : isDart im' x <-> stay (isDart im) a b x.
Proof.
  unfold im, im'. rewrite (cut_darts m m' s el gone Wi Ta Ge Gg). split.
  - intros (D & N). split; auto. split; intros ->; apply N; apply ab_facts; auto.
  - intros (D & N1 & N2). split; auto. intros E. apply ab_facts in E; auto. destruct E; auto.
Qed.
Lemma node_kept x : vertexAt im (dcx x) (dcy x) -> nodeOf im' x = nodeOf im x.
Proof. apply (cut_node m m' s el gone Ta Gg). Qed.
Lemma place_kept x : isPlace im' x <-> isPlace im x.
Proof. apply (cut_place m m' s el gone Wi Ta Gg). Qed.
Lemma alpha_kept x : isDart im' x -> nextAlpha m' x = nextAlpha m x.
Proof.
  intros D'. pose proof (proj1 (cut_darts m m' s el gone Wi Ta Ge Gg x) D') as (D & N).
  destruct (alpha_opposite m x (dh_start m Wi) D) as (y & A & Dy & Ny & _ & U). destruct (alpha_opposite m' x (dh_start m' Wi') D') as (y' & A' & Dy' & Ny' & _ & U').
  assert (Ey : edgeOf im y = edgeOf im x).
  { assert (Q : edgeLabel im y = edgeLabel im x) by (apply U; auto). rewrite !edgeLabel_dart in Q by (auto; apply D || apply Dy). congruence. }
  assert (Dy2 : isDart im' y) by (apply (cut_darts m m' s el gone Wi Ta Ge Gg y); split; [exact Dy|]; fold im; rewrite Ey; exact N).
  assert (X : y = x \/ y = y').
  { apply U'; auto. rewrite !edgeLabel_dart by (auto; apply D' || apply Dy2). rewrite !(cut_edge m m' s el gone Wi Ta Ge Gg) by auto. fold im. rewrite Ey. reflexivity. }
  destruct X as [|<-]; [contradiction|]. congruence.
Qed.

(** walking around a node *)
Lemma next_kept n z y : way n -> isPlace im z -> nextDart im n z y -> isDart im' y -> nextDart im' n z y.
Proof.
  intros W P (D & k & K & E & L) D'. assert (P' : isPlace im' z) by (apply place_kept, P). split; auto. exists k.
  assert (Pl : forall j, places j im' n z = places j im n z) by (intros j; apply (places_after im im' Region s gone); auto; discriminate).
  rewrite Pl. split; auto. split; auto. intros j J. rewrite Pl. intros X. apply (L j J). apply dart_stay in X. apply X.
Qed.
Lemma next_skip n z c y : way n -> isPlace im z -> nextDart im n z c -> ~ isDart im' c -> nextDart im' n c y -> nextDart im' n z y.
Proof.
  intros W P (D & k & K & E & L) Nc (Dy & i & I & Ei & Li). assert (P' : isPlace im' z) by (apply place_kept, P). split; auto. exists (k + i)%nat.
  assert (Pl : forall j, places j im' n z = places j im n z) by (intros j; apply (places_after im im' Region s gone); auto; discriminate).
  assert (Ec : places k im' n z = c) by (rewrite Pl; exact E). split; [lia|]. split; [rewrite places_add, Ec; exact Ei|]. intros j J X.
  destruct (Nat.lt_trichotomy j k) as [T|[T|T]].
  - apply (L j ltac:(lia)). rewrite Pl in X. apply dart_stay in X. apply X.
  - subst j. rewrite Ec in X. contradiction.
  - replace j with (k + (j - k))%nat in X by lia. rewrite places_add, Ec in X. apply (Li (j - k)%nat); [lia|exact X].
Qed.
Lemma not_a : ~ isDart im' a. Proof. rewrite dart_stay. intros (_ & N & _). auto. Qed.
Lemma not_b : ~ isDart im' b. Proof. rewrite dart_stay. intros (_ & _ & N). auto. Qed.
Let Na : nextDart im (-1) a (f b) := phi_next m Wi b a Db Ba.
Let Nb : nextDart im (-1) b (f a) := phi_next m Wi a b Da Ab.
Let St := stay (isDart im) a b.
Lemma g_from x y : St x -> (forall z, isPlace im z -> nextDart im (-1) z (f x) -> nextDart im' (-1) z y) -> g x = y.
Proof.
  intros S H. assert (D' : isDart im' x) by (apply dart_stay, S). destruct (alpha_opposite m x (dh_start m Wi) (proj1 S)) as (z & A & Dz & _).
  apply (phi_is m' Wi' x z); [exact D'|rewrite alpha_kept by exact D'; exact A|]. apply H; [apply dart_place, Dz|]. apply (phi_next m Wi); auto. apply S.
Qed.
Lemma gf_same x : St x -> St (f x) -> g x = f x.
Proof. intros S F. apply g_from; auto. intros z P N. apply next_kept; auto. apply dart_stay, F. Qed.
Lemma gf_a x : St x -> f x = a -> St (f b) -> g x = f b.
Proof.
  intros S E F. apply g_from; auto. intros z P N. rewrite E in N. apply (next_skip (-1) z a); auto; [apply not_a|]. apply next_kept; auto; [apply dart_place, Da|apply dart_stay, F].
Qed.
Lemma gf_b x : St x -> f x = b -> St (f a) -> g x = f a.
Proof.
  intros S E F. apply g_from; auto. intros z P N. rewrite E in N. apply (next_skip (-1) z b); auto; [apply not_b|]. apply next_kept; auto; [apply dart_place, Db|apply dart_stay, F].
Qed.
Lemma gf_ab x : St x -> f x = a -> f b = b -> g x = f a.
Proof.
  intros S E F. assert (Sf : St (f a)).
  { split; [apply phi_closed; auto|]. split; intros X.
    - apply (proj1 (proj2 S)). apply (phi_inj m Wi); [apply S|exact Da|]. fold f. congruence.
    - apply Nab. apply (phi_inj m Wi); auto. fold f. congruence. }
  apply g_from; auto. intros z P N. rewrite E in N. apply (next_skip (-1) z a); auto; [apply not_a|]. pose proof Na as Na'. rewrite F in Na'.
  apply (next_skip (-1) a b); auto; [apply dart_place, Da|apply not_b|]. apply next_kept; auto; [apply dart_place, Db|apply dart_stay, Sf].
Qed.
Lemma gf_ba x : St x -> f x = b -> f a = a -> g x = f b.
Proof.
  intros S E F. assert (Sf : St (f b)).
  { split; [apply phi_closed; auto|]. split; intros X.
    - apply Nab. apply (phi_inj m Wi); auto. fold f. congruence.
    - apply (proj2 (proj2 S)). apply (phi_inj m Wi); [apply S|exact Db|]. fold f. congruence. }
  apply g_from; auto. intros z P N. rewrite E in N. apply (next_skip (-1) z b); auto; [apply not_b|]. pose proof Nb as Nb'. rewrite F in Nb'.
  apply (next_skip (-1) b a); auto; [apply dart_place, Db|apply not_a|]. apply next_kept; auto; [apply dart_place, Da|apply dart_stay, Sf].
Qed.
Let cl := phi_closed m Wi.
Let ij := phi_inj m Wi.
Let bk := phi_return m Wi.

(** ** Which contours change *)
Definition far (x : dart) : Prop := (isDart im x \/ lonely im x) /\ ~ contour m a x /\ ~ contour m b x.
Lemma near_contour x : near f a b x <-> contour m a x \/ contour m b x.
Proof. unfold near. rewrite !(contour_dart m Wi) by auto. reflexivity. Qed.
Lemma lonely_after x : lonely im' x <-> isPlace im x /\ forall e, isDart im e -> nodeOf im e = nodeOf im x -> e = a \/ e = b.
Proof.
  unfold lonely. rewrite place_kept. split.
  - intros (P & N). split; auto. intros e D E. destruct (dart_eq_dec e a); auto. destruct (dart_eq_dec e b); auto. exfalso.
    apply (N e); [apply dart_stay; split; auto|]. rewrite !node_kept by (apply P || apply D). exact E.
  - intros (P & N). split; auto. intros e D E. apply dart_stay in D. destruct D as (D & N1 & N2). rewrite !node_kept in E by (apply P || apply D). destruct (N e D E); auto.
Qed.
Lemma lonely_still x : lonely im x -> lonely im' x.
Proof. intros (P & N). apply lonely_after. split; auto. intros e D E. exfalso. apply (N e D E). Qed.
Lemma lonely_new x : lonely im' x -> lonely im x \/ nodeOf im x = nodeOf im a \/ nodeOf im x = nodeOf im b.
Proof.
  intros L. apply lonely_after in L. destruct L as (P & N). destruct (Z.eq_dec (nodeOf im x) (nodeOf im a)); auto. destruct (Z.eq_dec (nodeOf im x) (nodeOf im b)); auto.
  left. split; auto. intros e D E. destruct (N e D E) as [-> | ->]; congruence.
Qed.
Lemma far_dart x : far x -> isDart im x -> isDart im' x.
Proof.
  intros (_ & N1 & N2) D. apply dart_stay. split; auto. split; intros ->; [apply N1|apply N2]; apply contour_refl; auto.
Qed.
Lemma far_known x : far x -> isDart im' x \/ lonely im' x.
Proof. intros F. pose proof F as ([D|L] & _); [left; apply far_dart; auto|right; apply lonely_still, L]. Qed.
Lemma far_contour x y : far x -> (contour m' x y <-> contour m x y).
Proof.
  intros F. pose proof F as ([D|L] & N1 & N2).
  - pose proof (far_dart x F D) as D'. rewrite (contour_dart m' Wi'), (contour_dart m Wi) by auto.
    apply (away dart_eq_dec (isDart im) f cl ij bk a b Da Db Nab g gf_same gf_a gf_b gf_ab gf_ba); [apply dart_stay, D'|]. rewrite near_contour. tauto.
  - pose proof (lonely_still x L) as L'. rewrite (contour_lonely m'), (contour_lonely m) by auto. split; intros (Ly & E).
    + pose proof (proj1 (proj1 (lonely_after y) Ly)) as P. rewrite !node_kept in E by (apply L || apply P). split; [|exact E]. split; auto. intros e De Ee. apply (proj2 L e De). fold im in E, Ee |- *. rewrite Ee. symmetry. exact E.
    + split; [apply lonely_still, Ly|]. rewrite !node_kept by (apply L || apply Ly). exact E.
Qed.
Lemma far_along x y : far x -> contour m x y -> far y.
Proof.
  intros (K & N1 & N2) C. split; [|split].
  - destruct C as [(D & O)|(_ & L & _)]; auto. left. rewrite (phis_orb m Wi) in O by exact D. apply (phi_to m Wi x); auto.
  - intros X. apply N1. apply (contour_trans m Wi _ y); auto. apply (contour_sym m Wi), C.
  - intros X. apply N2. apply (contour_trans m Wi _ y); auto. apply (contour_sym m Wi), C.
Qed.

(** ** Labels *)
Lemma dart_label x : isDart im' x -> sideOf im' 1 x = ren gone s (sideOf im 1 x).
Proof. intros D. pose proof Fa as (_ & Pl & Ai & Fi & _). apply (cut_side im im' s el gone); auto. apply Wi. Qed.
Lemma lonely_kept x : lonely im x -> labelAt im' x 0 = ren gone s (labelAt im x 0).
Proof.
  intros L. pose proof (lonely_region m Fa x L) as T. fold im in T. destruct (neighbor_in im Fr _ _ ((ddir x + 0) mod 8) (proj1 (proj1 L))) as (X & Y).
  unfold labelAt. rewrite (region_after im im' Region s gone Re (or_introl eq_refl) _ _ X Y T). reflexivity.
Qed.
Lemma end_label e : e = a \/ e = b -> labelAt im' e 0 = s.
Proof.
  intros E. assert (De : isDart im e /\ edgeOf im e = el) by (destruct E as [-> | ->]; [split; [exact Da|exact Ea]|split; [exact Db|exact (proj1 (proj2 (proj2 (proj2 ab_facts))))]]). destruct De as (De & Le). destruct (dart_owns im Fr e De) as (X & Y & P).
  destruct e as [x y k]. rewrite label0 by apply De. cbn [dcx dcy ddir] in *. destruct (pixel_after im im' Region s gone Re _ _ X Y) as [(_ & ->)|(N & _)]; [reflexivity|].
  exfalso. apply N. rewrite P. cbn [ptype plabel]. rewrite Le. exact Ge.
Qed.
Lemma new_label x : lonely im' x -> (nodeOf im x = nodeOf im a \/ nodeOf im x = nodeOf im b) -> labelAt im' x 0 = s.
Proof.
  intros L E. assert (G : forall e, e = a \/ e = b -> nodeOf im x = nodeOf im e -> labelAt im' x 0 = s).
  { intros e He Ee. assert (De : isDart im e) by (destruct He as [-> | ->]; auto).
    assert (Le : lonely im' e). { apply lonely_after. split; [apply dart_place, De|]. rewrite <- Ee. apply lonely_after, L. }
    transitivity (labelAt im' e 0); [|apply end_label, He]. apply (lonely_label m' Fa' x e L Le). fold im'. rewrite !node_kept; [exact Ee|apply De|]. apply (proj1 (place_kept x) (proj1 L)). }
  destruct E as [E|E]; [apply (G a)|apply (G b)]; auto.
Qed.
Lemma side_near x : near f a b x -> ren gone s (sideOf im 1 x) = s.
Proof.
  intros [X|X]; [pose proof (side_orb m Fa a x Da X) as Q|pose proof (side_orb m Fa b x Db X) as Q]; fold im in Q; rewrite Q; auto.
Qed.
(** what the border of a face is afterwards *)
Lemma border_after l x : onBorder im' l x -> (far x /\ exists k, onBorder im k x /\ ren gone s k = l) \/
  (l = s /\ isDart im' x /\ near f a b x) \/ (l = s /\ lonely im' x /\ (nodeOf im x = nodeOf im a \/ nodeOf im x = nodeOf im b)).
Proof.
  intros [(D' & S)|(L' & S)].
  - pose proof (proj1 (proj1 (dart_stay x) D')) as D. rewrite dart_label in S by exact D'.
    assert (X : near f a b x \/ ~ near f a b x) by (unfold near; destruct (phi_or m Wi a x Da); [tauto|]; destruct (phi_or m Wi b x Db); tauto). destruct X as [X|X].
    + right. left. split; [|auto]. rewrite <- S. apply side_near, X.
    + left. rewrite near_contour in X. split; [split; [auto|tauto]|]. exists (sideOf im 1 x). split; [left; auto|exact S].
  - destruct (lonely_new x L') as [L|N]; [|right; right; rewrite new_label in S by auto; auto]. left. rewrite lonely_kept in S by exact L.
    split; [split; [auto|]|exists (labelAt im x 0); split; [right; auto|exact S]].
    split; rewrite (contour_dart m Wi) by auto; intros O; apply (lonely_not m x L); [apply (phi_to m Wi a)|apply (phi_to m Wi b)]; auto.
Qed.
Lemma far_border k x : far x -> onBorder im k x -> onBorder im' (ren gone s k) x.
Proof.
  intros F [(D & S)|(L & S)].
  - pose proof (far_dart x F D) as D'. left. split; auto. rewrite dart_label by auto. congruence.
  - right. split; [apply lonely_still, L|]. rewrite lonely_kept by auto. congruence.
Qed.
Lemma border_far k x : onBorder im k x -> k <> sideOf im 1 a -> k <> sideOf im 1 b -> far x.
Proof.
  intros B N1 N2. split; [apply (border_known im k x B)|]. split; intros C; [apply N1|apply N2]; apply (border_unique im k _ x B); eapply (border_contour m Fa); eauto; left; auto.
Qed.
Lemma beside_kept x : isDart im x \/ (isPlace im x /\ beside im x) -> ~ isDart im x \/ (x <> a /\ x <> b) -> isDart im' x \/ beside im' x.
Proof.
  intros [D|(P & B)] N.
  - left. apply dart_stay. split; auto. tauto.
  - right. assert (G : forall k, typeAt im x k = Region -> typeAt im' x k = Region).
    { intros k T. unfold typeAt in *. destruct (neighbor_in im Fr _ _ ((ddir x + k) mod 8) (proj1 P)) as (X & Y). rewrite (region_after im im' Region s gone) by auto. reflexivity. }
    destruct B as [B|B]; [left|right]; auto.
Qed.
Lemma end_beside e : e = a \/ e = b -> beside im' e.
Proof.
  intros E. assert (De : isDart im e) by (destruct E as [-> | ->]; auto). pose proof Fa as (_ & _ & Ai & _). pose proof (dart_beside im 1 e Ai W1 De) as Q.
  assert (G : forall k, typeAt im e k = Region -> typeAt im' e k = Region).
  { intros k T. unfold typeAt in *. destruct (neighbor_in im Fr _ _ ((ddir e + k) mod 8) (proj1 De)) as (X & Y). rewrite (region_after im im' Region s gone) by auto. reflexivity. }
  destruct Q as [Q|Q]; [left|right]; auto.
Qed.

(** a face that has nothing to do with the edge *)
Lemma other_covers l cs : l <> s -> ~ In (Region, l) gone -> covers m l cs -> covers m' l cs.
Proof.
  intros Ns Ng C. rewrite covers_cover in * by auto. destruct C as ((A & B & Ap) & Be). fold im in A, B, Be.
  assert (Rl : ren gone s l = l) by (apply ren_none, Ng).
  assert (Na_ : l <> sideOf im 1 a) by (intros X; pose proof Sa as Q; fold im in Q; rewrite <- X in Q; congruence). assert (Nb_ : l <> sideOf im 1 b) by (intros X; pose proof Sb as Q; fold im in Q; rewrite <- X in Q; congruence).
  assert (F : forall x, onBorder im l x -> far x) by (intros x X; apply (border_far l); auto). split; [split; [|split]|].
  - intros x I. fold im'. rewrite <- Rl. apply far_border; auto.
  - intros x X. destruct (border_after l x X) as [(Fx & k & Bk & Ek)|[(X0 & _)|(X0 & _)]]; try contradiction.
    assert (k = l) by (unfold ren in Ek; destruct (in_dec _ _ _); congruence). subst k. destruct (B x Bk) as (c & I & Q). exists c. split; auto. apply far_contour; auto.
  - apply apart_nth; [apply (contour_sym m' Wi')|]. rewrite (apart_nth _ (contour_sym m Wi)) in Ap. intros i j x y X Y N. rewrite far_contour by (apply F, A; eapply nth_error_In, X). apply (Ap i j); auto.
  - intros x I. fold im'. destruct (border_known im l x (A x I)) as [D|L]; [left; apply far_dart; auto|]. destruct (Be x I) as [D|Q]; [left; apply far_dart; auto|].
    apply beside_kept; [right; split; auto; apply L|]. left. apply (lonely_not m x L).
Qed.
(** the face that remains: the anchors far from the edge stay, those in [ns] are for the rest *)
Definition rest (x : dart) : Prop := (isDart im' x /\ near f a b x) \/ (lonely im' x /\ (nodeOf im x = nodeOf im a \/ nodeOf im x = nodeOf im b)).
Lemma rest_border x : rest x -> onBorder im' s x.
Proof.
  intros [(D & N)|(L & N)]; [left|right]; (split; [assumption|]); [|apply new_label; auto]. rewrite dart_label by auto. apply side_near, N.
Qed.
Lemma rest_not_far x : rest x -> ~ far x.
Proof.
  intros [(D & N)|(L & N)] (K & N1 & N2); [apply near_contour in N; tauto|]. assert (V : isPlace im x) by apply (proj1 (proj1 (lonely_after x) L)).
  destruct K as [D|Lx]; [|destruct N as [N|N]; [apply (proj2 Lx a Da)|apply (proj2 Lx b Db)]; auto].
  destruct (proj2 (proj1 (lonely_after x) L) x D eq_refl) as [-> | ->]; [apply N1|apply N2]; apply contour_refl; auto.
Qed.
Lemma main_covers fs ns cs : Permutation (ns ++ fs) cs ->
  (forall x, In x fs -> far x /\ (isDart im x \/ beside im x) /\ exists k, onBorder im k x /\ ren gone s k = s) ->
  (forall x k, far x -> onBorder im k x -> ren gone s k = s -> exists c, In c fs /\ contour m c x) -> apart (contour m) fs ->
  (forall x, In x ns -> rest x) -> (forall x, In x ns -> isDart im' x \/ beside im' x) -> (forall x, rest x -> exists c, In c ns /\ contour m' c x) -> apart (contour m') ns ->
  covers m' s cs.
Proof.
  intros Pe Hf Cf Af Hn Bn Cn An. rewrite covers_cover by exact Fa'. split.
  - apply (cover_perm _ _ (contour_sym m' Wi') _ _ Pe). split; [|split].
    + intros x I. apply in_app_or in I. destruct I as [I|I]; [apply rest_border, Hn, I|]. destruct (Hf x I) as (F & _ & k & B & E). rewrite <- E. apply far_border; auto.
    + intros x X. destruct (border_after s x X) as [(Fx & k & Bk & Ek)|[(_ & D & N)|(_ & L & N)]].
      * destruct (Cf x k Fx Bk Ek) as (c & I & Q). exists c. split; [apply in_or_app; auto|]. apply far_contour; auto. apply Hf, I.
      * destruct (Cn x) as (c & I & Q); [left; auto|]. exists c. split; [apply in_or_app; auto|exact Q].
      * destruct (Cn x) as (c & I & Q); [right; auto|]. exists c. split; [apply in_or_app; auto|exact Q].
    + apply apart_app. split; [exact An|]. split.
      * apply apart_nth; [apply (contour_sym m' Wi')|]. rewrite (apart_nth _ (contour_sym m Wi)) in Af. intros i j x y X Y N. rewrite far_contour by (apply Hf; eapply nth_error_In, X). apply (Af i j); auto.
      * intros x y X Y Q. destruct (Hf y Y) as (F & _). apply (contour_sym m' Wi') in Q. apply (far_contour y x F) in Q. apply (rest_not_far x (Hn x X)). apply (far_along y x); auto.
  - intros x I. apply (Permutation_in x (Permutation_sym Pe)) in I. apply in_app_or in I. destruct I as [I|I]; [apply Bn, I|].
    destruct (Hf x I) as (F & B & _). pose proof (proj1 F) as [D|L]; [left; apply far_dart; auto|]. destruct B as [D|B]; [left; apply far_dart; auto|].
    apply beside_kept; [right; split; auto; apply L|]. left. apply (lonely_not m x L).
Qed.

(** ** The edge was a bridge *)
Lemma bridge_rest : orb f a b -> (forall x, In x [f b; f a] -> rest x) /\ (forall x, In x [f b; f a] -> isDart im' x \/ beside im' x) /\
  (forall x, rest x -> exists c, In c [f b; f a] /\ contour m' c x) /\ apart (contour m') [f b; f a].
Proof.
  intros O. assert (Bb : f b <> b).
  { intros X. assert (Q : orb f b a) by (apply (phi_sym m Wi); auto). destruct Q as (k & K). apply Nab. rewrite <- K. clear - X. induction k; cbn; auto. rewrite X. exact IHk. }
  assert (Aa : f a <> a). { intros X. destruct O as (k & K). apply Nab. rewrite <- K. clear - X. induction k; cbn; auto. rewrite X. exact IHk. }
  assert (Own : forall e, isDart im e -> nextDart im (-1) e e -> forall d, isDart im d -> nodeOf im d = nodeOf im e -> d = e) by (intros e De Nn; apply own_neighbour; auto).
  assert (Ca : (f b = a /\ lonely im' a /\ nodeOf im b <> nodeOf im a) \/ St (f b)).
  { destruct (stay_dec dart_eq_dec (isDart im) a b (f b) (cl b Db)) as [S|[S|S]]; [right; exact S| |contradiction]. left. split; auto. pose proof Na as N. rewrite S in N.
    split; [apply lonely_after; split; [apply dart_place, Da|]; intros e De Ee; left; apply (Own a); auto|]. intros X. apply Nab. symmetry. apply (Own a); auto. }
  assert (Cb : (f a = b /\ lonely im' b /\ nodeOf im a <> nodeOf im b) \/ St (f a)).
  { destruct (stay_dec dart_eq_dec (isDart im) a b (f a) (cl a Da)) as [S|[S|S]]; [right; exact S|contradiction|]. left. split; auto. pose proof Nb as N. rewrite S in N.
    split; [apply lonely_after; split; [apply dart_place, Db|]; intros e De Ee; right; apply (Own b); auto|]. intros X. apply Nab. apply (Own b); auto. }
  assert (R1 : rest (f b)).
  { destruct Ca as [(E & L & _)|S]; [right; rewrite E; auto|]. left. split; [apply dart_stay, S|right; apply orb_step]. }
  assert (R2 : rest (f a)).
  { destruct Cb as [(E & L & _)|S]; [right; rewrite E; auto|]. left. split; [apply dart_stay, S|left; apply orb_step]. }
  split; [intros x [<-|[<-|[]]]; auto|]. split.
  { intros x [<-|[<-|[]]].
    - destruct Ca as [(-> & _)|S]; [right; apply end_beside; auto|left; apply dart_stay, S].
    - destruct Cb as [(-> & _)|S]; [right; apply end_beside; auto|left; apply dart_stay, S]. }
  split.
  - intros x [(D & N)|(L & N)].
    + apply dart_stay in D. destruct (CellContour_Orbit.cover dart_eq_dec (isDart im) f cl a b Da Db g gf_same x D N) as [(S & Q)|(S & Q)]; [exists (f a)|exists (f b)]; (split; [cbn; auto|]); apply (contour_dart m' Wi'); auto; apply dart_stay, S.
    + pose proof (proj1 (lonely_after x) L) as (P & On). destruct N as [N|N].
      * exists (f b). split; [left; reflexivity|]. assert (E : nodeOf im (f b) = nodeOf im a).
        { pose proof (next_node im Fr Jo (-1) a (f b) Wm Da Na) as Q. rewrite !nodeLabel_dart in Q by (apply Da || apply (cl b Db)). congruence. }
        destruct (On (f b) (cl b Db)) as [Q|Q]; [congruence| |contradiction]. destruct Ca as [(_ & La & _)|(_ & S & _)]; [|contradiction]. rewrite Q. apply contour_lonely; auto. split; auto. fold im'. rewrite !node_kept by (apply Da || apply P). auto.
      * exists (f a). split; [right; left; reflexivity|]. assert (E : nodeOf im (f a) = nodeOf im b).
        { pose proof (next_node im Fr Jo (-1) b (f a) Wm Db Nb) as Q. rewrite !nodeLabel_dart in Q by (apply Db || apply (cl a Da)). congruence. }
        destruct (On (f a) (cl a Da)) as [Q|Q]; [congruence|contradiction|]. destruct Cb as [(_ & La & _)|(_ & _ & S)]; [|contradiction]. rewrite Q. apply contour_lonely; auto. split; auto. fold im'. rewrite !node_kept by (apply Db || apply P). auto.
  - cbn [apart]. split; [|split; [intros y []|exact I]]. intros y [<-|[]] Q.
    destruct Ca as [(E & L & N)|S].
    + rewrite E in Q. apply (contour_lonely m') in Q; [|exact L]. destruct Q as (L2 & Q). destruct Cb as [(E2 & _)|S2]; [|apply (lonely_not m' (f a) L2), dart_stay, S2].
      rewrite E2 in Q. fold im' in Q. rewrite !node_kept in Q by (apply Da || apply Db). congruence.
    + assert (Dp : isDart im' (f b)) by (apply dart_stay, S). destruct Cb as [(E2 & L2 & _)|S2].
      * apply (contour_dart m' Wi') in Q; [|exact Dp]. rewrite E2 in Q. apply (lonely_not m' b L2). apply (phi_to m' Wi' (f b)); auto.
      * apply (contour_sym m' Wi') in Q. apply (contour_dart m' Wi') in Q; [|apply dart_stay, S2]. revert Q.
        apply (split_apart dart_eq_dec (isDart im) f cl ij a b Da Db Nab g gf_same gf_b O S2 S).
Qed.

(** ** The edge lay between two contours *)
Lemma near_all x y : ~ orb f a b -> St x -> St y -> near f a b x -> near f a b y -> orb g x y.
Proof.
  intros N Sx Sy Nx Ny. assert (Sym : forall u v, St u -> orb g u v -> orb g v u) by (intros u v Su; apply (phi_sym m' Wi'), dart_stay, Su).
  pose proof (CellContour_Orbit.cover dart_eq_dec (isDart im) f cl a b Da Db g gf_same x Sx Nx) as Qx. pose proof (CellContour_Orbit.cover dart_eq_dec (isDart im) f cl a b Da Db g gf_same y Sy Ny) as Qy.
  pose proof (merge_together dart_eq_dec (isDart im) f cl bk a b Da g gf_same gf_a N) as M.
  destruct Qx as [(S1 & Q1)|(S1 & Q1)], Qy as [(S2 & Q2)|(S2 & Q2)]; apply Sym in Q1; auto.
  - apply (orb_trans _ _ (f a)); auto.
  - apply (orb_trans _ _ (f a)); auto. apply (orb_trans _ _ (f b)); auto.
  - apply (orb_trans _ _ (f b)); auto. apply (orb_trans _ _ (f a)); auto.
  - apply (orb_trans _ _ (f b)); auto.
Qed.
(** no node is left alone unless both darts were contours of their own *)
Lemma alone_both x : ~ orb f a b -> lonely im' x -> (nodeOf im x = nodeOf im a \/ nodeOf im x = nodeOf im b) -> f a = a /\ f b = b.
Proof.
  intros N L E. pose proof (proj1 (lonely_after x) L) as (P & On).
  assert (Ea_ : nodeOf im (f b) = nodeOf im a). { pose proof (next_node im Fr Jo (-1) a (f b) Wm Da Na) as Q. rewrite !nodeLabel_dart in Q by (apply Da || apply (cl b Db)). congruence. }
  assert (Eb_ : nodeOf im (f a) = nodeOf im b). { pose proof (next_node im Fr Jo (-1) b (f a) Wm Db Nb) as Q. rewrite !nodeLabel_dart in Q by (apply Db || apply (cl a Da)). congruence. }
  assert (NA : f a <> b) by (intros X; apply N; exists 1%nat; exact X).
  assert (NB : f b <> a) by (intros X; apply N; apply (phi_sym m Wi); [exact Db|]; exists 1%nat; exact X).
  destruct E as [E|E].
  - assert (X : f b = b) by (destruct (On (f b) (cl b Db)); [congruence|contradiction|auto]). split; auto. destruct (On (f a) (cl a Da)); [congruence|auto|contradiction].
  - assert (X : f a = a) by (destruct (On (f a) (cl a Da)); [congruence|auto|contradiction]). split; auto. destruct (On (f b) (cl b Db)); [congruence|contradiction|auto].
Qed.
Lemma merge_rest c : ~ orb f a b -> (isDart im' c /\ near f a b c /\ ~ (f a = a /\ f b = b)) \/ (c = b /\ f a = a /\ f b = b) ->
  rest c /\ (isDart im' c \/ beside im' c) /\ (forall x, rest x -> contour m' c x).
Proof.
  intros N [(D & Nc & Ex)|(-> & Fa_ & Fb_)].
  - split; [left; auto|]. split; [auto|]. intros x [(Dx & Nx)|(L & Nx)]; [|exfalso; apply Ex, (alone_both x); auto].
    apply (contour_dart m' Wi'); auto. apply near_all; auto; apply dart_stay; auto.
  - assert (Eb_ : nodeOf im a = nodeOf im b). { pose proof (next_node im Fr Jo (-1) b (f a) Wm Db Nb) as Q. rewrite Fa_ in Q. rewrite !nodeLabel_dart in Q by (apply Db || apply Da). congruence. }
    assert (Lb : lonely im' b).
    { apply lonely_after. split; [apply dart_place, Db|]. intros e De Ee. pose proof Na as N1. pose proof Nb as N2. rewrite Fa_ in N2. rewrite Fb_ in N1.
      apply (next_back im Fr (-1)) in N1; auto. apply (next_back im Fr (-1)) in N2; auto. cbn [Z.opp] in N1, N2. destruct (two_around im b a Fr Ne Ri Db Da N1 N2 e De Ee); auto. }
    split; [right; auto|]. split; [right; apply end_beside; auto|]. intros x [(Dx & Nx)|(L & Nx)].
    + exfalso. apply dart_stay in Dx. destruct Dx as (_ & X1 & X2). destruct Nx as [(k & K)|(k & K)]; [apply X1|apply X2]; rewrite <- K; clear - Fa_ Fb_; induction k; cbn; auto; congruence.
    + apply contour_lonely; auto. split; auto. pose proof (proj1 (proj1 (lonely_after x) L)) as P. fold im'. rewrite !node_kept by (apply Db || apply P). destruct Nx; congruence.
Qed.
End Cut.
