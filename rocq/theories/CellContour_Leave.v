(** C71: what becomes of the contours when a node is taken away. *)
From Coq Require Import Lia Permutation.
From Verif Require Import Base CellMap_Model CellMap_Spec CellMap_Main CellSigma_Spec CellSigma_Proofs CellSigma_Results CellLink_Spec CellLink_Proofs CellLink_Main CellLink_Results CellLink_Check CellFace_Spec CellFace_Walk CellFace_Main CellFace_Step CellContour_Orbit CellContour_Spec CellContour_Phi CellContour_Find CellContour_View CellContour_Cut CellContour_Step.
Local Open Scope Z_scope.

Lemma alpha_is m x y : wired m -> isDart (cim m) x -> isDart (cim m) y -> x <> y -> edgeOf (cim m) y = edgeOf (cim m) x -> nextAlpha m x = Ok y.
Proof.
  intros Wi Dx Dy N E. destruct (alpha_ends m x Wi Dx) as (_ & x' & b & _ & _ & _ & _ & _ & <- & A & _). destruct (alpha_darts m x b Wi Dx A) as (_ & _ & _ & _ & U).
  destruct (U y Dy E) as [|Q]; congruence.
Qed.

Section Leave.
Variables (m m' : cmap) (t : ctype) (s n : Z) (gone : list (ctype * Z)).
Hypothesis Fa : faced m.
Hypothesis Fa' : faced m'.
Hypothesis Ta : takenOver m m' t s gone.
Hypothesis Gn : In (Vertex, n) gone.
Hypothesis Gg : forall u k, In (u, k) gone -> (u = Vertex /\ k = n) \/ (u = Line /\ t = Line).
Hypothesis NV : t <> Vertex.
Hypothesis NX : t <> ErrorType.
Let im := cim m.
Let im' := cim m'.
Let Wi : wired m. Proof. apply Fa. Qed.
Let Wi' : wired m'. Proof. apply Fa'. Qed.
Let Fr : framed im. Proof. apply Wi. Qed.
Let Fr' : framed im'. Proof. apply Wi'. Qed.
Let Jo : joined im. Proof. apply Wi. Qed.
Let Re : repaint im im' t s gone := taken_repaint _ _ _ _ _ Ta.
Let f := phi m.
Let g := phi m'.
Hypothesis g_same : forall x, isDart im' x -> isDart im' (f x) -> g x = f x.
Hypothesis g_skip : forall x, isDart im' x -> ~ isDart im' (f x) -> g x = f (f x) /\ isDart im' (f (f x)).

Lemma left_dart x : isDart im' x <-> isDart im x /\ nodeOf im x <> n.
Proof. apply (darts_left im im' t s gone Fr Jo Re n); auto. Qed.
Lemma left_vertex x : vertexAt im' (dcx x) (dcy x) <-> vertexAt im (dcx x) (dcy x) /\ nodeOf im x <> n.
Proof. apply (leave_vertex im im' t s n gone); auto. Qed.
Lemma left_place x : isPlace im' x <-> isPlace im x /\ nodeOf im x <> n.
Proof. rewrite (place_after im im' t s gone Fr Jo Re NV). rewrite left_vertex. split; intros (A & B); split; auto; [apply B|split; auto; apply A]. Qed.
Lemma left_node x : vertexAt im' (dcx x) (dcy x) -> nodeOf im' x = nodeOf im x.
Proof. apply (node_after im im' t s gone); auto. Qed.
Lemma left_next k z y : way k -> isDart im' z -> nextDart im k z y -> nextDart im' k z y.
Proof.
  intros W D N. pose proof (proj1 (left_dart z) D) as (Dz & Nz). pose proof (next_node im Fr Jo k z y W Dz N) as Q. destruct N as (Dy & i & I & E & L). rewrite !nodeLabel_dart in Q by (apply Dy || apply Dz).
  assert (P' : isPlace im' z) by apply (dart_place im' z D).
  assert (Pl : forall j, places j im' k z = places j im k z) by (intros j; apply (places_after im im' t s gone); auto).
  split; [apply left_dart; split; auto; congruence|]. exists i. rewrite Pl. split; auto. split; auto. intros j J. rewrite Pl. intros X. apply (L j J). apply left_dart in X. apply X.
Qed.
Lemma left_lonely x : lonely im' x <-> lonely im x /\ nodeOf im x <> n.
Proof.
  unfold lonely. rewrite left_place. split.
  - intros ((P & N) & L). split; auto. split; auto. intros e De Ee. assert (V : vertexAt im' (dcx x) (dcy x)) by (apply left_vertex; split; auto; apply P).
    assert (De' : isDart im' e) by (apply left_dart; split; auto; congruence). apply (L e De'). rewrite !left_node by (auto; apply De'). exact Ee.
  - intros ((P & L) & N). split; auto. intros e De Ee. assert (V : vertexAt im' (dcx x) (dcy x)) by (apply left_vertex; split; auto; apply P).
    rewrite !left_node in Ee by (auto; apply De). apply (L e); auto. apply left_dart in De. apply De.
Qed.
Lemma left_border l x : onBorder im' l x <-> onBorder im l x /\ nodeOf im x <> n.
Proof.
  pose proof Fa as (_ & Pl & Ai & Fi & _).
  assert (S : forall y, isDart im' y -> sideOf im' 1 y = sideOf im 1 y) by (intros y D; apply (leave_side im im' t s n gone); auto; left; reflexivity).
  assert (L : forall y, lonely im y -> labelAt im' y 0 = labelAt im y 0).
  { intros y Ly. pose proof (lonely_region m Fa y Ly) as T. fold im in T. destruct (neighbor_in im Fr _ _ ((ddir y + 0) mod 8) (proj1 (proj1 Ly))) as (X & Y).
    unfold labelAt. rewrite (leave_region im im' t s n gone) by auto. reflexivity. }
  unfold onBorder. rewrite left_dart, left_lonely. split.
  - intros [((D & N) & E)|((Lx & N) & E)]; split; auto; [left; split; auto; rewrite <- S; auto; apply left_dart; auto|right; split; auto; rewrite <- L; auto].
  - intros ([(D & E)|(Lx & E)] & N); [left|right]; (split; [auto|]); [rewrite S by (apply left_dart; auto); exact E|rewrite L by auto; exact E].
Qed.
Lemma left_known x : (isDart im x \/ lonely im x) -> nodeOf im x <> n -> isDart im' x \/ lonely im' x.
Proof. intros [D|L] N; [left; apply left_dart|right; apply left_lonely]; auto. Qed.
Lemma left_contour x y : (isDart im x \/ lonely im x) -> nodeOf im x <> n -> nodeOf im y <> n -> (contour m' x y <-> contour m x y).
Proof.
  intros [D|L] N Ny.
  - assert (D' : isDart im' x) by (apply left_dart; auto). rewrite (contour_dart m' Wi'), (contour_dart m Wi) by auto.
    apply (skip_orb (isDart im) f (phi_closed m Wi) (fun z => nodeOf im z = n) (fun z => Z.eq_dec (nodeOf im z) n)); auto.
    + intros z Dz Nz Nf. apply g_same; apply left_dart; split; auto. apply phi_closed; auto.
    + intros z Dz Nz Nf. destruct (g_skip z) as (A & B); [apply left_dart; auto|intros X; apply left_dart in X; tauto|]. split; auto. apply left_dart in B. apply B.
  - assert (L' : lonely im' x) by (apply left_lonely; auto). rewrite (contour_lonely m'), (contour_lonely m) by auto. fold im im'. rewrite left_lonely. split.
    + intros ((Ly & _) & E). split; auto. assert (V : vertexAt im' (dcx y) (dcy y)) by (apply left_vertex; split; auto; apply Ly). rewrite !left_node in E by (auto; apply L'). exact E.
    + intros (Ly & E). split; auto. assert (V : vertexAt im' (dcx y) (dcy y)) by (apply left_vertex; split; auto; apply Ly). rewrite !left_node by (auto; apply L'). exact E.
Qed.
Lemma leave_covers l cs : (forall c, In c cs -> onBorder im l c /\ nodeOf im c <> n /\ (isDart im c \/ beside im c)) ->
  (forall x, onBorder im l x -> nodeOf im x <> n -> exists c, In c cs /\ contour m c x) -> apart (contour m) cs -> covers m' l cs.
Proof.
  intros A B Ap. rewrite (covers_cover m' l cs Fa'). split; [split; [|split]|].
  - intros c I. apply left_border. destruct (A c I) as (X & Y & _). auto.
  - intros x X. apply left_border in X. destruct X as (X & N). destruct (B x X N) as (c & I & C). exists c. split; auto. destruct (A c I) as (Bc & Nc & _). apply left_contour; auto. apply (border_known _ _ _ Bc).
  - apply apart_nth; [apply (contour_sym m' Wi')|]. rewrite (apart_nth _ (contour_sym m Wi)) in Ap. intros i j x y X Y N.
    destruct (A x (nth_error_In _ _ X)) as (Bx & Nx & _). destruct (A y (nth_error_In _ _ Y)) as (_ & Ny & _). rewrite left_contour by (auto; apply (border_known _ _ _ Bx)). apply (Ap i j); auto.
  - intros c I. destruct (A c I) as (Bc & Nc & [D|Be]); [left; apply left_dart; auto|]. destruct (left_known c (border_known _ _ _ Bc) Nc) as [D|L]; [left; exact D|]. right.
    assert (V : vertexAt im' (dcx c) (dcy c)) by apply L. unfold beside. rewrite !(types_kept im im' t s n gone) by auto. exact Be.
Qed.
End Leave.

(** ** removeIsolatedNode() *)
Lemma isolated_contoured m d m' s : contoured m -> faceAllowed (cim m) (CRemoveIsolatedNode d) -> removeIsolatedNode m d = Ok (m', s) -> faced m' -> callEffect m m' (CRemoveIsolatedNode d) s -> contoured m'.
Proof.
  intros Con (Pd & Be & Nd) Ex Fa' Ef. pose proof Con as (Fa & Co). pose proof Fa as (Wi & Pl & Ai & Fi & _). assert (Wi' : wired m') by apply Fa'. assert (Fr : framed (cim m)) by apply Wi. assert (Jo : joined (cim m)) by apply Wi.
  destruct Ef as (n & En & El & Ta). rewrite nodeLabel_dart in En by apply Pd. injection En as En.
  destruct (isolated_anchors _ _ _ _ Ex) as (f & c & _ & Ff & Fc & An). pose proof (removeIsolatedNode_view _ _ _ _ Ex) as Ke.
  assert (Ld : lonely (cim m) d) by (split; auto). assert (Sd : labelAt (cim m) d 0 = s) by (pose proof (lonely_left m Fa d Ld Be); congruence).
  set (G := [(Vertex, n)]) in *. assert (Gn : In (Vertex, n) G) by (left; reflexivity).
  assert (Gg : forall u k, In (u, k) G -> (u = Vertex /\ k = n) \/ (u = Line /\ Region = Line)) by (intros u k [X|[]]; injection X as <- <-; auto).
  assert (NV : Region <> Vertex) by discriminate. assert (NX : Region <> ErrorType) by discriminate.
  assert (Ld' : forall x, isDart (cim m') x <-> isDart (cim m) x).
  { intros x. rewrite (left_dart m m' Region s n G Fa Ta Gn Gg NV NX). split; [intros (X & _); auto|]. intros X. split; auto. rewrite <- En. apply Nd, X. }
  assert (Ed' : forall x, isDart (cim m) x -> edgeOf (cim m') x = edgeOf (cim m) x).
  { intros x D. destruct (dart_owns (cim m) Fr x D) as (X & Y & P). unfold edgeOf. destruct (pixel_after _ _ _ _ _ (taken_repaint _ _ _ _ _ Ta) _ _ X Y) as [([Q|[]] & _)|(_ & ->)]; [|reflexivity]. rewrite P in Q. discriminate Q. }
  assert (Gs : forall x, isDart (cim m') x -> phi m' x = phi m x).
  { intros x D'. pose proof (proj1 (Ld' x) D') as D. destruct (alpha_ends m x Wi D) as (_ & x' & b & _ & _ & _ & _ & _ & <- & A & _). destruct (alpha_darts m x b Wi D A) as (Db & Nb & _ & Eb & _).
    apply (phi_is m' Wi' x b); [exact D'|apply alpha_is; auto; [apply Ld', Db|rewrite !Ed' by auto; exact Eb]|].
    apply (left_next m m' Region s n G Fa Fa' Ta Gn Gg NV NX); [right; reflexivity|apply Ld', Db|]. apply (phi_next m Wi); auto. }
  assert (Gk : forall x, isDart (cim m') x -> ~ isDart (cim m') (phi m x) -> phi m' x = phi m (phi m x) /\ isDart (cim m') (phi m (phi m x))).
  { intros x D N. exfalso. apply N. apply Ld'. apply (phi_closed m Wi). apply Ld', D. }
  pose proof (leave_covers m m' Region s n G Fa Fa' Ta Gn Gg NV NX (fun x D _ => Gs x D) Gk) as Lc.
  (* what lies at the node *)
  assert (Nn : forall l x, onBorder (cim m) l x -> nodeOf (cim m) x = n -> l = s /\ contour m x d).
  { intros l x [(D & S)|(L & S)] E; [exfalso; apply (Nd x D); congruence|]. rewrite <- En in E. split; [rewrite <- S, (lonely_label m Fa x d L Ld E); exact Sd|apply (contour_lonely m); auto]. }
  assert (If : isFace m (Z.to_nat s) f /\ 0 <= s).
  { apply at_Ok in Ff. destruct Ff as (Ps & Ff). split; auto. split; auto. pose proof (lonely_region m Fa d Ld) as T.
    destruct (neighbor_in (cim m) Fr _ _ ((ddir d + 0) mod 8) (proj1 Pd)) as (X & Y). assert (So : sound m) by apply Wi. destruct So as (_ & _ & (_ & Li & _)).
    destruct (Li Region s _ _ (conj X (conj Y (pix_eta _ Region s (eq_sym T) (eq_sym Sd))))) as (q & Q & I); [discriminate|]. cbn [cellsOf] in Q. rewrite nth_error_map, Ff in Q. injection Q as <-. exact I. }
  destruct If as (If & Ps). assert (Ns : Z.of_nat (Z.to_nat s) = s) by (apply Z2Nat.id, Ps).
  pose proof (Co _ _ If) as Cs. rewrite Ns in Cs. assert (Bd : onBorder (cim m) s d) by (right; auto). destruct (proj2 Cs d Bd) as (i & a & I & Ca & Un).
  assert (Kn : known m (fcontours f)) by (intros y Y; destruct (proj1 Cs y Y) as (Q & _); apply (border_known _ _ _ Q)).
  pose proof (find_lonely m Fa _ d i a Kn Ld I Ca (fun j b J Cj => Un j b J Cj)) as Fi'. assert (i = c) by congruence. subst i.
  destruct (list_split _ _ _ I) as (u & w & Es & Lu).
  apply (contoured_from m m' s _ Region G Con Fa' Ta An Ps).
  - intros l cs Nl _ Cl. rewrite (covers_cover m l cs Fa) in Cl. destruct Cl as ((A1 & A2 & A3) & A4). apply Lc; auto.
    intros x X. pose proof (A1 x X) as Bx. split; auto. split; auto. intros E. apply Nl. apply (Nn l x Bx E).
  - rewrite (covers_cover m s _ Fa), Es in Cs. destruct Cs as ((A1 & A2 & A3) & A4). apply (apart_mid _ (contour_sym m Wi)) in A3. destruct A3 as (A3 & A5).
    rewrite Es, <- Lu, erase_split. apply Lc; auto.
    + intros x X. assert (X' : In x (u ++ a :: w)) by (apply in_app_or in X; apply in_or_app; cbn; tauto). split; auto. split; auto. intros E. apply (A5 x X).
      apply (contour_trans m Wi _ d); auto. apply (contour_sym m Wi). apply (Nn s x); auto.
    + intros x Bx N. destruct (A2 x Bx) as (y & Y & C). exists y. split; auto. apply in_app_or in Y. apply in_or_app. destruct Y as [Y|[<-|Y]]; auto. exfalso. apply N.
      assert (Q : contour m d x) by (apply (contour_trans m Wi _ a); auto; apply (contour_sym m Wi), Ca). apply (contour_lonely m) in Q; auto. destruct Q as (_ & Q). congruence.
Qed.

(** ** mergeEdges() *)
Lemma removed_map m cs n cs' : faced m -> (forall c, In c cs -> isDart (cim m) c \/ lonely (cim m) c) -> (forall c, In c cs -> lonely (cim m) c -> nodeOf (cim m) c <> n) ->
  removeNodeFromContours m cs n = Ok cs' -> cs' = map (fun c => if nodeOf (cim m) c =? n then phi m c else c) cs.
Proof.
  intros Fa. assert (Wi : wired m) by apply Fa. revert cs'. induction cs as [|c cs IH]; intros cs' K L H; cbn [removeNodeFromContours map] in *; [injection H as <-; reflexivity|].
  assert (V : vertexAt (cim m) (dcx c) (dcy c)) by (destruct (K c (or_introl eq_refl)) as [X|X]; apply X).
  rewrite nodeLabel_dart in H by exact V. cbn [bind] in H. bnd H x Ex. bnd H t Et. injection H as <-. f_equal.
  - destruct (Z.eqb_spec (nodeOf (cim m) c) n) as [E|E]; [|congruence]. destruct (K c (or_introl eq_refl)) as [X|X]; [|exfalso; apply (L c (or_introl eq_refl) X E)].
    destruct (phi_ok m Wi c X) as (P & _). congruence.
  - apply IH; auto; intros y Y; [apply K|apply L]; right; exact Y.
Qed.
Lemma edges_contoured m d m' s : contoured m -> isDart (cim m) d -> mergeEdges m d = Ok (m', s) -> faced m' -> callEffect m m' (CMergeEdges d) s -> contoured m'.
Proof.
  intros Con Dd Ex Fa' Ef. pose proof Con as (Fa & Co). pose proof Fa as (Wi & Pl & Ai & Fi & _). assert (Wi' : wired m') by apply Fa'. assert (Fr : framed (cim m)) by apply Wi. assert (Jo : joined (cim m)) by apply Wi. assert (Ne : neat (cim m)) by apply Wi.
  destruct (join_facts m d m' s Wi Dd Ex Ef) as (n & ml & d2 & d3 & a1 & a2 & Ta & Ci & Ee & Hh & D2 & D3 & N23 & N32 & N2 & N3 & L2 & L3 & Df & A1 & A2 & On & Nd).
  destruct (edges_anchors _ _ _ _ Ex) as (e1 & e2 & e3 & fl & fr & nl & b & m2 & S1 & S2 & S3 & Ls & Lf & Rf & Sn & An & Ac).
  set (G := [(Vertex, n); (Line, ml)]) in *. assert (Gn : In (Vertex, n) G) by (left; reflexivity).
  assert (Gg : forall u k, In (u, k) G -> (u = Vertex /\ k = n) \/ (u = Line /\ Line = Line)) by (intros u k [X|[X|[]]]; injection X as <- <-; auto).
  assert (NV : Line <> Vertex) by discriminate. assert (NX : Line <> ErrorType) by discriminate. assert (W1 : way 1) by (left; reflexivity). assert (Wm : way (-1)) by (right; reflexivity).
  (* the dart of the code is d3 *)
  assert (Sg : forall x y, isDart (cim m) x -> nextSigma (cim m) x = Ok y -> isDart (cim m) y /\ nodeOf (cim m) y = nodeOf (cim m) x).
  { intros x y D Q. destruct (sigma_defined (cim m) Fr Ne 1 x W1 D) as (z & Z_ & N & _). change (nextSigma (cim m) x = Ok z) in Z_. assert (z = y) by congruence. subst z.
    pose proof (next_node (cim m) Fr Jo 1 x y W1 D N) as E. destruct N as (Dy & _). rewrite !nodeLabel_dart in E by (apply D || apply Dy). split; auto. congruence. }
  destruct (Sg d e1 Dd S1) as (De1 & Ne1). assert (X2 : isDart (cim m) e2 /\ nodeOf (cim m) e2 = nodeOf (cim m) d) by (destruct b; [destruct (Sg e1 e2 De1 S2); split; auto; congruence|subst e2; auto]).
  destruct X2 as (De2 & Ne2). destruct (Sg e2 e3 De2 S3) as (De3 & Ne3). rewrite edgeLabel_dart in Ls by (auto; apply De3). injection Ls as Ls.
  assert (e3 = d3) by (destruct (On e3 De3) as [-> | ->]; congruence). subst e3. clear Sg S1 S2 S3 De1 Ne1 De2 Ne2 De3 Ne3 Ls.
  rewrite nodeLabel_dart, N3 in Sn by apply D3. injection Sn as <-. rewrite leftFace_is in Lf by (auto; apply D3). rewrite rightFace_is in Rf by (auto; apply D3). injection Lf as Lf. injection Rf as Rf.
  assert (S2l : sideOf (cim m) 1 d2 = fr). { pose proof (side_next (cim m) Fr Ne Pl Ai Fi 1 d2 d3 W1 D2 N23) as Q. cbn [Z.opp] in Q. congruence. }
  (* the far ends of the two edges *)
  destruct (alpha_darts m d3 a1 Wi D3 A1) as (Da1 & Na1 & B1 & E1 & U1). destruct (alpha_darts m d2 a2 Wi D2 A2) as (Da2 & Na2 & B2 & E2 & U2).
  assert (Fn1 : nodeOf (cim m) a1 <> n) by (intros X; destruct (On a1 Da1 X); congruence). assert (Fn2 : nodeOf (cim m) a2 <> n) by (intros X; destruct (On a2 Da2 X); congruence).
  pose proof (left_dart m m' Line s n G Fa Ta Gn Gg NV NX) as Ld. pose proof (left_next m m' Line s n G Fa Fa' Ta Gn Gg NV NX) as Ln.
  pose proof (join_edge m m' s n ml Wi Ta) as Je.
  assert (Pa1 : phi m a1 = d2) by (apply (phi_is m Wi a1 d3); auto; apply (next_back (cim m) Fr 1 d2 d3 W1 D2 N23)).
  assert (Pa2 : phi m a2 = d3) by (apply (phi_is m Wi a2 d2); auto; apply (next_back (cim m) Fr 1 d3 d2 W1 D3 N32)).
  assert (Nx : forall x c, isDart (cim m) x -> nextAlpha m x = Ok c -> nodeOf (cim m) (phi m x) = nodeOf (cim m) c).
  { intros x c D A. destruct (alpha_darts m x c Wi D A) as (Dc & _). pose proof (phi_next m Wi x c D A) as N. pose proof (next_node (cim m) Fr Jo (-1) c _ Wm Dc N) as Q. pose proof (phi_closed m Wi x D) as Dp.
    rewrite !nodeLabel_dart in Q by (apply Dc || apply Dp). congruence. }
  assert (Pd2 : nodeOf (cim m) (phi m d2) <> n) by (rewrite (Nx d2 a2); auto). assert (Pd3 : nodeOf (cim m) (phi m d3) <> n) by (rewrite (Nx d3 a1); auto).
  assert (Gs : forall x, isDart (cim m') x -> isDart (cim m') (phi m x) -> phi m' x = phi m x).
  { intros x D' P'. pose proof (proj1 (Ld x) D') as (D & Nnx). destruct (alpha_ends m x Wi D) as (_ & x' & c & _ & _ & _ & _ & _ & <- & A & _). destruct (alpha_darts m x c Wi D A) as (Dc & Nc & _ & Ec & _).
    apply Ld in P'. rewrite (Nx x c D A) in P'. assert (Dc' : isDart (cim m') c) by (apply Ld; split; auto; apply P').
    apply (phi_is m' Wi' x c); [exact D'|apply alpha_is; auto; rewrite !Je, Ec by auto; reflexivity|]. apply Ln; auto. apply (phi_next m Wi); auto. }
  assert (Gk : forall x, isDart (cim m') x -> ~ isDart (cim m') (phi m x) -> phi m' x = phi m (phi m x) /\ isDart (cim m') (phi m (phi m x))).
  { intros x D' P'. pose proof (proj1 (Ld x) D') as (D & Nnx). assert (Dp : isDart (cim m) (phi m x)) by (apply (phi_closed m Wi), D).
    assert (Q : nodeOf (cim m) (phi m x) = n) by (destruct (Z.eq_dec (nodeOf (cim m) (phi m x)) n); auto; exfalso; apply P', Ld; auto).
    assert (Da1' : isDart (cim m') a1) by (apply Ld; auto). assert (Da2' : isDart (cim m') a2) by (apply Ld; auto).
    assert (E12 : edgeOf (cim m') a1 = s /\ edgeOf (cim m') a2 = s).
    { rewrite !Je, E1, E2, L2, L3 by auto. rewrite Z.eqb_refl. destruct (Z.eqb_spec s ml); [contradiction|auto]. }
    destruct E12 as (E1' & E2'). assert (N12 : a1 <> a2) by (intros X; apply Df; congruence).
    destruct (On _ Dp Q) as [X|X].
    - assert (x = a1) by (apply (phi_inj m Wi); auto; congruence). subst x. rewrite X. split.
      + apply (phi_is m' Wi' a1 a2); [exact D'|apply alpha_is; auto; congruence|]. apply Ln; auto. apply (phi_next m Wi); auto.
      + apply Ld. split; auto. apply (phi_closed m Wi), D2.
    - assert (x = a2) by (apply (phi_inj m Wi); auto; congruence). subst x. rewrite X. split.
      + apply (phi_is m' Wi' a2 a1); [exact D'|apply alpha_is; auto; congruence|]. apply Ln; auto. apply (phi_next m Wi); auto.
      + apply Ld. split; auto. apply (phi_closed m Wi), D3. }
  pose proof (leave_covers m m' Line s n G Fa Fa' Ta Gn Gg NV NX Gs Gk) as Lc. set (tr := fun c => if nodeOf (cim m) c =? n then phi m c else c).
  split; auto. intros l f' If'. destruct (live_face _ _ _ _ _ _ _ Ta If') as ((f & If) & _).
  pose proof (face_anchors _ _ _ If') as Q. rewrite An in Q. destruct (Ac l _ Q) as (cs0 & Q0 & R). rewrite (face_anchors _ _ _ If) in Q0. injection Q0 as <-.
  pose proof (Co l f If) as Cs. rewrite (covers_cover m _ _ Fa) in Cs. destruct Cs as ((C1 & C2 & C3) & C4). set (cs := fcontours f) in *.
  assert (Kn : forall c, In c cs -> isDart (cim m) c \/ lonely (cim m) c) by (intros c I; apply (border_known _ _ _ (C1 c I))).
  assert (Nl : forall c, lonely (cim m) c -> nodeOf (cim m) c <> n) by (intros c Lc' E; apply (proj2 Lc' d2 D2); congruence).
  assert (Em : fcontours f' = map tr cs).
  { destruct (Z.eqb_spec (Z.of_nat l) fl) as [El|El]; [|destruct (Z.eqb_spec (Z.of_nat l) fr) as [Er|Er]].
    - apply (removed_map m cs n); auto.
    - apply (removed_map m cs n); auto.
    - rewrite R. rewrite <- (map_id cs) at 1. apply map_ext_in. intros c I. unfold tr. destruct (Z.eqb_spec (nodeOf (cim m) c) n) as [E|E]; auto. exfalso.
      destruct (C1 c I) as [(D & S)|(L & _)]; [|apply (Nl c L E)]. destruct (On c D E) as [-> | ->]; congruence. }
  rewrite Em. assert (Tr : forall c, In c cs -> contour m c (tr c) /\ nodeOf (cim m) (tr c) <> n /\ (isDart (cim m) (tr c) \/ beside (cim m) (tr c))).
  { intros c I. unfold tr. destruct (Z.eqb_spec (nodeOf (cim m) c) n) as [E|E]; [|split; [apply contour_refl; auto|split; auto]].
    destruct (Kn c I) as [D|L]; [|exfalso; apply (Nl c L E)]. split; [apply (contour_dart m Wi); auto; apply orb_step|]. split; [destruct (On c D E) as [-> | ->]; auto|left; apply (phi_closed m Wi), D]. }
  apply Lc.
  - intros y Y. apply in_map_iff in Y. destruct Y as (c & <- & I). destruct (Tr c I) as (T1 & T2 & T3). split; [|auto]. apply (border_contour m Fa _ c); auto.
  - intros x X Nnx. destruct (C2 x X) as (c & I & Cx). exists (tr c). split; [apply in_map, I|]. apply (contour_trans m Wi _ c); auto. apply (contour_sym m Wi). apply Tr, I.
  - apply apart_nth; [apply (contour_sym m Wi)|]. rewrite (apart_nth _ (contour_sym m Wi)) in C3. intros i j x y X Y N Cxy. rewrite nth_error_map in X, Y.
    destruct (nth_error cs i) as [c|] eqn:I; [|discriminate X]. destruct (nth_error cs j) as [c'|] eqn:J; [|discriminate Y]. injection X as <-. injection Y as <-.
    apply (C3 i j c c' I J N). apply (contour_trans m Wi _ (tr c)); [apply Tr; eapply nth_error_In, I|]. apply (contour_trans m Wi _ (tr c')); auto. apply (contour_sym m Wi). apply Tr. eapply nth_error_In, J.
Qed.

Theorem contoured_step m c m' s : contoured m -> contourAllowed m c -> cexec m c = Ok (m', s) -> contoured m'.
Proof.
  intros Con Al E. pose proof Con as (Fa & _). pose proof (proj1 Al) as A. pose proof (faced_step m c m' s Fa A E) as Fa'. pose proof (faced_allows m c Fa A) as Da. assert (So : sound m) by apply Fa.
  destruct (cexec_sound m c m' s So (proj1 Da) E) as (_ & Ef). destruct c as [d|d|d|d].
  - apply (isolated_contoured m d m' s); auto.
  - apply (merge_contoured m d m' s); auto.
  - apply (bridge_contoured m d m' s); auto.
  - apply (edges_contoured m d m' s); auto.
Qed.
Lemma khistory_contoured m : khistory m -> contoured m.
Proof. induction 1 as [m H|m c m' s H IH A E]; auto. exact (contoured_step m c m' s IH A E). Qed.
