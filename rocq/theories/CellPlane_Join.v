(** C78: two edges that become one leave the lines in the plane. *)
From Coq Require Import Lia.
From Verif Require Import Base CellMap_Model CellMap_Spec CellMap_Main CellMap_Check CellSigma_Spec CellSigma_Proofs CellSigma_Results CellLink_Spec CellLink_Proofs CellLink_Main CellLink_Results CellLink_Check
  CellFace_Spec CellFace_Walk CellFace_Main CellFace_Step CellStart_Spec CellStart_Walk CellContour_Spec CellContour_Leave CellContour_Step CellThresh_Spec CellThresh_Loops CellJordan_Spec CellJordan_Owner CellJordan_Class
  CellPlane_Spec CellPlane_Owner CellPlane_Class CellPlane_Cut CellPlane_Leave.
Local Open Scope Z_scope.

(** the places around a node are connected through its pixels *)
Lemma place_walk im n d : framed im -> joined im -> isPlace im d -> owns im Vertex n (dcx d) (dcy d) -> reach ways8 (owns im Vertex n) (dcx d) (dcy d) (dcx (placeNext im 1 d)) (dcy (placeNext im 1 d)).
Proof.
  intros Fr Jo P O. assert (V : vertexAt im (dcx d) (dcy d)) by apply P.
  assert (G : forall i, typeAt im d i = Vertex -> reach ways8 (owns im Vertex n) (dcx d) (dcy d) (dcx d + dirX ((ddir d + i) mod 8)) (dcy d + dirY ((ddir d + i) mod 8))).
  { intros i T. pose proof (Z.mod_pos_bound (ddir d + i) 8 ltac:(lia)) as B. destruct (neighbor_in im Fr _ _ ((ddir d + i) mod 8) V) as (X & Y). apply walk_one; [cbn; lia|exact O|]. apply Jo; [exact B|exact O|split; auto]. }
  unfold placeNext. destruct (Z.odd (ddir d)); [apply re_here, O|]. destruct (ctypeEqb (typeAt im d 1) Vertex) eqn:T1; [apply CellSigma_Proofs.ctypeEqb_eq in T1; apply (G 1 T1)|].
  destruct (ctypeEqb (typeAt im d (2 * 1)) Vertex) eqn:T2; [apply CellSigma_Proofs.ctypeEqb_eq in T2; apply (G (2 * 1) T2)|]. apply re_here, O.
Qed.
Lemma places_walk im n k : framed im -> joined im -> forall d, isPlace im d -> owns im Vertex n (dcx d) (dcy d) -> reach ways8 (owns im Vertex n) (dcx d) (dcy d) (dcx (places k im 1 d)) (dcy (places k im 1 d)).
Proof.
  intros Fr Jo. induction k as [|k IH]; intros d P O; [apply re_here, O|]. pose proof (place_walk im n d Fr Jo P O) as R. cbn [places]. apply (walk_trans _ _ _ _ _ _ _ _ R), IH; [|exact (walk_end _ _ _ _ _ _ R)].
  apply (places_ok im Fr 1 1 d); [left; reflexivity|exact P].
Qed.

Section Join.
Variables (m m' : cmap) (s n ml : Z) (d2 d3 a1 a2 : dart).
Let im := cim m.
Let im' := cim m'.
Hypothesis Fa : faced m.
Hypothesis Fa' : faced m'.
Hypothesis Ta : takenOver m m' Line s [(Vertex, n); (Line, ml)].
Hypothesis D2 : isDart im d2.
Hypothesis D3 : isDart im d3.
Hypothesis N23 : nextDart im 1 d2 d3.
Hypothesis N32 : nextDart im 1 d3 d2.
Hypothesis N2 : nodeOf im d2 = n.
Hypothesis N3 : nodeOf im d3 = n.
Hypothesis L2 : edgeOf im d2 = ml.
Hypothesis L3 : edgeOf im d3 = s.
Hypothesis Df : s <> ml.
Hypothesis A1 : nextAlpha m d3 = Ok a1.
Hypothesis A2 : nextAlpha m d2 = Ok a2.
Hypothesis On : forall x, isDart im x -> nodeOf im x = n -> x = d2 \/ x = d3.
Let Wi : wired m. Proof. apply Fa. Qed.
Let Fr : framed im. Proof. apply Wi. Qed.
Let Ne : neat im. Proof. apply Wi. Qed.
Let Jo : joined im. Proof. apply Wi. Qed.
Let Ri : ringed im. Proof. apply Wi. Qed.
Let Pl : plain im. Proof. apply Fa. Qed.
Let W1 : way 1. Proof. left. reflexivity. Qed.
Let W2 : way (-1). Proof. right. reflexivity. Qed.
Let Re : repaint im im' Line s [(Vertex, n); (Line, ml)]. Proof. apply taken_repaint, Ta. Qed.
Definition onward (w : dart) : dart := if dart_eq_dec w d2 then a1 else if dart_eq_dec w d3 then a2 else w.

Lemma a1_is : isDart im a1 /\ a1 <> d2 /\ a1 <> d3 /\ edgeOf im a1 = s /\ nodeOf im a1 <> n /\ nextAlpha m a1 = Ok d3 /\ forall x, isDart im x -> edgeOf im x = s -> x = d3 \/ x = a1.
Proof.
  destruct (alpha_darts m d3 a1 Wi D3 A1) as (D & N & A & E & U). fold im in D, E, U. rewrite L3 in E, U. assert (Q : a1 <> d2) by (intros ->; congruence). split; [exact D|]. split; [exact Q|]. split; [congruence|]. split; [exact E|]. split; [|split; [exact A|exact U]].
  intros X. destruct (On a1 D X); congruence.
Qed.
Lemma a2_is : isDart im a2 /\ a2 <> d2 /\ a2 <> d3 /\ edgeOf im a2 = ml /\ nodeOf im a2 <> n /\ nextAlpha m a2 = Ok d2 /\ forall x, isDart im x -> edgeOf im x = ml -> x = d2 \/ x = a2.
Proof.
  destruct (alpha_darts m d2 a2 Wi D2 A2) as (D & N & A & E & U). fold im in D, E, U. rewrite L2 in E, U. assert (Q : a2 <> d3) by (intros ->; congruence). split; [exact D|]. split; [congruence|]. split; [exact Q|]. split; [exact E|]. split; [|split; [exact A|exact U]].
  intros X. destruct (On a2 D X); congruence.
Qed.
Lemma onward_2 : onward d2 = a1. Proof. unfold onward. destruct (dart_eq_dec d2 d2); [reflexivity|contradiction]. Qed.
Lemma onward_3 : onward d3 = a2. Proof. unfold onward. destruct (dart_eq_dec d3 d2) as [E|_]; [exfalso; congruence|]. destruct (dart_eq_dec d3 d3); [reflexivity|contradiction]. Qed.
Lemma onward_other w : w <> d2 -> w <> d3 -> onward w = w. Proof. intros A B. unfold onward. destruct (dart_eq_dec w d2); [contradiction|]. destruct (dart_eq_dec w d3); [contradiction|reflexivity]. Qed.
Lemma onward_far w : nodeOf im w <> n -> onward w = w. Proof. intros N. apply onward_other; intros ->; contradiction. Qed.
(** round the node, the other dart goes on with its opposite *)
Lemma onward_met w w0 z : isDart im w -> nodeOf im w = n -> isDart im w0 -> nextDart im (-1) w0 w -> nextAlpha m w0 = Ok z -> onward z = onward w.
Proof.
  intros Dw Nw D0 Nx A. pose proof (next_back im Fr (-1) w0 w W2 D0 Nx) as Nb. change (- (-1)) with 1 in Nb. destruct a1_is as (_ & B1 & B2 & _), a2_is as (_ & C1 & C2 & _). destruct (On w Dw Nw) as [-> | ->].
  - assert (w0 = d3) by (apply (next_unique im 1 d2); assumption). subst w0. assert (z = a1) by congruence. subst z. rewrite onward_2. apply onward_other; assumption.
  - assert (w0 = d2) by (apply (next_unique im 1 d3); assumption). subst w0. assert (z = a2) by congruence. subst z. rewrite onward_3. apply onward_other; assumption.
Qed.

(** ** The image afterwards *)
Lemma join_pix x y : 0 <= x < iw im -> 0 <= y < ih im -> ((owns im Vertex n x y \/ owns im Line ml x y) /\ ipix im' x y = Pix Line s) \/ (~ owns im Vertex n x y /\ ~ owns im Line ml x y /\ ipix im' x y = ipix im x y).
Proof.
  intros X Y. destruct (pixel_after im im' Line s _ Re x y X Y) as [(I & E)|(I & E)]; [left|right].
  - split; [|exact E]. destruct I as [I|[I|[]]]; injection I as I1 I2; [left|right]; (split; [exact X|split; [exact Y|apply pix_is; auto]]).
  - split; [|split; [|exact E]]; intros (_ & _ & O); apply I; rewrite O; cbn; auto.
Qed.
Lemma join_region x y : 0 <= x < iw im -> 0 <= y < ih im -> (ptype (ipix im' x y) = Region <-> ptype (ipix im x y) = Region).
Proof. intros X Y. destruct (join_pix x y X Y) as [(Q & E)|(_ & _ & E)]; rewrite E; [|tauto]. split; [discriminate|]. destruct Q as [(_ & _ & Q)|(_ & _ & Q)]; rewrite Q; discriminate. Qed.
Lemma join_line x y : 0 <= x < iw im -> 0 <= y < ih im -> (ptype (ipix im' x y) = Line <-> ptype (ipix im x y) = Line \/ owns im Vertex n x y).
Proof.
  intros X Y. destruct (join_pix x y X Y) as [(Q & E)|(N1 & N4 & E)]; rewrite E; [|tauto]. split; [|reflexivity]. intros _. destruct Q as [Q|(_ & _ & Q)]; [right; exact Q|left; rewrite Q; reflexivity].
Qed.
Lemma join_vertex x y : 0 <= x < iw im -> 0 <= y < ih im -> ptype (ipix im' x y) = Vertex -> vertexAt im x y /\ plabel (ipix im x y) <> n.
Proof.
  intros X Y T. destruct (join_pix x y X Y) as [(Q & E)|(N1 & N4 & E)]; rewrite E in T; [discriminate T|]. split; [split; auto|]. intros L. apply N1. split; [exact X|]. split; [exact Y|]. apply pix_is; assumption.
Qed.
Lemma join_lineAt x y : lineAt im' x y <-> lineAt im x y \/ owns im Vertex n x y.
Proof.
  pose proof Re as (W & H & _). unfold lineAt. rewrite W, H. split.
  - intros (X & Y & T). apply join_line in T; auto. destruct T; auto.
  - intros [(X & Y & T)|O]; [split; [exact X|split; [exact Y|apply join_line; auto]]|]. pose proof O as (X & Y & _). split; [exact X|]. split; [exact Y|]. apply join_line; auto.
Qed.
Lemma join_label x y : lineAt im x y -> plabel (ipix im' x y) = if plabel (ipix im x y) =? ml then s else plabel (ipix im x y).
Proof.
  intros (X & Y & T). destruct (join_pix x y X Y) as [([(_ & _ & Q)|(_ & _ & Q)] & E)|(N1 & N4 & E)]; rewrite E.
  - exfalso. rewrite Q in T. discriminate T.
  - rewrite Q. cbn [plabel]. rewrite Z.eqb_refl. reflexivity.
  - destruct (Z.eqb_spec (plabel (ipix im x y)) ml) as [Q|Q]; [|reflexivity]. exfalso. apply N4. split; [exact X|]. split; [exact Y|]. apply pix_is; assumption.
Qed.
Lemma join_in x y k : lineAt im' x y -> 0 <= x + dirX k < iw im /\ 0 <= y + dirY k < ih im.
Proof. intros La. apply join_lineAt in La. destruct La as [La|O]; [apply line_near; auto|]. apply (neighbor_in im Fr), (owns_vertex _ _ _ _ O). Qed.
Lemma join_near_region x y k : lineAt im' x y -> (near im' x y k = Region <-> near im x y k = Region).
Proof. intros La. destruct (join_in x y (k mod 8) La) as (X & Y). apply join_region; assumption. Qed.
(** beside the node there is no other node *)
Lemma join_near_vertex x y k : lineAt im' x y -> near im' x y k = Vertex -> vertexAt im (x + dirX (k mod 8)) (y + dirY (k mod 8)) /\ plabel (ipix im (x + dirX (k mod 8)) (y + dirY (k mod 8))) <> n /\ lineAt im x y.
Proof.
  intros La T. destruct (join_in x y (k mod 8) La) as (X & Y). destruct (join_vertex _ _ X Y T) as (V & N). split; [exact V|]. split; [exact N|]. apply join_lineAt in La. destruct La as [La|O]; [exact La|]. exfalso. apply N.
  pose proof (Z.mod_pos_bound k 8 ltac:(lia)) as K. destruct (Jo x y (k mod 8) n K O V) as (_ & _ & E). rewrite E. reflexivity.
Qed.
Lemma join_side x y j : lineSide im' x y j -> In j [0; 2; 4; 6] /\ near im x y j = Region /\ (lineAt im x y \/ owns im Vertex n x y).
Proof. intros (J & La & R). split; [exact J|]. split; [apply (join_near_region x y j La), R|]. apply join_lineAt, La. Qed.

Section Tracked.
Variable L : dart -> Z -> Z -> Z -> Prop.
Hypothesis Tr : tracked m L.
Let own := own m L.
Let vown := vown m.
Definition joinedL (z : dart) (x y j : Z) : Prop := exists w, own w x y j /\ z = onward w.

Lemma vown_at w x y j : owns im Vertex n x y -> In j [0; 2; 4; 6] -> near im x y j = Region -> vown w x y j -> isDart im w /\ nodeOf im w = n /\ nextDart im (-1) (Dart x y j) w.
Proof.
  intros O J R (V & H). assert (Pp : isPlace im (Dart x y j)). { apply straight_place; [exact J|exact V|]. unfold near in R. rewrite Z.mod_small in R by (apply even_range, J). fold im. congruence. }
  assert (Nn : nodeOf im (Dart x y j) = n) by (unfold nodeOf; cbn [dcx dcy]; destruct O as (_ & _ & ->); reflexivity). destruct H as [(Dw & Nx)|(_ & (_ & Lo) & _)].
  - split; [exact Dw|]. split; [|exact Nx]. destruct Nx as (_ & k & _ & <- & _). rewrite <- Nn. apply (places_label im Fr Jo k (-1)); [exact W2|exact Pp].
  - exfalso. apply (Lo d2 D2). fold im. congruence.
Qed.
Lemma join_tracked : tracked m' joinedL.
Proof.
  pose proof Tr as (T1 & T2 & T3 & T4 & T5). fold im in T1, T2, T3, T4, T5. unfold tracked. fold im'.
  pose proof (join_darts m m' s n ml Wi Ta) as Jd. pose proof (join_edge m m' s n ml Wi Ta) as Je. fold im im' in Jd, Je.
  destruct a1_is as (Da1 & B1 & B2 & B3 & B4 & B5 & B6), a2_is as (Da2 & C1 & C2 & C3 & C4 & C5 & C6).
  assert (E1 : isDart im' a1 /\ edgeOf im' a1 = s). { split; [apply Jd; auto|]. rewrite (Je _ Da1), B3. apply Z.eqb_neq in Df. rewrite Df. reflexivity. }
  assert (E2 : isDart im' a2 /\ edgeOf im' a2 = s). { split; [apply Jd; auto|]. rewrite (Je _ Da2), C3. rewrite Z.eqb_refl. reflexivity. }
  assert (Fw : forall w, isDart im w -> isDart im' (onward w) /\ edgeOf im' (onward w) = if edgeOf im w =? ml then s else edgeOf im w).
  { intros w Dw. destruct (dart_eq_dec w d2) as [->|Q2]; [rewrite onward_2, L2, Z.eqb_refl; exact E1|]. destruct (dart_eq_dec w d3) as [->|Q3]; [rewrite onward_3, L3; apply Z.eqb_neq in Df; rewrite Df; exact E2|].
    rewrite onward_other by assumption. split; [|apply Je, Dw]. apply Jd. split; [exact Dw|]. intros X. destruct (On w Dw X); contradiction. }
  assert (Sl : forall x y j, lineSide im' x y j -> lineAt im x y -> lineSide im x y j) by (intros x y j S La; destruct (join_side x y j S) as (J & R & _); split; [exact J|split; assumption]).
  split; [|split; [|split; [|split]]].
  - intros x y j S. destruct (join_side x y j S) as (J & R & H). destruct (own_exists m Fa L Tr x y j) as (w & Ow); [|exists (onward w), w; auto].
    split; [exact J|]. split; [|exact R]. apply (contour_is m Fa). destruct H as [H|H]; [right; exact H|left; exact (owns_vertex _ _ _ _ H)].
  - intros z x y j S (w & Ow & ->). destruct (join_side x y j S) as (J & R & H). destruct Ow as [Vw|(La & Lw)].
    + assert (O : owns im Vertex n x y). { destruct H as [(_ & _ & H)|H]; [exfalso; destruct Vw as ((_ & _ & V) & _); fold im in V; congruence|exact H]. }
      destruct (vown_at w x y j O J R Vw) as (Dw & Nw & _). pose proof O as (X & Y & E). assert (Lb : plabel (ipix im' x y) = s) by (destruct (join_pix x y X Y) as [(_ & ->)|(N & _)]; [reflexivity|contradiction]). rewrite Lb.
      destruct (On w Dw Nw) as [-> | ->]; [rewrite onward_2; exact E1|rewrite onward_3; exact E2].
    + destruct (T2 w x y j (Sl _ _ _ S La) Lw) as (Dw & E). rewrite (join_label x y La), <- E. apply Fw, Dw.
  - intros z w x y j S (z0 & Oz & ->) (w0 & Ow & ->). destruct (join_side x y j S) as (J & R & H). f_equal. destruct Oz as [Vz|(La & Lz)], Ow as [Vw|(La' & Lw)].
    + assert (O : owns im Vertex n x y). { destruct H as [(_ & _ & H)|H]; [exfalso; destruct Vw as ((_ & _ & V) & _); fold im in V; congruence|exact H]. }
      destruct (vown_at z0 x y j O J R Vz) as (_ & _ & Nz). destruct (vown_at w0 x y j O J R Vw) as (_ & _ & Nw). apply (next_unique im (-1) (Dart x y j)); assumption.
    + exfalso. destruct Vz as ((_ & _ & V) & _), La' as (_ & _ & Q). congruence.
    + exfalso. destruct Vw as ((_ & _ & V) & _), La as (_ & _ & Q). congruence.
    + exact (T3 z0 w0 x y j (Sl _ _ _ S La) Lz Lw).
  - intros z x y j S (w & Ow & ->). destruct (join_side x y j S) as (J & R & H). pose proof S as (_ & La' & _). pose proof (even_range j J) as (Jr & _). unfold steps. cbv zeta.
    assert (St : lineAt im x y -> steps im L w x y j). { intros La. destruct Ow as [((_ & _ & V) & _)|(_ & Lw)]; [exfalso; destruct La as (_ & _ & Q); fold im in V; congruence|]. exact (T4 w x y j (Sl _ _ _ S La) Lw). }
    assert (Far : forall u v k, vertexAt im u v -> plabel (ipix im u v) <> n -> onward (Dart u v k) = Dart u v k) by (intros u v k _ N; apply onward_far; exact N).
    assert (Turn : near im x y (j + 1) <> Region -> near im' x y (j + 2) <> Vertex -> joinedL (onward w) (x + dirX ((j + 1) mod 8)) (y + dirY ((j + 1) mod 8)) ((j + 6) mod 8)).
    { intros C1' NV. destruct Ow as [Vw|(La & Lw)].
      - assert (O : owns im Vertex n x y). { destruct H as [(_ & _ & H)|H]; [exfalso; destruct Vw as ((_ & _ & V) & _); fold im in V; congruence|exact H]. }
        destruct (vown_at w x y j O J R Vw) as (Dw & Nw & _). destruct (place_turn m Fa L Tr x y j J R (proj1 Vw) w Vw C1') as (z' & O' & _ & [(-> & _)|(w0 & Dw0 & Nx & Az & _)]); [exists w; auto|].
        exists z'. split; [exact O'|]. symmetry. apply (onward_met w w0); assumption.
      - destruct (step_turn m Fa L Tr x y j J R La w Lw C1') as (z' & O' & _ & [->|(w0 & Tq & Ew & Dw0 & Nx & Az)]); [exists w; auto|]. exists z'. split; [exact O'|]. symmetry.
        destruct (T2 w x y j (Sl _ _ _ S La) Lw) as (Dw & _). apply (onward_met w w0); auto. destruct (join_in x y ((j + 2) mod 8) La') as (Xq & Yq). rewrite Ew. unfold nodeOf. cbn [dcx dcy].
        destruct (join_pix _ _ Xq Yq) as [([(_ & _ & Q)|(_ & _ & Q)] & _)|(_ & _ & Q)]; [rewrite Q; reflexivity| |exfalso].
        + exfalso. change (near im x y (j + 2) = Vertex) in Tq. unfold near in Tq. rewrite Q in Tq. discriminate Tq.
        + apply NV. unfold near. rewrite Q. exact Tq. }
    split; [|split; [|split; [|split; [|split; [|split]]]]].
    + intros Es Eq_. apply (join_near_region x y _ La') in Es, Eq_. destruct Ow as [Vw|(La & Lw)].
      * exists w. split; [|reflexivity]. exact (place_round m Fa L x y j J R (proj1 Vw) w Vw Es Eq_).
      * exists w. split; [|reflexivity]. exact (step_round m L Tr x y j J R La w Lw Es Eq_).
    + intros Eq_. destruct (join_near_vertex x y (j + 2) La' Eq_) as (V & N & La). destruct (St La) as (_ & S2 & _). rewrite (S2 (proj2 (proj2 V))). apply Far; assumption.
    + intros Eq_ Es. apply (join_near_region x y _ La') in Es. assert (Cq : near im x y (j + 2) <> Region) by (intros Q; apply (join_near_region x y _ La') in Q; congruence). destruct Ow as [Vw|(La & Lw)].
      * assert (O : owns im Vertex n x y). { destruct H as [(_ & _ & H)|H]; [exfalso; destruct Vw as ((_ & _ & V) & _); fold im in V; congruence|exact H]. }
        destruct (vown_at w x y j O J R Vw) as (Dw & Nw & _). destruct (place_on m Fa L Tr x y j J R (proj1 Vw) w Vw Es Cq) as (z' & O' & _ & [(-> & _)|(w0 & Dw0 & Nx & Az & _)]); [exists w; auto|].
        exists z'. split; [exact O'|]. symmetry. apply (onward_met w w0); assumption.
      * exists w. split; [|reflexivity]. exact (step_on m Fa L Tr x y j J R La w Lw Es Cq).
    + intros Eq_ Es. apply Turn; [intros Q; apply (join_near_region x y _ La') in Q; congruence|congruence].
    + intros Eq_ Es. destruct (join_near_vertex x y (j + 1) La' Es) as (V & N & La). destruct (St La) as (_ & _ & _ & _ & S5 & _). assert (Tq : near im x y (j + 2) = Line).
      { destruct (join_in x y ((j + 2) mod 8) La') as (Xq & Yq). apply join_line in Eq_; auto. destruct Eq_ as [Eq_|O]; [exact Eq_|]. exfalso. apply N. pose proof (Jo _ _ j n Jr O) as Q. destruct (q_to_s x y j J) as (Ex & Ey). rewrite Ex, Ey in Q. destruct (Q V) as (_ & _ & E). rewrite E. reflexivity. }
      rewrite (S5 Tq (proj2 (proj2 V))). apply Far; assumption.
    + intros Eq_ Es. apply Turn; [intros Q; apply (join_near_region x y _ La') in Q; congruence|congruence].
    + intros Eq_ Es. destruct (join_near_vertex x y (j + 1) La' Es) as (V & N & La). apply (join_near_region x y _ La') in Eq_. destruct (St La) as (_ & _ & _ & _ & _ & _ & S7). rewrite (S7 Eq_ (proj2 (proj2 V))). apply Far; assumption.
  - intros x y k b' D' A'. pose proof (proj1 (Jd _) D') as (D & Nn). destruct (CellPlane_Owner.alpha_some m Fa _ D) as (b & A). pose proof (T5 x y k b D A) as St.
    assert (Eb : b' = onward b).
    { assert (Wi' : wired m') by apply Fa'. destruct (alpha_darts m _ b Wi D A) as (Db & Nx & Ab & Eb & _). fold im in Db, Eb. destruct (Fw b Db) as (Db' & Eb'). assert (Q : nextAlpha m' (Dart x y k) = Ok (onward b)); [|congruence].
      apply alpha_is; auto.
      - intros Q. destruct (dart_eq_dec b d2) as [->|Q2]; [rewrite onward_2 in Q; rewrite <- Q in *; congruence|]. destruct (dart_eq_dec b d3) as [->|Q3]; [rewrite onward_3 in Q; rewrite <- Q in *; congruence|]. rewrite onward_other in Q by assumption. congruence.
      - fold im'. rewrite Eb', (Je _ D), Eb. reflexivity. }
    subst b'. assert (Nr : forall i, near im' x y (k + i) = near im x y (k + i)).
    { intros i. change (near im' x y (k + i)) with (typeAt im' (Dart x y k) i). change (near im x y (k + i)) with (typeAt im (Dart x y k) i). apply (types_kept im im' Line s n [(Vertex, n); (Line, ml)]); auto; [left; reflexivity| |discriminate|apply D'].
      intros u l [E|[E|[]]]; injection E as <- <-; auto. }
    pose proof D as (V & K & T & _). cbn [dcx dcy ddir] in V, K. unfold typeAt in T. cbn [dcx dcy ddir] in T. rewrite Z.add_0_r, Z.mod_small in T by exact K. destruct (neighbor_in im Fr x y k V) as (Xk & Yk).
    destruct (neighbor_in im Fr x y ((k + 7) mod 8) V) as (X7 & Y7). unfold starts in *. rewrite !Nr. destruct St as (S1 & S2 & S3).
    split; [|split]; [intros O|intros O Q|intros O Q7 Q6]; exists b; (split; [|reflexivity]); right; (split; [split; [|split]; assumption|]); auto.
Qed.
End Tracked.

(** ** The edge, the faces *)
Lemma join_owns l x y : l <> s -> (owns im' Line l x y <-> owns im Line l x y /\ l <> ml).
Proof.
  intros NS. pose proof Re as (W & H & _). unfold owns at 1. rewrite W, H. split.
  - intros (X & Y & O). destruct (join_pix x y X Y) as [(_ & E)|(N1 & N4 & E)]; [congruence|]. rewrite E in O. assert (Ow : owns im Line l x y) by (split; auto). split; [exact Ow|]. intros ->. contradiction.
  - intros ((X & Y & O) & NM). split; [exact X|]. split; [exact Y|]. destruct (join_pix x y X Y) as [([(_ & _ & E)|(_ & _ & E)] & _)|(N1 & N4 & E)]; congruence.
Qed.
Lemma join_owns_s x y : owns im' Line s x y <-> owns im Line s x y \/ owns im Line ml x y \/ owns im Vertex n x y.
Proof.
  pose proof Re as (W & H & _). unfold owns at 1. rewrite W, H. split.
  - intros (X & Y & O). destruct (join_pix x y X Y) as [([E|E] & _)|(N1 & N4 & E)]; auto. left. split; [exact X|split; [exact Y|congruence]].
  - intros Q. assert (X : 0 <= x < iw im /\ 0 <= y < ih im) by (destruct Q as [(X & Y & _)|[(X & Y & _)|(X & Y & _)]]; auto). destruct X as (X & Y). split; [exact X|]. split; [exact Y|].
    destruct (join_pix x y X Y) as [(_ & E)|(N1 & N4 & E)]; [exact E|]. destruct Q as [(_ & _ & Q)|[Q|Q]]; [congruence|contradiction|contradiction].
Qed.
Lemma join_regionAt x y : regionAt im' x y <-> regionAt im x y.
Proof. pose proof Re as (W & H & _). unfold regionAt. rewrite W, H. split; intros (X & Y & T); (split; [exact X|split; [exact Y|]]); apply (join_region x y X Y), T. Qed.
Lemma d2_owns : owns im Vertex n (dcx d2) (dcy d2). Proof. pose proof D2 as (V & _). pose proof (vertex_owns im _ _ V) as O. unfold nodeOf in N2. rewrite N2 in O. exact O. Qed.
Lemma d3_owns : owns im Vertex n (dcx d3) (dcy d3). Proof. pose proof D3 as (V & _). pose proof (vertex_owns im _ _ V) as O. unfold nodeOf in N3. rewrite N3 in O. exact O. Qed.
Lemma node_walk x y : owns im Vertex n x y -> reach ways8 (owns im Vertex n) x y (dcx d2) (dcy d2).
Proof.
  intros O. destruct (walk_east im n x y Fr Jo O) as (u & v & Rr & N). pose proof (walk_end _ _ _ _ _ _ Rr) as Ou. apply (walk_trans _ _ _ _ u v); [exact (walk_more _ _ _ _ _ _ _ _ ways48 (fun a b h => h) Rr)|].
  assert (Pu : isPlace im (Dart u v 0)) by (apply straight_place; [cbn; tauto|exact (owns_vertex _ _ _ _ Ou)|exact N]).
  destruct (Ri (Dart u v 0) d2 Pu (dart_place im d2 D2)) as (k & <-); [rewrite N2; unfold nodeOf; cbn [dcx dcy]; destruct Ou as (_ & _ & ->); reflexivity|]. exact (places_walk im n k Fr Jo (Dart u v 0) Pu Ou).
Qed.
Lemma join_strung : strung im -> strung im'.
Proof.
  intros Sg l x y u v A B. destruct (Z.eq_dec l s) as [->|NS].
  - assert (Mo : forall (P : Z -> Z -> Prop) p q p' q', (forall a b, P a b -> owns im' Line s a b) -> reach ways8 P p q p' q' -> reach ways8 (owns im' Line s) p q p' q') by (intros P p q p' q' H R; exact (reach_mono _ P _ _ _ _ _ H R)).
    assert (Ln : forall d p q, isDart im d -> owns im Vertex n (dcx d) (dcy d) -> edgeOf im d = s \/ edgeOf im d = ml -> owns im Line (edgeOf im d) p q -> reach ways8 (owns im' Line s) p q (dcx d2) (dcy d2)).
    { intros d p q Dd Od Ed O. pose proof (dart_owns im Fr d Dd) as Ot. pose proof (Sg _ _ _ _ _ O Ot) as R1. pose proof Dd as (_ & K & _).
      apply (walk_trans _ _ _ _ (dcx d + dirX (ddir d)) (dcy d + dirY (ddir d))); [apply (Mo (owns im Line (edgeOf im d))); [|exact R1]; intros a b Q; apply join_owns_s; destruct Ed as [Ed|Ed]; rewrite Ed in Q; auto|].
      apply (walk_trans _ _ _ _ (dcx d) (dcy d)); [|apply (Mo (owns im Vertex n)); [intros; apply join_owns_s; auto|apply node_walk, Od]].
      apply walk_back; [exact two8|]. apply walk_one; [cbn; lia|apply join_owns_s; auto|]. apply join_owns_s. destruct Ed as [Ed|Ed]; rewrite Ed in Ot; auto. }
    assert (G : forall p q, owns im' Line s p q -> reach ways8 (owns im' Line s) p q (dcx d2) (dcy d2)).
    { intros p q O. apply join_owns_s in O. destruct O as [O|[O|O]].
      - apply (Ln d3); [exact D3|exact d3_owns|left; exact L3|rewrite L3; exact O].
      - apply (Ln d2); [exact D2|exact d2_owns|right; exact L2|rewrite L2; exact O].
      - apply (Mo (owns im Vertex n)); [intros; apply join_owns_s; auto|apply node_walk, O]. }
    apply (walk_trans _ _ _ _ (dcx d2) (dcy d2)); [apply G, A|]. apply walk_back; [exact two8|]. apply G, B.
  - apply (join_owns l _ _ NS) in A, B. destruct A as (A & NM), B as (B & _). apply (reach_mono _ (owns im Line l)); [|apply Sg; assumption]. intros p q O. apply (join_owns l _ _ NS). auto.
Qed.
Lemma join_opened : opened im -> opened im'.
Proof.
  intros Op l x y A. destruct (Z.eq_dec l s) as [->|NS].
  - assert (Ln : forall k p q, k = s \/ k = ml -> owns im Line k p q -> exists u v i, reach ways4 (owns im' Line s) p q u v /\ In i ways4 /\ regionAt im' (u + dirX i) (v + dirY i)).
    { intros k p q Hk O. destruct (Op k p q O) as (u & v & i & R & I & Rg). exists u, v, i. split; [|split; [exact I|apply join_regionAt, Rg]]. apply (reach_mono _ (owns im Line k)); [|exact R]. intros a b Q. apply join_owns_s. destruct Hk as [-> | ->]; auto. }
    apply join_owns_s in A. destruct A as [A|[A|A]]; [apply (Ln s); auto|apply (Ln ml); auto|].
    destruct (walk_east im n x y Fr Jo A) as (u & v & Rr & N). pose proof (walk_end _ _ _ _ _ _ Rr) as Ou. pose proof (owns_vertex _ _ _ _ Ou) as Vu. destruct (neighbor_in im Fr u v 0 Vu) as (X & Y).
    assert (R' : reach ways4 (owns im' Line s) x y u v) by (apply (reach_mono _ (owns im Vertex n)); [intros; apply join_owns_s; auto|exact Rr]).
    destruct (ptype (ipix im (u + dirX 0) (v + dirY 0))) eqn:T.
    + exists u, v, 0. split; [exact R'|]. split; [cbn; tauto|]. apply join_regionAt. split; auto.
    + assert (D : isDart im (Dart u v 0)) by (apply straight_dart; [cbn; tauto|exact Vu|exact T]). pose proof (dart_owns im Fr _ D) as Ot. cbn [dcx dcy ddir] in Ot.
      assert (Ed : edgeOf im (Dart u v 0) = s \/ edgeOf im (Dart u v 0) = ml). { destruct (On _ D) as [-> | ->]; [unfold nodeOf; cbn [dcx dcy]; destruct Ou as (_ & _ & ->); reflexivity| |]; auto. }
      destruct (Ln _ _ _ Ed Ot) as (p & q & i & R & I & Rg). exists p, q, i. split; [|split; [exact I|exact Rg]]. apply (walk_trans _ _ _ _ (u + dirX 0) (v + dirY 0)); [|exact R]. apply re_step; [exact R'|cbn; tauto|exact (walk_start _ _ _ _ _ _ R)].
    + contradiction.
    + exfalso. exact (Pl _ _ X Y T).
  - apply (join_owns l _ _ NS) in A. destruct A as (A & NM). destruct (Op l x y A) as (u & v & k & R & K & Rg). exists u, v, k. split; [|split; [exact K|apply join_regionAt, Rg]]. apply (reach_mono _ (owns im Line l)); [|exact R]. intros p q O. apply (join_owns l _ _ NS). auto.
Qed.
Lemma join_whole : whole im -> whole im'.
Proof.
  intros Wh l x y u v A B. pose proof Re as (W & H & _).
  assert (G : forall p q, owns im' Region l p q -> owns im Region l p q). { intros p q (X & Y & O). rewrite W in X. rewrite H in Y. split; [exact X|]. split; [exact Y|]. destruct (join_pix p q X Y) as [(_ & E)|(_ & _ & E)]; congruence. }
  apply (reach_mono _ (regionAt im)); [intros p q R; apply join_regionAt, R|]. apply (Wh l); apply G; assumption.
Qed.
Lemma join_planar : planar m -> planar m'.
Proof.
  intros (_ & Wh & Sg & Op & L & Tr). split; [exact Fa'|]. split; [apply join_whole, Wh|]. split; [apply join_strung, Sg|]. split; [apply join_opened, Op|]. exists (joinedL L). apply join_tracked, Tr.
Qed.
End Join.
