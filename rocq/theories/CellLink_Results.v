(** C66, C67: whatever is called, the darts of edges and nodes stay in order. *)
From Coq Require Import Lia.
From Verif Require Import Base CellMap_Model CellMap_Spec CellMap_Main CellSigma_Spec CellSigma_Proofs CellSigma_Results CellLink_Spec CellLink_Proofs CellLink_Main.
Local Open Scope Z_scope.

Lemma ends_nth m m' l e : map ends (cedges m') = map ends (cedges m) -> nth_error (cedges m') l = Some e ->
  exists e0, nth_error (cedges m) l = Some e0 /\ estart e = estart e0 /\ eend e = eend e0.
Proof.
  intros E H. assert (Q : nth_error (map ends (cedges m)) l = Some (ends e)) by (rewrite <- E; apply map_nth_error, H).
  rewrite nth_error_map in Q. destruct (nth_error (cedges m) l) as [e0|]; [|discriminate Q]. injection Q as A B. exists e0. auto.
Qed.
Lemma live_edge m m' t s gone l e : takenOver m m' t s gone -> nth_error (cedges m') l = Some e -> initialized (einf e) = true ->
  (exists e0, nth_error (cedges m) l = Some e0 /\ initialized (einf e0) = true) /\ ~ In (Line, Z.of_nat l) gone.
Proof.
  intros (_ & _ & _ & C & _) H I. destruct (proj1 (C Line l)) as (A & B).
  - exists (einf e). split; auto. cbn [cellsOf]. apply map_nth_error, H.
  - split; auto. destruct A as (c & A & J). cbn [cellsOf] in A. rewrite nth_error_map in A. destruct (nth_error (cedges m) l) as [e0|]; [|discriminate A].
    injection A as <-. exists e0. auto.
Qed.
Lemma live_node m m' t s gone l e : takenOver m m' t s gone -> nth_error (cnodes m') l = Some e -> initialized (ninf e) = true ->
  (exists e0, nth_error (cnodes m) l = Some e0 /\ initialized (ninf e0) = true) /\ ~ In (Vertex, Z.of_nat l) gone.
Proof.
  intros (_ & _ & _ & C & _) H I. destruct (proj1 (C Vertex l)) as (A & B).
  - exists (ninf e). split; auto. cbn [cellsOf]. apply map_nth_error, H.
  - split; auto. destruct A as (c & A & J). cbn [cellsOf] in A. rewrite nth_error_map in A. destruct (nth_error (cnodes m) l) as [e0|]; [|discriminate A].
    injection A as <-. exists e0. auto.
Qed.
Lemma pix_eta p t l : t = ptype p -> l = plabel p -> p = Pix t l.
Proof. destruct p. cbn. congruence. Qed.
Lemma line_owner im x y : 0 <= x < iw im -> 0 <= y < ih im -> ptype (ipix im x y) = Line -> owns im Line (plabel (ipix im x y)) x y.
Proof. intros X Y T. split; auto. split; auto. destruct (ipix im x y); cbn in *; congruence. Qed.

(** line pixels go, or stay as they are *)
Lemma separate_less im im' t l gone : repaint im im' t l gone -> t <> Line -> separate im -> separate im'.
Proof.
  intros Re T Se x y k j K (X & Y & P) X' Y' L. pose proof Re as (W & H & _). rewrite W, H in *.
  destruct (pixel_after im im' t l gone Re x y X Y) as [(_ & E)|(_ & E)]; [rewrite E in P; injection P as P _; contradiction|].
  destruct (pixel_after im im' t l gone Re _ _ X' Y') as [(_ & E')|(_ & E')]; [rewrite E' in L; cbn in L; contradiction|].
  rewrite E' in L |- *. rewrite E in P. apply (Se x y k j K); auto. split; auto.
Qed.
Lemma edge_after im im' t l gone d : framed im -> repaint im im' t l gone -> isDart im d -> ~ In (Line, edgeOf im d) gone -> edgeOf im' d = edgeOf im d.
Proof.
  intros Fr Re D N. destruct (dart_owns im Fr d D) as (X & Y & P). unfold edgeOf.
  destruct (pixel_after im im' t l gone Re _ _ X Y) as [(I & _)|(_ & E)]; [|rewrite E; reflexivity]. exfalso. apply N. rewrite P in I. exact I.
Qed.

Section Cut.
Variables (m m' : cmap) (s el : Z) (gone : list (ctype * Z)).
Hypothesis Wi : wired m.
Hypothesis Ti' : tidy m'.
Hypothesis Ta : takenOver m m' Region s gone.
Hypothesis Ge : In (Line, el) gone.
Hypothesis Gg : forall u k, In (u, k) gone -> (u = Line /\ k = el) \/ u = Region.
Hypothesis Cu : cutOff m m' el.
Hypothesis Ex : exists d, isDart (cim m) d /\ edgeOf (cim m) d = el.

Let im := cim m.
Let im' := cim m'.
Let Re : repaint im im' Region s gone := taken_repaint _ _ _ _ _ Ta.
Let Fr : framed im. Proof. apply Wi. Qed.
Let Fr' : framed im'. Proof. apply Ti'. Qed.
Let Jo : joined im. Proof. apply Wi. Qed.
Let NV : Region <> Vertex. Proof. discriminate. Qed.

Lemma cut_darts d : isDart im' d <-> isDart im d /\ edgeOf im d <> el.
Proof. apply (darts_erased im im' Region s gone Fr); auto. apply Wi. Qed.
Lemma cut_edge d : isDart im' d -> edgeOf im' d = edgeOf im d.
Proof.
  intros D. apply cut_darts in D. destruct D as (D & E). apply (edge_after im im' Region s gone); auto.
  intros I. destruct (Gg _ _ I) as [(_ & X)|X]; [contradiction|discriminate X].
Qed.
Lemma cut_vertex x y : vertexAt im' x y <-> vertexAt im x y.
Proof. rewrite (vertex_after im im' Region s gone Re NV). split; [tauto|]. intros V. split; auto. intros I. destruct (Gg _ _ I) as [(X & _)|X]; discriminate X. Qed.
Lemma cut_node d : vertexAt im (dcx d) (dcy d) -> nodeOf im' d = nodeOf im d.
Proof. intros V. apply (node_after im im' Region s gone); auto. apply cut_vertex, V. Qed.
Lemma cut_place d : isPlace im' d <-> isPlace im d.
Proof. rewrite (place_after im im' Region s gone) by auto. split; [tauto|]. intros P. split; auto. apply cut_vertex, P. Qed.
Lemma cut_ringed : ringed im'.
Proof. apply (ringed_after im im' Region s gone); auto. apply Wi. Qed.
Lemma cut_of_node l d : dartOfNode im' l d <-> dartOfNode im l d /\ edgeOf im d <> el.
Proof.
  unfold dartOfNode. rewrite cut_darts. split.
  - intros ((D & E) & N). rewrite cut_node in N by apply D. auto.
  - intros ((D & N) & E). rewrite cut_node by apply D. auto.
Qed.
(** an anchor of a node with darts is fit for the new image *)
Lemma cut_fair l a : isDart im a -> nodeOf im a = l -> fair im' l a.
Proof.
  intros D N. split; [apply cut_place, dart_place, D|]. split; [rewrite cut_node by apply D; exact N|]. intros T. apply cut_darts. split; auto. intros E.
  rewrite type0 in T by apply D. destruct (dart_owns im Fr a D) as (X & Y & P).
  destruct (pixel_after im im' Region s gone Re _ _ X Y) as [(_ & Q)|(Q & _)]; [rewrite Q in T; discriminate T|]. apply Q. rewrite P. cbn. fold im. rewrite E. exact Ge.
Qed.

Lemma fair_none l a g : fair im' l a -> manyDarts (dartOfNode im' l) g -> g = 0 -> typeAt im' a 0 <> Line.
Proof. intros (_ & N & D) M Hz T. assert (0 < g) by (apply (many_in _ _ a M); split; auto). lia. Qed.
Lemma cut_line d : vertexAt im (dcx d) (dcy d) -> typeAt im' d 0 = Line -> typeAt im d 0 = Line.
Proof.
  intros V T. unfold typeAt in *. pose proof (neighbor_in im Fr _ _ ((ddir d + 0) mod 8) V) as (X & Y).
  destruct (pixel_after im im' Region s gone Re _ _ X Y) as [(_ & Q)|(_ & Q)]; rewrite Q in T; [discriminate T|exact T].
Qed.

(** what is left after the two decrements: [g] darts of the node are left and the anchor is fit *)
Definition left_ (l : Z) (q : dart * Z) : Prop := manyDarts (dartOfNode im' l) (snd q) /\ 0 <= snd q < 2 ^ 16 /\ isPlace im' (fst q) /\ nodeOf im' (fst q) = l /\ (0 < snd q -> isDart im' (fst q)) /\ (snd q = 0 -> typeAt im' (fst q) 0 <> Line).

Lemma cut_hubs l q : nth_error (map hubI (cnodes m')) l = Some q -> (exists n0, nth_error (cnodes m) l = Some n0 /\ initialized (ninf n0) = true) -> left_ (Z.of_nat l) q.
Proof.
  intros Q (n0 & N0 & I0).
  destruct Wi as (Ci & (So & Ne & _) & Ri & Se & Ed & No). destruct Ex as (d0 & D0 & E0).
  destruct Cu as (e & n1 & n2 & ma & mb & mc & Ee & En1 & En2 & Ka & Ia & Db & Dc & Kc).
  apply at_Ok in Ee. destruct Ee as (Pe & Ee).
  destruct (edge_nth m el So d0 D0 E0) as (e' & Ee' & Ie & _). assert (e' = e) by congruence. subst e'.
  pose proof (Ed _ _ Ee Ie) as (Dif & Two). rewrite Z2Nat.id in Two by exact Pe. fold im in Two, No, Ed.
  set (a := estart e) in *. set (b := eend e) in *.
  assert (Da : isDart im a /\ edgeOf im a = el) by (apply Two; auto). assert (Db' : isDart im b /\ edgeOf im b = el) by (apply Two; auto).
  destruct Da as (Da & Ea). destruct Db' as (Dbd & Eb).
  rewrite nodeLabel_dart in En1, En2 by (apply Da || apply Dbd). injection En1 as En1. injection En2 as En2. fold im in En1, En2.
  assert (Fr1 : framed (cim ma)) by (rewrite Ia; exact Fr'). assert (Ne1 : neat (cim ma)) by (rewrite Ia; apply Ti'). assert (Jo1 : joined (cim ma)) by (rewrite Ia; apply Ti').
  assert (Ri1 : ringed (cim ma)) by (rewrite Ia; apply cut_ringed).
  (* the darts of a node that are left *)
  assert (Lf : forall l g, manyDarts (dartOfNode im l) g ->
     manyDarts (dartOfNode im' l) (g - (if n1 =? l then 1 else 0) - (if n2 =? l then 1 else 0))).
  { clear Q. intros k g M. assert (M1 : manyDarts (fun d => dartOfNode im k d /\ d <> a) (g - (if n1 =? k then 1 else 0))).
    { destruct (Z.eqb_spec n1 k) as [X|X]; [apply many_less; auto; split; congruence|]. rewrite Z.sub_0_r. revert M. apply many_ext. intros d. split; [|tauto]. intros H. split; auto.
      intros ->. apply X. rewrite <- En1. apply H. }
    assert (M2 : manyDarts (fun d => (dartOfNode im k d /\ d <> a) /\ d <> b) (g - (if n1 =? k then 1 else 0) - (if n2 =? k then 1 else 0))).
    { destruct (Z.eqb_spec n2 k) as [X|X]; [apply many_less; auto; split; [split; congruence|congruence]|]. rewrite Z.sub_0_r. revert M1. apply many_ext. intros d. split; [|tauto]. intros H. split; auto.
      intros ->. apply X. rewrite <- En2. apply H. }
    revert M2. apply many_ext. intros d. rewrite cut_of_node. split.
    - intros ((H & A) & B). split; auto. intros E. assert (d = a \/ d = b) by (apply Two; split; auto; apply H). tauto.
    - intros (H & E). split; [split; [exact H|]|]; intros X; apply E; rewrite X; auto. }
  (* node 1 *)
  destruct (node_nth m n1 So _ _ (proj1 Da) En1) as (x1 & X1 & J1 & P1).
  destruct (node_nth m n2 So _ _ (proj1 Dbd) En2) as (x2 & X2 & J2 & P2).
  pose proof (No _ _ X1 J1) as (G1 & M1 & Pl1 & Nd1 & An1 & _). rewrite Z2Nat.id in M1, Nd1 by exact P1.
  pose proof (No _ _ X2 J2) as (G2 & M2 & Pl2 & Nd2 & An2 & _). rewrite Z2Nat.id in M2, Nd2 by exact P2.
  pose proof (Lf _ _ M1) as L1. pose proof (Lf _ _ M2) as L2. rewrite Z.eqb_refl in L1, L2.
  assert (Gp1 : 0 < ndegree x1) by (apply (many_in _ _ a M1); split; auto). assert (Gp2 : 0 < ndegree x2) by (apply (many_in _ _ b M2); split; auto).
  destruct Ka as (Cka & Eka & Hka).
  assert (Y1 : exists y1, at_ (cnodes ma) n1 = Ok y1 /\ nanchor y1 = nanchor x1 /\ ndegree y1 = ndegree x1).
  { assert (T : nth_error (map hubI (cnodes ma)) (Z.to_nat n1) = Some (hubI x1)) by (rewrite Hka; apply map_nth_error, X1).
    apply hub_nth in T. destruct T as (y & T & U). injection U as U1 U2. exists y. split; [apply at_Ok; auto|auto]. }
  destruct Y1 as (y1 & Y1 & A1 & N1).
  destruct (careful_drop ma n1 y1 mb Fr1 Ne1 Jo1 Ri1 Y1) as (a1 & Ib & Cb & Eb' & Hb & Fb & Sb); auto.
  { rewrite Ia, A1. apply cut_fair; auto. }
  { rewrite N1. lia. }
  rewrite N1 in *. rewrite Hka in Hb. rewrite Ia in *.
  (* node 2 *)
  assert (Y2 : exists y2, at_ (cnodes mb) n2 = Ok y2 /\ fair im' n2 (nanchor y2) /\ ndegree y2 = ndegree x2 - (if n1 =? n2 then 1 else 0)).
  { assert (T : nth_error (map hubI (cnodes mb)) (Z.to_nat n2) = Some (if n1 =? n2 then (a1, ndegree x1 - 1) else hubI x2)).
    { rewrite Hb. destruct (Z.eqb_spec n1 n2) as [X|X].
      - rewrite <- X. apply nth_error_upd_eq. rewrite map_length. apply nth_error_Some. congruence.
      - rewrite nth_error_upd_neq by lia. apply map_nth_error, X2. }
    apply hub_nth in T. destruct T as (y & T & U). exists y. split; [apply at_Ok; auto|]. destruct (Z.eqb_spec n1 n2) as [X|X].
    - injection U as U1 U2. assert (x2 = x1) by (rewrite X in X1; congruence). subst x2. rewrite <- U1, <- X, <- U2. split; auto.
    - injection U as U1 U2. rewrite <- U1, <- U2, Z.sub_0_r. split; auto. apply cut_fair; auto. }
  destruct Y2 as (y2 & Y2 & F2 & N2).
  assert (Gy : 0 < ndegree y2 < 2 ^ 16).
  { rewrite N2. apply many_pos in L2. destruct (n1 =? n2); lia. }
  destruct (careful_drop mb n2 y2 mc) as (a2 & Ic & Cc & Ec & Hc & Fc & Sc); try (rewrite Ib; auto); auto.
  rewrite Ib, Hb in *. destruct Kc as (_ & _ & Hk). rewrite Hk, Hc in Q.
  (* the node in question *)
  pose proof (No _ _ N0 I0) as (G0 & M0 & Pl0 & Nd0 & An0 & Az0). pose proof (Lf _ _ M0) as L0.
  destruct (Nat.eq_dec l (Z.to_nat n2)) as [->|L2n].
  - rewrite nth_error_upd_eq in Q by (rewrite !list_upd_length, map_length; apply nth_error_Some; congruence). injection Q as <-. rewrite Z2Nat.id by exact P2.
    assert (n0 = x2) by congruence. subst n0. cbn [fst snd]. rewrite N2. split; [exact L2|]. cbn [fst snd]. split; [destruct (n1 =? n2); lia|].
    split; [apply Fc|]. split; [apply Fc|]. split; [intros Hp; apply Sc; [lia|]; exact (many_some _ _ L2 Hp)|]. apply (fair_none n2 a2); auto.
  - rewrite nth_error_upd_neq in Q by auto. destruct (Nat.eq_dec l (Z.to_nat n1)) as [->|L1n].
    + rewrite nth_error_upd_eq in Q by (rewrite map_length; apply nth_error_Some; congruence). injection Q as <-. rewrite Z2Nat.id by exact P1.
      assert (n0 = x1) by congruence. subst n0. rewrite Z2Nat.id in * by exact P1. destruct (Z.eqb_spec n2 n1) as [X|X]; [rewrite X in L2n; contradiction|].
      rewrite Z.sub_0_r in L1. split; [exact L1|]. cbn [fst snd]. split; [lia|]. split; [apply Fb|]. split; [apply Fb|]. split; [intros Hp; apply Sb; [lia|]; exact (many_some _ _ L1 Hp)|]. apply (fair_none n1 a1); auto.
    + rewrite nth_error_upd_neq in Q by auto. rewrite (map_nth_error hubI _ _ N0) in Q. injection Q as <-. cbn [hubI].
      assert (Z1 : n1 =? Z.of_nat l = false) by (apply Z.eqb_neq; intros X; apply L1n; lia). assert (Z2 : n2 =? Z.of_nat l = false) by (apply Z.eqb_neq; intros X; apply L2n; lia).
      rewrite Z1, Z2, !Z.sub_0_r in L0. split; [exact L0|]. cbn [fst snd]. split; [exact G0|]. split; [apply cut_place, Pl0|]. split; [rewrite cut_node by apply Pl0; exact Nd0|].
      split; [|intros Hz T; apply (Az0 Hz); apply cut_line; auto; apply Pl0].
      intros Hp. specialize (An0 Hp). apply cut_darts. split; auto. intros E. assert (W : nanchor n0 = a \/ nanchor n0 = b) by (apply Two; split; auto).
      apply Z.eqb_neq in Z1, Z2. destruct W as [W|W]; rewrite W in Nd0; [apply Z1|apply Z2]; congruence.
Qed.

Lemma cut_wired : wired m'.
Proof.
  destruct Wi as (Ci & (So & Ne & _) & Ri & Se & Ed & No).
  pose proof Cu as (e & n1 & n2 & ma & mb & mc & Ee & En1 & En2 & Ka & Ia & Db & Dc & Kc).
  assert (K : cinit m' = cinit m /\ map ends (cedges m') = map ends (cedges m)).
  { assert (S1 : cinit mb = cinit ma /\ cedges mb = cedges ma) by (unfold dropDegree in Db; bnd Db n En; bnd Db a Ea; unfold updNode in Db; bnd Db z Ez; bnd Db v Ev; injection Db as <-; auto).
    assert (S2 : cinit mc = cinit mb /\ cedges mc = cedges mb) by (unfold dropDegree in Dc; bnd Dc n En; bnd Dc a Ea; unfold updNode in Dc; bnd Dc z Ez; bnd Dc v Ev; injection Dc as <-; auto).
    destruct Ka as (A1 & A2 & _), Kc as (C1 & C2 & _), S1 as (S1 & S1'), S2 as (S2 & S2'). rewrite S2', S1' in C2. split; congruence. }
  destruct K as (K1 & K2). split; [congruence|]. split; [exact Ti'|]. split; [apply cut_ringed|]. split; [apply (separate_less im im' Region s gone); auto; discriminate|]. split.
  - intros l c C I. destruct (live_edge _ _ _ _ _ _ _ Ta C I) as ((c0 & C0 & I0) & NI). destruct (ends_nth m m' l c K2 C) as (c1 & C1 & -> & ->).
    assert (c1 = c0) by congruence. subst c1. destruct (Ed _ _ C0 I0) as (Dif & Two). split; auto. intros d. rewrite <- Two. unfold dartOfEdge. fold im im'.
    assert (NL : Z.of_nat l <> el) by (intros X; apply NI; rewrite X; exact Ge). split.
    + intros (D & E). rewrite cut_edge in E by exact D. apply cut_darts in D. tauto.
    + intros (D & E). assert (D' : isDart im' d) by (apply cut_darts; split; auto; congruence). split; auto. rewrite cut_edge; auto.
  - intros l c C I. destruct (live_node _ _ _ _ _ _ _ Ta C I) as (L & _).
    destruct (cut_hubs l (hubI c) (map_nth_error hubI _ _ C) L) as (A & B & P & N & H). unfold hub. auto 6.
Qed.
End Cut.

(** a node with no darts goes *)
Section Alone.
Variables (m m' : cmap) (s n : Z).
Hypothesis Wi : wired m.
Hypothesis Ti' : tidy m'.
Hypothesis Ta : takenOver m m' Region s [(Vertex, n)].
Hypothesis Ke : keeps m m'.
Hypothesis No : forall d, isDart (cim m) d -> nodeOf (cim m) d <> n.
Let im := cim m.
Let im' := cim m'.
Let Re : repaint im im' Region s [(Vertex, n)] := taken_repaint _ _ _ _ _ Ta.
Let Fr : framed im. Proof. apply Wi. Qed.
Let Fr' : framed im'. Proof. apply Ti'. Qed.
Let Jo : joined im. Proof. apply Wi. Qed.
Let NV : Region <> Vertex. Proof. discriminate. Qed.

Lemma alone_darts d : isDart im' d <-> isDart im d.
Proof.
  rewrite (darts_left im im' Region s [(Vertex, n)] Fr Jo Re n); try discriminate; [|left; reflexivity|intros u k [X|[]]; injection X as <- <-; auto].
  split; [tauto|]. intros D. split; auto.
Qed.
Lemma alone_wired : wired m'.
Proof.
  destruct Ke as (K1 & K2 & K3). destruct Wi as (Ci & (So & Ne & _) & Ri & Se & Ed & Nd). split; [congruence|]. split; [exact Ti'|].
  split; [apply (ringed_after im im' Region s [(Vertex, n)]); auto|]. split; [apply (separate_less im im' Region s [(Vertex, n)]); auto; discriminate|]. split.
  - intros l c C I. destruct (live_edge _ _ _ _ _ _ _ Ta C I) as ((c0 & C0 & I0) & NI). destruct (ends_nth m m' l c K2 C) as (c1 & C1 & -> & ->).
    assert (c1 = c0) by congruence. subst c1. destruct (Ed _ _ C0 I0) as (Dif & Two). split; auto. intros d. rewrite <- Two. unfold dartOfEdge. fold im im'. rewrite alone_darts.
    assert (E : isDart im d -> edgeOf im' d = edgeOf im d) by (intros D; apply (edge_after im im' Region s [(Vertex, n)]); auto; intros [X|[]]; discriminate X).
    split; intros (D & X); rewrite E in * by exact D; auto.
  - intros l c C I. destruct (live_node _ _ _ _ _ _ _ Ta C I) as ((c0 & C0 & I0) & NI).
    assert (Q : nth_error (map hubI (cnodes m)) l = Some (hubI c)) by (rewrite <- K3; apply map_nth_error, C).
    apply hub_nth in Q. destruct Q as (c1 & C1 & Q). assert (c1 = c0) by congruence. subst c1. injection Q as -> ->.
    pose proof (Nd _ _ C0 I0) as (G0 & M0 & Pl0 & Nd0 & An0 & Az0). fold im in M0, Pl0, Nd0, An0.
    assert (Vx : forall d, vertexAt im (dcx d) (dcy d) -> nodeOf im d = Z.of_nat l -> vertexAt im' (dcx d) (dcy d)).
    { intros d V E. apply (vertex_after im im' Region s [(Vertex, n)] Re NV). split; auto. intros [X|[]]. injection X as X. apply NI. left. rewrite X. unfold nodeOf in E. rewrite E. reflexivity. }
    assert (Nx : forall d, vertexAt im' (dcx d) (dcy d) -> nodeOf im' d = nodeOf im d) by (intros d V; apply (node_after im im' Region s [(Vertex, n)]); auto).
    split; [exact G0|]. split.
    { revert M0. apply many_ext. intros d. unfold dartOfNode. fold im'. rewrite alone_darts. split; intros (D & E); split; auto.
      - rewrite Nx; auto. apply Vx; auto. apply D.
      - rewrite <- Nx; auto. apply alone_darts in D. apply D. }
    split; [apply (place_after im im' Region s [(Vertex, n)]); auto; split; auto; apply Vx; auto; apply Pl0|].
    split; [fold im'; rewrite Nx; auto; apply Vx; auto; apply Pl0|]. split; [intros Hp; apply alone_darts; auto|]. intros Hz T. apply (Az0 Hz). unfold typeAt in *.
    pose proof (neighbor_in im Fr _ _ ((ddir (nanchor c0) + 0) mod 8) (proj1 Pl0)) as (X & Y).
    destruct (pixel_after im im' Region s [(Vertex, n)] Re _ _ X Y) as [(_ & Q)|(_ & Q)]; fold im' in T; rewrite Q in T; [discriminate T|exact T].
Qed.
End Alone.

(** a node with two darts: they follow each other, and there are no others *)
Lemma two_around im a b : framed im -> neat im -> ringed im -> isDart im a -> isDart im b -> nextDart im 1 a b -> nextDart im 1 b a ->
  forall d, isDart im d -> nodeOf im d = nodeOf im a -> d = a \/ d = b.
Proof.
  intros Fr Ne Ri A B (_ & k1 & P1 & E1 & L1) (_ & k2 & P2 & E2 & L2) d D N.
  destruct (Ri a d (dart_place im a A) (dart_place im d D) (eq_sym N)) as (k & K).
  assert (G : forall k, (isDart im (places k im 1 a) -> places k im 1 a = a \/ places k im 1 a = b) /\ (isDart im (places k im 1 b) -> places k im 1 b = a \/ places k im 1 b = b)).
  { clear k K. intros k. induction k as [k IH] using lt_wf_ind. split; intros X.
    - destruct k as [|k]; [left; reflexivity|]. destruct (Nat.lt_ge_cases (Datatypes.S k) k1) as [Q|Q]; [exfalso; apply (L1 (Datatypes.S k)); auto; lia|].
      replace (Datatypes.S k) with (k1 + (Datatypes.S k - k1))%nat in * by lia. rewrite places_add, E1 in *. apply IH; auto. lia.
    - destruct k as [|k]; [right; reflexivity|]. destruct (Nat.lt_ge_cases (Datatypes.S k) k2) as [Q|Q]; [exfalso; apply (L2 (Datatypes.S k)); auto; lia|].
      replace (Datatypes.S k) with (k2 + (Datatypes.S k - k2))%nat in * by lia. rewrite places_add, E2 in *. apply IH; auto. lia. }
  rewrite <- K. apply G. rewrite K. exact D.
Qed.

(** two edges become one *)
Section Join.
Variables (m m' : cmap) (s n ml : Z) (d2 d3 a1 a2 : dart).
Hypothesis Wi : wired m.
Hypothesis Ti' : tidy m'.
Hypothesis Ta : takenOver m m' Line s [(Vertex, n); (Line, ml)].
Hypothesis Ci' : cinit m' = cinit m.
Hypothesis Ee' : map ends (cedges m') = list_upd (map ends (cedges m)) (Z.to_nat s) (a1, a2).
Hypothesis Hh' : map hubI (cnodes m') = map hubI (cnodes m).
Hypothesis D2 : isDart (cim m) d2.
Hypothesis D3 : isDart (cim m) d3.
Hypothesis N2 : nodeOf (cim m) d2 = n.
Hypothesis L2 : edgeOf (cim m) d2 = ml.
Hypothesis L3 : edgeOf (cim m) d3 = s.
Hypothesis Df : s <> ml.
Hypothesis A1 : nextAlpha m d3 = Ok a1.
Hypothesis A2 : nextAlpha m d2 = Ok a2.
Hypothesis On : forall d, isDart (cim m) d -> nodeOf (cim m) d = n -> d = d2 \/ d = d3.
Hypothesis N3 : nodeOf (cim m) d3 = n.
Let im := cim m.
Let im' := cim m'.
Let G := [(Vertex, n); (Line, ml)].
Let Re : repaint im im' Line s G := taken_repaint _ _ _ _ _ Ta.
Let Fr : framed im. Proof. apply Wi. Qed.
Let Fr' : framed im'. Proof. apply Ti'. Qed.
Let Jo : joined im. Proof. apply Wi. Qed.
Let NV : Line <> Vertex. Proof. discriminate. Qed.

Lemma join_darts d : isDart im' d <-> isDart im d /\ nodeOf im d <> n.
Proof.
  apply (darts_left im im' Line s G Fr Jo Re n); try discriminate; [left; reflexivity|].
  intros u k [X|[X|[]]]; injection X as <- <-; auto.
Qed.
Lemma join_edge d : isDart im d -> edgeOf im' d = if edgeOf im d =? ml then s else edgeOf im d.
Proof.
  intros D. destruct (dart_owns im Fr d D) as (X & Y & P). destruct (Z.eqb_spec (edgeOf im d) ml) as [E|E].
  - unfold edgeOf. destruct (pixel_after im im' Line s G Re _ _ X Y) as [(_ & Q)|(Q & _)]; [rewrite Q; reflexivity|].
    exfalso. apply Q. rewrite P. cbn [ptype plabel]. rewrite E. right. left. reflexivity.
  - apply (edge_after im im' Line s G); auto. intros [Q|[Q|[]]]; [discriminate Q|]. injection Q as Q. auto.
Qed.
Lemma join_separate : separate im'.
Proof.
  destruct Wi as (_ & _ & _ & Se & _). intros x y k j K O X' Y' L.
  destruct O as (X & Y & P). pose proof Re as (W & H & _). rewrite W, H in *.
  assert (K8 : 0 <= k < 8) by (cbn in K; intuition lia).
  (* a straight step from a node pixel to a line pixel is a dart *)
  assert (St : forall x y k, In k [0; 2; 4; 6] -> 0 <= x < iw im -> 0 <= y < ih im -> ipix im x y = Pix Vertex n -> ptype (ipix im (x + dirX k) (y + dirY k)) = Line ->
    plabel (ipix im (x + dirX k) (y + dirY k)) = s \/ plabel (ipix im (x + dirX k) (y + dirY k)) = ml).
  { clear - On L2 L3. intros x y k K X Y V T. assert (K8 : 0 <= k < 8) by (cbn in K; intuition lia).
    assert (D : isDart im (Dart x y k)).
    { split; [split; [exact X|split; [exact Y|cbn; rewrite V; reflexivity]]|]. cbn [ddir]. split; auto. split; [rewrite type0 by exact K8; exact T|].
      intros O. cbn in K. destruct K as [<-|[<-|[<-|[<-|[]]]]]; discriminate O. }
    destruct (On _ D) as [E|E]; [unfold nodeOf; cbn; fold im; rewrite V; reflexivity| |];
      [right; rewrite <- L2, <- E|left; rewrite <- L3, <- E]; reflexivity. }
  assert (Op : exists k', In k' [0; 2; 4; 6] /\ x + dirX k + dirX k' = x /\ y + dirY k + dirY k' = y).
  { cbn in K. destruct K as [<-|[<-|[<-|[<-|[]]]]]; [exists 4|exists 6|exists 0|exists 2]; cbn; intuition lia. }
  destruct Op as (k' & K' & OX & OY).
  destruct (pixel_after im im' Line s G Re x y X Y) as [(I & E)|(I & E)]; destruct (pixel_after im im' Line s G Re _ _ X' Y') as [(I' & E')|(I' & E')]; rewrite E in P; rewrite E' in L |- *.
  - injection P as <-. reflexivity.
  - injection P as <-. destruct I as [I|[I|[]]]; injection I as It Il.
    + destruct (St x y k K X Y) as [Q|Q]; auto; [apply pix_eta; auto|]. exfalso. apply I'. right. left. rewrite L, Q. reflexivity.
    + exfalso. apply I'. right. left. rewrite L. f_equal. symmetry. apply (Se x y k ml K); auto. split; auto. split; auto. apply pix_eta; auto.
  - assert (Tl : ptype (ipix im x y) = Line) by (rewrite P; reflexivity). assert (Ll : plabel (ipix im x y) = j) by (rewrite P; reflexivity).
    cbn [plabel]. destruct I' as [I'|[I'|[]]]; injection I' as It Il.
    + destruct (St (x + dirX k) (y + dirY k) k' K' X' Y') as [Q|Q].
      * apply pix_eta; auto.
      * rewrite OX, OY. exact Tl.
      * rewrite OX, OY in Q. congruence.
      * rewrite OX, OY in Q. exfalso. apply I. right. left. rewrite Tl, Q. reflexivity.
    + exfalso. apply I. right. left. rewrite Tl. f_equal. rewrite Il.
      apply (Se x y k (plabel (ipix im x y)) K); auto. apply line_owner; auto.
  - apply (Se x y k j K); auto. split; auto.
Qed.
Lemma join_wired : wired m'.
Proof.
  pose proof (alpha_ends m d3 Wi D3) as (e3 & x3 & b3 & _ & Ps & Ce3 & Ie3 & T3 & Q3 & Al3 & _).
  pose proof (alpha_ends m d2 Wi D2) as (e2 & x2 & b2 & _ & _ & _ & _ & T2 & Q2 & Al2 & _).
  rewrite A1 in Al3. injection Al3 as <-. rewrite A2 in Al2. injection Al2 as <-. subst x2 x3. rewrite L2 in T2. rewrite L3 in T3, Ce3, Ps. fold im in T2, T3.
  destruct Wi as (Ci & (So & Ne & _) & Ri & Se & Ed & Nd). split; [congruence|]. split; [exact Ti'|].
  split; [apply (ringed_after im im' Line s G); auto|]. split; [apply join_separate|].
  assert (Da1 : isDart im a1 /\ edgeOf im a1 = s) by (apply T3; auto). assert (Da2 : isDart im a2 /\ edgeOf im a2 = ml) by (apply T2; auto).
  destruct Da1 as (Da1 & Ea1), Da2 as (Da2 & Ea2). fold im in L2, L3, N2, N3, On, D2, D3.
  split.
  - intros l c C I. destruct (live_edge _ _ _ _ _ _ _ Ta C I) as ((c0 & C0 & I0) & NI).
    assert (NL : Z.of_nat l <> ml) by (intros X; apply NI; right; left; rewrite X; reflexivity).
    assert (Q : nth_error (list_upd (map ends (cedges m)) (Z.to_nat s) (a1, a2)) l = Some (ends c)) by (rewrite <- Ee'; apply map_nth_error, C).
    fold im'. destruct (Nat.eq_dec l (Z.to_nat s)) as [->|NS].
    + rewrite nth_error_upd_eq in Q by (rewrite map_length; apply nth_error_Some; congruence). injection Q as <- <-. rewrite Z2Nat.id by exact Ps.
      split; [congruence|]. intros d. unfold dartOfEdge. rewrite join_darts. split.
      * intros ((D & N) & E). rewrite join_edge in E by exact D. destruct (Z.eqb_spec (edgeOf im d) ml) as [M|M].
        -- destruct (proj1 (proj2 T2 d)) as [X|X]; [split; auto|subst d; contradiction|auto].
        -- destruct (proj1 (proj2 T3 d)) as [X|X]; [split; auto|subst d; contradiction|auto].
      * assert (Nn : forall x, isDart im x -> x <> d2 -> x <> d3 -> nodeOf im x <> n) by (intros x X Y Z W; destruct (On x X W); contradiction).
        destruct T3 as (U3 & _), T2 as (U2 & _).
        intros [->| ->]; (split; [split; [assumption|apply Nn; try assumption; congruence]|]); rewrite join_edge by assumption.
        -- rewrite Ea1. destruct (Z.eqb_spec s ml); congruence.
        -- rewrite Ea2, Z.eqb_refl. reflexivity.
    + rewrite nth_error_upd_neq in Q by auto. rewrite (map_nth_error ends _ _ C0) in Q. injection Q as Q1 Q2. rewrite <- Q1, <- Q2.
      assert (NS' : Z.of_nat l <> s) by lia.
      destruct (Ed _ _ C0 I0) as (Dif & Two). split; auto. intros d. rewrite <- Two. unfold dartOfEdge. fold im. rewrite join_darts. split.
      * intros ((D & N) & E). rewrite join_edge in E by exact D. destruct (Z.eqb_spec (edgeOf im d) ml); [congruence|auto].
      * intros (D & E). split; [split; auto|].
        -- intros W. destruct (On d D W); subst d; congruence.
        -- rewrite join_edge by exact D. destruct (Z.eqb_spec (edgeOf im d) ml); [congruence|auto].
  - intros l c C I. destruct (live_node _ _ _ _ _ _ _ Ta C I) as ((c0 & C0 & I0) & NI).
    assert (NN : Z.of_nat l <> n) by (intros X; apply NI; left; rewrite X; reflexivity).
    assert (Q : nth_error (map hubI (cnodes m)) l = Some (hubI c)) by (rewrite <- Hh'; apply map_nth_error, C).
    apply hub_nth in Q. destruct Q as (c1 & C1 & Q). assert (c1 = c0) by congruence. subst c1. injection Q as -> ->.
    pose proof (Nd _ _ C0 I0) as (G0 & M0 & Pl0 & Nd0 & An0 & Az0). fold im in M0, Pl0, Nd0, An0.
    assert (Vx : forall d, vertexAt im (dcx d) (dcy d) -> nodeOf im d = Z.of_nat l -> vertexAt im' (dcx d) (dcy d)).
    { intros d V E. apply (vertex_after im im' Line s G Re NV). split; auto. intros [X|[X|[]]]; [|discriminate X]. injection X as X. apply NN. rewrite <- E. symmetry. exact X. }
    assert (Nx : forall d, vertexAt im' (dcx d) (dcy d) -> nodeOf im' d = nodeOf im d) by (intros d V; apply (node_after im im' Line s G); auto).
    split; [exact G0|]. split.
    { revert M0. apply many_ext. intros d. unfold dartOfNode. fold im'. rewrite join_darts. split.
      - intros (D & E). split; [split; auto; congruence|]. rewrite Nx; auto. apply Vx; auto. apply D.
      - intros ((D & N) & E). split; auto. rewrite <- Nx; auto. apply (proj2 (join_darts d)). auto. }
    split; [apply (place_after im im' Line s G); auto; split; auto; apply Vx; auto; apply Pl0|].
    split; [fold im'; rewrite Nx; auto; apply Vx; auto; apply Pl0|]. split; [intros Hp; apply join_darts; split; auto; congruence|].
    intros Hz T. apply (Az0 Hz). unfold typeAt in *. pose proof (neighbor_in im Fr _ _ ((ddir (nanchor c0) + 0) mod 8) (proj1 Pl0)) as (X & Y).
    destruct (pixel_after im im' Line s G Re _ _ X Y) as [(W & Q)|(_ & Q)]; fold im' in T; rewrite Q in T; [|exact T].
    destruct W as [W|[W|[]]]; injection W as Wt Wl; [|auto]. exfalso. apply NN. rewrite <- Nd0.
    assert (V2 : vertexAt im (dcx (nanchor c0) + dirX ((ddir (nanchor c0) + 0) mod 8)) (dcy (nanchor c0) + dirY ((ddir (nanchor c0) + 0) mod 8))) by (split; auto).
    destruct (Jo _ _ _ _ (mod8 _) (vertex_owns im _ _ (proj1 Pl0)) V2) as (_ & _ & Q2). rewrite Q2 in Wl. symmetry. exact Wl.
Qed.
End Join.
