(** The maps made from images. *)
From Verif Require Import Base CellMap_Model CellMap_Spec CellMap_Scan CellMap_Init CellMap_InitProofs CellSigma_Spec CellSigma_Proofs CellSigma_Results CellLink_Spec CellLink_Proofs CellLink_Main CellFace_Spec CellStart_Spec
  CellStart_Walk CellStart_Ends CellStart_Init CellThresh_Model CellThresh_Spec CellThresh_Comps CellThresh_Types CellThresh_Paint CellThresh_Edges CellThresh_Loop CellThresh_Loops CellThresh_All.
Local Open Scope Z_scope.

Lemma type_dec (p q : ctype) : {p = q} + {p <> q}. Proof. decide equality. Qed.

(** ** Labels that are all used *)
Lemma choose_reps (lab : Z -> Z -> Z) (P : Z -> Z -> Prop) k : (forall l, 1 <= l <= Z.of_nat k -> exists x y, P x y /\ lab x y = l) ->
  exists reps : list (Z * Z), NoDup reps /\ length reps = k /\ forall x y, In (x, y) reps -> P x y /\ 1 <= lab x y <= Z.of_nat k.
Proof.
  induction k as [|k IH]; intros H; [exists []; split; [constructor|split; [reflexivity|intros x y []]]|].
  destruct IH as (reps & N & L & I). { intros l Hl. apply H. lia. } destruct (H (Z.of_nat (Datatypes.S k))) as (x & y & Hp & Hl); [lia|].
  exists ((x, y) :: reps). split; [constructor; [|exact N]|split; [cbn; congruence|]].
  - intros J. destruct (I x y J) as [_ Q]. lia.
  - intros a b [J|J]; [injection J as <- <-; split; [exact Hp|lia]|]. destruct (I a b J) as [Q1 Q2]. split; [exact Q1|lia].
Qed.

(** ** Changing the labels of other cells *)
Lemma same_nodes im cur n : sameTypes im cur -> (forall x y, vertexAt im x y -> ipix cur x y = ipix im x y) -> nodesInOrder im n -> nodesInOrder cur n.
Proof.
  intros S Eq (Ne & Jo & Ri & Li & Bd & N1 & At & Re & (reps & Nr & Lr & Ir)).
  assert (V : forall x y, vertexAt cur x y <-> vertexAt im x y) by (intros; apply (same_vertexAt im cur S)).
  assert (Eqc : forall x y, vertexAt cur x y -> ipix cur x y = ipix im x y) by (intros x y H; apply Eq, V, H).
  split; [apply (same_neat im cur S Ne)|]. split; [|split; [|split; [|split; [|split; [exact N1|split; [|split]]]]]].
  - intros x y k l K (X & Y & P) Vn. assert (Vx : vertexAt cur x y) by (split; [exact X|split; [exact Y|rewrite P; reflexivity]]).
    assert (Ow : owns im Vertex l (x + dirX k) (y + dirY k)). { apply Jo; [exact K| |apply V, Vn]. rewrite (same_w im cur S) in X. rewrite (same_h im cur S) in Y. rewrite (Eqc x y Vx) in P. split; [exact X|split; [exact Y|exact P]]. }
    destruct Ow as (OX & OY & OP). split; [rewrite (same_w im cur S); exact OX|split; [rewrite (same_h im cur S); exact OY|rewrite (Eqc _ _ Vn); exact OP]].
  - intros a b Pa Pb Nab. apply (same_isPlace im cur S) in Pa, Pb. unfold nodeOf in Nab. rewrite !Eq in Nab by (apply Pa || apply Pb). destruct (Ri a b Pa Pb Nab) as (k & <-). exists k. apply (same_places im cur S).
  - intros l. destruct (Li l) as (g & G & M). exists g. split; [exact G|]. revert M. apply many_ext. intros d. unfold dartOfNode. rewrite (same_isDart im cur S). split; intros [D N]; (split; [exact D|]); unfold nodeOf in *; [rewrite Eq by apply D|rewrite Eq in N by apply D]; exact N.
  - intros x y Vx. unfold labelOf. rewrite (Eqc x y Vx). apply Bd, V, Vx.
  - intros l Hl. destruct (At l Hl) as (x & y & Vx & Q). exists x, y. split; [apply V, Vx|]. unfold labelOf. rewrite (Eq x y Vx). exact Q.
  - intros x y u v Vx Vu Q. unfold labelOf in Q. rewrite (Eqc x y Vx), (Eqc u v Vu) in Q. apply (reach_mono ways8 (vertexAt im)); [intros a b; apply V|]. apply Re; [apply V, Vx|apply V, Vu|exact Q].
  - exists reps. split; [exact Nr|]. split; [exact Lr|]. intros x y I. apply V, Ir, I.
Qed.
Lemma same_edges im mid cur e : sameTypes im cur -> (forall x y, lineAt im x y -> ipix cur x y = ipix mid x y) -> framed im -> painted im mid e -> (forall d, isDart im d -> marked mid d) -> edgesInOrder cur e.
Proof.
  intros S Eq Fr (Re & M0 & Const & Same & Has & Bd & At & Nu) Mk.
  assert (L : forall x y, lineAt cur x y <-> lineAt im x y) by (intros; apply (same_lineAt im cur S)).
  assert (Eqc : forall x y, lineAt im x y -> labelOf cur x y = labelOf mid x y) by (intros x y H; unfold labelOf; rewrite (Eq x y H); reflexivity).
  assert (Dp : forall d, isDart im d -> lineAt im (tx d) (ty d)) by (intros d; apply (dart_pixel im Fr)).
  split; [|split; [|split; [|split; [|split; [exact M0|split; [|split]]]]]].
  - intros x y u v Lx A. apply L in Lx. apply (same_along cur im (same_sym _ _ S)) in A. rewrite !Eqc; [apply Const; assumption|exact Lx|apply (along_line im _ _ _ _ Lx A)].
  - intros x y u v Lx Lu Q Nz. apply L in Lx, Lu. rewrite !Eqc in Q by assumption. rewrite Eqc in Nz by assumption. apply (same_along im cur S). apply Same; assumption.
  - intros x y Lx Nz. apply L in Lx. rewrite Eqc in * by exact Lx. destruct (Has x y Lx Nz) as (d & D & Q). exists d. split; [apply (same_isDart im cur S), D|]. rewrite Eqc by (apply Dp, D). exact Q.
  - intros d D. apply (same_isDart im cur S) in D. rewrite Eqc by (apply Dp, D). apply Mk, D.
  - intros x y Lx. apply L in Lx. rewrite Eqc by exact Lx. apply Bd, Lx.
  - intros l Hl. destruct (At l Hl) as (x & y & Lx & Q). exists x, y. split; [apply L, Lx|]. rewrite Eqc by exact Lx. exact Q.
  - destruct Nu as (reps & Nr & Lr & Ir). exists reps. split; [exact Nr|]. split; [exact Lr|]. intros x y I. destruct (Ir x y I) as [Lx Nz]. split; [apply L, Lx|]. rewrite Eqc by exact Lx. exact Nz.
Qed.

(** ** The greatest labels *)
Lemma maxLabel_is im t m : 0 <= m -> (forall x y, 0 <= x < iw im -> 0 <= y < ih im -> ptype (ipix im x y) = t -> plabel (ipix im x y) <= m) ->
  (0 < m -> exists x y, 0 <= x < iw im /\ 0 <= y < ih im /\ ptype (ipix im x y) = t /\ plabel (ipix im x y) = m) -> maxLabelOf im t = m.
Proof.
  intros M0 Le At. unfold maxLabelOf.
  assert (G : forall l a, a <= m -> (forall x y, In (x, y) l -> 0 <= x < iw im /\ 0 <= y < ih im) ->
    let r := fold_left (fun a p => let c := ipix im (fst p) (snd p) in if ctypeEqb (ptype c) t then Z.max a (plabel c) else a) l a in
    a <= r <= m /\ forall x y, In (x, y) l -> ptype (ipix im x y) = t -> plabel (ipix im x y) <= r).
  { induction l as [|[x y] l IH]; intros a Ha In0; cbv zeta; [|cbv zeta in IH]; cbn [fold_left].
    - split; [cbn; lia|]. intros x y [].
    - cbn [fst snd]. assert (Hxy : 0 <= x < iw im /\ 0 <= y < ih im) by (apply In0; left; reflexivity).
      assert (Q : a <= (if ctypeEqb (ptype (ipix im x y)) t then Z.max a (plabel (ipix im x y)) else a) <= m /\ (ptype (ipix im x y) = t -> plabel (ipix im x y) <= (if ctypeEqb (ptype (ipix im x y)) t then Z.max a (plabel (ipix im x y)) else a))).
      { destruct (ctypeEqb (ptype (ipix im x y)) t) eqn:Et.
        - apply CellSigma_Proofs.ctypeEqb_eq in Et. specialize (Le x y (proj1 Hxy) (proj2 Hxy) Et). lia.
        - apply CellSigma_Proofs.ctypeEqb_ne in Et. split; [lia|]. intros T. contradiction. }
      destruct Q as [Q1 Q2]. destruct (IH _ (proj2 Q1)) as [I1 I2]. { intros u v I. apply In0. right. exact I. } split; [lia|].
      intros u v [I|I] T; [injection I as <- <-; specialize (Q2 T); lia|apply I2; assumption]. }
  cbv zeta in *. destruct (G (allPoints im) 0) as [G1 G2]; [lia|intros x y I; unfold allPoints in I; apply rectPoints_in in I; exact I|].
  destruct (Z.eq_dec m 0) as [->|Nm]; [lia|]. destruct At as (x & y & X & Y & T & E); [lia|]. assert (In (x, y) (allPoints im)) as I by (apply rectPoints_in; unfold inRect; cbn; lia). specialize (G2 x y I T). lia.
Qed.

(** ** One image after the other *)
Section Whole.
Variable cv : bool.
Variables w h : Z.
Variable boundary : Z -> Z -> bool.
Hypothesis Hw : 0 <= w.
Hypothesis Hh : 0 <= h.
Hypothesis Hs : (w + 4) * (h + 4) < 2 ^ 30.
Variable im0 : img.
Hypothesis Im : typedImage cv w h boundary im0.
Hypothesis Ne : neat im0.
Hypothesis Un : unpierced im0.
Hypothesis Le : lean im0.

Let N := fst (labelNodes im0).
Let n := snd (labelNodes im0).
Lemma w0 : iw im0 = w + 4. Proof. apply Im. Qed.
Lemma h0 : ih im0 = h + 4. Proof. apply Im. Qed.
Lemma shaped0 : shaped im0.
Proof.
  split; [exact (typed_framed cv w h boundary Hw Hh im0 Im)|]. split; [exact (typed_slim cv w h boundary Hw Hh im0 Im)|]. split; [exact (typed_smooth cv w h boundary Hw Hh im0 Im)|].
  split; [exact (typed_plain cv w h boundary im0 Im)|]. rewrite w0, h0. lia.
Qed.
Definition vlab : Z -> Z -> Z := fst (labelComponents true (Rect 0 0 (iw im0) (ih im0)) (fun x y => ctypeEqb (ptype (ipix im0 x y)) Vertex)).
Lemma vfg x y : inRect (Rect 0 0 (iw im0) (ih im0)) x y /\ ctypeEqb (ptype (ipix im0 x y)) Vertex = true <-> vertexAt im0 x y.
Proof. unfold inRect, vertexAt. cbn [rx0 rx1 ry0 ry1]. rewrite CellSigma_Proofs.ctypeEqb_eq. tauto. Qed.
Lemma vcomps : (forall x y, vertexAt im0 x y -> 1 <= vlab x y <= n) /\ (forall l, 1 <= l <= n -> exists x y, vertexAt im0 x y /\ vlab x y = l) /\
  (forall x y u v, vertexAt im0 x y -> vertexAt im0 u v -> (vlab x y = vlab u v <-> reach ways8 (vertexAt im0) x y u v)) /\ 0 <= n.
Proof.
  destruct (components_spec true (Rect 0 0 (iw im0) (ih im0)) (fun x y => ctypeEqb (ptype (ipix im0 x y)) Vertex) vlab n) as (A & B & C & D); [unfold vlab, n, labelNodes; cbn [snd]; destruct (labelComponents _ _ _); reflexivity|].
  split; [intros x y V; apply A, vfg, V|]. split; [intros l Hl; destruct (B l Hl) as (x & y & V & Q); exists x, y; split; [apply vfg, V|exact Q]|]. split; [|exact D].
  intros x y u v V U. rewrite (C x y u v) by (apply vfg; assumption). split; intros R; (eapply reach_mono; [|exact R]); intros a b; apply vfg.
Qed.
Lemma v11 : vertexAt im0 1 1.
Proof. split; [rewrite w0; lia|]. split; [rewrite h0; lia|]. rewrite (typed_pix cv w h boundary im0 Im 1 1) by lia. reflexivity. Qed.
Lemma n_small : 1 <= n < 2 ^ 30.
Proof.
  destruct vcomps as (A & B & C & D). pose proof (A 1 1 v11). split; [lia|].
  destruct (choose_reps vlab (vertexAt im0) (Z.to_nat n)) as (reps & Nr & Lr & Ir). { intros l Hl. apply B. lia. }
  pose proof shaped0 as (_ & _ & _ & _ & W0 & H0 & Sz). assert (Q : Z.of_nat (length reps) <= iw im0 * ih im0). { apply points_count; try assumption. intros x y I. destruct (Ir x y I) as [(V1 & V2 & _) _]. auto. } lia.
Qed.
Lemma N_vertex x y : vertexAt im0 x y -> ipix N x y = Pix Vertex (vlab x y).
Proof.
  intros V. unfold N, labelNodes. cbn [fst writeLabels ipix]. pose proof V as (X & Y & T).
  assert (inRectB (Rect 0 0 (iw im0) (ih im0)) x y = true) as -> by (apply inRectB_iff; unfold inRect; cbn; lia). rewrite T. cbn [andb ctypeEqb]. change (fst (labelComponents true (Rect 0 0 (iw im0) (ih im0)) (fun x y => ctypeEqb (ptype (ipix im0 x y)) Vertex))) with vlab.
  destruct vcomps as (A & _). pose proof n_small. specialize (A x y V). unfold cellPixel. rewrite Z.mod_small by lia. reflexivity.
Qed.
Lemma N_other x y : ~ vertexAt im0 x y -> ipix N x y = ipix im0 x y.
Proof.
  intros V. unfold N, labelNodes. cbn [fst writeLabels ipix]. destruct (inRectB (Rect 0 0 (iw im0) (ih im0)) x y && ctypeEqb (ptype (ipix im0 x y)) Vertex) eqn:Q; [|reflexivity].
  exfalso. apply V, vfg. apply Bool.andb_true_iff in Q. destruct Q as [Q1 Q2]. split; [apply inRectB_iff, Q1|exact Q2].
Qed.
Lemma v_dec x y : {vertexAt im0 x y} + {~ vertexAt im0 x y}.
Proof.
  destruct (inRectB (Rect 0 0 (iw im0) (ih im0)) x y && ctypeEqb (ptype (ipix im0 x y)) Vertex) eqn:Q.
  - left. apply vfg. apply Bool.andb_true_iff in Q. destruct Q as [Q1 Q2]. split; [apply inRectB_iff, Q1|exact Q2].
  - right. intros V. apply vfg in V. destruct V as [V1 V2]. apply inRectB_iff in V1. rewrite V1, V2 in Q. discriminate Q.
Qed.
Lemma N_types : sameTypes im0 N.
Proof.
  split; [reflexivity|]. split; [reflexivity|]. intros x y. destruct (v_dec x y) as [V|V]; [rewrite (N_vertex x y V); symmetry; apply V|rewrite (N_other x y V); reflexivity].
Qed.
Lemma N_v x y : vertexAt N x y <-> vertexAt im0 x y. Proof. apply (same_vertexAt im0 N N_types). Qed.
Lemma N_shaped : shaped N.
Proof. apply (same_shaped im0 N N_types); [|exact shaped0]. intros x y T. apply N_other. intros (_ & _ & V). congruence. Qed.
Lemma N_label x y : vertexAt im0 x y -> labelOf N x y = vlab x y. Proof. intros V. unfold labelOf. rewrite N_vertex by exact V. reflexivity. Qed.
Lemma N_nodes : nodesInOrder N n.
Proof.
  destruct vcomps as (A & B & C & D). pose proof n_small as Ns.
  split; [apply (same_neat im0 N N_types Ne)|]. split; [|split; [|split; [|split; [|split; [lia|split; [|split]]]]]].
  - intros x y k l K (X & Y & P) Vn. assert (V : vertexAt im0 x y) by (apply N_v; split; [exact X|split; [exact Y|rewrite P; reflexivity]]). apply N_v in Vn.
    rewrite (N_vertex x y V) in P. injection P as P. pose proof Vn as (X' & Y' & _). split; [exact X'|]. split; [exact Y'|]. rewrite (N_vertex _ _ Vn). f_equal. rewrite <- P. symmetry. apply C; [exact V|exact Vn|]. apply re_step; [apply re_here, V| |exact Vn]. unfold ways8. cbn. lia.
  - intros a b Pa Pb Nab. apply (same_isPlace im0 N N_types) in Pa, Pb. unfold nodeOf in Nab. rewrite (N_vertex _ _ (proj1 Pa)), (N_vertex _ _ (proj1 Pb)) in Nab. cbn [plabel] in Nab.
    destruct (Un a b Pa Pb) as (k & <-); [apply C; [apply Pa|apply Pb|exact Nab]|]. exists k. apply (same_places im0 N N_types).
  - intros l. destruct (Z_le_dec 1 l) as [L1|L1]; [destruct (Z_le_dec l n) as [L2|L2]|].
    + destruct (B l (conj L1 L2)) as (x & y & V & <-). destruct (Le x y V) as (g & G & M). exists g. split; [exact G|]. revert M. apply many_ext. intros d. unfold dartOfNode. rewrite (same_isDart im0 N N_types).
      split; intros [Dd Q]; (split; [exact Dd|]); unfold nodeOf in *; rewrite (N_vertex _ _ (proj1 Dd)) in *; cbn [plabel] in *; [symmetry; apply C; [exact V|apply Dd|exact Q]|apply C; [exact V|apply Dd|symmetry; exact Q]].
    + exists 0. split; [lia|]. exists []. split; [constructor|]. split; [|reflexivity]. intros d. split; [intros []|]. intros [Dd Q]. apply (same_isDart im0 N N_types) in Dd. unfold nodeOf in Q. rewrite (N_vertex _ _ (proj1 Dd)) in Q. cbn [plabel] in Q. specialize (A _ _ (proj1 Dd)). lia.
    + exists 0. split; [lia|]. exists []. split; [constructor|]. split; [|reflexivity]. intros d. split; [intros []|]. intros [Dd Q]. apply (same_isDart im0 N N_types) in Dd. unfold nodeOf in Q. rewrite (N_vertex _ _ (proj1 Dd)) in Q. cbn [plabel] in Q. specialize (A _ _ (proj1 Dd)). lia.
  - intros x y V. apply N_v in V. rewrite (N_label x y V). apply A, V.
  - intros l Hl. destruct (B l Hl) as (x & y & V & Q). exists x, y. split; [apply N_v, V|]. rewrite (N_label x y V). exact Q.
  - intros x y u v V U Q. apply N_v in V, U. rewrite (N_label x y V), (N_label u v U) in Q. apply (reach_mono ways8 (vertexAt im0)); [intros a b; apply N_v|]. apply C; assumption.
  - destruct (choose_reps vlab (vertexAt im0) (Z.to_nat n)) as (reps & Nr & Lr & Ir). { intros l Hl. apply B. lia. }
    exists reps. split; [exact Nr|]. split; [lia|]. intros x y I. apply N_v, (Ir x y I).
Qed.
Lemma N_fresh x y : lineAt N x y -> plabel (ipix N x y) = 0.
Proof.
  intros L. apply (same_lineAt im0 N N_types) in L. rewrite N_other by (intros (_ & _ & V); destruct L as (_ & _ & T); congruence). destruct L as (X & Y & _). rewrite w0 in X. rewrite h0 in Y. apply (typed_label cv w h boundary im0 Im x y X Y).
Qed.
(** *** the edges *)
Lemma edges_stage : exists E e, labelEdges N n = Ok (E, e) /\ painted N E e /\ forall d, isDart N d -> marked E d.
Proof.
  pose proof N_shaped as (Fr & Sl & Sm & Pl & W0 & H0 & Sz). pose proof N_nodes as (NeN & Jo & Ri & _ & Bd & _). pose proof n_small.
  apply (edges_painted N Fr Sl Sm Pl NeN Jo Ri N_fresh W0 H0 Sz); [lia|]. intros x y V. pose proof (Bd x y V) as Q. unfold labelOf in Q. lia.
Qed.
(** *** the faces *)
Section Faces.
Variable E : img.
Variable e : Z.
Hypothesis Pa : painted N E e.
Hypothesis Mk : forall d, isDart N d -> marked E d.
Let C := contourAt w h boundary.
Let F := fst (labelFaces E C).
Let f := snd (labelFaces E C).
Let R := Rect 1 1 (iw E - 1) (ih E - 1).
Lemma E_types : sameTypes im0 E. Proof. apply (same_trans im0 N E N_types). apply Pa. Qed.
Lemma E_w : iw E = w + 4. Proof. rewrite (same_w im0 E E_types). exact w0. Qed.
Lemma E_h : ih E = h + 4. Proof. rewrite (same_h im0 E E_types). exact h0. Qed.
Lemma E_region x y : 0 <= x < w + 4 -> 0 <= y < h + 4 -> ptype (ipix E x y) = Region <-> C x y = false.
Proof. intros X Y. rewrite (same_t im0 E E_types). apply (typed_region cv w h boundary Hw Hh im0 Im x y X Y). Qed.
Definition flab : Z -> Z -> Z := fst (labelComponents false R (fun x y => negb (C x y))).
Lemma ffg x y : inRect R x y /\ negb (C x y) = true <-> openAt E x y.
Proof.
  unfold inRect, openAt, R. cbn [rx0 rx1 ry0 ry1]. rewrite Bool.negb_true_iff. pose proof E_w. pose proof E_h. split; intros (A & B).
  - split; [lia|]. split; [lia|]. apply E_region; [lia|lia|exact B].
  - destruct B as [B T]. split; [lia|]. apply E_region; [lia|lia|exact T].
Qed.
Lemma fcomps : (forall x y, openAt E x y -> 1 <= flab x y <= f) /\ (forall l, 1 <= l <= f -> exists x y, openAt E x y /\ flab x y = l) /\
  (forall x y u v, openAt E x y -> openAt E u v -> (flab x y = flab u v <-> reach ways4 (openAt E) x y u v)) /\ 0 <= f.
Proof.
  destruct (components_spec false R (fun x y => negb (C x y)) flab f) as (A & B & Q & D); [unfold flab, f, labelFaces; cbn [snd]; fold R; destruct (labelComponents _ _ _); reflexivity|].
  split; [intros x y V; apply A, ffg, V|]. split; [intros l Hl; destruct (B l Hl) as (x & y & V & P); exists x, y; split; [apply ffg, V|exact P]|]. split; [|exact D].
  intros x y u v V U. rewrite (Q x y u v) by (apply ffg; assumption). split; intros P; (eapply reach_mono; [|exact P]); intros a b; apply ffg.
Qed.
Lemma f_small : 0 <= f < 2 ^ 30.
Proof.
  destruct fcomps as (A & B & Q & D). split; [exact D|].
  destruct (choose_reps flab (openAt E) (Z.to_nat f)) as (reps & Nr & Lr & Ir). { intros l Hl. apply B. lia. }
  assert (P : Z.of_nat (length reps) <= iw E * ih E). { pose proof E_w. pose proof E_h. apply points_count; [lia|lia|rewrite E_w, E_h; exact Hs|exact Nr|]. intros x y I. destruct (Ir x y I) as [(V1 & V2 & _) _]. lia. }
  rewrite E_w, E_h in P. lia.
Qed.
Lemma F_open x y : openAt E x y -> ipix F x y = Pix Region (flab x y).
Proof.
  intros V. destruct fcomps as (A & _). pose proof f_small. specialize (A x y V). apply ffg in V. destruct V as [V1 V2]. apply inRectB_iff in V1. unfold F, labelFaces. cbn [fst writeLabels ipix]. fold R. rewrite V1, V2. cbn [andb].
  change (fst (labelComponents false R (fun x y => negb (C x y)))) with flab. unfold cellPixel. rewrite Z.mod_small by lia. reflexivity.
Qed.
Lemma F_other x y : ~ openAt E x y -> ipix F x y = ipix E x y.
Proof.
  intros V. unfold F, labelFaces. cbn [fst writeLabels ipix]. fold R. destruct (inRectB R x y && negb (C x y)) eqn:Q; [|reflexivity].
  exfalso. apply V, ffg. apply Bool.andb_true_iff in Q. destruct Q as [Q1 Q2]. split; [apply inRectB_iff, Q1|exact Q2].
Qed.
Lemma open_dec im x y : {openAt im x y} + {~ openAt im x y}.
Proof.
  unfold openAt. destruct (Z_lt_dec 0 x); [|right; lia]. destruct (Z_lt_dec x (iw im - 1)); [|right; lia]. destruct (Z_lt_dec 0 y); [|right; lia]. destruct (Z_lt_dec y (ih im - 1)); [|right; lia].
  destruct (type_dec (ptype (ipix im x y)) Region); [left|right; tauto]. auto.
Qed.
Lemma F_types : sameTypes E F.
Proof. split; [reflexivity|]. split; [reflexivity|]. intros x y. destruct (open_dec E x y) as [V|V]; [rewrite (F_open x y V); symmetry; apply V|rewrite (F_other x y V); reflexivity]. Qed.
Lemma F_typesN : sameTypes N F. Proof. apply (same_trans N E F); [apply Pa|exact F_types]. Qed.
Lemma F_types0 : sameTypes im0 F. Proof. apply (same_trans im0 N F N_types F_typesN). Qed.
Lemma F_contour x y : ptype (ipix E x y) <> Region -> ipix F x y = ipix E x y. Proof. intros T. apply F_other. intros (_ & _ & Q). contradiction. Qed.
Lemma E_framed : framed E.
Proof. apply (relined_framed N E (proj1 Pa)). apply N_shaped. Qed.
Lemma F_shaped : shaped F.
Proof.
  pose proof N_shaped as (Fr & Sl & Sm & Pl & W0 & H0 & Sz). pose proof F_typesN as S. split; [|split; [apply (same_slim N F S Sl)|split; [apply (same_smooth N F S Sm)|split; [apply (same_plain N F S Pl)|]]]].
  - intros x y X Y B. rewrite F_other; [apply E_framed; assumption|]. intros (X' & Y' & _). change (iw F) with (iw E) in B. change (ih F) with (ih E) in B. lia.
  - rewrite (same_w N F S), (same_h N F S). auto.
Qed.
Lemma F_nodes : nodesInOrder F n.
Proof.
  apply (same_nodes N F n F_typesN); [|exact N_nodes]. intros x y V. pose proof V as (_ & _ & T). destruct Pa as (Re & _). rewrite F_contour by (rewrite (same_t N E (proj1 Re)), T; discriminate). apply (proj2 Re). rewrite T. discriminate.
Qed.
Lemma F_edges : edgesInOrder F e.
Proof.
  apply (same_edges N E F e F_typesN); [|apply N_shaped|exact Pa|exact Mk]. intros x y (_ & _ & T). apply F_contour. destruct Pa as (Re & _). rewrite (same_t N E (proj1 Re)), T. discriminate.
Qed.
Lemma F_full x y : 0 < x < iw F - 1 -> 0 < y < ih F - 1 -> labelOf F x y = 0 -> ptype (ipix F x y) = Line.
Proof.
  intros X Y Z0. pose proof F_shaped as (_ & _ & _ & Pl & _). destruct (ptype (ipix F x y)) eqn:T; [exfalso|reflexivity|exfalso|exfalso].
  all: try (destruct F_nodes as (_ & _ & _ & _ & B & _); assert (V : vertexAt F x y) by (split; [lia|split; [lia|exact T]]); specialize (B x y V); lia).
  all: try (assert (V : openAt E x y) by (split; [exact X|split; [exact Y|rewrite <- (same_t E F F_types); exact T]]); destruct fcomps as (A & _); specialize (A x y V); unfold labelOf in Z0; rewrite (F_open x y V) in Z0; cbn [plabel] in Z0; lia).
  all: apply (Pl x y); [lia|lia|exact T].
Qed.

(** *** all together *)
Definition wholeImage (im : img) (n' e' : Z) : Prop :=
  shaped im /\ edgesInOrder im e' /\ nodesInOrder im n' /\ since F im /\ (forall x y, 0 < x < iw im - 1 -> 0 < y < ih im - 1 -> labelOf im x y <> 0).
Lemma loops_stage : exists im n' e', labelSelfLoops F n e = Ok (im, n', e') /\ wholeImage im n' e'.
Proof.
  destruct (loops_done F n e F_shaped F_edges F_nodes F_full) as (im & n' & e' & Q & A & B & D & G & H). exists im, n', e'. split; [exact Q|]. split; [exact A|]. split; [exact B|]. split; [exact D|]. split; [exact G|].
  destruct G as (W & Hg & _). rewrite W, Hg. exact H.
Qed.
Section Image.
Variable im : img.
Variables n' e' : Z.
Hypothesis Wh : wholeImage im n' e'.
Let Si : since F im. Proof. apply Wh. Qed.
Lemma im_w : iw im = w + 4. Proof. destruct Si as (W & _). rewrite W. exact E_w. Qed.
Lemma im_h : ih im = h + 4. Proof. destruct Si as (_ & H & _). rewrite H. exact E_h. Qed.
Lemma im_region x y : ptype (ipix im x y) = Region <-> ptype (ipix im0 x y) = Region.
Proof. rewrite (since_region F im x y Si), (same_t im0 F F_types0). reflexivity. Qed.
Lemma im_open x y : openAt im x y <-> openAt E x y.
Proof. unfold openAt. rewrite im_w, im_h, E_w, E_h, im_region, (same_t im0 E E_types). reflexivity. Qed.
Lemma im_face x y : openAt im x y -> ipix im x y = Pix Region (flab x y).
Proof.
  intros V. apply im_open in V. destruct Si as (_ & _ & _ & S2). rewrite S2; [apply (F_open x y V)|]. rewrite (F_open x y V). discriminate.
Qed.
Lemma im_vertex x y : vertexAt im x y <-> vertexAt im0 x y \/ (closedLine im0 x y /\ firstPixel im0 x y).
Proof.
  destruct Wh as (S & Ed & _ & _ & All). pose proof Si as (SW & SH & S1 & S2).
  assert (Ln : forall u v, lineAt F u v <-> lineAt im0 u v) by (intros; apply (same_lineAt im0 F F_types0)).
  assert (Al : forall a b u v, along F a b u v <-> along im0 a b u v) by (intros; split; [apply (same_along F im0 (same_sym _ _ F_types0))|apply (same_along im0 F F_types0)]).
  assert (Cl : closedLine F x y /\ firstPixel F x y <-> closedLine im0 x y /\ firstPixel im0 x y).
  { unfold closedLine, firstPixel. split; intros [[L K] Fp].
    - split; [split; [apply Ln, L|]|intros u v A; apply Fp, Al, A]. intros u v k A Lk. apply Ln. apply K; [apply Al, A|apply (same_link im0 F F_types0), Lk].
    - split; [split; [apply Ln, L|]|intros u v A; apply Fp, Al, A]. intros u v k A Lk. apply Ln. apply K; [apply Al, A|apply (same_link F im0 (same_sym _ _ F_types0)), Lk]. }
  assert (Nn : lineAt im0 x y -> vertexAt im x y <-> closedLine im0 x y /\ firstPixel im0 x y).
  { intros L. rewrite <- Cl. apply (new_nodes F im e' x y S Ed Si); [|apply Ln, L]. rewrite SW, SH in All. exact All. }
  assert (Old : ptype (ipix im0 x y) <> Line -> vertexAt im x y <-> vertexAt im0 x y).
  { intros T. unfold vertexAt. rewrite im_w, im_h, w0, h0. rewrite S2 by (rewrite (same_t im0 F F_types0); exact T). rewrite (same_t im0 F F_types0). reflexivity. }
  destruct (type_dec (ptype (ipix im0 x y)) Line) as [T|T].
  - split.
    + intros V. right. apply Nn; [|exact V]. destruct V as (X & Y & _). rewrite im_w in X. rewrite im_h in Y. split; [rewrite w0; exact X|split; [rewrite h0; exact Y|exact T]].
    + intros [(_ & _ & V)|Q]; [congruence|]. apply Nn; [apply Q|exact Q].
  - rewrite (Old T). split; [auto|]. intros [V|[[(_ & _ & L) _] _]]; [exact V|contradiction].
Qed.
Lemma im_line x y : lineAt im x y <-> lineAt im0 x y /\ ~ (closedLine im0 x y /\ firstPixel im0 x y).
Proof.
  pose proof Si as (SW & SH & S1 & S2). split.
  - intros L. pose proof (since_lineAt F im x y Si L) as L0. apply (same_lineAt im0 F F_types0) in L0. split; [exact L0|]. intros Q. assert (V : vertexAt im x y) by (apply im_vertex; auto). destruct V as (_ & _ & V), L as (_ & _ & L). congruence.
  - intros [L Nq]. pose proof L as (X & Y & T). rewrite w0 in X. rewrite h0 in Y. split; [rewrite im_w; exact X|]. split; [rewrite im_h; exact Y|]. destruct (S1 x y) as [Q|[Q _]]; [rewrite (same_t im0 F F_types0); exact T|exact Q|].
    exfalso. assert (V : vertexAt im x y) by (split; [rewrite im_w; exact X|split; [rewrite im_h; exact Y|exact Q]]). apply im_vertex in V. destruct V as [(_ & _ & V)|V]; [congruence|contradiction].
Qed.
Lemma im_border x y : 0 <= x < w + 4 -> 0 <= y < h + 4 -> ~ (0 < x < w + 3 /\ 0 < y < h + 3) -> ipix im x y = Pix Region 0.
Proof. intros X Y B. destruct Wh as ((Fr & _) & _). apply Fr; rewrite ?im_w, ?im_h; lia. Qed.
Lemma im_labels x y : 0 <= x < w + 4 -> 0 <= y < h + 4 -> 0 <= plabel (ipix im x y) < 2 ^ 30.
Proof.
  intros X Y. destruct (Z_lt_dec 0 x); [destruct (Z_lt_dec x (w + 3)); [destruct (Z_lt_dec 0 y); [destruct (Z_lt_dec y (h + 3))|]|]|].
  2,3,4,5: rewrite im_border by lia; cbn; lia.
  destruct Wh as ((Fr & _ & _ & Pl & W0 & H0 & Sz) & (_ & _ & _ & _ & _ & Be & _ & (er & Nr & Lr & Ir)) & (_ & _ & _ & _ & Bn & _ & _ & _ & (vr & Nv & Lv & Iv)) & _).
  assert (En : e' <= iw im * ih im). { assert (Z.of_nat (length er) <= iw im * ih im); [|lia]. apply points_count; try assumption. intros a b I. destruct (Ir a b I) as [(A & B & _) _]. auto. }
  assert (Nn : n' <= iw im * ih im). { assert (Z.of_nat (length vr) <= iw im * ih im); [|lia]. apply points_count; try assumption. intros a b I. destruct (Iv a b I) as (A & B & _). auto. }
  destruct (ptype (ipix im x y)) eqn:T.
  - assert (V : openAt im x y) by (unfold openAt; rewrite im_w, im_h; split; [lia|split; [lia|exact T]]). rewrite (im_face x y V). cbn [plabel]. destruct fcomps as (A & _). pose proof f_small. apply im_open in V. specialize (A x y V). lia.
  - assert (V : lineAt im x y) by (split; [rewrite im_w; exact X|split; [rewrite im_h; exact Y|exact T]]). specialize (Be x y V). unfold labelOf in Be. lia.
  - assert (V : vertexAt im x y) by (split; [rewrite im_w; exact X|split; [rewrite im_h; exact Y|exact T]]). specialize (Bn x y V). unfold labelOf in Bn. lia.
  - exfalso. apply (Pl x y); [rewrite im_w; exact X|rewrite im_h; exact Y|exact T].
Qed.
Lemma im_wf : wfImg im.
Proof. split; [rewrite im_w; lia|]. split; [rewrite im_h; lia|]. rewrite im_w, im_h. split; [lia|]. exact im_labels. Qed.
Lemma im_filled : filled im.
Proof.
  intros x y k l K (X & Y & P) X' Y' T. rewrite im_w in X, X'. rewrite im_h in Y, Y'.
  assert (Lk : (dirX k = 0 /\ -1 <= dirY k <= 1) \/ (dirY k = 0 /\ -1 <= dirX k <= 1)). { cbn in K. destruct K as [<-|[<-|[<-|[<-|[]]]]]; cbn; lia. }
  assert (Ctr : forall u v, (u = 1 \/ u = w + 2) /\ 1 <= v <= h + 2 \/ (v = 1 \/ v = h + 2) /\ 1 <= u <= w + 2 -> ptype (ipix im u v) <> Region).
  { intros u v Q T'. apply im_region in T'. apply (typed_region cv w h boundary Hw Hh im0 Im) in T'; [|lia|lia]. assert (contourAt w h boundary u v = true) by (apply (contour_spec true); unfold isContour; lia). congruence. }
  assert (Tp : ptype (ipix im x y) = Region) by (rewrite P; reflexivity).
  destruct (open_dec im x y) as [O1|O1], (open_dec im (x + dirX k) (y + dirY k)) as [O2|O2].
  - rewrite (im_face _ _ O2). rewrite (im_face _ _ O1) in P. injection P as P. cbn [plabel]. rewrite <- P. symmetry. destruct fcomps as (_ & _ & Q & _). apply im_open in O1, O2. apply Q; [exact O1|exact O2|]. apply re_step; [apply re_here, O1|exact K|exact O2].
  - exfalso. unfold openAt in O1, O2. rewrite im_w, im_h in O1, O2. destruct O1 as (A1 & A2 & _). apply (Ctr x y); [|exact Tp]. assert (~ (0 < x + dirX k < w + 4 - 1 /\ 0 < y + dirY k < h + 4 - 1)) by tauto. lia.
  - exfalso. unfold openAt in O1, O2. rewrite im_w, im_h in O1, O2. destruct O2 as (A1 & A2 & _). apply (Ctr (x + dirX k) (y + dirY k)); [|exact T]. assert (~ (0 < x < w + 4 - 1 /\ 0 < y < h + 4 - 1)) by tauto. lia.
  - assert (B1 : ~ (0 < x < w + 3 /\ 0 < y < h + 3)). { intros Q. apply O1. unfold openAt. rewrite im_w, im_h. split; [lia|]. split; [lia|exact Tp]. }
    assert (B2 : ~ (0 < x + dirX k < w + 3 /\ 0 < y + dirY k < h + 3)). { intros Q. apply O2. unfold openAt. rewrite im_w, im_h. split; [lia|]. split; [lia|exact T]. }
    rewrite (im_border x y X Y B1) in P. rewrite (im_border _ _ X' Y' B2). injection P as P. exact P.
Qed.
Lemma im_line_label x y : lineAt im x y -> labelOf im x y <> 0.
Proof. intros L. destruct Wh as ((Fr & _) & _ & _ & _ & All). destruct (line_is_inner im Fr x y L) as [A B]. apply All; assumption. Qed.
Lemma im_drawn : drawn im.
Proof.
  destruct Wh as (_ & (Const & Same & Has & Met & _) & _). split; [exact Const|]. split.
  - intros l x y u v (X & Y & P) (U & V & Q). assert (L1 : lineAt im x y) by (split; [exact X|split; [exact Y|rewrite P; reflexivity]]). assert (L2 : lineAt im u v) by (split; [exact U|split; [exact V|rewrite Q; reflexivity]]).
    apply Same; [exact L1|exact L2|unfold labelOf; rewrite P, Q; reflexivity|apply (im_line_label x y L1)].
  - intros l x y (X & Y & P). assert (L1 : lineAt im x y) by (split; [exact X|split; [exact Y|rewrite P; reflexivity]]). destruct (Has x y L1 (im_line_label x y L1)) as (d & D & Q). exists d. split; [exact D|]. unfold labelOf in Q at 2. rewrite P in Q. exact Q.
Qed.
Lemma im_separate : separate im.
Proof.
  intros x y k l K (X & Y & P) X' Y' T. destruct Wh as (_ & (Const & _) & _). assert (L1 : lineAt im x y) by (split; [exact X|split; [exact Y|rewrite P; reflexivity]]).
  assert (L2 : lineAt im (x + dirX k) (y + dirY k)) by (split; [exact X'|split; [exact Y'|exact T]]). assert (Q : labelOf im (x + dirX k) (y + dirY k) = labelOf im x y).
  { apply Const; [exact L1|]. apply al_on; [constructor| |exact L2]. assert (K8 : 0 <= k < 8) by (cbn in K; lia). split; [exact K8|]. split.
    - unfold typeAt. cbn [dcx dcy ddir]. rewrite Z.add_0_r, (Z.mod_small k 8) by exact K8. rewrite T. discriminate.
    - intros Od. exfalso. cbn [ddir] in Od. cbn in K. destruct K as [<-|[<-|[<-|[<-|[]]]]]; discriminate Od. }
  unfold labelOf in Q. rewrite Q, P. reflexivity.
Qed.
Lemma im_airy : airy im.
Proof.
  destruct Wh as ((Fr & Sl & Sm & Pl & _) & _). intros d k V Ev Hk T. destruct (vertex_inner im Fr _ _ V) as [X Y]. destruct V as (_ & _ & Vt). destruct d as [x y j]. cbn [dcx dcy ddir] in *.
  destruct (type_dec (typeAt im (Dart x y j) k) Region) as [|Nr]; [left; assumption|right].
  assert (Lp : lineAt im (x + dirX j) (y + dirY j)).
  { unfold typeAt in T. cbn [dcx dcy ddir] in T. cbn in Ev. split; [|split]; [destruct Ev as [<-|[<-|[<-|[<-|[]]]]]; cbn; lia|destruct Ev as [<-|[<-|[<-|[<-|[]]]]]; cbn; lia|]. replace ((j + 0) mod 8) with j in T by (destruct Ev as [<-|[<-|[<-|[<-|[]]]]]; reflexivity). exact T. }
  assert (Tc : forall i t, x + dirX j + dirX ((i + t) mod 8) = x -> y + dirY j + dirY ((i + t) mod 8) = y -> typeAt im (Dart (x + dirX j) (y + dirY j) i) t = Vertex) by (intros i t A B; unfold typeAt; cbn [dcx dcy ddir]; rewrite A, B; exact Vt).
  assert (Te : forall i t s, x + dirX j + dirX ((i + t) mod 8) = x + dirX ((j + s) mod 8) -> y + dirY j + dirY ((i + t) mod 8) = y + dirY ((j + s) mod 8) -> typeAt im (Dart (x + dirX j) (y + dirY j) i) t = typeAt im (Dart x y j) s) by (intros i t s A B; unfold typeAt; cbn [dcx dcy ddir]; rewrite A, B; reflexivity).
  destruct Hk as [->| ->].
  - pose proof (Sm (Dart (x + dirX j) (y + dirY j) ((j + 2) mod 8)) Lp) as Q. cbn [ddir] in Q. rewrite (Te _ 0 1), (Tc _ 2), (Te _ 1 (2 * 1)) in Q by (cbn in Ev; destruct Ev as [<-|[<-|[<-|[<-|[]]]]]; cbn; lia).
    apply Q; [|exact Nr|discriminate]. cbn in Ev |- *. destruct Ev as [<-|[<-|[<-|[<-|[]]]]]; cbn; tauto.
  - pose proof (Sm (Dart (x + dirX j) (y + dirY j) ((j + 4) mod 8)) Lp) as Q. cbn [ddir] in Q. rewrite (Te _ 2 (-1)), (Tc _ 0), (Te _ 1 (2 * -1)) in Q by (cbn in Ev; destruct Ev as [<-|[<-|[<-|[<-|[]]]]]; cbn; lia).
    apply Q; [|discriminate|exact Nr]. cbn in Ev |- *. destruct Ev as [<-|[<-|[<-|[<-|[]]]]]; cbn; tauto.
Qed.
Lemma im_clean : clean im.
Proof.
  pose proof Wh as ((Fr & Sl & Sm & Pl & _) & _ & (Nn & Jo & Ri & Li & _) & _). split; [exact Nn|]. split; [exact Jo|]. split; [exact Ri|]. split; [exact im_separate|]. split; [exact Pl|].
  split; [exact im_airy|]. split; [exact im_filled|]. split; [exact Sl|]. split; [exact Sm|]. split; [exact im_drawn|exact Li].
Qed.
Lemma im_max : maxLabelOf im Vertex = n' /\ maxLabelOf im Line = e' /\ maxLabelOf im Region = f.
Proof.
  pose proof Wh as (_ & (_ & _ & _ & _ & E0 & Be & Ae & _) & (_ & _ & _ & _ & Bn & N1 & An & _) & _). destruct fcomps as (Bf & Af & _ & F0). split; [|split]; apply maxLabel_is.
  - lia.
  - intros x y X Y T. apply (Bn x y). split; [exact X|split; [exact Y|exact T]].
  - intros _. destruct (An n') as (x & y & (X & Y & T) & Q); [lia|]. exists x, y. auto.
  - exact E0.
  - intros x y X Y T. apply (Be x y). split; [exact X|split; [exact Y|exact T]].
  - intros Ep. destruct (Ae e') as (x & y & (X & Y & T) & Q); [lia|]. exists x, y. auto.
  - exact F0.
  - intros x y X Y T. destruct (open_dec im x y) as [Op|Op]; [rewrite (im_face x y Op); cbn [plabel]; apply Bf, im_open, Op|]. rewrite im_w in X. rewrite im_h in Y. rewrite im_border; [cbn; lia|exact X|exact Y|].
    intros Q. apply Op. unfold openAt. rewrite im_w, im_h. split; [lia|split; [lia|exact T]].
  - intros Fp. destruct (Af f) as (x & y & Op & Q); [lia|]. apply im_open in Op. exists x, y. pose proof Op as (X & Y & T). rewrite (im_face x y Op). cbn [ptype plabel]. split; [lia|]. split; [lia|auto].
Qed.
Lemma im_nodes x y u v : vertexAt im x y -> vertexAt im u v -> plabel (ipix im x y) = plabel (ipix im u v) <-> reach ways8 (vertexAt im) x y u v.
Proof.
  intros V U. pose proof Wh as (_ & _ & (_ & Jo & _ & _ & _ & _ & _ & Re & _) & _). split; [apply Re; assumption|]. intros Rq. clear U. induction Rq as [|u v k Rq IH I U]; [reflexivity|]. rewrite IH.
  assert (Vu : vertexAt im u v) by (destruct Rq; assumption). pose proof Vu as (X & Y & T). assert (K : 0 <= k < 8) by (unfold ways8 in I; cbn in I; lia).
  assert (Ow : owns im Vertex (plabel (ipix im u v)) u v) by (split; [exact X|split; [exact Y|destruct (ipix im u v); cbn in T |- *; congruence]]). destruct (Jo u v k _ K Ow U) as (_ & _ & Q). rewrite Q. reflexivity.
Qed.
Lemma im_edges x y u v : lineAt im x y -> lineAt im u v -> plabel (ipix im x y) = plabel (ipix im u v) <-> along im x y u v.
Proof.
  intros L U. pose proof Wh as (_ & (Const & Same & _) & _). split; [intros Q; apply Same; [exact L|exact U|exact Q|apply im_line_label, L]|]. intros A. symmetry. apply Const; assumption.
Qed.
Lemma im_faces x y u v : openAt im x y -> openAt im u v -> plabel (ipix im x y) = plabel (ipix im u v) <-> reach ways4 (openAt im) x y u v.
Proof.
  intros L U. rewrite (im_face _ _ L), (im_face _ _ U). cbn [plabel]. destruct fcomps as (_ & _ & Q & _). rewrite Q by (apply im_open; assumption). split; intros Rq; (eapply reach_mono; [|exact Rq]); intros a b; apply im_open.
Qed.
End Image.
End Faces.

Lemma whole_done (Ei : initCellImage cv w h boundary = Ok im0) : exists im n' e' f, cellImageOf cv w h boundary = Ok (im, n', e', f) /\
  exists E e, painted N E e /\ (forall d, isDart N d -> marked E d) /\ f = snd (labelFaces E (contourAt w h boundary)) /\ wholeImage E im n' e'.
Proof.
  destruct edges_stage as (E & e & Q & P & M). destruct (loops_stage E e P M) as (im & n' & e' & Ql & Wi). exists im, n', e', (snd (labelFaces E (contourAt w h boundary))). split; [|exists E, e; auto].
  unfold cellImageOf. rewrite Ei. cbn [bind]. cbv zeta. change (fst (labelNodes im0)) with N. change (snd (labelNodes im0)) with n. rewrite Q. cbn [bind fst snd]. rewrite Ql. reflexivity.
Qed.
End Whole.

(** ** The results *)
Definition small (w h : Z) : Prop := 0 <= w /\ 0 <= h /\ (w + 4) * (h + 4) < 2 ^ 30.
Lemma init_typed cv w h boundary im0 : small w h -> initCellImage cv w h boundary = Ok im0 -> typedImage cv w h boundary im0.
Proof. intros (Hw & Hh & _) E. destruct (init_outcome cv w h boundary Hw Hh) as [(im & Q & T)|(Q & _)]; [|congruence]. replace im0 with im by congruence. exact T. Qed.
Lemma init_neat w h boundary im0 : small w h -> initCellImage true w h boundary = Ok im0 -> neat im0.
Proof. intros S E. pose proof S as (Hw & Hh & _). apply (typed_neat true w h boundary Hw Hh im0 (init_typed _ _ _ _ _ S E)). reflexivity. Qed.

Section Results.
Variable cv : bool.
Variables w h : Z.
Variable boundary : Z -> Z -> bool.
Variable im0 : img.
Hypothesis Sm : small w h.
Hypothesis Ei : initCellImage cv w h boundary = Ok im0.
Hypothesis Ne : neat im0.
Hypothesis Un : unpierced im0.
Hypothesis Le : lean im0.
Let Hw : 0 <= w. Proof. apply Sm. Qed.
Let Hh : 0 <= h. Proof. apply Sm. Qed.
Let Hs : (w + 4) * (h + 4) < 2 ^ 30. Proof. apply Sm. Qed.
Let Im := init_typed cv w h boundary im0 Sm Ei.

Theorem image_clean : exists im n e f, cellImageOf cv w h boundary = Ok (im, n, e, f) /\ wfImg im /\ framed im /\ clean im /\ maxLabelOf im Vertex = n /\ maxLabelOf im Line = e /\ maxLabelOf im Region = f.
Proof.
  destruct (whole_done cv w h boundary Hw Hh Hs im0 Im Ne Un Le Ei) as (im & n & e & f & Q & E & e0 & Pa & Mk & -> & Wi). exists im, n, e, (snd (labelFaces E (contourAt w h boundary))). split; [exact Q|].
  split; [apply (im_wf cv w h boundary Hw Hh Hs im0 Im E e0 Pa im n e Wi)|]. split; [apply Wi|]. split; [apply (im_clean cv w h boundary Hw Hh Hs im0 Im E e0 Pa im n e Wi)|]. apply (im_max cv w h boundary Hw Hh Hs im0 Im E e0 Pa im n e Wi).
Qed.
Variable im : img.
Variables n e f : Z.
Hypothesis Ec : cellImageOf cv w h boundary = Ok (im, n, e, f).
Lemma image_whole : exists E e0, painted (fst (labelNodes im0)) E e0 /\ (forall d, isDart (fst (labelNodes im0)) d -> marked E d) /\ f = snd (labelFaces E (contourAt w h boundary)) /\ wholeImage w h boundary E im n e.
Proof.
  destruct (whole_done cv w h boundary Hw Hh Hs im0 Im Ne Un Le Ei) as (im' & n' & e' & f' & Q & E & e0 & A). rewrite Q in Ec. injection Ec as <- <- <- <-. exists E, e0. exact A.
Qed.
Theorem image_size : iw im = w + 4 /\ ih im = h + 4.
Proof. destruct image_whole as (E & e0 & Pa & Mk & _ & Wi). split; [apply (im_w cv w h boundary Hw Hh Hs im0 Im E e0 Pa im n e Wi)|apply (im_h cv w h boundary Hw Hh Hs im0 Im E e0 Pa im n e Wi)]. Qed.
Theorem image_regions x y : 0 <= x < w + 4 -> 0 <= y < h + 4 -> ptype (ipix im x y) = Region <-> ~ isContour w h boundary x y.
Proof.
  intros X Y. destruct image_whole as (E & e0 & Pa & Mk & _ & Wi). rewrite (im_region cv w h boundary Hw Hh Hs im0 Im E e0 Pa im n e Wi), (typed_region cv w h boundary Hw Hh im0 Im x y X Y), <- (contour_spec true), <- Bool.not_true_iff_false. reflexivity.
Qed.
Theorem image_vertices x y : vertexAt im x y <-> vertexAt im0 x y \/ (closedLine im0 x y /\ firstPixel im0 x y).
Proof. destruct image_whole as (E & e0 & Pa & Mk & _ & Wi). apply (im_vertex cv w h boundary Hw Hh Hs im0 Im E e0 Pa im n e Wi). Qed.
Theorem image_lines x y : lineAt im x y <-> lineAt im0 x y /\ ~ (closedLine im0 x y /\ firstPixel im0 x y).
Proof. destruct image_whole as (E & e0 & Pa & Mk & _ & Wi). apply (im_line cv w h boundary Hw Hh Hs im0 Im E e0 Pa im n e Wi). Qed.
Theorem image_nodes x y u v : vertexAt im x y -> vertexAt im u v -> plabel (ipix im x y) = plabel (ipix im u v) <-> reach ways8 (vertexAt im) x y u v.
Proof. destruct image_whole as (E & e0 & Pa & Mk & _ & Wi). eapply im_nodes; eassumption. Qed.
Theorem image_edges x y u v : lineAt im x y -> lineAt im u v -> plabel (ipix im x y) = plabel (ipix im u v) <-> along im x y u v.
Proof. destruct image_whole as (E & e0 & Pa & Mk & _ & Wi). eapply im_edges; eassumption. Qed.
Theorem image_faces x y u v : openAt im x y -> openAt im u v -> plabel (ipix im x y) = plabel (ipix im u v) <-> reach ways4 (openAt im) x y u v.
Proof. destruct image_whole as (E & e0 & Pa & Mk & _ & Wi). apply (im_faces cv w h boundary Hw Hh Hs im0 Im E e0 Pa im n e Wi). Qed.
(** every label is used *)
Theorem image_labels : (forall x y, vertexAt im x y -> 1 <= plabel (ipix im x y) <= n) /\ (forall l, 1 <= l <= n -> exists x y, owns im Vertex l x y) /\
  (forall x y, lineAt im x y -> 1 <= plabel (ipix im x y) <= e) /\ (forall l, 1 <= l <= e -> exists x y, owns im Line l x y) /\
  (forall x y, openAt im x y -> 1 <= plabel (ipix im x y) <= f) /\ (forall l, 1 <= l <= f -> exists x y, owns im Region l x y) /\
  (forall x y, 0 <= x < iw im -> 0 <= y < ih im -> x = 0 \/ x = iw im - 1 \/ y = 0 \/ y = ih im - 1 -> ipix im x y = Pix Region 0).
Proof.
  destruct image_whole as (E & e0 & Pa & Mk & -> & Wi). pose proof (im_open cv w h boundary Hw Hh Hs im0 Im E e0 Pa im n e Wi) as Op. pose proof (im_face cv w h boundary Hw Hh Hs im0 Im E e0 Pa im n e Wi) as Fc. pose proof (fcomps cv w h boundary Hw Hh Hs im0 Im E e0 Pa) as (Bf & Af & _).
  pose proof Wi as ((Fr & _) & (_ & _ & _ & _ & _ & Be & Ae & _) & (_ & _ & _ & _ & Bn & _ & An & _) & _). split; [exact Bn|]. split; [|split; [|split; [|split; [|split; [|exact Fr]]]]].
  - intros l Hl. destruct (An l Hl) as (x & y & (X & Y & T) & Q). exists x, y. split; [exact X|]. split; [exact Y|]. unfold labelOf in Q. destruct (ipix im x y). cbn in *. congruence.
  - intros x y L. pose proof (Be x y L) as B1. assert (B2 : labelOf im x y <> 0) by (eapply im_line_label; eassumption). unfold labelOf in *. lia.
  - intros l Hl. destruct (Ae l Hl) as (x & y & (X & Y & T) & Q). exists x, y. split; [exact X|]. split; [exact Y|]. unfold labelOf in Q. destruct (ipix im x y). cbn in *. congruence.
  - intros x y Q. rewrite (Fc x y Q). cbn [plabel]. apply Bf, Op, Q.
  - intros l Hl. destruct (Af l Hl) as (x & y & Q & Lq). apply Op in Q. exists x, y. pose proof (Fc x y Q) as P. destruct Q as (X & Y & _). split; [lia|]. split; [lia|]. rewrite P, Lq. reflexivity.
Qed.
End Results.

(** the map *)
Theorem threshold_import crack outer comps cv w h boundary im0 : small w h -> initCellImage cv w h boundary = Ok im0 -> neat im0 -> unpierced im0 -> lean im0 ->
  exists im, wfImg im /\ framed im /\ clean im /\ threshold crack outer comps cv w h boundary = import crack outer comps im.
Proof.
  intros Sm Ei Ne Un Le. destruct (image_clean cv w h boundary im0 Sm Ei Ne Un Le) as (im & n & e & f & Q & W & Fr & C & <- & <- & <-). exists im. split; [exact W|]. split; [exact Fr|]. split; [exact C|].
  unfold threshold. rewrite Q. reflexivity.
Qed.
Theorem threshold_built crack outer comps cv w h boundary im0 m : small w h -> initCellImage cv w h boundary = Ok im0 -> neat im0 -> unpierced im0 -> lean im0 ->
  threshold crack outer comps cv w h boundary = Ok m -> (exists n e f, cellImageOf cv w h boundary = Ok (cim m, n, e, f)) -> built m.
Proof.
  intros Sm Ei Ne Un Le Et (n1 & e1 & f1 & Q1). destruct (image_clean cv w h boundary im0 Sm Ei Ne Un Le) as (im & n & e & f & Q & W & Fr & C & M1 & M2 & M3).
  rewrite Q in Q1. injection Q1 as -> -> -> ->. exists crack, outer, comps, (cim m). split; [exact W|]. split; [exact Fr|]. split; [exact C|]. split; [|reflexivity].
  unfold threshold in Et. rewrite Q in Et. cbn [bind fst snd] in Et. rewrite <- M1, <- M2, <- M3 in Et. exact Et.
Qed.
(** the image is refused exactly if some pixel is *)
Theorem image_outcome cv w h boundary : small w h -> (forall im0, initCellImage cv w h boundary = Ok im0 -> neat im0 /\ unpierced im0 /\ lean im0) ->
  (exists r, cellImageOf cv w h boundary = Ok r) \/ (cellImageOf cv w h boundary = Exn /\ exists x y, isContour w h boundary x y /\ typeOf cv (fun k => contourAt w h boundary (x + dirX k) (y + dirY k)) = ErrorType).
Proof.
  intros Sm H. pose proof Sm as (Hw & Hh & _). destruct (init_outcome cv w h boundary Hw Hh) as [(im0 & Q & T)|(Q & x & y & X & Y & T)].
  - left. destruct (H im0 Q) as (Ne & Un & Le). destruct (image_clean cv w h boundary im0 Sm Q Ne Un Le) as (im & n & e & f & Qc & _). eexists. exact Qc.
  - right. unfold cellImageOf. rewrite Q. split; [reflexivity|]. exists x, y. destruct (contourAt w h boundary x y) eqn:Cx; [|discriminate T]. split; [apply (contour_spec true), Cx|exact T].
Qed.
