(** The operations keep the darts of edges and nodes in order. *)
From Coq Require Import Lia.
From Verif Require Import Base CellMap_Model CellMap_Spec CellMap_Main CellSigma_Spec CellSigma_Proofs CellSigma_Results CellLink_Spec.
Local Open Scope Z_scope.

Lemma mod8_id k : 0 <= k < 8 -> (k + 0) mod 8 = k.
Proof. intros K. rewrite Z.add_0_r. apply Z.mod_small, K. Qed.
Lemma type0 im d : 0 <= ddir d < 8 -> typeAt im d 0 = ptype (ipix im (dcx d + dirX (ddir d)) (dcy d + dirY (ddir d))).
Proof. intros D. unfold typeAt. rewrite mod8_id by exact D. reflexivity. Qed.
Lemma dart_ext a b : 0 <= ddir a < 8 -> 0 <= ddir b < 8 -> dartEqb a b = true -> a = b.
Proof.
  intros A B E. apply dartEqb_true in E. destruct E as (X & Y & K). rewrite !Z.mod_small in K by lia. destruct a, b; cbn in *; congruence.
Qed.
Lemma dart_eq_dec (a b : dart) : {a = b} + {a <> b}.
Proof. decide equality; apply Z.eq_dec. Qed.

Section Image.
Variable im : img.
Hypothesis Fr : framed im.

Lemma singular_dart d : isDart im d -> isSingular im d = Ok false.
Proof. intros (V & D & T & _). unfold isSingular. rewrite neighbor_read by auto. cbn [bind]. fold (typeAt im d 0). rewrite T. reflexivity. Qed.
Lemma edgeLabel_dart d : vertexAt im (dcx d) (dcy d) -> 0 <= ddir d < 8 -> edgeLabel im d = Ok (edgeOf im d).
Proof. intros V D. unfold edgeLabel, edgeOf. rewrite neighbor_read by auto. cbn [bind]. rewrite mod8_id by exact D. reflexivity. Qed.
Lemma nodeLabel_dart d : vertexAt im (dcx d) (dcy d) -> startNodeLabel im d = Ok (nodeOf im d).
Proof.
  intros (X & Y & T). unfold startNodeLabel, centerPix, readPix, insideImg.
  replace ((0 <=? dcx d) && _ && _ && _)%bool with true by (symmetry; rewrite !Bool.andb_true_iff, !Z.leb_le, !Z.ltb_lt; lia). reflexivity.
Qed.
Lemma vertex_owns x y : vertexAt im x y -> owns im Vertex (plabel (ipix im x y)) x y.
Proof. intros (X & Y & T). split; auto. split; auto. destruct (ipix im x y); cbn in *; congruence. Qed.
Lemma dart_owns d : isDart im d -> owns im Line (edgeOf im d) (dcx d + dirX (ddir d)) (dcy d + dirY (ddir d)).
Proof.
  intros (V & D & T & _). rewrite type0 in T by exact D. pose proof (neighbor_in im Fr _ _ (ddir d) V) as (X & Y).
  split; auto. split; auto. unfold edgeOf. destruct (ipix im _ _); cbn in *; congruence.
Qed.
End Image.

(** ** What happens to the image: the pixels of [gone] become (t, l) *)
Definition repaint (im im' : img) (t : ctype) (l : Z) (gone : list (ctype * Z)) : Prop :=
  iw im' = iw im /\ ih im' = ih im /\
  forall x y, 0 <= x < iw im -> 0 <= y < ih im ->
    (In (ptype (ipix im x y), plabel (ipix im x y)) gone -> ipix im' x y = Pix t l) /\
    (~ In (ptype (ipix im x y), plabel (ipix im x y)) gone -> ipix im' x y = ipix im x y).
Lemma taken_repaint m m' t l gone : takenOver m m' t l gone -> repaint (cim m) (cim m') t l gone.
Proof. intros (A & B & C & _). split; auto. Qed.

Section Repaint.
Variables (im im' : img) (t : ctype) (l : Z) (gone : list (ctype * Z)).
Hypothesis Fr : framed im.
Hypothesis Fr' : framed im'.
Hypothesis Jo : joined im.
Hypothesis Re : repaint im im' t l gone.
Hypothesis NV : t <> Vertex.

Lemma pair_dec (a b : ctype * Z) : {a = b} + {a <> b}.
Proof. decide equality; [apply Z.eq_dec|decide equality]. Qed.
Lemma in_gone x y : In (ptype (ipix im x y), plabel (ipix im x y)) gone \/ ~ In (ptype (ipix im x y), plabel (ipix im x y)) gone.
Proof. destruct (in_dec pair_dec (ptype (ipix im x y), plabel (ipix im x y)) gone); auto. Qed.

Lemma vertex_after x y : vertexAt im' x y <-> vertexAt im x y /\ ~ In (Vertex, plabel (ipix im x y)) gone.
Proof.
  destruct Re as (W & H & P). unfold vertexAt. rewrite W, H. split.
  - intros (X & Y & V). destruct (P x y X Y) as (A & B). destruct (in_gone x y) as [I|I].
    + rewrite (A I) in V. cbn in V. congruence.
    + rewrite (B I) in V. repeat split; try lia; auto. rewrite V in I. exact I.
  - intros ((X & Y & V) & N). repeat split; try lia. destruct (P x y X Y) as (_ & B). rewrite B; auto. rewrite V. exact N.
Qed.
Lemma vertex_same x y : vertexAt im' x y -> ipix im' x y = ipix im x y.
Proof.
  intros V. apply vertex_after in V. destruct V as ((X & Y & V) & N). destruct Re as (_ & _ & P). destruct (P x y X Y) as (_ & B). apply B. rewrite V. exact N.
Qed.
(** around a remaining node pixel the node pixels remain *)
Lemma around x y k : vertexAt im' x y -> 0 <= k < 8 -> (ptype (ipix im' (x + dirX k) (y + dirY k)) = Vertex <-> ptype (ipix im (x + dirX k) (y + dirY k)) = Vertex).
Proof.
  intros V K. pose proof (proj1 (vertex_after x y) V) as (V0 & N). pose proof (neighbor_in im Fr x y k V0) as (X & Y). destruct Re as (W & H & P).
  split; intros T.
  - apply (vertex_after (x + dirX k) (y + dirY k)). repeat split; try lia. exact T.
  - assert (V' : vertexAt im (x + dirX k) (y + dirY k)) by (repeat split; try lia; exact T).
    assert (Q : vertexAt im' (x + dirX k) (y + dirY k)); [|apply Q].
    apply vertex_after. split; auto. destruct (Jo x y k _ K (vertex_owns im x y V0) V') as (_ & _ & E). rewrite E. exact N.
Qed.
Lemma around_type d k : vertexAt im' (dcx d) (dcy d) -> (typeAt im' d k = Vertex <-> typeAt im d k = Vertex).
Proof. intros V. apply around; auto. apply mod8. Qed.
Lemma around_typeB d k : vertexAt im' (dcx d) (dcy d) -> ctypeEqb (typeAt im' d k) Vertex = ctypeEqb (typeAt im d k) Vertex.
Proof.
  intros V. pose proof (around_type d k V) as Q. apply Bool.eq_true_iff_eq. rewrite !CellSigma_Proofs.ctypeEqb_eq. exact Q.
Qed.
Lemma place_after d : isPlace im' d <-> isPlace im d /\ vertexAt im' (dcx d) (dcy d).
Proof.
  unfold isPlace. split.
  - intros (V & D & T & C). rewrite !around_type in * by auto. split; auto. split; [apply vertex_after, V|]. auto.
  - intros ((V0 & D & T & C) & V). rewrite !around_type by auto. auto.
Qed.
Lemma placeNext_after n d : vertexAt im' (dcx d) (dcy d) -> placeNext im' n d = placeNext im n d.
Proof. intros V. unfold placeNext. rewrite !around_typeB by exact V. reflexivity. Qed.
Lemma places_after k n d : way n -> isPlace im' d -> places k im' n d = places k im n d.
Proof.
  intros W. revert d. induction k; intros d P; cbn [places]; auto. rewrite <- placeNext_after by apply P. apply IHk. apply place_next; auto.
Qed.
Lemma node_after d : vertexAt im' (dcx d) (dcy d) -> nodeOf im' d = nodeOf im d.
Proof. intros V. unfold nodeOf. rewrite vertex_same by exact V. reflexivity. Qed.
Lemma ringed_after : ringed im -> ringed im'.
Proof.
  intros R a b A B E. pose proof (proj1 (place_after a) A) as (A0 & _). pose proof (proj1 (place_after b) B) as (B0 & _).
  rewrite !node_after in E by (apply A || apply B). destruct (R a b A0 B0 E) as (k & K). exists k. rewrite places_after; auto. left; reflexivity.
Qed.
End Repaint.

(** the pixel between the target of a diagonal dart and its center *)
Lemma corner k : 0 <= k < 8 -> Z.odd k = true -> forall s, s = 1 \/ s = -1 ->
  exists j, In j [0; 2; 4; 6] /\ dirX k = dirX ((k + s) mod 8) + dirX j /\ dirY k = dirY ((k + s) mod 8) + dirY j.
Proof.
  intros K O s S. destruct (odd_dirs k K O) as [->|[->|[->| ->]]]; destruct S as [-> | ->]; cbn;
  first [exists 0; cbn; intuition lia|exists 2; cbn; intuition lia|exists 4; cbn; intuition lia|exists 6; cbn; intuition lia].
Qed.

Section Erase.
Variables (im im' : img) (t : ctype) (l : Z) (gone : list (ctype * Z)).
Hypothesis Fr : framed im.
Hypothesis Jo : joined im.
Hypothesis Se : separate im.
Hypothesis Re : repaint im im' t l gone.

Lemma pixel_after x y : 0 <= x < iw im -> 0 <= y < ih im ->
  (In (ptype (ipix im x y), plabel (ipix im x y)) gone /\ ipix im' x y = Pix t l) \/
  (~ In (ptype (ipix im x y), plabel (ipix im x y)) gone /\ ipix im' x y = ipix im x y).
Proof. intros X Y. destruct Re as (_ & _ & P). destruct (P x y X Y) as (A & B). destruct (in_gone im gone x y); auto. Qed.

(** lines become regions: the darts of the edge are gone, all others stay *)
Lemma darts_erased e : t = Region -> (forall u k, In (u, k) gone -> (u = Line /\ k = e) \/ u = Region) -> In (Line, e) gone ->
  forall d, isDart im' d <-> isDart im d /\ edgeOf im d <> e.
Proof.
  intros Tr G Ie d. assert (NV : t <> Vertex) by congruence.
  assert (VV : vertexAt im' (dcx d) (dcy d) <-> vertexAt im (dcx d) (dcy d)).
  { rewrite (vertex_after im im' t l gone Re NV). split; [tauto|]. intros V. split; auto. intros I. destruct (G _ _ I) as [(X & _)|X]; discriminate X. }
  unfold isDart. rewrite VV. unfold edgeOf. split.
  - intros (V & D & T & C). rewrite type0 in * by exact D.
    pose proof (neighbor_in im Fr _ _ (ddir d) V) as (X & Y).
    destruct (pixel_after _ _ X Y) as [(I & E)|(I & E)]; rewrite E in T; [cbn in T; congruence|].
    assert (NE : plabel (ipix im (dcx d + dirX (ddir d)) (dcy d + dirY (ddir d))) <> e) by (intros Q; apply I; rewrite T, Q; exact Ie).
    split; auto. split; auto. split; auto. split; auto. intros O. destruct (C O) as (C1 & C2).
    assert (S : forall s, s = 1 \/ s = -1 -> typeAt im' d s = Region -> typeAt im d s = Region).
    { intros s Hs R. unfold typeAt in *. pose proof (neighbor_in im Fr _ _ ((ddir d + s) mod 8) V) as (X' & Y').
      destruct (pixel_after _ _ X' Y') as [(I' & E')|(I' & E')]; [|rewrite E' in R; exact R].
      destruct (G _ _ I') as [(A & B)|A]; auto. exfalso. apply NE.
      destruct (corner (ddir d) D O s Hs) as (j & J & JX & JY).
      rewrite JX, JY, !Z.add_assoc. apply (Se _ _ j e J).
      - split; auto. split; auto. destruct (ipix im (dcx d + dirX ((ddir d + s) mod 8)) (dcy d + dirY ((ddir d + s) mod 8))); cbn in *; congruence.
      - rewrite <- Z.add_assoc, <- JX. exact X.
      - rewrite <- Z.add_assoc, <- JY. exact Y.
      - rewrite <- !Z.add_assoc, <- JX, <- JY. exact T. }
    split; apply S; auto.
  - intros ((V & D & T & C) & NE). rewrite type0 in * by exact D.
    pose proof (neighbor_in im Fr _ _ (ddir d) V) as (X & Y). split; auto. split; auto. split.
    + destruct (pixel_after _ _ X Y) as [(I & E)|(I & E)]; rewrite E; auto. exfalso. rewrite T in I. destruct (G _ _ I) as [(_ & A)|A]; [auto|discriminate A].
    + intros O. destruct (C O) as (C1 & C2).
      assert (S : forall s, typeAt im d s = Region -> typeAt im' d s = Region).
      { intros s R. unfold typeAt in *. pose proof (neighbor_in im Fr _ _ ((ddir d + s) mod 8) V) as (X' & Y').
        destruct (pixel_after _ _ X' Y') as [(I' & E')|(I' & E')]; rewrite E'; auto. }
      split; apply S; auto.
Qed.
(** a node becomes something else: its darts are gone, all others stay *)
Lemma darts_left n : t <> Vertex -> t <> ErrorType -> In (Vertex, n) gone -> (forall u k, In (u, k) gone -> (u = Vertex /\ k = n) \/ (u = Line /\ t = Line)) ->
  forall d, isDart im' d <-> isDart im d /\ nodeOf im d <> n.
Proof.
  intros NV NX In_ G d.
  assert (VV : vertexAt im' (dcx d) (dcy d) <-> vertexAt im (dcx d) (dcy d) /\ nodeOf im d <> n).
  { rewrite (vertex_after im im' t l gone Re NV). unfold nodeOf. split.
    - intros (V & N). split; auto. intros E. rewrite E in N. auto.
    - intros (V & N). split; auto. intros I. destruct (G _ _ I) as [(_ & A)|(A & _)]; [auto|discriminate A]. }
  (* the types of the neighbours *)
  assert (S : vertexAt im' (dcx d) (dcy d) -> forall s, typeAt im' d s = typeAt im d s).
  { intros V' s. pose proof (proj1 VV V') as (V & N). unfold typeAt. pose proof (neighbor_in im Fr _ _ ((ddir d + s) mod 8) V) as (X' & Y').
    destruct (pixel_after _ _ X' Y') as [(I' & E')|(I' & E')]; rewrite E'; auto. cbn [ptype].
    destruct (G _ _ I') as [(A & B)|(A & B)]; [|congruence]. exfalso. apply N.
    assert (V2 : vertexAt im (dcx d + dirX ((ddir d + s) mod 8)) (dcy d + dirY ((ddir d + s) mod 8))) by (split; auto).
    destruct (Jo _ _ ((ddir d + s) mod 8) _ (mod8 _) (vertex_owns im _ _ V) V2) as (_ & _ & Q). rewrite Q in B. exact B. }
  unfold isDart. split.
  - intros (V & D & T & C). rewrite !S in * by auto. apply VV in V. tauto.
  - intros ((V & D & T & C) & N). assert (V' : vertexAt im' (dcx d) (dcy d)) by (apply VV; auto). rewrite !S by auto. auto.
Qed.
End Erase.
