(** C78: a node without edges that goes leaves the lines in the plane. *)
From Coq Require Import Lia.
From Verif Require Import Base CellMap_Model CellMap_Spec CellMap_Main CellMap_Check CellSigma_Spec CellSigma_Proofs CellSigma_Results CellLink_Spec CellLink_Proofs CellLink_Main CellLink_Results CellLink_Check
  CellFace_Spec CellFace_Walk CellFace_Main CellFace_Step CellStart_Spec CellStart_Walk CellContour_Leave CellContour_Step CellThresh_Spec CellThresh_Loops CellJordan_Spec CellPlane_Spec CellPlane_Cut.
Local Open Scope Z_scope.

(** eastwards one gets out of a node *)
Lemma walk_east im n x y : framed im -> joined im -> owns im Vertex n x y -> exists u v, reach ways4 (owns im Vertex n) x y u v /\ ptype (ipix im (u + dirX 0) (v + dirY 0)) <> Vertex.
Proof.
  intros Fr Jo. remember (Z.to_nat (iw im - x)) as k eqn:Ek. revert x Ek. induction k as [|k IH]; intros x Ek O; [destruct O as (X & _); lia|].
  assert (V : vertexAt im x y) by (destruct O as (X & Y & E); split; [exact X|split; [exact Y|rewrite E; reflexivity]]). destruct (neighbor_in im Fr x y 0 V) as (X' & Y').
  destruct (ctypeEqb (ptype (ipix im (x + dirX 0) (y + dirY 0))) Vertex) eqn:T.
  - apply CellSigma_Proofs.ctypeEqb_eq in T. assert (O' : owns im Vertex n (x + dirX 0) (y + dirY 0)) by (apply Jo; [lia|exact O|split; auto]).
    assert (Ey : y + dirY 0 = y) by (cbn; lia). pose proof O' as O2. rewrite Ey in O2. destruct (IH (x + dirX 0)) as (u & v & R & N); [change (dirX 0) with 1; lia|exact O2|]. exists u, v. split; [|exact N].
    apply (walk_trans _ _ _ _ (x + dirX 0) y); [|exact R]. pose proof (walk_one ways4 (owns im Vertex n) x y 0 ltac:(cbn; tauto) O O') as Q. rewrite Ey in Q. exact Q.
  - apply CellSigma_Proofs.ctypeEqb_ne in T. exists x, y. split; [apply re_here, O|exact T].
Qed.
Lemma owns_vertex im n x y : owns im Vertex n x y -> vertexAt im x y.
Proof. intros (X & Y & E). split; [exact X|]. split; [exact Y|]. rewrite E. reflexivity. Qed.

Section Leave.
Variables (m m' : cmap) (s n : Z) (d : dart).
Let im := cim m.
Let im' := cim m'.
Hypothesis Fa : faced m.
Hypothesis Fa' : faced m'.
Hypothesis Ta : takenOver m m' Region s [(Vertex, n)].
Hypothesis Aw : faceAllowed im (CRemoveIsolatedNode d).
Hypothesis Nd : nodeOf im d = n.
Hypothesis Sd : sideOf im 1 d = s.
Let Wi : wired m. Proof. apply Fa. Qed.
Let Fr : framed im. Proof. apply Wi. Qed.
Let Ne : neat im. Proof. apply Wi. Qed.
Let Jo : joined im. Proof. apply Wi. Qed.
Let Ri : ringed im. Proof. apply Wi. Qed.
Let Pl : plain im. Proof. apply Fa. Qed.
Let Fi : filled im. Proof. apply Fa. Qed.
Let Re : repaint im im' Region s [(Vertex, n)]. Proof. apply taken_repaint, Ta. Qed.
Let No : forall e, isDart im e -> nodeOf im e <> n. Proof. rewrite <- Nd. apply Aw. Qed.

Lemma alone_at x y k : In k [0; 2; 4; 6] -> owns im Vertex n x y -> ptype (ipix im (x + dirX k) (y + dirY k)) <> Vertex -> owns im Region s (x + dirX k) (y + dirY k).
Proof.
  intros K O T. pose proof (owns_vertex im n x y O) as V. destruct (even_range k K) as (R & _). destruct Aw as (P & Q & No'). destruct (neighbor_in im Fr x y k V) as (X & Y).
  assert (La : labelAt im d 0 = s) by (rewrite <- Sd; symmetry; apply alone_side; auto). assert (Pk : isPlace im (Dart x y k)) by (apply straight_place; auto).
  assert (Nk : nodeOf im (Dart x y k) = nodeOf im d) by (rewrite Nd; unfold nodeOf; cbn [dcx dcy]; destruct O as (_ & _ & ->); reflexivity).
  assert (Rk : typeAt im (Dart x y k) 0 = Region) by (apply (side_alone im Fr Pl Fi Jo Ri _ d); auto; rewrite Nk; auto).
  assert (Lk : labelAt im (Dart x y k) 0 = labelAt im d 0) by (apply (side_alone im Fr Pl Fi Jo Ri d _); auto).
  rewrite label0, La in Lk by exact R. rewrite type0 in Rk by exact R. split; [exact X|]. split; [exact Y|]. apply pix_is; assumption.
Qed.
Lemma alone_far4 x y k : In k [0; 2; 4; 6] -> lineAt im x y -> owns im Vertex n (x + dirX k) (y + dirY k) -> False.
Proof.
  intros K La O. destruct (step_back x y k K) as (k' & K' & BX & BY). assert (D : isDart im (Dart (x + dirX k) (y + dirY k) k')) by (apply straight_dart; [exact K'|apply (owns_vertex _ _ _ _ O)|rewrite BX, BY; apply La]).
  apply (No _ D). unfold nodeOf. cbn [dcx dcy]. destruct O as (_ & _ & ->). reflexivity.
Qed.
(** no line pixel touches the node *)
Lemma alone_far x y k : 0 <= k < 8 -> lineAt im x y -> owns im Vertex n (x + dirX k) (y + dirY k) -> False.
Proof.
  intros K La O. destruct (Z.odd k) eqn:Ok_; [|apply (alone_far4 x y k); auto; apply even_in; assumption]. pose proof (owns_vertex _ _ _ _ O) as V. set (u := x + dirX k) in *. set (v := y + dirY k) in *.
  assert (C : forall c, c = 1 \/ c = -1 -> ptype (ipix im (u + dirX ((k + 4 + c) mod 8)) (v + dirY ((k + 4 + c) mod 8))) = Region).
  { intros c Hc. destruct (neighbor_in im Fr u v ((k + 4 + c) mod 8) V) as (X & Y).
    assert (E : In ((k + 4 + c) mod 8) [0; 2; 4; 6] /\ exists k', In k' [0; 2; 4; 6] /\ u + dirX ((k + 4 + c) mod 8) = x + dirX k' /\ v + dirY ((k + 4 + c) mod 8) = y + dirY k').
    { unfold u, v. clear - K Ok_ Hc. assert (H : k = 0 \/ k = 1 \/ k = 2 \/ k = 3 \/ k = 4 \/ k = 5 \/ k = 6 \/ k = 7) by lia. destruct H as [->|[->|[->|[->|[->|[->|[->| ->]]]]]]]; try discriminate Ok_; destruct Hc as [-> | ->]; (split; [cbn; tauto|]);
        first [exists 0; split; [cbn; tauto|cbn; lia] | exists 2; split; [cbn; tauto|cbn; lia] | exists 4; split; [cbn; tauto|cbn; lia] | exists 6; split; [cbn; tauto|cbn; lia]]. }
    destruct E as (E & k' & K' & Ex & Ey). destruct (ptype (ipix im (u + dirX ((k + 4 + c) mod 8)) (v + dirY ((k + 4 + c) mod 8)))) eqn:T; [reflexivity| | |]; exfalso.
    - apply (No (Dart u v ((k + 4 + c) mod 8))); [apply straight_dart; auto|]. unfold nodeOf. cbn [dcx dcy]. destruct O as (_ & _ & ->). reflexivity.
    - apply (alone_far4 x y k' K' La). rewrite <- Ex, <- Ey. apply Jo; [apply Z.mod_pos_bound; lia|exact O|split; auto].
    - exact (Pl _ _ X Y T). }
  apply (No (Dart u v ((k + 4) mod 8))); [|unfold nodeOf; cbn [dcx dcy]; destruct O as (_ & _ & ->); reflexivity].
  split; [exact V|]. split; [apply Z.mod_pos_bound; lia|]. unfold typeAt. cbn [dcx dcy ddir]. rewrite !Z.add_mod_idemp_l by lia. split; [|intros _; split; apply C; auto].
  assert (E : u + dirX ((k + 4 + 0) mod 8) = x /\ v + dirY ((k + 4 + 0) mod 8) = y); [|destruct E as (-> & ->); apply La].
  unfold u, v. clear - K. assert (H : k = 0 \/ k = 1 \/ k = 2 \/ k = 3 \/ k = 4 \/ k = 5 \/ k = 6 \/ k = 7) by lia. destruct H as [->|[->|[->|[->|[->|[->|[->| ->]]]]]]]; cbn; lia.
Qed.
Lemma alone_pix x y : 0 <= x < iw im -> 0 <= y < ih im -> (owns im Vertex n x y /\ ipix im' x y = Pix Region s) \/ (~ owns im Vertex n x y /\ ipix im' x y = ipix im x y).
Proof.
  intros X Y. destruct (pixel_after im im' Region s _ Re x y X Y) as [(I & E)|(I & E)]; [left|right]; (split; [|exact E]).
  - destruct I as [I|[]]. injection I as I1 I2. split; [exact X|]. split; [exact Y|]. apply pix_is; auto.
  - intros (_ & _ & O). apply I. rewrite O. left. reflexivity.
Qed.
Lemma alone_owns l x y : owns im' Line l x y <-> owns im Line l x y.
Proof.
  pose proof Re as (W & H & _). unfold owns at 1. rewrite W, H. split.
  - intros (X & Y & O). split; [exact X|]. split; [exact Y|]. destruct (alone_pix x y X Y) as [(_ & E)|(_ & E)]; congruence.
  - intros (X & Y & O). split; [exact X|]. split; [exact Y|]. destruct (alone_pix x y X Y) as [((_ & _ & E) & _)|(_ & E)]; congruence.
Qed.
Lemma alone_line x y : lineAt im' x y <-> lineAt im x y.
Proof.
  split; intros La.
  - pose proof (line_has im' x y La) as O. apply alone_owns in O. destruct O as (X & Y & O). split; [exact X|]. split; [exact Y|]. rewrite O. reflexivity.
  - pose proof (line_has im x y La) as O. apply alone_owns in O. destruct O as (X & Y & O). split; [exact X|]. split; [exact Y|]. rewrite O. reflexivity.
Qed.
Lemma alone_near x y k : lineAt im x y -> near im' x y k = near im x y k.
Proof.
  intros La. unfold near. destruct (line_near im x y (k mod 8) Fr La) as (X & Y). destruct (alone_pix _ _ X Y) as [(O & _)|(_ & ->)]; [|reflexivity]. exfalso. apply (alone_far x y (k mod 8)); auto. apply Z.mod_pos_bound. lia.
Qed.
Lemma alone_lineSide x y j : lineSide im' x y j <-> lineSide im x y j.
Proof. unfold lineSide. rewrite alone_line. split; intros (J & La & R); (split; [exact J|split; [exact La|]]); [rewrite <- R; symmetry|rewrite <- R]; apply alone_near, La. Qed.
Lemma alone_tracked L : tracked m L -> tracked m' L.
Proof.
  intros (T1 & T2 & T3 & T4 & T5). fold im in T1, T2, T3, T4, T5. unfold tracked. fold im'. pose proof (alone_darts m m' s n Wi Ta No) as Ad. fold im im' in Ad.
  assert (Pk : forall l x y, owns im Line l x y -> ipix im' x y = ipix im x y). { intros l x y O. apply alone_owns in O as O'. destruct O as (_ & _ & ->), O' as (_ & _ & ->). reflexivity. }
  assert (Ae : forall z, isDart im z -> edgeOf im' z = edgeOf im z). { intros z D. unfold edgeOf. rewrite (Pk (edgeOf im z)); [reflexivity|]. apply dart_owns; [exact Fr|exact D]. }
  assert (Al : forall x b, isDart im' x -> nextAlpha m' x = Ok b -> nextAlpha m x = Ok b).
  { intros x b Dx A. assert (Wi' : wired m') by apply Fa'. destruct (alpha_darts m' x b Wi' Dx A) as (Db & Nx & _ & Eb & _). fold im' in Db, Eb. apply Ad in Dx, Db. apply alpha_is; auto. rewrite (Ae _ Dx), (Ae _ Db) in Eb. exact Eb. }
  split; [|split; [|split; [|split]]].
  - intros x y j S. apply T1, alone_lineSide, S.
  - intros z x y j S Lz. apply alone_lineSide in S. destruct (T2 z x y j S Lz) as (D & E). split; [apply Ad, D|]. rewrite (Ae _ D). pose proof S as (_ & La & _). rewrite (Pk _ _ _ (line_has im x y La)). exact E.
  - intros z w x y j S. apply T3, alone_lineSide, S.
  - intros z x y j S Lz. apply alone_lineSide in S. pose proof S as (_ & La & _). pose proof (T4 z x y j S Lz) as St. unfold steps in *. cbv zeta in *. rewrite !alone_near by exact La. exact St.
  - intros x y k b D' A'. pose proof (Al _ _ D' A') as A. pose proof (proj1 (Ad _) D') as D. pose proof (T5 x y k b D A) as St.
    assert (Nr : forall i, near im' x y (k + i) = near im x y (k + i)).
    { intros i. change (near im' x y (k + i)) with (typeAt im' (Dart x y k) i). change (near im x y (k + i)) with (typeAt im (Dart x y k) i). apply (types_kept im im' Region s n [(Vertex, n)]); auto; [left; reflexivity| |discriminate|apply D'].
      intros u l [E|[]]. injection E as <- <-. auto. }
    unfold starts in *. rewrite !Nr. exact St.
Qed.
Lemma alone_regions x y : regionAt im x y \/ owns im Vertex n x y -> regionAt im' x y.
Proof.
  intros H. pose proof Re as (W & Hh & _). unfold regionAt. rewrite W, Hh. assert (X : 0 <= x < iw im /\ 0 <= y < ih im) by (destruct H as [(X & Y & _)|(X & Y & _)]; auto). destruct X as (X & Y). split; [exact X|]. split; [exact Y|].
  destruct (alone_pix x y X Y) as [(_ & ->)|(N & ->)]; [reflexivity|]. destruct H as [H|H]; [apply H|contradiction].
Qed.
Lemma alone_whole : whole im -> whole im'.
Proof.
  intros Wh l x y u v A B. pose proof Re as (W & H & _).
  assert (Mo : forall p q p' q', reach ways4 (regionAt im) p q p' q' -> reach ways4 (regionAt im') p q p' q') by (intros; apply (reach_mono _ (regionAt im)); auto; intros; apply alone_regions; auto).
  assert (G : forall p q, owns im' Region l p q -> exists a b, owns im Region l a b /\ reach ways4 (regionAt im') p q a b).
  { intros p q O. pose proof O as (X & Y & E). rewrite W in X. rewrite H in Y. destruct (alone_pix p q X Y) as [(Ov & E')|(_ & E')]; rewrite E' in E.
    - injection E as <-. destruct (walk_east im n p q Fr Jo Ov) as (a & b & R & N). assert (Oa : owns im Vertex n a b) by exact (walk_end _ _ _ _ _ _ R).
      pose proof (alone_at a b 0 ltac:(cbn; tauto) Oa N) as Or. exists (a + dirX 0), (b + dirY 0). split; [exact Or|]. apply re_step; [apply (reach_mono _ (owns im Vertex n)); [|exact R]; intros; apply alone_regions; auto|cbn; tauto|].
      apply alone_regions. left. destruct Or as (Xr & Yr & Er). split; [exact Xr|]. split; [exact Yr|]. rewrite Er. reflexivity.
    - exists p, q. split; [split; auto|]. apply re_here. split; [rewrite W; exact X|]. split; [rewrite H; exact Y|]. rewrite E', E. reflexivity. }
  destruct (G x y A) as (a & b & Oa & Ra). destruct (G u v B) as (a' & b' & Ob & Rb). apply (walk_trans _ _ _ _ a b); [exact Ra|]. apply (walk_trans _ _ _ _ a' b'); [apply Mo, (Wh l); assumption|]. apply walk_back; [exact two4|exact Rb].
Qed.
Lemma alone_planar : planar m -> planar m'.
Proof.
  intros (_ & Wh & Sg & Op & L & Tr). split; [exact Fa'|]. split; [apply alone_whole; assumption|]. split; [|split].
  - intros l x y u v A B. apply alone_owns in A, B. apply (reach_mono _ (owns im Line l)); [|apply Sg; assumption]. intros p q O. apply alone_owns, O.
  - intros l x y A. apply alone_owns in A. destruct (Op l x y A) as (u & v & k & Rr & K & Rk). exists u, v, k. split; [apply (reach_mono _ (owns im Line l)); [|exact Rr]; intros p q O; apply alone_owns, O|]. split; [exact K|]. apply alone_regions. auto.
  - exists L. apply alone_tracked, Tr.
Qed.
End Leave.
