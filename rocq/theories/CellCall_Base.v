(** The parts of the Euler operations return. *)
From Coq Require Import Lia.
From Verif Require Import Base CellMap_Model CellMap_Spec CellMap_Proofs CellMap_Main CellSigma_Spec CellSigma_Proofs CellSigma_Results CellLink_Spec CellLink_Proofs CellLink_Main CellCall_Careful.
Local Open Scope Z_scope.

(** ** The arrays *)
Definition here (m : cmap) (t : ctype) (l : Z) : Prop := 0 <= l < Z.of_nat (length (cellsOf m t)).
Definition sized (m m' : cmap) : Prop := forall t, length (cellsOf m' t) = length (cellsOf m t).
Lemma sized_trans a b c : sized a b -> sized b c -> sized a c. Proof. intros A B t. rewrite B. apply A. Qed.
Lemma sized_here m m' t l : sized m m' -> here m t l -> here m' t l. Proof. intros S H. unfold here. rewrite S. exact H. Qed.
Lemma sized_same m m' : (forall t, cellsOf m' t = cellsOf m t) -> sized m m'. Proof. intros S t. rewrite S. reflexivity. Qed.
Lemma sized_changed m m' t l c : changed m m' t l c -> sized m m'.
Proof. intros (_ & B & _) u. rewrite B. destruct (ctypeEqb u t); [apply list_upd_length|reflexivity]. Qed.
Lemma here_cell m t l c : nth_error (cellsOf m t) (Z.to_nat l) = Some c -> 0 <= l -> here m t l.
Proof. intros H P. split; [exact P|]. apply nth_error_lt in H. lia. Qed.

Lemma at_total {A} (v : list A) l : 0 <= l < Z.of_nat (length v) -> exists a, at_ v l = Ok a.
Proof.
  intros H. destruct (nth_error v (Z.to_nat l)) as [a|] eqn:E; [|apply nth_error_None in E; lia]. exists a. apply at_Ok. split; [lia|exact E].
Qed.
Lemma put_total {A} (v : list A) l a : 0 <= l < Z.of_nat (length v) -> exists w, put v l a = Ok w.
Proof.
  intros H. unfold put. replace (0 <=? l) with true by (symmetry; apply Z.leb_le; lia). replace (l <? Z.of_nat (length v)) with true by (symmetry; apply Z.ltb_lt; lia). cbn [andb].
  exists (list_upd v (Z.to_nat l) a). apply vset_Ok. split; [lia|reflexivity].
Qed.
Lemma face_total m l f : here m Region l -> exists m', updFace m l f = Ok m' /\ sized m m' /\ cim m' = cim m.
Proof.
  unfold here. cbn [cellsOf]. rewrite map_length. intros H. destruct (at_total (cfaces m) l H) as (x & X). destruct (put_total (cfaces m) l (f x) H) as (w & W).
  assert (E : updFace m l f = Ok (setFaces m w)) by (unfold updFace; rewrite X; cbn [bind]; rewrite W; reflexivity).
  eexists. split; [exact E|]. split; [|reflexivity]. destruct (updFace_changed _ _ _ _ E) as (fi & _ & C). exact (sized_changed _ _ _ _ _ C).
Qed.
Lemma edge_total m l f : here m Line l -> exists m', updEdge m l f = Ok m' /\ sized m m' /\ cim m' = cim m.
Proof.
  unfold here. cbn [cellsOf]. rewrite map_length. intros H. destruct (at_total (cedges m) l H) as (x & X). destruct (put_total (cedges m) l (f x) H) as (w & W).
  assert (E : updEdge m l f = Ok (setEdges m w)) by (unfold updEdge; rewrite X; cbn [bind]; rewrite W; reflexivity).
  eexists. split; [exact E|]. split; [|reflexivity]. destruct (updEdge_changed _ _ _ _ E) as (fi & _ & C). exact (sized_changed _ _ _ _ _ C).
Qed.
Lemma node_total m l f : here m Vertex l -> exists m', updNode m l f = Ok m' /\ sized m m' /\ cim m' = cim m.
Proof.
  unfold here. cbn [cellsOf]. rewrite map_length. intros H. destruct (at_total (cnodes m) l H) as (x & X). destruct (put_total (cnodes m) l (f x) H) as (w & W).
  assert (E : updNode m l f = Ok (setNodes m w)) by (unfold updNode; rewrite X; cbn [bind]; rewrite W; reflexivity).
  eexists. split; [exact E|]. split; [|reflexivity]. destruct (updNode_changed _ _ _ _ E) as (fi & _ & C). exact (sized_changed _ _ _ _ _ C).
Qed.
Lemma nodes_total m l : here m Vertex l -> exists n, at_ (cnodes m) l = Ok n.
Proof. unfold here. cbn [cellsOf]. rewrite map_length. apply at_total. Qed.

(** ** Painting over a cell *)
Lemma paint_total m m1 t l c ts s : sound m -> isCell m t (Z.to_nat l) c -> 0 <= l -> (forall u, cellsOf m1 u = cellsOf m u) -> (forall x y, owns (cim m) t l x y <-> owns (cim m1) t l x y) -> 0 <= s < 2 ^ 30 ->
  exists m2, relabelCell m1 t (clabel c) (cellPixel ts s) = Ok m2 /\ repainted (cim m1) (cim m2) ts s t l /\ (forall u, cellsOf m2 u = cellsOf m u) /\
    cnodes m2 = cnodes m1 /\ cedges m2 = cedges m1 /\ cfaces m2 = cfaces m1 /\ cinit m2 = cinit m1.
Proof.
  intros So Ic P C O B. destruct (live_facts m _ _ _ So Ic) as (L & Lt & X). rewrite Z2Nat.id in L, Lt, X by exact P.
  destruct (relabelCell_spec m1 t (Z.to_nat l) c ts s) as (m2 & R & Rp & C2 & _).
  - rewrite C. apply Ic.
  - rewrite Z2Nat.id by exact P. exact L.
  - rewrite Z2Nat.id by exact P. exact Lt.
  - exact B.
  - rewrite Z2Nat.id by exact P. apply (exactRect_ext (owns (cim m) t l)); auto.
  - rewrite Z2Nat.id in R, Rp by exact P. exists m2. rewrite L. split; [exact R|]. split; [exact Rp|]. split; [intros u; rewrite C2; apply C|].
    unfold relabelCell in R. bnd R ci Eci. bnd R im Eim. injection R as <-. repeat split.
Qed.
Lemma repaint_one im im' ts s tr r : repainted im im' ts s tr r -> repaint im im' ts s [(tr, r)].
Proof.
  intros (W & H & P). split; [exact W|]. split; [exact H|]. intros x y X Y. destruct (P x y X Y) as (A & B). split.
  - intros [E|[]]. apply A. injection E as -> ->. destruct (ipix im x y); reflexivity.
  - intros E. apply B. intros Q. apply E. left. rewrite Q. reflexivity.
Qed.
Lemma repaint_two im im1 im2 ts s t1 r1 t2 r2 : repainted im im1 ts s t1 r1 -> repainted im1 im2 ts s t2 r2 -> (ts, s) <> (t2, r2) -> repaint im im2 ts s [(t1, r1); (t2, r2)].
Proof.
  intros (W & H & P) (W2 & H2 & P2) N. split; [congruence|]. split; [congruence|]. intros x y X Y. destruct (P x y X Y) as (A & B). rewrite <- W in X. rewrite <- H in Y. destruct (P2 x y X Y) as (A2 & B2). split.
  - intros [E|[E|[]]].
    + rewrite B2; rewrite A by (injection E as -> ->; destruct (ipix im x y); reflexivity); [reflexivity|]. intros Q. apply N. congruence.
    + destruct (pix_dec (ipix im x y) (Pix t1 r1)) as [Q|Q].
      * rewrite B2; rewrite A by exact Q; [reflexivity|]. intros Q'. apply N. congruence.
      * apply A2. rewrite B by exact Q. injection E as -> ->. destruct (ipix im x y); reflexivity.
  - intros E. rewrite B2; rewrite B; try reflexivity; intros Q; apply E; rewrite Q; cbn; auto.
Qed.

(** ** The degrees of the nodes *)
(** an anchor from which a dart can be searched for *)
Definition good (im : img) (a : dart) : Prop := stateOK im a /\ (typeAt im a 0 <> Line -> isPlace im a /\ noticed im a).
Lemma drop_total m l n : framed (cim m) -> at_ (cnodes m) l = Ok n -> good (cim m) (nanchor n) ->
  exists m', dropDegree m l = Ok m' /\ sized m m' /\ cim m' = cim m /\ forall k n', at_ (cnodes m') k = Ok n' -> (exists n0, at_ (cnodes m) k = Ok n0 /\ nanchor n' = nanchor n0) \/ good (cim m) (nanchor n').
Proof.
  intros Fr En (S & G).
  assert (Hl : here m Vertex l) by (destruct (cells_node _ _ _ En) as (P & Q); exact (here_cell _ _ _ _ Q P)).
  set (deg := (ndegree n - 1) mod 2 ^ 16).
  assert (Ea : exists a, (if deg =? 0 then Ok (nanchor n) else s <- isSingular (cim m) (nanchor n) ;; if s : bool then carefulNextSigma (cim m) (nanchor n) else Ok (nanchor n)) = Ok a /\ good (cim m) a).
  { destruct (deg =? 0); [exists (nanchor n); split; [reflexivity|split; assumption]|].
    assert (Q : isSingular (cim m) (nanchor n) = Ok (negb (ctypeEqb (typeAt (cim m) (nanchor n) 0) Line))) by (unfold isSingular; rewrite neighbor_read by (auto; apply S); reflexivity).
    rewrite Q. cbn [bind]. destruct (ctypeEqb (typeAt (cim m) (nanchor n) 0) Line) eqn:L; cbn [negb]; [exists (nanchor n); split; [reflexivity|split; assumption]|].
    apply CellSigma_Proofs.ctypeEqb_ne in L. destruct (G L) as (P & No). destruct (careful_total (cim m) Fr (nanchor n) P No L) as (r & R). exists r. split; [exact R|].
    unfold carefulNextSigma in R. destruct (careful_rounds (cim m) Fr _ (nanchor n) (nanchor n) r S S R) as (k & <- & _ & Q').
    split; [apply rounds_ok; auto|]. destruct Q' as [Q'|(Q' & _)]; [intros X; contradiction|]. rewrite Q'. auto. }
  destruct Ea as (a & Ea & Ga). destruct (node_total m l (fun n => NInfo (ninf n) a deg) Hl) as (m' & Em & Sz & Im). exists m'. split; [unfold dropDegree; rewrite En; cbn [bind]; fold deg; rewrite Ea; exact Em|].
  split; [exact Sz|]. split; [exact Im|]. intros k n' K. unfold updNode in Em. rewrite En in Em. cbn [bind] in Em. bnd Em v Ev. injection Em as <-. apply put_Ok in Ev. subst v. cbn [setNodes cnodes] in K.
  apply at_Ok in K. destruct K as (Pk & K). destruct (Nat.eq_dec (Z.to_nat l) (Z.to_nat k)) as [E|E].
  - right. rewrite <- E in K. rewrite nth_error_upd_eq in K; [injection K as <-; exact Ga|]. apply at_Ok in En. apply nth_error_Some. destruct En as (_ & En). congruence.
  - left. rewrite nth_error_upd_neq in K by auto. exists n'. split; [apply at_Ok; auto|reflexivity].
Qed.
(** both ends of an edge *)
Lemma drops_total m l1 l2 : framed (cim m) -> here m Vertex l1 -> here m Vertex l2 -> (forall n, at_ (cnodes m) l1 = Ok n \/ at_ (cnodes m) l2 = Ok n -> good (cim m) (nanchor n)) ->
  exists m1 m2, dropDegree m l1 = Ok m1 /\ dropDegree m1 l2 = Ok m2 /\ sized m m2 /\ cim m2 = cim m.
Proof.
  intros Fr H1 H2 G. destruct (nodes_total m l1 H1) as (n1 & N1). destruct (drop_total m l1 n1 Fr N1 (G n1 (or_introl N1))) as (m1 & D1 & Z1 & I1 & A1).
  destruct (nodes_total m1 l2 (sized_here _ _ _ _ Z1 H2)) as (n2 & N2). destruct (drop_total m1 l2 n2) as (m2 & D2 & Z2 & I2 & _); [rewrite I1; exact Fr|exact N2| |].
  - rewrite I1. destruct (A1 l2 n2 N2) as [(n0 & N0 & ->)|X]; [apply G; auto|exact X].
  - exists m1, m2. split; [exact D1|]. split; [exact D2|]. split; [exact (sized_trans _ _ _ Z1 Z2)|congruence].
Qed.
(** the anchors of nodes with darts are still fit when an edge is painted over *)
Lemma good_after im im' t l gone a : framed im -> framed im' -> neat im -> joined im -> repaint im im' t l gone -> t <> Vertex -> isDart im a -> vertexAt im' (dcx a) (dcy a) -> good im' a.
Proof.
  intros Fr Fr' Ne Jo Re NV D V. pose proof (dart_place im a D) as P. assert (P' : isPlace im' a) by (apply (place_after im im' t l gone Fr Jo Re NV); auto).
  split; [apply place_state, P'|]. intros L. split; [exact P'|]. split; [apply not_line_not_bad; exact L|]. intros O X. apply (around_type im im' t l gone Fr Jo Re NV a (-1) V) in X.
  destruct (dart_noticed im Fr Ne a D) as (_ & Q). exact (Q O X).
Qed.
