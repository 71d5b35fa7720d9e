(** C84: removeEdge and removeEdgeWithEnds of the pyramid. *)
From Coq Require Import Lia.
From Verif Require Import Base CellMap_Model CellMap_Spec CellMap_Proofs CellMap_Main CellSigma_Spec CellSigma_Proofs CellSigma_Results CellLink_Spec CellLink_Proofs CellLink_Main CellLink_Results CellLink_Check
  CellFace_Spec CellFace_Walk CellFace_Main CellFace_Step CellContour_Spec CellContour_Leave CellCall_Results CellPlane_Spec CellPlane_Results CellStats_Model CellStats_Spec CellStats_Step CellStats_Main CellStats_Results CellPyr_Model CellPyr_Spec CellPyr_Ends.
Local Open Scope Z_scope.

Lemma painted_taken m m' k gone (P : ctype -> Z -> Prop) : takenOver m m' Region k gone -> (forall t l, P t l <-> In (t, l) gone \/ (t = Region /\ l = k)) -> painted (cim m) (cim m') k P.
Proof.
  intros (W & H & Px & _) E. split; [exact W|]. split; [exact H|]. intros x y X Y. destruct (Px x y X Y) as (A & B). split.
  - intros Q. apply E in Q. destruct (in_gone (cim m) gone x y) as [I|I]; [exact (A I)|]. destruct Q as [Q|(Q1 & Q2)]; [contradiction|]. rewrite (B I). apply pix_mk; assumption.
  - intros Q. apply B. intros I. apply Q, E. left. exact I.
Qed.
Lemma painted_more im im1 im2 k (P Q R : ctype -> Z -> Prop) : painted im im1 k P -> painted im1 im2 k Q -> P Region k -> Q Region k -> (forall t l, P t l \/ ~ P t l) -> (forall t l, ~ P t l -> (R t l <-> Q t l)) -> (forall t l, P t l -> R t l) -> painted im im2 k R.
Proof.
  intros (W1 & H1 & A) (W2 & H2 & B) Pk Qk Dp E F. split; [congruence|]. split; [congruence|]. intros x y X Y. rewrite W1, H1 in B. destruct (A x y X Y) as (A1 & A2). destruct (B x y X Y) as (B1 & B2).
  destruct (Dp (ptype (ipix im x y)) (plabel (ipix im x y))) as [D|D].
  - rewrite (A1 D) in *. cbn [ptype plabel] in *. split; [intros _; apply B1, Qk|intros N; exfalso; apply N, F, D].
  - rewrite (A2 D) in *. rewrite (E _ _ D). split; assumption.
Qed.
Lemma edge_faces_dec im d t l : edgeAndFaces im d t l \/ ~ edgeAndFaces im d t l.
Proof.
  unfold edgeAndFaces. assert (Q : forall r : res Z, r = Ok l \/ r <> Ok l) by (intros [z| | |]; try (right; discriminate); destruct (Z.eq_dec z l) as [->|N]; [left; reflexivity|right; congruence]).
  destruct (Q (edgeLabel im d)), (Q (leftFaceLabel im d)), (Q (rightFaceLabel im d)), t; (left; tauto) || (right; intros [(X & Y)|(X & Y)]; try discriminate X; tauto).
Qed.

Section Data.
Variables original gradient : vimg.
Variable maxValue : Z.
Notation hist := (shistory original gradient maxValue).
Notation exec := (statExec original gradient maxValue).
Notation pex := (pexec original gradient maxValue).

Lemma hist_size m0 since lost m s : hist m0 since lost m s -> iw (cim m) = iw (cim m0) /\ ih (cim m) = ih (cim m0).
Proof.
  intros H. assert (Q : faced m /\ iw (cim m) = iw (cim m0) /\ ih (cim m) = ih (cim m0)); [|apply Q]. induction H as [p s since F _ _ _ _|since lost m s c m' s' H IH A E| | |]; auto.
  destruct IH as (F & W & I). destruct (exec_call _ _ _ _ _ _ _ _ E) as (k & Ek). destruct (call_facts m c m' k F A Ek) as (F' & Ef). split; [exact F'|].
  assert (Q : exists t g, takenOver m m' t k g) by (destruct c; cbn [callEffect] in Ef; repeat match goal with H : exists _, _ |- _ => destruct H | H : _ /\ _ |- _ => destruct H end; eauto).
  destruct Q as (t & g & W' & H' & _). split; congruence.
Qed.
Section Map.
Variables (m0 since : cmap) (lost : Z -> Z -> Prop) (m : cmap) (s : cstats).
Hypothesis Ph : phistory m.
Hypothesis Hs : hist m0 since lost m s.
(** a call of the map is one with the statistics *)
Lemma with_stats c m' k : faceAllowed (cim m) c -> cexec m c = Ok (m', k) -> exists s' lost', exec m s c = Ok (m', s') /\ hist m0 since lost' m' s' /\ phistory m'.
Proof.
  intros A E. destruct (calls_same original gradient maxValue m0 since lost m s c Hs A) as (X & _). destruct (X m' k E) as (s' & Es). exists s'. eexists. split; [exact Es|]. split; [|exact (ph_call m c m' k Ph A E)].
  exact (sh_call original gradient maxValue m0 since lost m s c m' s' Hs A Es).
Qed.
Let Fa : faced m. Proof. apply (phistory_planar m Ph). Qed.
Let Wi : wired m. Proof. apply Fa. Qed.
Let Fr : framed (cim m). Proof. apply Wi. Qed.

Lemma removal d : isDart (cim m) d -> exists c m' k, (c = CMergeFaces d \/ c = CRemoveBridge d) /\ cexec m c = Ok (m', k) /\ removeEdgeOf original gradient maxValue m s d = exec m s c /\ painted (cim m) (cim m') k (edgeAndFaces (cim m) d) /\ edgeAndFaces (cim m) d Region k.
Proof.
  intros D. pose proof (phistory_khistory m Ph) as Kh. destruct (faces_return m Kh d D) as (A & _). destruct (bridge_returns m Kh d D) as (B & _). unfold removeEdgeOf. rewrite (leftFace_is (cim m) Fr d (proj1 D)), (rightFace_is (cim m) Fr d (proj1 D)) in *. cbn [bind].
  assert (R : exists c m' k, (c = CMergeFaces d \/ c = CRemoveBridge d) /\ cexec m c = Ok (m', k) /\ exec m s (if sideOf (cim m) 1 d =? sideOf (cim m) (-1) d then CRemoveBridge d else CMergeFaces d) = exec m s c).
  { destruct (Z.eqb_spec (sideOf (cim m) 1 d) (sideOf (cim m) (-1) d)) as [X|X]; [destruct B as (m' & k & B); [congruence|]; exists (CRemoveBridge d), m', k; auto|destruct A as (m' & k & A); [congruence|]; exists (CMergeFaces d), m', k; auto]. }
  destruct R as (c & m' & k & C & E & Q). exists c, m', k. split; [exact C|]. split; [exact E|]. split; [exact Q|]. destruct (cut_call m d c m' k Fa D C E) as (gone & Ta & _ & G & Ks & _).
  assert (Kf : edgeAndFaces (cim m) d Region k) by (right; split; [reflexivity|]; rewrite (leftFace_is (cim m) Fr d (proj1 D)), (rightFace_is (cim m) Fr d (proj1 D)); destruct Ks; [left|right]; congruence).
  split; [|exact Kf]. apply (painted_taken m m' k gone _ Ta). intros t l. rewrite G. unfold edgeAndFaces. rewrite edgeLabel_dart by (auto; apply D). rewrite (leftFace_is (cim m) Fr d (proj1 D)), (rightFace_is (cim m) Fr d (proj1 D)). split.
  - intros [(T & X)|(T & X)]; [injection X as X; auto|]. destruct (Z.eq_dec l k) as [Y|Y]; [auto|]. left. right. split; [exact T|]. split; [exact Y|]. destruct X as [X|X]; injection X as X; auto.
  - intros [[(T & X)|(T & _ & X)]|(T & X)]; [left; split; [exact T|congruence]|right; split; [exact T|]; destruct X; [left|right]; congruence|right; split; [exact T|]; destruct Ks; [left|right]; congruence].
Qed.
Theorem edge_goes d : isDart (cim m) d -> exists m' s' k lost', pex m s (PRemoveEdge d) = Ok (m', s') /\ painted (cim m) (cim m') k (edgeAndFaces (cim m) d) /\ edgeAndFaces (cim m) d Region k /\ hist m0 since lost' m' s' /\ phistory m'.
Proof.
  intros D. destruct (removal d D) as (c & m' & k & C & E & R & Pa & Kf). destruct (with_stats c m' k) as (s' & lost' & Es & H' & P'); [destruct C as [-> | ->]; exact D|exact E|]. exists m', s', k, lost'. cbn [pexec]. rewrite R. auto.
Qed.
End Map.

(** a node without edges goes *)
Lemma alone_goes m0 since lost m s a n : phistory m -> hist m0 since lost m s -> faceAllowed (cim m) (CRemoveIsolatedNode a) -> nodeOf (cim m) a = n ->
  exists m' s' lost', exec m s (CRemoveIsolatedNode a) = Ok (m', s') /\ hist m0 since lost' m' s' /\ phistory m' /\ takenOver m m' Region (sideOf (cim m) 1 a) [(Vertex, n)] /\ keeps m m'.
Proof.
  intros Ph Hs A Na. assert (Fa : faced m) by apply (phistory_planar m Ph). assert (Fr : framed (cim m)) by apply Fa. pose proof A as (P & B & N). destruct (isolated_returns m (phistory_khistory m Ph) a P B N) as (m' & k & E).
  destruct (with_stats m0 since lost m s Ph Hs (CRemoveIsolatedNode a) m' k A E) as (s' & lost' & Es & H' & P'). exists m', s', lost'. split; [exact Es|]. split; [exact H'|]. split; [exact P'|].
  destruct (call_facts m _ m' k Fa A E) as (_ & Eff). cbn [callEffect] in Eff. destruct Eff as (n' & En & El & Ta). rewrite nodeLabel_dart in En by apply P. rewrite leftFace_is in El by (auto; apply P). injection En as En. injection El as El.
  assert (Q : n' = n) by congruence. rewrite Q, <- El in Ta. split; [exact Ta|exact (removeIsolatedNode_view _ _ _ _ E)].
Qed.
Lemma alone_after m m' k n b : faced m -> takenOver m m' Region k [(Vertex, n)] -> (forall e, isDart (cim m) e -> nodeOf (cim m) e <> n) -> faceAllowed (cim m) (CRemoveIsolatedNode b) -> nodeOf (cim m) b <> n -> sideOf (cim m) 1 b = k ->
  faceAllowed (cim m') (CRemoveIsolatedNode b) /\ nodeOf (cim m') b = nodeOf (cim m) b /\ sideOf (cim m') 1 b = k.
Proof.
  intros Fa Ta N0 (P & B & N) Nb S. assert (Wi : wired m) by apply Fa. assert (Fr : framed (cim m)) by apply Fa. assert (Jo : joined (cim m)) by apply Wi. pose proof (taken_repaint _ _ _ _ _ Ta) as Re.
  assert (V : vertexAt (cim m') (dcx b) (dcy b)) by (apply (vertex_after (cim m) (cim m') Region k [(Vertex, n)] Re ltac:(discriminate)); split; [apply P|]; intros [X|[]]; injection X as X; apply Nb; unfold nodeOf; congruence).
  destruct (side_taken k (cim m) (cim m') [(Vertex, n)] b Fr (proj1 P) Re B (or_introl S)) as (B' & S').
  assert (Nn : nodeOf (cim m') b = nodeOf (cim m) b) by (apply (node_after (cim m) (cim m') Region k [(Vertex, n)] Re ltac:(discriminate)), V).
  split; [|split; assumption]. assert (NV : Region <> Vertex) by discriminate. split; [apply (place_after (cim m) (cim m') Region k [(Vertex, n)]); auto|]. split; [exact B'|]. intros e De Q.
  apply (alone_darts m m' k n Wi Ta N0) in De as De'. apply (N e De'). rewrite Nn in Q. rewrite <- Q. symmetry. apply (node_after (cim m) (cim m') Region k [(Vertex, n)] Re NV). apply De.
Qed.
(** the steps of removeEdgeWithEnds *)
Definition ran (m0 since m : cmap) (s : cstats) (d : dart) (m' : cmap) (s' : cstats) : Prop :=
  exists n1 n2 m1 s1 y1 m2 s2 lost1 lost2, (el <- edgeLabel (cim m) d ;; e <- at_ (cedges m) el ;; n1 <- startNodeLabel (cim m) (estart e) ;; n2 <- startNodeLabel (cim m) (eend e) ;; Ok (n1, n2)) = Ok (n1, n2) /\ 0 <= n1 /\ 0 <= n2 /\
    removeEdgeOf original gradient maxValue m s d = Ok (m1, s1) /\ phistory m1 /\ hist m0 since lost1 m1 s1 /\ at_ (cnodes m1) n1 = Ok y1 /\ 0 <= ndegree y1 /\ (ndegree y1 = 0 -> isPlace (cim m1) (nanchor y1)) /\
    removeAlone original gradient maxValue m1 s1 n1 = Ok (m2, s2) /\ phistory m2 /\ hist m0 since lost2 m2 s2 /\ (n1 = n2 -> m' = m2 /\ s' = s2) /\
    (n1 <> n2 -> exists y2, at_ (cnodes m2) n2 = Ok y2 /\ 0 <= ndegree y2 /\ (ndegree y2 = 0 -> isPlace (cim m2) (nanchor y2)) /\ removeAlone original gradient maxValue m2 s2 n2 = Ok (m', s')).
(** ** With the ends *)
Theorem ends_go m0 since lost m s d : phistory m -> hist m0 since lost m s -> isDart (cim m) d ->
  exists m' s' k lost', pex m s (PRemoveEdgeWithEnds d) = Ok (m', s') /\ painted (cim m) (cim m') k (edgeWithEnds (cim m) d) /\ edgeAndFaces (cim m) d Region k /\ (hist m0 since lost' m' s' /\ phistory m') /\ ran m0 since m s d m' s'.
Proof.
  intros Ph Hs D. assert (Fa : faced m) by apply (phistory_planar m Ph). assert (Wi : wired m) by apply Fa. assert (Fr : framed (cim m)) by apply Fa. assert (So : sound m) by apply Wi.
  destruct (alpha_ends m d Wi D) as (e & a & b & Ae & _ & Ne & Ie & (_ & Tw) & _ & _ & Wh).
  assert (De : dartOfEdge (cim m) (edgeOf (cim m) d) (estart e) /\ dartOfEdge (cim m) (edgeOf (cim m) d) (eend e)) by (destruct Wh as [(-> & ->)|(-> & ->)]; split; apply Tw; auto).
  destruct De as ((D1 & L1) & (D2 & L2)). set (n1 := nodeOf (cim m) (estart e)). set (n2 := nodeOf (cim m) (eend e)).
  assert (Two : forall x, isDart (cim m) x -> edgeOf (cim m) x = edgeOf (cim m) d -> nodeOf (cim m) x = n1 \/ nodeOf (cim m) x = n2).
  { intros x Dx Ex. assert (Q : x = a \/ x = b) by (apply Tw; split; assumption). unfold n1, n2. destruct Wh as [(-> & ->)|(-> & ->)], Q as [-> | ->]; auto. }
  destruct (removal m s Ph d D) as (c & m1 & k & C & E & R & Pa & Kf).
  assert (Ac : faceAllowed (cim m) c) by (destruct C as [-> | ->]; exact D).
  destruct (with_stats m0 since lost m s Ph Hs c m1 k Ac E) as (s1 & lost1 & Es & H1 & P1).
  assert (Fa1 : faced m1) by apply (phistory_planar m1 P1). assert (Wi1 : wired m1) by apply Fa1. assert (So1 : sound m1) by apply Wi1.
  (* the nodes after the edge has gone *)
  assert (Nod : forall n x, nodeOf (cim m) x = n -> isDart (cim m) x -> edgeOf (cim m) x = edgeOf (cim m) d -> exists y, nth_error (cnodes m) (Z.to_nat n) <> None /\ 0 <= n /\ at_ (cnodes m1) n = Ok y /\ 0 <= ndegree y /\ isNode m1 (Z.to_nat n) y /\
    (ndegree y = 0 <-> endOnly (cim m) (edgeOf (cim m) d) n) /\ (ndegree y = 0 -> faceAllowed (cim m1) (CRemoveIsolatedNode (nanchor y)) /\ nodeOf (cim m1) (nanchor y) = n /\ sideOf (cim m1) 1 (nanchor y) = k)).
  { intros n x Nx Dx Ex. destruct (node_nth m n So _ _ (proj1 Dx) Nx) as (y0 & Y0 & _ & Pn).
    assert (V1 : vertexAt (cim m1) (dcx x) (dcy x)) by (apply (cut_vertices m m1 k d c Fa D C E), Dx). assert (Nx1 : nodeOf (cim m1) x = n) by (rewrite (cut_nodeOf m m1 k d c Fa D C E) by apply Dx; exact Nx).
    destruct (node_nth m1 n So1 _ _ V1 Nx1) as (y & Y & Iy & _). exists y. split; [congruence|]. split; [exact Pn|]. split; [apply at_Ok; auto|].
    assert (Hd : exists z, dartOfNode (cim m) (Z.of_nat (Z.to_nat n)) z) by (exists x; rewrite Z2Nat.id by exact Pn; split; assumption).
    pose proof Wi1 as (_ & _ & _ & _ & _ & Hub). destruct (Hub _ _ Y Iy) as ((G0 & _) & M & _). rewrite Z2Nat.id in M by exact Pn. split; [exact G0|]. split; [split; assumption|].
    split.
    - split.
      + intros Z0. split; [exists x; split; assumption|]. intros z (Dz & Nz). destruct (Z.eq_dec (edgeOf (cim m) z) (edgeOf (cim m) d)) as [X|X]; [exact X|]. exfalso.
        assert (0 < ndegree y); [|lia]. apply (many_in _ _ z M). split; [apply (cut_isDart m m1 k d c Fa D C E); auto|]. rewrite (cut_nodeOf m m1 k d c Fa D C E) by apply Dz. exact Nz.
      + intros (_ & Q). destruct (Z.eq_dec (ndegree y) 0) as [X|X]; [exact X|]. exfalso. destruct (many_some _ _ M ltac:(lia)) as (z & Dz & Nz). pose proof Dz as Dz'. apply (cut_isDart m m1 k d c Fa D C E) in Dz'. destruct Dz' as (Dz' & Xz). apply Xz, Q. split; [exact Dz'|].
        rewrite <- Nz. symmetry. apply (cut_nodeOf m m1 k d c Fa D C E), Dz'.
    - intros Z0. destruct (anchor_fit m m1 k d c Fa D C E (Z.to_nat n) y (conj Y Iy) Z0 Hd) as (X1 & X2 & X3). rewrite Z2Nat.id in X2 by exact Pn. auto. }
  destruct (Nod n1 (estart e) eq_refl D1 L1) as (y1 & X1 & Pn1 & Y1 & Gy1 & I1 & O1 & F1). destruct (Nod n2 (eend e) eq_refl D2 L2) as (y2 & X2 & Pn2 & Y2 & Gy2 & I2 & O2 & F2). clear Nod.
  (* the first node *)
  assert (First : exists m2 s2 lost2, removeAlone original gradient maxValue m1 s1 n1 = Ok (m2, s2) /\ hist m0 since lost2 m2 s2 /\ phistory m2 /\ keeps m1 m2 /\
    painted (cim m) (cim m2) k (fun t l => edgeAndFaces (cim m) d t l \/ (t = Vertex /\ l = n1 /\ endOnly (cim m) (edgeOf (cim m) d) n1)) /\
    (n1 <> n2 -> isNode m2 (Z.to_nat n2) y2 /\ (forall z, at_ (cnodes m2) n1 = Ok z -> clabel (ninf z) <> clabel (ninf y2)) /\ (ndegree y2 = 0 -> faceAllowed (cim m2) (CRemoveIsolatedNode (nanchor y2)) /\ nodeOf (cim m2) (nanchor y2) = n2 /\ sideOf (cim m2) 1 (nanchor y2) = k))).
  { assert (Lab : forall mm l x, sound mm -> isNode mm l x -> clabel (ninf x) = Z.of_nat l) by (intros mm l x (_ & _ & Rc) (Hx & Ix); apply (proj1 Rc Vertex l (ninf x)); [cbn [cellsOf]; apply map_nth_error, Hx|exact Ix]).
    unfold removeAlone. rewrite Y1. cbn [bind]. destruct (Z.eqb_spec (ndegree y1) 0) as [Z0|Z0].
    - destruct (F1 Z0) as (Al & Na & Sa). destruct (alone_goes m0 since lost1 m1 s1 (nanchor y1) n1 P1 H1 Al Na) as (m2 & s2 & lost2 & E2 & H2 & P2 & Ta & Ke). rewrite Sa in Ta. exists m2, s2, lost2. split; [exact E2|]. split; [exact H2|]. split; [exact P2|]. split; [exact Ke|].
      assert (Pa2 : painted (cim m1) (cim m2) k (fun t l => (t = Vertex /\ l = n1) \/ (t = Region /\ l = k))) by (apply (painted_taken m1 m2 k [(Vertex, n1)] _ Ta); intros t l; cbn [In]; split; [intros [(-> & ->)|Q]; auto|intros [[Q|[]]|Q]; [injection Q as <- <-|]; auto]).
      split.
      + apply (painted_more (cim m) (cim m1) (cim m2) k (edgeAndFaces (cim m) d) _ _ Pa Pa2 Kf); [right; auto|intros; apply edge_faces_dec| |intros; left; assumption].
        intros t l N. split; [intros [Q|(T & Q & _)]; [contradiction|left; auto]|]. intros [(T & Q)|(T & Q)]; [right; split; [exact T|]; split; [exact Q|apply O1, Z0]|exfalso; apply N; subst; exact Kf].
      + intros Df. assert (Ey : nth_error (cellsOf m2 Vertex) (Z.to_nat n2) = nth_error (cellsOf m1 Vertex) (Z.to_nat n2)).
        { destruct Ta as (_ & _ & _ & _ & Ot). apply Ot. rewrite Z2Nat.id by exact Pn2. intros [Q|[Q|[]]]; [discriminate Q|injection Q as Q; congruence]. }
        destruct I2 as (N2 & J2). destruct (keeps_rev m1 m2 _ _ Ke N2) as (w & Nw & Aw & Dw). assert (w = y2).
        { cbn [cellsOf] in Ey. rewrite (map_nth_error ninf _ _ N2), (map_nth_error ninf _ _ Nw) in Ey. injection Ey as Ey. destruct w, y2; cbn in *. congruence. }
        subst w. split; [split; assumption|]. split.
        * intros z Hz. apply at_Ok in Hz. destruct Hz as (_ & Hz). rewrite (Lab m1 _ y2 So1 (conj N2 J2)).
          assert (Dead : initialized (ninf z) = false).
          { destruct (initialized (ninf z)) eqn:Iz; auto. exfalso. destruct Ta as (_ & _ & _ & Lv & _). destruct (proj1 (Lv Vertex (Z.to_nat n1))) as (_ & Q); [exists (ninf z); split; [cbn [cellsOf]; apply map_nth_error, Hz|exact Iz]|]. apply Q. left. rewrite Z2Nat.id by exact Pn1. reflexivity. }
          pose proof J2 as K2. unfold initialized in Dead, K2. apply Bool.negb_false_iff, Z.eqb_eq in Dead. apply Bool.negb_true_iff, Z.eqb_neq in K2. rewrite (Lab m1 _ y2 So1 (conj N2 J2)) in K2. congruence.
        * intros Z2. destruct (F2 Z2) as (Al2 & Na2 & Sa2). destruct (alone_after m1 m2 k n1 (nanchor y2) Fa1 Ta) as (U1 & U2 & U3); auto; [intros x Dx; rewrite <- Na; apply Al; exact Dx|congruence|]. split; [exact U1|]. split; [congruence|exact U3].
    - exists m1, s1, lost1. split; [reflexivity|]. split; [exact H1|]. split; [exact P1|]. split; [apply keeps_refl|]. split.
      + destruct Pa as (W & H & Q). split; [exact W|]. split; [exact H|]. intros x y X Y. destruct (Q x y X Y) as (Q1 & Q2). split; [intros [G|(_ & _ & G)]; [auto|]|intros G; apply Q2; tauto]. apply O1 in G. contradiction.
      + intros Df. split; [exact I2|]. split; [|exact F2]. intros z Hz. assert (z = y1) by congruence. subst z. rewrite (Lab m1 _ y1 So1 I1), (Lab m1 _ y2 So1 I2). lia. }
  destruct First as (m2 & s2 & lost2 & E2 & H2 & P2 & Ke & Pa2 & Sec).
  assert (Q1 : exists w1, at_ (cnodes m2) n1 = Ok w1) by (destruct I1 as (N1 & _); destruct (keeps_rev m1 m2 _ _ Ke N1) as (w & Nw & _); exists w; apply at_Ok; auto). destruct Q1 as (w1 & W1).
  assert (Pex : pex m s (PRemoveEdgeWithEnds d) = (x1 <- at_ (cnodes m2) n1 ;; x2 <- at_ (cnodes m2) n2 ;; if clabel (ninf x1) =? clabel (ninf x2) then Ok (m2, s2) else removeAlone original gradient maxValue m2 s2 n2)).
  { cbn [pexec]. rewrite edgeLabel_dart by (auto; apply D). cbn [bind]. rewrite Ae. cbn [bind]. rewrite (nodeLabel_dart _ (estart e)) by apply D1. cbn [bind]. fold n1. rewrite (nodeLabel_dart _ (eend e)) by apply D2. fold n2.
    destruct (nth_error (cnodes m) (Z.to_nat n1)) as [z1|] eqn:G1; [|contradiction]. destruct (nth_error (cnodes m) (Z.to_nat n2)) as [z2|] eqn:G2; [|contradiction].
    rewrite (proj2 (at_Ok (cnodes m) n1 z1)) by auto. cbn [bind]. rewrite (proj2 (at_Ok (cnodes m) n2 z2)) by auto. cbn [bind]. rewrite R, Es. cbn [bind fst snd]. rewrite E2. reflexivity. }
  assert (Ran : forall m' s', (n1 = n2 -> m' = m2 /\ s' = s2) -> (n1 <> n2 -> removeAlone original gradient maxValue m2 s2 n2 = Ok (m', s')) -> ran m0 since m s d m' s').
  { intros m' s' Q1 Q2. exists n1, n2, m1, s1, y1, m2, s2, lost1, lost2. split.
    { rewrite edgeLabel_dart by (auto; apply D). cbn [bind]. rewrite Ae. cbn [bind]. rewrite (nodeLabel_dart _ (estart e)) by apply D1. cbn [bind]. fold n1. rewrite (nodeLabel_dart _ (eend e)) by apply D2. reflexivity. }
    split; [exact Pn1|]. split; [exact Pn2|]. split; [rewrite R; exact Es|]. split; [exact P1|]. split; [exact H1|]. split; [exact Y1|]. split; [exact Gy1|]. split; [intros Z0; apply (F1 Z0)|]. split; [exact E2|]. split; [exact P2|]. split; [exact H2|]. split; [exact Q1|].
    intros Df. destruct (Sec Df) as ((N2' & _) & _ & F2'). exists y2. split; [apply at_Ok; auto|]. split; [exact Gy2|]. split; [intros Z0; apply (F2' Z0)|]. apply Q2, Df. }
  rewrite W1 in Pex. cbn [bind] in Pex.
  destruct (Z.eq_dec n1 n2) as [Eq|Df].
  - rewrite <- Eq, W1 in Pex. cbn [bind] in Pex. rewrite Z.eqb_refl in Pex. exists m2, s2, k, lost2. split; [exact Pex|]. split; [|split; [exact Kf|]; split; [auto|]; apply Ran; [auto|contradiction]]. destruct Pa2 as (W & H & Q). split; [exact W|]. split; [exact H|]. intros x y X Y. destruct (Q x y X Y) as (A1 & A2). unfold edgeWithEnds. split.
    + intros [G|(T & G)]; [apply A1; auto|]. apply A1. right. split; [exact T|]. destruct G as ((z & Dz & Nz) & G). assert (Nl : plabel (ipix (cim m) x y) = n1) by (rewrite <- Nz; destruct (Two z Dz (G z (conj Dz Nz))); congruence). split; [exact Nl|]. rewrite <- Nl. split; [exists z; split; assumption|exact G].
    + intros G. apply A2. intros [B|(T & B1 & B2)]; apply G; [auto|right]. split; [exact T|]. rewrite B1. exact B2.
  - destruct (Sec Df) as (I2' & Nl & F2'). destruct I2' as (N2' & J2'). assert (W2 : at_ (cnodes m2) n2 = Ok y2) by (apply at_Ok; auto). rewrite W2 in Pex. cbn [bind] in Pex. rewrite (proj2 (Z.eqb_neq _ _) (Nl w1 W1)) in Pex. unfold removeAlone in Pex. rewrite W2 in Pex. cbn [bind] in Pex.
    assert (Ends : forall t l, edgeWithEnds (cim m) d t l <-> edgeAndFaces (cim m) d t l \/ (t = Vertex /\ l = n1 /\ endOnly (cim m) (edgeOf (cim m) d) n1) \/ (t = Vertex /\ l = n2 /\ endOnly (cim m) (edgeOf (cim m) d) n2)).
    { intros t l. unfold edgeWithEnds. split; [intros [G|(T & G)]; [auto|]|intros [G|[(T & -> & G)|(T & -> & G)]]; auto]. right. pose proof G as ((z & Dz & Nz) & G'). destruct (Two z Dz (G' z (conj Dz Nz))) as [B|B]; [left|right]; (split; [exact T|]); (assert (l = n1 \/ l = n2) as [->| ->] by (rewrite <- Nz; auto)); try congruence; auto; exfalso; congruence. }
    destruct (Z.eqb_spec (ndegree y2) 0) as [Z2|Z2].
    + destruct (F2' Z2) as (Al & Na & Sa). destruct (alone_goes m0 since lost2 m2 s2 (nanchor y2) n2 P2 H2 Al Na) as (m3 & s3 & lost3 & E3 & H3 & P3 & Ta & _). rewrite Sa in Ta. exists m3, s3, k, lost3. split; [rewrite Pex; exact E3|]. split; [|split; [exact Kf|]; split; [auto|]; apply Ran; [contradiction|intros _; unfold removeAlone; rewrite W2; cbn [bind]; rewrite (proj2 (Z.eqb_eq _ _) Z2); exact E3]].
      assert (Pa3 : painted (cim m2) (cim m3) k (fun t l => (t = Vertex /\ l = n2) \/ (t = Region /\ l = k))) by (apply (painted_taken m2 m3 k [(Vertex, n2)] _ Ta); intros t l; cbn [In]; split; [intros [(-> & ->)|Q]; auto|intros [[Q|[]]|Q]; [injection Q as <- <-|]; auto]).
      refine (painted_more (cim m) (cim m2) (cim m3) k _ _ _ Pa2 Pa3 (or_introl Kf) _ _ _ _); [right; auto| | |].
      * intros t l. destruct (edge_faces_dec (cim m) d t l) as [G|G]; [auto|]. destruct (Z.eq_dec (ndegree y1) 0) as [B|B]; [apply O1 in B|rewrite O1 in B]; destruct t; try (right; intros [F|(F & _)]; [contradiction|discriminate F]); destruct (Z.eq_dec l n1) as [->|L]; try (left; right; auto; fail); right; intros [F|(_ & F1' & F2'')]; contradiction.
      * intros t l N. rewrite Ends. split; [intros [G|[G|(T & G & _)]]; [exfalso; apply N; auto|exfalso; apply N; auto|auto]|]. intros [(T & G)|(T & G)]; [right; right; split; [exact T|]; split; [exact G|apply O2, Z2]|exfalso; apply N; left; subst; exact Kf].
      * intros t l G. apply Ends. tauto.
    + exists m2, s2, k, lost2. split; [exact Pex|]. split; [|split; [exact Kf|]; split; [auto|]; apply Ran; [contradiction|intros _; unfold removeAlone; rewrite W2; cbn [bind]; rewrite (proj2 (Z.eqb_neq _ _) Z2); reflexivity]]. destruct Pa2 as (W & H & Q). split; [exact W|]. split; [exact H|]. intros x y X Y. destruct (Q x y X Y) as (A1 & A2). rewrite Ends. rewrite O2 in Z2. split; [intros [G|[G|(_ & _ & G)]]; [apply A1; auto|apply A1; auto|contradiction]|intros G; apply A2; tauto].
Qed.
End Data.
