(** C84: an edge is removed with its ends. *)
From Coq Require Import Lia.
From Verif Require Import Base CellMap_Model CellMap_Spec CellMap_Proofs CellMap_Main CellSigma_Spec CellSigma_Proofs CellSigma_Results CellLink_Spec CellLink_Proofs CellLink_Main CellLink_Results CellLink_Check
  CellFace_Spec CellFace_Walk CellFace_Main CellFace_Step CellContour_Spec CellStats_Step.
Local Open Scope Z_scope.

(** ** The edge goes *)
Lemma cut_call m d c m' k : faced m -> isDart (cim m) d -> c = CMergeFaces d \/ c = CRemoveBridge d -> cexec m c = Ok (m', k) ->
  exists gone, takenOver m m' Region k gone /\ In (Line, edgeOf (cim m) d) gone /\ (forall u j, In (u, j) gone <-> (u = Line /\ j = edgeOf (cim m) d) \/ (u = Region /\ j <> k /\ (j = sideOf (cim m) 1 d \/ j = sideOf (cim m) (-1) d))) /\
    (k = sideOf (cim m) 1 d \/ k = sideOf (cim m) (-1) d) /\ cutOff m m' (edgeOf (cim m) d).
Proof.
  intros Fa D C E. assert (Wi : wired m) by apply Fa. assert (Fr : framed (cim m)) by apply Wi. assert (A : faceAllowed (cim m) c) by (destruct C as [-> | ->]; exact D). destruct (call_facts m c m' k Fa A E) as (_ & Eff).
  destruct C as [-> | ->]; cbn [callEffect cexec] in *.
  - destruct Eff as (e & f & l & r & Ee & El & Er & W & Ta). rewrite edgeLabel_dart in Ee by (auto; apply D). injection Ee as Ee. rewrite leftFace_is in El by (auto; apply D). rewrite rightFace_is in Er by (auto; apply D). injection El as El. injection Er as Er.
    assert (Ne : f <> k).
    { intros X. assert (So' : sound m') by (apply (faced_step m (CMergeFaces d) m' k Fa D E)). destruct (dart_owns (cim m) Fr d D) as (X0 & Y0 & P0).
      assert (O : owns (cim m') Region k (dcx d + dirX (ddir d)) (dcy d + dirY (ddir d))) by (apply (taken_pixel m m' _ _ _ _ _ Ta X0 Y0); left; rewrite P0; cbn; f_equal; exact (eq_sym Ee)).
      apply (taken_gone m m' Region k _ Region f Ta So' (or_intror (or_introl eq_refl)) ltac:(discriminate) (dcx d + dirX (ddir d)) (dcy d + dirY (ddir d))). rewrite X. exact O. }
    exists [(Line, e); (Region, f)]. subst e l r. split; [exact Ta|]. split; [left; reflexivity|]. split.
    + intros u j. cbn [In]. split.
      * intros [X|[X|[]]]; injection X as <- <-; [left; auto|right]. split; [reflexivity|]. split; [exact Ne|]. destruct W as [(_ & ->)|(_ & ->)]; auto.
      * intros [(-> & ->)|(-> & N & Q)]; [left; reflexivity|right; left]. f_equal. destruct W as [(W1 & W2)|(W1 & W2)], Q; congruence.
    + split; [destruct W as [(-> & _)|(-> & _)]; auto|]. destruct (mergeFaces_view _ _ _ _ E) as (rd & el & R & Erl & Cu). assert (edgeOf (cim m) d = el); [|congruence].
      destruct R as [-> |R]; [rewrite edgeLabel_dart in Erl by (auto; apply D); congruence|]. destruct (alpha_ends m d Wi D) as (_ & a & b & _ & _ & _ & _ & (_ & Tw) & <- & Ab & _). assert (b = rd) by congruence. subst b.
      assert (Q : dartOfEdge (cim m) (edgeOf (cim m) d) rd) by (apply Tw; auto). destruct Q as (Q1 & Q2). rewrite edgeLabel_dart in Erl by (auto; apply Q1). congruence.
  - destruct Eff as (e & Ee & El & Er & Ta). rewrite edgeLabel_dart in Ee by (auto; apply D). injection Ee as Ee. rewrite leftFace_is in El by (auto; apply D). rewrite rightFace_is in Er by (auto; apply D). injection El as El. injection Er as Er.
    exists [(Line, e)]. subst e. split; [exact Ta|]. split; [left; reflexivity|]. split.
    + intros u j. cbn [In]. split; [intros [X|[]]; injection X as <- <-; auto|]. intros [(-> & ->)|(-> & N & Q)]; [auto|]. exfalso. destruct Q; congruence.
    + split; [auto|]. destruct (removeBridge_view _ _ _ _ E) as (el & Erl & Cu). rewrite edgeLabel_dart in Erl by (auto; apply D). injection Erl as <-. exact Cu.
Qed.
(** the faces beside two darts of an edge are the same *)
Lemma edge_sides m d a : faced m -> isDart (cim m) d -> isDart (cim m) a -> edgeOf (cim m) a = edgeOf (cim m) d -> sideOf (cim m) 1 a = sideOf (cim m) 1 d \/ sideOf (cim m) 1 a = sideOf (cim m) (-1) d.
Proof.
  intros Fa D A E. assert (Wi : wired m) by apply Fa. destruct (alpha_ends m d Wi D) as (_ & d' & b & _ & _ & _ & _ & (_ & Tw) & <- & Ab & _). assert (Q : a = d \/ a = b) by (apply Tw; split; assumption).
  destruct Q as [-> | ->]; [auto|]. destruct (faced_edge m d b Fa D Ab) as ((F1 & F2) & _). right. congruence.
Qed.

(** ** The anchor stays *)
Lemma drop_anchor m l n m' : framed (cim m) -> at_ (cnodes m) l = Ok n -> stateOK (cim m) (nanchor n) -> dropDegree m l = Ok m' ->
  cim m' = cim m /\ (forall k, k <> Z.to_nat l -> nth_error (cnodes m') k = nth_error (cnodes m) k) /\
  exists n', nth_error (cnodes m') (Z.to_nat l) = Some n' /\ stateOK (cim m) (nanchor n') /\ (nanchor n' = nanchor n \/ typeAt (cim m) (nanchor n') 0 = Line).
Proof.
  intros Fr En S H. unfold dropDegree in H. rewrite En in H. cbn [bind] in H. bnd H a Ea. unfold updNode in H. rewrite En in H. cbn [bind] in H. bnd H v Ev. injection H as <-. apply put_Ok in Ev. subst v. apply at_Ok in En. destruct En as (P & En).
  split; [reflexivity|]. cbn [setNodes cnodes]. split; [intros k K; apply nth_error_upd_neq; auto|]. eexists. split; [apply nth_error_upd_eq; apply nth_error_Some; congruence|]. cbn [nanchor].
  destruct (_ =? 0); [injection Ea as <-; auto|]. assert (Q : isSingular (cim m) (nanchor n) = Ok (negb (ctypeEqb (typeAt (cim m) (nanchor n) 0) Line))) by (unfold isSingular; rewrite neighbor_read by (auto; apply S); reflexivity).
  rewrite Q in Ea. cbn [bind] in Ea. destruct (negb _); [|injection Ea as <-; auto]. unfold carefulNextSigma in Ea. destruct (careful_rounds (cim m) Fr _ _ _ _ S S Ea) as (k & <- & _ & R). split; [apply rounds_ok; auto|]. destruct R as [R|(R & _)]; auto.
Qed.
Lemma keeps_nth m m' k n' : keeps m m' -> nth_error (cnodes m') k = Some n' -> exists n, nth_error (cnodes m) k = Some n /\ nanchor n = nanchor n' /\ ndegree n = ndegree n'.
Proof.
  intros (_ & _ & E) H. assert (Q : nth_error (map hubI (cnodes m)) k = Some (hubI n')) by (rewrite <- E; apply map_nth_error, H). apply hub_nth in Q. destruct Q as (x & X & Q). injection Q as -> ->. eauto.
Qed.
Lemma keeps_rev m m' k n : keeps m m' -> nth_error (cnodes m) k = Some n -> exists n', nth_error (cnodes m') k = Some n' /\ nanchor n' = nanchor n /\ ndegree n' = ndegree n.
Proof.
  intros (_ & _ & E) H. assert (Q : nth_error (map hubI (cnodes m')) k = Some (hubI n)) by (rewrite E; apply map_nth_error, H). apply hub_nth in Q. destruct Q as (x & X & Q). injection Q as -> ->. eauto.
Qed.

Section Cut.
Variables (m m' : cmap) (k : Z) (d : dart) (c : ccall).
Hypothesis Fa : faced m.
Hypothesis D : isDart (cim m) d.
Hypothesis C : c = CMergeFaces d \/ c = CRemoveBridge d.
Hypothesis E : cexec m c = Ok (m', k).
Let Al : faceAllowed (cim m) c. Proof. destruct C as [-> | ->]; exact D. Qed.
Let Fa' : faced m' := faced_step m c m' k Fa Al E.
Let Wi : wired m. Proof. apply Fa. Qed.
Let Wi' : wired m'. Proof. apply Fa'. Qed.
Let Fr : framed (cim m). Proof. apply Wi. Qed.
Let So : sound m. Proof. apply Wi. Qed.

Lemma cut_vertices x y : vertexAt (cim m') x y <-> vertexAt (cim m) x y.
Proof.
  destruct (cut_call m d c m' k Fa D C E) as (gone & Ta & _ & G & _). rewrite (vertex_after _ _ Region k gone (taken_repaint _ _ _ _ _ Ta)) by discriminate. split; [tauto|]. intros V. split; [exact V|]. rewrite G. intros [(X & _)|(X & _)]; discriminate X.
Qed.
Lemma cut_isDart x : isDart (cim m') x <-> isDart (cim m) x /\ edgeOf (cim m) x <> edgeOf (cim m) d.
Proof.
  destruct (cut_call m d c m' k Fa D C E) as (gone & Ta & Ie & G & _). assert (Jn : joined (cim m)) by apply Wi. pose proof (taken_repaint _ _ _ _ _ Ta) as Re.
  refine (darts_erased (cim m) (cim m') Region k gone Fr _ _ _ _ _ Ie x); auto; try apply Wi. intros u j I. apply G in I. tauto.
Qed.
Lemma cut_nodeOf x : vertexAt (cim m) (dcx x) (dcy x) -> nodeOf (cim m') x = nodeOf (cim m) x.
Proof. intros V. destruct (cut_call m d c m' k Fa D C E) as (gone & Ta & _). apply (node_after (cim m) (cim m') Region k gone (taken_repaint _ _ _ _ _ Ta)); [discriminate|]. apply cut_vertices, V. Qed.
Lemma node_live l n' : isNode m' l n' -> exists n, isNode m l n.
Proof. intros (N & I). destruct (cut_call m d c m' k Fa D C E) as (gone & Ta & _). destruct (live_node m m' Region k gone l n' Ta N I) as ((n & Q) & _). exists n. exact Q. Qed.
(** the anchor of a node that has lost its last dart is what it was *)
Lemma anchor_kept l n' : isNode m' l n' -> ndegree n' = 0 -> exists n, isNode m l n /\ nanchor n' = nanchor n.
Proof.
  intros N' Z0. destruct (node_live l n' N') as (n & N). exists n. split; [exact N|]. destruct N' as (N' & I'). destruct N as (N & I).
  destruct (cut_call m d c m' k Fa D C E) as (gone & Ta & _ & G & _ & (e & n1 & n2 & ma & mb & mc & Ee & E1 & E2 & Ka & Ia & Db & Dc & Kc)).
  destruct Wi' as (_ & _ & _ & _ & _ & Hub'). destruct (Hub' l n' N' I') as (_ & _ & _ & _ & _ & NL). specialize (NL Z0).
  assert (Fra : framed (cim ma)) by (rewrite Ia; apply Wi').
  destruct (alpha_ends m d Wi D) as (e0 & a & b & Ae & _ & Ne & Ie & (_ & Tw) & _ & _ & Wh). assert (e0 = e) by congruence. subst e0.
  assert (De : isDart (cim m) (estart e) /\ isDart (cim m) (eend e)) by (assert (dartOfEdge (cim m) (edgeOf (cim m) d) a /\ dartOfEdge (cim m) (edgeOf (cim m) d) b) as (Q1 & Q2) by (split; apply Tw; auto); destruct Wh as [(-> & ->)|(-> & ->)]; split; (apply Q1 || apply Q2)).
  destruct De as (D1 & D2). rewrite nodeLabel_dart in E1 by apply D1. rewrite nodeLabel_dart in E2 by apply D2. injection E1 as E1. injection E2 as E2.
  destruct (node_nth m n1 So _ _ (proj1 D1) E1) as (x1 & X1 & J1 & P1). destruct (node_nth m n2 So _ _ (proj1 D2) E2) as (x2 & X2 & J2 & P2).
  assert (St : forall j x, nth_error (cnodes m) j = Some x -> initialized (ninf x) = true -> stateOK (cim ma) (nanchor x)).
  { intros j x Hx Jx. destruct Wi as (_ & _ & _ & _ & _ & Hub). destruct (Hub j x Hx Jx) as (_ & _ & P & _). rewrite Ia. split; [apply cut_vertices, P|apply P]. }
  destruct (keeps_rev m ma _ _ Ka X1) as (y1 & Y1 & A1 & _). assert (Y1' : at_ (cnodes ma) n1 = Ok y1) by (apply at_Ok; auto).
  destruct (drop_anchor ma n1 y1 mb Fra Y1' ltac:(rewrite A1; exact (St _ _ X1 J1)) Db) as (Ib & Ob & z1 & Z1 & S1 & Q1). rewrite A1 in Q1.
  assert (Y2 : exists y2, nth_error (cnodes mb) (Z.to_nat n2) = Some y2 /\ stateOK (cim mb) (nanchor y2) /\ (nanchor y2 = nanchor x2 \/ typeAt (cim m') (nanchor y2) 0 = Line)).
  { destruct (Z.eq_dec n1 n2) as [X|X].
    - rewrite <- X in *. exists z1. split; [exact Z1|]. split; [rewrite Ib; exact S1|]. assert (x2 = x1) by congruence. subst x2. rewrite <- Ia. exact Q1.
    - destruct (keeps_rev m ma _ _ Ka X2) as (y2 & Y2 & A2 & _). exists y2. rewrite Ob by lia. split; [exact Y2|]. split; [rewrite Ib, A2; exact (St _ _ X2 J2)|auto]. }
  destruct Y2 as (y2 & Y2 & S2 & Q2). assert (Y2' : at_ (cnodes mb) n2 = Ok y2) by (apply at_Ok; auto).
  destruct (drop_anchor mb n2 y2 mc ltac:(rewrite Ib; exact Fra) Y2' S2 Dc) as (Ic & Oc & z2 & Z2 & S3 & Q3).
  destruct (keeps_nth mc m' l n' Kc N') as (w & W & Aw & _). rewrite <- Aw in *.
  destruct (Nat.eq_dec l (Z.to_nat n2)) as [->|L2].
  - assert (w = z2) by congruence. subst w. assert (n = x2) by congruence. subst n. destruct Q3 as [Q3|Q3]; [|rewrite Ib, Ia in Q3; contradiction]. rewrite Q3 in *. destruct Q2 as [Q2|Q2]; [exact Q2|contradiction].
  - rewrite Oc in W by exact L2. destruct (Nat.eq_dec l (Z.to_nat n1)) as [->|L1].
    + assert (w = z1) by congruence. subst w. assert (n = x1) by congruence. subst n. destruct Q1 as [Q1|Q1]; [exact Q1|rewrite Ia in Q1; contradiction].
    + rewrite Ob in W by exact L1. destruct (keeps_nth m ma l w Ka W) as (n0 & N0 & A0 & _). congruence.
Qed.
(** and what was left of it is left of it *)
Lemma side_taken im im' gone a : framed im -> vertexAt im (dcx a) (dcy a) -> repaint im im' Region k gone -> beside im a -> sideOf im 1 a = k \/ In (Region, sideOf im 1 a) gone -> beside im' a /\ sideOf im' 1 a = k.
Proof.
  intros Fi V Re B Q. destruct (neighbor_in im Fi _ _ ((ddir a + 1) mod 8) V) as (X1 & Y1). destruct (neighbor_in im Fi _ _ ((ddir a + 2) mod 8) V) as (X2 & Y2).
  unfold sideOf, beside, typeAt, labelAt in *. change (2 * 1) with 2 in *.
  destruct (pixel_after im im' Region k gone Re _ _ X1 Y1) as [(_ & P1)|(N1 & P1)]; rewrite P1; [cbn; rewrite P1; auto|].
  destruct (ptype (ipix im (dcx a + dirX ((ddir a + 1) mod 8)) (dcy a + dirY ((ddir a + 1) mod 8)))) eqn:T1; cbn [ctypeEqb] in *.
  - split; [auto|]. rewrite P1. destruct Q as [Q|Q]; [exact Q|contradiction].
  - destruct B as [B|B]; [discriminate B|]. destruct (pixel_after im im' Region k gone Re _ _ X2 Y2) as [(_ & P2)|(N2 & P2)]; rewrite ?P2; [cbn; auto|]. split; [auto|]. destruct Q as [Q|Q]; [exact Q|]. rewrite B in N2. contradiction.
  - destruct B as [B|B]; [discriminate B|]. destruct (pixel_after im im' Region k gone Re _ _ X2 Y2) as [(_ & P2)|(N2 & P2)]; rewrite ?P2; [cbn; auto|]. split; [auto|]. destruct Q as [Q|Q]; [exact Q|]. rewrite B in N2. contradiction.
  - destruct B as [B|B]; [discriminate B|]. destruct (pixel_after im im' Region k gone Re _ _ X2 Y2) as [(_ & P2)|(N2 & P2)]; rewrite ?P2; [cbn; auto|]. split; [auto|]. destruct Q as [Q|Q]; [exact Q|]. rewrite B in N2. contradiction.
Qed.
(** a node that has had darts and has lost the last one can be removed with its anchor *)
Lemma anchor_fit l n' : isNode m' l n' -> ndegree n' = 0 -> (exists x, dartOfNode (cim m) (Z.of_nat l) x) -> faceAllowed (cim m') (CRemoveIsolatedNode (nanchor n')) /\ nodeOf (cim m') (nanchor n') = Z.of_nat l /\ sideOf (cim m') 1 (nanchor n') = k.
Proof.
  intros N' Z0 (x & Dx & Nx). destruct (anchor_kept l n' N' Z0) as (n & (N & I) & Ea). pose proof N' as (Nn' & I'). pose proof Wi' as (_ & _ & _ & _ & _ & Hub'). destruct (Hub' l n' Nn' I') as (_ & (ds & _ & Ids & Len) & P & No & _ & _).
  assert (None : forall y, ~ dartOfNode (cim m') (Z.of_nat l) y) by (intros y Q; apply Ids in Q; rewrite Z0 in Len; destruct ds; [destruct Q|discriminate Len]).
  pose proof Wi as (_ & _ & _ & _ & _ & Hub). destruct (Hub l n N I) as (_ & M & _ & Nl & Da & _). assert (Pos : 0 < ndegree n) by (apply (many_in _ _ x M); split; assumption). specialize (Da Pos). rewrite <- Ea in Da, Nl.
  assert (Ed : edgeOf (cim m) (nanchor n') = edgeOf (cim m) d) by (destruct (Z.eq_dec (edgeOf (cim m) (nanchor n')) (edgeOf (cim m) d)) as [X|X]; [exact X|]; exfalso; apply (None (nanchor n')); split; [apply cut_isDart; auto|exact No]).
  destruct (cut_call m d c m' k Fa D C E) as (gone & Ta & _ & G & Ks & _). pose proof (edge_sides m d (nanchor n') Fa D Da Ed) as Sd.
  assert (B : beside (cim m) (nanchor n')) by (apply (dart_beside (cim m) 1); [apply Fa|left; reflexivity|exact Da]).
  destruct (side_taken (cim m) (cim m') gone (nanchor n') Fr (proj1 Da) (taken_repaint _ _ _ _ _ Ta) B) as (B' & S').
  { destruct (Z.eq_dec (sideOf (cim m) 1 (nanchor n')) k) as [X|X]; [left; exact X|]. right. apply G. right. split; [reflexivity|]. split; [exact X|exact Sd]. }
  split; [|split; [exact No|exact S']]. split; [exact P|]. split; [exact B'|]. intros y Dy Q. apply (None y). split; [exact Dy|congruence].
Qed.
End Cut.
