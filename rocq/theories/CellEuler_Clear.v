(** C79: the calls can remove all edges and nodes of a map. *)
From Coq Require Import Lia.
From Verif Require Import Base CellMap_Model CellMap_Spec CellMap_Proofs CellMap_Main CellSigma_Spec CellSigma_Proofs CellSigma_Results CellLink_Spec CellLink_Proofs CellLink_Main CellLink_Results CellLink_Check
  CellFace_Spec CellFace_Walk CellFace_Main CellFace_Step CellContour_Orbit CellContour_Spec CellContour_Phi CellContour_Find CellContour_View CellContour_Step CellContour_Leave CellCall_Results CellThresh_Spec CellTotal_Spec CellJordan_Spec CellPlane_Spec CellPlane_Cut CellPlane_Results CellEuler_Spec CellEuler_Step.
Local Open Scope Z_scope.

Lemma some_live m t : recount m -> t <> ErrorType -> countOf m t <> 0 -> exists l c, nth_error (cellsOf m t) l = Some c /\ initialized c = true.
Proof.
  intros (_ & _ & C) T N. rewrite C in N by exact T. destruct (filter initialized (cellsOf m t)) as [|c v] eqn:E; [exfalso; apply N; reflexivity|].
  assert (I : In c (filter initialized (cellsOf m t))) by (rewrite E; left; reflexivity). apply filter_In in I. destruct I as (I & L). apply In_nth_error in I. destruct I as (l & I). eauto.
Qed.
Lemma none_live m t : recount m -> t <> ErrorType -> (forall l c, nth_error (cellsOf m t) l = Some c -> initialized c = false) -> countOf m t = 0.
Proof.
  intros R T N. destruct (Z.eq_dec (countOf m t) 0) as [|X]; auto. destruct (some_live m t R T X) as (l & c & I & L). rewrite (N l c I) in L. discriminate L.
Qed.
Lemma count_pos m t : recount m -> t <> ErrorType -> 0 <= countOf m t.
Proof. intros (_ & _ & C) T. rewrite C by exact T. lia. Qed.
Lemma live_pixel m t l c : recount m -> nth_error (cellsOf m t) l = Some c -> initialized c = true -> exists x y, owns (cim m) t (Z.of_nat l) x y.
Proof. intros (R & _) H L. destruct (R t l c H L) as (_ & (_ & (y & Y) & _) & _). eauto. Qed.

(** ** The next call *)
Section Next.
Variable m : cmap.
Hypothesis Hm : phistory m.
Let Kh : khistory m := phistory_khistory m Hm.
Let Co : contoured m := khistory_contoured m Kh.
Let Fa : faced m. Proof. apply Co. Qed.
Let Wi : wired m. Proof. apply Fa. Qed.
Let So : sound m. Proof. apply Wi. Qed.
Let Fr : framed (cim m). Proof. apply So. Qed.
Let Re : recount m. Proof. apply So. Qed.
Lemma next_edge : edgeCount m <> 0 -> exists d c m' s, isDart (cim m) d /\ (c = CMergeFaces d \/ c = CRemoveBridge d) /\ cexec m c = Ok (m', s).
Proof.
  intros N. destruct (some_live m Line Re ltac:(discriminate) N) as (l & c & I & L). cbn [cellsOf] in I. rewrite nth_error_map in I. destruct (nth_error (cedges m) l) as [e|] eqn:E; [|discriminate I]. injection I as <-.
  destruct Wi as (_ & _ & _ & _ & Te & _). destruct (Te l e E L) as (_ & T). assert (D : isDart (cim m) (estart e)) by (apply (T (estart e)); left; reflexivity). exists (estart e).
  destruct (faces_return m Kh _ D) as (A & _). destruct (bridge_returns m Kh _ D) as (B & _). rewrite (leftFace_is (cim m) Fr _ (proj1 D)), (rightFace_is (cim m) Fr _ (proj1 D)) in A, B.
  destruct (Z.eq_dec (sideOf (cim m) 1 (estart e)) (sideOf (cim m) (-1) (estart e))) as [X|X].
  - destruct B as (m' & s & B); [congruence|]. exists (CRemoveBridge (estart e)), m', s. auto.
  - destruct A as (m' & s & A); [congruence|]. exists (CMergeFaces (estart e)), m', s. auto.
Qed.
Lemma no_darts d : edgeCount m = 0 -> ~ isDart (cim m) d.
Proof.
  intros Z0 D. destruct (alpha_ends m d Wi D) as (e & _ & _ & _ & _ & N & I & _).
  destruct Re as (_ & _ & C). specialize (C Line ltac:(discriminate)). cbn [countOf] in C. rewrite Z0 in C. cbn [cellsOf] in C.
  assert (Q : In (einf e) (filter initialized (map einf (cedges m)))) by (apply filter_In; split; [apply in_map; eapply nth_error_In, N|exact I]).
  destruct (filter initialized (map einf (cedges m))); [destruct Q|discriminate C].
Qed.
Lemma next_alone : edgeCount m = 0 -> nodeCount m <> 0 -> exists d m' s, faceAllowed (cim m) (CRemoveIsolatedNode d) /\ cexec m (CRemoveIsolatedNode d) = Ok (m', s).
Proof.
  intros Z0 N. destruct (some_live m Vertex Re ltac:(discriminate) N) as (l & c & I & L). cbn [cellsOf] in I. rewrite nth_error_map in I. destruct (nth_error (cnodes m) l) as [n|] eqn:E; [|discriminate I]. injection I as <-.
  destruct Wi as (_ & _ & _ & _ & _ & Hu). destruct (Hu l n E L) as (_ & _ & Pa & _). set (a := nanchor n) in *.
  assert (La : lonely (cim m) a) by (split; [exact Pa|]; intros e De; exfalso; exact (no_darts e Z0 De)).
  assert (Bo : onBorder (cim m) (labelAt (cim m) a 0) a) by (right; auto).
  destruct (neighbor_in (cim m) Fr _ _ ((ddir a + 0) mod 8) (proj1 Pa)) as (X & Y). pose proof (lonely_region m Fa a La) as T.
  destruct (pixel_live m _ _ Region (labelAt (cim m) a 0) So (conj X (conj Y (pix_eta _ Region (labelAt (cim m) a 0) (eq_sym T) eq_refl)))) as (B & q & Q & Li); [discriminate|].
  cbn [cellsOf] in Q. rewrite nth_error_map in Q. destruct (nth_error (cfaces m) (Z.to_nat (labelAt (cim m) a 0))) as [f|] eqn:Ef; [|discriminate Q]. injection Q as <-.
  destruct Co as (_ & Cv). destruct (Cv _ f (conj Ef Li)) as (C1 & C2). rewrite Z2Nat.id in C1, C2 by apply B. destruct (C2 a Bo) as (i & b & Ib & Cb & _). apply nth_error_In in Ib. destruct (C1 b Ib) as (_ & [D|Be]); [exfalso; exact (no_darts b Z0 D)|].
  destruct Cb as [(D & _)|(Lb & _ & _)]; [exfalso; exact (no_darts b Z0 D)|].
  destruct Lb as (Pb & Nb). destruct (isolated_returns m Kh b Pb Be Nb) as (m' & s & R). exists b, m', s. split; [|exact R]. split; [exact Pb|]. split; [exact Be|exact Nb].
Qed.
(** ** Nothing is left *)
Lemma bare_pixels : edgeCount m = 0 -> nodeCount m = 0 -> forall x y, 0 <= x < iw (cim m) -> 0 <= y < ih (cim m) -> ipix (cim m) x y = Pix Region 0.
Proof.
  intros Z1 Z2. pose proof Fa as (_ & Pl & _ & Fi & _).
  assert (T : forall x y, 0 <= x < iw (cim m) -> 0 <= y < ih (cim m) -> ptype (ipix (cim m) x y) = Region).
  { intros x y X Y. destruct (ptype (ipix (cim m) x y)) eqn:P; auto; [| |exfalso; exact (Pl x y X Y P)]; exfalso.
    all: assert (O : owns (cim m) (ptype (ipix (cim m) x y)) (plabel (ipix (cim m) x y)) x y) by (split; [exact X|split; [exact Y|destruct (ipix (cim m) x y); reflexivity]]); rewrite P in O.
    all: destruct (proj1 (proj2 Re) _ _ _ _ O ltac:(discriminate)) as (c & I & L); apply nth_error_In in I.
    - pose proof (proj2 (proj2 Re) Line ltac:(discriminate)) as C. cbn [countOf] in C. rewrite Z1 in C. assert (Q : In c (filter initialized (cellsOf m Line))) by (apply filter_In; auto). destruct (filter initialized (cellsOf m Line)); [destruct Q|discriminate C].
    - pose proof (proj2 (proj2 Re) Vertex ltac:(discriminate)) as C. cbn [countOf] in C. rewrite Z2 in C. assert (Q : In c (filter initialized (cellsOf m Vertex))) by (apply filter_In; auto). destruct (filter initialized (cellsOf m Vertex)); [destruct Q|discriminate C]. }
  assert (G : forall k x y, x = Z.of_nat k -> 0 <= x < iw (cim m) -> 0 <= y < ih (cim m) -> ipix (cim m) x y = Pix Region 0).
  { induction k as [|k IH]; intros x y E X Y; [apply Fr; [exact X|exact Y|left; lia]|].
    assert (O : owns (cim m) Region 0 (x - 1) y) by (split; [lia|split; [exact Y|apply IH; lia]]).
    pose proof (Fi (x - 1) y 0 0 (or_introl eq_refl) O) as Q. change (dirX 0) with 1 in Q. change (dirY 0) with 0 in Q. replace (x - 1 + 1) with x in Q by lia. replace (y + 0) with y in Q by lia. specialize (Q X Y (T x y X Y)).
    specialize (T x y X Y). destruct (ipix (cim m) x y); cbn in *; congruence. }
  intros x y X Y. apply (G (Z.to_nat x)); lia.
Qed.
Lemma bare_cleared : edgeCount m = 0 -> nodeCount m = 0 -> cleared m.
Proof.
  intros Z1 Z2. pose proof (bare_pixels Z1 Z2) as Px. assert (Wf : wfImg (cim m)) by apply So. destruct Wf as (W & H & _).
  assert (O0 : owns (cim m) Region 0 0 0) by (split; [lia|split; [lia|apply Px; lia]]).
  destruct (proj1 (proj2 Re) _ _ _ _ O0 ltac:(discriminate)) as (c & I & L). cbn [Z.to_nat] in I.
  assert (Al : forall k, alive m Region k <-> k = 0%nat).
  { intros k. split; [|intros ->; exists c; auto]. intros (q & Q & Lq). destruct (live_pixel m Region k q Re Q Lq) as (x & y & (X & Y & P)). rewrite Px in P by assumption. injection P as P. lia. }
  assert (F1 : faceCount m = 1).
  { change (countOf m Region = 1). rewrite (proj2 (proj2 Re) Region ltac:(discriminate)), count_sum. pose proof (sum_one (map oneIf (cellsOf m Region)) [] 0) as Q. rewrite (proj1 (one_alive m Region 0)) in Q by (apply Al; reflexivity). cbn [nth sumZ] in Q.
    rewrite Z.add_0_r in Q. apply Q. intros k K. rewrite (proj2 (one_alive m Region k)) by (rewrite Al; exact K). destruct k; reflexivity. }
  split; [exact Z2|]. split; [exact Z1|]. split; [exact F1|]. split; [|exact Px].
  rewrite contour_sum. apply (sum_same _ []). intros k. rewrite weight_nth. replace (nth k [] 0) with 0 by (destruct k; reflexivity). destruct (nth_error (anchors m) k) as [cs|] eqn:E; [|reflexivity].
  destruct (Nat.eq_dec k 0) as [->|K]; [|rewrite (proj2 (one_alive m Region k)) by (rewrite Al; exact K); reflexivity].
  destruct cs as [|a cs]; [cbn; lia|]. exfalso. unfold anchors in E. rewrite nth_error_map in E. destruct (nth_error (cfaces m) 0) as [f|] eqn:Ef; [|discriminate E]. injection E as E.
  cbn [cellsOf] in I. rewrite nth_error_map, Ef in I. injection I as <-. destruct Co as (_ & Cv). destruct (Cv 0%nat f (conj Ef L)) as (C1 & _). rewrite E in C1. destruct (C1 a (or_introl eq_refl)) as (B & _).
  assert (V : vertexAt (cim m) (dcx a) (dcy a)) by (destruct B as [((V & _) & _)|(((V & _) & _) & _)]; exact V). destruct V as (X & Y & P). rewrite Px in P by assumption. discriminate P.
Qed.
End Next.

(** ** All calls *)
Definition removal (c : ccall) : Prop := match c with CMergeEdges _ => False | _ => True end.
Lemma counts_nonneg m : phistory m -> 0 <= nodeCount m /\ 0 <= edgeCount m.
Proof. intros H. assert (R : recount m) by apply (phistory_planar m H). split; [apply (count_pos m Vertex R)|apply (count_pos m Line R)]; discriminate. Qed.
Theorem clear_ind (P : cmap -> Prop) : (forall m, phistory m -> cleared m -> P m) ->
  (forall m c m' s, phistory m -> phistory m' -> faceAllowed (cim m) c -> removal c -> cexec m c = Ok (m', s) -> P m' -> P m) -> forall m, phistory m -> P m.
Proof.
  intros Base Step m Hm. remember (Z.to_nat (edgeCount m + nodeCount m)) as k eqn:K. revert m Hm K. induction k as [k IH] using lt_wf_ind. intros m Hm K. pose proof (counts_nonneg m Hm) as (Nn & Ne).
  assert (Fa : faced m) by apply (phistory_planar m Hm).
  assert (Go : forall c m' s, faceAllowed (cim m) c -> removal c -> cexec m c = Ok (m', s) -> P m).
  { intros c m' s A R E. pose proof (ph_call m c m' s Hm A E) as Hm'. pose proof (call_numbers m c m' s Fa A E) as Nu. pose proof (counts_nonneg m' Hm') as (Nn' & Ne').
    apply (Step m c m' s Hm Hm' A R E). apply (IH (Z.to_nat (edgeCount m' + nodeCount m'))); auto. destruct c; cbn in R; try contradiction; lia. }
  destruct (Z.eq_dec (edgeCount m) 0) as [Z1|N1].
  - destruct (Z.eq_dec (nodeCount m) 0) as [Z2|N2]; [apply Base; auto; apply bare_cleared; auto|].
    destruct (next_alone m Hm Z1 N2) as (d & m' & s & A & E). exact (Go _ m' s A I E).
  - destruct (next_edge m Hm N1) as (d & c & m' & s & D & C & E). apply (Go c m' s); [destruct C as [-> | ->]; exact D|destruct C as [-> | ->]; exact I|exact E].
Qed.
Theorem clears m : phistory m -> exists cs m', dartCalls m cs /\ runCalls m cs = Ok m' /\ phistory m' /\ cleared m'.
Proof.
  revert m. apply clear_ind.
  - intros m H C. exists [], m. cbn. auto.
  - intros m c m' s _ _ A _ E (cs & m2 & D & R & H & C). exists (c :: cs), m2. cbn [dartCalls runCalls]. rewrite E. cbn [fst]. auto.
Qed.
Theorem euler_two m : phistory m -> euler m = 2.
Proof.
  revert m. apply clear_ind.
  - intros m H (A & B & C & D & _). unfold euler. lia.
  - intros m c m' s H _ A _ E I. rewrite <- (euler_step m c m' s); auto. apply (phistory_planar m H).
Qed.
