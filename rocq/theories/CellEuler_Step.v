(** C79: what a call does to the numbers of the cells and of the contours. *)
From Coq Require Import Lia.
From Verif Require Import Base CellMap_Model CellMap_Spec CellMap_Proofs CellMap_Main CellSigma_Spec CellSigma_Proofs CellSigma_Results CellLink_Spec CellLink_Proofs CellLink_Main CellLink_Results CellLink_Check
  CellFace_Spec CellFace_Walk CellFace_Main CellFace_Step CellContour_Orbit CellContour_Spec CellContour_Phi CellContour_Find CellContour_View CellContour_Step CellContour_Leave CellEuler_Spec.
Local Open Scope Z_scope.

(** ** Sums over lists *)
Fixpoint sumZ (v : list Z) : Z := match v with [] => 0 | a :: t => a + sumZ t end.
Lemma sum_one u : forall v i, (forall k, k <> i -> nth k u 0 = nth k v 0) -> sumZ u + nth i v 0 = sumZ v + nth i u 0.
Proof.
  induction u as [|a u IH]; intros v i H.
  - assert (G : forall w j, (forall k, k <> j -> nth k w 0 = 0) -> sumZ w = nth j w 0).
    { clear. induction w as [|b w IH]; intros [|j] H; cbn; auto.
      - assert (sumZ w = 0); [|lia]. rewrite (IH (length w)); [apply nth_overflow; lia|]. intros k _. apply (H (S k)). lia.
      - rewrite (IH j); [|intros k K; apply (H (S k)); lia]. specialize (H 0%nat). cbn in H. rewrite H by lia. reflexivity. }
    rewrite (G v i); [destruct i; cbn; lia|]. intros k K. rewrite <- H by exact K. destruct k; reflexivity.
  - destruct v as [|b v].
    + destruct i as [|i].
      * cbn. assert (sumZ u = 0); [|lia]. specialize (IH [] (length u)). cbn [sumZ] in IH. rewrite (nth_overflow u) in IH by lia. assert (E : nth (length u) (@nil Z) 0 = 0) by (destruct (length u); reflexivity). rewrite E in IH.
        assert (sumZ u + 0 = 0 + 0); [|lia]. apply IH. intros k K. specialize (H (S k)). cbn in H. rewrite H by lia. destruct k; reflexivity.
      * specialize (IH [] i). cbn [sumZ] in *. assert (a = 0) by (apply (H 0%nat); lia). assert (E : nth i (@nil Z) 0 = 0) by (destruct i; reflexivity). rewrite E in IH. cbn [nth].
        assert (sumZ u + 0 = 0 + nth i u 0); [|lia]. apply IH. intros k K. specialize (H (S k)). cbn in H. rewrite H by lia. destruct k; reflexivity.
    + destruct i as [|i]; cbn [sumZ nth].
      * specialize (IH v (length u + length v)%nat). rewrite !nth_overflow in IH by lia. assert (sumZ u + 0 = sumZ v + 0); [|lia]. apply IH. intros k _. apply (H (S k)). lia.
      * specialize (IH v i). assert (a = b) by (apply (H 0%nat); lia). assert (sumZ u + nth i v 0 = sumZ v + nth i u 0); [|lia]. apply IH. intros k K. apply (H (S k)). lia.
Qed.
Lemma sum_same u v : (forall k, nth k u 0 = nth k v 0) -> sumZ u = sumZ v.
Proof. intros H. pose proof (sum_one u v 0 (fun k _ => H k)) as Q. rewrite H in Q. lia. Qed.
Lemma sum_two u v i j : i <> j -> (forall k, k <> i -> k <> j -> nth k u 0 = nth k v 0) -> sumZ u + nth i v 0 + nth j v 0 = sumZ v + nth i u 0 + nth j u 0.
Proof.
  intros N H. destruct (le_lt_dec (length u) j) as [L|L].
  - (* the entry of u is 0 *)
    destruct (le_lt_dec (length v) j) as [M|M].
    + rewrite !(nth_overflow _ _ M), !(nth_overflow _ _ L). assert (Q : sumZ u + nth i v 0 = sumZ v + nth i u 0); [|lia]. apply sum_one. intros k K. destruct (Nat.eq_dec k j) as [->|J]; [rewrite !nth_overflow by lia; reflexivity|auto].
    + assert (A : sumZ u + nth i (list_upd v j 0) 0 = sumZ (list_upd v j 0) + nth i u 0).
      { apply sum_one. intros k K. destruct (Nat.eq_dec k j) as [->|J].
        - rewrite (nth_overflow u) by lia. symmetry. apply nth_error_nth. apply nth_error_upd_eq, M.
        - rewrite H by auto. rewrite !nth_default_eq || idtac. apply eq_sym. rewrite <- !nth_default_eq. unfold nth_default. rewrite nth_error_upd_neq by auto. reflexivity. }
      assert (B : sumZ v + nth j (list_upd v j 0) 0 = sumZ (list_upd v j 0) + nth j v 0).
      { apply sum_one. intros k K. rewrite <- !nth_default_eq. unfold nth_default. rewrite nth_error_upd_neq by auto. reflexivity. }
      rewrite (nth_error_nth (list_upd v j 0) j 0 (x := 0)) in B by (apply nth_error_upd_eq, M).
      assert (C : nth i (list_upd v j 0) 0 = nth i v 0) by (rewrite <- !nth_default_eq; unfold nth_default; rewrite nth_error_upd_neq by auto; reflexivity).
      rewrite (nth_overflow u (n := j)) by lia. lia.
  - assert (A : sumZ (list_upd u j (nth j v 0)) + nth i v 0 = sumZ v + nth i (list_upd u j (nth j v 0)) 0).
    { apply sum_one. intros k K. destruct (Nat.eq_dec k j) as [->|J].
      - apply nth_error_nth. apply nth_error_upd_eq, L.
      - rewrite <- (H k) by auto. rewrite <- !nth_default_eq. unfold nth_default. rewrite nth_error_upd_neq by auto. reflexivity. }
    assert (B : sumZ u + nth j (list_upd u j (nth j v 0)) 0 = sumZ (list_upd u j (nth j v 0)) + nth j u 0).
    { apply sum_one. intros k K. rewrite <- !nth_default_eq. unfold nth_default. rewrite nth_error_upd_neq by auto. reflexivity. }
    rewrite (nth_error_nth (list_upd u j (nth j v 0)) j 0 (x := nth j v 0)) in B by (apply nth_error_upd_eq, L).
    assert (C : nth i (list_upd u j (nth j v 0)) 0 = nth i u 0) by (rewrite <- !nth_default_eq; unfold nth_default; rewrite nth_error_upd_neq by auto; reflexivity).
    lia.
Qed.

(** ** The numbers as sums *)
Definition oneIf (c : cinfo) : Z := if initialized c then 1 else 0.
Lemma count_sum v : Z.of_nat (length (filter initialized v)) = sumZ (map oneIf v).
Proof. induction v as [|a t IH]; cbn; [reflexivity|]. unfold oneIf at 1. destruct (initialized a); cbn [length]; lia. Qed.
Definition weight (f : finfo) : Z := if initialized (finf f) then Z.of_nat (length (fcontours f)) else 0.
Lemma contour_sum m : contourCount m = sumZ (map weight (cfaces m)).
Proof.
  unfold contourCount. induction (cfaces m) as [|a t IH]; cbn; [reflexivity|]. unfold weight at 1. destruct (initialized (finf a)); cbn [flat_map]; [rewrite app_length|]; lia.
Qed.
Definition alive (m : cmap) (t : ctype) (k : nat) : Prop := exists c, nth_error (cellsOf m t) k = Some c /\ initialized c = true.
Lemma one_alive m t k : (alive m t k -> nth k (map oneIf (cellsOf m t)) 0 = 1) /\ (~ alive m t k -> nth k (map oneIf (cellsOf m t)) 0 = 0).
Proof.
  rewrite <- nth_default_eq. unfold nth_default, alive. rewrite nth_error_map. destruct (nth_error (cellsOf m t) k) as [c|]; cbn [option_map].
  - unfold oneIf. destruct (initialized c) eqn:I; split; auto; [intros N; exfalso; apply N; eauto|intros (x & X & Y); congruence].
  - split; auto. intros (x & X & _). discriminate X.
Qed.
Lemma alive_dec m t k : alive m t k \/ ~ alive m t k.
Proof. unfold alive. destruct (nth_error (cellsOf m t) k) as [c|]; [|right; intros (x & X & _); discriminate X]. destruct (initialized c) eqn:I; [left; eauto|right; intros (x & X & Y); congruence]. Qed.
Section Taken.
Variables (m m' : cmap) (t : ctype) (s : Z) (gone : list (ctype * Z)).
Hypothesis (So : sound m) (So' : sound m') (Ta : takenOver m m' t s gone).
Lemma alive_after u k : alive m' u k <-> alive m u k /\ ~ In (u, Z.of_nat k) gone.
Proof. apply Ta. Qed.
Lemma ones_same u k : ~ In (u, Z.of_nat k) gone -> nth k (map oneIf (cellsOf m' u)) 0 = nth k (map oneIf (cellsOf m u)) 0.
Proof. intros N. destruct (alive_dec m u k) as [A|A]; [rewrite (proj1 (one_alive m u k) A); apply (proj1 (one_alive m' u k)), alive_after; auto|rewrite (proj2 (one_alive m u k) A); apply (proj2 (one_alive m' u k)); rewrite alive_after; tauto]. Qed.
Lemma count_kept u : u <> ErrorType -> (forall k, ~ In (u, k) gone) -> countOf m' u = countOf m u.
Proof.
  intros U N. destruct So as (_ & _ & (_ & _ & C)), So' as (_ & _ & (_ & _ & C')). rewrite C, C', !count_sum by exact U. apply sum_same. intros k. apply ones_same, N.
Qed.
Lemma count_less u r : u <> ErrorType -> alive m u r -> (forall k, In (u, k) gone <-> k = Z.of_nat r) -> countOf m' u = countOf m u - 1.
Proof.
  intros U A G. destruct So as (_ & _ & (_ & _ & C)), So' as (_ & _ & (_ & _ & C')). rewrite C, C', !count_sum by exact U.
  pose proof (sum_one (map oneIf (cellsOf m' u)) (map oneIf (cellsOf m u)) r) as Q. rewrite (proj1 (one_alive m u r) A) in Q. rewrite (proj2 (one_alive m' u r)) in Q; [|rewrite alive_after; intros (_ & X); apply X, G; reflexivity].
  rewrite <- (Z.add_cancel_r _ _ 1). rewrite Q; [lia|]. intros k K. apply ones_same. rewrite G. lia.
Qed.
(** the contours of a face, before and after *)
Lemma weight_nth x k : nth k (map weight (cfaces x)) 0 = match nth_error (anchors x) k with Some cs => nth k (map oneIf (cellsOf x Region)) 0 * Z.of_nat (length cs) | None => 0 end.
Proof.
  cbn [cellsOf]. unfold anchors. rewrite <- !nth_default_eq. unfold nth_default. rewrite !nth_error_map. destruct (nth_error (cfaces x) k) as [f|]; cbn [option_map]; [|reflexivity].
  unfold weight, oneIf. destruct (initialized (finf f)); lia.
Qed.
Lemma weight_same k : ~ In (Region, Z.of_nat k) gone -> option_map (@length dart) (nth_error (anchors m') k) = option_map (@length dart) (nth_error (anchors m) k) ->
  nth k (map weight (cfaces m')) 0 = nth k (map weight (cfaces m)) 0.
Proof. intros N E. rewrite !weight_nth, ones_same by exact N. destruct (nth_error (anchors m') k), (nth_error (anchors m) k); cbn in E; try discriminate E; [|reflexivity]. injection E as ->. reflexivity. Qed.
Lemma weight_gone k : In (Region, Z.of_nat k) gone -> nth k (map weight (cfaces m')) 0 = 0.
Proof. intros G. rewrite weight_nth, (proj2 (one_alive m' Region k)); [destruct (nth_error (anchors m') k); lia|]. rewrite alive_after. tauto. Qed.
End Taken.
Lemma weight_face m k f : isFace m k f -> nth k (map weight (cfaces m)) 0 = Z.of_nat (length (fcontours f)).
Proof. intros (H & I). rewrite <- nth_default_eq. unfold nth_default. rewrite nth_error_map, H. cbn. unfold weight. rewrite I. reflexivity. Qed.
Lemma face_alive m k f : isFace m k f -> alive m Region k.
Proof. intros (H & I). exists (finf f). split; [cbn [cellsOf]; apply map_nth_error, H|exact I]. Qed.

(** ** The anchor findComponentAnchor() finds is one of the list *)
Lemma findNode_in im cs l : forall i j, findNode im cs l i = Ok (Some j) -> (i <= j < i + length cs)%nat.
Proof. induction cs as [|c t IH]; intros i j H; cbn in *; [discriminate H|]. bnd H x Ex. destruct (x =? l); [injection H as <-; lia|]. apply IH in H. lia. Qed.
Lemma findEdge_in im cs l : forall i j, findEdge im cs l i = Ok (Some j) -> (i <= j < i + length cs)%nat.
Proof.
  induction cs as [|c t IH]; intros i j H; cbn in *; [discriminate H|]. bnd H x Ex. destruct x; [apply IH in H; lia|]. bnd H y Ey. destruct (y =? l); [injection H as <-; lia|]. apply IH in H. lia.
Qed.
Lemma findContour_in m cs l : forall i j, findContour m cs l i = Ok (Some j) -> (i <= j < i + length cs)%nat.
Proof. induction cs as [|c t IH]; intros i j H; cbn [findContour length] in *; [discriminate H|]. bnd H x Ex. destruct x; [injection H as <-; lia|]. apply IH in H. lia. Qed.
Lemma find_range m cs d i : findComponentAnchor m cs d = Ok i -> (i < length cs)%nat.
Proof.
  unfold findComponentAnchor. destruct (Nat.eqb_spec (length cs) 1) as [E|_]; [intros [= <-]; lia|]. intros H. bnd H b Eb. destruct b.
  - bnd H l El. bnd H o Eo. destruct o as [j|]; [|discriminate H]. injection H as <-. apply findNode_in in Eo. lia.
  - bnd H l El. bnd H o Eo. destruct o as [j|]; [injection H as <-; apply findEdge_in in Eo; lia|]. bnd H o' Eo'. destruct o' as [j|]; [|discriminate H]. injection H as <-. apply findContour_in in Eo'. lia.
Qed.
Lemma erase_length {A} (v : list A) : forall i, (i < length v)%nat -> Z.of_nat (length (eraseAt i v)) = Z.of_nat (length v) - 1.
Proof. induction v as [|a t IH]; intros [|i] H; cbn [eraseAt length] in *; try lia. rewrite !Nat2Z.inj_succ, IH by lia. lia. Qed.
Lemma removed_length m n cs : forall r, removeNodeFromContours m cs n = Ok r -> length r = length cs.
Proof. induction cs as [|c t IH]; intros r H; cbn [removeNodeFromContours length] in *; [injection H as <-; reflexivity|]. bnd H x Ex. bnd H y Ey. bnd H z Ez. injection H as <-. cbn. rewrite (IH z Ez). reflexivity. Qed.

(** ** One call *)
Definition euler (m : cmap) : Z := nodeCount m - edgeCount m + 2 * faceCount m - contourCount m.
Section Call.
Variables (m m' : cmap) (s : Z).
Hypothesis (Fa : faced m) (Fa' : faced m').
Let So : sound m. Proof. apply Fa. Qed.
Let So' : sound m'. Proof. apply Fa'. Qed.
Let Fr : framed (cim m). Proof. apply So. Qed.
Let Wi : wired m. Proof. apply Fa. Qed.
Lemma upd_options (v : list (list dart)) i x k : k <> i -> option_map (@length dart) (nth_error (list_upd v i x) k) = option_map (@length dart) (nth_error v k).
Proof. intros K. rewrite nth_error_upd_neq by auto. reflexivity. Qed.
Lemma weight_set x k f cs : isFace x k f -> anchors m' = list_upd (anchors x) k cs -> alive m' Region k -> nth k (map weight (cfaces m')) 0 = Z.of_nat (length cs).
Proof.
  intros If An Al. rewrite weight_nth, An, nth_error_upd_eq by (apply nth_error_Some; rewrite (face_anchors _ _ _ If); discriminate). rewrite (proj1 (one_alive m' Region k) Al). lia.
Qed.
Lemma isolated_numbers d : faceAllowed (cim m) (CRemoveIsolatedNode d) -> removeIsolatedNode m d = Ok (m', s) -> callEffect m m' (CRemoveIsolatedNode d) s ->
  nodeCount m' = nodeCount m - 1 /\ edgeCount m' = edgeCount m /\ faceCount m' = faceCount m /\ contourCount m' = contourCount m - 1.
Proof.
  intros (Pd & Be & Nd) Ex (n & En & El & Ta). rewrite nodeLabel_dart in En by apply Pd. injection En as En.
  destruct (isolated_anchors _ _ _ _ Ex) as (f & c & _ & Ff & Fc & An). apply find_range in Fc.
  assert (Ld : lonely (cim m) d) by (split; auto). assert (Sd : labelAt (cim m) d 0 = s) by (pose proof (lonely_left m Fa d Ld Be); congruence).
  assert (If : isFace m (Z.to_nat s) f /\ 0 <= s).
  { apply at_Ok in Ff. destruct Ff as (Ps & Ff). split; auto. split; auto. pose proof (lonely_region m Fa d Ld) as T.
    destruct (neighbor_in (cim m) Fr _ _ ((ddir d + 0) mod 8) (proj1 Pd)) as (X & Y). destruct So as (_ & _ & (_ & Li & _)).
    destruct (Li Region s _ _ (conj X (conj Y (pix_eta _ Region s (eq_sym T) (eq_sym Sd))))) as (q & Q & I); [discriminate|]. cbn [cellsOf] in Q. rewrite nth_error_map, Ff in Q. injection Q as <-. exact I. }
  destruct If as (If & Ps). assert (V : vertexAt (cim m) (dcx d) (dcy d)) by apply Pd.
  assert (Nv : 0 <= n /\ alive m Vertex (Z.to_nat n)).
  { destruct (pixel_live m (dcx d) (dcy d) Vertex n So) as (B & q & Q & I); [destruct V as (X & Y & T); split; [exact X|split; [exact Y|apply pix_eta; [symmetry; exact T|symmetry; exact En]]]|discriminate|]. split; [lia|exists q; auto]. }
  destruct Nv as (Pn & Av).
  split; [apply (count_less m m' Region s _ So So' Ta Vertex (Z.to_nat n)); [discriminate|exact Av|]|].
  { intros k. rewrite Z2Nat.id by exact Pn. split; [intros [X|[]]; injection X as <-; reflexivity|intros ->; left; reflexivity]. }
  split; [apply (count_kept m m' Region s _ So So' Ta Line); [discriminate|intros k [X|[]]; discriminate X]|].
  split; [apply (count_kept m m' Region s _ So So' Ta Region); [discriminate|intros k [X|[]]; discriminate X]|].
  rewrite !contour_sum. pose proof (sum_one (map weight (cfaces m')) (map weight (cfaces m)) (Z.to_nat s)) as Q.
  rewrite (weight_face m _ f If), (weight_set m _ f _ If An), erase_length in Q; [| exact Fc |apply (alive_after m m' _ _ _ Ta); split; [exact (face_alive _ _ _ If)|intros [X|[]]; discriminate X]].
  rewrite <- (Z.add_cancel_r _ _ (Z.of_nat (length (fcontours f)))). rewrite Q; [lia|]. intros k K. apply (weight_same m m' _ _ _ Ta); [intros [X|[]]; discriminate X|]. rewrite An. apply upd_options, K.
Qed.
Lemma edge_alive d e : isDart (cim m) d -> edgeOf (cim m) d = e -> 0 <= e /\ alive m Line (Z.to_nat e).
Proof.
  intros D E. destruct (alpha_ends m d Wi D) as (ei & _ & _ & Ei & P & N & I & _). rewrite E in *. split; [exact P|]. exists (einf ei). split; [cbn [cellsOf]; apply map_nth_error, N|exact I].
Qed.
Lemma bridge_numbers d : isDart (cim m) d -> removeBridge m d = Ok (m', s) -> callEffect m m' (CRemoveBridge d) s ->
  nodeCount m' = nodeCount m /\ edgeCount m' = edgeCount m - 1 /\ faceCount m' = faceCount m /\ contourCount m' = contourCount m + 1.
Proof.
  intros Dd Ex (e & Ee & El & Er & Ta). rewrite edgeLabel_dart in Ee by (auto; apply Dd). injection Ee as Ee. destruct (edge_alive d e Dd Ee) as (Pe & Ae).
  destruct (bridge_anchors _ _ _ _ Ex) as (el & ei & f & a1 & a2 & c & El2 & Ei & _ & Ff & A1 & A2 & Fc & An). apply find_range in Fc.
  rewrite leftFace_is in El by (auto; apply Dd). injection El as El. rewrite <- El in Ff. destruct (side_face m 1 d f Fa (or_introl eq_refl) Dd Ff) as (If & Ns). rewrite El in If, Ns.
  split; [apply (count_kept m m' Region s _ So So' Ta Vertex); [discriminate|intros k [X|[]]; discriminate X]|].
  split; [apply (count_less m m' Region s _ So So' Ta Line (Z.to_nat e)); [discriminate|exact Ae|]|].
  { intros k. rewrite Z2Nat.id by exact Pe. split; [intros [X|[]]; injection X as <-; reflexivity|intros ->; left; reflexivity]. }
  split; [apply (count_kept m m' Region s _ So So' Ta Region); [discriminate|intros k [X|[]]; discriminate X]|].
  rewrite !contour_sum. pose proof (sum_one (map weight (cfaces m')) (map weight (cfaces m)) (Z.to_nat s)) as Q.
  rewrite (weight_face m _ f If), (weight_set m _ f _ If An) in Q; [|apply (alive_after m m' _ _ _ Ta); split; [exact (face_alive _ _ _ If)|intros [X|[]]; discriminate X]].
  rewrite app_length, list_upd_length in Q. cbn [length] in Q.
  rewrite <- (Z.add_cancel_r _ _ (Z.of_nat (length (fcontours f)))). rewrite Q; [lia|]. intros k K. apply (weight_same m m' _ _ _ Ta); [intros [X|[]]; discriminate X|]. rewrite An. apply upd_options, K.
Qed.
Lemma merge_numbers d : isDart (cim m) d -> mergeFaces m d = Ok (m', s) -> callEffect m m' (CMergeFaces d) s ->
  nodeCount m' = nodeCount m /\ edgeCount m' = edgeCount m - 1 /\ faceCount m' = faceCount m - 1 /\ contourCount m' = contourCount m - 1.
Proof.
  intros Dd Ex (e & fl & l & r & Ee & El & Er & Sf & Ta). rewrite edgeLabel_dart in Ee by (auto; apply Dd). injection Ee as Ee. destruct (edge_alive d e Dd Ee) as (Pe & Ae).
  rewrite leftFace_is in El by (auto; apply Dd). rewrite rightFace_is in Er by (auto; apply Dd). injection El as El. injection Er as Er.
  destruct (merge_anchors _ _ _ _ Ex) as (a & el & ei & ml & sf & mf & c1 & c2 & a1 & a2 & c & Rd & Eel & Ei & Esl & Eml & Fsf & Fmf & Nf & F1 & F2 & I1 & I2 & Mg & An). apply find_range in F1. apply find_range in F2.
  assert (Da : isDart (cim m) a /\ ((sideOf (cim m) 1 a = l /\ sideOf (cim m) (-1) a = r) \/ (sideOf (cim m) 1 a = r /\ sideOf (cim m) (-1) a = l))).
  { destruct Rd as [->|Rd]; auto. destruct (alpha_darts m d a Wi Dd Rd) as (X & _). split; auto. destruct (faced_edge m d a Fa Dd Rd) as ((Y & Z_) & _). right. split; congruence. }
  destruct Da as (Da & Sa). rewrite leftFace_is in Esl by (auto; apply Da). rewrite rightFace_is in Eml by (auto; apply Da). injection Esl as Esl. injection Eml as Eml.
  rewrite <- Esl in Fsf. rewrite <- Eml in Fmf. destruct (side_face m 1 a sf Fa (or_introl eq_refl) Da Fsf) as (Is & Ns). destruct (side_face m (-1) a mf Fa (or_intror eq_refl) Da Fmf) as (Im & Nm).
  rewrite Esl in Is, Ns. rewrite Eml in Im, Nm.
  assert (Nsm : s <> ml) by (intros X; apply Nf; rewrite X in Is; destruct Is as (Is & _), Im as (Im & _); congruence).
  assert (Fl : fl = ml) by (destruct Sa as [(Q1 & Q2)|(Q1 & Q2)], Sf as [(-> & ->)|(-> & ->)]; congruence). subst fl.
  split; [apply (count_kept m m' Region s _ So So' Ta Vertex); [discriminate|intros k [X|[X|[]]]; discriminate X]|].
  split; [apply (count_less m m' Region s _ So So' Ta Line (Z.to_nat e)); [discriminate|exact Ae|]|].
  { intros k. rewrite Z2Nat.id by exact Pe. split; [intros [X|[X|[]]]; [injection X as <-; reflexivity|discriminate X]|intros ->; left; reflexivity]. }
  split; [apply (count_less m m' Region s _ So So' Ta Region (Z.to_nat ml)); [discriminate|exact (face_alive _ _ _ Im)|]|].
  { intros k. rewrite Nm. split; [intros [X|[X|[]]]; [discriminate X|injection X as <-; reflexivity]|intros ->; right; left; reflexivity]. }
  rewrite !contour_sum. assert (Nn : Z.to_nat s <> Z.to_nat ml) by lia. pose proof (sum_two (map weight (cfaces m')) (map weight (cfaces m)) (Z.to_nat s) (Z.to_nat ml) Nn) as Q.
  rewrite (weight_face m _ sf Is), (weight_face m _ mf Im), (weight_set m _ sf _ Is An), (weight_gone m m' _ _ _ Ta) in Q.
  - rewrite app_length, list_upd_length, Nat2Z.inj_add, erase_length in Q by exact F2.
    rewrite <- (Z.add_cancel_r _ _ (Z.of_nat (length (fcontours sf)) + Z.of_nat (length (fcontours mf)))), Z.add_assoc. rewrite Q; [lia|]. intros k K K2.
    apply (weight_same m m' _ _ _ Ta); [intros [X|[X|[]]]; [discriminate X|injection X as X; lia]|]. rewrite An. apply upd_options, K.
  - right. left. rewrite Nm. reflexivity.
  - apply (alive_after m m' _ _ _ Ta). split; [exact (face_alive _ _ _ Is)|]. intros [X|[X|[]]]; [discriminate X|injection X as X; lia].
Qed.
Lemma edges_numbers d : isDart (cim m) d -> mergeEdges m d = Ok (m', s) -> callEffect m m' (CMergeEdges d) s ->
  nodeCount m' = nodeCount m - 1 /\ edgeCount m' = edgeCount m - 1 /\ faceCount m' = faceCount m /\ contourCount m' = contourCount m.
Proof.
  intros Dd Ex Ef. destruct (join_facts m d m' s Wi Dd Ex Ef) as (n & ml & d2 & d3 & a1 & a2 & Ta & Ci & Ee & Hh & D2 & D3 & N23 & N32 & N2 & N3 & L2 & L3 & Df & A1 & A2 & On & _).
  destruct (edges_anchors _ _ _ _ Ex) as (e1 & e2 & e3 & fl & fr & nl & b & m2 & S1 & S2 & S3 & Ls & Lf & Rf & Sn & An & Ac). destruct (edge_alive d2 ml D2 L2) as (Pe & Ae).
  assert (Nv : 0 <= n /\ alive m Vertex (Z.to_nat n)).
  { destruct (pixel_live m (dcx d2) (dcy d2) Vertex n So) as (B & q & Q & I); [destruct D2 as ((X & Y & T) & _); split; [exact X|split; [exact Y|apply pix_eta; [symmetry; exact T|symmetry; exact N2]]]|discriminate|]. split; [lia|exists q; auto]. }
  destruct Nv as (Pn & Av).
  split; [apply (count_less m m' Line s _ So So' Ta Vertex (Z.to_nat n)); [discriminate|exact Av|]|].
  { intros k. rewrite Z2Nat.id by exact Pn. split; [intros [X|[X|[]]]; [injection X as <-; reflexivity|discriminate X]|intros ->; left; reflexivity]. }
  split; [apply (count_less m m' Line s _ So So' Ta Line (Z.to_nat ml)); [discriminate|exact Ae|]|].
  { intros k. rewrite Z2Nat.id by exact Pe. split; [intros [X|[X|[]]]; [discriminate X|injection X as <-; reflexivity]|intros ->; right; left; reflexivity]. }
  assert (Ng : forall k, ~ In (Region, k) [(Vertex, n); (Line, ml)]) by (intros k [X|[X|[]]]; discriminate X).
  split; [apply (count_kept m m' Line s _ So So' Ta Region); [discriminate|exact Ng]|].
  rewrite !contour_sum. apply sum_same. intros k. destruct (alive_dec m Region k) as [Al|Al].
  - rewrite !weight_nth, (ones_same m m' _ _ _ Ta) by apply Ng. destruct (nth_error (anchors m') k) as [cs|] eqn:E.
    + rewrite An in E. destruct (Ac k cs E) as (cs0 & E0 & R). rewrite E0. assert (L : length cs = length cs0); [|rewrite L; reflexivity].
      destruct (Z.of_nat k =? fl); [apply (removed_length _ _ _ _ R)|]. destruct (Z.of_nat k =? fr); [apply (removed_length _ _ _ _ R)|congruence].
    + exfalso. assert (Al' : alive m' Region k) by (apply (alive_after m m' _ _ _ Ta); split; auto). destruct Al' as (x & X & _). cbn [cellsOf] in X. unfold anchors in E. rewrite nth_error_map in X, E. destruct (nth_error (cfaces m') k); discriminate.
  - rewrite !weight_nth, (ones_same m m' _ _ _ Ta) by apply Ng. rewrite (proj2 (one_alive m Region k) Al). destruct (nth_error (anchors m') k), (nth_error (anchors m) k); lia.
Qed.
End Call.
Theorem call_numbers m c m' s : faced m -> faceAllowed (cim m) c -> cexec m c = Ok (m', s) ->
  match c with
  | CRemoveIsolatedNode _ => nodeCount m' = nodeCount m - 1 /\ edgeCount m' = edgeCount m /\ faceCount m' = faceCount m /\ contourCount m' = contourCount m - 1
  | CMergeFaces _ => nodeCount m' = nodeCount m /\ edgeCount m' = edgeCount m - 1 /\ faceCount m' = faceCount m - 1 /\ contourCount m' = contourCount m - 1
  | CRemoveBridge _ => nodeCount m' = nodeCount m /\ edgeCount m' = edgeCount m - 1 /\ faceCount m' = faceCount m /\ contourCount m' = contourCount m + 1
  | CMergeEdges _ => nodeCount m' = nodeCount m - 1 /\ edgeCount m' = edgeCount m - 1 /\ faceCount m' = faceCount m /\ contourCount m' = contourCount m
  end.
Proof.
  intros Fa A E. pose proof (faced_step m c m' s Fa A E) as Fa'. pose proof (faced_allows m c Fa A) as Al. assert (So : sound m) by apply Fa. destruct (cexec_sound m c m' s So (proj1 Al) E) as (_ & Ef).
  destruct c as [d|d|d|d]; cbn [faceAllowed cexec] in A, E; [apply (isolated_numbers m m' s Fa Fa' d)|apply (merge_numbers m m' s Fa Fa' d)|apply (bridge_numbers m m' s Fa Fa' d)|apply (edges_numbers m m' s Fa Fa' d)]; assumption.
Qed.
Lemma euler_step m c m' s : faced m -> faceAllowed (cim m) c -> cexec m c = Ok (m', s) -> euler m' = euler m.
Proof. intros Fa A E. pose proof (call_numbers m c m' s Fa A E) as N. unfold euler. destruct c; lia. Qed.
