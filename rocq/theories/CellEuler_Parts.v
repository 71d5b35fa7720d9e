(** C79: what a call does to the number of parts, and Euler's formula. *)
From Coq Require Import Lia.
From Verif Require Import Base CellMap_Model CellMap_Spec CellMap_Proofs CellMap_Main CellSigma_Spec CellSigma_Proofs CellSigma_Results CellLink_Spec CellLink_Proofs CellLink_Main CellLink_Results CellLink_Check
  CellFace_Spec CellFace_Walk CellFace_Main CellFace_Step CellContour_Orbit CellContour_Spec CellContour_Phi CellContour_Find CellContour_View CellContour_Cut CellContour_Step CellContour_Leave CellCall_Results CellThresh_Spec CellThresh_Loops CellTotal_Spec CellJordan_Spec CellPlane_Spec CellPlane_Cut CellPlane_Results
  CellEuler_Spec CellEuler_Step CellEuler_Clear CellEuler_Linked.
Local Open Scope Z_scope.

Definition together (im : img) (a b : dart) : Prop := linked im (nodeOf im a) (nodeOf im b).
Definition graphParts (im : img) (n : Z) : Prop := exists cs, Z.of_nat (length cs) = n /\ cover (isPlace im) (together im) cs.
Lemma together_sym im a b : together im a b -> together im b a.
Proof. apply linked_sym. Qed.

(** ** A node without edges is removed *)
Section Alone.
Variables (m m' : cmap) (s : Z) (d : dart).
Hypothesis (Fa : faced m) (Fa' : faced m').
Hypothesis Al : faceAllowed (cim m) (CRemoveIsolatedNode d).
Hypothesis Ef : callEffect m m' (CRemoveIsolatedNode d) s.
Let Pd : isPlace (cim m) d. Proof. apply Al. Qed.
Let Nd : forall e, isDart (cim m) e -> nodeOf (cim m) e <> nodeOf (cim m) d. Proof. apply Al. Qed.
Lemma alone_linked_out k : linked (cim m) (nodeOf (cim m) d) k -> k = nodeOf (cim m) d.
Proof. intros H. induction H as [|x y H IH Dx Dy E]; [reflexivity|]. exfalso. apply (Nd x Dx IH). Qed.
Lemma alone_parts n : graphParts (cim m') n -> graphParts (cim m) (n + 1).
Proof.
  destruct Ef as (l & En & El & Ta). rewrite nodeLabel_dart in En by apply Pd. injection En as En. assert (Wi : wired m) by apply Fa. assert (Fr : framed (cim m)) by apply Wi.
  set (G := [(Vertex, l)]) in *. assert (Gn : In (Vertex, l) G) by (left; reflexivity).
  assert (Gg : forall u k, In (u, k) G -> (u = Vertex /\ k = l) \/ (u = Line /\ Region = Line)) by (intros u k [X|[]]; injection X as <- <-; auto).
  assert (NV : Region <> Vertex) by discriminate. assert (NX : Region <> ErrorType) by discriminate.
  assert (Ld' : forall x, isDart (cim m') x <-> isDart (cim m) x).
  { intros x. rewrite (left_dart m m' Region s l G Fa Ta Gn Gg NV NX). split; [intros (X & _); auto|]. intros X. split; auto. rewrite <- En. apply Nd, X. }
  assert (Ed' : forall x, isDart (cim m) x -> edgeOf (cim m') x = edgeOf (cim m) x).
  { intros x D. destruct (dart_owns (cim m) Fr x D) as (X & Y & P). unfold edgeOf. destruct (pixel_after _ _ _ _ _ (taken_repaint _ _ _ _ _ Ta) _ _ X Y) as [([Q|[]] & _)|(_ & ->)]; [|reflexivity]. rewrite P in Q. discriminate Q. }
  pose proof (left_place m m' Region s l G Fa Ta Gn Gg NV) as Lp. pose proof (left_node m m' Region s G Ta NV) as Ln.
  assert (Lk : forall a b, linked (cim m') a b <-> linked (cim m) a b).
  { intros a b. split; intros H; induction H as [|x y H IH Dx Dy E]; try apply lk_here.
    - rewrite Ln by apply Dy. rewrite Ln in IH by apply Dx. apply Ld' in Dx. apply Ld' in Dy. rewrite !Ed' in E by assumption. apply (lk_edge _ _ x y); auto.
    - pose proof (proj2 (Ld' x) Dx) as Dx'. pose proof (proj2 (Ld' y) Dy) as Dy'. rewrite <- Ln by apply Dy'. rewrite <- Ln in IH by apply Dx'. rewrite <- !Ed' in E by assumption. apply (lk_edge _ _ x y); auto. }
  assert (Tg : forall a b, isPlace (cim m') a -> isPlace (cim m') b -> (together (cim m') a b <-> together (cim m) a b)).
  { intros a b A B. unfold together. rewrite !Ln by (apply A || apply B). apply Lk. }
  intros (cs & Len & C1 & C2 & C3). exists (d :: cs). split; [cbn [length]; lia|]. split; [|split].
  - intros a [<-|I]; [exact Pd|]. apply Lp, C1, I.
  - intros x X. destruct (Z.eq_dec (nodeOf (cim m) x) l) as [E|N].
    + exists d. split; [left; reflexivity|]. unfold together. rewrite E. replace l with (nodeOf (cim m) d) by exact En. apply lk_here.
    + assert (X' : isPlace (cim m') x) by (apply Lp; auto). destruct (C2 x X') as (a & I & Q). exists a. split; [right; exact I|]. apply Tg; auto.
  - cbn [apart]. split.
    + intros b I Q. apply alone_linked_out in Q. pose proof (C1 b I) as B. apply Lp in B. destruct B as (_ & B). apply B. rewrite Q. exact En.
    + apply apart_nth; [intros a b; apply together_sym|]. rewrite apart_nth in C3 by (intros a b; apply together_sym). intros i j a b I J N Q. apply (C3 i j a b I J N), Tg; auto; apply C1; eapply nth_error_In; eassumption.
Qed.
End Alone.

(** ** An edge is removed *)
Section Cut.
Variables (m m' : cmap) (s el : Z) (gone : list (ctype * Z)) (a b : dart).
Hypothesis (Fa : faced m) (Fa' : faced m').
Hypothesis Ta : takenOver m m' Region s gone.
Hypothesis Ge : In (Line, el) gone.
Hypothesis Gg : forall u k, In (u, k) gone -> (u = Line /\ k = el) \/ u = Region.
Hypothesis Da : isDart (cim m) a.
Hypothesis Ea : edgeOf (cim m) a = el.
Hypothesis Ab : nextAlpha m a = Ok b.
Let Wi : wired m. Proof. apply Fa. Qed.
Let im := cim m.
Let im' := cim m'.
Let Da' x : isDart im' x <-> stay (isDart im) a b x := dart_stay m m' s el gone a b Fa Ta Ge Gg Da Ea Ab x.
Let Nk x : vertexAt im (dcx x) (dcy x) -> nodeOf im' x = nodeOf im x := node_kept m m' s el gone Ta Gg x.
Let Pk x : isPlace im' x <-> isPlace im x := place_kept m m' s el gone Fa Ta Gg x.
Let Ek x : isDart im' x -> edgeOf im' x = edgeOf im x := cut_edge m m' s el gone Wi Ta Ge Gg x.
Let na := nodeOf im a.
Let nb := nodeOf im b.
Let Db : isDart im b. Proof. apply (alpha_darts m a b Wi Da Ab). Qed.
Let Eb : edgeOf im b = el. Proof. rewrite <- Ea. apply (alpha_darts m a b Wi Da Ab). Qed.
Let Ends x : isDart im x -> edgeOf im x = el -> x = a \/ x = b.
Proof. intros D E. apply (alpha_darts m a b Wi Da Ab); [exact D|]. rewrite Ea. exact E. Qed.
Lemma old_link x y : linked im' x y -> linked im x y.
Proof.
  intros H. induction H as [|p q H IH Dp Dq E]; [apply lk_here|]. rewrite !Ek in E by assumption. apply Da' in Dp. apply Da' in Dq. destruct Dp as (Dp & _), Dq as (Dq & _). rewrite Nk by apply Dq. rewrite Nk in IH by apply Dp. apply (lk_edge _ _ p q); auto.
Qed.
Lemma kept_edge p q : isDart im p -> isDart im q -> edgeOf im p = edgeOf im q -> edgeOf im p <> el -> linked im' (nodeOf im p) (nodeOf im q).
Proof.
  intros Dp Dq E N. assert (S : forall x, isDart im x -> edgeOf im x <> el -> isDart im' x) by (intros x D X; apply Da'; split; [exact D|]; split; intros ->; apply X; auto).
  assert (Dp' : isDart im' p) by (apply S; auto). assert (Dq' : isDart im' q) by (apply S; auto; congruence). rewrite <- (Nk p) by apply Dp. rewrite <- (Nk q) by apply Dq. apply (lk_edge _ _ p q); [apply lk_here|auto|auto|rewrite !Ek by assumption; exact E].
Qed.
Lemma cut_link x y : linked im x y -> linked im' x y \/ (linked im' x na /\ linked im' nb y) \/ (linked im' x nb /\ linked im' na y).
Proof.
  intros H. induction H as [|p q H IH Dp Dq E]; [left; apply lk_here|]. destruct (Z.eq_dec (edgeOf im p) el) as [X|X].
  - pose proof (Ends p Dp X) as Hp. assert (Hq : q = a \/ q = b) by (apply Ends; [exact Dq|rewrite <- E; exact X]).
    pose proof (lk_here im' na) as Ra. pose proof (lk_here im' nb) as Rb. unfold na, nb in *.
    destruct Hp as [-> | ->], Hq as [-> | ->]; auto.
    + destruct IH as [IH|[(I1 & I2)|(I1 & I2)]]; auto.
    + destruct IH as [IH|[(I1 & I2)|(I1 & I2)]]; auto.
  - pose proof (kept_edge p q Dp Dq E X) as K. destruct IH as [IH|[(I1 & I2)|(I1 & I2)]]; [left|right; left|right; right].
    + apply (linked_trans im' _ _ _ IH K).
    + split; [exact I1|apply (linked_trans im' _ _ _ I2 K)].
    + split; [exact I1|apply (linked_trans im' _ _ _ I2 K)].
Qed.
Let to x y : isPlace im x -> isPlace im y -> (together im' x y <-> linked im' (nodeOf im x) (nodeOf im y)).
Proof. intros X Y. unfold together. rewrite !Nk by (apply X || apply Y). tauto. Qed.
Lemma same_parts n : linked im' na nb -> graphParts im' n -> graphParts im n.
Proof.
  intros L (cs & Len & C1 & C2 & C3). assert (Q : forall x y, isPlace im x -> isPlace im y -> (together im' x y <-> together im x y)).
  { intros x y X Y. rewrite to by assumption. split; [apply old_link|]. intros K. apply cut_link in K. destruct K as [K|[(A & B)|(A & B)]]; [exact K| |]; apply (linked_trans _ _ _ _ A).
    - apply (linked_trans _ _ _ _ L B).
    - apply (linked_trans _ _ na); [apply linked_sym, L|exact B]. }
  exists cs. split; [exact Len|]. split; [intros x I; apply Pk, C1, I|]. split.
  - intros x X. destruct (C2 x (proj2 (Pk x) X)) as (c & I & R). exists c. split; [exact I|]. apply Q; auto. apply Pk, C1, I.
  - apply apart_nth; [intros x y; apply together_sym|]. rewrite apart_nth in C3 by (intros x y; apply together_sym). intros i j x y I J N R. apply (C3 i j x y I J N), Q; auto; apply Pk, C1; eapply nth_error_In; eassumption.
Qed.
Lemma fewer_parts n : ~ linked im' na nb -> graphParts im' n -> graphParts im (n - 1).
Proof.
  intros L (cs & Len & C1 & C2 & C3). assert (Pa : isPlace im a) by apply dart_place, Da. assert (Pb : isPlace im b) by apply dart_place, Db.
  destruct (C2 b (proj2 (Pk b) Pb)) as (c & I & Rb). apply in_split in I. destruct I as (u & w & ->).
  assert (Pc : isPlace im c) by (apply Pk, C1, in_or_app; right; left; reflexivity). assert (Lc : linked im' (nodeOf im c) nb) by (apply to; auto).
  rewrite (apart_mid _ (together_sym im')) in C3. destruct C3 as (C3 & C4).
  assert (Pi : forall x, In x (u ++ w) -> isPlace im x) by (intros x I; apply Pk, C1; apply in_app_or in I; apply in_or_app; destruct I; auto; right; right; assumption).
  assert (La : exists a0, In a0 (u ++ w) /\ linked im' (nodeOf im a0) na).
  { destruct (C2 a (proj2 (Pk a) Pa)) as (a0 & I & Ra). assert (P0 : isPlace im a0) by (apply Pk, C1, I). apply to in Ra; auto. exists a0. split; [|exact Ra].
    apply in_app_or in I. apply in_or_app. destruct I as [I|[<-|I]]; auto. exfalso. apply L. apply (linked_trans _ _ (nodeOf im c)); [apply linked_sym, Ra|exact Lc]. }
  destruct La as (a0 & Ia & La). exists (u ++ w). split; [rewrite app_length in *; cbn [length] in Len; lia|]. split; [exact Pi|]. split.
  - intros x X. destruct (C2 x (proj2 (Pk x) X)) as (e & I & R). assert (Pe : isPlace im e) by (apply Pk, C1, I). apply to in R; auto. apply in_app_or in I. destruct I as [I|[<-|I]].
    + exists e. split; [apply in_or_app; auto|]. apply old_link, R.
    + exists a0. split; [exact Ia|]. unfold together. apply (linked_trans _ _ na); [apply old_link, La|]. apply (linked_trans _ _ nb); [apply (lk_edge im _ a b); [apply lk_here|exact Da|exact Db|rewrite Eb; exact Ea]|].
      apply (linked_trans _ _ (nodeOf im c)); [apply linked_sym, old_link, Lc|apply old_link, R].
    + exists e. split; [apply in_or_app; auto|]. apply old_link, R.
  - apply apart_nth; [intros x y; apply together_sym|]. rewrite apart_nth in C3 by (intros x y; apply together_sym). intros i j x y I J N R. pose proof (nth_error_In _ _ I) as Ix. pose proof (nth_error_In _ _ J) as Iy.
    assert (NB : forall z, In z (u ++ w) -> ~ linked im' (nodeOf im z) nb).
    { intros z Iz Lz. apply (C4 z Iz). apply to; auto. apply (linked_trans _ _ nb); [exact Lc|apply linked_sym, Lz]. }
    apply cut_link in R. destruct R as [R|[(R1 & R2)|(R1 & R2)]].
    + apply (C3 i j x y I J N). apply to; auto.
    + apply (NB y Iy). apply linked_sym, R2.
    + apply (NB x Ix R1).
Qed.
(** if there are two contours at the edge, it can be gone around *)
Lemma round_link : ~ orb (phi m) a b -> linked im' na nb.
Proof.
  intros No. destruct (phi_round m Wi a Da) as (r & R0 & _ & Er & Nr).
  assert (G : forall k, (k < r)%nat -> linked im' nb (nodeOf im (it (S k) (phi m) a))).
  { induction k as [|k IH]; intros K.
    - cbn [it]. pose proof (phi_next m Wi a b Da Ab) as Q. apply (next_node im (proj1 (proj2 (proj1 (proj1 (proj2 Wi))))) (proj2 (proj2 (proj1 (proj2 Wi)))) (-1) b _ (or_intror eq_refl) Db) in Q.
      pose proof (phi_closed m Wi a Da) as Dp. fold im in Dp. rewrite !nodeLabel_dart in Q by (apply Dp || apply Db). injection Q as Q. unfold nb, nodeOf in *. rewrite Q. apply lk_here.
    - specialize (IH ltac:(lia)). set (x := it (S k) (phi m) a) in *. assert (Dx : isDart im x) by (apply (its_D m Wi), Da).
      rewrite it_S. fold x. destruct (alpha_opposite m x (dh_start m Wi) Dx) as (y & A & _). destruct (alpha_darts m x y Wi Dx A) as (Dy & _ & _ & Ey & _). fold im in Dy, Ey.
      assert (Nx : edgeOf im x <> el).
      { intros X. pose proof (Ends x Dx X) as H. destruct H as [H|H]; [apply (Nr (S k)); [lia|exact H]|apply No; exists (S k); exact H]. }
      apply (linked_trans _ _ _ _ IH). pose proof (kept_edge x y Dx Dy (eq_sym Ey) Nx) as K1.
      pose proof (phi_next m Wi x y Dx A) as Q. apply (next_node im (proj1 (proj2 (proj1 (proj1 (proj2 Wi))))) (proj2 (proj2 (proj1 (proj2 Wi)))) (-1) y _ (or_intror eq_refl) Dy) in Q.
      pose proof (phi_closed m Wi x Dx) as Dp. fold im in Dp. rewrite !nodeLabel_dart in Q by (apply Dp || apply Dy). injection Q as Q. rewrite Q. exact K1. }
  destruct r as [|r]; [lia|]. specialize (G r ltac:(lia)). rewrite Er in G. apply linked_sym, G.
Qed.
End Cut.

(** ** Pixels *)
Lemma parts_pixels m n : planar m -> graphParts (cim m) n -> manyParts (CellTotal_Spec.contour (cim m)) n.
Proof.
  intros Pm (cs & Len & C1 & C2 & C3). exists (map (fun c => (dcx c, dcy c)) cs). split; [rewrite map_length; exact Len|]. split.
  - intros u v I. apply in_map_iff in I. destruct I as (c & E & I). injection E as <- <-. apply (at_drawn m Pm (nodeOf (cim m) c)), place_at, C1, I.
  - intros x y D. destruct (pixel_place m Pm x y D) as (a & Pa & R). destruct (C2 a Pa) as (c & I & Q). destruct (In_nth_error _ _ I) as (i & Ei). exists i, (dcx c), (dcy c). split; [exact (map_nth_error (fun c => (dcx c, dcy c)) i cs Ei)|].
    assert (Rb : reach ways8 (CellTotal_Spec.contour (cim m)) (dcx a) (dcy a) x y) by (apply walk_back; [exact two8|exact R]).
    split; [apply (walk_trans _ _ _ _ (dcx a) (dcy a)); [apply (linked_reach m Pm); auto|exact Rb]|].
    intros j u v Ej Rj. rewrite nth_error_map in Ej. destruct (nth_error cs j) as [c'|] eqn:Ec; [|discriminate Ej]. injection Ej as <- <-. destruct (Nat.eq_dec j i) as [|N]; [assumption|]. exfalso.
    rewrite apart_nth in C3 by (intros p q; apply together_sym). apply (C3 j i c' c Ec Ei N). assert (Pc' : isPlace (cim m) c') by (apply C1; eapply nth_error_In, Ec).
    apply (linked_trans _ _ (nodeOf (cim m) a)); [|apply linked_sym, Q]. apply (reach_linked m Pm (dcx c') (dcy c') (dcx a) (dcy a)); [apply (walk_trans _ _ _ _ x y); [exact Rj|exact R]|apply place_at, Pc'|apply place_at, Pa].
Qed.
(** the number is unique *)
Lemma fewer {A} (T : A -> A -> Prop) : forall u v : list A, (forall i a, nth_error u i = Some a -> exists b, In b v /\ T a b) ->
  (forall i j a a' b, nth_error u i = Some a -> nth_error u j = Some a' -> T a b -> T a' b -> i = j) -> (length u <= length v)%nat.
Proof.
  induction u as [|a u IH]; intros v H U; [cbn; lia|]. destruct (H 0%nat a eq_refl) as (b & I & Q). apply in_split in I. destruct I as (v1 & v2 & ->). rewrite app_length. cbn [length]. enough (L : (length u <= length (v1 ++ v2))%nat) by (rewrite app_length in L; lia).
  apply IH.
  - intros i x X. destruct (H (S i) x X) as (y & Y & R). exists y. split; [|exact R]. apply in_app_or in Y. apply in_or_app. destruct Y as [Y|[<-|Y]]; auto. exfalso. specialize (U 0%nat (S i) a x b eq_refl X Q R). discriminate U.
  - intros i j x x' y X X' R R'. specialize (U (S i) (S j) x x' y X X' R R'). lia.
Qed.
Lemma parts_le P n k : manyParts P n -> manyParts P k -> n <= k.
Proof.
  intros (u & Lu & U1 & U2) (v & Lv & V1 & V2).
  assert (L : (length u <= length v)%nat); [|lia]. apply (fewer (fun p q : Z * Z => reach ways8 P (fst p) (snd p) (fst q) (snd q))).
  - intros i (x, y) E. assert (D : P x y) by (apply U1; eapply nth_error_In, E). destruct (V2 x y D) as (j & a & b & J & R & _). exists (a, b). split; [eapply nth_error_In, J|]. cbn [fst snd]. apply walk_back; [exact two8|exact R].
  - intros i j (x, y) (x', y') (a, b) I J R R'. cbn [fst snd] in *. assert (D : P a b) by apply (walk_end _ _ _ _ _ _ R). destruct (U2 a b D) as (k0 & p & q & _ & _ & Un). rewrite (Un i x y I R), (Un j x' y' J R'). reflexivity.
Qed.
Lemma parts_one P n k : manyParts P n -> manyParts P k -> n = k.
Proof. intros A B. pose proof (parts_le P n k A B). pose proof (parts_le P k n B A). lia. Qed.

(** ** Euler's formula *)
Lemma bridge_apart m d m' s : phistory m -> phistory m' -> isDart (cim m) d -> removeBridge m d = Ok (m', s) -> callEffect m m' (CRemoveBridge d) s ->
  exists b, nextAlpha m d = Ok b /\ ~ linked (cim m') (nodeOf (cim m) d) (nodeOf (cim m) b).
Proof.
  intros Hm Hm' Dd Ex (e & Ee & El & Er & Ta). assert (Co : contoured m) by apply khistory_contoured, phistory_khistory, Hm. assert (Co' : contoured m') by apply khistory_contoured, phistory_khistory, Hm'. pose proof Co as (Fa & _). pose proof Co' as (Fa' & Cv').
  assert (Wi : wired m) by apply Fa. assert (Wi' : wired m') by apply Fa'. assert (Fr : framed (cim m)) by apply Wi. assert (Jo : joined (cim m)) by apply Wi.
  rewrite edgeLabel_dart in Ee by (auto; apply Dd). injection Ee as Ee.
  destruct (bridge_anchors _ _ _ _ Ex) as (el & ei & f & a1 & a2 & c & El2 & Ei & _ & Ff & A1 & A2 & Fc & An). apply find_range in Fc.
  rewrite edgeLabel_dart in El2 by (auto; apply Dd). injection El2 as El2. assert (el = e) by congruence. subst el.
  destruct (alpha_ends m d Wi Dd) as (ei' & d' & b & Ei' & _ & _ & _ & T & <- & Ab & Ends). rewrite Ee in Ei'. assert (ei' = ei) by congruence. subst ei'.
  destruct (alpha_darts m d b Wi Dd Ab) as (Db & Ndb & Ba & Eb & _). exists b. split; [exact Ab|].
  rewrite leftFace_is in El by (auto; apply Dd). injection El as El. rewrite <- El in Ff. destruct (side_face m 1 d f Fa (or_introl eq_refl) Dd Ff) as (If & Ns). rewrite El in If, Ns.
  assert (Gg : forall u k, In (u, k) [(Line, e)] -> (u = Line /\ k = e) \/ u = Region) by (intros u j [X|[]]; injection X as <- <-; auto).
  assert (Ge : In (Line, e) [(Line, e)]) by (left; reflexivity).
  (* the contours of the face afterwards *)
  assert (If' : exists f', isFace m' (Z.to_nat s) f').
  { assert (Al : alive m' Region (Z.to_nat s)) by (apply (alive_after m m' _ _ _ Ta); split; [exact (face_alive _ _ _ If)|intros [X|[]]; discriminate X]). destruct Al as (x & X & L). cbn [cellsOf] in X. rewrite nth_error_map in X. destruct (nth_error (cfaces m') (Z.to_nat s)) as [f'|] eqn:E; [|discriminate X]. injection X as <-. exists f'. split; auto. }
  destruct If' as (f' & If'). pose proof (face_anchors _ _ _ If') as Q. rewrite An, nth_error_upd_eq in Q by (apply nth_error_Some; rewrite (face_anchors _ _ _ If); discriminate). injection Q as Q.
  destruct (Cv' _ _ If') as (C1 & C2). rewrite <- Q in C1, C2. rewrite Ns in C1, C2.
  assert (N1 : nth_error (list_upd (fcontours f) c a1 ++ [a2]) c = Some a1) by (rewrite nth_error_app1 by (rewrite list_upd_length; exact Fc); apply nth_error_upd_eq, Fc).
  assert (N2 : nth_error (list_upd (fcontours f) c a1 ++ [a2]) (length (fcontours f)) = Some a2) by (rewrite nth_error_app2 by (rewrite list_upd_length; lia); rewrite list_upd_length, Nat.sub_diag; reflexivity).
  destruct (C1 a1 (nth_error_In _ _ N1)) as (B1 & _). destruct (C1 a2 (nth_error_In _ _ N2)) as (B2 & _).
  assert (No : ~ CellContour_Spec.contour m' a1 a2).
  { intros X. destruct (C2 a2 B2) as (i & z & Iz & _ & U). pose proof (U _ _ N1 X) as U1. pose proof (U _ _ N2 (contour_refl m' Wi' a2 (border_known _ _ _ B2))) as U2. lia. }
  (* their nodes *)
  assert (Pn : forall x y, isDart (cim m) x -> prevSigma (cim m) x = Ok y -> nodeOf (cim m) y = nodeOf (cim m) x /\ isDart (cim m) y).
  { intros x y Dx E. destruct (alpha_opposite m x (dh_start m Wi) Dx) as (x2 & A & _). destruct (alpha_darts m x x2 Wi Dx A) as (Dx2 & _ & Bx & _). pose proof (prev_phi m x x2 y Wi Dx Dx2 Bx E) as ->.
    pose proof (phi_next m Wi x2 x Dx2 Bx) as N. apply (next_node (cim m) Fr Jo (-1) x _ (or_intror eq_refl) Dx) in N. pose proof (phi_closed m Wi x2 Dx2) as Dp. rewrite !nodeLabel_dart in N by (apply Dp || apply Dx). injection N as N. auto. }
  assert (D1 : isDart (cim m) (estart ei) /\ isDart (cim m) (eend ei)) by (destruct Ends as [(X & Y)|(X & Y)]; rewrite X, Y; auto). destruct (Pn _ _ (proj1 D1) A1) as (E1 & Da1). destruct (Pn _ _ (proj2 D1) A2) as (E2 & Da2).
  intros L. assert (L' : linked (cim m') (nodeOf (cim m) a1) (nodeOf (cim m) a2)) by (destruct Ends as [(X & Y)|(X & Y)]; rewrite E1, E2, X, Y; [exact L|apply linked_sym, L]).
  rewrite <- (node_kept m m' s e _ Ta Gg a1) in L' by apply Da1. rewrite <- (node_kept m m' s e _ Ta Gg a2) in L' by apply Da2.
  apply No. pose proof (phistory_planar m' Hm') as Pm'. apply (plane_contours m' Pm' s); auto. apply (linked_reach m' Pm'); auto; apply (place_kept m m' s e _ Fa Ta Gg); apply dart_place; assumption.
Qed.
Lemma merge_linked m d m' s : phistory m -> phistory m' -> isDart (cim m) d -> mergeFaces m d = Ok (m', s) -> sideOf (cim m) 1 d <> sideOf (cim m) (-1) d.
Proof.
  intros Hm _ Dd Ex E. assert (Fa : faced m) by apply (phistory_planar m Hm). assert (Fr : framed (cim m)) by apply Fa. destruct (faces_return m (phistory_khistory m Hm) d Dd) as (_ & B). rewrite (leftFace_is (cim m) Fr d (proj1 Dd)), (rightFace_is (cim m) Fr d (proj1 Dd)), E in B. rewrite B in Ex by reflexivity. discriminate Ex.
Qed.
Lemma parts_step m c m' s n : phistory m -> phistory m' -> faceAllowed (cim m) c -> removal c -> cexec m c = Ok (m', s) -> graphParts (cim m') n ->
  graphParts (cim m) (match c with CRemoveIsolatedNode _ => n + 1 | CRemoveBridge _ => n - 1 | _ => n end).
Proof.
  intros Hm Hm' A R E G. assert (Fa : faced m) by apply (phistory_planar m Hm). assert (Fa' : faced m') by apply (phistory_planar m' Hm'). assert (So : sound m) by apply Fa. assert (Wi : wired m) by apply Fa. assert (Fr : framed (cim m)) by apply So.
  destruct (cexec_sound m c m' s So (proj1 (faced_allows m c Fa A)) E) as (_ & Ef). destruct c as [d|d|d|d]; cbn [faceAllowed cexec removal] in *; [| | |contradiction].
  - apply (alone_parts m m' s d Fa A Ef), G.
  - pose proof (merge_linked m d m' s Hm Hm' A E) as N. destruct Ef as (e & fl & l & r & Ee & El & Er & Sf & Ta). rewrite edgeLabel_dart in Ee by (auto; apply A). injection Ee as Ee.
    destruct (alpha_opposite m d (dh_start m Wi) A) as (b & Ab & _). assert (Ge : In (Line, e) [(Line, e); (Region, fl)]) by (left; reflexivity).
    assert (Gg : forall u k, In (u, k) [(Line, e); (Region, fl)] -> (u = Line /\ k = e) \/ u = Region) by (intros u j [X|[X|[]]]; injection X as <- <-; auto).
    apply (same_parts m m' s e _ d b Fa Ta Ge Gg A Ee Ab); [|exact G]. apply (round_link m m' s e _ d b Fa Ta Ge Gg A Ee Ab). intros X. apply N. rewrite (side_orb m Fa d b A X) || rewrite <- (side_orb m Fa d b A X). destruct (faced_edge m d b Fa A Ab) as ((Y & Z_) & _). congruence.
  - destruct (bridge_apart m d m' s Hm Hm' A E Ef) as (b & Ab & N). destruct Ef as (e & Ee & El & Er & Ta). rewrite edgeLabel_dart in Ee by (auto; apply A). injection Ee as Ee.
    assert (Ge : In (Line, e) [(Line, e)]) by (left; reflexivity). assert (Gg : forall u k, In (u, k) [(Line, e)] -> (u = Line /\ k = e) \/ u = Region) by (intros u j [X|[]]; injection X as <- <-; auto).
    apply (fewer_parts m m' s e _ d b Fa Ta Ge Gg A Ee Ab); assumption.
Qed.
Theorem euler_graph m : phistory m -> graphParts (cim m) (nodeCount m - edgeCount m + faceCount m - 1).
Proof.
  revert m. apply clear_ind.
  - intros m H (Z1 & Z2 & Z3 & _ & Px). rewrite Z1, Z2, Z3. exists []. split; [reflexivity|]. split; [intros a []|]. split; [|exact I]. intros x ((X & Y & T) & _). exfalso. rewrite Px in T by assumption. discriminate T.
  - intros m c m' s H H' A R E G. pose proof (call_numbers m c m' s (proj1 (phistory_planar m H)) A E) as Nu. pose proof (parts_step m c m' s _ H H' A R E G) as Q.
    destruct c; cbn [removal] in R; [| | |contradiction].
    all: match goal with |- graphParts _ ?k => match type of Q with graphParts _ ?j => replace k with j by lia; exact Q end end.
Qed.
Theorem euler_parts m n : phistory m -> (manyParts (CellTotal_Spec.contour (cim m)) n <-> nodeCount m - edgeCount m + faceCount m = 1 + n).
Proof.
  intros H. pose proof (parts_pixels m _ (phistory_planar m H) (euler_graph m H)) as Q. split; [intros P; pose proof (parts_one _ _ _ P Q); lia|]. intros E. replace n with (nodeCount m - edgeCount m + faceCount m - 1) by lia. exact Q.
Qed.
