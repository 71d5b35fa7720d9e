(** C46: the Euler operations keep sizes, bounds and counts those of a recount. *)
From Verif Require Import Base CellMap_Model CellMap_Spec CellMap_Scan CellMap_Proofs.
Local Open Scope Z_scope.

Ltac bnd H x E := apply bind_Ok in H; destruct H as (x & E & H).

(** ** The arrays *)

Lemma at_Ok {A} (v : list A) l a : at_ v l = Ok a <-> 0 <= l /\ nth_error v (Z.to_nat l) = Some a.
Proof.
  unfold at_. destruct ((0 <=? l) && (l <? Z.of_nat (length v))) eqn:E.
  - apply andb_true_iff in E. rewrite Z.leb_le, Z.ltb_lt in E. rewrite vget_Ok. tauto.
  - apply andb_false_iff in E. rewrite Z.leb_gt, Z.ltb_ge in E. split; [discriminate|]. intros [H K]. apply nth_error_lt in K. lia.
Qed.
Lemma put_Ok {A} (v : list A) l a w : put v l a = Ok w -> w = list_upd v (Z.to_nat l) a.
Proof. unfold put. destruct (_ && _); [|discriminate]. rewrite vset_Ok. tauto. Qed.

Lemma map_upd {A B} (f : A -> B) v i a : map f (list_upd v i a) = list_upd (map f v) i (f a).
Proof. revert i. induction v as [|h t IH]; intros [|i]; cbn; auto. f_equal. apply IH. Qed.
Lemma upd_same {A} (v : list A) i a : nth_error v i = Some a -> list_upd v i a = v.
Proof. revert i. induction v as [|h t IH]; intros [|i] H; cbn in *; try discriminate; [congruence | f_equal; apply IH; exact H]. Qed.
Lemma nth_error_ext {A} (v w : list A) : (forall i, nth_error v i = nth_error w i) -> v = w.
Proof.
  revert w. induction v as [|h t IH]; intros [|h' t'] H; auto.
  - specialize (H 0%nat). discriminate H.
  - specialize (H 0%nat). discriminate H.
  - f_equal; [specialize (H 0%nat); cbn in H; congruence | apply IH; intros i; exact (H (S i))].
Qed.

(** only darts and degrees differ *)
Definition sameCells (m m' : cmap) : Prop :=
  cim m' = cim m /\ (forall t, cellsOf m' t = cellsOf m t) /\ (forall t, countOf m' t = countOf m t).
(** the information about one cell is replaced *)
Definition changed (m m' : cmap) (t : ctype) (l : nat) (c : cinfo) : Prop :=
  cim m' = cim m /\ (forall u, cellsOf m' u = if ctypeEqb u t then list_upd (cellsOf m u) l c else cellsOf m u) /\ (forall u, countOf m' u = countOf m u).

Lemma sameCells_trans a b c : sameCells a b -> sameCells b c -> sameCells a c.
Proof. intros (A & B & C) (D & E & F). split; [congruence|]. split; intros t; [rewrite E, B | rewrite F, C]; reflexivity. Qed.

Lemma cells_face m l f : at_ (cfaces m) l = Ok f -> 0 <= l /\ nth_error (cellsOf m Region) (Z.to_nat l) = Some (finf f).
Proof. rewrite at_Ok. intros [H K]. split; [exact H|]. cbn. apply map_nth_error; exact K. Qed.
Lemma cells_edge m l e : at_ (cedges m) l = Ok e -> 0 <= l /\ nth_error (cellsOf m Line) (Z.to_nat l) = Some (einf e).
Proof. rewrite at_Ok. intros [H K]. split; [exact H|]. cbn. apply map_nth_error; exact K. Qed.
Lemma cells_node m l n : at_ (cnodes m) l = Ok n -> 0 <= l /\ nth_error (cellsOf m Vertex) (Z.to_nat l) = Some (ninf n).
Proof. rewrite at_Ok. intros [H K]. split; [exact H|]. cbn. apply map_nth_error; exact K. Qed.

Lemma updFace_changed m l f m' : updFace m l f = Ok m' -> exists fi, at_ (cfaces m) l = Ok fi /\ changed m m' Region (Z.to_nat l) (finf (f fi)).
Proof.
  unfold updFace. intros H. bnd H fi E. bnd H v Ev. injection H as <-. apply put_Ok in Ev. subst v. exists fi. split; [exact E|].
  split; [reflexivity|]. split; intros []; cbn; try reflexivity. apply map_upd.
Qed.
Lemma updEdge_changed m l f m' : updEdge m l f = Ok m' -> exists fi, at_ (cedges m) l = Ok fi /\ changed m m' Line (Z.to_nat l) (einf (f fi)).
Proof.
  unfold updEdge. intros H. bnd H fi E. bnd H v Ev. injection H as <-. apply put_Ok in Ev. subst v. exists fi. split; [exact E|].
  split; [reflexivity|]. split; intros []; cbn; try reflexivity. apply map_upd.
Qed.
Lemma updNode_changed m l f m' : updNode m l f = Ok m' -> exists fi, at_ (cnodes m) l = Ok fi /\ changed m m' Vertex (Z.to_nat l) (ninf (f fi)).
Proof.
  unfold updNode. intros H. bnd H fi E. bnd H v Ev. injection H as <-. apply put_Ok in Ev. subst v. exists fi. split; [exact E|].
  split; [reflexivity|]. split; intros []; cbn; try reflexivity. apply map_upd.
Qed.

Lemma changed_same m m' t l c : changed m m' t l c -> nth_error (cellsOf m t) l = Some c -> sameCells m m'.
Proof.
  intros (A & B & C) H. split; [exact A|]. split; [|exact C]. intros u. rewrite B. destruct (ctypeEqb_spec u t) as [->|]; [apply upd_same; exact H | reflexivity].
Qed.

Lemma contours_same m l cs m' : updFace m l (setContours cs) = Ok m' -> sameCells m m'.
Proof. intros H. apply updFace_changed in H. destruct H as (f & E & H). apply (changed_same _ _ _ _ _ H). exact (proj2 (cells_face _ _ _ E)). Qed.
Lemma darts_same m l a b m' : updEdge m l (fun e => EInfo (einf e) a b) = Ok m' -> sameCells m m'.
Proof. intros H. apply updEdge_changed in H. destruct H as (f & E & H). apply (changed_same _ _ _ _ _ H). exact (proj2 (cells_edge _ _ _ E)). Qed.
Lemma dropDegree_same m l m' : dropDegree m l = Ok m' -> sameCells m m'.
Proof.
  unfold dropDegree. intros H. bnd H n En. bnd H a Ea. apply updNode_changed in H. destruct H as (f & E & H). apply (changed_same _ _ _ _ _ H). exact (proj2 (cells_node _ _ _ E)).
Qed.
Lemma leaveNode_same m fl l m' : leaveNode m fl l = Ok m' -> sameCells m m'.
Proof. unfold leaveNode. intros H. bnd H f Ef. bnd H cs Ecs. apply contours_same in H. exact H. Qed.

Lemma face_info m l g m' c : updFace m l (onFace g) = Ok m' -> nth_error (cellsOf m Region) (Z.to_nat l) = Some c -> changed m m' Region (Z.to_nat l) (g c).
Proof. intros H K. apply updFace_changed in H. destruct H as (f & E & H). apply cells_face in E. destruct E as [_ E]. rewrite K in E. injection E as ->. exact H. Qed.
Lemma edge_info m l g m' c : updEdge m l (onEdge g) = Ok m' -> nth_error (cellsOf m Line) (Z.to_nat l) = Some c -> changed m m' Line (Z.to_nat l) (g c).
Proof. intros H K. apply updEdge_changed in H. destruct H as (f & E & H). apply cells_edge in E. destruct E as [_ E]. rewrite K in E. injection E as ->. exact H. Qed.
Lemma node_info m l g m' c : updNode m l (onNode g) = Ok m' -> nth_error (cellsOf m Vertex) (Z.to_nat l) = Some c -> changed m m' Vertex (Z.to_nat l) (g c).
Proof. intros H K. apply updNode_changed in H. destruct H as (f & E & H). apply cells_node in E. destruct E as [_ E]. rewrite K in E. injection E as ->. exact H. Qed.

(** ** Repainting a cell *)

Lemma exactRect_fits im t l r : exactRect (owns im t l) r -> fits im r.
Proof.
  intros (A & (b & B) & (c & C) & (d & D) & (e & E)) x y [H K]. unfold owns in *. lia.
Qed.

Lemma cellPixel_small t l : 0 <= l < 2 ^ 30 -> cellPixel t l = Pix t l.
Proof. intros H. unfold cellPixel. rewrite Z.mod_small by exact H. reflexivity. Qed.

Lemma infoAt_Ok m t l c : infoAt m t l = Ok c <-> 0 <= l /\ nth_error (cellsOf m t) (Z.to_nat l) = Some c.
Proof.
  destruct t; cbn [infoAt cellsOf].
  - rewrite bind_Ok. split.
    + intros (f & H & [= <-]). apply cells_face in H. exact H.
    + intros [H K]. rewrite nth_error_map in K. destruct (nth_error (cfaces m) (Z.to_nat l)) as [f|] eqn:E; [|discriminate K]. injection K as <-.
      exists f. split; [apply at_Ok; auto | reflexivity].
  - rewrite bind_Ok. split.
    + intros (f & H & [= <-]). apply cells_edge in H. exact H.
    + intros [H K]. rewrite nth_error_map in K. destruct (nth_error (cedges m) (Z.to_nat l)) as [f|] eqn:E; [|discriminate K]. injection K as <-.
      exists f. split; [apply at_Ok; auto | reflexivity].
  - rewrite bind_Ok. split.
    + intros (f & H & [= <-]). apply cells_node in H. exact H.
    + intros [H K]. rewrite nth_error_map in K. destruct (nth_error (cnodes m) (Z.to_nat l)) as [f|] eqn:E; [|discriminate K]. injection K as <-.
      exists f. split; [apply at_Ok; auto | reflexivity].
  - split; [discriminate|]. intros [_ H]. destruct (Z.to_nat l); discriminate H.
Qed.

Lemma relabelCell_spec m t l c ts s :
  nth_error (cellsOf m t) l = Some c -> clabel c = Z.of_nat l -> Z.of_nat l < 2 ^ 30 -> 0 <= s < 2 ^ 30 ->
  exactRect (owns (cim m) t (Z.of_nat l)) (cbounds c) ->
  exists m', relabelCell m t (Z.of_nat l) (cellPixel ts s) = Ok m' /\ repainted (cim m) (cim m') ts s t (Z.of_nat l) /\
    (forall u, cellsOf m' u = cellsOf m u) /\ (forall u, countOf m' u = countOf m u).
Proof.
  intros Hn Hl Hr Hs HB. unfold relabelCell.
  assert (infoAt m t (Z.of_nat l) = Ok c) as -> by (apply infoAt_Ok; rewrite Nat2Z.id; split; [lia | exact Hn]).
  cbn [bind]. rewrite Hl, !cellPixel_small by lia.
  destruct (relabel_spec (cim m) (cbounds c) (Pix t (Z.of_nat l)) (Pix ts s) (exactRect_fits _ _ _ _ HB)) as (im' & -> & Ew & Eh & Hp).
  cbn [bind]. exists (setIm m im'). split; [reflexivity|]. split; [|split; intros []; reflexivity].
  cbn [cim setIm]. split; [exact Ew|]. split; [exact Eh|]. intros x y Hx Hy. destruct (Hp x y) as [P1 P2]. split.
  - intros E. apply P1; [apply HB; split; [exact Hx | split; [exact Hy | exact E]] | exact E].
  - intros E. apply P2. intros [_ K]. contradiction.
Qed.

(** a label that can be used is not that of a removed cell *)
Lemma relabelCell_live m t l new m' : (forall u, Z.of_nat (length (cellsOf m u)) <= 2 ^ 30) -> relabelCell m t l new = Ok m' -> l <> maxLabel.
Proof.
  intros HL H ->. unfold relabelCell in H. bnd H c E. apply infoAt_Ok in E. destruct E as [_ E]. apply nth_error_lt in E. specialize (HL t). unfold maxLabel in E. lia.
Qed.

Lemma initialized_iff c : initialized c = true <-> clabel c <> maxLabel.
Proof. unfold initialized. rewrite negb_true_iff, Z.eqb_neq. reflexivity. Qed.

(** ** One cell takes over another: the effect *)

Lemma taken_one im im' cells ts s cs tr r cr :
  nth_error (cells ts) s = Some cs -> initialized cs = true -> nth_error (cells tr) r = Some cr -> (ts, s) <> (tr, r) ->
  repainted im im' ts (Z.of_nat s) tr (Z.of_nat r) ->
  takenOverOf im cells im' (absorbCells cells ts s cs tr r cr) ts (Z.of_nat s) [(tr, Z.of_nat r)].
Proof.
  intros Hs Is Hr N (Ew & Eh & Hp). split; [exact Ew|]. split; [exact Eh|]. split; [|split].
  - intros x y Hx Hy. destruct (Hp x y Hx Hy) as [P1 P2]. split.
    + intros [[= A B]|[]]. apply P1. destruct (ipix im x y); cbn in *; congruence.
    + intros K. apply P2. intros E. apply K. left. rewrite E. reflexivity.
  - intros u k. rewrite (absorb_nth cells ts s cs tr r cr Hs Hr N).
    destruct (ctypeEqb u ts && Nat.eqb k s) eqn:E1.
    { apply andb_true_iff in E1. rewrite ctypeEqb_eq, Nat.eqb_eq in E1. destruct E1 as [-> ->]. split.
      - intros _. split; [exists cs; auto|]. intros [[= A B]|[]]. apply N. rewrite A. f_equal. lia.
      - intros _. eexists; split; [reflexivity | exact Is]. }
    destruct (ctypeEqb u tr && Nat.eqb k r) eqn:E2.
    { apply andb_true_iff in E2. rewrite ctypeEqb_eq, Nat.eqb_eq in E2. destruct E2 as [-> ->]. split.
      - intros (c & [= <-] & H). discriminate H.
      - intros [_ K]. exfalso. apply K. left. reflexivity. }
    split; [|intros [H _]; exact H]. intros H. split; [exact H|]. intros [[= A B]|[]]. subst u. apply Nat2Z.inj in B. subst k.
    rewrite ctypeEqb_refl, Nat.eqb_refl in E2. discriminate E2.
  - intros u k K. rewrite (absorb_nth cells ts s cs tr r cr Hs Hr N).
    destruct (ctypeEqb u ts && Nat.eqb k s) eqn:E1.
    { apply andb_true_iff in E1. rewrite ctypeEqb_eq, Nat.eqb_eq in E1. destruct E1 as [-> ->]. exfalso. apply K. left. reflexivity. }
    destruct (ctypeEqb u tr && Nat.eqb k r) eqn:E2; [|reflexivity].
    apply andb_true_iff in E2. rewrite ctypeEqb_eq, Nat.eqb_eq in E2. destruct E2 as [-> ->]. exfalso. apply K. right. left. reflexivity.
Qed.

Lemma taken_two im0 im1 im2 c0 c1 c2 t l g1 g2 : ~ In (t, l) g2 ->
  takenOverOf im0 c0 im1 c1 t l [g1] -> takenOverOf im1 c1 im2 c2 t l g2 -> takenOverOf im0 c0 im2 c2 t l (g1 :: g2).
Proof.
  intros N2 (A1 & B1 & C1 & D1 & E1) (A2 & B2 & C2 & D2 & E2). split; [congruence|]. split; [congruence|]. split; [|split].
  - intros x y Hx Hy. destruct (C1 x y Hx Hy) as [P1 P2]. rewrite <- A1 in Hx. rewrite <- B1 in Hy. destruct (C2 x y Hx Hy) as [Q1 Q2].
    destruct (In_dec (fun a b : ctype * Z => ltac:(decide equality; [apply Z.eq_dec | apply ctype_dec])) (ptype (ipix im0 x y), plabel (ipix im0 x y)) [g1]) as [H|H].
    + specialize (P1 H). rewrite P1 in Q1, Q2. cbn in Q1, Q2. split; [intros _; rewrite (Q2 N2); reflexivity|].
      intros K. exfalso. apply K. destruct H as [H|[]]. left. exact H.
    + specialize (P2 H). rewrite P2 in Q1, Q2. split.
      * intros [K|K]; [exfalso; apply H; left; exact K | apply Q1; exact K].
      * intros K. rewrite Q2; [reflexivity|]. intros K'. apply K. right. exact K'.
  - intros u k. rewrite D2, D1. cbn. tauto.
  - intros u k K. cbn in K. rewrite E2; [apply E1|]; cbn; tauto.
Qed.

Lemma taken_ext im c im' c' c'' t l g : (forall u, c'' u = c' u) -> takenOverOf im c im' c' t l g -> takenOverOf im c im' c'' t l g.
Proof.
  intros H (A & B & C & D & E). split; [exact A|]. split; [exact B|]. split; [exact C|]. split; [intros u k; rewrite H; apply D | intros u k K; rewrite H; apply E; exact K].
Qed.

Lemma recount_ext im c c' n n' : (forall t, c' t = c t) -> (forall t, n' t = n t) -> recountOf im c n -> recountOf im c' n'.
Proof.
  intros Hc Hn (A & B & C). split; [|split].
  - intros t l x H. rewrite Hc in H. apply (A t l x H).
  - intros t l x y H K. rewrite Hc. apply (B t l x y H K).
  - intros t Ht. rewrite Hc, Hn. apply C; exact Ht.
Qed.

(** ** Soundness of an image that was repainted *)

Lemma repainted_wf im im' ts s tr r : wfImg im -> 0 <= s < 2 ^ 30 -> repainted im im' ts s tr r -> wfImg im'.
Proof.
  intros (A & B & C & D) Hs (Ew & Eh & H). split; [lia|]. split; [lia|]. split; [rewrite Ew, Eh; exact C|].
  rewrite Ew, Eh. intros x y Hx Hy. destruct (H x y Hx Hy) as [H1 H2]. destruct (pix_dec (ipix im x y) (Pix tr r)) as [E|E]; [rewrite (H1 E); exact Hs | rewrite (H2 E); apply D; auto].
Qed.
Lemma repainted_framed im im' ts s tr r : framed im -> (tr, r) <> (Region, 0) -> repainted im im' ts s tr r -> framed im'.
Proof.
  intros F N (Ew & Eh & H) x y Hx Hy K. rewrite Ew in *. rewrite Eh in *. destruct (H x y Hx Hy) as [_ H2].
  rewrite H2; [apply F; auto|]. rewrite (F x y Hx Hy K). congruence.
Qed.
Lemma absorb_length cells ts s cs tr r cr t : length (absorbCells cells ts s cs tr r cr t) = length (cells t).
Proof. unfold absorbCells. destruct (ctypeEqb t ts), (ctypeEqb t tr); rewrite ?list_upd_length; reflexivity. Qed.

(** what is known of a live cell *)
Lemma live_facts m t l c : sound m -> isCell m t l c ->
  clabel c = Z.of_nat l /\ Z.of_nat l < 2 ^ 30 /\ exactRect (owns (cim m) t (Z.of_nat l)) (cbounds c).
Proof.
  intros ((_ & HL) & _ & (HC & _)) (H & I). destruct (HC t l c H I) as (A & B & _). split; [exact A|]. split; [|exact B].
  apply nth_error_lt in H. specialize (HL t). lia.
Qed.

(** the cell of a pixel is live *)
Lemma pixel_live m x y t l : sound m -> owns (cim m) t l x y -> t <> ErrorType -> 0 <= l < 2 ^ 30 /\ exists c, isCell m t (Z.to_nat l) c.
Proof.
  intros ((W & _) & _ & (_ & HP & _)) H Ht. split; [|exact (HP t l x y H Ht)].
  destruct W as (_ & _ & _ & W). destruct H as (A & B & C). specialize (W x y A B). rewrite C in W. exact W.
Qed.

Lemma one_absorb m m' ts s cs tr r cr : sound m -> isCell m ts s cs -> isCell m tr r cr -> ts <> ErrorType -> tr <> ErrorType ->
  (ts, s) <> (tr, r) -> (tr, r) <> (Region, 0%nat) ->
  repainted (cim m) (cim m') ts (Z.of_nat s) tr (Z.of_nat r) ->
  (forall u, cellsOf m' u = absorbCells (cellsOf m) ts s cs tr r cr u) ->
  (forall u, countOf m' u = if ctypeEqb u tr then (countOf m u - 1) mod 2 ^ 32 else countOf m u) ->
  sound m' /\ takenOver m m' ts (Z.of_nat s) [(tr, Z.of_nat r)].
Proof.
  intros Hm [Hs Is] [Hr Ir] Ts Tr N N0 HR HC HN. pose proof (live_facts m ts s cs Hm (conj Hs Is)) as (_ & Bs & _).
  destruct Hm as ((W & HL) & F & Rc). split.
  - split; [split|split].
    + apply (repainted_wf _ _ _ _ _ _ W) with (2 := HR). lia.
    + intros t. rewrite HC, absorb_length. apply HL.
    + apply (repainted_framed _ _ _ _ _ _ F) with (2 := HR). intros [= -> K]. apply N0. f_equal. lia.
    + unfold recount. apply (recount_ext _ (absorbCells (cellsOf m) ts s cs tr r cr) _ (countOf m') _ HC); [reflexivity|].
      apply (absorb_recount (cim m) (cim m') (cellsOf m) (countOf m)); auto. intros [-> ->]. apply N0. reflexivity.
  - apply (taken_ext _ _ _ (absorbCells (cellsOf m) ts s cs tr r cr) _ _ _ _ HC). apply taken_one; auto.
Qed.

Lemma two_absorb m m' im1 ts s cs t1 r1 c1 t2 r2 c2 : sound m -> isCell m ts s cs -> isCell m t1 r1 c1 -> isCell m t2 r2 c2 ->
  ts <> ErrorType -> t1 <> ErrorType -> t2 <> ErrorType ->
  (ts, s) <> (t1, r1) -> (t1, r1) <> (Region, 0%nat) -> (ts, s) <> (t2, r2) -> (t2, r2) <> (Region, 0%nat) -> (t1, r1) <> (t2, r2) ->
  repainted (cim m) im1 ts (Z.of_nat s) t1 (Z.of_nat r1) -> repainted im1 (cim m') ts (Z.of_nat s) t2 (Z.of_nat r2) ->
  (forall u l, nth_error (cellsOf m' u) l =
     if ctypeEqb u ts && Nat.eqb l s then Some (absorb (absorb cs c1) c2)
     else if ctypeEqb u t1 && Nat.eqb l r1 then Some (uninitialize c1)
     else if ctypeEqb u t2 && Nat.eqb l r2 then Some (uninitialize c2) else nth_error (cellsOf m u) l) ->
  t1 <> t2 ->
  (forall u, countOf m' u = if ctypeEqb u t1 || ctypeEqb u t2 then (countOf m u - 1) mod 2 ^ 32 else countOf m u) ->
  sound m' /\ takenOver m m' ts (Z.of_nat s) [(t1, Z.of_nat r1); (t2, Z.of_nat r2)].
Proof.
  intros Hm [Hs Is] [H1 I1] [H2 I2] Ts T1 T2 N1 N10 N2 N20 N12 HR1 HR2 HC Nt HN. pose proof (live_facts m ts s cs Hm (conj Hs Is)) as (_ & Bs & _).
  destruct Hm as ((W & HL) & F & Rc).
  set (cells1 := absorbCells (cellsOf m) ts s cs t1 r1 c1).
  set (counts1 := fun u => if ctypeEqb u t1 then (countOf m u - 1) mod 2 ^ 32 else countOf m u).
  assert (recountOf im1 cells1 counts1) as Rc1.
  { apply (absorb_recount (cim m) im1 (cellsOf m) (countOf m)); auto. intros [-> ->]. apply N10. reflexivity. }
  assert (wfImg im1) as W1 by (apply (repainted_wf _ _ _ _ _ _ W) with (2 := HR1); lia).
  assert (forall u l, nth_error (cells1 u) l = if ctypeEqb u ts && Nat.eqb l s then Some (absorb cs c1)
            else if ctypeEqb u t1 && Nat.eqb l r1 then Some (uninitialize c1) else nth_error (cellsOf m u) l) as Hcells1
    by (apply absorb_nth; auto).
  assert (nth_error (cells1 ts) s = Some (absorb cs c1)) as Hs1 by (rewrite Hcells1, ctypeEqb_refl, Nat.eqb_refl; reflexivity).
  assert (nth_error (cells1 t2) r2 = Some c2) as Hr1.
  { rewrite Hcells1. destruct (ctypeEqb t2 ts && Nat.eqb r2 s) eqn:E1.
    - apply andb_true_iff in E1. rewrite ctypeEqb_eq, Nat.eqb_eq in E1. destruct E1 as [-> ->]. congruence.
    - destruct (ctypeEqb t2 t1 && Nat.eqb r2 r1) eqn:E2; [|exact H2].
      apply andb_true_iff in E2. rewrite ctypeEqb_eq, Nat.eqb_eq in E2. destruct E2 as [-> ->]. congruence. }
  assert (forall u, cellsOf m' u = absorbCells cells1 ts s (absorb cs c1) t2 r2 c2 u) as HC'.
  { intros u. apply nth_error_ext. intros l. rewrite HC, (absorb_nth cells1 ts s _ t2 r2 c2 Hs1 Hr1 N2), Hcells1.
    destruct (ctypeEqb u ts && Nat.eqb l s) eqn:E0; [reflexivity|].
    destruct (ctypeEqb u t1 && Nat.eqb l r1) eqn:E1; destruct (ctypeEqb u t2 && Nat.eqb l r2) eqn:E2; auto.
    apply andb_true_iff in E1, E2. rewrite ctypeEqb_eq, Nat.eqb_eq in E1, E2. destruct E1, E2. congruence. }
  assert (forall t, Z.of_nat (length (cells1 t)) <= 2 ^ 30) as HL1 by (intros t; unfold cells1; rewrite absorb_length; apply HL).
  split.
  - split; [split|split].
    + apply (repainted_wf _ _ _ _ _ _ W1) with (2 := HR2). lia.
    + intros t. rewrite HC', absorb_length. apply HL1.
    + apply (repainted_framed im1 _ ts (Z.of_nat s) t2 (Z.of_nat r2)) with (3 := HR2).
      * apply (repainted_framed _ _ _ _ _ _ F) with (2 := HR1). intros [= -> K]. apply N10. f_equal. lia.
      * intros [= -> K]. apply N20. f_equal. lia.
    + unfold recount. apply (recount_ext _ (absorbCells cells1 ts s (absorb cs c1) t2 r2 c2) _ (countOf m') _ HC'); [reflexivity|].
      apply (absorb_recount im1 (cim m') cells1 counts1); auto; [intros [-> ->]; apply N20; reflexivity|].
      intros t. rewrite HN. unfold counts1. destruct (ctypeEqb_spec t t2) as [->|]; destruct (ctypeEqb_spec t t1) as [E|] || destruct (ctypeEqb_spec t2 t1) as [E|]; cbn; try congruence; reflexivity.
  - unfold takenOver. apply (taken_ext _ _ _ (absorbCells cells1 ts s (absorb cs c1) t2 r2 c2) _ _ _ _ HC').
    apply (taken_two _ im1 _ _ cells1).
    + intros [[= A B]|[]]. apply N2. rewrite A. f_equal. lia.
    + apply taken_one; auto.
    + apply taken_one; auto.
Qed.

Lemma changed_nth m m' t l c : changed m m' t l c -> (l < length (cellsOf m t))%nat -> forall u k,
  nth_error (cellsOf m' u) k = if ctypeEqb u t && Nat.eqb k l then Some c else nth_error (cellsOf m u) k.
Proof.
  intros (_ & H & _) L u k. rewrite H. destruct (ctypeEqb_spec u t) as [->|]; cbn; [|reflexivity]. rewrite nth_error_upd.
  rewrite (Nat.eqb_sym k l). destruct (Nat.eqb_spec l k) as [->|]; [|reflexivity]. destruct (Nat.ltb_spec k (length (cellsOf m t))); [reflexivity | lia].
Qed.

Lemma addCounts_cells m a b c t : cellsOf (addCounts m a b c) t = cellsOf m t. Proof. destruct t; reflexivity. Qed.

(** a region pixel, or the label of one, belongs to a live face *)
Lemma neighborPix_owns im d n p : neighborPix im d n = Ok p -> owns im (ptype p) (plabel p) (dcx d + dirX ((ddir d + n) mod 8)) (dcy d + dirY ((ddir d + n) mod 8)).
Proof. unfold neighborPix. intros H. apply readPix_Ok in H. destruct H as [[A B] ->]. split; [exact A|]. split; [exact B|]. destruct (ipix _ _ _); reflexivity. Qed.

Lemma plabel_small m d n p : wfImg (cim m) -> neighborPix (cim m) d n = Ok p -> 0 <= plabel p < 2 ^ 30.
Proof. intros (_ & _ & _ & W) H. apply neighborPix_owns in H. destruct H as (A & B & C). specialize (W _ _ A B). rewrite C in W. exact W. Qed.

Lemma rightLabel_small m d l : wfImg (cim m) -> rightFaceLabel (cim m) d = Ok l -> 0 <= l < 2 ^ 30.
Proof.
  intros W H. unfold rightFaceLabel in H. bnd H p Ep. destruct (ctypeEqb (ptype p) Region).
  - injection H as <-. apply (plabel_small m d _ p W Ep).
  - bnd H q Eqq. injection H as <-. apply (plabel_small m d _ q W Eqq).
Qed.

(** the edge a dart points to, if it is not singular, is live *)
Lemma edge_live m d l : sound m -> isSingular (cim m) d = Ok false -> edgeLabel (cim m) d = Ok l -> 0 <= l < 2 ^ 30 /\ exists c, isCell m Line (Z.to_nat l) c.
Proof.
  intros Hm Hs He. unfold isSingular in Hs. unfold edgeLabel in He. bnd Hs p Ep. bnd He q Eqq. rewrite Ep in Eqq. injection Eqq as <-. injection He as <-. injection Hs as Hs.
  apply negb_false_iff, ctypeEqb_eq in Hs. apply neighborPix_owns in Ep. rewrite Hs in Ep. apply (pixel_live m _ _ _ _ Hm Ep). discriminate.
Qed.

Lemma count_small m t : sound m -> 0 <= countOf m t < 2 ^ 32.
Proof.
  intros ((_ & HL) & _ & (_ & _ & HN)). destruct (ctype_dec t ErrorType) as [->|Nt]; [cbn; lia|]. rewrite HN by exact Nt. specialize (HL t).
  assert (length (filter initialized (cellsOf m t)) <= length (cellsOf m t))%nat; [|lia].
  clear. induction (cellsOf m t) as [|h v IH]; cbn; [lia|]. destruct (initialized h); cbn; lia.
Qed.
Lemma counts_one m m1 a b c (gone : ctype -> bool) u : sound m -> (forall v, countOf m1 v = countOf m v) ->
  (forall t, match t with Vertex => a | Line => b | Region => c | ErrorType => 0 end = if gone t then -1 else 0) ->
  countOf (addCounts m1 a b c) u = if gone u then (countOf m u - 1) mod 2 ^ 32 else countOf m u.
Proof.
  intros Hm HN HG. specialize (HN u). specialize (HG u). pose proof (count_small m u Hm) as B.
  destruct u; cbn [countOf addCounts nodeCount edgeCount faceCount] in *; rewrite ?HN.
  1-3: rewrite HG; destruct (gone _); [f_equal; lia | rewrite Z.add_0_r, Z.mod_small; auto].
  destruct (gone ErrorType); [discriminate HG | reflexivity].
Qed.

(** ** removeBridge *)

Lemma removeBridge_sound m d m' s : sound m -> removeBridge m d = Ok (m', s) -> sound m' /\ callEffect m m' (CRemoveBridge d) s.
Proof.
  intros Hm H. unfold removeBridge in H. bnd H sg Esg. destruct sg; [discriminate H|].
  bnd H el Eel. bnd H e Ee. bnd H fl Efl. bnd H f Ef. bnd H n1 En1. bnd H x1 Ex1. bnd H n2 En2. bnd H x2 Ex2. bnd H rl Erl.
  destruct (Z.eqb_spec (clabel (finf f)) rl) as [Elab|]; [|discriminate H]. cbn [negb] in H.
  bnd H a1 Ea1. bnd H a2 Ea2. bnd H c Ec. bnd H m1 Em1. bnd H m2 Em2. bnd H m3 Em3. bnd H m4 Em4. bnd H m5 Em5. bnd H m6 Em6. injection H as <- <-.
  destruct (edge_live m d el Hm Esg Eel) as (Bel & ce & Hce & Ice). apply cells_edge in Ee. destruct Ee as [_ Ee]. rewrite Hce in Ee. injection Ee as Ee. subst ce.
  apply cells_face in Ef. destruct Ef as [Pfl Ef].
  destruct Hm as (HW & HF & HR) eqn:Eh. clear Eh. pose proof (rightLabel_small m d rl (proj1 HW) Erl) as Brl.
  assert (initialized (finf f) = true) as If by (apply initialized_iff; rewrite Elab; unfold maxLabel; lia).
  assert (sound m) as Hm' by (split; [exact HW|]; split; [exact HF | exact HR]).
  destruct (live_facts m _ _ _ Hm' (conj Ef If)) as (Lf & Bf & _). rewrite Z2Nat.id in Lf by lia.
  destruct (live_facts m _ _ _ Hm' (conj Hce Ice)) as (Le & Be & Xe). rewrite Z2Nat.id in Le, Be, Xe by lia.
  apply contours_same in Em1. destruct Em1 as (I1 & C1 & N1).
  rewrite Le in Em2. rewrite <- I1 in Xe.
  destruct (relabelCell_spec m1 Line (Z.to_nat el) (einf e) Region (clabel (finf f))) as (m2' & R2 & P2 & C2 & N2); try (rewrite ?Z2Nat.id by lia; rewrite ?C1; auto; lia).
  rewrite Z2Nat.id in R2, P2 by lia. rewrite R2 in Em2. injection Em2 as <-.
  apply dropDegree_same in Em3, Em4. destruct Em3 as (I3 & C3 & N3). destruct Em4 as (I4 & C4 & N4).
  assert (forall u, cellsOf m4 u = cellsOf m u) as C04 by (intros u; rewrite C4, C3, C2, C1; reflexivity).
  assert (forall u, countOf m4 u = countOf m u) as N04 by (intros u; rewrite N4, N3, N2, N1; reflexivity).
  apply (face_info _ _ _ _ (finf f)) in Em5; [|rewrite C04; exact Ef]. 
  assert (nth_error (cellsOf m5 Line) (Z.to_nat el) = Some (einf e)) as He5 by (destruct Em5 as (_ & -> & _); cbn [ctypeEqb]; rewrite C04; exact Hce).
  apply (edge_info _ _ _ _ (einf e)) in Em6; [|exact He5].
  destruct Em5 as (I5 & C5 & N5). destruct Em6 as (I6 & C6 & N6).
  assert (sound (addCounts m6 0 (-1) 0) /\ takenOver m (addCounts m6 0 (-1) 0) Region (Z.of_nat (Z.to_nat fl)) [(Line, Z.of_nat (Z.to_nat el))]) as [S T].
  { apply (one_absorb m _ Region (Z.to_nat fl) (finf f) Line (Z.to_nat el) (einf e) Hm').
    - split; [exact Ef | exact If].
    - split; [exact Hce | exact Ice].
    - discriminate.
    - discriminate.
    - discriminate.
    - discriminate.
    - cbn [cim addCounts]. rewrite I6, I5, I4, I3, !Z2Nat.id by lia. rewrite <- I1, <- Lf. exact P2.
    - intros u. rewrite addCounts_cells, C6, C5, C04. unfold absorbCells. destruct u; reflexivity.
    - intros u. apply (counts_one m m6 0 (-1) 0 (fun t => ctypeEqb t Line) u Hm'); [intros v; rewrite N6, N5; apply N04 | intros []; reflexivity]. }
  rewrite !Z2Nat.id in T by lia. split; [exact S|]. cbn [callEffect]. exists el. split; [exact Eel|]. split; [exact Efl|]. split; [rewrite Erl; congruence|]. exact T.
Qed.

(** ** removeIsolatedNode *)

Lemma isolated_within im n f rn rf : isolatedIn im n f -> exactRect (owns im Vertex n) rn -> exactRect (owns im Region f) rf -> rectOr rf rn = rf.
Proof.
  intros H Hn Hf. pose proof (exactRect_nonempty _ _ Hn) as Nn. pose proof (exactRect_nonempty _ _ Hf) as Nf.
  unfold rectOr. rewrite (rectEmpty_false _ Nn), (rectEmpty_false _ Nf).
  destruct Hn as (A & (b & B) & (c & C) & (d & D) & (e & E)). destruct Hf as (F & _).
  assert (rx0 rf <= rx0 rn) by (destruct (H _ _ B 4 ltac:(cbn; tauto)) as [K|K]; [apply A in K | apply F in K]; unfold inRect in K; cbn in K; lia).
  assert (rx1 rn <= rx1 rf) by (destruct (H _ _ C 0 ltac:(cbn; tauto)) as [K|K]; [apply A in K | apply F in K]; unfold inRect in K; cbn in K; lia).
  assert (ry0 rf <= ry0 rn) by (destruct (H _ _ D 2 ltac:(cbn; tauto)) as [K|K]; [apply A in K | apply F in K]; unfold inRect in K; cbn in K; lia).
  assert (ry1 rn <= ry1 rf) by (destruct (H _ _ E 6 ltac:(cbn; tauto)) as [K|K]; [apply A in K | apply F in K]; unfold inRect in K; cbn in K; lia).
  destruct rf; cbn in *. f_equal; lia.
Qed.

Lemma removeIsolatedNode_sound m d m' s : sound m -> callAllowed m (CRemoveIsolatedNode d) -> removeIsolatedNode m d = Ok (m', s) ->
  sound m' /\ callEffect m m' (CRemoveIsolatedNode d) s.
Proof.
  intros Hm (nl0 & fl0 & Hown & Hleft & Hiso) H. unfold removeIsolatedNode in H. bnd H sg Esg. destruct sg; [|discriminate H]. cbn [negb] in H.
  bnd H nl Enl. bnd H n En. bnd H fl Efl. bnd H f Ef. bnd H i Ei. bnd H m1 Em1. bnd H m2 Em2. bnd H m3 Em3. bnd H m4 Em4. injection H as <- <-.
  rewrite Hleft in Efl. injection Efl as <-.
  assert (nl = nl0) as ->.
  { unfold startNodeLabel, centerPix in Enl. bnd Enl p Ep. apply readPix_Ok in Ep. destruct Ep as [_ ->]. injection Enl as <-. destruct Hown as (_ & _ & ->). reflexivity. }
  destruct (pixel_live m _ _ _ _ Hm Hown ltac:(discriminate)) as (Bnl & cn & Hcn & Icn).
  apply cells_node in En. destruct En as [_ En]. rewrite Hcn in En. injection En as ->.
  destruct (live_facts m _ _ _ Hm (conj Hcn Icn)) as (Ln & Bn & Xn). rewrite Z2Nat.id in Ln, Bn, Xn by lia.
  (* the face has a pixel beside the node *)
  assert (exists x y, owns (cim m) Region fl0 x y) as (fx & fy & Hface).
  { destruct Xn as (A & (b & B) & _). destruct (Hiso _ _ B 4 ltac:(cbn; tauto)) as [K|K]; [|eauto]. apply A in K. unfold inRect in K; cbn in K. lia. }
  destruct (pixel_live m _ _ _ _ Hm Hface ltac:(discriminate)) as (Bfl & cf & Hcf & Icf).
  apply cells_face in Ef. destruct Ef as [_ Ef]. rewrite Hcf in Ef. injection Ef as ->.
  destruct (live_facts m _ _ _ Hm (conj Hcf Icf)) as (Lf & Bf & Xf). rewrite Z2Nat.id in Lf, Bf, Xf by lia.
  pose proof (isolated_within _ _ _ _ _ Hiso Xn Xf) as Hor.
  apply contours_same in Em1. destruct Em1 as (I1 & C1 & N1).
  rewrite Ln, Lf in Em2. rewrite <- I1 in Xn.
  destruct (relabelCell_spec m1 Vertex (Z.to_nat nl0) (ninf n) Region fl0) as (m2' & R2 & P2 & C2 & N2); try (rewrite ?Z2Nat.id by lia; rewrite ?C1; auto; lia).
  rewrite Z2Nat.id in R2, P2 by lia. rewrite R2 in Em2. injection Em2 as <-.
  assert (forall u, cellsOf m2' u = cellsOf m u) as C02 by (intros u; rewrite C2, C1; reflexivity).
  apply (face_info _ _ _ _ (finf f)) in Em3; [|rewrite C02; exact Hcf].
  assert (nth_error (cellsOf m3 Vertex) (Z.to_nat nl0) = Some (ninf n)) as Hn3 by (destruct Em3 as (_ & -> & _); cbn [ctypeEqb]; rewrite C02; exact Hcn).
  apply (node_info _ _ _ _ (ninf n)) in Em4; [|exact Hn3].
  destruct Em3 as (I3 & C3 & N3). destruct Em4 as (I4 & C4 & N4).
  assert (sound (addCounts m4 (-1) 0 0) /\ takenOver m (addCounts m4 (-1) 0 0) Region (Z.of_nat (Z.to_nat fl0)) [(Vertex, Z.of_nat (Z.to_nat nl0))]) as [S T].
  { apply (one_absorb m _ Region (Z.to_nat fl0) (finf f) Vertex (Z.to_nat nl0) (ninf n) Hm).
    - split; auto.
    - split; auto.
    - discriminate.
    - discriminate.
    - discriminate.
    - discriminate.
    - cbn [cim addCounts]. rewrite I4, I3, !Z2Nat.id by lia. rewrite <- I1. exact P2.
    - intros u. rewrite addCounts_cells, C4, C3, C02. unfold absorbCells, absorb. rewrite Hor. destruct u; reflexivity.
    - intros u. apply (counts_one m m4 (-1) 0 0 (fun t => ctypeEqb t Vertex) u Hm); [intros v; rewrite N4, N3, N2; apply N1 | intros []; reflexivity]. }
  rewrite !Z2Nat.id in T by lia. split; [exact S|]. cbn [callEffect]. exists nl0. split; [exact Enl|]. split; [exact Hleft | exact T].
Qed.

(** ** mergeFaces *)

Lemma face0_largest m c0 l c : sound m -> isCell m Region 0 c0 -> isCell m Region l c -> l <> 0%nat -> rectArea (cbounds c) < rectArea (cbounds c0).
Proof.
  intros Hm H0 Hl N. destruct (live_facts m _ _ _ Hm H0) as (_ & _ & (A & _)). destruct (live_facts m _ _ _ Hm Hl) as (_ & _ & X).
  pose proof (exactRect_nonempty _ _ X) as NE. destruct X as (_ & (b & B) & (k & K) & (d & D) & (e & E)).
  destruct Hm as (((Hw & Hh & _) & _) & F & _). change (Z.of_nat 0) with 0 in A.
  assert (forall x y, 0 <= x < iw (cim m) -> 0 <= y < ih (cim m) -> x = 0 \/ x = iw (cim m) - 1 \/ y = 0 \/ y = ih (cim m) - 1 -> inRect (cbounds c0) x y) as A'.
  { intros x y Hx Hy Hb. apply A. split; [exact Hx|]. split; [exact Hy|]. apply F; auto. }
  assert (forall x y, owns (cim m) Region (Z.of_nat l) x y -> 1 <= x < iw (cim m) - 1 /\ 1 <= y < ih (cim m) - 1) as Inner.
  { intros x y (Hx & Hy & Hp). assert (~ (x = 0 \/ x = iw (cim m) - 1 \/ y = 0 \/ y = ih (cim m) - 1)); [|lia].
    intros Hb. rewrite (F x y Hx Hy Hb) in Hp. injection Hp as Hp. lia. }
  pose proof (A' 0 0 ltac:(lia) ltac:(lia) ltac:(lia)) as G1. pose proof (A' (iw (cim m) - 1) (ih (cim m) - 1) ltac:(lia) ltac:(lia) ltac:(lia)) as G2.
  apply Inner in B, K, D, E. unfold inRect in *. unfold rectArea.
  assert ((rx1 (cbounds c) - rx0 (cbounds c)) * (ry1 (cbounds c) - ry0 (cbounds c)) <= (rx1 (cbounds c) - rx0 (cbounds c)) * (ry1 (cbounds c0) - ry0 (cbounds c0))) by (apply Z.mul_le_mono_nonneg_l; lia).
  assert ((rx1 (cbounds c) - rx0 (cbounds c)) * (ry1 (cbounds c0) - ry0 (cbounds c0)) < (rx1 (cbounds c0) - rx0 (cbounds c0)) * (ry1 (cbounds c0) - ry0 (cbounds c0))) by (apply Z.mul_lt_mono_pos_r; lia).
  lia.
Qed.

Lemma mergeFaces_sound m d m' s : sound m -> callAllowed m (CMergeFaces d) -> mergeFaces m d = Ok (m', s) -> sound m' /\ callEffect m m' (CMergeFaces d) s.
Proof.
  intros Hm ((HlL & HlR) & Hsw) H. unfold mergeFaces in H.
  bnd H ll Ell. bnd H lf Elf. bnd H rl Erl. bnd H rf Erf. bnd H rd Erd. bnd H el Eel. bnd H e Ee. bnd H sl Esl. bnd H sf Esf. bnd H ml Eml. bnd H mf Emf.
  bnd H n1 En1. bnd H nd1 End1. bnd H n2 En2. bnd H nd2 End2.
  destruct (Z.eqb_spec (clabel (finf sf)) (clabel (finf mf))) as [|Hne]; [discriminate H|].
  bnd H c1 Ec1. bnd H c2 Ec2. bnd H a1 Ea1. bnd H a2 Ea2. bnd H a Ea. bnd H la Ela.
  destruct ((la =? clabel (einf e)) && negb (clabel (ninf nd1) =? clabel (ninf nd2))); [discriminate H|].
  bnd H m1 Em1. bnd H m2 Em2. bnd H m3 Em3. bnd H m4 Em4. bnd H m5 Em5. bnd H m6 Em6. bnd H m7 Em7. bnd H m8 Em8. injection H as <- <-.
  destruct (HlL ll Ell) as (cl & Hcl & Icl). destruct (HlR rl Erl) as (cr & Hcr & Icr).
  apply cells_face in Elf, Erf. destruct Elf as [Pll Elf]. destruct Erf as [Prl Erf]. rewrite Hcl in Elf. rewrite Hcr in Erf. injection Elf as ->. injection Erf as ->.
  (* which of the two is the survivor *)
  assert (edgeLabel (cim m) d = Ok el /\ ((sl = ll /\ ml = rl /\ rectArea (cbounds (finf rf)) <= rectArea (cbounds (finf lf))) \/
          (sl = rl /\ ml = ll /\ rectArea (cbounds (finf lf)) < rectArea (cbounds (finf rf))))) as [Hedge Hwho].
  { destruct (Z.ltb_spec (rectArea (cbounds (finf lf))) (rectArea (cbounds (finf rf)))) as [L|L].
    - destruct (Hsw rd Erd) as (Q0 & Q1 & Q2). split; [congruence|]. right. split; [congruence|]. split; [congruence | exact L].
    - injection Erd as <-. split; [exact Eel|]. left. split; [congruence|]. split; [congruence | exact L]. }
  apply cells_face in Esf, Emf. destruct Esf as [Psl Esf]. destruct Emf as [Pml Emf].
  assert (initialized (finf sf) = true /\ initialized (finf mf) = true) as [Is Im] by (destruct Hwho as [(-> & -> & _)|(-> & -> & _)]; split; congruence).
  destruct (live_facts m _ _ _ Hm (conj Esf Is)) as (Ls & Bs & Xs). rewrite Z2Nat.id in Ls, Bs, Xs by lia.
  destruct (live_facts m _ _ _ Hm (conj Emf Im)) as (Lm & Bm & Xm). rewrite Z2Nat.id in Lm, Bm, Xm by lia.
  assert (sl <> ml) as Nsm by congruence.
  assert (Z.to_nat ml <> 0%nat) as Nm0.
  { intros Z0. rewrite Z0 in Emf.
    assert (rectArea (cbounds (finf sf)) < rectArea (cbounds (finf mf))) as L by (apply (face0_largest m _ (Z.to_nat sl) _ Hm (conj Emf Im) (conj Esf Is)); lia).
    rewrite <- Z0 in Emf. destruct Hwho as [(E1 & E2 & L')|(E1 & E2 & L')]; subst sl ml.
    - rewrite Hcl in Esf. rewrite Hcr in Emf. injection Esf as Esf. injection Emf as Emf. rewrite Esf, Emf in L'. lia.
    - rewrite Hcr in Esf. rewrite Hcl in Emf. injection Esf as Esf. injection Emf as Emf. rewrite Esf, Emf in L'. lia. }
  (* the edge *)
  apply cells_edge in Ee. destruct Ee as [Pel Ee].
  apply contours_same in Em1. destruct Em1 as (I1 & C1 & N1).
  assert (initialized (einf e) = true) as Ie.
  { apply initialized_iff. apply (relabelCell_live _ _ _ _ _) with (2 := Em2). intros u. rewrite C1. apply (proj2 (proj1 Hm)). }
  destruct (live_facts m _ _ _ Hm (conj Ee Ie)) as (Le & Be & Xe). rewrite Z2Nat.id in Le, Be, Xe by lia.
  rewrite Le, Ls in Em2. rewrite Lm, Ls in Em3. rewrite <- I1 in Xe.
  destruct (relabelCell_spec m1 Line (Z.to_nat el) (einf e) Region sl) as (m2' & R2 & P2 & C2 & N2); try (rewrite ?Z2Nat.id by lia; rewrite ?C1; auto; lia).
  rewrite Z2Nat.id in R2, P2 by lia. rewrite R2 in Em2. injection Em2 as <-.
  assert (exactRect (owns (cim m2') Region ml) (cbounds (finf mf))) as Xm2.
  { apply (exactRect_ext (owns (cim m) Region ml)); [|exact Xm]. intros x y. rewrite <- I1.
    rewrite (repainted_owns _ _ _ _ _ _ P2 ltac:(discriminate)). split; [intros K; left; split; [exact K | discriminate] | intros [[K _]|[[= K] _]]; [exact K | congruence]]. }
  destruct (relabelCell_spec m2' Region (Z.to_nat ml) (finf mf) Region sl) as (m3' & R3 & P3 & C3 & N3); try (rewrite ?Z2Nat.id by lia; rewrite ?C2, ?C1; auto; lia).
  rewrite Z2Nat.id in R3, P3 by lia. rewrite R3 in Em3. injection Em3 as <-.
  apply dropDegree_same in Em4, Em5. destruct Em4 as (I4 & C4 & N4). destruct Em5 as (I5 & C5 & N5).
  assert (forall u, cellsOf m5 u = cellsOf m u) as C05 by (intros u; rewrite C5, C4, C3, C2, C1; reflexivity).
  assert (forall u, countOf m5 u = countOf m u) as N05 by (intros u; rewrite N5, N4, N3, N2, N1; reflexivity).
  apply (face_info _ _ _ _ (finf sf)) in Em6; [|rewrite C05; exact Esf].
  pose proof (changed_nth _ _ _ _ _ Em6 ltac:(rewrite C05; apply nth_error_lt with (1 := Esf))) as V6.
  assert (nth_error (cellsOf m6 Line) (Z.to_nat el) = Some (einf e)) as He6 by (rewrite V6; cbn [ctypeEqb andb]; rewrite C05; exact Ee).
  apply (edge_info _ _ _ _ (einf e)) in Em7; [|exact He6].
  pose proof (changed_nth _ _ _ _ _ Em7 ltac:(apply nth_error_lt with (1 := He6))) as V7.
  assert (nth_error (cellsOf m7 Region) (Z.to_nat ml) = Some (finf mf)) as Hm7.
  { rewrite V7. cbn [ctypeEqb andb]. rewrite V6. cbn [ctypeEqb andb]. destruct (Nat.eqb_spec (Z.to_nat ml) (Z.to_nat sl)); [lia|]. rewrite C05. exact Emf. }
  apply (face_info _ _ _ _ (finf mf)) in Em8; [|exact Hm7].
  pose proof (changed_nth _ _ _ _ _ Em8 ltac:(apply nth_error_lt with (1 := Hm7))) as V8.
  destruct Em6 as (I6 & _ & N6). destruct Em7 as (I7 & _ & N7). destruct Em8 as (I8 & _ & N8).
  assert (sound (addCounts m8 0 (-1) (-1)) /\ takenOver m (addCounts m8 0 (-1) (-1)) Region (Z.of_nat (Z.to_nat sl)) [(Line, Z.of_nat (Z.to_nat el)); (Region, Z.of_nat (Z.to_nat ml))]) as [S T].
  { apply (two_absorb m _ (cim m2') Region (Z.to_nat sl) (finf sf) Line (Z.to_nat el) (einf e) Region (Z.to_nat ml) (finf mf) Hm).
    - split; auto.
    - split; auto.
    - split; auto.
    - discriminate.
    - discriminate.
    - discriminate.
    - discriminate.
    - discriminate.
    - intros [= K]. lia.
    - intros [= K]. lia.
    - discriminate.
    - rewrite !Z2Nat.id by lia. rewrite <- I1. exact P2.
    - cbn [cim addCounts]. rewrite I8, I7, I6, I5, I4, !Z2Nat.id by lia. exact P3.
    - intros u l. rewrite addCounts_cells, V8, V7, V6, C05.
      destruct u; cbn [ctypeEqb andb]; try reflexivity.
      destruct (Nat.eqb_spec l (Z.to_nat ml)) as [->|]; [|destruct (Nat.eqb_spec l (Z.to_nat sl)); reflexivity].
      destruct (Nat.eqb_spec (Z.to_nat ml) (Z.to_nat sl)); [lia | reflexivity].
    - discriminate.
    - intros u. apply (counts_one m m8 0 (-1) (-1) (fun t => ctypeEqb t Line || ctypeEqb t Region) u Hm); [intros v; rewrite N8, N7, N6; apply N05 | intros []; reflexivity]. }
  rewrite !Z2Nat.id in T by lia. split; [exact S|]. cbn [callEffect]. exists el, ml, ll, rl. split; [exact Hedge|]. split; [exact Ell|]. split; [exact Erl|].
  split; [destruct Hwho as [(-> & -> & _)|(-> & -> & _)]; auto | exact T].
Qed.

(** ** mergeEdges *)

Lemma sigmaLoop_line n im : forall fuel d d', sigmaLoop fuel im n d = Ok d' -> isSingular im d' = Ok false.
Proof.
  induction fuel as [|k IH]; intros d d' H; [discriminate H|]. cbn [sigmaLoop] in H. bnd H p Ep.
  destruct (ctypeEqb (ptype p) Line) eqn:E.
  - injection H as <-. unfold isSingular. rewrite Ep. cbn [bind]. rewrite E. reflexivity.
  - bnd H d2 Ed2. exact (IH d2 d' H).
Qed.
Lemma sigmaStep_line im n d d' : isSingular im d = Ok false -> sigmaStep im n d = Ok d' -> isSingular im d' = Ok false.
Proof. intros Hs H. unfold sigmaStep in H. rewrite Hs in H. cbn [bind] in H. bnd H d1 E1. exact (sigmaLoop_line _ _ _ _ _ H). Qed.
Lemma sigmaStep_single im n d d' : isSingular im d = Ok true -> sigmaStep im n d = Ok d' -> d' = d.
Proof. intros Hs H. unfold sigmaStep in H. rewrite Hs in H. cbn [bind] in H. congruence. Qed.

(** darts that compare equal *)
Lemma dartEqb_true a b : dartEqb a b = true <-> dcx a = dcx b /\ dcy a = dcy b /\ ddir a mod 8 = ddir b mod 8.
Proof. unfold dartEqb. rewrite !andb_true_iff, !Z.eqb_eq. tauto. Qed.
Lemma dartEqb_turn a b n : dartEqb a b = true -> turn n a = turn n b.
Proof.
  rewrite dartEqb_true. intros (A & B & C). unfold turn. f_equal; auto. rewrite (Z.add_mod (ddir a)), (Z.add_mod (ddir b)), C by discriminate. reflexivity.
Qed.
Lemma dartEqb_pix im a b n : dartEqb a b = true -> neighborPix im a n = neighborPix im b n.
Proof.
  intros H. pose proof (dartEqb_turn a b n H) as T. apply dartEqb_true in H. destruct H as (A & B & _). unfold turn in T. injection T as _ _ T.
  unfold neighborPix. rewrite T, A, B. reflexivity.
Qed.
Lemma dartEqb_sigma im a b n : dartEqb a b = true -> isSingular im a = Ok false -> sigmaStep im n a = sigmaStep im n b.
Proof.
  intros H Hs. assert (isSingular im b = Ok false) as Hs' by (unfold isSingular in *; rewrite <- (dartEqb_pix im a b 0 H); exact Hs).
  unfold sigmaStep. rewrite Hs, Hs'. cbn [bind]. unfold trySigma. rewrite (dartEqb_turn a b n H). reflexivity.
Qed.
Lemma dartEqb_edge im a b : dartEqb a b = true -> edgeLabel im a = edgeLabel im b.
Proof. intros H. unfold edgeLabel. rewrite (dartEqb_pix im a b 0 H). reflexivity. Qed.
Lemma dartEqb_node im a b : dartEqb a b = true -> startNodeLabel im a = startNodeLabel im b.
Proof. rewrite dartEqb_true. intros (A & B & _). unfold startNodeLabel, centerPix. rewrite A, B. reflexivity. Qed.

Lemma mergeEdges_sound m d m' s : sound m -> mergeEdges m d = Ok (m', s) -> sound m' /\ callEffect m m' (CMergeEdges d) s.
Proof.
  intros Hm H. unfold mergeEdges in H.
  bnd H d1 Ed1. bnd H l0 El0. bnd H e0 Ee0. bnd H l1 El1. bnd H e1 Ee1.
  set (fs := rectArea (cbounds (einf e0)) <? rectArea (cbounds (einf e1))) in *.
  bnd H d2 Ed2. bnd H ml Eml. bnd H me Eme. bnd H nl Enl. bnd H n En. bnd H d3 Ed3. bnd H sl Esl. bnd H se Ese. bnd H q Eqq.
  destruct q; [|discriminate H]. cbn [negb] in H.
  destruct (Z.eqb_spec (clabel (einf se)) (clabel (einf me))) as [|Hne]; [discriminate H|].
  bnd H fl Efl. bnd H nl1 Enl1. bnd H m1 Em1. bnd H fr Efr. bnd H m2 Em2. bnd H a1 Ea1. bnd H a2 Ea2.
  bnd H m3 Em3. bnd H m4 Em4. bnd H m5 Em5. bnd H m6 Em6. bnd H m7 Em7. bnd H m8 Em8. injection H as <- <-.
  apply cells_edge in Eme, Ese. destruct Eme as [Pml Eme]. destruct Ese as [Psl Ese]. apply cells_node in En. destruct En as [Pnl En].
  (* the dart is not singular *)
  assert (isSingular (cim m) d = Ok false) as Sd.
  { unfold nextSigma in *. destruct (isSingular (cim m) d) as [[]| | |] eqn:Es; try (unfold sigmaStep in Ed1; rewrite Es in Ed1; discriminate Ed1); [|reflexivity].
    exfalso. pose proof (sigmaStep_single _ _ _ _ Es Ed1) as ->.
    assert (d2 = d) as -> by (destruct fs; [exact (sigmaStep_single _ _ _ _ Es Ed2) | congruence]).
    pose proof (sigmaStep_single _ _ _ _ Es Ed3) as ->. rewrite Eml in Esl. injection Esl as ->. rewrite Eme in Ese. injection Ese as K. congruence. }
  assert (isSingular (cim m) d1 = Ok false) as Sd1 by exact (sigmaStep_line _ _ _ _ Sd Ed1).
  assert (isSingular (cim m) d2 = Ok false) as Sd2 by (destruct fs; [exact (sigmaStep_line _ _ _ _ Sd1 Ed2) | congruence]).
  assert (isSingular (cim m) d3 = Ok false) as Sd3 by exact (sigmaStep_line _ _ _ _ Sd2 Ed3).
  (* survivor and merged edge are the edges of the two darts of the node *)
  assert (((edgeLabel (cim m) d = Ok sl /\ edgeLabel (cim m) d1 = Ok ml) \/ (edgeLabel (cim m) d = Ok ml /\ edgeLabel (cim m) d1 = Ok sl)) /\
          (startNodeLabel (cim m) d = Ok nl \/ startNodeLabel (cim m) d1 = Ok nl)) as [Hwho Hnode].
  { destruct fs.
    - unfold dartEq in Eqq. rewrite Sd2 in Eqq. cbn [bind negb] in Eqq. injection Eqq as Eqq. split.
      + right. rewrite <- (dartEqb_edge _ _ _ Eqq). split; [exact Eml|].
        unfold nextSigma in *. rewrite (dartEqb_sigma _ _ _ _ Eqq Sd2) in Ed3. congruence.
      + left. rewrite <- (dartEqb_node _ _ _ Eqq). exact Enl.
    - injection Ed2 as ->. unfold dartEq in Eqq. rewrite Sd3 in Eqq. cbn [bind negb] in Eqq. injection Eqq as Eqq. split.
      + left. rewrite <- (dartEqb_edge _ _ _ Eqq). split; [exact Esl | exact Eml].
      + right. exact Enl. }
  destruct (edge_live m d3 sl Hm Sd3 Esl) as (Bsl & cs & Hcs & Is). rewrite Ese in Hcs. injection Hcs as <-.
  destruct (edge_live m d2 ml Hm Sd2 Eml) as (Bml & cm & Hcm & Im). rewrite Eme in Hcm. injection Hcm as <-.
  destruct (live_facts m _ _ _ Hm (conj Ese Is)) as (Ls & Bs & Xs). rewrite Z2Nat.id in Ls, Bs, Xs by lia.
  destruct (live_facts m _ _ _ Hm (conj Eme Im)) as (Lm & Bm & Xm). rewrite Z2Nat.id in Lm, Bm, Xm by lia.
  assert (sl <> ml) as Nsm by congruence.
  apply leaveNode_same in Em1. apply darts_same in Em3.
  assert (sameCells m1 m2) as S2 by (destruct (fl =? fr); [injection Em2 as <-; split; [reflexivity | split; reflexivity] | apply leaveNode_same in Em2; exact Em2]).
  pose proof (sameCells_trans _ _ _ (sameCells_trans _ _ _ Em1 S2) Em3) as (I3 & C3 & N3).
  assert (initialized (ninf n) = true) as In_.
  { apply initialized_iff. apply (relabelCell_live _ _ _ _ _) with (2 := Em4). intros u. rewrite C3. apply (proj2 (proj1 Hm)). }
  destruct (live_facts m _ _ _ Hm (conj En In_)) as (Ln & Bn & Xn). rewrite Z2Nat.id in Ln, Bn, Xn by lia.
  rewrite Ln, Ls in Em4. rewrite Lm, Ls in Em5. rewrite <- I3 in Xn.
  destruct (relabelCell_spec m3 Vertex (Z.to_nat nl) (ninf n) Line sl) as (m4' & R4 & P4 & C4 & N4); try (rewrite ?Z2Nat.id by lia; rewrite ?C3; auto; lia).
  rewrite Z2Nat.id in R4, P4 by lia. rewrite R4 in Em4. injection Em4 as <-.
  assert (exactRect (owns (cim m4') Line ml) (cbounds (einf me))) as Xm4.
  { apply (exactRect_ext (owns (cim m) Line ml)); [|exact Xm]. intros x y. rewrite <- I3.
    rewrite (repainted_owns _ _ _ _ _ _ P4 ltac:(discriminate)). split; [intros K; left; split; [exact K | discriminate] | intros [[K _]|[[= K] _]]; [exact K | congruence]]. }
  destruct (relabelCell_spec m4' Line (Z.to_nat ml) (einf me) Line sl) as (m5' & R5 & P5 & C5 & N5); try (rewrite ?Z2Nat.id by lia; rewrite ?C4, ?C3; auto; lia).
  rewrite Z2Nat.id in R5, P5 by lia. rewrite R5 in Em5. injection Em5 as <-.
  assert (forall u, cellsOf m5' u = cellsOf m u) as C05 by (intros u; rewrite C5, C4, C3; reflexivity).
  assert (forall u, countOf m5' u = countOf m u) as N05 by (intros u; rewrite N5, N4, N3; reflexivity).
  apply (edge_info _ _ _ _ (einf se)) in Em6; [|rewrite C05; exact Ese].
  pose proof (changed_nth _ _ _ _ _ Em6 ltac:(rewrite C05; apply nth_error_lt with (1 := Ese))) as V6.
  assert (nth_error (cellsOf m6 Vertex) (Z.to_nat nl) = Some (ninf n)) as He6 by (rewrite V6; cbn [ctypeEqb andb]; rewrite C05; exact En).
  apply (node_info _ _ _ _ (ninf n)) in Em7; [|exact He6].
  pose proof (changed_nth _ _ _ _ _ Em7 ltac:(apply nth_error_lt with (1 := He6))) as V7.
  assert (nth_error (cellsOf m7 Line) (Z.to_nat ml) = Some (einf me)) as Hm7.
  { rewrite V7. cbn [ctypeEqb andb]. rewrite V6. cbn [ctypeEqb andb]. destruct (Nat.eqb_spec (Z.to_nat ml) (Z.to_nat sl)); [lia|]. rewrite C05. exact Eme. }
  apply (edge_info _ _ _ _ (einf me)) in Em8; [|exact Hm7].
  pose proof (changed_nth _ _ _ _ _ Em8 ltac:(apply nth_error_lt with (1 := Hm7))) as V8.
  destruct Em6 as (I6 & _ & N6). destruct Em7 as (I7 & _ & N7). destruct Em8 as (I8 & _ & N8).
  assert (sound (addCounts m8 (-1) (-1) 0) /\ takenOver m (addCounts m8 (-1) (-1) 0) Line (Z.of_nat (Z.to_nat sl)) [(Vertex, Z.of_nat (Z.to_nat nl)); (Line, Z.of_nat (Z.to_nat ml))]) as [S T].
  { apply (two_absorb m _ (cim m4') Line (Z.to_nat sl) (einf se) Vertex (Z.to_nat nl) (ninf n) Line (Z.to_nat ml) (einf me) Hm).
    - split; auto.
    - split; auto.
    - split; auto.
    - discriminate.
    - discriminate.
    - discriminate.
    - discriminate.
    - discriminate.
    - intros [= K]. lia.
    - discriminate.
    - discriminate.
    - rewrite !Z2Nat.id by lia. rewrite <- I3. exact P4.
    - cbn [cim addCounts]. rewrite I8, I7, I6, !Z2Nat.id by lia. exact P5.
    - intros u l. rewrite addCounts_cells, V8, V7, V6, C05.
      destruct u; cbn [ctypeEqb andb]; try reflexivity.
      destruct (Nat.eqb_spec l (Z.to_nat ml)) as [->|]; [|destruct (Nat.eqb_spec l (Z.to_nat sl)); reflexivity].
      destruct (Nat.eqb_spec (Z.to_nat ml) (Z.to_nat sl)); [lia | reflexivity].
    - discriminate.
    - intros u. apply (counts_one m m8 (-1) (-1) 0 (fun t => ctypeEqb t Vertex || ctypeEqb t Line) u Hm); [intros v; rewrite N8, N7, N6; apply N05 | intros []; reflexivity]. }
  rewrite !Z2Nat.id in T by lia. split; [exact S|]. cbn [callEffect]. exists nl, ml, d1. split; [exact Ed1|]. split; [exact Hnode|]. split; [exact Hwho | exact T].
Qed.

(** ** Histories *)

Lemma cexec_sound m c m' s : sound m -> callAllowed m c -> cexec m c = Ok (m', s) -> sound m' /\ callEffect m m' c s.
Proof.
  intros Hm Ha H. destruct c as [d|d|d|d]; cbn [cexec] in H.
  - apply removeIsolatedNode_sound; auto.
  - apply mergeFaces_sound; auto.
  - apply removeBridge_sound; auto.
  - apply mergeEdges_sound; auto.
Qed.

Lemma chistory_sound m : chistory sound m -> sound m.
Proof. induction 1 as [m H|m c m' s H IH Ha He]; [exact H | apply (cexec_sound m c m' s IH Ha He)]. Qed.

(** the pixels of a cell: one rectangle, one number *)
Lemma live_exact m t l c : chistory sound m -> isCell m t l c ->
  clabel c = Z.of_nat l /\ exactRect (owns (cim m) t (Z.of_nat l)) (cbounds c) /\ (~ (t = Region /\ l = 0%nat) -> manyPixels (owns (cim m) t (Z.of_nat l)) (csize c)).
Proof. intros H [Hc Ic]. apply chistory_sound in H. destruct H as (_ & _ & (HC & _)). apply HC; auto. Qed.

Lemma removed_nothing m t l c : chistory sound m -> t <> ErrorType -> nth_error (cellsOf m t) l = Some c -> initialized c = false -> forall x y, ~ owns (cim m) t (Z.of_nat l) x y.
Proof.
  intros H Ht Hc Ic x y Ho. apply chistory_sound in H. destruct (pixel_live m x y t _ H Ho Ht) as (_ & c' & Hc' & Ic'). rewrite Nat2Z.id in Hc'. congruence.
Qed.

Lemma pixel_cell m t l x y : chistory sound m -> owns (cim m) t l x y -> t <> ErrorType -> exists c, isCell m t (Z.to_nat l) c /\ clabel c = l.
Proof.
  intros H Ho Ht. pose proof (chistory_sound m H) as Hs. destruct (pixel_live m x y t l Hs Ho Ht) as (B & c & Hc). exists c. split; [exact Hc|].
  destruct (live_exact m t _ c H Hc) as (E & _). rewrite E. lia.
Qed.

Lemma counts_exact m t : chistory sound m -> t <> ErrorType -> countOf m t = Z.of_nat (length (filter initialized (cellsOf m t))).
Proof. intros H. apply chistory_sound in H. destruct H as (_ & _ & (_ & _ & HN)). apply HN. Qed.

Lemma call_effect m c m' s : chistory sound m -> callAllowed m c -> cexec m c = Ok (m', s) -> callEffect m m' c s.
Proof. intros H Ha He. apply (cexec_sound m c m' s (chistory_sound m H) Ha He). Qed.

(** the infinite face is never merged away *)
Lemma infinite_stays m c m' s : chistory sound m -> callAllowed m c -> cexec m c = Ok (m', s) ->
  (exists c, isCell m Region 0 c) /\ (exists c, isCell m' Region 0 c).
Proof.
  intros H Ha He. assert (chistory sound m') as H' by (apply (ch_call sound m c m' s); auto). clear Ha He.
  assert (forall k, chistory sound k -> exists c, isCell k Region 0 c) as G; [|split; apply G; auto].
  intros k Hk. apply chistory_sound in Hk. assert (owns (cim k) Region 0 0 0) as Ho.
  { destruct Hk as ((W & _) & F & _). destruct W as (W1 & W2 & _). split; [lia|]. split; [lia|]. apply F; lia. }
  destruct (pixel_live k 0 0 Region 0 Hk Ho ltac:(discriminate)) as (_ & c0 & Hc). exists c0. exact Hc.
Qed.

(** ** Scanning a cell *)

Lemma rectAnd_inRect a b x y : inRect (rectAnd a b) x y <-> inRect a x y /\ inRect b x y.
Proof.
  unfold rectAnd. destruct (rectEmpty a) eqn:Ea.
  - unfold rectEmpty in Ea. apply orb_true_iff in Ea. rewrite !Z.leb_le in Ea. unfold inRect. lia.
  - destruct (rectEmpty b) eqn:Eb.
    + unfold rectEmpty in Eb. apply orb_true_iff in Eb. rewrite !Z.leb_le in Eb. unfold inRect. lia.
    + unfold inRect. cbn. lia.
Qed.

Lemma scan_exact m t l c crop : chistory sound m -> isCell m t l c -> exists ps, scanCell m t (Z.of_nat l) crop = Ok ps /\ Sorted.StronglySorted before ps /\
  forall x y, In (x, y) ps <-> owns (cim m) t (Z.of_nat l) x y /\ (crop = true -> 2 <= x < iw (cim m) - 2 /\ 2 <= y < ih (cim m) - 2).
Proof.
  intros H Hc. pose proof (chistory_sound m H) as Hs. destruct (live_facts m t l c Hs Hc) as (L & B & X). destruct Hc as [Hc Ic].
  unfold scanCell. assert (infoAt m t (Z.of_nat l) = Ok c) as -> by (apply infoAt_Ok; rewrite Nat2Z.id; split; [lia | exact Hc]).
  cbn [bind]. rewrite L, cellPixel_small by lia. pose proof (exactRect_fits _ _ _ _ X) as F.
  assert (fits (cim m) (scanRect (cim m) c crop)) as F'.
  { intros x y K. apply F. unfold scanRect in K. destruct crop; [apply rectAnd_inRect in K; tauto | exact K]. }
  destruct (visit_spec (cim m) (scanRect (cim m) c crop) (Pix t (Z.of_nat l)) F') as (ps & E & S & P).
  exists ps. split; [exact E|]. split; [exact S|]. intros x y. rewrite P. unfold scanRect. destruct crop.
  - rewrite rectAnd_inRect. unfold baseRect, inRect; cbn [rx0 rx1 ry0 ry1]. split.
    + intros ((K1 & K2) & K3). destruct (F x y K1) as [F1 F2]. split; [split; [exact F1 | split; [exact F2 | exact K3]] | intros _; exact K2].
    + intros (K & K2). split; [split; [apply X; exact K | apply K2; reflexivity] | apply K].
  - split.
    + intros (K1 & K3). destruct (F x y K1) as [F1 F2]. split; [split; [exact F1 | split; [exact F2 | exact K3]] | discriminate].
    + intros (K & _). split; [apply X; exact K | apply K].
Qed.

(** without cropping the number of steps is the size stored *)
Lemma sorted_NoDup ps : Sorted.StronglySorted before ps -> NoDup ps.
Proof.
  induction 1 as [|[x y] ps S IH F]; constructor; auto. intros K. rewrite Forall_forall in F. apply F in K. unfold before in K; cbn in K. lia.
Qed.
Lemma scan_size m t l c : chistory sound m -> isCell m t l c -> ~ (t = Region /\ l = 0%nat) ->
  exists ps, scanCell m t (Z.of_nat l) false = Ok ps /\ csize c = Z.of_nat (length ps).
Proof.
  intros H Hc N. destruct (scan_exact m t l c false H Hc) as (ps & E & S & P). exists ps. split; [exact E|].
  destruct (live_exact m t l c H Hc) as (_ & _ & M). apply (manyPixels_unique _ _ _ (M N)). exists ps. split; [apply sorted_NoDup; exact S|].
  split; [|reflexivity]. intros x y. rewrite P. split; [intros [K _]; exact K | intros K; split; [exact K | discriminate]].
Qed.
