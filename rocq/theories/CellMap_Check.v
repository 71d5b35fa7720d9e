(** The test of the bounds in checkConsistency() of the pixel based map. *)
From Verif Require Import Base CellMap_Model CellMap_Spec CellMap_Scan CellMap_Proofs CellMap_Main.
Local Open Scope Z_scope.

(** vigra's FindBoundingRectangle fed with the positions of a scan (inspectCell, cellimage.hxx 240-257) *)
Definition foundRect (ps : list (Z * Z)) : rect := fold_left (fun r p => rectOrPoint r (fst p) (snd p)) ps emptyRect.
(** foureightsegmentation.cxx 527-537 (nodes), 544-553 (edges) and 587-596 (faces): is the rectangle found while scanning the cell the stored one? *)
Definition checkCell (m : cmap) (t : ctype) (c : cinfo) : res bool :=
  ps <- scanCell m t (clabel c) false ;; let r := foundRect ps in let b := cbounds c in
  Ok ((rx0 r =? rx0 b) && (ry0 r =? ry0 b) && (rx1 r =? rx1 b) && (ry1 r =? ry1 b)).
(** the loops over the cells, 497, 541, 583; the iterators skip cells that are not initialized *)
Fixpoint checkCells (m : cmap) (t : ctype) (cs : list cinfo) : res bool :=
  match cs with
  | [] => Ok true
  | c :: rest => if initialized c then b <- checkCell m t c ;; b' <- checkCells m t rest ;; Ok (b && b') else checkCells m t rest
  end.
(** the part of checkConsistency(), 493-647, that looks at the bounds *)
Definition checkBounds (m : cmap) : res bool :=
  a <- checkCells m Vertex (map ninf (cnodes m)) ;; b <- checkCells m Line (map einf (cedges m)) ;; c <- checkCells m Region (map finf (cfaces m)) ;; Ok (a && b && c).

Lemma point_exact x y : exactRect (fun a b => (a, b) = (x, y)) (Rect x y (x + 1) (y + 1)).
Proof.
  split; [intros a b [= -> ->]; unfold inRect; cbn; lia|]. cbn.
  split; [exists y; reflexivity|]. split; [exists y; f_equal; lia|]. split; [exists x; reflexivity | exists x; f_equal; lia].
Qed.
Lemma fold_exact ps : forall P r, exactRect P r ->
  exactRect (fun x y => P x y \/ In (x, y) ps) (fold_left (fun r p => rectOrPoint r (fst p) (snd p)) ps r).
Proof.
  induction ps as [|[a b] ps IH]; intros P r H; cbn [fold_left fst snd].
  - refine (exactRect_ext _ _ _ _ H). intros x y. cbn. tauto.
  - pose proof (exactRect_or _ _ _ _ H (point_exact a b)) as H1. apply IH in H1. refine (exactRect_ext _ _ _ _ H1).
    intros x y. cbn. split; [intros [[K|K]|K]; auto | intros [K|[K|K]]; auto].
Qed.
Lemma foundRect_exact ps : ps <> [] -> exactRect (fun x y => In (x, y) ps) (foundRect ps).
Proof.
  destruct ps as [|[a b] ps]; [contradiction|]. intros _. unfold foundRect. cbn [fold_left fst snd].
  assert (rectOrPoint emptyRect a b = Rect a b (a + 1) (b + 1)) as -> by (unfold rectOrPoint, rectOr; rewrite rectEmpty_false by (cbn; lia); reflexivity).
  pose proof (fold_exact ps _ _ (point_exact a b)) as H. refine (exactRect_ext _ _ _ _ H). intros x y. cbn. split; intros [K|K]; auto.
Qed.

Lemma checkCell_true m t l c : chistory sound m -> isCell m t l c -> checkCell m t c = Ok true.
Proof.
  intros H Hc. destruct (live_exact m t l c H Hc) as (L & X & _). destruct (scan_exact m t l c false H Hc) as (ps & E & _ & Hp).
  unfold checkCell. rewrite L, E. cbn [bind].
  assert (exactRect (fun x y => In (x, y) ps) (cbounds c)) as X'.
  { refine (exactRect_ext _ _ _ _ X). intros x y. rewrite Hp. split; [intros K; split; [exact K | discriminate] | intros [K _]; exact K]. }
  assert (ps <> []) as N. { destruct X' as (_ & (b & B) & _). intros ->. exact B. }
  rewrite (exactRect_unique _ _ _ (foundRect_exact ps N) X'). rewrite !Z.eqb_refl. reflexivity.
Qed.
Lemma checkCells_true m t cs : chistory sound m -> (forall c, In c cs -> initialized c = true -> exists l, isCell m t l c) -> checkCells m t cs = Ok true.
Proof.
  intros H. induction cs as [|c cs IH]; intros K; cbn [checkCells]; [reflexivity|].
  assert (checkCells m t cs = Ok true) as E by (apply IH; intros d Hd; apply K; right; exact Hd).
  destruct (initialized c) eqn:I; [|exact E]. destruct (K c (or_introl eq_refl) I) as (l & Hl). rewrite (checkCell_true m t l c H Hl), E. reflexivity.
Qed.
Theorem check_passes m : chistory sound m -> checkBounds m = Ok true.
Proof.
  intros H. assert (forall t cs, cs = cellsOf m t -> checkCells m t cs = Ok true) as K.
  { intros t cs ->. apply checkCells_true; [exact H|]. intros c Hc I. apply In_nth_error in Hc. destruct Hc as (l & Hl). exists l. split; assumption. }
  unfold checkBounds. rewrite (K Vertex (map ninf (cnodes m)) eq_refl), (K Line (map einf (cedges m)) eq_refl), (K Region (map finf (cfaces m)) eq_refl). reflexivity.
Qed.
