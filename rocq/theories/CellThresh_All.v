(** What labelSelfLoops() leaves. *)
From Verif Require Import Base CellMap_Model CellMap_Spec CellMap_Scan CellMap_Init CellMap_InitProofs CellSigma_Spec CellSigma_Proofs CellSigma_Results CellLink_Spec CellLink_Proofs CellFace_Spec CellStart_Spec
  CellStart_Walk CellStart_Ends CellStart_Init CellThresh_Model CellThresh_Spec CellThresh_Paint CellThresh_Edges CellThresh_Loop CellThresh_Loops.
Local Open Scope Z_scope.

Section All.
Variable base : img.
Variables n e : Z.
Hypothesis Sh : shaped base.
Hypothesis Ed : edgesInOrder base e.
Hypothesis No : nodesInOrder base n.
(** only lines can be without label *)
Hypothesis Full : forall x y, 0 < x < iw base - 1 -> 0 < y < ih base - 1 -> labelOf base x y = 0 -> ptype (ipix base x y) = Line.

Definition looping (done : list (Z * Z)) (st : img * Z * Z) : Prop :=
  shaped (fst (fst st)) /\ edgesInOrder (fst (fst st)) (snd st) /\ nodesInOrder (fst (fst st)) (snd (fst st)) /\ since base (fst (fst st)) /\ forall x y, In (x, y) done -> labelOf (fst (fst st)) x y <> 0.

Lemma since_line cur u v : since base cur -> ptype (ipix cur u v) = Line -> ptype (ipix base u v) = Line.
Proof.
  intros (_ & _ & S1 & S2) T. assert (TD : forall p q : ctype, {p = q} + {p <> q}) by decide equality. destruct (TD (ptype (ipix base u v)) Line) as [|N]; [assumption|]. rewrite (S2 u v N) in T. contradiction.
Qed.
Lemma since_region cur u v : since base cur -> ptype (ipix cur u v) = Region <-> ptype (ipix base u v) = Region.
Proof.
  intros (_ & _ & S1 & S2). assert (TD : forall p q : ctype, {p = q} + {p <> q}) by decide equality. destruct (TD (ptype (ipix base u v)) Line) as [T|N]; [|rewrite (S2 u v N); reflexivity].
  destruct (S1 u v T) as [Q|[Q _]]; rewrite Q, T; split; discriminate.
Qed.
Lemma since_link cur d : since base cur -> link cur d <-> link base d.
Proof. intros S. unfold link, typeAt. rewrite !(since_region cur _ _ S). reflexivity. Qed.
Lemma since_lineAt cur u v : since base cur -> lineAt cur u v -> lineAt base u v.
Proof. intros S (X & Y & T). pose proof S as (W & H & _). rewrite W in X. rewrite H in Y. split; [exact X|]. split; [exact Y|]. apply (since_line cur u v S T). Qed.
Lemma since_along cur a b u v : since base cur -> along cur a b u v -> along base a b u v.
Proof. intros S A. induction A as [|u v k A IH Lk P]; [constructor|]. apply al_on; [exact IH|apply (since_link cur _ S), Lk|apply (since_lineAt cur _ _ S), P]. Qed.
(** a line without label has been left alone *)
Lemma cls_same cur x y u v : shaped cur -> (forall x y u v, lineAt cur x y -> along cur x y u v -> labelOf cur u v = labelOf cur x y) -> (forall d, isDart cur d -> labelOf cur (tx d) (ty d) <> 0) ->
  since base cur -> lineAt cur x y -> labelOf cur x y = 0 -> along base x y u v -> along cur x y u v.
Proof.
  intros (Fr & _ & _ & Pl & _) Const Met S Lv Zv A. induction A as [|u v k A IH Lk P]; [constructor|]. apply (since_link cur _ S) in Lk. apply (cls_step cur Fr Pl Const Met x y Lv Zv u v k IH Lk).
Qed.

Lemma loop_pixel done x y rest st : innerPoints base = done ++ (x, y) :: rest -> looping done st -> exists st', labelLoopPix st (x, y) = Ok st' /\ looping (done ++ [(x, y)]) st'.
Proof.
  intros El (S & E & N & Si & D). destruct st as [[cur n1] e1]. cbn [fst snd] in *. unfold labelLoopPix. cbn [fst snd]. pose proof Si as (SW & SH & S1 & S2).
  assert (Ixy : inRect (Rect 1 1 (iw base - 1) (ih base - 1)) x y) by (apply rectPoints_in; change (rectPoints (Rect 1 1 (iw base - 1) (ih base - 1))) with (innerPoints base); rewrite El; apply in_or_app; right; left; reflexivity).
  unfold inRect in Ixy. cbn [rx0 rx1 ry0 ry1] in Ixy. rewrite read_in by (rewrite ?SW, ?SH; lia). cbn [bind]. fold (labelOf cur x y).
  destruct (Z.eqb_spec (labelOf cur x y) 0) as [Z0|Nz]; cbn [negb].
  2: { eexists. split; [reflexivity|]. split; [exact S|]. split; [exact E|]. split; [exact N|]. split; [exact Si|]. cbn [fst snd]. intros u v I. apply in_app_or in I. destruct I as [I|[I|[]]]; [apply D, I|]. injection I as <- <-. exact Nz. }
  assert (Lv : lineAt cur x y).
  { split; [rewrite SW; lia|]. split; [rewrite SH; lia|]. assert (TD : forall p q : ctype, {p = q} + {p <> q}) by decide equality.
    assert (TB : ptype (ipix base x y) = Line).
    { destruct (TD (ptype (ipix base x y)) Line) as [|Nt]; [assumption|]. apply Full; [lia|lia|]. unfold labelOf in *. rewrite <- (S2 x y Nt). exact Z0. }
    destruct (S1 x y TB) as [T|[T _]]; [exact T|]. exfalso. destruct N as (_ & _ & _ & _ & B & _). assert (V : vertexAt cur x y) by (split; [rewrite SW; lia|split; [rewrite SH; lia|exact T]]). pose proof (B x y V). lia. }
  pose proof S as (Fr & Sl & Sm & Pl & W0 & H0 & Sz). pose proof E as (Const & Same & Has & Met & e0 & Bd & _ & (reps & Nr & Lr & Ir)).
  destruct (ways_exist cur Sl x y Lv) as (p & q & W). pose proof (way_body cur x y e1 S E Lv Z0) as WB. pose proof (WB p q W) as [Cp Hp]. pose proof (WB q p (ways_swap cur x y p q W)) as [Cq Hq].
  assert (E2 : e1 + 1 < 2 ^ 30).
  { assert (Q : Z.of_nat (length ((x + dirX p, y + dirY p) :: (x + dirX q, y + dirY q) :: reps)) <= iw cur * ih cur).
    { apply (points_count cur W0 H0 Sz).
      - assert (Nin : forall a b, cls cur x y a b -> ~ In (a, b) reps). { intros a b K I. apply (Ir a b I). apply (cls_zero cur Const x y Lv Z0 _ _ K). }
        constructor; [|constructor; [apply Nin, Cq|exact Nr]]. intros [I|I]; [|apply (Nin _ _ Cp I)]. injection I as IX IY. apply (proj1 W). apply dir_inj; [exact (proj1 (link_a cur x y p q W))|exact (proj1 (link_a cur x y q p (ways_swap cur x y p q W)))|lia|lia].
      - assert (In0 : forall a b, lineAt cur a b -> 0 <= a < iw cur /\ 0 <= b < ih cur) by (intros a b L; split; apply L).
        intros a b [I|[I|I]]; [injection I as <- <-; apply In0, (cls_line cur x y Lv), Cp|injection I as <- <-; apply In0, (cls_line cur x y Lv), Cq|apply In0, (Ir a b I)]. }
    cbn [length] in Q. lia. }
  assert (En : n1 + 1 < 2 ^ 30).
  { destruct N as (_ & _ & _ & _ & _ & _ & _ & _ & (vs & Nv & Lvs & Iv)). assert (Q : Z.of_nat (length ((x, y) :: vs)) <= iw cur * ih cur).
    { apply (points_count cur W0 H0 Sz).
      - constructor; [|exact Nv]. intros I. apply (here_not_vertex cur x y Lv), (Iv x y I).
      - intros a b [I|I]; [injection I as <- <-; split; apply Lv|]. destruct (Iv a b I) as (A1 & A2 & _). auto. }
    cbn [length] in Q. lia. }
  assert (N0 : 0 <= n1). { destruct N as (_ & _ & _ & _ & _ & N1 & _). lia. }
  rewrite (Z.mod_small (n1 + 1)) by lia. unfold writePix. assert (insideImg cur x y = true) as -> by (apply insideImg_iff; split; apply Lv). cbn [bind].
  assert (First : forall a b, cls cur x y a b -> y < b \/ (y = b /\ x <= a)).
  { intros a b A. pose proof (cls_line cur x y Lv a b A) as La. pose proof (line_is_inner cur Fr a b La) as [AX AY]. rewrite SW in AX. rewrite SH in AY.
    destruct (Z_lt_dec y b) as [|Q1]; [left; assumption|]. right. destruct (Z.eq_dec y b) as [Q2|Q2]; [split; [exact Q2|]|].
    - destruct (Z_le_dec x a) as [|Q3]; [assumption|]. exfalso. apply (D a b); [|apply (cls_zero cur Const x y Lv Z0 a b A)]. apply (row_first _ _ _ _ _ a b El); [unfold inRect; cbn; lia|unfold before; cbn; lia].
    - exfalso. apply (D a b); [|apply (cls_zero cur Const x y Lv Z0 a b A)]. apply (row_first _ _ _ _ _ a b El); [unfold inRect; cbn; lia|unfold before; cbn; lia]. }
  assert (First4 : forall k, 1 <= k <= 4 -> ~ cls cur x y (x + dirX k) (y + dirY k)).
  { intros k K C. apply First in C. assert (k = 1 \/ k = 2 \/ k = 3 \/ k = 4) as [->|[->|[->| ->]]] by lia; cbn in C; lia. }
  destruct (neighbours_done cur Fr Sl Sm Pl Const Met x y Lv Z0 First4 (n1 + 1) e1 e0 E2) as (cur' & Ef & Co). assert (Ee : e1 + 1 = e1 + 1) by reflexivity. set (e' := e1 + 1) in *. unfold im1 in Ef. rewrite Ef. cbn [bind fst snd].
  eexists. split; [reflexivity|]. unfold looping. cbn [fst snd].
  assert (Shp : shaped cur') by (apply (shape_now cur cur' x y n1 e' S Lv Co)).
  split; [exact Shp|]. split; [apply (edges_now cur cur' x y n1 e1 e' S E Lv Z0 Ee E2 Co)|]. split; [apply (nodes_now cur cur' x y n1 e1 e' S E N Lv Z0 En Ee Co)|].
  assert (Here : ipix cur' x y = Pix Vertex (n1 + 1)) by (apply (here_pixel cur cur' x y n1 e' N En Co)).
  assert (Other : forall u v, ~ cls cur x y u v -> ipix cur' u v = ipix cur u v) by (intros u v; apply (other_pixel cur cur' x y n1 e' Co)).
  assert (Types : sameTypes (im1 cur x y (n1 + 1)) cur') by apply Co.
  split.
  - split; [rewrite (same_w _ _ Types); exact SW|]. split; [rewrite (same_h _ _ Types); exact SH|]. split.
    + intros u v T. rewrite (same_t _ _ Types). destruct (here_dec x y u v) as [[-> ->]|Nh]; [|rewrite im1_other by exact Nh; apply S1, T].
      right. rewrite im1_here. split; [reflexivity|]. assert (Lb : lineAt base x y) by (apply (since_lineAt cur x y Si Lv)).
      assert (Cs : forall u v, along base x y u v -> cls cur x y u v) by (intros u v; apply (cls_same cur x y u v S Const Met Si Lv Z0)). split.
      * split; [exact Lb|]. intros a b k A Lk. apply (since_lineAt cur _ _ Si). apply (cls_link cur Fr Pl Const Met x y Lv Z0 a b k (Cs a b A)). apply (since_link cur _ Si), Lk.
      * intros a b A. apply First, Cs, A.
    + intros u v T. rewrite Other; [apply S2, T|]. intros C. apply T. apply (since_line cur u v Si). apply (cls_line cur x y Lv u v C).
  - intros u v I. apply in_app_or in I. destruct I as [I|[I|[]]].
    + unfold labelOf. rewrite Other; [apply D, I|]. intros C. apply (D u v I). apply (cls_zero cur Const x y Lv Z0 u v C).
    + injection I as <- <-. unfold labelOf. rewrite Here. cbn [plabel]. lia.
Qed.
Theorem loops_done : exists cur n' e', labelSelfLoops base n e = Ok (cur, n', e') /\ shaped cur /\ edgesInOrder cur e' /\ nodesInOrder cur n' /\ since base cur /\
  forall x y, 0 < x < iw base - 1 -> 0 < y < ih base - 1 -> labelOf cur x y <> 0.
Proof.
  unfold labelSelfLoops. destruct (forEach_total labelLoopPix looping (innerPoints base)) with (s := (base, n, e)) as (st & Es & Is).
  - intros done [x y] rest st El I. exact (loop_pixel done x y rest st El I).
  - split; [exact Sh|]. split; [exact Ed|]. split; [exact No|]. split; [|intros x y []]. cbn [fst snd]. split; [reflexivity|]. split; [reflexivity|]. split; [intros x y T; left; exact T|reflexivity].
  - destruct st as [[cur n'] e']. destruct Is as (S & E & N & Si & D). cbn [fst snd] in *. exists cur, n', e'. split; [exact Es|]. split; [exact S|]. split; [exact E|]. split; [exact N|]. split; [exact Si|].
    intros x y X Y. apply D. apply rectPoints_in. unfold inRect. cbn. lia.
Qed.

(** which pixels become nodes *)
Lemma new_nodes cur e' x y : shaped cur -> edgesInOrder cur e' -> since base cur -> (forall x y, 0 < x < iw base - 1 -> 0 < y < ih base - 1 -> labelOf cur x y <> 0) ->
  lineAt base x y -> vertexAt cur x y <-> closedLine base x y /\ firstPixel base x y.
Proof.
  intros S E Si All L. pose proof Si as (SW & SH & S1 & S2). split.
  - intros (_ & _ & T). destruct (S1 x y (proj2 (proj2 L))) as [Q|[_ Q]]; [congruence|exact Q].
  - intros [C F]. pose proof L as (X & Y & T). destruct (S1 x y T) as [Q|[Q _]]; [|split; [rewrite SW; exact X|split; [rewrite SH; exact Y|exact Q]]]. exfalso.
    pose proof S as (Fr & _). pose proof E as (Const & Same & Has & Met & _).
    assert (Lc : lineAt cur x y) by (split; [rewrite SW; exact X|split; [rewrite SH; exact Y|exact Q]]). pose proof (line_is_inner cur Fr x y Lc) as [IX IY]. rewrite SW in IX. rewrite SH in IY.
    pose proof (All x y IX IY) as Nz. destruct (Has x y Lc Nz) as (d & Dd & Ld). pose proof (dart_pixel cur Fr d Dd) as Lp. pose proof (Same _ _ _ _ Lc Lp (eq_sym Ld) Nz) as A. apply (since_along cur _ _ _ _ Si) in A.
    pose proof (dart_half cur Fr d Dd) as (Lk & _ & Nr). pose proof (link_back cur d Lk Nr) as Lb. apply (since_link cur _ Si) in Lb.
    destruct (back_target d (proj1 Lk)) as [Bx By].
    assert (Lcen : lineAt base (tx (back d)) (ty (back d))) by exact (proj2 C _ _ _ A Lb).
    assert (Ac : along base x y (tx (back d)) (ty (back d))) by exact (al_on base x y _ _ _ A Lb Lcen). rewrite Bx, By in Lcen, Ac.
    destruct (S1 _ _ (proj2 (proj2 Lcen))) as [Tq|(_ & _ & Fc)]; [destruct Dd as ((_ & _ & V) & _); congruence|].
    pose proof (F _ _ Ac) as F1. pose proof (Fc _ _ (along_sym base _ _ _ _ L Ac)) as F2. assert (dcx d = x /\ dcy d = y) as [Ex Ey] by lia. destruct Dd as ((_ & _ & V) & _). rewrite Ex, Ey in V. congruence.
Qed.
End All.
