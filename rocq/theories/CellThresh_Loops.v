(** labelSelfLoops(): every closed line gets a node. *)
From Verif Require Import Base CellMap_Model CellMap_Spec CellMap_Scan CellMap_Init CellMap_InitProofs CellSigma_Spec CellSigma_Proofs CellSigma_Results CellLink_Spec CellLink_Proofs CellFace_Spec CellStart_Spec
  CellStart_Walk CellStart_Ends CellStart_Init CellThresh_Model CellThresh_Spec CellThresh_Paint CellThresh_Edges CellThresh_Loop.
Local Open Scope Z_scope.

Lemma dir_inj j k : 0 <= j < 8 -> 0 <= k < 8 -> dirX j = dirX k -> dirY j = dirY k -> j = k.
Proof.
  intros J K. apply dir8 in J. apply dir8 in K.
  destruct J as [->|[->|[->|[->|[->|[->|[->| ->]]]]]]], K as [->|[->|[->|[->|[->|[->|[->| ->]]]]]]]; cbn; intros; (reflexivity || lia).
Qed.

(** ** The neighbours of one new node *)
Section Step.
Variable im : img.
Hypothesis Fr : framed im.
Hypothesis Sl : slim im.
Hypothesis Sm : smooth im.
Hypothesis Pl : plain im.
Hypothesis Const : forall x y u v, lineAt im x y -> along im x y u v -> labelOf im u v = labelOf im x y.
Hypothesis Met : forall d, isDart im d -> labelOf im (tx d) (ty d) <> 0.
Variables x y : Z.
Hypothesis Lv : lineAt im x y.
Hypothesis Zv : labelOf im x y = 0.
(** (x, y) is the first pixel of its line *)
Hypothesis First : forall k, 1 <= k <= 4 -> ~ cls im x y (x + dirX k) (y + dirY k).
Variables node e : Z.
Hypothesis E0 : 0 <= e.
Hypothesis E2 : e + 1 < 2 ^ 30.
Let m1 := im1 im x y node.
Let body (u v : Z) : Prop := cls im x y u v /\ ~ (u = x /\ v = y).
Definition unlabelled (done : list Z) (st : img * Z) : Prop := st = (m1, e) /\ forall k, In k done -> ~ link im (Dart x y k).
Definition labelled (st : img * Z) : Prop := snd st = e + 1 /\ coloured im x y node m1 (fst st) body (snd st).
Lemma m1_body u v : body u v -> labelOf m1 u v = 0.
Proof. intros [C N]. unfold labelOf, m1. rewrite im1_other by exact N. apply (cls_zero im Const x y Lv Zv u v C). Qed.
Lemma label_of l : 0 <= l < 2 ^ 30 -> plabel (cellPixel Line l) = l. Proof. intros H. rewrite label_small by exact H. reflexivity. Qed.
Lemma way_pair k : link im (Dart x y k) -> exists b, twoWays im x y k b.
Proof. intros Lk. destruct (ways_exist im Sl x y Lv) as (a & b & Ab). apply Ab in Lk as Q. destruct Q as [->| ->]; [exists b; exact Ab|exists a; exact (ways_swap im x y _ _ Ab)]. Qed.
Lemma near k : 0 <= k < 8 -> ptype (ipix m1 (x + dirX k) (y + dirY k)) = Line -> body (x + dirX k) (y + dirY k) /\ ptype (ipix im (x + dirX k) (y + dirY k)) <> Region.
Proof.
  intros K T. pose proof (step_moves x y k K) as N. unfold m1 in T. rewrite im1_other in T by exact N. split; [|rewrite T; discriminate].
  split; [|exact N]. apply (around_cls im Fr Pl Const Met x y Lv Zv k K). rewrite T. discriminate.
Qed.
Lemma link_dec k : 0 <= k < 8 -> {link im (Dart x y k)} + {~ link im (Dart x y k)}.
Proof.
  intros K. destruct (linkR (ringOf im x y) k) eqn:Er; [left; apply link_ring; auto|right]. intros Lk. apply link_ring in Lk. destruct Lk. congruence.
Qed.
(** the first neighbour that belongs to the line is a way along it *)
Lemma first_is_way done k rest : [0; 1; 2; 3; 4; 5; 6; 7] = done ++ k :: rest -> (forall j, In j done -> ~ link im (Dart x y j)) -> 0 <= k < 8 ->
  ptype (ipix im (x + dirX k) (y + dirY k)) <> Region -> link im (Dart x y k).
Proof.
  intros El F K T. assert (In0 : forall j, 0 <= j < k -> In j done).
  { intros j J. assert (I : In j (done ++ k :: rest)) by (rewrite <- El; cbn; lia). apply in_app_or in I. destruct I as [I|I]; [exact I|exfalso].
    assert (Ln : forall (l1 l2 : list Z) a, map Z.of_nat (seq a (length (l1 ++ k :: l2))) = l1 ++ k :: l2 -> forall i, In i (k :: l2) -> k <= i).
    { clear. induction l1 as [|h t IH]; intros l2 a E i I; cbn in E.
      - injection E as E1 E2. destruct I as [<-|I]; [lia|]. rewrite <- E2 in I. apply in_map_iff in I. destruct I as (q & <- & Q). apply in_seq in Q. lia.
      - injection E as _ E2. exact (IH l2 (Datatypes.S a) E2 i I). }
    specialize (Ln done rest O). rewrite <- El in Ln. specialize (Ln eq_refl j I). lia. }
  destruct (link_dec k K) as [|Nk]; [assumption|exfalso]. destruct (corner_of im x y k K T Nk) as (Od & s & Ss & Lc).
  pose proof (around_cls im Fr Pl Const Met x y Lv Zv k K T) as Ck. assert (K57 : k = 5 \/ k = 7). { destruct (Z_le_dec 1 k); [destruct (Z_le_dec k 4); [exfalso; apply (First k); [lia|exact Ck]|]|]; [|exfalso; assert (k = 0) as -> by lia; discriminate Od]. assert (k = 6 -> False) by (intros ->; discriminate Od). lia. }
  assert (Cl : forall j, link im (Dart x y j) -> cls im x y (x + dirX j) (y + dirY j)) by (intros j L; apply (cls_step im Fr Pl Const Met x y Lv Zv x y j (cls_here im x y) L)).
  destruct K57 as [-> | ->], Ss as [-> | ->]; cbn in Lc.
  - destruct (way_pair 6 Lc) as (b & Ab). pose proof (link_a im x y b 6 (ways_swap im x y _ _ Ab)) as Lb. pose proof (proj1 Lb) as Rb. cbn [ddir] in Rb.
    assert (b = 7) as -> by (assert (b <> 6) by (intros ->; apply (proj1 Ab); reflexivity); assert (~ 0 <= b < 5) by (intros Q; apply (F b (In0 b Q)), Lb); assert (b <> 5) by (intros ->; contradiction); lia).
    destruct Lb as (_ & _ & Q). specialize (Q eq_refl). destruct Q as [_ Q]. destruct Lc as (_ & L0 & _). apply L0. exact Q.
  - apply (F 4); [apply In0; lia|exact Lc].
  - apply (F 0); [apply In0; lia|exact Lc].
  - apply (F 6); [apply In0; lia|exact Lc].
Qed.
Lemma neighbour_step done k rest st : [0; 1; 2; 3; 4; 5; 6; 7] = done ++ k :: rest -> unlabelled done st \/ labelled st ->
  exists st', labelLoopFrom x y st k = Ok st' /\ (unlabelled (done ++ [k]) st' \/ labelled st').
Proof.
  intros El Inv. assert (K : 0 <= k < 8). { assert (In k [0; 1; 2; 3; 4; 5; 6; 7]) as I by (rewrite El; apply in_or_app; right; left; reflexivity). cbn in I. lia. }
  assert (S : sameTypes m1 (fst st)). { destruct Inv as [[-> _]|(_ & (S & _))]; [apply same_refl|exact S]. }
  pose proof (line_is_inner im Fr x y Lv) as [IX IY].
  unfold labelLoopFrom. rewrite (inner_read (fst st) (Dart x y k) 0) by (unfold inner; cbn [dcx dcy]; rewrite (same_w _ _ S), (same_h _ _ S); exact (conj IX IY)). cbn [bind dcx dcy ddir]. rewrite mod8_id by exact K.
  rewrite (same_t _ _ S). destruct (ctypeEqb (ptype (ipix m1 (x + dirX k) (y + dirY k))) Line) eqn:Et; cbn [negb].
  2: { apply CellSigma_Proofs.ctypeEqb_ne in Et. exists st. split; [reflexivity|].
       assert (Nl : ~ link im (Dart x y k)).
       { intros Lk. destruct (way_pair k Lk) as (b & Ab). destruct (first_line im Fr Pl Const Met x y Lv Zv node k b Ab) as (_ & _ & T). contradiction. }
       destruct Inv as [[E1 F1]|L]; [left; split; [exact E1|]; intros j J; apply in_app_or in J; destruct J as [J|[<-|[]]]; auto|right; exact L]. }
  apply CellSigma_Proofs.ctypeEqb_eq in Et. destruct (near k K Et) as [Bk Tk]. change (plabel (ipix (fst st) (x + dirX k) (y + dirY k))) with (labelOf (fst st) (x + dirX k) (y + dirY k)).
  destruct Inv as [[-> F1]|Lb]; cbn [fst snd] in *.
  - rewrite (m1_body _ _ Bk). cbn [Z.eqb negb]. rewrite Z.mod_small by lia. pose proof (first_is_way done k rest El F1 K Tk) as Lk.
    destruct (way_pair k Lk) as (b & Ab). destruct (from_way im Fr Sl Sm Pl Const Met x y Lv Zv node k b m1 (e + 1) Ab (same_refl _)) as (c' & -> & Co). cbn [bind]. eexists. split; [reflexivity|]. right. split; [reflexivity|exact Co].
  - destruct st as [cur e']. cbn [fst snd] in *. destruct Lb as [Ee (_ & On & Off)]. cbn [fst snd] in *. unfold labelOf. rewrite On by exact Bk. rewrite label_of by lia. destruct (Z.eqb_spec e' 0) as [Z1|_]; [lia|]. cbn [negb].
    eexists. split; [reflexivity|]. right. split; [exact Ee|]. split; [exact S|]. split; [exact On|exact Off].
Qed.
Lemma neighbours_done : exists cur', forEach (labelLoopFrom x y) [0; 1; 2; 3; 4; 5; 6; 7] (m1, e) = Ok (cur', e + 1) /\ coloured im x y node m1 cur' body (e + 1).
Proof.
  destruct (forEach_total (labelLoopFrom x y) (fun done st => unlabelled done st \/ labelled st) [0; 1; 2; 3; 4; 5; 6; 7]) with (s := (m1, e)) as (st & Es & Is).
  - intros done k rest st El I. exact (neighbour_step done k rest st El I).
  - left. split; [reflexivity|]. intros k [].
  - destruct (ways_exist im Sl x y Lv) as (a & b & Ab). pose proof (link_a im x y a b Ab) as La. assert (All : forall k, link im (Dart x y k) -> In k [0; 1; 2; 3; 4; 5; 6; 7]) by (intros k (K & _); cbn [ddir] in K; cbn; lia).
    destruct st as [cur' e']. destruct Is as [[_ N]|[Ee C]]; [exfalso; exact (N a (All a La) La)|]. cbn [fst snd] in *. subst e'. exists cur'. split; [exact Es|exact C].
Qed.
End Step.

(** ** All closed lines *)
Definition edgesInOrder (cur : img) (e : Z) : Prop :=
  (forall x y u v, lineAt cur x y -> along cur x y u v -> labelOf cur u v = labelOf cur x y) /\
  (forall x y u v, lineAt cur x y -> lineAt cur u v -> labelOf cur x y = labelOf cur u v -> labelOf cur x y <> 0 -> along cur x y u v) /\
  (forall x y, lineAt cur x y -> labelOf cur x y <> 0 -> exists d, isDart cur d /\ labelOf cur (tx d) (ty d) = labelOf cur x y) /\
  (forall d, isDart cur d -> labelOf cur (tx d) (ty d) <> 0) /\
  0 <= e /\ (forall x y, lineAt cur x y -> 0 <= labelOf cur x y <= e) /\ (forall l, 1 <= l <= e -> exists x y, lineAt cur x y /\ labelOf cur x y = l) /\ numbered cur cur e.
Definition nodesInOrder (cur : img) (n : Z) : Prop :=
  neat cur /\ joined cur /\ ringed cur /\ light cur /\
  (forall x y, vertexAt cur x y -> 1 <= labelOf cur x y <= n) /\ 1 <= n /\ (forall l, 1 <= l <= n -> exists x y, vertexAt cur x y /\ labelOf cur x y = l) /\
  (forall x y u v, vertexAt cur x y -> vertexAt cur u v -> labelOf cur x y = labelOf cur u v -> reach ways8 (vertexAt cur) x y u v) /\
  exists reps : list (Z * Z), NoDup reps /\ n <= Z.of_nat (length reps) /\ forall x y, In (x, y) reps -> vertexAt cur x y.
Definition shaped (cur : img) : Prop := framed cur /\ slim cur /\ smooth cur /\ plain cur /\ 0 <= iw cur /\ 0 <= ih cur /\ iw cur * ih cur < 2 ^ 30.
Definition since (base cur : img) : Prop :=
  iw cur = iw base /\ ih cur = ih base /\
  (forall x y, ptype (ipix base x y) = Line -> ptype (ipix cur x y) = Line \/ (ptype (ipix cur x y) = Vertex /\ closedLine base x y /\ firstPixel base x y)) /\
  (forall x y, ptype (ipix base x y) <> Line -> ipix cur x y = ipix base x y).

Lemma step_shaped im x y node : shaped im -> lineAt im x y -> shaped (im1 im x y node).
Proof.
  intros (A & B & C & D & W & H & S) L. split; [apply im1_framed; assumption|]. split; [apply im1_slim; assumption|]. split; [apply im1_smooth; assumption|]. split; [apply im1_plain; assumption|]. auto.
Qed.
Lemma same_shaped im cur : sameTypes im cur -> (forall x y, ptype (ipix im x y) = Region -> ipix cur x y = ipix im x y) -> shaped im -> shaped cur.
Proof.
  intros S R (A & B & C & D & W & H & Sz). split; [|split; [apply (same_slim im cur S B)|split; [apply (same_smooth im cur S C)|split; [apply (same_plain im cur S D)|]]]].
  - intros x y X Y Bd. rewrite (same_w im cur S) in *. rewrite (same_h im cur S) in *. specialize (A x y X Y Bd). rewrite R; [exact A|]. rewrite A. reflexivity.
  - rewrite (same_w im cur S), (same_h im cur S). auto.
Qed.
Lemma reach_mono ways (P Q : Z -> Z -> Prop) x y u v : (forall a b, P a b -> Q a b) -> reach ways P x y u v -> reach ways Q x y u v.
Proof. intros H R. induction R as [Hp|u v k R IH I Hp]; [apply re_here, H, Hp|]. apply re_step; auto. Qed.

Section Node.
(** one closed line: the image before, with the new node, and with the new labels *)
Variables im cur' : img.
Variables x y n e e' : Z.
Hypothesis Sh : shaped im.
Hypothesis Ed : edgesInOrder im e.
Hypothesis No : nodesInOrder im n.
Hypothesis Lv : lineAt im x y.
Hypothesis Zv : labelOf im x y = 0.
Hypothesis En : n + 1 < 2 ^ 30.
Hypothesis Ee : e' = e + 1.
Hypothesis E2 : e + 1 < 2 ^ 30.
Let node := n + 1.
Let m1 := im1 im x y node.
Let body (u v : Z) : Prop := cls im x y u v /\ ~ (u = x /\ v = y).
Hypothesis Co : coloured im x y node m1 cur' body e'.
Let Fr : framed im. Proof. apply Sh. Qed.
Let Sl : slim im. Proof. apply Sh. Qed.
Let Sm : smooth im. Proof. apply Sh. Qed.
Let Pl : plain im. Proof. apply Sh. Qed.
Let Const := proj1 Ed.
Let Met : forall d, isDart im d -> labelOf im (tx d) (ty d) <> 0. Proof. apply Ed. Qed.
Let S1 : sameTypes m1 cur'. Proof. apply Co. Qed.
Let n0 : 0 <= n. Proof. destruct No as (_ & _ & _ & _ & _ & N1 & _). lia. Qed.
Let e0 : 0 <= e. Proof. apply Ed. Qed.

Lemma line_now u v : lineAt cur' u v <-> lineAt im u v /\ ~ (u = x /\ v = y).
Proof. rewrite (same_lineAt _ _ S1). apply im1_line. Qed.
Lemma vertex_now u v : vertexAt cur' u v <-> vertexAt im u v \/ (u = x /\ v = y).
Proof. rewrite (same_vertexAt _ _ S1). apply (im1_vertex im x y Lv node). Qed.
Lemma body_dec u v : body u v \/ ~ body u v.
Proof. unfold body. destruct (here_dec x y u v) as [H|H]; [tauto|]. destruct (cls_dec im Fr Sl Sm Pl Const Met x y Lv Zv node u v); tauto. Qed.
Lemma body_label u v : body u v -> labelOf cur' u v = e'.
Proof. intros B. unfold labelOf. rewrite (proj1 (proj2 Co)) by exact B. apply label_of. lia. Qed.
Lemma other_pixel u v : ~ cls im x y u v -> ipix cur' u v = ipix im u v.
Proof. intros N. rewrite (proj2 (proj2 Co)) by (intros [C _]; contradiction). apply im1_other. intros [-> ->]. apply N. constructor. Qed.
Lemma other_label u v : ~ cls im x y u v -> labelOf cur' u v = labelOf im u v.
Proof. intros N. unfold labelOf. rewrite other_pixel by exact N. reflexivity. Qed.
Lemma here_pixel : ipix cur' x y = Pix Vertex node.
Proof.
  rewrite (proj2 (proj2 Co)) by (intros [_ N]; apply N; auto). unfold m1. rewrite im1_here. unfold cellPixel. rewrite Z.mod_small by (unfold node; lia). reflexivity.
Qed.
Lemma nonline_pixel u v : ptype (ipix im u v) <> Line -> ipix cur' u v = ipix im u v.
Proof. intros N. apply other_pixel. intros C. apply (cls_line im x y Lv) in C. destruct C as (_ & _ & C). contradiction. Qed.
Lemma link_now d : link cur' d <-> link im d.
Proof. rewrite (same_link _ _ S1). apply im1_link, Lv. Qed.
Lemma along_now a b u v : along cur' a b u v -> along im a b u v.
Proof. intros A. apply (im1_along im x y Lv node). apply (same_along cur' m1 (same_sym _ _ S1)), A. Qed.
Lemma along_then a b u v : lineAt im a b -> ~ cls im x y a b -> along im a b u v -> along cur' a b u v.
Proof. intros L N A. apply (same_along m1 cur' S1). apply along_im1; assumption. Qed.
Lemma cls_stays a b u v : lineAt im a b -> along im a b u v -> cls im x y a b <-> cls im x y u v.
Proof. intros L A. unfold cls. split; intros C; [apply (along_trans im _ _ a b _ _ C A)|apply (along_trans im _ _ u v _ _ C (along_sym im _ _ _ _ L A))]. Qed.
Lemma body_joined a b u v : body a b -> body u v -> along cur' a b u v.
Proof.
  intros A B. destruct (ways_exist im Sl x y Lv) as (p & q & W). pose proof (dart_a im Fr Pl Const Met x y Lv Zv node p q W) as Dp.
  destruct (line_ends m1 (im1_framed im Fr x y Lv node) (im1_slim im Sl x y Lv node) (im1_smooth im Sm x y Lv node) (im1_plain im Pl x y node) _ Dp) as (N & T & _).
  assert (G : forall a b, body a b -> along m1 (x + dirX p) (y + dirY p) a b).
  { intros c d C. apply (whole im Fr Sl Sm Pl Const Met x y Lv Zv node p q N c d W T) in C. destruct C as (i & I & <- & <-).
    apply (line_along m1 (im1_framed im Fr x y Lv node) (im1_slim im Sl x y Lv node) (im1_smooth im Sm x y Lv node) _ N Dp T i I). }
  apply (same_along m1 cur' S1). apply (along_trans m1 _ _ (x + dirX p) (y + dirY p)); [|apply G, B]. apply along_sym; [apply (first_line im Fr Pl Const Met x y Lv Zv node p q W)|apply G, A].
Qed.
Lemma dart_now p q d : twoWays im x y p q -> isDart cur' d <-> isDart im d \/ d = Dart x y p \/ d = Dart x y q.
Proof. intros W. rewrite (same_isDart _ _ S1). apply (darts_im1 im Fr Pl Const Met x y Lv Zv node p q d W). Qed.
Lemma way_body p q : twoWays im x y p q -> body (x + dirX p) (y + dirY p).
Proof. intros W. pose proof (link_a im x y p q W) as L. split; [apply (cls_step im Fr Pl Const Met x y Lv Zv x y p (cls_here im x y) L)|]. apply step_moves. exact (proj1 L). Qed.
Lemma dart_off d : isDart im d -> ~ cls im x y (tx d) (ty d).
Proof. intros D C. apply (Met d D). apply (cls_zero im Const x y Lv Zv _ _ C). Qed.

Lemma edges_now : edgesInOrder cur' e'.
Proof.
  pose proof Ed as (_ & C & D & _ & _ & F & G & (reps & Nr & Le & Ir)). destruct (ways_exist im Sl x y Lv) as (p & q & W). pose proof (way_body p q W) as Bp. pose proof (way_body q p (ways_swap im x y p q W)) as Bq.
  assert (Cl : forall u v, lineAt cur' u v -> cls im x y u v -> body u v) by (intros u v L K; apply line_now in L; split; [exact K|apply L]).
  assert (Dec : forall u v, cls im x y u v \/ ~ cls im x y u v) by (intros u v; apply (cls_dec im Fr Sl Sm Pl Const Met x y Lv Zv node)).
  split; [|split; [|split; [|split; [|split; [lia|split; [|split]]]]]].
  - intros a b u v L A. pose proof (along_line cur' a b u v L A) as L'. apply along_now in A. pose proof (proj1 (proj1 (line_now a b) L)) as La. destruct (Dec a b) as [K|K].
    + rewrite !body_label; [reflexivity|apply Cl; assumption|]. apply Cl; [exact L'|]. apply (cls_stays a b u v La A), K.
    + rewrite !other_label; [apply Const; assumption|exact K|]. intros Q. apply K. apply (cls_stays a b u v La A), Q.
  - intros a b u v L L' E N. pose proof (proj1 (proj1 (line_now a b) L)) as La. pose proof (proj1 (proj1 (line_now u v) L')) as Lu. destruct (Dec a b) as [K|K], (Dec u v) as [Q|Q].
    + apply body_joined; apply Cl; assumption.
    + exfalso. rewrite (body_label a b (Cl a b L K)) in E. rewrite (other_label u v Q) in E. pose proof (F u v Lu). lia.
    + exfalso. rewrite (body_label u v (Cl u v L' Q)) in E. rewrite (other_label a b K) in E. pose proof (F a b La). lia.
    + rewrite (other_label a b K) in E, N. rewrite (other_label u v Q) in E. apply along_then; [exact La|exact K|]. apply C; assumption.
  - intros a b L N. pose proof (proj1 (proj1 (line_now a b) L)) as La. destruct (Dec a b) as [K|K].
    + exists (Dart x y p). split; [apply (dart_now p q _ W); auto|]. rewrite (body_label a b (Cl a b L K)). apply (body_label _ _ Bp).
    + rewrite (other_label a b K) in N |- *. destruct (D a b La N) as (d & Dd & El). exists d. split; [apply (dart_now p q _ W); auto|]. rewrite other_label; [exact El|]. apply dart_off, Dd.
  - intros d Dd. apply (dart_now p q _ W) in Dd. destruct Dd as [Dd|[->| ->]].
    + rewrite other_label by (apply dart_off, Dd). apply Met, Dd.
    + change (labelOf cur' (x + dirX p) (y + dirY p) <> 0). rewrite (body_label _ _ Bp). lia.
    + change (labelOf cur' (x + dirX q) (y + dirY q) <> 0). rewrite (body_label _ _ Bq). lia.
  - intros a b L. pose proof (proj1 (proj1 (line_now a b) L)) as La. destruct (Dec a b) as [K|K]; [rewrite (body_label a b (Cl a b L K)); lia|]. rewrite (other_label a b K). pose proof (F a b La). lia.
  - intros l Hl. destruct (Z.eq_dec l e') as [->|Nl].
    2: { destruct (G l) as (u & v & Lu & Q); [lia|]. exists u, v. assert (K : ~ cls im x y u v) by (intros K; apply (cls_zero im Const x y Lv Zv) in K; lia). split; [|rewrite (other_label u v K); exact Q].
         apply line_now. split; [exact Lu|]. intros [-> ->]. apply K, cls_here. }
    exists (x + dirX p), (y + dirY p). split; [|apply (body_label _ _ Bp)]. apply line_now. split; [apply (cls_line im x y Lv), Bp|apply Bp].
  - exists ((x + dirX p, y + dirY p) :: (x + dirX q, y + dirY q) :: reps). split; [|split].
    + assert (Nin : forall a b, body a b -> ~ In (a, b) reps). { intros a b [K _] I. apply (Ir a b I). apply (cls_zero im Const x y Lv Zv _ _ K). }
      constructor; [|constructor; [apply Nin, Bq|exact Nr]]. intros [I|I]; [|apply (Nin _ _ Bp I)]. injection I as IX IY. apply (proj1 W). apply dir_inj; [exact (proj1 (link_a im x y p q W))|exact (proj1 (link_a im x y q p (ways_swap im x y p q W)))|lia|lia].
    + cbn [length]. lia.
    + intros a b [I|[I|I]]; [injection I as <- <-; split; [apply line_now; split; [apply (cls_line im x y Lv), Bp|apply Bp]|rewrite (body_label _ _ Bp); lia]|injection I as <- <-; split; [apply line_now; split; [apply (cls_line im x y Lv), Bq|apply Bq]|rewrite (body_label _ _ Bq); lia]|].
      destruct (Ir a b I) as [L N]. assert (K : ~ cls im x y a b) by (intros K; apply N, (cls_zero im Const x y Lv Zv _ _ K)). split; [|rewrite (other_label a b K); exact N].
      apply line_now. split; [exact L|]. intros [-> ->]. apply K. constructor.
Qed.

(** ** The nodes *)
Lemma far_from u v k : vertexAt im u v -> 0 <= k < 8 -> ~ (u + dirX k = x /\ v + dirY k = y).
Proof.
  intros V K [X Y]. pose proof (no_vertex_near im Fr Pl Const Met x y Lv Zv ((k + 4) mod 8) ltac:(apply Z.mod_pos_bound; lia)) as N. destruct (back_target (Dart u v k) K) as [B1 B2].
  unfold tx, ty, back in B1, B2. cbn [dcx dcy ddir] in B1, B2. unfold tx, ty in B1, B2. cbn [dcx dcy ddir] in B1, B2. rewrite X in B1. rewrite Y in B2. rewrite B1, B2 in N. apply N, V.
Qed.
Lemma type_now d t : vertexAt im (dcx d) (dcy d) -> typeAt cur' d t = typeAt im d t.
Proof.
  intros V. rewrite (same_typeAt _ _ S1). unfold typeAt. f_equal. apply im1_other. apply (far_from _ _ _ V). apply Z.mod_pos_bound. lia.
Qed.
Lemma type_here d t : dcx d = x -> dcy d = y -> typeAt cur' d t <> Vertex.
Proof.
  intros X Y. rewrite (same_typeAt _ _ S1). unfold typeAt. rewrite X, Y. assert (R : 0 <= (ddir d + t) mod 8 < 8) by (apply Z.mod_pos_bound; lia).
  unfold m1. rewrite im1_other by (apply step_moves, R). apply (no_vertex_near im Fr Pl Const Met x y Lv Zv _ R).
Qed.
Lemma vertex_pixel u v : vertexAt im u v -> ipix cur' u v = ipix im u v.
Proof. intros (_ & _ & T). apply nonline_pixel. rewrite T. discriminate. Qed.
Lemma place_now d : vertexAt im (dcx d) (dcy d) -> isPlace cur' d <-> isPlace im d.
Proof. intros V. unfold isPlace. rewrite !type_now by exact V. rewrite vertex_now. tauto. Qed.
Lemma places_now k : forall d, isPlace im d -> places k cur' 1 d = places k im 1 d.
Proof.
  induction k as [|k IH]; intros d P; cbn [places]; [reflexivity|]. assert (Eq : placeNext cur' 1 d = placeNext im 1 d) by (unfold placeNext; rewrite !type_now by apply P; reflexivity).
  rewrite Eq. apply IH. apply (place_next im Fr 1 d (or_introl eq_refl) P).
Qed.
Lemma turns_here k : forall d, dcx d = x -> dcy d = y -> places k cur' 1 d = match k with O => d | _ => turn (Z.of_nat k) d end.
Proof.
  induction k as [|k IH]; intros d X Y; cbn [places]; [reflexivity|]. assert (Eq : placeNext cur' 1 d = turn 1 d).
  { unfold placeNext. destruct (Z.odd (ddir d)); [reflexivity|]. pose proof (type_here d 1 X Y) as A. pose proof (type_here d (2 * 1) X Y) as B. apply CellSigma_Proofs.ctypeEqb_ne in A. apply CellSigma_Proofs.ctypeEqb_ne in B. rewrite A, B. reflexivity. }
  rewrite Eq, IH by assumption. destruct k; [reflexivity|]. rewrite turn_turn. f_equal. lia.
Qed.
Lemma nodes_now : nodesInOrder cur' (n + 1).
Proof.
  pose proof No as (Ne & Jo & Ri & Li & Bo & N1 & At & Co8 & (reps & Nr & Le & Ir)). pose proof Lv as (LX & LY & LT).
  assert (Lh : labelOf cur' x y = n + 1) by (unfold labelOf; rewrite here_pixel; reflexivity). assert (Vh : vertexAt cur' x y) by (apply vertex_now; auto).
  assert (Lo : forall u v, vertexAt im u v -> labelOf cur' u v = labelOf im u v) by (intros u v V; unfold labelOf; rewrite vertex_pixel by exact V; reflexivity).
  split; [|split; [|split; [|split; [|split; [|split; [lia|split; [|split]]]]]]].
  - intros u v k U V K T T1 T2. rewrite (same_w _ _ S1), (same_h _ _ S1) in *. cbn [m1 im1 iw ih] in U, V.
    assert (L : lineAt im u v). { apply line_now. split; [|split; [|exact T]]; rewrite ?(same_w _ _ S1), ?(same_h _ _ S1); cbn [m1 im1 iw ih]; lia. }
    assert (Vt : forall j, 0 <= j < 8 -> ptype (ipix cur' (u + dirX j) (v + dirY j)) = Vertex -> vertexAt im (u + dirX j) (v + dirY j) \/ (u + dirX j = x /\ v + dirY j = y)).
    { intros j J Tj. apply vertex_now. destruct (target_inside im Fr u v j L) as [X Y]. split; [rewrite (same_w _ _ S1); exact X|]. split; [rewrite (same_h _ _ S1); exact Y|exact Tj]. }
    assert (K8 : 0 <= k < 8) by (cbn in K; lia). assert (K2 : 0 <= (k + 2) mod 8 < 8) by (apply Z.mod_pos_bound; lia).
    assert (Dg : exists j, 0 <= j < 8 /\ dirX ((k + 2) mod 8) = dirX k + dirX j /\ dirY ((k + 2) mod 8) = dirY k + dirY j).
    { exists ((k + 3) mod 8). split; [apply Z.mod_pos_bound; lia|]. cbn in K. destruct K as [<-|[<-|[<-|[<-|[]]]]]; cbn; lia. }
    destruct Dg as (j & J & Dx & Dy). destruct (Vt k K8 T1) as [V1|[X1 Y1]], (Vt _ K2 T2) as [V2|[X2 Y2]].
    + apply (Ne u v k U V K (proj2 (proj2 L)) (proj2 (proj2 V1)) (proj2 (proj2 V2))).
    + apply (far_from _ _ j V1 J). lia.
    + apply (no_vertex_near im Fr Pl Const Met x y Lv Zv j J). replace (x + dirX j) with (u + dirX ((k + 2) mod 8)) by lia. replace (y + dirY j) with (v + dirY ((k + 2) mod 8)) by lia. apply V2.
    + pose proof (step_moves 0 0 j J). lia.
  - intros u v k l K (Ux & Uy & P) V. apply vertex_now in V. assert (Vu : vertexAt cur' u v) by (split; [exact Ux|split; [exact Uy|rewrite P; reflexivity]]). apply vertex_now in Vu.
    destruct Vu as [Vu|[-> ->]].
    + destruct V as [V|V]; [|exfalso; exact (far_from u v k Vu K V)]. rewrite vertex_pixel in P by exact Vu. destruct (Jo u v k l K (conj (proj1 Vu) (conj (proj1 (proj2 Vu)) P)) V) as (Tx & Ty & Tp).
      split; [rewrite (same_w _ _ S1); exact Tx|]. split; [rewrite (same_h _ _ S1); exact Ty|]. rewrite vertex_pixel by exact V. exact Tp.
    + exfalso. destruct V as [V|V]; [|exact (step_moves x y k K V)]. apply (no_vertex_near im Fr Pl Const Met x y Lv Zv k K). apply V.
  - intros a b Pa Pb N. pose proof Pa as (Va' & Ra & _). pose proof Pb as (Vb' & Rb & _). apply vertex_now in Va'. apply vertex_now in Vb'. unfold nodeOf in N. change (labelOf cur' (dcx a) (dcy a) = labelOf cur' (dcx b) (dcy b)) in N.
    destruct Va' as [Wa|[Xa Ya]], Vb' as [Wb|[Xb Yb]].
    + rewrite !Lo in N by assumption. destruct (Ri a b) as (k & Ek); [apply place_now; assumption..|exact N|]. exists k. rewrite places_now by (apply place_now; assumption). exact Ek.
    + exfalso. rewrite (Lo _ _ Wa), Xb, Yb, Lh in N. pose proof (Bo _ _ Wa). lia.
    + exfalso. rewrite (Lo _ _ Wb), Xa, Ya, Lh in N. pose proof (Bo _ _ Wb). lia.
    + destruct (Z.eq_dec (ddir a) (ddir b)) as [Q|Q]; [exists O; cbn; destruct a, b; cbn in *; congruence|]. exists (Z.to_nat ((ddir b - ddir a) mod 8)). rewrite turns_here by assumption.
      assert (R : 0 < (ddir b - ddir a) mod 8) by (pose proof (Z.mod_pos_bound (ddir b - ddir a) 8); destruct (Z.eq_dec ((ddir b - ddir a) mod 8) 0) as [Z0|]; [exfalso; rewrite Z.mod_eq in Z0; lia|lia]).
      destruct (Z.to_nat ((ddir b - ddir a) mod 8)) eqn:En'; [lia|]. rewrite <- En'. rewrite Z2Nat.id by lia. unfold turn. rewrite Zplus_mod_idemp_r. replace (ddir a + (ddir b - ddir a)) with (ddir b) by lia. rewrite Z.mod_small by exact Rb.
      destruct a, b; cbn in *; congruence.
  - intros l. destruct (ways_exist im Sl x y Lv) as (p & q & W). destruct (Z.eq_dec l (n + 1)) as [->|Nl].
    + exists 2. split; [lia|]. exists [Dart x y p; Dart x y q]. split; [|split; [|reflexivity]].
      * constructor; [intros [I|[]]; injection I as I; apply (proj1 W); congruence|]. constructor; [intros []|constructor].
      * intros d. split.
        -- intros [<-|[<-|[]]]; (split; [apply (dart_now p q _ W); auto|unfold nodeOf; cbn [dcx dcy]; exact Lh]).
        -- intros [Dd Nd]. apply (dart_now p q _ W) in Dd. destruct Dd as [Dd|[->| ->]]; [|left; reflexivity|right; left; reflexivity]. exfalso. unfold nodeOf in Nd. change (labelOf cur' (dcx d) (dcy d) = n + 1) in Nd. rewrite Lo in Nd by apply Dd. pose proof (Bo _ _ (proj1 Dd)). lia.
    + destruct (Li l) as (g & Rg & ds & Nd & Id & Ld). exists g. split; [exact Rg|]. exists ds. split; [exact Nd|]. split; [|exact Ld]. intros d. rewrite Id. unfold dartOfNode. split.
      * intros [Dd Nod]. split; [apply (dart_now p q _ W); auto|]. unfold nodeOf in *. rewrite vertex_pixel by apply Dd. exact Nod.
      * intros [Dd Nod]. apply (dart_now p q _ W) in Dd. destruct Dd as [Dd|Dd].
        -- split; [exact Dd|]. unfold nodeOf in *. rewrite vertex_pixel in Nod by apply Dd. exact Nod.
        -- exfalso. apply Nl. destruct Dd as [->| ->]; unfold nodeOf in Nod; cbn [dcx dcy] in Nod; fold (labelOf cur' x y) in Nod; congruence.
  - intros u v V. apply vertex_now in V. destruct V as [V|[-> ->]]; [rewrite Lo by exact V; pose proof (Bo u v V); lia|rewrite Lh; lia].
  - intros l Hl. destruct (Z.eq_dec l (n + 1)) as [->|Nl]; [exists x, y; auto|]. destruct (At l) as (u & v & V & Q); [lia|]. exists u, v. split; [apply vertex_now; auto|rewrite Lo by exact V; exact Q].
  - intros a b u v Va' Vu N. apply vertex_now in Va' as Wa. apply vertex_now in Vu as Wu. destruct Wa as [Wa|[Xa Ya]], Wu as [Wu|[Xu Yu]].
    + rewrite !Lo in N by assumption. apply (reach_mono ways8 (vertexAt im)); [intros c d V; apply vertex_now; auto|]. apply Co8; assumption.
    + exfalso. rewrite (Lo _ _ Wa), Xu, Yu, Lh in N. pose proof (Bo _ _ Wa). lia.
    + exfalso. rewrite (Lo _ _ Wu), Xa, Ya, Lh in N. pose proof (Bo _ _ Wu). lia.
    + subst. apply re_here. exact Vh.
  - exists ((x, y) :: reps). split; [constructor; [intros I; apply (here_not_vertex im x y Lv), (Ir x y I)|exact Nr]|]. split; [cbn [length]; lia|]. intros u v [I|I]; [injection I as <- <-; exact Vh|apply vertex_now; left; apply (Ir u v I)].
Qed.
Lemma shape_now : shaped cur'.
Proof.
  apply (same_shaped m1 cur' S1); [|apply step_shaped; assumption]. intros u v T. apply (proj2 (proj2 Co)). intros [C _]. apply (im1_region im x y Lv) in T. apply (cls_line im x y Lv) in C. destruct C as (_ & _ & C). congruence.
Qed.
End Node.
