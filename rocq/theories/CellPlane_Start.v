(** The lines of a map as the constructor leaves it. *)
From Coq Require Import Bool Lia.
From Verif Require Import Base CellMap_Model CellMap_Spec CellMap_Main CellSigma_Spec CellSigma_Proofs CellSigma_Results CellLink_Spec CellLink_Proofs CellLink_Main CellLink_Results CellLink_Check
  CellFace_Spec CellFace_Walk CellStart_Spec CellStart_Walk CellStart_Ends CellContour_Orbit CellContour_Spec CellContour_Phi CellContour_Find CellThresh_Spec CellJordan_Spec
  CellJordan_Parity CellJordan_Owner CellJordan_Class CellPlane_Spec.
Local Open Scope Z_scope.

Section Start.
Variable m : cmap.
Let im := cim m.
Hypothesis Fa : faced m.
Hypothesis Sl : slim im.
Hypothesis Sm : smooth im.
Hypothesis Dr : drawn im.
Let Wi : wired m. Proof. apply Fa. Qed.
Let Fr : framed im. Proof. apply Wi. Qed.
Let Pl : plain im. Proof. apply Fa. Qed.
Let nb := nb m.
Let owner := owner m.

Lemma side_line x y j : lineSide im x y j -> side m x y j.
Proof. intros (J & La & R). split; [exact J|]. split; [apply (contour_is m Fa); right; exact La|exact R]. Qed.
Lemma line_owns x y : lineAt im x y -> owns im Line (plabel (ipix im x y)) x y.
Proof. intros (A & B & C). split; [exact A|]. split; [exact B|]. destruct (ipix im x y). cbn in *. subst. reflexivity. Qed.
Lemma owner_edge z x y j : lineSide im x y j -> owner z x y j -> isDart im z /\ edgeOf im z = plabel (ipix im x y).
Proof.
  intros (J & La & R) Ow. destruct (line_inv m x y j La z Ow) as (Dz & n & i & t & Ln & I & _ & _ & _ & X & Y & _). split; [exact Dz|].
  pose proof (line_along im Fr Sl Sm z n Dz Ln i I) as Al. fold im in X, Y. rewrite X, Y in Al. destruct Dr as (D1 & _). pose proof (D1 _ _ _ _ (dart_pixel im Fr z Dz) Al) as E. rewrite E.
  reflexivity.
Qed.
Lemma owner_unique z w x y j : lineSide im x y j -> owner z x y j -> owner w x y j -> z = w.
Proof.
  intros (J & La & R) Oz Ow. destruct (line_inv m x y j La z Oz) as (Dz & n & i & t & Ln & I & T & E & Lz & X & Y & B & N). destruct (line_inv m x y j La w Ow) as (Dw & n' & i' & t' & Ln' & I' & T' & E' & Lw & X' & Y' & B' & N').
  assert (t = t') as <-. { destruct (Z.lt_trichotomy t t') as [Q|[Q|Q]]; [exfalso; apply (N' t ltac:(lia) Lz)|exact Q|exfalso; apply (N t' ltac:(lia) Lw)]. }
  apply (runs_same m Fa Sl Sm i i' z w); auto; [intros q Hq; apply Ln; lia|intros q Hq; apply Ln'; lia|]. fold im. fold im in E, E'. rewrite E, E'. reflexivity.
Qed.
(** the side on the left of a later step of the line belongs to its dart *)
Lemma left_in z n i x y k t : isDart im z -> lineTo im z n -> (i < n)%nat -> forths im (Datatypes.S i) z = Dart x y k -> nb x y (k + t) = Region ->
  (Z.odd k = true /\ t = 1) \/ (Z.odd k = false /\ t = 2 /\ ~ link im (Dart x y ((k + 1) mod 8))) -> owner z x y ((k + t) mod 8).
Proof.
  intros Dz Ln I E Rg Cs. pose proof Ln as (N & Rn & V).
  right. cbn [forths] in E. assert (H : half im (forths im i z)) by (apply Rn; lia).
  destruct (forth_spec im Fr Sl Sm (forths im i z) H) as (k' & E' & K & Nk & _ & _ & J). rewrite E' in E. injection E as X Y ->.
  pose proof H as (_ & LA & _). rewrite X, Y in *. split; [exact LA|]. split; [exact Dz|]. set (b := ddir (back (forths im i z))) in *.
  assert (B : 0 <= b < 8) by apply back_range. assert (Nj : b <> (k + t) mod 8).
  { intros Q. apply (link_region m x y (k + t) Rg). apply J. left. symmetry. exact Q. }
  assert (T : t = 1 \/ (t = 2 /\ b <> (k + 1) mod 8)).
  { destruct Cs as [(_ & ->)|(_ & -> & NL)]; [left; reflexivity|right]. split; [reflexivity|]. intros Q. apply NL, J. left. symmetry. exact Q. }
  exists n, i, ((b - (k + t) mod 8) mod 8). split; [exact Ln|]. split; [lia|]. split; [exact X|]. split; [exact Y|].
  assert (0 <= (k + t) mod 8 < 8) as Bj by (apply Z.mod_pos_bound; lia). split; [|split].
  + clear -Nj B Bj. revert Nj. generalize dependent ((k + t) mod 8). intros a Bj Nj. Z.div_mod_to_equations. lia.
  + change (((k + t) mod 8 + (b - (k + t) mod 8) mod 8) mod 8 = b). clear -Nj B Bj. revert Nj. generalize dependent ((k + t) mod 8). intros a Bj Nj. clearbody b. Z.div_mod_to_equations. lia.
  + intros u U Lk. apply J in Lk. clearbody b. clear -Lk U T K B Nj Nk. destruct T as [->|[-> T]]; Z.div_mod_to_equations; lia.
Qed.
Lemma alpha_is w n b : isDart im w -> lineTo im w n -> nextAlpha m w = Ok b -> b = far im n w.
Proof.
  intros Dw Ln A. destruct (alpha_far m Fa Sl Sm Dr w n Dw Ln) as (Af & Df). destruct (alpha_opposite m w (dh_start m Wi) Dw) as (b' & A' & Db & _ & Ab & L). assert (b' = b) by congruence. subst b'.
  pose proof (two_ends im Fr Sl Sm w n Dr Dw Ln) as (Nq & T). assert (Ef : dartOfEdge im (edgeOf im w) (far im n w)) by (apply T; auto). destruct Ef as (_ & Ef).
  assert (Q : edgeLabel (cim m) (far im n w) = edgeLabel (cim m) w) by (fold im; rewrite !(edgeLabel_dart im Fr) by (apply Df || apply Dw); rewrite Ef; reflexivity).
  apply L in Q; [|exact Df]. destruct Q as [Q|Q]; [exfalso; apply Nq; symmetry; exact Q|symmetry; exact Q].
Qed.
Lemma far_last w n : isDart im w -> lineTo im w n -> forths im n (far im n w) = back w.
Proof. intros Dw Ln. rewrite (reversed im Fr Sl Sm w n Dw Ln) by lia. rewrite Nat.sub_diag. reflexivity. Qed.

Section Corner.
Variables (x y j : Z).
Hypothesis J : In j [0; 2; 4; 6].
Hypothesis Rg : nb x y j = Region.
Let qx := x + dirX ((j + 2) mod 8).
Let qy := y + dirY ((j + 2) mod 8).
Let sx := x + dirX ((j + 1) mod 8).
Let sy := y + dirY ((j + 1) mod 8).
Let Jr : 0 <= j < 8. Proof. exact (j_range j J). Qed.
Let Je : Z.odd j = false. Proof. exact (j_even x y j J). Qed.

Section Line.
Hypothesis La : lineAt im x y.
Variable z : dart.
Hypothesis Oz : owner z x y j.
Lemma at_first i n : isDart im z -> lineTo im z n -> (i < n)%nat -> ptype (ipix im (dcx (forths im i z)) (dcy (forths im i z))) = Vertex -> i = O.
Proof.
  intros Dz Ln I V. destruct i as [|i]; [reflexivity|]. exfalso. pose proof (runs_center im Fr Sl Sm (Datatypes.S i) z Dz ltac:(intros k Hk; apply Ln; lia) ltac:(lia)) as Q. congruence.
Qed.
Lemma to_q : nb x y (j + 2) = Vertex -> z = Dart qx qy ((j + 6) mod 8).
Proof.
  intros T. destruct (line_two m x y j J La z Oz ltac:(unfold nb in T; rewrite T; discriminate)) as (Dz & n & i & Ln & I & E). assert (i = O) as -> by (apply (at_first i n Dz Ln I); fold im in E; rewrite E; exact T). exact E.
Qed.
Lemma to_s1 : nb x y (j + 2) = Region -> nb x y (j + 1) = Vertex -> z = Dart sx sy ((j + 5) mod 8).
Proof.
  intros R2 T1. destruct (line_inv m x y j La z Oz) as (Dz & n & i & t & Ln & I & T & E & Lk & X & Y & B & L).
  assert (L1 : link im (Dart x y ((j + 1) mod 8))).
  { apply (link_odd m); [apply Z.mod_pos_bound; lia|cbn in J; destruct J as [<-|[<-|[<-|[<-|[]]]]]; reflexivity|rewrite nb_mod; unfold nb in T1; rewrite T1; discriminate|rewrite nb_add; replace (j + 1 + 1) with (j + 2) by lia; exact R2|].
    change ((j + 1) mod 8 - 1) with ((j + 1) mod 8 + -1). rewrite nb_add. replace (j + 1 + -1) with j by lia. exact Rg. }
  assert (t = 1) as -> by (destruct (Z.eq_dec t 1); [assumption|exfalso; apply (L 1); [lia|exact L1]]). rewrite (back_s x y j) in E. fold im in E. fold sx sy in E.
  assert (i = O) as -> by (apply (at_first i n Dz Ln I); rewrite E; exact T1). exact E.
Qed.
Lemma before_q : nb x y (j + 2) = Line -> nb x y (j + 1) <> Region -> isDart im z /\ exists n i, lineTo im z n /\ (i < n)%nat /\ forths im i z = Dart sx sy ((j + 4) mod 8).
Proof.
  intros T2 C1. destruct (line_two m x y j J La z Oz ltac:(unfold nb in T2; rewrite T2; discriminate)) as (Dz & n & i & Ln & I & E). fold im in E. split; [exact Dz|]. pose proof Ln as (N & Rn & V).
  destruct i as [|i]. { exfalso. cbn in E. subst z. destruct Dz as ((_ & _ & Vz) & _). cbn [dcx dcy] in Vz. fold im in Vz. change (nb x y (j + 2) = Vertex) in Vz. congruence. }
  cbn [forths] in E. assert (H : half im (forths im i z)) by (apply Rn; lia). fold qx qy in E.
  destruct (forth_spec im Fr Sl Sm (forths im i z) H) as (k' & E' & K & Nk & _ & _ & Jl). rewrite E' in E. injection E as X Y ->. rewrite X, Y in *.
  assert (Lq0 : link im (Dart qx qy j)) by (apply (link_even m); [exact Jr|exact Je|unfold qx, qy; rewrite (nb_q0 m x y j J); exact C1]).
  apply Jl in Lq0. destruct Lq0 as [Q|Q].
  2: { exfalso. clear -Q Jr. Z.div_mod_to_equations. lia. }
  exists n, i. split; [exact Ln|]. split; [lia|]. pose proof (back_qs x y j J) as Bq. fold qx qy sx sy in Bq. rewrite <- Bq. rewrite Q. rewrite <- X at 1. rewrite <- Y. rewrite <- (back_back (forths im i z)) at 1 by apply H. reflexivity.
Qed.
Lemma to_s2 : nb x y (j + 2) = Line -> nb x y (j + 1) = Vertex -> z = Dart sx sy ((j + 4) mod 8).
Proof.
  intros T2 T1. destruct (before_q T2 ltac:(rewrite T1; discriminate)) as (Dz & n & i & Ln & I & E). assert (i = O) as -> by (apply (at_first i n Dz Ln I); rewrite E; exact T1). exact E.
Qed.
Lemma on_s2 : nb x y (j + 2) = Line -> nb x y (j + 1) = Line -> owner z sx sy ((j + 6) mod 8).
Proof.
  intros T2 T1. destruct (before_q T2 ltac:(rewrite T1; discriminate)) as (Dz & n & i & Ln & I & E). apply (left_s m Fa Sl Sm x y j J Rg z n i); auto; [lia|unfold nb in T2; rewrite T2; discriminate|].
  intros _. pose proof La as (_ & _ & P). fold im. rewrite P. discriminate.
Qed.
Lemma owner_steps : steps im owner z x y j.
Proof.
  unfold steps. cbv zeta. repeat split.
  - intros R1 R2. exact (line_round m x y j La z Oz R1 R2).
  - exact to_q.
  - intros T2 R1. apply (line_on m Fa Sl Sm x y j J Rg La z Oz R1). change (nb x y (j + 2) <> Region). unfold near in T2. fold im. unfold nb, CellJordan_Owner.nb. fold im. congruence.
  - intros A B. apply on_s2; assumption.
  - intros A B. apply to_s2; assumption.
  - intros A B. apply (line_turn1 m Fa Sl Sm x y j J Rg La z Oz); [|exact A]. unfold near in B. unfold CellJordan_Owner.nb. fold im. congruence.
  - intros A B. apply to_s1; assumption.
Qed.
End Line.
Lemma far_both n : vertexAt im x y -> isDart im (Dart x y ((j + 2) mod 8)) -> nb x y (j + 1) = Line -> lineTo im (Dart x y ((j + 2) mod 8)) n -> owner (far im n (Dart x y ((j + 2) mod 8))) sx sy ((j + 6) mod 8).
Proof.
  set (w := Dart x y ((j + 2) mod 8)). intros Va Dw T1 Ln.
  assert (T2 : nb x y (j + 2) = Line). { pose proof Dw as (_ & _ & Q & _). change (nb x y ((j + 2) mod 8 + 0) = Line) in Q. rewrite Z.add_0_r in Q. unfold nb in *. rewrite nb_mod in Q. exact Q. }
  pose proof Ln as (N & Rn & V). assert (Hw : half im w) by (apply (Rn O); exact N).
  destruct (forth_spec im Fr Sl Sm w Hw) as (k & E & K & Nk & _ & _ & Jl). change (tx w) with qx in *. change (ty w) with qy in *.
  assert (Lq0 : link im (Dart qx qy j)) by (apply (link_even m); [exact Jr|exact Je|unfold qx, qy; rewrite (nb_q0 m x y j J); unfold nb in T1; rewrite T1; discriminate]).
  apply Jl in Lq0. assert (Bw : ddir (back w) = (j + 6) mod 8) by (unfold w; rewrite (back_q x y j); reflexivity). rewrite Bw in *.
  destruct Lq0 as [Q|Q]; [exfalso; clear -Q Jr; Z.div_mod_to_equations; lia|]. subst k.
  assert (n <> 1%nat). { intros ->. cbn [forths] in V. rewrite E in V. change (nb qx qy (j + 0) = Vertex) in V. rewrite Z.add_0_r in V. unfold nb, qx, qy in V. rewrite (nb_q0 m x y j J) in V. fold nb in V. congruence. }
  apply (left_s m Fa Sl Sm x y j J Rg _ n (n - 1)); [apply (alpha_far m Fa Sl Sm Dr w n Dw Ln)|apply (line_far m Fa Sl Sm); assumption|lia| |unfold nb in T2; rewrite T2; discriminate|lia].
  fold im. rewrite (reversed im Fr Sl Sm w n Dw Ln) by lia. replace (n - (n - 1))%nat with 1%nat by lia. cbn [forths]. rewrite E. apply (back_qs x y j J).
Qed.
End Corner.

Lemma owner_starts x y k b : isDart im (Dart x y k) -> nextAlpha m (Dart x y k) = Ok b -> starts im owner x y k b.
Proof.
  intros Dw A. destruct (line_ends im Fr Sl Sm Pl _ Dw) as (n & Ln & _). pose proof (alpha_is _ n b Dw Ln A) as Eb. destruct (alpha_far m Fa Sl Sm Dr _ n Dw Ln) as (_ & Df). pose proof (line_far m Fa Sl Sm _ n Dw Ln) as Lf. fold im in Df, Lf. rewrite <- Eb in Df, Lf.
  pose proof (far_last _ n Dw Ln) as Ef. rewrite <- Eb in Ef. pose proof Ln as (N & _ & _). pose proof Dw as (V & K & T & C). cbn [dcx dcy ddir] in V, K, C. fold im in Df, Lf.
  assert (Eb' : back (Dart x y k) = Dart (x + dirX k) (y + dirY k) ((k + 4) mod 8)) by reflexivity. rewrite Eb' in Ef. replace n with (Datatypes.S (n - 1)) in Ef by lia.
  assert (Bp : nb (x + dirX k) (y + dirY k) (k + 4) = Vertex).
  { unfold nb, CellJordan_Owner.nb. fold im. replace (x + dirX k + dirX ((k + 4) mod 8)) with x; [replace (y + dirY k + dirY ((k + 4) mod 8)) with y; [apply V|]|]; clear -K; assert (k = 0 \/ k = 1 \/ k = 2 \/ k = 3 \/ k = 4 \/ k = 5 \/ k = 6 \/ k = 7) as H by lia; destruct H as [->|[->|[->|[->|[->|[->|[->| ->]]]]]]]; cbn; lia. }
  split; [|split].
  - intros O. destruct (C O) as (C1 & C2). replace ((k + 5) mod 8) with (((k + 4) mod 8 + 1) mod 8) by (rewrite Z.add_mod_idemp_l by lia; f_equal; lia).
    apply (left_in b n (n - 1)); auto; [lia| |].
    + unfold nb. rewrite nb_add. unfold CellJordan_Owner.nb. fold im. unfold typeAt in C2. cbn [dcx dcy ddir] in C2. rewrite <- C2. clear -K O. destruct (odd_dirs k K O) as [->|[->|[->| ->]]]; cbn; f_equal; f_equal; lia.
    + left. split; [|reflexivity]. destruct (odd_dirs k K O) as [->|[->|[->| ->]]]; reflexivity.
  - intros O R. replace ((k + 6) mod 8) with (((k + 4) mod 8 + 2) mod 8) by (rewrite Z.add_mod_idemp_l by lia; f_equal; lia).
    apply (left_in b n (n - 1)); auto; [lia| |].
    + unfold nb. rewrite nb_add. unfold CellJordan_Owner.nb. fold im. unfold near in R. rewrite <- R. clear -K O. destruct (even_dirs k K O) as [->|[->|[->| ->]]]; cbn; f_equal; f_equal; lia.
    + right. split; [destruct (even_dirs k K O) as [->|[->|[->| ->]]]; reflexivity|]. split; [reflexivity|]. rewrite Z.add_mod_idemp_l by lia. apply (link_blocked m); [destruct (even_dirs k K O) as [->|[->|[->| ->]]]; reflexivity|].
      right. replace (k + 4 + 1 - 1) with (k + 4) by lia. unfold nb in Bp. rewrite Bp. discriminate.
  - intros O T7 R6. set (j := (k + 6) mod 8). assert (Jk : k = (j + 2) mod 8) by (unfold j; destruct (even_dirs k K O) as [->|[->|[->| ->]]]; reflexivity).
    assert (J : In j [0; 2; 4; 6]) by (unfold j; destruct (even_dirs k K O) as [->|[->|[->| ->]]]; cbn; tauto).
    assert (R : nb x y j = Region) by (unfold nb, j; rewrite nb_mod; exact R6).
    assert (T1 : nb x y (j + 1) = Line) by (unfold nb, j; rewrite nb_add; replace (k + 6 + 1) with (k + 7) by lia; exact T7).
    rewrite Eb. replace ((k + 7) mod 8) with ((j + 1) mod 8) by (unfold j; rewrite Z.add_mod_idemp_l by lia; f_equal; lia). replace ((k + 4) mod 8) with ((j + 6) mod 8) by (unfold j; rewrite Z.add_mod_idemp_l by lia; replace (k + 6 + 6) with (k + 4 + 1 * 8) by lia; apply Z.mod_add; lia).
    rewrite Jk in Dw, Ln |- *. apply far_both; assumption.
Qed.
Theorem start_tracked : tracked m owner.
Proof.
  split; [|split; [|split; [|split]]].
  - intros x y j Sd. apply (own_exists m Fa Sl Sm Dr), side_line, Sd.
  - exact owner_edge.
  - exact owner_unique.
  - intros z x y j (J & La & R) Ow. apply (owner_steps x y j J R La z Ow).
  - exact owner_starts.
Qed.
Theorem start_strung : strung im.
Proof.
  intros l x y u v O1 O2. destruct Dr as (D1 & D2 & _). pose proof (D2 l x y u v O1 O2) as Al. clear O2.
  assert (La : lineAt im x y) by (destruct O1 as (X & Y & E); split; [exact X|]; split; [exact Y|]; rewrite E; reflexivity).
  assert (G : forall u v, along im x y u v -> lineAt im u v -> owns im Line l u v).
  { intros a b Q Lb. pose proof (D1 _ _ _ _ La Q) as E. replace l with (plabel (ipix im a b)); [apply line_owns, Lb|]. rewrite E. destruct O1 as (_ & _ & ->). reflexivity. }
  induction Al as [|u v k Al IH Lk Ln].
  - apply re_here, O1.
  - apply re_step; [exact IH|cbn; destruct Lk as (K & _); cbn in K; lia|]. apply G; [apply al_on; assumption|exact Ln].
Qed.
Theorem start_opened : opened im.
Proof.
  intros l x y O1. exists x, y. assert (La : lineAt im x y) by (destruct O1 as (X & Y & E); split; [exact X|]; split; [exact Y|]; rewrite E; reflexivity).
  assert (exists k, In k [0; 2; 4] /\ nb x y k = Region) as (k & K & R).
  { destruct (Sl x y La) as (a & b & _ & Q). assert (G : forall k, In k [0; 2; 4] -> nb x y k = Region \/ k = a \/ k = b).
    { intros k K. destruct (ctypeEqb (nb x y k) Region) eqn:E; [left; apply CellSigma_Proofs.ctypeEqb_eq, E|right]. apply CellSigma_Proofs.ctypeEqb_ne in E. apply Q, (link_even m); [cbn in K; lia|cbn in K; destruct K as [<-|[<-|[<-|[]]]]; reflexivity|exact E]. }
    destruct (G 0 ltac:(cbn; tauto)) as [R|A0]; [exists 0; cbn; auto|]. destruct (G 2 ltac:(cbn; tauto)) as [R|A2]; [exists 2; cbn; auto|]. destruct (G 4 ltac:(cbn; tauto)) as [R|A4]; [exists 4; cbn; auto|]. lia. }
  exists k. split; [apply re_here, O1|]. split; [cbn in K |- *; tauto|]. pose proof (line_is_inner im Fr x y La). pose proof (dirX_bound k). pose proof (dirY_bound k). split; [lia|]. split; [lia|].
  unfold nb, CellJordan_Owner.nb in R. rewrite Z.mod_small in R by (cbn in K; lia). exact R.
Qed.
End Start.
