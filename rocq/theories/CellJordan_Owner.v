(** Which dart the sides of the contour pixels belong to. *)
From Coq Require Import Lia.
From Verif Require Import Base CellMap_Model CellMap_Spec CellMap_Main CellSigma_Spec CellSigma_Proofs CellSigma_Results CellLink_Spec CellLink_Proofs CellLink_Main CellLink_Results CellLink_Check
  CellFace_Spec CellFace_Walk CellStart_Spec CellStart_Walk CellStart_Ends CellContour_Orbit CellContour_Spec CellContour_Phi CellContour_Find.
Local Open Scope Z_scope.

Section Owner.
Variable m : cmap.
Let im := cim m.
Hypothesis Fa : faced m.
Hypothesis Sl : slim im.
Hypothesis Sm : smooth im.
Hypothesis Dr : drawn im.
Let Wi : wired m. Proof. apply Fa. Qed.
Let Fr : framed im. Proof. apply Wi. Qed.
Let Ne : neat im. Proof. apply Wi. Qed.
Let Jo : joined im. Proof. apply Wi. Qed.
Let Ri : ringed im. Proof. apply Wi. Qed.
Let Pl : plain im. Proof. apply Fa. Qed.
Let Ai : airy im. Proof. apply Fa. Qed.
Let Fi : filled im. Proof. apply Fa. Qed.
Let W1 : way 1. Proof. left. reflexivity. Qed.
Let W2 : way (-1). Proof. right. reflexivity. Qed.
Let forths := forths im.
Let lineTo := lineTo im.

(** the type of a neighbour *)
Definition nb (x y k : Z) : ctype := ptype (ipix im (x + dirX (k mod 8)) (y + dirY (k mod 8))).
Lemma nb_type d n : typeAt im d n = nb (dcx d) (dcy d) (ddir d + n). Proof. reflexivity. Qed.
Lemma nb_mod x y k : nb x y (k mod 8) = nb x y k. Proof. unfold nb. rewrite Z.mod_mod by lia. reflexivity. Qed.
Lemma nb_add x y a b : nb x y (a mod 8 + b) = nb x y (a + b). Proof. unfold nb. rewrite Z.add_mod_idemp_l by lia. reflexivity. Qed.

(** the side of the pixel in direction [j] belongs to the dart [z] *)
Definition owner (z : dart) (x y j : Z) : Prop :=
  (vertexAt im x y /\ ((isDart im z /\ nextDart im (-1) (Dart x y j) z) \/ (lonely im z /\ lonely im (Dart x y j) /\ nodeOf im z = nodeOf im (Dart x y j)))) \/
  (lineAt im x y /\ isDart im z /\ exists n i t, lineTo z n /\ (i < n)%nat /\ tx (forths i z) = x /\ ty (forths i z) = y /\
     0 < t < 8 /\ (j + t) mod 8 = ddir (back (forths i z)) /\ forall u, 0 < u < t -> ~ link im (Dart x y ((j + u) mod 8))).

Lemma link_region x y k : nb x y k = Region -> ~ link im (Dart x y (k mod 8)).
Proof. intros H (_ & T & _). rewrite nb_type in T. cbn [dcx dcy ddir] in T. rewrite Z.add_0_r, nb_mod in T. contradiction. Qed.
Lemma link_even x y k : 0 <= k < 8 -> Z.odd k = false -> nb x y k <> Region -> link im (Dart x y k).
Proof. intros K O H. split; [exact K|]. split; [rewrite nb_type; cbn [dcx dcy ddir]; rewrite Z.add_0_r; exact H|]. cbn [ddir]. congruence. Qed.
Lemma link_odd x y k : 0 <= k < 8 -> Z.odd k = true -> nb x y k <> Region -> nb x y (k + 1) = Region -> nb x y (k - 1) = Region -> link im (Dart x y k).
Proof. intros K O H A B. split; [exact K|]. split; [rewrite nb_type; cbn [dcx dcy ddir]; rewrite Z.add_0_r; exact H|]. intros _. rewrite !nb_type. cbn [dcx dcy ddir]. auto. Qed.
Lemma link_blocked x y k : Z.odd k = true -> nb x y (k + 1) <> Region \/ nb x y (k - 1) <> Region -> ~ link im (Dart x y (k mod 8)).
Proof.
  intros O H (_ & _ & S). cbn [ddir] in S. assert (Z.odd (k mod 8) = true) as Q. { rewrite (Z.div_mod k 8) in O by lia. rewrite Z.odd_add, Z.odd_mul in O. cbn in O. destruct (Z.odd (k mod 8)); auto. }
  specialize (S Q). rewrite !nb_type in S. cbn [dcx dcy ddir] in S. rewrite !nb_add in S. destruct S, H; contradiction.
Qed.
Lemma dart_link d : isDart im d -> link im d.
Proof. intros H. apply (dart_half im Fr d H). Qed.
Lemma dart_even x y k : vertexAt im x y -> 0 <= k < 8 -> Z.odd k = false -> nb x y k = Line -> isDart im (Dart x y k).
Proof. intros V K O H. split; [exact V|]. split; [exact K|]. split; [rewrite nb_type; cbn [dcx dcy ddir]; rewrite Z.add_0_r; exact H|]. cbn [ddir]. congruence. Qed.
Lemma dart_odd x y k : vertexAt im x y -> 0 <= k < 8 -> nb x y k = Line -> nb x y (k + 1) = Region -> nb x y (k - 1) = Region -> isDart im (Dart x y k).
Proof. intros V K H A B. split; [exact V|]. split; [exact K|]. split; [rewrite nb_type; cbn [dcx dcy ddir]; rewrite Z.add_0_r; exact H|]. intros _. rewrite !nb_type. auto. Qed.

Lemma walk_back u d d' z : isPlace im d -> places u im 1 d = d' -> (forall i, (i < u)%nat -> ~ isDart im (places i im 1 d)) -> nextDart im (-1) d z -> nextDart im (-1) d' z.
Proof.
  intros P E L (Dz & k & K & Ez & Lz). split; [exact Dz|]. exists (u + k)%nat. split; [lia|].
  assert (B : forall i, (i <= u)%nat -> places i im (-1) d' = places (u - i) im 1 d).
  { intros i I. subst d'. replace u with ((u - i) + i)%nat at 1 by lia. rewrite places_add. apply (places_inv im Fr i 1); [exact W1|]. apply places_ok; auto. }
  assert (Bu : places u im (-1) d' = d) by (rewrite B by lia; rewrite Nat.sub_diag; reflexivity).
  split; [rewrite places_add, Bu; exact Ez|]. intros j J. destruct (Nat.le_gt_cases j u) as [Q|Q].
  - rewrite B by lia. apply L. lia.
  - replace j with (u + (j - u))%nat by lia. rewrite places_add, Bu. apply Lz. lia.
Qed.

(** the side on the left of a step of the line belongs to its dart *)
Lemma left_out z n i x y k t : isDart im z -> lineTo z n -> (i <= n)%nat -> forths i z = Dart x y k -> nb x y (k + t) = Region ->
  (Z.odd k = true /\ t = 1) \/ (Z.odd k = false /\ t = 2 /\ ~ link im (Dart x y ((k + 1) mod 8)) /\ nb x y (k + 1) <> Vertex) -> owner z x y ((k + t) mod 8).
Proof.
  intros Dz Ln I E Rg Cs. pose proof Ln as (N & Rn & V). destruct i as [|i].
  - cbn in E. subst z. left. pose proof Dz as (Vz & Kz & Tz & Sz). cbn [dcx dcy ddir] in Vz, Kz, Sz. split; [exact Vz|]. left. split; [exact Dz|].
    split; [exact Dz|]. rewrite nb_type in Tz. cbn [dcx dcy ddir] in Tz. rewrite Z.add_0_r in Tz. destruct Cs as [(O & ->)|(O & -> & NL & NV)].
    + exists 1%nat. split; [lia|]. split; [|intros j J; lia]. cbn [places]. destruct (Sz O) as (S1 & S2). rewrite nb_type in S1, S2. cbn [dcx dcy ddir] in S1, S2.
      unfold placeNext. cbn [ddir]. assert (Z.odd ((k + 1) mod 8) = false) as -> by (destruct (odd_dirs k Kz O) as [->|[->|[->| ->]]]; reflexivity).
      rewrite !nb_type. cbn [dcx dcy ddir]. rewrite !nb_add. replace (k + 1 + -1) with k by lia. replace (k + 1 + 2 * -1) with (k + -1) by lia. rewrite Tz, S2. cbn [ctypeEqb].
      unfold turn. cbn [dcx dcy ddir]. rewrite Z.add_mod_idemp_l by lia. replace (k + 1 + -1) with k by lia. rewrite Z.mod_small by exact Kz. reflexivity.
    + exists 2%nat. split; [lia|]. assert (E1 : places 1 im (-1) (Dart x y ((k + 2) mod 8)) = Dart x y ((k + 1) mod 8)).
      { cbn [places]. unfold placeNext. cbn [ddir]. assert (Z.odd ((k + 2) mod 8) = false) as -> by (destruct (even_dirs k Kz O) as [->|[->|[->| ->]]]; reflexivity).
        rewrite !nb_type. cbn [dcx dcy ddir]. rewrite !nb_add. replace (k + 2 + -1) with (k + 1) by lia. replace (k + 2 + 2 * -1) with k by lia. rewrite Tz. apply CellSigma_Proofs.ctypeEqb_ne in NV. rewrite NV. cbn [ctypeEqb].
        unfold turn. cbn [dcx dcy ddir]. rewrite Z.add_mod_idemp_l by lia. f_equal. f_equal. lia. }
      split.
      * change 2%nat with (1 + 1)%nat. rewrite places_add, E1. cbn [places]. unfold placeNext. cbn [ddir]. assert (Z.odd ((k + 1) mod 8) = true) as -> by (destruct (even_dirs k Kz O) as [->|[->|[->| ->]]]; reflexivity).
        unfold turn. cbn [dcx dcy ddir]. rewrite Z.add_mod_idemp_l by lia. replace (k + 1 + -1) with k by lia. rewrite Z.mod_small by exact Kz. reflexivity.
      * intros j J. assert (j = 1%nat) as -> by lia. rewrite E1. intros Q. apply NL, dart_link, Q.
  - right. unfold forths in E. cbn [CellStart_Walk.forths] in E. fold forths in E. assert (H : half im (forths i z)) by (apply Rn; lia).
    destruct (forth_spec im Fr Sl Sm (forths i z) H) as (k' & E' & K & Nk & _ & _ & J). fold forths in E'. rewrite E' in E. injection E as X Y ->.
    pose proof H as (_ & LA & _). rewrite X, Y in *. split; [exact LA|]. split; [exact Dz|]. set (b := ddir (back (forths i z))) in *.
    assert (B : 0 <= b < 8) by apply back_range. assert (Nj : b <> (k + t) mod 8).
    { intros Q. apply (link_region x y (k + t) Rg). apply J. left. symmetry. exact Q. }
    assert (T : t = 1 \/ (t = 2 /\ b <> (k + 1) mod 8)).
    { destruct Cs as [(_ & ->)|(_ & -> & NL & _)]; [left; reflexivity|right]. split; [reflexivity|]. intros Q. apply NL, J. left. symmetry. exact Q. }
    exists n, i, ((b - (k + t) mod 8) mod 8). split; [exact Ln|]. split; [lia|]. split; [exact X|]. split; [exact Y|].
    assert (0 <= (k + t) mod 8 < 8) as Bj by (apply Z.mod_pos_bound; lia). split; [|split].
    + clear -Nj B Bj. revert Nj. generalize dependent ((k + t) mod 8). intros a Bj Nj. Z.div_mod_to_equations. lia.
    + clear -Nj B Bj. revert Nj. generalize dependent ((k + t) mod 8). intros a Bj Nj. Z.div_mod_to_equations. lia.
    + intros u U Lk. apply J in Lk. clear -Lk U T K B Nj Nk. destruct T as [->|[-> T]]; Z.div_mod_to_equations; lia.
Qed.

Lemma line_far d n : isDart im d -> lineTo d n -> lineTo (far im n d) n.
Proof.
  intros Dd Ln. pose proof (reversed im Fr Sl Sm d n Dd Ln) as Rv. pose proof Ln as (N & R & V). split; [exact N|]. split.
  - intros i I. rewrite Rv by lia. replace (n - i)%nat with (Datatypes.S (n - Datatypes.S i)) by lia. cbn [CellStart_Walk.forths]. apply (forth_rev im Fr Sl Sm). apply R. lia.
  - rewrite Rv by lia. rewrite Nat.sub_diag. cbn [CellStart_Walk.forths]. rewrite type_ahead by apply back_range. destruct Dd as (Vd & K & _). destruct (back_target d K) as [-> ->]. apply Vd.
Qed.
Lemma alpha_far y n : isDart im y -> lineTo y n -> nextAlpha m (far im n y) = Ok y /\ isDart im (far im n y).
Proof.
  intros Dy Ln. pose proof (two_ends im Fr Sl Sm y n Dr Dy Ln) as (Nq & T). pose proof (far_dart im Fr Sl Sm y n Dy Ln) as Df. split; [|exact Df].
  destruct (alpha_opposite m y (dh_start m Wi) Dy) as (b & A & Db & Nb & Ab & L). enough (b = far im n y) as <- by exact Ab.
  assert (Lf : edgeLabel im (far im n y) = edgeLabel im y).
  { assert (dartOfEdge im (edgeOf im y) (far im n y)) as (_ & Ef) by (apply T; auto). rewrite !(edgeLabel_dart im Fr) by (apply Df || apply Dy). rewrite Ef. reflexivity. }
  apply L in Lf; [|exact Df]. destruct Lf as [Q|Q]; [exfalso; apply Nq; congruence|congruence].
Qed.
Lemma met y z n : isDart im y -> nextDart im (-1) y z -> lineTo y n -> contour m z (far im n y).
Proof.
  intros Dy Nz Ln. destruct (alpha_far y n Dy Ln) as (A & Df). apply (contour_sym m Wi). apply (contour_dart m Wi); [exact Df|]. exists 1%nat. cbn [it]. apply (phi_is m Wi _ y); assumption.
Qed.

(** ** The pixels around a corner *)
Section Corner.
Variables (x y j : Z).
Hypothesis J : In j [0; 2; 4; 6].
Let qx := x + dirX ((j + 2) mod 8).
Let qy := y + dirY ((j + 2) mod 8).
Let sx := x + dirX ((j + 1) mod 8).
Let sy := y + dirY ((j + 1) mod 8).
Lemma j_even : Z.odd j = false. Proof. cbn in J. destruct J as [<-|[<-|[<-|[<-|[]]]]]; reflexivity. Qed.
Lemma j_range : 0 <= j < 8. Proof. clear -J. cbn in J. lia. Qed.
Ltac corner := unfold nb, qx, qy, sx, sy; cbn in J; destruct J as [<-|[<-|[<-|[<-|[]]]]]; cbn; repeat (f_equal; try lia).
Lemma nb_q0 : nb qx qy j = nb x y (j + 1). Proof. corner. Qed.
Lemma nb_q6 : nb qx qy (j + 6) = ptype (ipix im x y). Proof. corner. Qed.
Lemma nb_q7 : nb qx qy (j + 7) = nb x y j. Proof. corner. Qed.
Lemma nb_s4 : nb sx sy (j + 4) = nb x y (j + 2). Proof. corner. Qed.
Lemma nb_s5 : nb sx sy (j + 5) = ptype (ipix im x y). Proof. corner. Qed.
Lemma nb_s6 : nb sx sy (j + 6) = nb x y j. Proof. corner. Qed.
Lemma back_q : back (Dart x y ((j + 2) mod 8)) = Dart qx qy ((j + 6) mod 8). Proof. unfold back, tx, ty. cbn [dcx dcy ddir]. unfold qx, qy. f_equal. rewrite Z.add_mod_idemp_l by lia. f_equal. lia. Qed.
Lemma back_s : back (Dart x y ((j + 1) mod 8)) = Dart sx sy ((j + 5) mod 8). Proof. unfold back, tx, ty. cbn [dcx dcy ddir]. unfold sx, sy. f_equal. rewrite Z.add_mod_idemp_l by lia. f_equal. lia. Qed.
Lemma back_qs : back (Dart qx qy j) = Dart sx sy ((j + 4) mod 8).
Proof. unfold back, tx, ty. cbn [dcx dcy ddir]. unfold qx, qy, sx, sy. cbn in J. destruct J as [<-|[<-|[<-|[<-|[]]]]]; cbn; f_equal; lia. Qed.
Lemma odd1 : Z.odd (j + 1) = true. Proof. rewrite Z.odd_add, j_even. reflexivity. Qed.
Lemma even2 n : Z.odd n = false -> Z.odd ((j + n) mod 8) = false.
Proof. intros O. pose proof j_even as E. rewrite (Z.mod_eq (j + n) 8) by lia. rewrite Z.odd_sub, Z.odd_add, E, O, Z.odd_mul. reflexivity. Qed.

Hypothesis Rg : nb x y j = Region.

(** *** seen from a line *)
Section Line.
Hypothesis La : lineAt im x y.
Let Pn : ptype (ipix im x y) = Line. Proof. apply La. Qed.

Lemma line_inv z : owner z x y j -> isDart im z /\ exists n i t, lineTo z n /\ (i < n)%nat /\ 0 < t < 8 /\
  forths i z = back (Dart x y ((j + t) mod 8)) /\ link im (Dart x y ((j + t) mod 8)) /\ tx (forths i z) = x /\ ty (forths i z) = y /\ (j + t) mod 8 = ddir (back (forths i z)) /\ forall u, 0 < u < t -> ~ link im (Dart x y ((j + u) mod 8)).
Proof.
  intros [((_ & _ & V) & _)|(_ & Dz & n & i & t & Ln & I & X & Y & T & B & L)]; [congruence|]. split; [exact Dz|]. exists n, i, t.
  assert (H : half im (forths i z)) by (apply Ln, I). assert (Eb : back (forths i z) = Dart x y ((j + t) mod 8)) by (rewrite B; rewrite <- X, <- Y; reflexivity).
  split; [exact Ln|]. split; [exact I|]. split; [exact T|]. split; [rewrite <- Eb, back_back; [reflexivity|apply H]|]. split; [rewrite <- Eb; apply link_back; apply H|]. auto.
Qed.

Lemma line_round z : owner z x y j -> nb x y (j + 1) = Region -> nb x y (j + 2) = Region -> owner z x y ((j + 2) mod 8).
Proof.
  intros Ow R1 R2. apply line_inv in Ow. destruct Ow as (Dz & n & i & t & Ln & I & T & E & Lk & X & Y & B & L).
  assert (t <> 1) by (intros ->; apply (link_region x y (j + 1) R1), Lk). assert (t <> 2) by (intros ->; apply (link_region x y (j + 2) R2), Lk).
  right. split; [exact La|]. split; [exact Dz|]. exists n, i, (t - 2). split; [exact Ln|]. split; [exact I|]. split; [exact X|]. split; [exact Y|]. split; [lia|]. split.
  - rewrite Z.add_mod_idemp_l by lia. rewrite <- B. f_equal. lia.
  - intros u U. rewrite Z.add_mod_idemp_l by lia. replace (j + 2 + u) with (j + (2 + u)) by lia. apply L. lia.
Qed.
Lemma line_turn1 z : owner z x y j -> nb x y (j + 1) <> Region -> nb x y (j + 2) = Region -> owner z sx sy ((j + 6) mod 8).
Proof.
  intros Ow C1 R2. apply line_inv in Ow. destruct Ow as (Dz & n & i & t & Ln & I & T & E & Lk & X & Y & B & L).
  assert (L1 : link im (Dart x y ((j + 1) mod 8))).
  { apply link_odd; [apply Z.mod_pos_bound; lia|cbn in J; destruct J as [<-|[<-|[<-|[<-|[]]]]]; reflexivity|rewrite nb_mod; exact C1|rewrite nb_add; replace (j + 1 + 1) with (j + 2) by lia; exact R2|].
    change ((j + 1) mod 8 - 1) with ((j + 1) mod 8 + -1). rewrite nb_add. replace (j + 1 + -1) with j by lia. exact Rg. }
  assert (t = 1) as -> by (destruct (Z.eq_dec t 1); [assumption|exfalso; apply (L 1); [lia|exact L1]]). rewrite back_s in E.
  replace ((j + 6) mod 8) with (((j + 5) mod 8 + 1) mod 8) by (rewrite Z.add_mod_idemp_l by lia; f_equal; lia). apply (left_out z n i); auto; [lia|rewrite nb_add; replace (j + 5 + 1) with (j + 6) by lia; rewrite nb_s6; exact Rg|].
  left. split; [|reflexivity]. cbn in J. destruct J as [<-|[<-|[<-|[<-|[]]]]]; reflexivity.
Qed.
Lemma line_two z : owner z x y j -> nb x y (j + 2) <> Region -> isDart im z /\ exists n i, lineTo z n /\ (i < n)%nat /\ forths i z = Dart qx qy ((j + 6) mod 8).
Proof.
  intros Ow C2. apply line_inv in Ow. destruct Ow as (Dz & n & i & t & Ln & I & T & E & Lk & X & Y & B & L). split; [exact Dz|]. exists n, i. split; [exact Ln|]. split; [exact I|].
  assert (L2 : link im (Dart x y ((j + 2) mod 8))) by (apply link_even; [apply Z.mod_pos_bound; lia|apply even2; reflexivity|rewrite nb_mod; exact C2]).
  assert (t = 2) as ->; [|rewrite <- back_q; exact E]. destruct (Z.eq_dec t 1) as [->|]; [|destruct (Z.eq_dec t 2); [assumption|exfalso; apply (L 2); [lia|exact L2]]].
  exfalso. apply (link_blocked x y (j + 1) odd1); [left; replace (j + 1 + 1) with (j + 2) by lia; exact C2|exact Lk].
Qed.
Lemma line_on z : owner z x y j -> nb x y (j + 1) = Region -> nb x y (j + 2) <> Region -> owner z qx qy j.
Proof.
  intros Ow R1 C2. destruct (line_two z Ow C2) as (Dz & n & i & Ln & I & E).
  assert (E8 : ((j + 6) mod 8 + 2) mod 8 = j) by (rewrite Z.add_mod_idemp_l by lia; replace (j + 6 + 2) with (j + 1 * 8) by lia; rewrite Z.mod_add by lia; apply Z.mod_small, j_range).
  enough (owner z qx qy (((j + 6) mod 8 + 2) mod 8)) as Q by (rewrite E8 in Q; exact Q).
  apply (left_out z n i); auto; [lia| |].
  - rewrite nb_add. replace (j + 6 + 2) with (j + 1 * 8) by lia. rewrite <- nb_mod, Z.mod_add, nb_mod by lia. rewrite nb_q0. exact R1.
  - right. split; [apply even2; reflexivity|]. split; [reflexivity|]. rewrite nb_add, Z.add_mod_idemp_l by lia. replace (j + 6 + 1) with (j + 7) by lia. rewrite nb_q7, Rg. split; [|discriminate].
    apply link_region. rewrite nb_q7. exact Rg.
Qed.

Lemma q_in t : nb x y (j + 2) = t -> t <> Region -> 0 <= qx < iw im /\ 0 <= qy < ih im /\ ptype (ipix im qx qy) = t.
Proof.
  intros T _. pose proof (line_is_inner im Fr x y La) as (X & Y). pose proof (dirX_bound ((j + 2) mod 8)). pose proof (dirY_bound ((j + 2) mod 8)). unfold qx, qy. split; [lia|]. split; [lia|exact T].
Qed.
Lemma s_in t : nb x y (j + 1) = t -> t <> Region -> 0 <= sx < iw im /\ 0 <= sy < ih im /\ ptype (ipix im sx sy) = t.
Proof.
  intros T _. pose proof (line_is_inner im Fr x y La) as (X & Y). pose proof (dirX_bound ((j + 1) mod 8)). pose proof (dirY_bound ((j + 1) mod 8)). unfold sx, sy. split; [lia|]. split; [lia|exact T].
Qed.
End Line.

Lemma left_s z n i : isDart im z -> lineTo z n -> (i <= n)%nat -> forths i z = Dart sx sy ((j + 4) mod 8) -> nb x y (j + 2) <> Region -> (i = O -> ptype (ipix im x y) <> Vertex) -> owner z sx sy ((j + 6) mod 8).
Proof.
  intros Dz Ln I E C2 Np. destruct i as [|i].
  - replace ((j + 6) mod 8) with (((j + 4) mod 8 + 2) mod 8) by (rewrite Z.add_mod_idemp_l by lia; f_equal; lia).
    apply (left_out z n O); auto; [rewrite nb_add; replace (j + 4 + 2) with (j + 6) by lia; rewrite nb_s6; exact Rg|]. right. split; [apply even2; reflexivity|]. split; [reflexivity|].
    rewrite nb_add, Z.add_mod_idemp_l by lia. replace (j + 4 + 1) with (j + 5) by lia. split; [|rewrite nb_s5; auto]. apply link_blocked; [rewrite Z.odd_add, j_even; reflexivity|].
    right. replace (j + 5 - 1) with (j + 4) by lia. rewrite nb_s4. exact C2.
  - (* the pixel may be a node here *)
    right. pose proof Ln as (N & Rn & V). unfold forths in E. cbn [CellStart_Walk.forths] in E. fold forths in E. assert (H : half im (forths i z)) by (apply Rn; lia).
    destruct (forth_spec im Fr Sl Sm (forths i z) H) as (k' & E' & K & Nk & _ & _ & Jl). fold forths in E'. rewrite E' in E. injection E as X Y ->.
    pose proof H as (_ & LA & _). rewrite X, Y in *. split; [exact LA|]. split; [exact Dz|]. set (b := ddir (back (forths i z))) in *.
    assert (B : 0 <= b < 8) by apply back_range.
    assert (N6 : b <> (j + 6) mod 8). { intros Q. apply (link_region sx sy (j + 6)); [rewrite nb_s6; exact Rg|]. apply Jl. left. symmetry. exact Q. }
    assert (N5 : b <> (j + 5) mod 8). { intros Q. apply (link_blocked sx sy (j + 5)); [rewrite Z.odd_add, j_even; reflexivity|right; replace (j + 5 - 1) with (j + 4) by lia; rewrite nb_s4; exact C2|]. apply Jl. left. symmetry. exact Q. }
    exists n, i, ((b - (j + 6) mod 8) mod 8). split; [exact Ln|]. split; [lia|]. split; [exact X|]. split; [exact Y|].
    pose proof j_range as Jr. split; [|split].
    + clear -N6 B Jr. Z.div_mod_to_equations. lia.
    + clear -N6 B Jr. Z.div_mod_to_equations. lia.
    + intros u U Lk. apply Jl in Lk. clear -Lk U B N6 N5 Nk Jr. Z.div_mod_to_equations. lia.
Qed.
Lemma go_s v : places 1 im (-1) (Dart sx sy ((j + 6) mod 8)) = v -> nb x y (j + 2) = Vertex -> ptype (ipix im x y) <> Vertex -> v = Dart qx qy ((j + 6) mod 8).
Proof.
  intros <- Vq Np. cbn [places]. unfold placeNext. cbn [ddir]. rewrite even2 by reflexivity. rewrite !nb_type. cbn [dcx dcy ddir]. rewrite !nb_add.
  replace (j + 6 + -1) with (j + 5) by lia. replace (j + 6 + 2 * -1) with (j + 4) by lia. rewrite nb_s5, nb_s4, Vq. apply CellSigma_Proofs.ctypeEqb_ne in Np. rewrite Np. cbn [ctypeEqb].
  unfold go. cbn [dcx dcy ddir]. unfold sx, sy, qx, qy. cbn in J. destruct J as [<-|[<-|[<-|[<-|[]]]]]; cbn; f_equal; lia.
Qed.
Lemma line_both z : lineAt im x y -> owner z x y j -> nb x y (j + 1) <> Region -> nb x y (j + 2) <> Region -> exists z', owner z' sx sy ((j + 6) mod 8) /\ contour m z z'.
Proof.
  intros La Ow C1 C2. pose proof La as (_ & _ & Pn). destruct (line_two La z Ow C2) as (Dz & n & i & Ln & I & E). pose proof Ln as (N & Rn & V).
  assert (Cz : contour m z z) by (apply (contour_refl m Wi); left; exact Dz).
  destruct (nb x y (j + 2)) eqn:T2; [contradiction| | |].
  - (* q is a line *)
    pose proof (q_in La Line T2 ltac:(discriminate)) as Lq. destruct i as [|i].
    { exfalso. cbn in E. subst z. destruct Dz as ((_ & _ & Vz) & _). cbn [dcx dcy] in Vz. destruct Lq as (_ & _ & Lq). congruence. }
    unfold forths in E. cbn [CellStart_Walk.forths] in E. fold forths in E. assert (H : half im (forths i z)) by (apply Rn; lia).
    destruct (forth_spec im Fr Sl Sm (forths i z) H) as (k' & E' & K & Nk & _ & _ & Jl). fold forths in E'. rewrite E' in E. injection E as X Y ->. rewrite X, Y in *.
    assert (Lq0 : link im (Dart qx qy j)) by (apply link_even; [apply j_range|apply j_even|rewrite nb_q0; exact C1]).
    apply Jl in Lq0. destruct Lq0 as [Q|Q].
    2: { exfalso. pose proof j_range as Jr. clear -Q Jr. Z.div_mod_to_equations. lia. }
    exists z. split; [|exact Cz]. apply (left_s z n i); auto; [lia| |rewrite T2; discriminate|rewrite Pn; discriminate].
    rewrite <- back_qs. rewrite Q. rewrite <- X at 1. rewrite <- Y. rewrite <- (back_back (forths i z)) at 1 by apply H. reflexivity.
  - (* q is a node *)
    pose proof (q_in La Vertex T2 ltac:(discriminate)) as Vq. destruct i as [|i].
    2: { exfalso. pose proof (runs_center im Fr Sl Sm (Datatypes.S i) z Dz ltac:(intros k Hk; apply Rn; lia) ltac:(lia)) as Q. fold forths in Q. rewrite E in Q. cbn [dcx dcy] in Q. destruct Vq as (_ & _ & Vq). congruence. }
    cbn in E. destruct (nb x y (j + 1)) eqn:T1; [contradiction| | |].
    + (* s is a line *)
      assert (Dy : isDart im (Dart qx qy j)) by (apply dart_even; [exact Vq|apply j_range|apply j_even|rewrite nb_q0; exact T1]).
      destruct (line_ends im Fr Sl Sm Pl (Dart qx qy j) Dy) as (n' & Ln' & _). exists (far im n' (Dart qx qy j)). split.
      * apply (left_s _ n' n'); auto; [apply (far_dart im Fr Sl Sm); auto| | |rewrite T2; discriminate|destruct Ln' as (Ln' & _); lia].
        { apply line_far; assumption. }
        unfold forths. rewrite (reversed im Fr Sl Sm _ n' Dy Ln') by lia. rewrite Nat.sub_diag. cbn [CellStart_Walk.forths]. apply back_qs.
      * apply met; auto. subst z. split; [exact Dz|]. exists 2%nat. split; [lia|].
        assert (E1 : places 1 im (-1) (Dart qx qy j) = Dart qx qy ((j + 7) mod 8)).
        { cbn [places]. unfold placeNext. cbn [ddir]. rewrite j_even. rewrite !nb_type. cbn [dcx dcy ddir]. rewrite <- (nb_mod _ _ (j + -1)), <- (nb_mod _ _ (j + 2 * -1)).
          replace ((j + -1) mod 8) with ((j + 7) mod 8) by (replace (j + 7) with (j + -1 + 1 * 8) by lia; apply Z.mod_add; lia).
          replace ((j + 2 * -1) mod 8) with ((j + 6) mod 8) by (replace (j + 6) with (j + 2 * -1 + 1 * 8) by lia; apply Z.mod_add; lia).
          rewrite !nb_mod, nb_q7, nb_q6, Rg, Pn. cbn [ctypeEqb]. unfold turn. cbn [dcx dcy ddir]. f_equal. replace (j + 7) with (j + -1 + 1 * 8) by lia. symmetry. apply Z.mod_add. lia. }
        split.
        { change 2%nat with (1 + 1)%nat. rewrite places_add, E1. cbn [places]. unfold placeNext. cbn [ddir].
          assert (Z.odd ((j + 7) mod 8) = true) as -> by (cbn in J; destruct J as [<-|[<-|[<-|[<-|[]]]]]; reflexivity). unfold turn. cbn [dcx dcy ddir]. f_equal. rewrite Z.add_mod_idemp_l by lia. f_equal. lia. }
        intros i I'. assert (i = 1%nat) as -> by lia. rewrite E1. intros (_ & _ & Q & _). rewrite nb_type in Q. cbn [dcx dcy ddir] in Q. rewrite Z.add_0_r, nb_mod, nb_q7, Rg in Q. discriminate Q.
    + (* s is a node *)
      pose proof (s_in La Vertex T1 ltac:(discriminate)) as Vs. exists z. split; [|exact Cz]. left. split; [exact Vs|]. left. split; [exact Dz|]. split; [exact Dz|].
      exists 1%nat. split; [lia|]. split; [|intros i I'; lia]. rewrite (go_s _ eq_refl T2) by (rewrite Pn; discriminate). symmetry. exact E.
    + exfalso. pose proof (s_in La ErrorType T1 ltac:(discriminate)) as (A & B & C). apply (Pl _ _ A B C).
  - exfalso. pose proof (q_in La ErrorType T2 ltac:(discriminate)) as (A & B & C). apply (Pl _ _ A B C).
Qed.

(** *** seen from a node *)
Section Node.
Hypothesis Va : vertexAt im x y.
Lemma p_place : isPlace im (Dart x y j) /\ ~ isDart im (Dart x y j).
Proof.
  assert (T : typeAt im (Dart x y j) 0 = Region) by (rewrite nb_type; cbn [dcx dcy ddir]; rewrite Z.add_0_r; exact Rg). split; [|intros (_ & _ & Q & _); congruence].
  split; [exact Va|]. split; [apply j_range|]. split; [congruence|]. cbn [ddir]. rewrite j_even. discriminate.
Qed.
Lemma vertex_to u x' y' j' z : owner z x y j -> places u im 1 (Dart x y j) = Dart x' y' j' -> (forall i, (i < u)%nat -> ~ isDart im (places i im 1 (Dart x y j))) -> owner z x' y' j'.
Proof.
  intros Ow E L. pose proof p_place as (Pp & Np). pose proof (places_ok im Fr u 1 _ W1 Pp) as P'. rewrite E in P'. left. split; [apply P'|].
  destruct Ow as [(_ & [(Dz & Nz)|(Lz & Lp & En)])|(La & _)].
  - left. split; [exact Dz|]. apply (walk_back u (Dart x y j)); auto.
  - right. pose proof (places_label im Fr Jo u 1 (Dart x y j) W1 Pp) as Q. rewrite E in Q. split; [exact Lz|]. split; [|congruence]. split; [exact P'|]. intros e De. rewrite Q. apply Lp, De.
  - exfalso. destruct La as (_ & _ & A), Va as (_ & _ & B). congruence.
Qed.
Lemma dart_to u w z : owner z x y j -> places u im 1 (Dart x y j) = w -> isDart im w -> (forall i, (i < u)%nat -> ~ isDart im (places i im 1 (Dart x y j))) -> nextDart im (-1) w z.
Proof.
  intros Ow E Dw L. pose proof p_place as (Pp & Np). destruct Ow as [(_ & [(Dz & Nz)|(Lz & Lp & En)])|(La & _)].
  - apply (walk_back u (Dart x y j)); auto.
  - exfalso. pose proof (places_label im Fr Jo u 1 (Dart x y j) W1 Pp) as Q. rewrite E in Q. apply (proj2 Lp w Dw Q).
  - exfalso. destruct La as (_ & _ & A), Va as (_ & _ & B). congruence.
Qed.
Lemma next_turn : nb x y (j + 1) <> Vertex -> nb x y (j + 2) <> Vertex -> placeNext im 1 (Dart x y j) = Dart x y ((j + 1) mod 8).
Proof.
  intros A B. apply CellSigma_Proofs.ctypeEqb_ne in A, B. unfold placeNext. cbn [ddir]. rewrite j_even. rewrite !nb_type. cbn [dcx dcy ddir]. change (2 * 1) with 2. rewrite A, B. reflexivity.
Qed.
Lemma next_turn2 : nb x y (j + 1) <> Vertex -> nb x y (j + 2) <> Vertex -> places 2 im 1 (Dart x y j) = Dart x y ((j + 2) mod 8).
Proof.
  intros A B. cbn [places]. rewrite (next_turn A B). unfold placeNext. cbn [ddir]. assert (Z.odd ((j + 1) mod 8) = true) as -> by (cbn in J; destruct J as [<-|[<-|[<-|[<-|[]]]]]; reflexivity).
  unfold turn. cbn [dcx dcy ddir]. f_equal. rewrite Z.add_mod_idemp_l by lia. f_equal. lia.
Qed.
Lemma next_q : nb x y (j + 1) <> Vertex -> nb x y (j + 2) = Vertex -> placeNext im 1 (Dart x y j) = Dart qx qy j.
Proof.
  intros A B. apply CellSigma_Proofs.ctypeEqb_ne in A. unfold placeNext. cbn [ddir]. rewrite j_even. rewrite !nb_type. cbn [dcx dcy ddir]. change (2 * 1) with 2. rewrite A, B. cbn [ctypeEqb].
  unfold go. cbn [dcx dcy ddir]. rewrite Z.add_0_r, (Z.mod_small j) by apply j_range. reflexivity.
Qed.
Lemma next_s : nb x y (j + 1) = Vertex -> placeNext im 1 (Dart x y j) = Dart sx sy ((j + 6) mod 8).
Proof.
  intros A. unfold placeNext. cbn [ddir]. rewrite j_even. rewrite !nb_type. cbn [dcx dcy ddir]. rewrite A. cbn [ctypeEqb]. unfold go. cbn [dcx dcy ddir]. change (- (2 * 1)) with (-2).
  replace ((j + -2) mod 8) with ((j + 6) mod 8) by (replace (j + 6) with (j + -2 + 1 * 8) by lia; apply Z.mod_add; lia). reflexivity.
Qed.
Lemma before1 i : (i < 1)%nat -> ~ isDart im (places i im 1 (Dart x y j)). Proof. intros I. assert (i = O) as -> by lia. apply p_place. Qed.
Lemma before2 : nb x y (j + 1) <> Vertex -> nb x y (j + 2) <> Vertex -> nb x y (j + 1) = Region \/ nb x y (j + 2) <> Region -> forall i, (i < 2)%nat -> ~ isDart im (places i im 1 (Dart x y j)).
Proof.
  intros A B C [|i] I; [apply p_place|]. assert (i = O) as -> by lia. cbn [places]. rewrite (next_turn A B). intros Q. apply dart_link in Q. destruct C as [C|C].
  - exact (link_region x y (j + 1) C Q).
  - apply (link_blocked x y (j + 1) odd1); [left; replace (j + 1 + 1) with (j + 2) by lia; exact C|exact Q].
Qed.
Lemma near_types k : nb x y k = Region \/ nb x y k = Line \/ nb x y k = Vertex.
Proof.
  destruct (nb x y k) eqn:E; auto. exfalso. destruct (neighbor_in im Fr _ _ (k mod 8) Va) as (X & Y). apply (Pl _ _ X Y). exact E.
Qed.
Lemma own_refl z : owner z x y j -> contour m z z.
Proof. intros Ow. apply (contour_refl m Wi). destruct Ow as [(_ & [(D & _)|(L & _)])|(_ & D & _)]; auto. Qed.

Lemma node_round z : owner z x y j -> nb x y (j + 1) = Region -> nb x y (j + 2) = Region -> owner z x y ((j + 2) mod 8).
Proof. intros Ow R1 R2. apply (vertex_to 2); [exact Ow|apply next_turn2; congruence|apply before2; [congruence|congruence|auto]]. Qed.
Lemma node_on z : owner z x y j -> nb x y (j + 1) = Region -> nb x y (j + 2) <> Region -> exists z', owner z' qx qy j /\ contour m z z'.
Proof.
  intros Ow R1 C2. destruct (near_types (j + 2)) as [T|[T|T]]; [contradiction| |].
  - (* a dart to q *)
    set (w := Dart x y ((j + 2) mod 8)).
    assert (Dw : isDart im w) by (apply dart_even; [exact Va|apply Z.mod_pos_bound; lia|apply even2; reflexivity|rewrite nb_mod; exact T]).
    pose proof (dart_to 2 w z Ow (next_turn2 ltac:(congruence) ltac:(congruence)) Dw (before2 ltac:(congruence) ltac:(congruence) ltac:(auto))) as Nz.
    destruct (line_ends im Fr Sl Sm Pl w Dw) as (n & Ln & _). exists (far im n w). split; [|apply met; assumption].
    assert (E8 : ((j + 6) mod 8 + 2) mod 8 = j) by (rewrite Z.add_mod_idemp_l by lia; replace (j + 6 + 2) with (j + 1 * 8) by lia; rewrite Z.mod_add by lia; apply Z.mod_small, j_range).
    enough (owner (far im n w) qx qy (((j + 6) mod 8 + 2) mod 8)) as Q by (rewrite E8 in Q; exact Q).
    apply (left_out _ n n); [apply (alpha_far w n Dw Ln)|apply line_far; assumption|lia| | |].
    + unfold forths. rewrite (reversed im Fr Sl Sm w n Dw Ln) by lia. rewrite Nat.sub_diag. cbn [CellStart_Walk.forths]. apply back_q.
    + rewrite nb_add. replace (j + 6 + 2) with (j + 1 * 8) by lia. rewrite <- nb_mod, Z.mod_add, nb_mod by lia. rewrite nb_q0. exact R1.
    + right. split; [apply even2; reflexivity|]. split; [reflexivity|]. rewrite nb_add, Z.add_mod_idemp_l by lia. replace (j + 6 + 1) with (j + 7) by lia. rewrite nb_q7, Rg. split; [|discriminate].
      apply link_region. rewrite nb_q7. exact Rg.
  - exists z. split; [|exact (own_refl z Ow)]. apply (vertex_to 1); [exact Ow|cbn [places]; apply next_q; congruence|apply before1].
Qed.
Lemma node_turn z : owner z x y j -> nb x y (j + 1) <> Region -> exists z', owner z' sx sy ((j + 6) mod 8) /\ contour m z z'.
Proof.
  intros Ow C1. pose proof Va as (_ & _ & Pn). destruct (near_types (j + 1)) as [T1|[T1|T1]]; [contradiction| |].
  - destruct (near_types (j + 2)) as [T2|[T2|T2]].
    + set (w := Dart x y ((j + 1) mod 8)).
      assert (Dw : isDart im w).
      { apply dart_odd; [exact Va|apply Z.mod_pos_bound; lia|rewrite nb_mod; exact T1|rewrite nb_add; replace (j + 1 + 1) with (j + 2) by lia; exact T2|].
        change ((j + 1) mod 8 - 1) with ((j + 1) mod 8 + -1). rewrite nb_add. replace (j + 1 + -1) with j by lia. exact Rg. }
      assert (Nz : nextDart im (-1) w z) by (apply (dart_to 1 w z Ow); [cbn [places]; apply next_turn; congruence|exact Dw|apply before1]).
      destruct (line_ends im Fr Sl Sm Pl w Dw) as (n & Ln & _). exists (far im n w). split; [|apply met; assumption].
      replace ((j + 6) mod 8) with (((j + 5) mod 8 + 1) mod 8) by (rewrite Z.add_mod_idemp_l by lia; f_equal; lia).
      apply (left_out _ n n); [apply (alpha_far w n Dw Ln)|apply line_far; assumption|lia| | |].
      * unfold forths. rewrite (reversed im Fr Sl Sm w n Dw Ln) by lia. rewrite Nat.sub_diag. cbn [CellStart_Walk.forths]. apply back_s.
      * rewrite nb_add. replace (j + 5 + 1) with (j + 6) by lia. rewrite nb_s6. exact Rg.
      * left. split; [|reflexivity]. cbn in J. destruct J as [<-|[<-|[<-|[<-|[]]]]]; reflexivity.
    + set (w := Dart x y ((j + 2) mod 8)).
      assert (Dw : isDart im w) by (apply dart_even; [exact Va|apply Z.mod_pos_bound; lia|apply even2; reflexivity|rewrite nb_mod; exact T2]).
      assert (Nz : nextDart im (-1) w z) by (apply (dart_to 2 w z Ow); [apply next_turn2; congruence|exact Dw|apply before2; [congruence|congruence|right; congruence]]).
      destruct (line_ends im Fr Sl Sm Pl w Dw) as (n & Ln & _). exists (far im n w). split; [|apply met; assumption].
      pose proof Ln as (N & Rn & V). assert (Hw : half im w) by (apply (Rn O); exact N).
      destruct (forth_spec im Fr Sl Sm w Hw) as (k & E & K & Nk & _ & _ & Jl). change (tx w) with qx in *. change (ty w) with qy in *.
      assert (Lq0 : link im (Dart qx qy j)) by (apply link_even; [apply j_range|apply j_even|rewrite nb_q0; exact C1]).
      apply Jl in Lq0. assert (Bw : ddir (back w) = (j + 6) mod 8) by (unfold w; rewrite back_q; reflexivity). rewrite Bw in *.
      destruct Lq0 as [Q|Q]; [exfalso; pose proof j_range as Jr; clear -Q Jr; Z.div_mod_to_equations; lia|]. subst k.
      assert (n <> 1%nat) by (intros ->; cbn [CellStart_Walk.forths] in V; rewrite E, nb_type in V; cbn [dcx dcy ddir] in V; rewrite Z.add_0_r, nb_q0 in V; congruence).
      apply (left_s _ n (n - 1)); [apply (alpha_far w n Dw Ln)|apply line_far; assumption|lia| |congruence|lia].
      unfold forths. rewrite (reversed im Fr Sl Sm w n Dw Ln) by lia. replace (n - (n - 1))%nat with 1%nat by lia. cbn [CellStart_Walk.forths]. rewrite E. apply back_qs.
    + set (w := Dart qx qy j). pose proof (neighbor_in im Fr _ _ ((j + 2) mod 8) Va) as (Xq & Yq).
      assert (Dw : isDart im w) by (apply dart_even; [split; [exact Xq|split; [exact Yq|exact T2]]|apply j_range|apply j_even|rewrite nb_q0; exact T1]).
      assert (Nz : nextDart im (-1) w z) by (apply (dart_to 1 w z Ow); [cbn [places]; apply next_q; congruence|exact Dw|apply before1]).
      destruct (line_ends im Fr Sl Sm Pl w Dw) as (n & Ln & _). exists (far im n w). split; [|apply met; assumption]. pose proof Ln as (N & _ & _).
      apply (left_s _ n n); [apply (alpha_far w n Dw Ln)|apply line_far; assumption|lia| |congruence|lia].
      unfold forths. rewrite (reversed im Fr Sl Sm w n Dw Ln) by lia. rewrite Nat.sub_diag. cbn [CellStart_Walk.forths]. apply back_qs.
  - exists z. split; [|exact (own_refl z Ow)]. apply (vertex_to 1); [exact Ow|cbn [places]; apply next_s; exact T1|apply before1].
Qed.
End Node.
End Corner.
End Owner.
