(** Which dart the sides of the contour pixels belong to, for lines of any shape. *)
From Coq Require Import Lia.
From Verif Require Import Base CellMap_Model CellMap_Spec CellMap_Main CellSigma_Spec CellSigma_Proofs CellSigma_Results CellLink_Spec CellLink_Proofs CellLink_Main CellLink_Results CellLink_Check
  CellFace_Spec CellFace_Walk CellStart_Spec CellStart_Walk CellStart_Ends CellContour_Orbit CellContour_Spec CellContour_Phi CellContour_Find CellJordan_Owner CellPlane_Spec.
Local Open Scope Z_scope.

Section Owner.
Variable m : cmap.
Let im := cim m.
Hypothesis Fa : faced m.
Variable L : dart -> Z -> Z -> Z -> Prop.
Hypothesis Tr : tracked m L.
Let Wi : wired m. Proof. apply Fa. Qed.
Let Fr : framed im. Proof. apply Wi. Qed.
Let Ne : neat im. Proof. apply Wi. Qed.
Let Jo : joined im. Proof. apply Wi. Qed.
Let Pl : plain im. Proof. apply Fa. Qed.
Let W1 : way 1. Proof. left. reflexivity. Qed.
Let W2 : way (-1). Proof. right. reflexivity. Qed.
Let nb := nb m.

(** at a node: the dart passed last *)
Definition vown (z : dart) (x y j : Z) : Prop :=
  vertexAt im x y /\ ((isDart im z /\ nextDart im (-1) (Dart x y j) z) \/ (lonely im z /\ lonely im (Dart x y j) /\ nodeOf im z = nodeOf im (Dart x y j))).
Definition own (z : dart) (x y j : Z) : Prop := vown z x y j \/ (lineAt im x y /\ L z x y j).

Lemma vown_owner z x y j : vertexAt im x y -> (vown z x y j <-> owner m z x y j).
Proof.
  intros V. split; [intros H; left; exact H|]. intros [H|((_ & _ & T) & _)]; [exact H|]. destruct V as (_ & _ & V). fold im in T. congruence.
Qed.
Lemma vown_turn1 x y k : isDart im (Dart x y k) -> Z.odd k = true -> vown (Dart x y k) x y ((k + 1) mod 8).
Proof.
  intros Dz O. pose proof Dz as (Vz & Kz & Tz & Sz). cbn [dcx dcy ddir] in Vz, Kz, Sz. split; [exact Vz|]. left. split; [exact Dz|]. split; [exact Dz|].
  exists 1%nat. split; [lia|]. split; [|intros j J; lia]. cbn [places]. destruct (Sz O) as (S1 & S2). change (typeAt im (Dart x y k)) with (fun n => nb x y (k + n)) in *. cbv beta in *. rewrite Z.add_0_r in Tz.
  unfold placeNext. cbn [ddir]. assert (Z.odd ((k + 1) mod 8) = false) as -> by (destruct (odd_dirs k Kz O) as [->|[->|[->| ->]]]; reflexivity).
  change (typeAt im (Dart x y ((k + 1) mod 8))) with (fun n => nb x y ((k + 1) mod 8 + n)). cbv beta. unfold nb. rewrite !nb_add. replace (k + 1 + -1) with k by lia. replace (k + 1 + 2 * -1) with (k + -1) by lia. fold nb. rewrite Tz, S2. cbn [ctypeEqb].
  unfold turn. cbn [dcx dcy ddir]. rewrite Z.add_mod_idemp_l by lia. replace (k + 1 + -1) with k by lia. rewrite Z.mod_small by exact Kz. reflexivity.
Qed.
Lemma next_turn2' x y k : isDart im (Dart x y k) -> Z.odd k = false -> ~ isDart im (Dart x y ((k + 1) mod 8)) -> nb x y (k + 1) <> Vertex -> nextDart im (-1) (Dart x y ((k + 2) mod 8)) (Dart x y k).
Proof.
  intros Dz O NL NV. pose proof Dz as (Vz & Kz & Tz & Sz). cbn [dcx dcy ddir] in Vz, Kz, Sz. split; [exact Dz|]. change (typeAt im (Dart x y k) 0) with (nb x y (k + 0)) in Tz. rewrite Z.add_0_r in Tz.
  exists 2%nat. split; [lia|]. assert (E1 : places 1 im (-1) (Dart x y ((k + 2) mod 8)) = Dart x y ((k + 1) mod 8)).
  { cbn [places]. unfold placeNext. cbn [ddir]. assert (Z.odd ((k + 2) mod 8) = false) as -> by (destruct (even_dirs k Kz O) as [->|[->|[->| ->]]]; reflexivity).
    change (typeAt im (Dart x y ((k + 2) mod 8))) with (fun n => nb x y ((k + 2) mod 8 + n)). cbv beta. unfold nb in *. rewrite !nb_add. replace (k + 2 + -1) with (k + 1) by lia. replace (k + 2 + 2 * -1) with k by lia. rewrite Tz. apply CellSigma_Proofs.ctypeEqb_ne in NV. rewrite NV. cbn [ctypeEqb].
    unfold turn. cbn [dcx dcy ddir]. rewrite Z.add_mod_idemp_l by lia. f_equal. f_equal. lia. }
  split.
  - change 2%nat with (1 + 1)%nat. rewrite places_add, E1. cbn [places]. unfold placeNext. cbn [ddir]. assert (Z.odd ((k + 1) mod 8) = true) as -> by (destruct (even_dirs k Kz O) as [->|[->|[->| ->]]]; reflexivity).
    unfold turn. cbn [dcx dcy ddir]. rewrite Z.add_mod_idemp_l by lia. replace (k + 1 + -1) with k by lia. rewrite Z.mod_small by exact Kz. reflexivity.
  - intros j J. assert (j = 1%nat) as -> by lia. rewrite E1. exact NL.
Qed.
Lemma vown_turn2 x y k : isDart im (Dart x y k) -> Z.odd k = false -> ~ isDart im (Dart x y ((k + 1) mod 8)) -> nb x y (k + 1) <> Vertex -> vown (Dart x y k) x y ((k + 2) mod 8).
Proof. intros D O N V. split; [apply D|]. left. split; [exact D|]. apply next_turn2'; assumption. Qed.
Lemma met' w b z : isDart im w -> nextDart im (-1) w z -> nextAlpha m w = Ok b -> contour m z b.
Proof.
  intros Dw Nz A. destruct (alpha_opposite m w (dh_start m Wi) Dw) as (b' & A' & Db & _ & Ab & _). assert (b' = b) by congruence. subst b'.
  apply (contour_sym m Wi). apply (contour_dart m Wi); [exact Db|]. exists 1%nat. cbn [it]. apply (phi_is m Wi _ w); assumption.
Qed.
Lemma alpha_some w : isDart im w -> exists b, nextAlpha m w = Ok b.
Proof. intros Dw. destruct (alpha_opposite m w (dh_start m Wi) Dw) as (b & A & _). exists b. exact A. Qed.
Lemma vown_kind z x y j : vown z x y j -> isDart im z \/ lonely im z.
Proof. intros (_ & [(D & _)|(Lo & _)]); auto. Qed.
Lemma side_kind z x y j : In j [0; 2; 4; 6] -> nb x y j = Region -> own z x y j -> isDart im z \/ lonely im z.
Proof. intros J R [H|(La & H)]; [apply (vown_kind z x y j H)|left]. destruct Tr as (_ & T & _). apply (T z x y j); [|exact H]. split; [exact J|]. split; [exact La|exact R]. Qed.

(** ** Around a corner *)
Section Corner.
Variables (x y j : Z).
Hypothesis J : In j [0; 2; 4; 6].
Hypothesis Rg : nb x y j = Region.
Let qx := x + dirX ((j + 2) mod 8).
Let qy := y + dirY ((j + 2) mod 8).
Let sx := x + dirX ((j + 1) mod 8).
Let sy := y + dirY ((j + 1) mod 8).
Let Jr : 0 <= j < 8. Proof. exact (j_range j J). Qed.
Let Je : Z.odd j = false. Proof. exact (j_even x y j J). Qed.
Lemma to_s : qx + dirX j = sx /\ qy + dirY j = sy.
Proof. unfold qx, qy, sx, sy. cbn in J. destruct J as [<-|[<-|[<-|[<-|[]]]]]; cbn; lia. Qed.
Lemma m8 a : (j + a + 8) mod 8 = (j + a) mod 8. Proof. replace (j + a + 8) with (j + a + 1 * 8) by lia. apply Z.mod_add. lia. Qed.
Lemma j8 : (j + 8) mod 8 = j. Proof. replace (j + 8) with (j + 1 * 8) by lia. rewrite Z.mod_add by lia. apply Z.mod_small, Jr. Qed.

(** the step of a dart that is met at a node *)
Lemma start_q w b : w = Dart x y ((j + 2) mod 8) -> isDart im w -> nextAlpha m w = Ok b -> (nb x y (j + 1) = Region -> L b qx qy j) /\ (nb x y (j + 1) = Line -> L b sx sy ((j + 6) mod 8)).
Proof.
  intros -> Dw A. destruct Tr as (_ & _ & _ & _ & S). destruct (S _ _ _ b Dw A) as (_ & S2 & S3). rewrite (even2 x y j J 2 eq_refl) in S2, S3. fold im in S2, S3.
  assert (E7 : near im x y ((j + 2) mod 8 + 7) = nb x y (j + 1)). { change (nb x y ((j + 2) mod 8 + 7) = nb x y (j + 1)). unfold nb. rewrite nb_add. rewrite <- nb_mod. replace (j + 2 + 7) with (j + 1 + 8) by lia. rewrite m8. apply nb_mod. }
  assert (E6 : near im x y ((j + 2) mod 8 + 6) = nb x y j). { change (nb x y ((j + 2) mod 8 + 6) = nb x y j). unfold nb. rewrite nb_add. rewrite <- nb_mod. replace (j + 2 + 6) with (j + 8) by lia. rewrite j8. reflexivity. }
  rewrite E7, E6 in S3. rewrite E7 in S2. split.
  - intros R. specialize (S2 eq_refl R). rewrite Z.add_mod_idemp_l in S2 by lia. replace (j + 2 + 6) with (j + 8) in S2 by lia. rewrite j8 in S2. exact S2.
  - intros T. specialize (S3 eq_refl T Rg). rewrite !Z.add_mod_idemp_l in S3 by lia. replace (j + 2 + 7) with (j + 1 + 8) in S3 by lia. replace (j + 2 + 4) with (j + 6) in S3 by lia. rewrite m8 in S3. exact S3.
Qed.
Lemma start_s w b : w = Dart x y ((j + 1) mod 8) -> isDart im w -> nextAlpha m w = Ok b -> L b sx sy ((j + 6) mod 8).
Proof.
  intros -> Dw A. destruct Tr as (_ & _ & _ & _ & S). destruct (S _ _ _ b Dw A) as (S1 & _). assert (O : Z.odd ((j + 1) mod 8) = true) by (cbn in J; destruct J as [<-|[<-|[<-|[<-|[]]]]]; reflexivity).
  specialize (S1 O). rewrite Z.add_mod_idemp_l in S1 by lia. replace (j + 1 + 5) with (j + 6) in S1 by lia. exact S1.
Qed.
Lemma start_qs w b : w = Dart qx qy j -> isDart im w -> nextAlpha m w = Ok b -> L b sx sy ((j + 6) mod 8).
Proof.
  intros -> Dw A. destruct Tr as (_ & _ & _ & _ & S). destruct (S _ _ _ b Dw A) as (_ & S2 & _). destruct to_s as (Ex & Ey). rewrite Ex, Ey in S2. apply S2; [exact Je|]. fold im.
  change (nb qx qy (j + 7) = Region). unfold nb, qx, qy. rewrite (nb_q7 m x y j J). exact Rg.
Qed.

Section Line.
Hypothesis La : lineAt im x y.
Let Pn : ptype (ipix im x y) = Line. Proof. apply La. Qed.
Variable z : dart.
Hypothesis Lz : L z x y j.
Let Sd : lineSide im x y j. Proof. split; [exact J|]. split; [exact La|exact Rg]. Qed.
Let St : steps im L z x y j. Proof. destruct Tr as (_ & _ & _ & S & _). apply S; [exact Sd|exact Lz]. Qed.
Let Dz : isDart im z. Proof. destruct Tr as (_ & T & _). apply (T z x y j Sd Lz). Qed.
Lemma line_types k : nb x y k = Region \/ nb x y k = Line \/ nb x y k = Vertex.
Proof.
  destruct (nb x y k) eqn:E; auto. exfalso. pose proof (line_is_inner im Fr x y La) as (X & Y). pose proof (dirX_bound (k mod 8)). pose proof (dirY_bound (k mod 8)). apply (Pl (x + dirX (k mod 8)) (y + dirY (k mod 8))); [lia|lia|exact E].
Qed.
Lemma line_in k t : nb x y k = t -> 0 <= x + dirX (k mod 8) < iw im /\ 0 <= y + dirY (k mod 8) < ih im /\ ptype (ipix im (x + dirX (k mod 8)) (y + dirY (k mod 8))) = t.
Proof. intros T. pose proof (line_is_inner im Fr x y La) as (X & Y). pose proof (dirX_bound (k mod 8)). pose proof (dirY_bound (k mod 8)). split; [lia|]. split; [lia|exact T]. Qed.
Let Cz : contour m z z. Proof. apply (contour_refl m Wi). left. exact Dz. Qed.
Lemma step_round : nb x y (j + 1) = Region -> nb x y (j + 2) = Region -> own z x y ((j + 2) mod 8).
Proof. intros R1 R2. right. split; [exact La|]. apply St; assumption. Qed.
(** a node beside the line *)
Lemma q_node : nb x y (j + 2) = Vertex -> z = Dart qx qy ((j + 6) mod 8) /\ isDart im (Dart qx qy ((j + 6) mod 8)) /\ nextDart im (-1) (Dart qx qy j) z.
Proof.
  intros T. destruct St as (_ & S2 & _). pose proof (S2 T) as E. fold qx qy in E. split; [exact E|]. rewrite <- E. split; [exact Dz|].
  assert (E8 : ((j + 6) mod 8 + 2) mod 8 = j) by (rewrite Z.add_mod_idemp_l by lia; replace (j + 6 + 2) with (j + 8) by lia; apply j8).
  assert (N7 : nb qx qy ((j + 6) mod 8 + 1) = Region). { unfold nb. rewrite nb_add. replace (j + 6 + 1) with (j + 7) by lia. unfold qx, qy. rewrite (nb_q7 m x y j J). exact Rg. }
  rewrite <- E8 at 1. rewrite E. apply next_turn2'; [rewrite <- E; exact Dz|apply (even2 x y); [exact J|reflexivity]| |rewrite N7; discriminate].
  intros (_ & _ & Q & _). change (nb qx qy (((j + 6) mod 8 + 1) mod 8 + 0) = Line) in Q. rewrite Z.add_0_r in Q. unfold nb in Q, N7. rewrite nb_mod, N7 in Q. discriminate Q.
Qed.
Lemma step_on : nb x y (j + 1) = Region -> nb x y (j + 2) <> Region -> own z qx qy j.
Proof.
  intros R1 C2. destruct (line_types (j + 2)) as [T|[T|T]]; [contradiction| |].
  - right. split; [exact (line_in (j + 2) Line T)|]. apply St; assumption.
  - left. destruct (q_node T) as (_ & _ & N). split; [exact (line_in (j + 2) Vertex T)|]. left. split; [exact Dz|exact N].
Qed.
Lemma step_turn : nb x y (j + 1) <> Region -> exists z', own z' sx sy ((j + 6) mod 8) /\ contour m z z' /\
  (z' = z \/ exists w, nb x y (j + 2) = Vertex /\ z = Dart qx qy ((j + 6) mod 8) /\ isDart im w /\ nextDart im (-1) w z /\ nextAlpha m w = Ok z').
Proof.
  intros C1. destruct St as (_ & _ & _ & S4 & S5 & S6 & S7). destruct (line_types (j + 2)) as [T2|[T2|T2]]; destruct (line_types (j + 1)) as [T1|[T1|T1]]; try contradiction.
  - exists z. split; [|split; [exact Cz|left; reflexivity]]. right. split; [exact (line_in (j + 1) Line T1)|]. apply S6; assumption.
  - exists z. split; [|split; [exact Cz|left; reflexivity]]. left. pose proof (S7 T2 T1) as E. fold sx sy in E.
    replace ((j + 6) mod 8) with (((j + 5) mod 8 + 1) mod 8) by (rewrite Z.add_mod_idemp_l by lia; f_equal; lia). rewrite E. apply vown_turn1; [rewrite <- E; exact Dz|]. cbn in J. destruct J as [<-|[<-|[<-|[<-|[]]]]]; reflexivity.
  - exists z. split; [|split; [exact Cz|left; reflexivity]]. right. split; [exact (line_in (j + 1) Line T1)|]. apply S4; assumption.
  - exists z. split; [|split; [exact Cz|left; reflexivity]]. left. pose proof (S5 T2 T1) as E. fold sx sy in E.
    assert (N5 : nb sx sy ((j + 4) mod 8 + 1) = Line). { unfold nb. rewrite nb_add. replace (j + 4 + 1) with (j + 5) by lia. unfold sx, sy. rewrite (nb_s5 m x y j J). exact Pn. }
    replace ((j + 6) mod 8) with (((j + 4) mod 8 + 2) mod 8) by (rewrite Z.add_mod_idemp_l by lia; f_equal; lia). rewrite E. apply vown_turn2; [rewrite <- E; exact Dz|apply (even2 x y); [exact J|reflexivity]| |rewrite N5; discriminate].
    intros (_ & _ & _ & Q). cbn [ddir] in Q. assert (O5 : Z.odd (((j + 4) mod 8 + 1) mod 8) = true) by (clear -J; cbn in J; destruct J as [<-|[<-|[<-|[<-|[]]]]]; reflexivity). destruct (Q O5) as (_ & Q2).
    change (nb sx sy (((j + 4) mod 8 + 1) mod 8 + -1) = Region) in Q2. unfold nb in Q2. rewrite nb_add in Q2. replace ((j + 4) mod 8 + 1 + -1) with ((j + 4) mod 8) in Q2 by lia. rewrite nb_mod in Q2. unfold sx, sy in Q2. rewrite (nb_s4 m x y j J) in Q2. fold nb in Q2. congruence.
  - destruct (q_node T2) as (Ez & _ & N). set (w := Dart qx qy j) in *.
    assert (Dw : isDart im w) by (apply (dart_even m); [exact (line_in (j + 2) Vertex T2)|exact Jr|exact Je|unfold qx, qy; rewrite (nb_q0 m x y j J); exact T1]).
    destruct (alpha_some w Dw) as (b & A). exists b. split; [|split; [apply (met' w); assumption|right; exists w; auto 6]]. right. split; [exact (line_in (j + 1) Line T1)|]. apply (start_qs w b); auto.
  - exists z. split; [|split; [exact Cz|left; reflexivity]]. left. destruct (q_node T2) as (Ez & _ & _). split; [exact (line_in (j + 1) Vertex T1)|]. left. split; [exact Dz|]. split; [exact Dz|].
    exists 1%nat. split; [lia|]. split; [|intros i I; lia]. rewrite Ez. apply (go_s m x y j J Rg); [reflexivity|exact T2|]. fold im. rewrite Pn. discriminate.
Qed.
End Line.

Section Node.
Hypothesis Va : vertexAt im x y.
Variable z : dart.
Hypothesis Vz : vown z x y j.
Let Ow : owner m z x y j. Proof. apply vown_owner; assumption. Qed.
Let Cz : contour m z z. Proof. apply (contour_refl m Wi). exact (vown_kind z x y j Vz). Qed.
Let vertex_own u x' y' j' : places u im 1 (Dart x y j) = Dart x' y' j' -> (forall i, (i < u)%nat -> ~ isDart im (places i im 1 (Dart x y j))) -> vown z x' y' j'.
Proof.
  intros E N. pose proof (vertex_to m Fa x y j J Rg Va u x' y' j' z Ow E N) as H. apply vown_owner; [|exact H]. pose proof (p_place m x y j J Rg Va) as (Pp & _).
  pose proof (places_ok im Fr u 1 _ W1 Pp) as P'. rewrite E in P'. apply P'.
Qed.
Lemma near_in k t : nb x y k = t -> 0 <= x + dirX (k mod 8) < iw im /\ 0 <= y + dirY (k mod 8) < ih im /\ ptype (ipix im (x + dirX (k mod 8)) (y + dirY (k mod 8))) = t.
Proof. intros T. pose proof (neighbor_in im Fr _ _ (k mod 8) Va) as (X & Y). auto. Qed.
Lemma place_round : nb x y (j + 1) = Region -> nb x y (j + 2) = Region -> own z x y ((j + 2) mod 8).
Proof. intros R1 R2. left. apply vown_owner; [exact Va|]. apply (node_round m Fa x y j J Rg Va); assumption. Qed.
Lemma place_on : nb x y (j + 1) = Region -> nb x y (j + 2) <> Region -> exists z', own z' qx qy j /\ contour m z z' /\ (z' = z /\ vown z qx qy j \/ exists w, isDart im w /\ nextDart im (-1) w z /\ nextAlpha m w = Ok z' /\ L z' qx qy j).
Proof.
  intros R1 C2. destruct (near_types m Fa x y Va (j + 2)) as [T|[T|T]]; [contradiction| |].
  - set (w := Dart x y ((j + 2) mod 8)).
    assert (Dw : isDart im w) by (apply (dart_even m); [exact Va|apply Z.mod_pos_bound; lia|apply (even2 x y); [exact J|reflexivity]|rewrite nb_mod; exact T]).
    pose proof (dart_to m Fa x y j J Rg Va 2 w z Ow (next_turn2 m x y j J Rg ltac:(unfold nb in *; congruence) ltac:(unfold nb in *; congruence)) Dw (before2 m Fa x y j J Rg Va ltac:(unfold nb in *; congruence) ltac:(unfold nb in *; congruence) ltac:(auto))) as Nz.
    destruct (alpha_some w Dw) as (b & A). assert (Lb : L b qx qy j) by (apply (start_q w b eq_refl Dw A), R1). exists b. split; [right; split; [exact (near_in (j + 2) Line T)|exact Lb]|]. split; [apply (met' w); assumption|]. right. exists w. auto.
  - assert (V : vown z qx qy j) by (apply (vertex_own 1); [cbn [places]; apply (next_q m x y j J); unfold nb in *; congruence|apply (before1 m x y j J Rg Va)]). exists z. split; [left; exact V|]. split; [exact Cz|left; auto].
Qed.
Lemma place_turn : nb x y (j + 1) <> Region -> exists z', own z' sx sy ((j + 6) mod 8) /\ contour m z z' /\ (z' = z /\ vown z sx sy ((j + 6) mod 8) \/ exists w, isDart im w /\ nextDart im (-1) w z /\ nextAlpha m w = Ok z' /\ L z' sx sy ((j + 6) mod 8)).
Proof.
  intros C1. pose proof Va as (_ & _ & Pn). destruct (near_types m Fa x y Va (j + 1)) as [T1|[T1|T1]]; [contradiction| |].
  - assert (G : exists w, isDart im w /\ nextDart im (-1) w z /\ forall b, nextAlpha m w = Ok b -> L b sx sy ((j + 6) mod 8)).
    { destruct (near_types m Fa x y Va (j + 2)) as [T2|[T2|T2]].
      - set (w := Dart x y ((j + 1) mod 8)).
        assert (Dw : isDart im w).
        { apply (dart_odd m); [exact Va|apply Z.mod_pos_bound; lia|rewrite nb_mod; exact T1|rewrite nb_add; replace (j + 1 + 1) with (j + 2) by lia; exact T2|].
          change ((j + 1) mod 8 - 1) with ((j + 1) mod 8 + -1). rewrite nb_add. replace (j + 1 + -1) with j by lia. exact Rg. }
        exists w. split; [exact Dw|]. split; [apply (dart_to m Fa x y j J Rg Va 1 w z Ow); [cbn [places]; apply (next_turn m x y j J); congruence|exact Dw|apply (before1 m x y j J Rg Va)]|]. intros b A. exact (start_s w b eq_refl Dw A).
      - set (w := Dart x y ((j + 2) mod 8)).
        assert (Dw : isDart im w) by (apply (dart_even m); [exact Va|apply Z.mod_pos_bound; lia|apply (even2 x y); [exact J|reflexivity]|rewrite nb_mod; exact T2]).
        exists w. split; [exact Dw|]. split; [apply (dart_to m Fa x y j J Rg Va 2 w z Ow); [apply (next_turn2 m x y j J Rg); congruence|exact Dw|apply (before2 m Fa x y j J Rg Va); [congruence|congruence|right; congruence]]|]. intros b A. exact (proj2 (start_q w b eq_refl Dw A) T1).
      - set (w := Dart qx qy j).
        assert (Dw : isDart im w) by (apply (dart_even m); [exact (near_in (j + 2) Vertex T2)|exact Jr|exact Je|unfold qx, qy; rewrite (nb_q0 m x y j J); exact T1]).
        exists w. split; [exact Dw|]. split; [apply (dart_to m Fa x y j J Rg Va 1 w z Ow); [cbn [places]; apply (next_q m x y j J); congruence|exact Dw|apply (before1 m x y j J Rg Va)]|]. intros b A. exact (start_qs w b eq_refl Dw A). }
    destruct G as (w & Dw & Nz & G). destruct (alpha_some w Dw) as (b & A). exists b. split; [right; split; [exact (near_in (j + 1) Line T1)|exact (G b A)]|]. split; [apply (met' w); assumption|]. right. exists w. auto.
  - assert (V : vown z sx sy ((j + 6) mod 8)) by (apply (vertex_own 1); [cbn [places]; apply (next_s m x y j J); exact T1|apply (before1 m x y j J Rg Va)]). exists z. split; [left; exact V|]. split; [exact Cz|left; auto].
Qed.
End Node.
End Corner.
End Owner.
