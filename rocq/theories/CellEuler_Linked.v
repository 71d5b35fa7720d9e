(** C79: the parts of the contours are those of the graph. *)
From Coq Require Import Lia.
From Verif Require Import Base CellMap_Model CellMap_Spec CellMap_Proofs CellMap_Main CellSigma_Spec CellSigma_Proofs CellSigma_Results CellLink_Spec CellLink_Proofs CellLink_Main CellLink_Results CellLink_Check
  CellFace_Spec CellFace_Walk CellFace_Main CellStart_Spec CellContour_Orbit CellContour_Spec CellContour_Phi CellThresh_Spec CellTotal_Spec CellJordan_Spec CellPlane_Spec CellThresh_Loops CellPlane_Cut CellPlane_Leave CellPlane_Results.
Local Open Scope Z_scope.

Lemma walk_more ways ways' (P : Z -> Z -> Prop) x y u v : (forall k, In k ways -> In k ways') -> reach ways P x y u v -> reach ways' P x y u v.
Proof. intros H R. induction R as [Hp|u v k R IH I Hp]; [apply re_here, Hp|]. apply re_step; auto. Qed.
(** nodes connected by edges *)
Inductive linked (im : img) (a : Z) : Z -> Prop :=
| lk_here : linked im a a
| lk_edge x y : linked im a (nodeOf im x) -> isDart im x -> isDart im y -> edgeOf im x = edgeOf im y -> linked im a (nodeOf im y).
Lemma linked_trans im a b c : linked im a b -> linked im b c -> linked im a c.
Proof. intros H K. induction K as [|x y K IH Dx Dy E]; [exact H|]. apply (lk_edge im a x y); auto. Qed.
Lemma linked_sym im a b : linked im a b -> linked im b a.
Proof. intros H. induction H as [|x y H IH Dx Dy E]; [apply lk_here|]. apply (linked_trans im _ (nodeOf im x)); [|exact IH]. apply (lk_edge im _ y x); auto. apply lk_here. Qed.

Section Linked.
Variable m : cmap.
Hypothesis Pm : planar m.
Let im := cim m.
Let Fa : faced m. Proof. apply Pm. Qed.
Let Wi : wired m. Proof. apply Fa. Qed.
Let So : sound m. Proof. apply Wi. Qed.
Let Fr : framed im. Proof. apply Wi. Qed.
Let Jo : joined im. Proof. apply Wi. Qed.
Let Se : separate im. Proof. apply Wi. Qed.
Let Pl : plain im. Proof. apply Fa. Qed.
Let drawn := CellTotal_Spec.contour im.
Definition nodeAt (n x y : Z) : Prop :=
  (vertexAt im x y /\ plabel (ipix im x y) = n) \/ (lineAt im x y /\ exists d, isDart im d /\ edgeOf im d = plabel (ipix im x y) /\ nodeOf im d = n).
Lemma drawn_kind x y : drawn x y <-> vertexAt im x y \/ lineAt im x y.
Proof.
  split.
  - intros (X & Y & T). pose proof (Pl x y X Y) as P. destruct (ptype (ipix im x y)) eqn:E; [contradiction|right; split; auto|left; split; auto|contradiction].
  - intros [(X & Y & T)|(X & Y & T)]; (split; [exact X|split; [exact Y|]]); rewrite T; discriminate.
Qed.
Lemma line_dart x y : lineAt im x y -> exists d, isDart im d /\ edgeOf im d = plabel (ipix im x y).
Proof.
  intros (X & Y & T). destruct (pixel_live m x y Line (plabel (ipix im x y)) So) as (B & c & C & L); [split; [exact X|split; [exact Y|apply pix_eta; auto]]|discriminate|].
  cbn [cellsOf] in C. rewrite nth_error_map in C. destruct (nth_error (cedges m) _) as [e|] eqn:E; [|discriminate C]. injection C as <-. destruct Wi as (_ & _ & _ & _ & Te & _). destruct (Te _ e E L) as (_ & Q).
  rewrite Z2Nat.id in Q by apply B. exists (estart e). apply (Q (estart e)). left. reflexivity.
Qed.
Lemma node_at x y : drawn x y -> exists n, nodeAt n x y.
Proof. intros H. apply drawn_kind in H. destruct H as [V|L]; [exists (plabel (ipix im x y)); left; auto|]. destruct (line_dart x y L) as (d & D & E). exists (nodeOf im d). right. split; [exact L|exists d; auto]. Qed.
Lemma at_drawn n x y : nodeAt n x y -> drawn x y.
Proof. intros H. apply drawn_kind. destruct H as [(V & _)|(L & _)]; auto. Qed.
Lemma at_one n k x y : nodeAt n x y -> nodeAt k x y -> linked im n k.
Proof.
  intros [((_ & _ & V) & E)|((_ & _ & T) & d & D & Ed & N)] [((_ & _ & V') & E')|((_ & _ & T') & d' & D' & Ed' & N')]; try congruence; [rewrite <- E, <- E'; apply lk_here|].
  rewrite <- N, <- N'. apply (lk_edge im _ d d'); auto; [apply lk_here|congruence].
Qed.
Definition tied (x y u v : Z) : Prop := forall n k, nodeAt n x y -> nodeAt k u v -> linked im n k.
Lemma tie n x y u v : nodeAt n x y -> nodeAt n u v -> tied x y u v.
Proof. intros A B p q P Q. apply (linked_trans im _ n); [apply (at_one _ _ x y)|apply (at_one _ _ u v)]; assumption. Qed.
Lemma tied_sym x y u v : tied x y u v -> tied u v x y.
Proof. intros H n k A B. apply linked_sym. auto. Qed.
Lemma tied_trans x y a b u v : drawn a b -> tied x y a b -> tied a b u v -> tied x y u v.
Proof. intros D H K n k A B. destruct (node_at a b D) as (p & P). apply (linked_trans im _ p); auto. Qed.
Lemma dart_tie x y k : isDart im (Dart x y k) -> tied x y (x + dirX k) (y + dirY k).
Proof.
  intros D. apply (tie (nodeOf im (Dart x y k))); [left; split; [apply D|reflexivity]|]. right. split; [|exists (Dart x y k); split; [exact D|split; reflexivity]].
  destruct (dart_owns im Fr _ D) as (X & Y & P). cbn in X, Y, P. split; [exact X|split; [exact Y|rewrite P; reflexivity]].
Qed.
Lemma even_dart x y k : In k ways4 -> vertexAt im x y -> lineAt im (x + dirX k) (y + dirY k) -> isDart im (Dart x y k).
Proof.
  intros K V (_ & _ & T). assert (B : 0 <= k < 8 /\ Z.odd k = false) by (cbn in K; destruct K as [<-|[<-|[<-|[<-|[]]]]]; cbn; split; auto; lia). destruct B as (B & O).
  split; [exact V|]. split; [exact B|]. split; [|cbn [ddir]; rewrite O; discriminate]. unfold typeAt. cbn [dcx dcy ddir]. rewrite Z.add_0_r, Z.mod_small by exact B. exact T.
Qed.
Lemma vertices_tie x y k : In k ways8 -> vertexAt im x y -> vertexAt im (x + dirX k) (y + dirY k) -> tied x y (x + dirX k) (y + dirY k).
Proof.
  intros K V W. assert (B : 0 <= k < 8) by (cbn in K; lia). destruct (Jo x y k (plabel (ipix im x y)) B) as (_ & _ & P); [apply vertex_owns, V|exact W|].
  apply (tie (plabel (ipix im x y))); left; split; auto. rewrite P. reflexivity.
Qed.
Lemma turned k : In k ways8 -> In ((k + 4) mod 8) ways8 /\ (In k ways4 -> In ((k + 4) mod 8) ways4) /\ dirX ((k + 4) mod 8) = - dirX k /\ dirY ((k + 4) mod 8) = - dirY k.
Proof. intros K. cbn in K. repeat (destruct K as [<-|K]; [cbn; repeat split; intuition congruence|]). contradiction. Qed.
Lemma touch4 x y k : In k ways4 -> drawn x y -> drawn (x + dirX k) (y + dirY k) -> tied x y (x + dirX k) (y + dirY k).
Proof.
  intros K A B. assert (K8 : In k ways8) by (cbn in *; intuition). apply drawn_kind in A. apply drawn_kind in B. destruct A as [A|A], B as [B|B].
  - apply vertices_tie; auto.
  - apply dart_tie, even_dart; auto.
  - apply tied_sym. destruct (turned k K8) as (_ & T & X & Y). pose proof (dart_tie (x + dirX k) (y + dirY k) ((k + 4) mod 8)) as Q. rewrite X, Y in Q. replace (x + dirX k + - dirX k) with x in Q by lia. replace (y + dirY k + - dirY k) with y in Q by lia.
    apply Q, even_dart; auto. rewrite X, Y. replace (x + dirX k + - dirX k) with x by lia. replace (y + dirY k + - dirY k) with y by lia. exact A.
  - destruct (line_dart x y A) as (d & D & E). assert (Sl : plabel (ipix im (x + dirX k) (y + dirY k)) = plabel (ipix im x y)).
    { pose proof A as (X & Y & T). pose proof B as (X' & Y' & T'). apply (Se x y k); auto. split; [exact X|split; [exact Y|apply pix_eta; auto]]. }
    apply (tie (nodeOf im d)); right; (split; [assumption|]); exists d; (split; [exact D|]); split; congruence.
Qed.
(** the two pixels beside a diagonal step *)
Lemma corners k : In k ways8 -> ~ In k ways4 -> let a := (k + 7) mod 8 in let b := (k + 1) mod 8 in
  In a ways4 /\ In b ways4 /\ dirX k = dirX a + dirX b /\ dirY k = dirY a + dirY b /\ 0 <= k < 8 /\ (k - 1) mod 8 = a /\ (a + 1) mod 8 = k /\ (a + 2) mod 8 = b /\ dirX ((a + 6) mod 8) = - dirX b /\ dirY ((a + 6) mod 8) = - dirY b /\ In ((a + 6) mod 8) ways4.
Proof. intros K N. cbn in K. repeat (destruct K as [<-|K]; [cbn in *; repeat split; try lia; intuition congruence|]). contradiction. Qed.
Lemma lines_tie x y u v : lineAt im x y -> lineAt im u v -> plabel (ipix im x y) = plabel (ipix im u v) -> tied x y u v.
Proof. intros A B E. destruct (line_dart x y A) as (d & D & Q). apply (tie (nodeOf im d)); right; (split; [assumption|]); exists d; (split; [exact D|]); split; congruence. Qed.
Lemma touch x y k : In k ways8 -> drawn x y -> drawn (x + dirX k) (y + dirY k) -> tied x y (x + dirX k) (y + dirY k).
Proof.
  intros K A B. destruct (in_dec Z.eq_dec k ways4) as [K4|K4]; [apply touch4; auto|]. destruct (corners k K K4) as (Ka & Kb & Ex & Ey & Kr & Km & Ka1 & Ka2 & Ox & Oy & Ka6). set (a := (k + 7) mod 8) in *. set (b := (k + 1) mod 8) in *.
  assert (V1 : drawn (x + dirX a) (y + dirY a) -> tied x y (x + dirX k) (y + dirY k)).
  { intros D. apply (tied_trans _ _ _ _ _ _ D); [apply touch4; auto|]. pose proof (touch4 (x + dirX a) (y + dirY a) b Kb D) as Q. replace (x + dirX a + dirX b) with (x + dirX k) in Q by lia. replace (y + dirY a + dirY b) with (y + dirY k) in Q by lia. auto. }
  assert (V2 : drawn (x + dirX b) (y + dirY b) -> tied x y (x + dirX k) (y + dirY k)).
  { intros D. apply (tied_trans _ _ _ _ _ _ D); [apply touch4; auto|]. pose proof (touch4 (x + dirX b) (y + dirY b) a Ka D) as Q. replace (x + dirX b + dirX a) with (x + dirX k) in Q by lia. replace (y + dirY b + dirY a) with (y + dirY k) in Q by lia. auto. }
  assert (In1 : 0 < x < iw im - 1 /\ 0 < y < ih im - 1).
  { destruct A as (X & Y & T). assert (Q : ~ (x = 0 \/ x = iw im - 1 \/ y = 0 \/ y = ih im - 1)) by (intros Q; apply T; rewrite (Fr x y X Y Q); reflexivity). lia. }
  pose proof (dirX_bound a). pose proof (dirY_bound a). pose proof (dirX_bound b). pose proof (dirY_bound b).
  destruct (ctypeEqb (ptype (ipix im (x + dirX a) (y + dirY a))) Region) eqn:Ra; [apply CellSigma_Proofs.ctypeEqb_eq in Ra|apply CellSigma_Proofs.ctypeEqb_ne in Ra; apply V1; split; [lia|split; [lia|exact Ra]]].
  destruct (ctypeEqb (ptype (ipix im (x + dirX b) (y + dirY b))) Region) eqn:Rb; [apply CellSigma_Proofs.ctypeEqb_eq in Rb|apply CellSigma_Proofs.ctypeEqb_ne in Rb; apply V2; split; [lia|split; [lia|exact Rb]]].
  clear V1 V2. pose proof A as A0. pose proof B as B0. apply drawn_kind in A. apply drawn_kind in B. destruct A as [A|A], B as [B|B].
  - apply vertices_tie; auto.
  - apply dart_tie. split; [exact A|]. split; [exact Kr|]. unfold typeAt. cbn [dcx dcy ddir]. rewrite Z.add_0_r, (Z.mod_small k) by exact Kr. split; [apply B|]. intros _. fold b. replace (k + -1) with (k - 1) by lia. rewrite Km. auto.
  - apply tied_sym. destruct (turned k K) as (K' & _ & X & Y). pose proof (dart_tie (x + dirX k) (y + dirY k) ((k + 4) mod 8)) as Q. rewrite X, Y in Q. replace (x + dirX k + - dirX k) with x in Q by lia. replace (y + dirY k + - dirY k) with y in Q by lia.
    apply Q. split; [exact B|]. split; [cbn [ddir]; apply Z.mod_pos_bound; lia|]. unfold typeAt. cbn [dcx dcy ddir]. rewrite Z.add_0_r, Z.mod_mod, X, Y by lia. replace (x + dirX k + - dirX k) with x by lia. replace (y + dirY k + - dirY k) with y by lia.
    split; [apply A|]. intros _.
    assert (E1 : ((k + 4) mod 8 + 1) mod 8 = (a + 6) mod 8) by (unfold a; rewrite !Zplus_mod_idemp_l; replace (k + 7 + 6) with (k + 4 + 1 + 1 * 8) by lia; rewrite Z.mod_add by lia; reflexivity).
    assert (E2 : ((k + 4) mod 8 + -1) mod 8 = (a + 4) mod 8) by (unfold a; rewrite !Zplus_mod_idemp_l; replace (k + 7 + 4) with (k + 4 + -1 + 1 * 8) by lia; rewrite Z.mod_add by lia; reflexivity).
    destruct (turned a) as (_ & _ & X4 & Y4); [cbn in Ka |- *; intuition|]. rewrite E1, E2, Ox, Oy, X4, Y4.
    replace (x + dirX k + - dirX b) with (x + dirX a) by lia. replace (y + dirY k + - dirY b) with (y + dirY a) by lia. replace (x + dirX k + - dirX a) with (x + dirX b) by lia. replace (y + dirY k + - dirY a) with (y + dirY b) by lia. auto.
  - apply lines_tie; auto. destruct Pm as (_ & _ & _ & _ & L & (T1 & T2 & _ & T4 & _)). fold im in T1, T2, T4.
    assert (Ha : a mod 8 = a) by (apply Z.mod_small; cbn in Ka; lia).
    assert (S1 : lineSide im x y a) by (split; [exact Ka|split; [exact A|unfold CellPlane_Spec.near; rewrite Ha; exact Ra]]). destruct (T1 _ _ _ S1) as (z & Lz). destruct (T2 _ _ _ _ S1 Lz) as (_ & E1).
    destruct (T4 _ _ _ _ S1 Lz) as (_ & _ & _ & _ & _ & St & _). unfold CellPlane_Spec.near in St. rewrite Ka1, Ka2 in St. specialize (St Rb (proj2 (proj2 B))).
    assert (S2 : lineSide im (x + dirX k) (y + dirY k) ((a + 6) mod 8)).
    { split; [exact Ka6|]. split; [exact B|]. unfold CellPlane_Spec.near. rewrite Z.mod_mod, Ox, Oy by lia. replace (x + dirX k + - dirX b) with (x + dirX a) by lia. replace (y + dirY k + - dirY b) with (y + dirY a) by lia. exact Ra. }
    destruct (T2 _ _ _ _ S2 St) as (_ & E2). congruence.
Qed.
Lemma reach_linked x y u v n k : reach ways8 drawn x y u v -> nodeAt n x y -> nodeAt k u v -> linked im n k.
Proof.
  intros R. revert k. induction R as [D|u v w R IH W D]; intros k A B; [apply (at_one _ _ x y); assumption|]. assert (Du : drawn u v) by apply (walk_end _ _ _ _ _ _ R). destruct (node_at u v Du) as (p & P).
  apply (linked_trans im _ p); [apply IH; assumption|]. apply (touch u v w W Du D); assumption.
Qed.
Lemma linked_reach a b : isPlace im a -> isPlace im b -> linked im (nodeOf im a) (nodeOf im b) -> reach ways8 drawn (dcx a) (dcy a) (dcx b) (dcy b).
Proof.
  intros Pa Pb H. remember (nodeOf im b) as k eqn:Ek. revert b Pb Ek. induction H as [|p q H IH Dp Dq E]; intros b Pb Ek; [apply (node_path m Pm); assumption|].
  apply (walk_trans _ _ _ _ (dcx p) (dcy p)); [apply IH; [apply dart_place, Dp|reflexivity]|]. apply (walk_trans _ _ _ _ (dcx q) (dcy q)); [apply (edge_path m Pm); assumption|]. apply (node_path m Pm); auto. apply dart_place, Dq.
Qed.
(** from each pixel one gets to a place *)
Lemma vertex_place x y : vertexAt im x y -> exists a, isPlace im a /\ reach ways8 drawn x y (dcx a) (dcy a).
Proof.
  intros V. pose proof (vertex_owns im x y V) as O. destruct (walk_east im _ x y Fr Jo O) as (u & v & R & T). exists (Dart u v 0). pose proof (walk_end _ _ _ _ _ _ R) as Ou.
  split; [split; [exact (owns_vertex im _ u v Ou)|split; [cbn; lia|split; [exact T|discriminate]]]|].
  apply (reach_mono _ (owns im Vertex (plabel (ipix im x y)))); [intros a b Oa; apply drawn_kind; left; exact (owns_vertex im _ a b Oa)|]. apply (walk_more ways4); [intros k K; cbn in *; intuition|exact R].
Qed.
Lemma pixel_place x y : drawn x y -> exists a, isPlace im a /\ reach ways8 drawn x y (dcx a) (dcy a).
Proof.
  intros D. apply drawn_kind in D. destruct D as [V|A]; [apply vertex_place, V|]. destruct (line_dart x y A) as (d & D & E). exists d. split; [apply dart_place, D|]. destruct Pm as (_ & _ & Sg & _). fold im in Sg.
  pose proof (dart_owns im Fr d D) as O. rewrite E in O. assert (Ox : owns im Line (plabel (ipix im x y)) x y) by (destruct A as (X & Y & T); split; [exact X|split; [exact Y|apply pix_eta; auto]]).
  pose proof (Sg _ _ _ _ _ Ox O) as R. apply (walk_trans _ _ _ _ (dcx d + dirX (ddir d)) (dcy d + dirY (ddir d))).
  - apply (reach_mono _ (owns im Line (plabel (ipix im x y)))); [|exact R]. intros a b (X & Y & P). split; [exact X|split; [exact Y|rewrite P; discriminate]].
  - apply walk_back; [exact two8|]. pose proof D as (V & K & _). apply walk_one; [cbn; lia|apply drawn_kind; auto|destruct O as (X & Y & P); split; [exact X|split; [exact Y|rewrite P; discriminate]]].
Qed.
Lemma place_at a : isPlace im a -> nodeAt (nodeOf im a) (dcx a) (dcy a).
Proof. intros (V & _). left. split; [exact V|reflexivity]. Qed.
End Linked.
