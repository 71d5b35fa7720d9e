(** C68, C69: whatever is called, the faces beside the darts stay in order. *)
From Coq Require Import Lia.
From Verif Require Import Base CellMap_Model CellMap_Spec CellMap_Main CellSigma_Spec CellSigma_Proofs CellSigma_Results CellLink_Spec CellLink_Proofs CellLink_Main CellLink_Results CellFace_Spec CellFace_Walk.
Local Open Scope Z_scope.

(** the new label of a face *)
Definition ren (gone : list (ctype * Z)) (s l : Z) : Z := if in_dec pair_dec (Region, l) gone then s else l.
Lemma ren_none gone s l : ~ In (Region, l) gone -> ren gone s l = l.
Proof. intros N. unfold ren. destruct (in_dec _ _ _); [contradiction|reflexivity]. Qed.

Lemma plain_after im im' t s gone : repaint im im' t s gone -> t <> ErrorType -> plain im -> plain im'.
Proof.
  intros Re T P x y X Y. pose proof Re as (W & H & _). rewrite W in X. rewrite H in Y. destruct (pixel_after im im' t s gone Re x y X Y) as [(_ & ->)|(_ & ->)]; auto.
Qed.
(** the opposite of a straight direction *)
Lemma step_back x y k : In k [0; 2; 4; 6] -> exists k', In k' [0; 2; 4; 6] /\ x + dirX k + dirX k' = x /\ y + dirY k + dirY k' = y.
Proof. intros K. cbn in K. destruct K as [<-|[<-|[<-|[<-|[]]]]]; [exists 4|exists 6|exists 0|exists 2]; cbn; intuition lia. Qed.
Lemma even_range k : In k [0; 2; 4; 6] -> 0 <= k < 8 /\ Z.odd k = false.
Proof. intros K. cbn in K. destruct K as [<-|[<-|[<-|[<-|[]]]]]; split; auto; lia. Qed.
(** a straight step from a node pixel to another one is a place; to a line pixel, a dart *)
Lemma straight_place im x y k : In k [0; 2; 4; 6] -> vertexAt im x y -> ptype (ipix im (x + dirX k) (y + dirY k)) <> Vertex -> isPlace im (Dart x y k).
Proof.
  intros K V T. destruct (even_range k K) as (R & O). split; [exact V|]. cbn [ddir]. split; auto. split; [rewrite type0 by exact R; exact T|]. rewrite O. discriminate.
Qed.
Lemma straight_dart im x y k : In k [0; 2; 4; 6] -> vertexAt im x y -> ptype (ipix im (x + dirX k) (y + dirY k)) = Line -> isDart im (Dart x y k).
Proof.
  intros K V T. destruct (even_range k K) as (R & O). split; [exact V|]. cbn [ddir]. split; auto. split; [rewrite type0 by exact R; exact T|]. rewrite O. discriminate.
Qed.
Lemma label0 im x y k : 0 <= k < 8 -> labelAt im (Dart x y k) 0 = plabel (ipix im (x + dirX k) (y + dirY k)).
Proof. intros K. unfold labelAt. cbn [dcx dcy ddir]. rewrite mod8_id by exact K. reflexivity. Qed.

Section After.
Variables (im im' : img) (t : ctype) (s : Z) (gone : list (ctype * Z)).
Hypothesis Fr : framed im.
Hypothesis Re : repaint im im' t s gone.
Hypothesis Hr : t = Region \/ forall l, ~ In (Region, l) gone.
Lemma region_after x y : 0 <= x < iw im -> 0 <= y < ih im -> ptype (ipix im x y) = Region -> ipix im' x y = Pix Region (ren gone s (plabel (ipix im x y))).
Proof.
  intros X Y T. unfold ren. destruct (pixel_after im im' t s gone Re x y X Y) as [(I & E)|(I & E)]; rewrite T in I; rewrite E; destruct (in_dec _ _ _) as [J|J]; try contradiction.
  - destruct Hr as [->|N]; [reflexivity|]. exfalso. apply (N _ J).
  - apply pix_eta; auto.
Qed.
(** the label beside a dart is the new label of the face that was there *)
Lemma side_after n d : vertexAt im (dcx d) (dcy d) -> (typeAt im d n = Region <-> typeAt im' d n = Region) -> (typeAt im d n = Region \/ typeAt im d (2 * n) = Region) ->
  sideOf im' n d = ren gone s (sideOf im n d).
Proof.
  intros V E Q. assert (B : ctypeEqb (typeAt im' d n) Region = ctypeEqb (typeAt im d n) Region) by (apply Bool.eq_true_iff_eq; rewrite !CellSigma_Proofs.ctypeEqb_eq; symmetry; exact E).
  unfold sideOf. rewrite B.
  assert (G : forall k, typeAt im d k = Region -> labelAt im' d k = ren gone s (labelAt im d k)).
  { intros k T. destruct (neighbor_in im Fr _ _ ((ddir d + k) mod 8) V) as (X & Y). unfold labelAt. rewrite region_after by auto. reflexivity. }
  destruct (ctypeEqb (typeAt im d n) Region) eqn:T; apply G; [apply CellSigma_Proofs.ctypeEqb_eq, T|]. destruct Q as [Q|Q]; auto. rewrite Q in T. discriminate T.
Qed.
End After.

Lemma dart_beside im n d : airy im -> way n -> isDart im d -> typeAt im d n = Region \/ typeAt im d (2 * n) = Region.
Proof.
  intros Ai W (V & D & L & C). destruct (Z.odd (ddir d)) eqn:O; [left; destruct W as [-> | ->]; apply C; reflexivity|]. apply Ai; auto. apply even_in; auto.
Qed.

(** ** An edge is taken away *)
Section Cut.
Variables (im im' : img) (s el : Z) (gone : list (ctype * Z)).
Hypothesis Fr : framed im.
Hypothesis Jo : joined im.
Hypothesis Se : separate im.
Hypothesis Pl : plain im.
Hypothesis Ai : airy im.
Hypothesis Fi : filled im.
Hypothesis Re : repaint im im' Region s gone.
Hypothesis Ge : In (Line, el) gone.
Hypothesis Gg : forall u k, In (u, k) gone -> (u = Line /\ k = el) \/ u = Region.
Let NV : Region <> Vertex. Proof. discriminate. Qed.

Lemma cut_vertex' x y : vertexAt im' x y <-> vertexAt im x y.
Proof. rewrite (vertex_after im im' Region s gone Re NV). split; [tauto|]. intros V. split; auto. intros I. destruct (Gg _ _ I) as [(X & _)|X]; discriminate X. Qed.
Lemma cut_region x y : 0 <= x < iw im -> 0 <= y < ih im -> ptype (ipix im' x y) = Region -> ptype (ipix im x y) = Region \/ ipix im x y = Pix Line el.
Proof.
  intros X Y T. destruct (pixel_after im im' Region s gone Re x y X Y) as [(I & _)|(_ & E)]; [|rewrite E in T; auto].
  destruct (Gg _ _ I) as [(A & B)|A]; auto. right. apply pix_eta; auto.
Qed.
Lemma cut_airy : airy im'.
Proof.
  intros d n V K W L. rewrite cut_vertex' in V.
  assert (R : forall k, typeAt im d k = Region -> typeAt im' d k = Region).
  { intros k T. unfold typeAt in *. destruct (neighbor_in im Fr _ _ ((ddir d + k) mod 8) V) as (X & Y). rewrite (region_after im im' Region s gone) by auto. reflexivity. }
  assert (L0 : typeAt im d 0 = Line).
  { unfold typeAt in *. destruct (neighbor_in im Fr _ _ ((ddir d + 0) mod 8) V) as (X & Y).
    destruct (pixel_after im im' Region s gone Re _ _ X Y) as [(_ & Q)|(_ & Q)]; rewrite Q in L; [discriminate L|exact L]. }
  destruct (Ai d n V K W L0); auto.
Qed.
Lemma cut_side n d : way n -> isDart im' d -> sideOf im' n d = ren gone s (sideOf im n d).
Proof.
  intros W D'. assert (D : isDart im d /\ edgeOf im d <> el) by (apply (darts_erased im im' Region s gone Fr Se Re); auto). destruct D as (D & NE).
  apply (side_after im im' Region s gone); auto; [apply D| |apply dart_beside; auto].
  pose proof D as (V & K & L & C). destruct (neighbor_in im Fr _ _ ((ddir d + n) mod 8) V) as (X & Y). unfold typeAt at 1 2. split; intros T.
  - rewrite (region_after im im' Region s gone) by auto. reflexivity.
  - destruct (cut_region _ _ X Y T) as [Q|Q]; auto. exfalso.
    destruct (Z.odd (ddir d)) eqn:O.
    + assert (T1 : typeAt im d n = Region) by (destruct W as [-> | ->]; apply C; reflexivity). unfold typeAt in T1. rewrite Q in T1. discriminate T1.
    + apply NE. destruct (dart_owns im Fr d D) as (X0 & Y0 & P0).
      assert (St : exists k, In k [0; 2; 4; 6] /\ dcx d + dirX (ddir d) = dcx d + dirX ((ddir d + n) mod 8) + dirX k /\ dcy d + dirY (ddir d) = dcy d + dirY ((ddir d + n) mod 8) + dirY k).
      { clear - W K O. destruct d as [x y c]. cbn [dcx dcy ddir] in *. destruct W as [-> | ->]; compass K O; cbn;
          first [exists 0; split; [tauto|cbn; lia] | exists 2; split; [tauto|cbn; lia] | exists 4; split; [tauto|cbn; lia] | exists 6; split; [tauto|cbn; lia]]. }
      destruct St as (k & Kk & EX & EY). unfold edgeOf. rewrite EX in *. rewrite EY in *. apply (Se _ _ k el Kk); auto; [split; auto|]. rewrite P0. reflexivity.
Qed.
Variables (a : dart).
Hypothesis Bo : bordered im el a.
Hypothesis Si : ren gone s (sideOf im 1 a) = s /\ ren gone s (sideOf im (-1) a) = s.
Lemma cut_filled : filled im'.
Proof.
  intros x y k l K (X & Y & P) X' Y' T. pose proof Re as (W & H & _). rewrite W, H in *.
  assert (T0 : ptype (ipix im' x y) = Region) by (rewrite P; reflexivity).
  assert (Ll : forall x y, 0 <= x < iw im -> 0 <= y < ih im -> ipix im x y = Pix Line el -> ipix im' x y = Pix Region s).
  { intros u v U V Q. destruct (pixel_after im im' Region s gone Re u v U V) as [(_ & E)|(I & _)]; auto. exfalso. apply I. rewrite Q. exact Ge. }
  (* a line pixel of the edge beside a region *)
  assert (Br : forall x y k, In k [0; 2; 4; 6] -> 0 <= x < iw im -> 0 <= y < ih im -> ipix im x y = Pix Line el -> 0 <= x + dirX k < iw im -> 0 <= y + dirY k < ih im ->
            ptype (ipix im (x + dirX k) (y + dirY k)) = Region -> ren gone s (plabel (ipix im (x + dirX k) (y + dirY k))) = s).
  { intros u v j J U V Q U' V' R. destruct Si as (S1 & S2). destruct (Bo u v j J) as [-> | ->]; auto. split; auto. }
  destruct (step_back x y k K) as (k' & K' & BX & BY).
  destruct (cut_region _ _ X Y T0) as [A|A]; destruct (cut_region _ _ X' Y' T) as [B|B].
  - rewrite (region_after im im' Region s gone Re (or_introl eq_refl) _ _ X' Y' B). rewrite (region_after im im' Region s gone Re (or_introl eq_refl) _ _ X Y A) in P. injection P as <-. cbn [plabel]. f_equal. apply (Fi x y k _ K); auto. split; auto. split; auto. apply pix_eta; auto.
  - rewrite (Ll _ _ X' Y' B). rewrite (region_after im im' Region s gone) in P by auto. injection P as <-. cbn [plabel]. symmetry.
    pose proof (Br _ _ k' K' X' Y' B) as Q. rewrite BX, BY in Q. auto.
  - rewrite (Ll _ _ X Y A) in P. injection P as <-. rewrite (region_after im im' Region s gone) by auto. cbn [plabel]. apply Br; auto.
  - rewrite (Ll _ _ X Y A) in P. injection P as <-. rewrite (Ll _ _ X' Y' B). reflexivity.
Qed.
Lemma cut_bordered l b : l <> el -> isDart im' b -> bordered im l b -> bordered im' l b.
Proof.
  intros N D Bb x y k K (X & Y & P) X' Y' T. pose proof Re as (W & H & _). rewrite W, H in *.
  assert (P0 : ipix im x y = Pix Line l).
  { destruct (pixel_after im im' Region s gone Re x y X Y) as [(_ & E)|(_ & E)]; congruence. }
  rewrite (cut_side 1), (cut_side (-1)) by (auto; first [left; reflexivity | right; reflexivity]).
  destruct (cut_region _ _ X' Y' T) as [B|B].
  - rewrite (region_after im im' Region s gone) by auto. cbn [plabel]. assert (O : owns im Line l x y) by (split; auto). destruct (Bb x y k K O X' Y' B) as [-> | ->]; auto.
  - exfalso. apply N. symmetry. pose proof (Se x y k l K) as Q. rewrite B in Q. apply Q; auto. split; auto.
Qed.
End Cut.

(** ** A node goes *)
Section Leave.
Variables (im im' : img) (t : ctype) (s n : Z) (gone : list (ctype * Z)).
Hypothesis Fr : framed im.
Hypothesis Jo : joined im.
Hypothesis Pl : plain im.
Hypothesis Ai : airy im.
Hypothesis Fi : filled im.
Hypothesis Re : repaint im im' t s gone.
Hypothesis Gn : In (Vertex, n) gone.
Hypothesis Gg : forall u k, In (u, k) gone -> (u = Vertex /\ k = n) \/ (u = Line /\ t = Line).
Hypothesis NV : t <> Vertex.
Hypothesis NX : t <> ErrorType.

Lemma leave_vertex d : vertexAt im' (dcx d) (dcy d) <-> vertexAt im (dcx d) (dcy d) /\ nodeOf im d <> n.
Proof.
  rewrite (vertex_after im im' t s gone Re NV). unfold nodeOf. split.
  - intros (V & N). split; auto. intros E. rewrite E in N. auto.
  - intros (V & N). split; auto. intros I. destruct (Gg _ _ I) as [(_ & A)|(A & _)]; [auto|discriminate A].
Qed.
Lemma types_kept d k : vertexAt im' (dcx d) (dcy d) -> typeAt im' d k = typeAt im d k.
Proof.
  intros V'. pose proof (proj1 (leave_vertex d) V') as (V & N). unfold typeAt. pose proof (neighbor_in im Fr _ _ ((ddir d + k) mod 8) V) as (X' & Y').
  destruct (pixel_after im im' t s gone Re _ _ X' Y') as [(I' & E')|(I' & E')]; rewrite E'; auto. cbn [ptype].
  destruct (Gg _ _ I') as [(A & B)|(A & B)]; [|congruence]. exfalso. apply N.
  assert (V2 : vertexAt im (dcx d + dirX ((ddir d + k) mod 8)) (dcy d + dirY ((ddir d + k) mod 8))) by (split; auto).
  destruct (Jo _ _ ((ddir d + k) mod 8) _ (mod8 _) (vertex_owns im _ _ V) V2) as (_ & _ & Q). rewrite Q in B. exact B.
Qed.
Lemma no_region l : ~ In (Region, l) gone.
Proof. intros I. destruct (Gg _ _ I) as [(A & _)|(A & _)]; discriminate A. Qed.
Lemma leave_airy : airy im'.
Proof. intros d k V K W L. rewrite !types_kept in * by auto. apply leave_vertex in V. apply Ai; auto. apply V. Qed.
Lemma leave_side k d : way k -> isDart im' d -> sideOf im' k d = sideOf im k d.
Proof.
  intros W D'. assert (D : isDart im d /\ nodeOf im d <> n) by (apply (darts_left im im' t s gone Fr Jo Re n); auto). destruct D as (D & _).
  rewrite <- (ren_none gone s (sideOf im k d)) by apply no_region. apply (side_after im im' t s gone); auto; [right; apply no_region|apply D| |apply dart_beside; auto].
  rewrite types_kept by apply D'. reflexivity.
Qed.
Lemma leave_region x y : 0 <= x < iw im -> 0 <= y < ih im -> ptype (ipix im x y) = Region -> ipix im' x y = ipix im x y.
Proof.
  intros X Y T. rewrite (region_after im im' t s gone Re (or_intror no_region)) by auto. rewrite ren_none by apply no_region. symmetry. apply pix_eta; auto.
Qed.
End Leave.

(** the label beside a dart of a node without edges *)
Lemma alone_side im d : framed im -> neat im -> plain im -> filled im -> joined im -> ringed im -> isPlace im d -> (forall e, isDart im e -> nodeOf im e <> nodeOf im d) ->
  (typeAt im d 1 = Region \/ typeAt im d 2 = Region) -> sideOf im 1 d = labelAt im d 0.
Proof.
  intros Fr Ne Pl Fi Jo Ri P No Q. assert (W : way 1) by (left; reflexivity).
  assert (Al : forall d', isPlace im d' -> nodeOf im d' = nodeOf im d -> typeAt im d' 0 = Region /\ labelAt im d' 0 = labelAt im d 0).
  { intros d' P' E. split; [apply (side_alone im Fr Pl Fi Jo Ri d' d); auto; rewrite E; auto|]. apply (side_alone im Fr Pl Fi Jo Ri d d'); auto. }
  destruct (place_next im Fr 1 d W P) as (P1 & _).
  assert (E1 : nodeOf im (placeNext im 1 d) = nodeOf im d) by (apply (places_label im Fr Jo 1 1 d); auto).
  destruct (Al _ P1 E1) as (R1 & L1). pose proof P as (V & D & NV & C). assert (S : stateOK im d) by (split; auto).
  unfold sideOf. destruct (Z.odd (ddir d)) eqn:O; unfold placeNext in R1, L1, P1; rewrite O in R1, L1, P1.
  - rewrite typeAt_turn, Z.add_0_r in R1. rewrite labelAt_turn, Z.add_0_r in L1. rewrite R1. exact L1.
  - destruct (ctypeEqb (typeAt im d 1) Region) eqn:T1.
    + apply CellSigma_Proofs.ctypeEqb_eq in T1. rewrite T1 in L1. cbn [ctypeEqb] in L1. destruct (ctypeEqb (typeAt im d (2 * 1)) Vertex).
      * rewrite <- L1. clear - D O. destruct d as [x y c]; cbn [dcx dcy ddir] in *. unfold labelAt, go. cbn [dcx dcy ddir]. compass D O; cbn; apply (f_equal plabel); apply f_equal2; lia.
      * rewrite labelAt_turn, Z.add_0_r in L1. exact L1.
    + apply CellSigma_Proofs.ctypeEqb_ne in T1. destruct Q as [Q|Q]; [contradiction|].
      assert (P2 : isPlace im (turn 2 d)).
      { split; [exact V|]. split; [apply mod8|]. rewrite typeAt_turn. cbn [Z.add]. split; [rewrite Q; discriminate|]. rewrite odd_turn, O. discriminate. }
      destruct (Al _ P2 eq_refl) as (_ & L2). rewrite labelAt_turn in L2. exact L2.
Qed.
