(** C78: an edge that goes leaves the lines in the plane. *)
From Coq Require Import Lia.
From Verif Require Import Base CellMap_Model CellMap_Spec CellMap_Main CellMap_Check CellSigma_Spec CellSigma_Proofs CellSigma_Results CellLink_Spec CellLink_Proofs CellLink_Main CellLink_Results CellLink_Check
  CellFace_Spec CellFace_Walk CellFace_Main CellFace_Step CellStart_Spec CellStart_Walk CellContour_Cut CellThresh_Spec CellThresh_Loops CellJordan_Spec CellPlane_Spec.
Local Open Scope Z_scope.

(** ** Ways *)
Lemma walk_trans ways P x y u v a b : reach ways P x y u v -> reach ways P u v a b -> reach ways P x y a b.
Proof. intros H K. induction K as [|a b k K IH I Q]; [exact H|]. apply re_step; assumption. Qed.
Lemma walk_start ways P x y u v : reach ways P x y u v -> P x y.
Proof. intros H. induction H; assumption. Qed.
Lemma walk_end ways P x y u v : reach ways P x y u v -> P u v.
Proof. intros H. destruct H; assumption. Qed.
Definition twoWay (ways : list Z) : Prop := forall k, In k ways -> In ((k + 4) mod 8) ways /\ dirX ((k + 4) mod 8) = - dirX k /\ dirY ((k + 4) mod 8) = - dirY k.
Lemma two4 : twoWay ways4. Proof. intros k K. cbn in K. destruct K as [<-|[<-|[<-|[<-|[]]]]]; cbn; tauto. Qed.
Lemma two8 : twoWay ways8. Proof. intros k K. cbn in K. repeat (destruct K as [<-|K]; [cbn; tauto|]). contradiction. Qed.
Lemma walk_one ways (P : Z -> Z -> Prop) x y k : In k ways -> P x y -> P (x + dirX k) (y + dirY k) -> reach ways P x y (x + dirX k) (y + dirY k).
Proof. intros K A B. apply re_step; [apply re_here, A|exact K|exact B]. Qed.
Lemma walk_back ways (P : Z -> Z -> Prop) x y u v : twoWay ways -> reach ways P x y u v -> reach ways P u v x y.
Proof.
  intros W H. induction H as [A|u v k H IH K B]; [apply re_here, A|]. destruct (W k K) as (K' & X & Y).
  apply (walk_trans _ _ _ _ u v); [|exact IH]. pose proof (walk_one ways P _ _ _ K' B) as Q. rewrite X, Y in Q. replace (u + dirX k + - dirX k) with u in Q by lia. replace (v + dirY k + - dirY k) with v in Q by lia. apply Q, (walk_end _ _ _ _ _ _ H).
Qed.
Lemma ways48 k : In k ways4 -> In k ways8.
Proof. unfold ways4, ways8. cbn. tauto. Qed.
Lemma walk_more (w w' : list Z) (P Q : Z -> Z -> Prop) x y u v : (forall k, In k w -> In k w') -> (forall a b, P a b -> Q a b) -> reach w P x y u v -> reach w' Q x y u v.
Proof. intros I H R. induction R as [Hp|u v k R IH J Hp]; [apply re_here, H, Hp|]. apply re_step; auto. Qed.

(** ** Compass *)
Ltac dirs J := cbn in J; destruct J as [<-|[<-|[<-|[<-|[]]]]].
Lemma even_in k : 0 <= k < 8 -> Z.odd k = false -> In k [0; 2; 4; 6].
Proof. intros K O. assert (k = 0 \/ k = 1 \/ k = 2 \/ k = 3 \/ k = 4 \/ k = 5 \/ k = 6 \/ k = 7) as H by lia. destruct H as [->|[->|[->|[->|[->|[->|[->| ->]]]]]]]; cbn in *; auto 6; discriminate. Qed.
Lemma even_mod j n : In j [0; 2; 4; 6] -> Z.odd n = false -> In ((j + n) mod 8) [0; 2; 4; 6].
Proof.
  intros J N. apply even_in; [apply Z.mod_pos_bound; lia|]. destruct (Z.odd ((j + n) mod 8)) eqn:Q; [exfalso|reflexivity].
  pose proof (Zmod_odd n) as A. pose proof (Zmod_odd ((j + n) mod 8)) as B. rewrite N in A. rewrite Q in B. assert (C : j mod 2 = 0) by (dirs J; reflexivity). clear J Q N. Z.div_mod_to_equations. lia.
Qed.
(** from the pixel two steps round the corner to the one between *)
Lemma q_to_s x y j : In j [0; 2; 4; 6] -> x + dirX ((j + 2) mod 8) + dirX j = x + dirX ((j + 1) mod 8) /\ y + dirY ((j + 2) mod 8) + dirY j = y + dirY ((j + 1) mod 8).
Proof. intros J. dirs J; cbn; lia. Qed.
Lemma s_side x y j : In j [0; 2; 4; 6] -> x + dirX ((j + 1) mod 8) + dirX ((j + 6) mod 8) = x + dirX j /\ y + dirY ((j + 1) mod 8) + dirY ((j + 6) mod 8) = y + dirY j.
Proof. intros J. dirs J; cbn; lia. Qed.
Lemma k_right x y k : In k [0; 2; 4; 6] -> x + dirX k + dirX ((k + 6) mod 8) = x + dirX ((k + 7) mod 8) /\ y + dirY k + dirY ((k + 6) mod 8) = y + dirY ((k + 7) mod 8).
Proof. intros J. dirs J; cbn; lia. Qed.
Lemma k_right2 x y k : In k [0; 2; 4; 6] -> x + dirX ((k + 6) mod 8) + dirX k = x + dirX ((k + 7) mod 8) /\ y + dirY ((k + 6) mod 8) + dirY k = y + dirY ((k + 7) mod 8).
Proof. intros J. dirs J; cbn; lia. Qed.
Lemma line_near im x y k : framed im -> lineAt im x y -> 0 <= x + dirX k < iw im /\ 0 <= y + dirY k < ih im.
Proof. intros Fr La. pose proof (line_is_inner im Fr x y La). pose proof (dirX_bound k). pose proof (dirY_bound k). lia. Qed.
Lemma pix_is p t l : ptype p = t -> plabel p = l -> p = Pix t l.
Proof. destruct p. cbn. congruence. Qed.
Lemma line_has im x y : lineAt im x y -> owns im Line (plabel (ipix im x y)) x y.
Proof. intros (X & Y & T). apply line_owner; assumption. Qed.

Section Cut.
Variables (m m' : cmap) (s el : Z) (gone : list (ctype * Z)).
Let im := cim m.
Let im' := cim m'.
Hypothesis Fa : faced m.
Hypothesis Fa' : faced m'.
Hypothesis Ta : takenOver m m' Region s gone.
Hypothesis Ge : In (Line, el) gone.
Hypothesis Gg : forall u k, In (u, k) gone -> (u = Line /\ k = el) \/ u = Region.
Let Wi : wired m. Proof. apply Fa. Qed.
Let Fr : framed im. Proof. apply Wi. Qed.
Let Ne : neat im. Proof. apply Wi. Qed.
Let Se : separate im. Proof. apply Wi. Qed.
Let Ai : airy im. Proof. apply Fa. Qed.
Let Re : repaint im im' Region s gone. Proof. apply taken_repaint, Ta. Qed.

Lemma cut_stay x y : 0 <= x < iw im -> 0 <= y < ih im -> ptype (ipix im' x y) <> Region -> ipix im' x y = ipix im x y.
Proof. intros X Y T. destruct (pixel_after im im' Region s gone Re x y X Y) as [(_ & E)|(_ & E)]; [rewrite E in T; contradiction T; reflexivity|exact E]. Qed.
Lemma cut_new x y : 0 <= x < iw im -> 0 <= y < ih im -> ptype (ipix im' x y) = Region -> ptype (ipix im x y) = Region \/ ipix im x y = Pix Line el.
Proof. intros X Y T. exact (cut_region im im' s el gone Re Gg x y X Y T). Qed.
Lemma cut_old x y : 0 <= x < iw im -> 0 <= y < ih im -> ptype (ipix im x y) = Region \/ ipix im x y = Pix Line el -> ptype (ipix im' x y) = Region.
Proof.
  intros X Y T. destruct (pixel_after im im' Region s gone Re x y X Y) as [(_ & E)|(N & E)]; [rewrite E; reflexivity|]. destruct T as [T|T]; [rewrite E; exact T|]. rewrite T in N. contradiction (N Ge).
Qed.
Lemma cut_line x y : lineAt im' x y -> lineAt im x y /\ ipix im' x y = ipix im x y /\ plabel (ipix im x y) <> el.
Proof.
  intros (X & Y & T). pose proof Re as (W & H & _). rewrite W in X. rewrite H in Y. assert (E : ipix im' x y = ipix im x y) by (apply cut_stay; auto; rewrite T; discriminate).
  split; [split; [exact X|split; [exact Y|congruence]]|]. split; [exact E|]. intros L.
  assert (Q : ptype (ipix im' x y) = Region) by (apply cut_old; auto; right; rewrite E in T; apply pix_is; assumption). congruence.
Qed.
(** a neighbour of another type afterwards belonged to the edge *)
Lemma cut_near x y k : 0 <= x + dirX (k mod 8) < iw im -> 0 <= y + dirY (k mod 8) < ih im -> near im' x y k = near im x y k \/ (near im' x y k = Region /\ owns im Line el (x + dirX (k mod 8)) (y + dirY (k mod 8))).
Proof.
  intros X Y. unfold near. destruct (pixel_after im im' Region s gone Re _ _ X Y) as [(I & E)|(_ & E)]; rewrite E; [|left; reflexivity].
  destruct (Gg _ _ I) as [(A & B)|A]; [|left; rewrite A; reflexivity]. right. split; [reflexivity|]. split; [exact X|]. split; [exact Y|]. apply pix_is; assumption.
Qed.
Lemma cut_near4 x y j n : In j [0; 2; 4; 6] -> Z.odd n = false -> lineAt im' x y -> near im' x y (j + n) = near im x y (j + n).
Proof.
  intros J N La. destruct (cut_line x y La) as (Lo & _ & NL). destruct (line_near im x y ((j + n) mod 8) Fr Lo) as (X & Y). destruct (cut_near x y (j + n) X Y) as [E|(_ & A)]; [exact E|]. exfalso. apply NL.
  pose proof (Se x y ((j + n) mod 8) _ (even_mod j n J N) (line_has im x y Lo) X Y) as Q. destruct A as (_ & _ & A). rewrite A in Q. symmetry. apply Q. reflexivity.
Qed.
Lemma cut_side_old x y j : lineSide im' x y j -> lineSide im x y j.
Proof. intros (J & La & R). split; [exact J|]. split; [apply cut_line, La|]. rewrite <- R. symmetry. replace j with (j + 0) by lia. apply cut_near4; auto. Qed.

Lemma cut_tracked L : tracked m L -> tracked m' L.
Proof.
  intros (T1 & T2 & T3 & T4 & T5). fold im in T1, T2, T3, T4, T5. unfold tracked. fold im'.
  pose proof (cut_darts m m' s el gone Wi Ta Ge Gg) as Cd. pose proof (cut_edge m m' s el gone Wi Ta Ge Gg) as Ce. fold im im' in Cd, Ce.
  assert (Al : forall x, isDart im' x -> nextAlpha m' x = nextAlpha m x) by (intros; apply (alpha_kept m m' s el gone); assumption).
  split; [|split; [|split; [|split]]].
  - intros x y j S. apply T1, cut_side_old, S.
  - intros z x y j S Lz. destruct (T2 z x y j (cut_side_old _ _ _ S) Lz) as (D & E). pose proof S as (_ & La & _). destruct (cut_line x y La) as (_ & Q & NL).
    assert (D' : isDart im' z) by (apply Cd; split; [exact D|congruence]). split; [exact D'|]. rewrite (Ce z D'), Q. exact E.
  - intros z w x y j S. apply T3, cut_side_old, S.
  - intros z x y j S Lz. pose proof (cut_side_old _ _ _ S) as So. pose proof (T4 z x y j So Lz) as St. pose proof S as (J & La & _). destruct (cut_line x y La) as (Lo & _ & NL).
    pose proof (T2 z x y j So Lz) as (_ & Ez). unfold steps in *. cbv zeta in *. rewrite (cut_near4 x y j 2 J eq_refl La).
    destruct (line_near im x y ((j + 1) mod 8) Fr Lo) as (X & Y). destruct (cut_near x y (j + 1) X Y) as [->|(-> & A)]; [exact St|].
    assert (Ns : near im x y (j + 1) = Line) by (unfold near; destruct A as (_ & _ & ->); reflexivity). destruct St as (_ & S2 & _ & S4 & _ & S6 & _).
    split; [|split; [exact S2|split; [|split; [discriminate|split; [discriminate|split; discriminate]]]]]; [intros _ Q|intros Q _]; exfalso.
    + specialize (S6 Q Ns). assert (Sd : lineSide im (x + dirX ((j + 1) mod 8)) (y + dirY ((j + 1) mod 8)) ((j + 6) mod 8)).
      { split; [apply even_mod; auto|]. split; [split; [exact X|split; [exact Y|exact Ns]]|]. unfold near. rewrite Z.mod_mod by lia. destruct (s_side x y j J) as (-> & ->). destruct So as (_ & _ & So). unfold near in So. rewrite Z.mod_small in So by (apply even_range, J). exact So. }
      destruct (T2 _ _ _ _ Sd S6) as (_ & E). destruct A as (_ & _ & A). rewrite A in E. cbn [plabel] in E. congruence.
    + destruct (line_near im x y ((j + 2) mod 8) Fr Lo) as (Xq & Yq). pose proof (Se x y ((j + 2) mod 8) _ (even_mod j 2 J eq_refl) (line_has im x y Lo) Xq Yq Q) as Lq.
      assert (Oq : owns im Line (plabel (ipix im x y)) (x + dirX ((j + 2) mod 8)) (y + dirY ((j + 2) mod 8))) by (rewrite <- Lq; apply line_owner; assumption).
      pose proof (Se _ _ j _ J Oq) as Ls. destruct (q_to_s x y j J) as (Ex & Ey). rewrite Ex, Ey in Ls. specialize (Ls X Y Ns). destruct A as (_ & _ & A). rewrite A in Ls. cbn [plabel] in Ls. congruence.
  - intros x y k b D' A'. rewrite (Al _ D') in A'. pose proof (proj1 (Cd _) D') as (D & NL). pose proof (T5 x y k b D A') as St. pose proof D as (V & K & T & _). cbn [dcx dcy ddir] in V, K. unfold edgeOf in NL. cbn [dcx dcy ddir] in NL.
    unfold typeAt in T. cbn [dcx dcy ddir] in T. rewrite Z.add_0_r, Z.mod_small in T by exact K. destruct (neighbor_in im Fr x y k V) as (Xk & Yk). destruct St as (S1 & S2 & S3).
    assert (Ok_ : owns im Line (plabel (ipix im (x + dirX k) (y + dirY k))) (x + dirX k) (y + dirY k)) by (apply line_owner; assumption).
    split; [exact S1|]. destruct (neighbor_in im Fr x y ((k + 7) mod 8) V) as (X7 & Y7). destruct (neighbor_in im Fr x y ((k + 6) mod 8) V) as (X6 & Y6).
    assert (B7 : Z.odd k = false -> near im x y (k + 7) = Line -> plabel (ipix im (x + dirX ((k + 7) mod 8)) (y + dirY ((k + 7) mod 8))) = plabel (ipix im (x + dirX k) (y + dirY k))).
    { intros O N. pose proof (even_in k K O) as J. pose proof (Se _ _ ((k + 6) mod 8) _ (even_mod k 6 J eq_refl) Ok_) as Q. destruct (k_right x y k J) as (Ex & Ey). rewrite Ex, Ey in Q. apply Q; auto. }
    split.
    + intros O N. destruct (cut_near x y (k + 7) X7 Y7) as [E|(_ & A)]; [apply S2; congruence|]. exfalso. apply NL. rewrite <- B7; [|exact O|unfold near]; destruct A as (_ & _ & ->); reflexivity.
    + intros O N7 N6. assert (E7 : near im x y (k + 7) = Line) by (destruct (cut_near x y (k + 7) X7 Y7) as [E|(E & _)]; congruence).
      destruct (cut_near x y (k + 6) X6 Y6) as [E|(_ & A)]; [apply S3; congruence|]. exfalso. apply NL. rewrite <- (B7 O E7). pose proof (even_in k K O) as J. pose proof (Se _ _ k _ J A) as Q. destruct (k_right2 x y k J) as (Ex & Ey). rewrite Ex, Ey in Q. apply Q; auto.
Qed.
Lemma cut_owns l x y : owns im' Line l x y <-> owns im Line l x y /\ l <> el.
Proof.
  pose proof Re as (W & H & _). split.
  - intros O. assert (La : lineAt im' x y) by (destruct O as (X & Y & E); split; [exact X|split; [exact Y|rewrite E; reflexivity]]). destruct (cut_line x y La) as ((X & Y & _) & E & NL). destruct O as (_ & _ & O). rewrite E in O. split; [split; auto|]. rewrite O in NL. exact NL.
  - intros ((X & Y & E) & NL). unfold owns. rewrite W, H. split; [exact X|]. split; [exact Y|]. destruct (pixel_after im im' Region s gone Re x y X Y) as [(I & _)|(_ & Q)]; [|congruence]. exfalso. rewrite E in I. destruct (Gg _ _ I) as [(_ & Q)|Q]; [exact (NL Q)|discriminate Q].
Qed.
Lemma cut_regions x y : regionAt im x y \/ owns im Line el x y -> regionAt im' x y.
Proof. intros H. pose proof Re as (W & Hh & _). unfold regionAt. rewrite W, Hh. assert (X : 0 <= x < iw im /\ 0 <= y < ih im) by (destruct H as [(X & Y & _)|(X & Y & _)]; auto). split; [apply X|]. split; [apply X|]. apply cut_old; [apply X|apply X|]. destruct H as [(_ & _ & T)|(_ & _ & T)]; auto. Qed.
Lemma cut_strung : strung im -> strung im'.
Proof.
  intros Sg l x y u v A B. apply cut_owns in A, B. destruct A as (A & NL), B as (B & _). apply (reach_mono _ (owns im Line l)); [|apply Sg; assumption]. intros p q O. apply cut_owns. auto.
Qed.
Lemma cut_opened : opened im -> opened im'.
Proof.
  intros Op l x y A. apply cut_owns in A. destruct A as (A & NL). destruct (Op l x y A) as (u & v & k & Rr & K & Rk). exists u, v, k. split; [apply (reach_mono _ (owns im Line l)); [|exact Rr]; intros p q O; apply cut_owns; auto|]. split; [exact K|]. apply cut_regions. auto.
Qed.
Variable d : dart.
Hypothesis Dd : isDart im d.
Hypothesis Ed : edgeOf im d = el.
Hypothesis Bo : bordered im el d.
Hypothesis Gs : forall f, f = s \/ In (Region, f) gone -> f = sideOf im 1 d \/ f = sideOf im (-1) d.
Let tx := dcx d + dirX (ddir d).
Let ty := dcy d + dirY (ddir d).
Lemma side_touch n : n = 1 \/ n = -1 -> exists x y, owns im Region (sideOf im n d) x y /\ reach ways4 (regionAt im') x y tx ty.
Proof.
  intros W. pose proof Dd as (V & K & T & C). pose proof (dart_owns im Fr d Dd) as Ot. rewrite Ed in Ot. fold tx ty in Ot. assert (Rt : regionAt im' tx ty) by (apply cut_regions; auto).
  destruct (neighbor_in im Fr _ _ ((ddir d + n) mod 8) V) as (X1 & Y1). destruct (neighbor_in im Fr _ _ ((ddir d + 2 * n) mod 8) V) as (X2 & Y2).
  assert (G : forall x y k, reach ways4 (regionAt im') (x + dirX k) (y + dirY k) tx ty -> In k ways4 -> regionAt im' x y -> reach ways4 (regionAt im') x y tx ty).
  { intros x y k Q Kk R. apply (walk_trans _ _ _ _ (x + dirX k) (y + dirY k)); [|exact Q]. apply walk_one; [exact Kk|exact R|exact (walk_start _ _ _ _ _ _ Q)]. }
  assert (St : exists k, In k ways4 /\ dcx d + dirX ((ddir d + n) mod 8) + dirX k = tx /\ dcy d + dirY ((ddir d + n) mod 8) + dirY k = ty).
  { unfold tx, ty. clear - W K. assert (H : ddir d = 0 \/ ddir d = 1 \/ ddir d = 2 \/ ddir d = 3 \/ ddir d = 4 \/ ddir d = 5 \/ ddir d = 6 \/ ddir d = 7) by lia.
    destruct H as [->|[->|[->|[->|[->|[->|[->| ->]]]]]]]; destruct W as [-> | ->]; cbn;
      first [exists 0; split; [tauto|cbn; lia] | exists 2; split; [tauto|cbn; lia] | exists 4; split; [tauto|cbn; lia] | exists 6; split; [tauto|cbn; lia]]. }
  destruct St as (k1 & K1 & E1x & E1y).
  unfold sideOf. destruct (ctypeEqb (typeAt im d n) Region) eqn:Tn.
  - apply CellSigma_Proofs.ctypeEqb_eq in Tn. exists (dcx d + dirX ((ddir d + n) mod 8)), (dcy d + dirY ((ddir d + n) mod 8)).
    assert (Rn : regionAt im (dcx d + dirX ((ddir d + n) mod 8)) (dcy d + dirY ((ddir d + n) mod 8))) by (split; [exact X1|split; [exact Y1|exact Tn]]).
    split; [split; [exact X1|split; [exact Y1|apply pix_is; [exact Tn|reflexivity]]]|]. apply (G _ _ k1); [rewrite E1x, E1y; apply re_here, Rt|exact K1|apply cut_regions; auto].
  - apply CellSigma_Proofs.ctypeEqb_ne in Tn. assert (O : Z.odd (ddir d) = false) by (destruct (Z.odd (ddir d)) eqn:O; auto; exfalso; apply Tn; destruct W as [-> | ->]; apply C; reflexivity).
    assert (T2 : typeAt im d (2 * n) = Region) by (destruct (Ai d n V (even_in _ K O) W T); [contradiction|assumption]).
    assert (Tl : typeAt im d n = Line).
    { destruct (typeAt im d n) eqn:Q; [contradiction Tn; reflexivity|reflexivity| |].
      - exfalso. apply (neat_side im Fr Ne n d W (conj V K) O Q). exact T.
      - exfalso. destruct Fa as (_ & Pl & _). exact (Pl _ _ X1 Y1 Q). }
    exists (dcx d + dirX ((ddir d + 2 * n) mod 8)), (dcy d + dirY ((ddir d + 2 * n) mod 8)).
    split; [split; [exact X2|split; [exact Y2|apply pix_is; [exact T2|reflexivity]]]|].
    assert (Ol : owns im Line el (dcx d + dirX ((ddir d + n) mod 8)) (dcy d + dirY ((ddir d + n) mod 8))).
    { split; [exact X1|]. split; [exact Y1|]. apply pix_is; [exact Tl|]. destruct (two4 k1 K1) as (K1' & B1 & B2). pose proof (Se tx ty ((k1 + 4) mod 8) el K1' Ot) as Q.
      replace (tx + dirX ((k1 + 4) mod 8)) with (dcx d + dirX ((ddir d + n) mod 8)) in Q by lia. replace (ty + dirY ((k1 + 4) mod 8)) with (dcy d + dirY ((ddir d + n) mod 8)) in Q by lia. apply Q; auto. }
    assert (E2 : dcx d + dirX ((ddir d + 2 * n) mod 8) + dirX (ddir d) = dcx d + dirX ((ddir d + n) mod 8) /\ dcy d + dirY ((ddir d + 2 * n) mod 8) + dirY (ddir d) = dcy d + dirY ((ddir d + n) mod 8)).
    { pose proof (even_in _ K O) as J. clear - W J. dirs J; destruct W as [-> | ->]; cbn; lia. }
    destruct E2 as (E2x & E2y). apply (G _ _ (ddir d)); [rewrite E2x, E2y|exact (even_in _ K O)|apply cut_regions; left; split; [exact X2|split; [exact Y2|exact T2]]].
    apply (G _ _ k1); [rewrite E1x, E1y; apply re_here, Rt|exact K1|apply cut_regions; auto].
Qed.
Lemma cut_whole : whole im -> opened im -> whole im'.
Proof.
  intros Wh Op l x y u v A B. pose proof Re as (Ww & Hh & _).
  assert (Mo : forall p q p' q', reach ways4 (regionAt im) p q p' q' -> reach ways4 (regionAt im') p q p' q') by (intros; apply (reach_mono _ (regionAt im)); auto; intros; apply cut_regions; auto).
  destruct (Z.eq_dec l s) as [->|NS].
  - assert (G : forall p q, owns im' Region s p q -> reach ways4 (regionAt im') p q tx ty).
    { assert (Hs : forall p q f, owns im Region f p q -> f = sideOf im 1 d \/ f = sideOf im (-1) d -> reach ways4 (regionAt im') p q tx ty).
      { intros p q f O F. assert (exists n, (n = 1 \/ n = -1) /\ f = sideOf im n d) as (n & W & ->) by (destruct F; eauto). destruct (side_touch n W) as (a & b & Oa & Rr). apply (walk_trans _ _ _ _ a b); [|exact Rr]. apply Mo. apply (Wh _ _ _ _ _ O Oa). }
      intros p q (X & Y & O). rewrite Ww in X. rewrite Hh in Y. assert (Tr : ptype (ipix im' p q) = Region) by (rewrite O; reflexivity). destruct (cut_new p q X Y Tr) as [T|T].
      - apply (Hs p q (plabel (ipix im p q))); [split; [exact X|split; [exact Y|apply pix_is; auto]]|]. apply Gs. destruct (pixel_after im im' Region s gone Re p q X Y) as [(I & _)|(_ & E)]; [right; rewrite <- T; exact I|left]. rewrite E in O. rewrite O. reflexivity.
      - destruct (Op el p q (conj X (conj Y T))) as (a & b & k & Rr & K & Rk). pose proof Rk as (Xk & Yk & Tk). assert (Oa : owns im Line el a b) by exact (walk_end _ _ _ _ _ _ Rr).
        apply (walk_trans _ _ _ _ (a + dirX k) (b + dirY k)); [apply re_step; [|exact K|apply cut_regions; auto]|].
        + apply (reach_mono _ (owns im Line el)); [|exact Rr]. intros; apply cut_regions; auto.
        + apply (Hs _ _ (plabel (ipix im (a + dirX k) (b + dirY k)))); [split; [exact Xk|split; [exact Yk|apply pix_is; auto]]|]. apply (Bo a b k K Oa Xk Yk Tk). }
    apply (walk_trans _ _ _ _ tx ty); [apply G, A|]. apply walk_back; [exact two4|]. apply G, B.
  - assert (G : forall p q, owns im' Region l p q -> owns im Region l p q).
    { intros p q (X & Y & O). rewrite Ww in X. rewrite Hh in Y. split; [exact X|]. split; [exact Y|]. destruct (pixel_after im im' Region s gone Re p q X Y) as [(_ & E)|(_ & E)]; congruence. }
    apply Mo, (Wh l); apply G; assumption.
Qed.
Lemma cut_planar : planar m -> planar m'.
Proof.
  intros (_ & Wh & Sg & Op & L & Tr). split; [exact Fa'|]. split; [apply cut_whole; assumption|]. split; [apply cut_strung, Sg|]. split; [apply cut_opened, Op|]. exists L. apply cut_tracked, Tr.
Qed.
End Cut.
