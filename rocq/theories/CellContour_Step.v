(** C71: the calls keep the contours in order. *)
From Coq Require Import Lia Permutation.
From Verif Require Import Base CellMap_Model CellMap_Spec CellMap_Main CellSigma_Spec CellSigma_Proofs CellSigma_Results CellLink_Spec CellLink_Proofs CellLink_Main CellLink_Results CellLink_Check CellFace_Spec CellFace_Walk CellFace_Main CellFace_Step CellContour_Orbit CellContour_Spec CellContour_Phi CellContour_Find CellContour_View CellContour_Cut.
Local Open Scope Z_scope.

Lemma live_face m m' t s gone l f : takenOver m m' t s gone -> isFace m' l f -> (exists f0, isFace m l f0) /\ ~ In (Region, Z.of_nat l) gone.
Proof.
  intros (_ & _ & _ & C & _) (H & I). destruct (proj1 (C Region l)) as (A & B).
  - exists (finf f). split; auto. cbn [cellsOf]. apply map_nth_error, H.
  - split; auto. destruct A as (c & A & J). cbn [cellsOf] in A. rewrite nth_error_map in A. destruct (nth_error (cfaces m) l) as [f0|] eqn:E; [|discriminate A].
    injection A as <-. exists f0. split; auto.
Qed.
Lemma side_face m n d f : faced m -> way n -> isDart (cim m) d -> at_ (cfaces m) (sideOf (cim m) n d) = Ok f -> isFace m (Z.to_nat (sideOf (cim m) n d)) f /\ Z.of_nat (Z.to_nat (sideOf (cim m) n d)) = sideOf (cim m) n d.
Proof.
  intros Fa W D E. apply at_Ok in E. destruct E as (P & E). split; [|apply Z2Nat.id, P]. split; auto. destruct (side_live m n d Fa W D) as (c & C & I). cbn [cellsOf] in C.
  rewrite nth_error_map, E in C. injection C as <-. exact I.
Qed.
Lemma alpha_darts m a b : wired m -> isDart (cim m) a -> nextAlpha m a = Ok b -> isDart (cim m) b /\ a <> b /\ nextAlpha m b = Ok a /\ edgeOf (cim m) b = edgeOf (cim m) a /\
  forall x, isDart (cim m) x -> edgeOf (cim m) x = edgeOf (cim m) a -> x = a \/ x = b.
Proof.
  intros Wi Da Ab. assert (Fr : framed (cim m)) by apply Wi. destruct (alpha_opposite m a (dh_start m Wi) Da) as (b' & A & Db & N & Bk & U). assert (b' = b) by congruence. subst b'.
  assert (G : forall x, isDart (cim m) x -> (edgeOf (cim m) x = edgeOf (cim m) a <-> x = a \/ x = b)).
  { intros x Dx. rewrite <- U by exact Dx. rewrite !edgeLabel_dart by (auto; apply Dx || apply Da). split; congruence. }
  split; auto. split; auto. split; auto. split; [apply G; auto|]. intros x Dx. apply G, Dx.
Qed.

Lemma prev_phi m a b x : wired m -> isDart (cim m) a -> isDart (cim m) b -> nextAlpha m b = Ok a -> prevSigma (cim m) a = Ok x -> x = phi m b.
Proof.
  intros Wi Da Db A P. assert (Fr : framed (cim m)) by apply Wi. assert (Ne : neat (cim m)) by apply Wi.
  destruct (sigma_defined (cim m) Fr Ne (-1) a (or_intror eq_refl) Da) as (y & Y & N & _). change (prevSigma (cim m) a = Ok y) in Y. assert (y = x) by congruence. subst y.
  symmetry. apply (phi_is m Wi b a); auto.
Qed.
(** the anchor findComponentAnchor() finds *)
Lemma find_in m l f d x : contoured m -> isFace m l f -> isDart (cim m) d -> isDart (cim m) x -> edgeOf (cim m) x = edgeOf (cim m) d -> sideOf (cim m) 1 x = Z.of_nat l ->
  (forall y, isDart (cim m) y -> edgeOf (cim m) y = edgeOf (cim m) d -> sideOf (cim m) 1 y = Z.of_nat l -> contour m x y) ->
  exists i a, findComponentAnchor m (fcontours f) d = Ok i /\ nth_error (fcontours f) i = Some a /\ contour m a x.
Proof.
  intros (Fa & Co) If Dd Dx Ex Sx U. assert (Wi : wired m) by apply Fa. destruct (Co l f If) as (A & B). destruct (B x) as (i & a & I & C & Un); [left; auto|]. exists i, a. split; auto.
  apply (find_dart m Fa _ d i a x); auto.
  - intros y Y. destruct (A y Y) as (Q & _). apply (border_known _ _ _ Q).
  - intros j b y J Cy Dy Ey. apply (Un j b J). apply (contour_trans m Wi _ y); auto. apply (contour_sym m Wi), U; auto.
    assert (Q : onBorder (cim m) (Z.of_nat l) y) by (apply (border_contour m Fa _ b); auto; apply A; eapply nth_error_In, J).
    destruct Q as [(_ & Q)|(Q & _)]; auto. exfalso. apply (lonely_not m y Q Dy).
Qed.

(** the arrays of anchors *)
Lemma face_anchors m l f : isFace m l f -> nth_error (anchors m) l = Some (fcontours f).
Proof. intros (H & _). apply map_nth_error, H. Qed.
Lemma contoured_from m m' s X t gone : contoured m -> faced m' -> takenOver m m' t s gone -> anchors m' = list_upd (anchors m) (Z.to_nat s) X -> 0 <= s ->
  (forall l cs, l <> s -> ~ In (Region, l) gone -> covers m l cs -> covers m' l cs) -> covers m' s X -> contoured m'.
Proof.
  intros (Fa & Co) Fa' Ta An Ps Ot Ma. split; auto. intros l f' If'. destruct (live_face _ _ _ _ _ _ _ Ta If') as ((f & If) & Ng).
  pose proof (face_anchors _ _ _ If') as Q. pose proof (face_anchors _ _ _ If) as Q0. rewrite An in Q. destruct (Nat.eq_dec (Z.to_nat s) l) as [<-|N].
  - rewrite nth_error_upd_eq in Q by (apply nth_error_Some; congruence). injection Q as <-. rewrite Z2Nat.id by exact Ps. exact Ma.
  - rewrite nth_error_upd_neq in Q by auto. assert (Ec : fcontours f' = fcontours f) by congruence. rewrite Ec. apply Ot; auto. lia.
Qed.

(** ** removeBridge() *)
Lemma bridge_contoured m d m' s : contoured m -> contourAllowed m (CRemoveBridge d) -> removeBridge m d = Ok (m', s) -> faced m' -> callEffect m m' (CRemoveBridge d) s -> contoured m'.
Proof.
  intros Con (Dd & k & db & Adb & Kdb) Ex Fa' Ef. cbn [faceAllowed] in Dd. pose proof Con as (Fa & Co). pose proof Fa as (Wi & Pl & Ai & Fi & _). assert (Fr : framed (cim m)) by apply Wi.
  destruct Ef as (e & Ee & El & Er & Ta). rewrite edgeLabel_dart in Ee by (auto; apply Dd). injection Ee as Ee.
  destruct (bridge_anchors _ _ _ _ Ex) as (el & ei & f & a1 & a2 & c & El2 & Ei & _ & Ff & A1 & A2 & Fc & An).
  rewrite edgeLabel_dart in El2 by (auto; apply Dd). injection El2 as El2. assert (el = e) by congruence. subst el.
  rewrite leftFace_is in El by (auto; apply Dd). rewrite rightFace_is in Er by (auto; apply Dd). injection El as El. injection Er as Er.
  destruct (alpha_ends m d Wi Dd) as (ei' & d' & b & Ei' & _ & _ & _ & T & <- & Ab & Ends). assert (db = b) by congruence. subst db. assert (ei' = ei) by congruence. subst ei'. clear Ei'.
  destruct (alpha_darts m d b Wi Dd Ab) as (Db & Ndb & Ba & Eb & _). rewrite Ee in Eb.
  assert (Sb : sideOf (cim m) 1 b = s). { destruct (faced_edge m d b Fa Dd Ab) as ((F1 & F2) & _). congruence. }
  assert (Ob : orb (phi m) d b) by (apply (phis_orb m Wi d b Dd); exists k; exact Kdb).
  assert (Rs : ren [(Line, e)] s s = s) by (unfold ren; destruct (in_dec _ _ _); auto).
  assert (Ge : In (Line, e) [(Line, e)]) by (left; reflexivity).
  assert (Gg : forall u k, In (u, k) [(Line, e)] -> (u = Line /\ k = e) \/ u = Region) by (intros u j [X|[]]; injection X as <- <-; auto).
  rewrite <- El in Ff. destruct (side_face m 1 d f Fa (or_introl eq_refl) Dd Ff) as (If & Ns). rewrite El in If, Ns.
  assert (Ps : 0 <= s) by lia.
  (* the darts of the edge in the order of the code *)
  assert (Os : exists a b', estart ei = a /\ eend ei = b' /\ isDart (cim m) a /\ isDart (cim m) b' /\ nextAlpha m a = Ok b' /\ nextAlpha m b' = Ok a /\ edgeOf (cim m) a = e /\
    sideOf (cim m) 1 a = s /\ sideOf (cim m) 1 b' = s /\ orb (phi m) a b' /\ (d = a \/ d = b')).
  { destruct Ends as [(X & Y)|(X & Y)]; [exists d, b|exists b, d]; (split; [exact X|]); (split; [exact Y|]); repeat (split; [assumption|]); auto.
    split; [apply (phi_sym m Wi); auto|auto]. }
  clear Ends. destruct Os as (a & b' & Xa & Xb & Da & Db' & Aab & Aba & Ea & Sa & Sb' & Oab & Od). rewrite Xa in A1. rewrite Xb in A2.
  assert (P1 : a1 = phi m b') by (apply (prev_phi m a b' a1); auto). assert (P2 : a2 = phi m a) by (apply (prev_phi m b' a a2); auto).
  subst a1 a2.
  destruct (find_in m (Z.to_nat s) f d d Con If Dd Dd eq_refl) as (i & an & Fi' & I & Ca).
  { rewrite Ns. exact El. }
  { intros y Dy Ey Sy. destruct (alpha_darts m d b Wi Dd Ab) as (_ & _ & _ & _ & U). apply (contour_dart m Wi); auto. destruct (U y Dy Ey) as [-> | ->]; [apply orb_refl|exact Ob]. }
  assert (i = c) by congruence. subst i. destruct (list_split _ _ _ I) as (u & w & Es & Lu).
  apply (contoured_from m m' s _ Region [(Line, e)] Con Fa' Ta An Ps).
  - intros l cs Nl Ng. apply (other_covers m m' s e [(Line, e)] a b' Fa Fa' Ta Ge Gg Da Ea Aab); rewrite ?Sa, ?Sb'; auto.
  - rewrite Es, <- Lu, upd_split. pose proof (Co _ _ If) as Cs. rewrite Ns, (covers_cover m s _ Fa), Es in Cs. destruct Cs as ((B1 & B2 & B3) & B4).
    apply (apart_mid _ (contour_sym m Wi)) in B3. destruct B3 as (B3 & B5).
    assert (Ha : contour m an a /\ contour m an b').
    { assert (Cd : forall x, orb (phi m) d x -> contour m an x) by (intros x X; apply (contour_trans m Wi _ d); auto; apply (contour_dart m Wi); auto).
      destruct Od as [<-|<-]; split; apply Cd; auto using orb_refl. apply (phi_sym m Wi); auto. }
    destruct Ha as (Ha & Hb).
    destruct (bridge_rest m m' s e [(Line, e)] a b' Fa Fa' Ta Ge Gg Da Ea Aab) as (R1 & R2 & R3 & R4); auto; rewrite ?Sa, ?Sb'; auto.
    apply (main_covers m m' s e [(Line, e)] a b' Fa Fa' Ta Ge Gg Da Ea Aab) with (fs := u ++ w) (ns := [phi m b'; phi m a]); rewrite ?Sa, ?Sb'; auto.
    + cbn [app]. rewrite <- app_assoc. cbn [app]. etransitivity; [|apply Permutation_middle]. constructor. rewrite app_assoc. apply Permutation_cons_append.
    + intros x X. assert (X' : In x (u ++ an :: w)) by (apply in_app_or in X; apply in_or_app; cbn; tauto).
      split; [split; [apply (border_known _ _ _ (B1 x X'))|]|].
      * split; intros Y; apply (B5 x X); [apply (contour_trans m Wi _ a)|apply (contour_trans m Wi _ b')]; auto.
      * split; [apply B4, X'|]. exists s. split; auto.
    + intros x q Fx Bx Rx. assert (q = s) by (unfold ren in Rx; destruct (in_dec _ _ _) as [[X|[]]|]; congruence). subst q. destruct (B2 x Bx) as (y & Y & Cy). exists y. split; auto.
      apply in_app_or in Y. apply in_or_app. destruct Y as [Y|[<-|Y]]; auto. exfalso. apply (proj1 (proj2 Fx)). apply (contour_trans m Wi _ an); auto. apply (contour_sym m Wi), Ha.
Qed.

(** ** mergeFaces() *)
Lemma merged_anchor m a b a1 a2 c : faced m -> isDart (cim m) a -> nextAlpha m a = Ok b -> ~ orb (phi m) a b -> contour m a1 a -> contour m a2 b ->
  mergedAnchor m (edgeOf (cim m) a) a1 a2 = Ok c ->
  (stay (isDart (cim m)) a b c /\ near (phi m) a b c /\ ~ (phi m a = a /\ phi m b = b)) \/ (c = b /\ phi m a = a /\ phi m b = b).
Proof.
  intros Fa Da Ab No C1 C2 M. assert (Wi : wired m) by apply Fa. assert (Fr : framed (cim m)) by apply Wi. destruct (alpha_darts m a b Wi Da Ab) as (Db & Nab & Ba & Eb & U).
  apply (contour_sym m Wi) in C1, C2. apply (contour_dart m Wi) in C1; auto. apply (contour_dart m Wi) in C2; auto.
  assert (D1 : isDart (cim m) a1) by (apply (phi_to m Wi a); auto). assert (D2 : isDart (cim m) a2) by (apply (phi_to m Wi b); auto).
  assert (N1 : a1 <> b) by (intros ->; contradiction). assert (Nba : ~ orb (phi m) b a) by (intros X; apply No, (phi_sym m Wi); auto). assert (N2 : a2 <> a) by (intros ->; contradiction).
  assert (Own : forall x y, phi m x = x -> orb (phi m) x y -> y = x) by (intros x y X (k & <-); clear - X; induction k; cbn; auto; congruence).
  assert (NA : phi m a <> b) by (intros X; apply No; exists 1%nat; exact X). assert (NB : phi m b <> a) by (intros X; apply Nba; exists 1%nat; exact X).
  unfold mergedAnchor in M. rewrite edgeLabel_dart in M by (auto; apply D1). cbn [bind] in M. destruct (Z.eqb_spec (edgeOf (cim m) a1) (edgeOf (cim m) a)) as [E1|E1].
  - destruct (U a1 D1 E1) as [X|]; [|contradiction]. subst a1. destruct (phi_ok m Wi a Da) as (Pa & Dp). rewrite Pa in M. cbn [bind] in M. rewrite edgeLabel_dart in M by (auto; apply Dp). cbn [bind] in M.
    destruct (Z.eqb_spec (edgeOf (cim m) (phi m a)) (edgeOf (cim m) a)) as [E2|E2].
    + destruct (U _ Dp E2) as [Q|]; [|contradiction]. rewrite edgeLabel_dart in M by (auto; apply D2). cbn [bind] in M. destruct (Z.eqb_spec (edgeOf (cim m) a2) (edgeOf (cim m) a)) as [E3|E3].
      * destruct (U a2 D2 E3) as [|X]; [contradiction|]. subst a2. destruct (phi_ok m Wi b Db) as (Pb & Dpb). rewrite Pb in M. injection M as <-. destruct (dart_eq_dec (phi m b) b) as [X|X]; [right; auto|].
        left. split; [split; auto|]. split; [right; apply orb_step|]. tauto.
      * injection M as <-. left. split; [split; auto; split; auto; intros ->; apply E3, Eb|]. split; [right; exact C2|]. intros (_ & X). apply E3. rewrite (Own b a2 X C2). exact Eb.
    + injection M as <-. left. split; [split; auto; split; auto; intros X; rewrite X in E2; apply E2; auto|]. split; [left; apply orb_step|]. intros (X & _). apply E2. congruence.
  - injection M as <-. left. split; [split; auto; split; auto; intros ->; apply E1; auto|]. split; [left; exact C1|]. intros (X & _). apply E1. rewrite (Own a a1 X C1). reflexivity.
Qed.
Lemma merge_contoured m d m' s : contoured m -> isDart (cim m) d -> mergeFaces m d = Ok (m', s) -> faced m' -> callEffect m m' (CMergeFaces d) s -> contoured m'.
Proof.
  intros Con Dd Ex Fa' Ef. pose proof Con as (Fa & Co). pose proof Fa as (Wi & Pl & Ai & Fi & _). assert (Fr : framed (cim m)) by apply Wi.
  destruct Ef as (e & fl & l & r & Ee & El & Er & Sf & Ta). rewrite edgeLabel_dart in Ee by (auto; apply Dd). injection Ee as Ee.
  rewrite leftFace_is in El by (auto; apply Dd). rewrite rightFace_is in Er by (auto; apply Dd). injection El as El. injection Er as Er.
  destruct (merge_anchors _ _ _ _ Ex) as (a & el & ei & ml & sf & mf & c1 & c2 & a1 & a2 & c & Rd & Eel & Ei & Esl & Eml & Fsf & Fmf & Nf & F1 & F2 & I1 & I2 & Mg & An).
  assert (Ad : isDart (cim m) a /\ edgeOf (cim m) a = e).
  { destruct (alpha_ends m d Wi Dd) as (_ & d' & b & _ & _ & _ & _ & T & <- & Ab & _). destruct Rd as [->|Rd]; auto. assert (b = a) by congruence. subst b.
    destruct (alpha_darts m d a Wi Dd Ab) as (X & _ & _ & Y & _). split; auto. congruence. }
  destruct Ad as (Da & Ea). rewrite edgeLabel_dart in Eel by (auto; apply Da). injection Eel as Eel. assert (el = e) by congruence. subst el.
  rewrite leftFace_is in Esl by (auto; apply Da). rewrite rightFace_is in Eml by (auto; apply Da). injection Esl as Esl. injection Eml as Eml.
  destruct (alpha_ends m a Wi Da) as (ei' & a' & b & Ei' & _ & Ci' & Ii' & T & <- & Ab & _). rewrite Ea in Ei', Ci'. assert (ei' = ei) by congruence. subst ei'.
  assert (So : sound m) by apply Wi. pose proof (proj1 (proj2 (proj2 So))) as Rc. cbn beta in Rc.
  assert (Cl : clabel (einf ei) = e).
  { destruct (Rc Line (Z.to_nat e) (einf ei)) as (X & _); [cbn [cellsOf]; apply map_nth_error, Ci'|exact Ii'|]. rewrite X. apply Z2Nat.id. apply at_Ok in Ei'. apply Ei'. }
  rewrite Cl in Mg. destruct (alpha_darts m a b Wi Da Ab) as (Db & Nab & Ba & Eb & U). rewrite Ea in Eb, U.
  destruct (faced_edge m a b Fa Da Ab) as ((S1 & S2) & _).
  rewrite <- Esl in Fsf. rewrite <- Eml in Fmf. destruct (side_face m 1 a sf Fa (or_introl eq_refl) Da Fsf) as (Is & Ns). destruct (side_face m (-1) a mf Fa (or_intror eq_refl) Da Fmf) as (Im & Nm).
  rewrite Esl in Is, Ns. rewrite Eml in Im, Nm.
  assert (Nsm : s <> ml).
  { intros X. apply Nf. rewrite X in Is. destruct Is as (Is & _), Im as (Im & _). congruence. }
  assert (Fl : fl = ml).
  { assert (Q : (sideOf (cim m) 1 a = l /\ sideOf (cim m) (-1) a = r) \/ (sideOf (cim m) 1 a = r /\ sideOf (cim m) (-1) a = l)).
    { destruct Rd as [->|Rd]; auto. destruct (faced_edge m d a Fa Dd Rd) as ((X & Y) & _). right. split; congruence. }
    destruct Q as [(Q1 & Q2)|(Q1 & Q2)], Sf as [(X & Y)|(X & Y)]; congruence. }
  subst fl. set (G := [(Line, e); (Region, ml)]) in *.
  assert (Rm : ren G s ml = s) by (unfold ren; destruct (in_dec _ _ _) as [|N]; auto; exfalso; apply N; right; left; reflexivity).
  assert (Rs : ren G s s = s) by (unfold ren; destruct (in_dec _ _ _); auto).
  assert (Rx : forall q, ren G s q = s -> q = s \/ q = ml).
  { intros q. unfold ren. destruct (in_dec _ _ _) as [[X|[X|[]]]|]; [discriminate X|right; congruence|left; auto]. }
  assert (Ge : In (Line, e) G) by (left; reflexivity).
  assert (Gg : forall u k, In (u, k) G -> (u = Line /\ k = e) \/ u = Region) by (intros u j [X|[X|[]]]; injection X as <- <-; auto).
  assert (Sb : sideOf (cim m) 1 b = ml) by congruence.
  assert (No : ~ orb (phi m) a b) by (intros X; apply Nsm; rewrite <- Esl, <- Sb; symmetry; apply (side_orb m Fa a b Da X)).
  assert (Ps : 0 <= s) by lia.
  destruct (find_in m (Z.to_nat s) sf a a Con Is Da Da eq_refl) as (i1 & x1 & Q1 & J1 & C1).
  { congruence. }
  { intros y Dy Ey Sy. apply (contour_dart m Wi); auto. rewrite Ea in Ey. destruct (U y Dy Ey) as [-> | ->]; [apply orb_refl|exfalso; congruence]. }
  destruct (find_in m (Z.to_nat ml) mf a b Con Im Da Db) as (i2 & x2 & Q2 & J2 & C2).
  { congruence. } { congruence. }
  { intros y Dy Ey Sy. apply (contour_dart m Wi); auto. rewrite Ea in Ey. destruct (U y Dy Ey) as [-> | ->]; [exfalso; congruence|apply orb_refl]. }
  assert (i1 = c1) by congruence. assert (i2 = c2) by congruence. subst i1 i2. assert (x1 = a1) by congruence. assert (x2 = a2) by congruence. subst x1 x2. clear J1 J2 Q1 Q2.
  destruct (list_split _ _ _ I1) as (u1 & w1 & E1 & L1). destruct (list_split _ _ _ I2) as (u2 & w2 & E2 & L2).
  rewrite <- Ea in Mg. pose proof (merged_anchor m a b a1 a2 c Fa Da Ab No C1 C2 Mg) as Mc.
  assert (Sa' : ren G s (sideOf (cim m) 1 a) = s) by (rewrite Esl; exact Rs). assert (Sb' : ren G s (sideOf (cim m) 1 b) = s) by (rewrite Sb; exact Rm).
  apply (contoured_from m m' s _ Region G Con Fa' Ta An Ps).
  - intros q cs Nl Ng. apply (other_covers m m' s e G a b Fa Fa' Ta Ge Gg Da Ea Ab); auto.
  - rewrite E1, E2, <- L1, <- L2, upd_split, erase_split.
    pose proof (Co _ _ Is) as Cs. rewrite Ns, (covers_cover m s _ Fa), E1 in Cs. destruct Cs as ((A1 & A2 & A3) & A4).
    pose proof (Co _ _ Im) as Cm. rewrite Nm, (covers_cover m ml _ Fa), E2 in Cm. destruct Cm as ((B1 & B2 & B3) & B4).
    apply (apart_mid _ (contour_sym m Wi)) in A3, B3. destruct A3 as (A3 & A5), B3 as (B3 & B5).
    destruct (merge_rest m m' s e G a b Fa Fa' Ta Ge Gg Da Ea Ab c No) as (R1 & R2 & R3).
    { destruct Mc as [(St & Ne_ & X)|X]; [left|right; exact X]. split; [|auto]. apply (dart_stay m m' s e G a b Fa Ta Ge Gg Da Ea Ab), St. }
    assert (Far1 : forall x, In x (u1 ++ w1) -> far m a b x /\ onBorder (cim m) s x).
    { intros x X. assert (X' : In x (u1 ++ a1 :: w1)) by (apply in_app_or in X; apply in_or_app; cbn; tauto). pose proof (A1 x X') as Bo. split; auto. split; [apply (border_known _ _ _ Bo)|]. split; intros Y.
      - apply (A5 x X). apply (contour_trans m Wi _ a); auto.
      - apply Nsm. apply (border_unique (cim m) s ml x Bo). apply (border_contour m Fa ml b); auto. left. auto. }
    assert (Far2 : forall x, In x (u2 ++ w2) -> far m a b x /\ onBorder (cim m) ml x).
    { intros x X. assert (X' : In x (u2 ++ a2 :: w2)) by (apply in_app_or in X; apply in_or_app; cbn; tauto). pose proof (B1 x X') as Bo. split; auto. split; [apply (border_known _ _ _ Bo)|]. split; intros Y.
      - apply Nsm. symmetry. apply (border_unique (cim m) ml s x Bo). apply (border_contour m Fa s a); auto. left. auto.
      - apply (B5 x X). apply (contour_trans m Wi _ b); auto. }
    apply (main_covers m m' s e G a b Fa Fa' Ta Ge Gg Da Ea Ab Sa' Sb') with (fs := (u1 ++ w1) ++ (u2 ++ w2)) (ns := [c]).
    + cbn [app]. rewrite <- !app_assoc. cbn [app]. rewrite !app_assoc. apply Permutation_middle with (l1 := u1) (l2 := w1 ++ u2 ++ w2) (a := c) || (rewrite <- !app_assoc; apply Permutation_middle).
    + intros x X. apply in_app_or in X. destruct X as [X|X].
      * destruct (Far1 x X) as (Fx & Bx). split; auto. split; [apply A4; apply in_app_or in X; apply in_or_app; cbn; tauto|]. exists s. auto.
      * destruct (Far2 x X) as (Fx & Bx). split; auto. split; [apply B4; apply in_app_or in X; apply in_or_app; cbn; tauto|]. exists ml. auto.
    + intros x q Fx Bx Rq. destruct (Rx q Rq) as [-> | ->].
      * destruct (A2 x Bx) as (y & Y & Cy). exists y. split; auto. apply in_or_app. left. apply in_app_or in Y. apply in_or_app. destruct Y as [Y|[<-|Y]]; auto.
        exfalso. apply (proj1 (proj2 Fx)). apply (contour_trans m Wi _ a1); auto. apply (contour_sym m Wi), C1.
      * destruct (B2 x Bx) as (y & Y & Cy). exists y. split; auto. apply in_or_app. right. apply in_app_or in Y. apply in_or_app. destruct Y as [Y|[<-|Y]]; auto.
        exfalso. apply (proj2 (proj2 Fx)). apply (contour_trans m Wi _ a2); auto. apply (contour_sym m Wi), C2.
    + apply apart_app. split; [exact A3|]. split; [exact B3|]. intros x y X Y Q. apply Nsm. apply (border_unique (cim m) s ml y); [|apply Far2, Y]. apply (border_contour m Fa s x); auto. apply Far1, X.
    + intros x [<-|[]]. exact R1.
    + intros x [<-|[]]. exact R2.
    + intros x X. exists c. split; [left; reflexivity|apply R3, X].
    + cbn [apart]. split; [intros y []|exact I].
Qed.
