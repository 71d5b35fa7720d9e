(** C77: the constructors of the pixel based map put the contours in order. *)
From Coq Require Import Bool Lia.
From Verif Require Import Base CellMap_Model CellMap_Spec CellMap_Init CellMap_Main CellMap_InitProofs CellSigma_Spec CellSigma_Proofs CellSigma_Results CellLink_Spec CellLink_Proofs CellLink_Main CellLink_Results CellLink_Check
  CellFace_Spec CellFace_Walk CellStart_Spec CellStart_Walk CellStart_Ends CellStart_Results CellContour_Orbit CellContour_Spec CellContour_Phi CellContour_Find CellContour_View CellThresh_Spec
  CellTotal_Anchor CellTotal_Init CellJordan_Spec CellJordan_Parity CellJordan_Owner CellJordan_Class CellJordan_Border.
Local Open Scope Z_scope.

(** ** Borders of one face that hang together *)
Section Geometry.
Variable m : cmap.
Let im := cim m.
Hypothesis Fa : faced m.
Hypothesis Sl : slim im.
Hypothesis Sm : smooth im.
Hypothesis Dr : drawn im.
Hypothesis Wh : whole im.
Let Wi : wired m. Proof. apply Fa. Qed.
Let Fr : framed im. Proof. apply Wi. Qed.

Lemma on_kind l a : onBorder im l a -> isDart im a \/ lonely im a.
Proof. intros [(D & _)|(L & _)]; auto. Qed.
Lemma pixel_contour x y : isContour m x y = true <-> CellTotal_Spec.contour im x y.
Proof.
  unfold isContour, CellTotal_Spec.contour. fold im. rewrite !andb_true_iff, !Z.leb_le, !Z.ltb_lt, negb_true_iff, CellSigma_Proofs.ctypeEqb_ne. tauto.
Qed.
Lemma region_side x y j l : side m x y j -> plabel (ipix im (x + dirX j) (y + dirY j)) = l -> owns im Region l (x + dirX j) (y + dirY j).
Proof.
  intros (J & C & N) E. apply (CellJordan_Class.contour_inner m Fa) in C. fold im in C. unfold nb in N. fold im in N. rewrite Z.mod_small in N by (cbn in J; lia). pose proof (dirX_bound j). pose proof (dirY_bound j).
  split; [lia|]. split; [lia|]. destruct (ipix im (x + dirX j) (y + dirY j)). cbn in *. congruence.
Qed.
Lemma dart_target a : isDart im a -> CellTotal_Spec.contour im (dcx a + dirX (ddir a)) (dcy a + dirY (ddir a)).
Proof.
  intros D. pose proof D as (V & K & T & _). unfold typeAt in T. rewrite Z.add_0_r, Z.mod_small in T by exact K. pose proof (vertex_inner im Fr _ _ V). pose proof (dirX_bound (ddir a)). pose proof (dirY_bound (ddir a)).
  split; [lia|]. split; [lia|]. rewrite T. discriminate.
Qed.
Lemma on_place l a : onBorder im l a -> isPlace im a.
Proof. intros [(D & _)|(L & _)]; [apply dart_place, D|apply L]. Qed.
Theorem one_contour l a b : onBorder im l a -> onBorder im l b -> reach ways8 (CellTotal_Spec.contour im) (dcx a) (dcy a) (dcx b) (dcy b) -> contour m a b.
Proof.
  intros Ba Bb Re. destruct (jordan m Fa Sl Sm Dr a (on_kind l a Ba)) as (w & J1 & J2 & J3). fold im in J1.
  assert (T1 : forall k x y u v, owns im Region k x y -> owns im Region k u v -> w x y = w u v).
  { intros k x0 y0 u v O1 O2. pose proof (Wh k x0 y0 u v O1 O2) as Q. assert (G : regionAt im u v /\ w x0 y0 = w u v); [|apply G]. clear O1 O2. induction Q as [R|u v j Q (R & IH) Hj R']; [auto|]. split; [exact R'|].
    rewrite IH. symmetry. destruct R as (RX & RY & RT), R' as (RX' & RY' & RT'). apply J1; auto. }
  assert (T2 : forall x y u v, reach ways8 (CellTotal_Spec.contour im) x y u v -> CellTotal_Spec.contour im u v /\ w x y = w u v).
  { intros x0 y0 u v Q. induction Q as [R|u v j Q (R & IH) Hj R']; [auto|]. split; [exact R'|]. rewrite IH. symmetry. apply J2; [cbn in Hj; lia|apply pixel_contour, R|apply pixel_contour, R']. }
  assert (Px : forall c p q, isPlace im c -> pixelOf m c p q -> w p q = w (dcx c) (dcy c)).
  { intros c p q P [(-> & ->)|(D & -> & ->)]; [reflexivity|]. apply J2; [apply D|apply pixel_contour, (place_contour im c P)|apply pixel_contour, dart_target, D]. }
  destruct (border_side m Fa Sl Sm l a Ba) as (p & q & j & Sd & Ow & Lb & Pp). destruct (border_side m Fa Sl Sm l b Bb) as (p' & q' & j' & Sd' & Ow' & Lb' & Pp'). fold im in Lb, Lb'.
  assert (D : w (p + dirX j) (q + dirY j) <> w p q) by (apply (J3 p q j Sd), (class_owner m Fa Sl Sm a a p q j Ow), (contour_refl m Wi), (on_kind l a Ba)).
  apply (class_owner m Fa Sl Sm a b p' q' j' Ow'), (J3 p' q' j' Sd'). rewrite (T1 l _ _ (p + dirX j) (q + dirY j)) by (apply region_side; assumption).
  rewrite (Px b p' q' (on_place l b Bb) Pp'), <- (proj2 (T2 _ _ _ _ Re)), <- (Px a p q (on_place l a Ba) Pp). exact D.
Qed.
(** a line with one face on both sides is passed twice on one contour *)
Theorem bridge_contour d b : isDart im d -> nextAlpha m d = Ok b -> sideOf im 1 d = sideOf im (-1) d -> exists k, phis m k d = Ok b.
Proof.
  intros D A E. assert (D' : isDart (cim m) d) by exact D. destruct (alpha_opposite m d (dh_start m Wi) D') as (b' & A' & Db & _ & _ & L). assert (b' = b) by congruence. subst b'. fold im in Db.
  destruct (line_ends im Fr Sl Sm (proj1 (proj2 Fa)) d D) as (n & Ln & _). destruct (alpha_far m Fa Sl Sm Dr d n D Ln) as (Af & Df).
  assert (b = far im n d) as ->.
  { pose proof (two_ends im Fr Sl Sm d n Dr D Ln) as (Nq & T). assert (Ef : dartOfEdge im (edgeOf im d) (far im n d)) by (apply T; auto). destruct Ef as (_ & Ef).
    assert (Q : edgeLabel (cim m) (far im n d) = edgeLabel (cim m) d) by (fold im; rewrite !(edgeLabel_dart im Fr) by (apply Df || apply D); rewrite Ef; reflexivity).
    apply L in Q; [|exact Df]. destruct Q as [Q|Q]; [exfalso; apply Nq; symmetry; exact Q|symmetry; exact Q]. }
  assert (Fi : filled im) by apply Fa. assert (Ai : airy im) by apply Fa. destruct (line_facing im Fr Sl Sm Fi Ai d n D Ln) as (F1 & F2).
  assert (B1 : onBorder im (sideOf im 1 d) d) by (left; auto). assert (B2 : onBorder im (sideOf im 1 d) (far im n d)) by (left; split; [exact Df|congruence]).
  apply (phis_orb m Wi d (far im n d) D'). apply (contour_dart m Wi d (far im n d) D'). apply (one_contour (sideOf im 1 d)); auto.
  (* along the line *)
  pose proof Ln as (N & Rn & V).
  assert (G : forall i, (i < n)%nat -> reach ways8 (CellTotal_Spec.contour im) (dcx d) (dcy d) (tx (forths im i d)) (ty (forths im i d)) /\ 0 <= ddir (forths im i d) < 8).
  { induction i as [|i IH]; intros I.
    - split; [|apply D]. cbn [forths]. unfold tx, ty. apply re_step; [apply re_here, (place_contour im d), dart_place, D|cbn; destruct D as (_ & K & _); lia|apply dart_target, D].
    - destruct (IH ltac:(lia)) as (Re & K). assert (H : half im (forths im (Datatypes.S i) d)) by (apply Rn; lia). assert (H0 : half im (forths im i d)) by (apply Rn; lia).
      destruct (forth_spec im Fr Sl Sm (forths im i d) H0) as (k & Ek & Kk & _). pose proof H as (Lk & La & _).
      assert (Es : forths im (Datatypes.S i) d = Dart (tx (forths im i d)) (ty (forths im i d)) k) by exact Ek. rewrite Es in *. split; [|exact Kk]. unfold tx at 2, ty at 2. cbn [dcx dcy ddir].
      apply re_step; [exact Re|cbn; lia|]. exact (line_contour im _ _ La). }
  destruct (G (n - 1)%nat ltac:(lia)) as (Re & _).
  assert (H0 : half im (forths im (n - 1) d)) by (apply Rn; lia). destruct (forth_spec im Fr Sl Sm (forths im (n - 1) d) H0) as (k & Ek & Kk & _).
  assert (Es : forths im n d = Dart (tx (forths im (n - 1) d)) (ty (forths im (n - 1) d)) k) by (replace n with (Datatypes.S (n - 1)) at 1 by lia; exact Ek).
  assert (Ev : dcx (far im n d) = tx (forths im (n - 1) d) + dirX k /\ dcy (far im n d) = ty (forths im (n - 1) d) + dirY k) by (unfold far; rewrite Es; split; reflexivity).
  destruct Ev as (-> & ->). apply re_step; [exact Re|cbn; lia|].
  assert (Pf : CellTotal_Spec.contour im (dcx (far im n d)) (dcy (far im n d))) by (apply place_contour, dart_place, Df). unfold far in Pf. rewrite Es in Pf. exact Pf.
Qed.
End Geometry.

Section Fresh.
Variables (crack : img -> Z -> Z -> Z) (outer : img -> Z -> Z -> list Z) (comps : img -> (Z -> Z -> Z) * nat) (im : img).
Hypothesis Wf : wfImg im.
Hypothesis Fr : framed im.
Hypothesis Cl : clean im.
Hypothesis Ra : CellTotal_Spec.rightAreas crack im.
Hypothesis Ep : exactParts comps im.
Hypothesis Ru : CellTotal_Spec.ruled im.
Hypothesis Wh : whole im.
Variable m : cmap.
Hypothesis Em : import crack outer comps im = Ok m.
Let Rp : CellTotal_Spec.rightParts comps im. Proof. apply Ep. Qed.
Let Sl : slim im. Proof. apply Cl. Qed.
Let Sm : smooth im. Proof. apply Cl. Qed.
Let Dr : drawn im. Proof. apply Cl. Qed.
Let Jo : joined im. Proof. apply Cl. Qed.
Let pixelComp := compOf comps im.

Lemma fresh : cim m = im /\ exists fl, passed comps im fl (innerPoints im) /\ facesSeen im m (innerPoints im) /\ anch comps im m fl.
Proof.
  destruct (import_total crack outer comps im Wf Fr Cl Ra Rp Ru) as (m' & fl & E & C & P). rewrite Em in E. injection E as <-. split; [exact C|]. exists fl. exact P.
Qed.
Lemma fresh_built : built m.
Proof. exists crack, outer, comps, im. pose proof (proj1 fresh). auto. Qed.
Let Fa : faced m. Proof. exact (built_faced m fresh_built). Qed.
Let Wi : wired m. Proof. apply Fa. Qed.
Let Ci : cim m = im. Proof. apply fresh. Qed.

(** a contour lies on one connected set of pixels *)
Lemma phi_comp a : isDart im a -> isDart im (phi m a) /\ pixelComp (phi m a) = pixelComp a.
Proof.
  intros D. assert (D' : isDart (cim m) a) by (rewrite Ci; exact D). pose proof (phi_closed m Wi a D') as Dp. rewrite Ci in Dp. split; [exact Dp|].
  destruct (alpha_opposite m a (dh_start m Wi) D') as (b & A & Db & _ & _ & L). pose proof (phi_next m Wi a b D' A) as N. rewrite Ci in *. unfold pixelComp. rewrite (node_comp comps im Fr Cl Rp (phi m a) b).
  - assert (E : edgeLabel im b = edgeLabel im a) by (apply L; auto). rewrite !(edgeLabel_dart im Fr) in E by (apply D || apply Db). injection E as E.
    destruct (dart_comp comps im Fr Rp a D) as (Ca & <-). apply (edge_comp comps im Fr Cl Rp); [exact Db| |exact E].
    destruct Ca as (X & Y & _). split; [exact X|]. split; [exact Y|]. pose proof D as (_ & K & T & _). unfold typeAt in T. rewrite Z.add_0_r, Z.mod_small in T by exact K. exact T.
  - apply dart_place, Dp.
  - apply dart_place, Db.
  - destruct N as (_ & k & _ & <- & _). apply (places_label im Fr Jo k (-1)); [right; reflexivity|apply dart_place, Db].
Qed.
Lemma contour_comp a x : contour m a x -> pixelComp a = pixelComp x.
Proof.
  intros [(D & O)|(La & Lx & E)].
  - apply (phis_orb m Wi a x D) in O. destruct O as (k & <-). rewrite Ci in D. revert a D. induction k as [|k IH]; intros a D; cbn [it]; [reflexivity|]. destruct (phi_comp a D) as (Dp & <-). apply IH, Dp.
  - rewrite Ci in *. apply (node_comp comps im Fr Cl Rp); [apply La|apply Lx|exact E].
Qed.
Lemma border_unique l l' a : onBorder im l a -> onBorder im l' a -> l = l'.
Proof.
  intros [(D & S)|(L & S)] [(D' & S')|(L' & S')]; [congruence| | |congruence]; exfalso.
  - exact (proj2 L' a D eq_refl).
  - exact (proj2 L a D' eq_refl).
Qed.
Lemma border_kind l a : onBorder im l a -> isDart im a \/ lonely im a.
Proof. intros [(D & _)|(L & _)]; auto. Qed.
Lemma contour_pixel x y : isContour m x y = true <-> CellTotal_Spec.contour im x y.
Proof.
  unfold isContour, CellTotal_Spec.contour. rewrite Ci. rewrite !andb_true_iff, !Z.leb_le, !Z.ltb_lt, negb_true_iff, CellSigma_Proofs.ctypeEqb_ne. tauto.
Qed.
Lemma side_owns x y j l : side m x y j -> plabel (ipix im (x + dirX j) (y + dirY j)) = l -> owns im Region l (x + dirX j) (y + dirY j).
Proof.
  intros (J & C & N) E. apply (CellJordan_Class.contour_inner m Fa) in C. rewrite Ci in C. unfold nb in N. rewrite Ci, Z.mod_small in N by (cbn in J; lia). pose proof (dirX_bound j). pose proof (dirY_bound j).
  split; [lia|]. split; [lia|]. destruct (ipix im (x + dirX j) (y + dirY j)). cbn in *. congruence.
Qed.

(** there are no two parts of the image that only a contour without anchor separates *)
Lemma anchored l f x : isFace m l f -> onBorder im (Z.of_nat l) x -> ~ (forall a, In a (fcontours f) -> ~ contour m a x).
Proof.
  intros (Hf & If) Bx No. destruct fresh as (_ & fl & Pa & Se & An). destruct An as (A1 & A2).
  assert (Kx : isDart (cim m) x \/ lonely (cim m) x) by (rewrite Ci; exact (border_kind _ _ Bx)).
  pose proof Sl as Sl'. pose proof Sm as Sm'. pose proof Dr as Dr'. rewrite <- Ci in Sl', Sm', Dr'.
  destruct (jordan m Fa Sl' Sm' Dr' x Kx) as (w & J1 & J2 & J3). rewrite Ci in J1.
  assert (T1 : forall k x y u v, owns im Region k x y -> owns im Region k u v -> w x y = w u v).
  { intros k x0 y0 u v O1 O2. pose proof (Wh k x0 y0 u v O1 O2) as Q. assert (G : regionAt im u v /\ w x0 y0 = w u v); [|apply G]. clear O1 O2. induction Q as [R|u v j Q (R & IH) Hj R']; [auto|]. split; [exact R'|].
    rewrite IH. symmetry. destruct R as (RX & RY & RT), R' as (RX' & RY' & RT'). apply J1; auto. }
  assert (T2 : forall x y u v, CellTotal_Spec.contour im x y -> CellTotal_Spec.contour im u v -> fst (comps im) x y = fst (comps im) u v -> w x y = w u v).
  { intros x0 y0 u v O1 O2 E. pose proof (proj2 Ep x0 y0 u v O1 O2 E) as Q. assert (G : CellTotal_Spec.contour im u v /\ w x0 y0 = w u v); [|apply G]. clear O1 O2 E. induction Q as [R|u v j Q (R & IH) Hj R']; [auto|]. split; [exact R'|].
    rewrite IH. symmetry. apply J2; [cbn in Hj; lia|apply contour_pixel, R|apply contour_pixel, R']. }
  (* the pixel a place has its side at has the colour of its own pixel *)
  assert (Px : forall a p q, pixelOf m a p q -> CellTotal_Spec.contour im (dcx a) (dcy a) -> CellTotal_Spec.contour im p q -> fst (comps im) p q = pixelComp a).
  { intros a p q [(-> & ->)|(D & -> & ->)] _ _; [reflexivity|]. rewrite Ci in D. apply (dart_comp comps im Fr Rp a D). }
  assert (Bp : forall k a, onBorder im k a -> isPlace im a) by (intros k a [(D & _)|(L & _)]; [apply dart_place, D|apply L]).
  assert (Td : told comps im w m).
  { split; [exact T1|]. split; [exact T2|]. intros k cs a u v Hk Ia Ou. destruct (A1 k cs Hk) as (_ & Q). destruct (Q a Ia) as (_ & (Ba & _) & Pc & _).
    assert (Ba' : onBorder (cim m) (Z.of_nat k) a) by (rewrite Ci; exact Ba). destruct (border_side m Fa Sl' Sm' _ a Ba') as (p & q & j & Sd & Ow & Lb & Pp). rewrite Ci in Lb.
    pose proof (side_owns p q j _ Sd Lb) as Op. rewrite (T1 _ _ _ _ _ Ou Op). assert (Cp : CellTotal_Spec.contour im p q) by (apply contour_pixel, Sd). pose proof (place_contour im a Pc) as Ca.
    rewrite <- (T2 p q (dcx a) (dcy a) Cp Ca (Px a p q Pp Ca Cp)).
    assert (NC : ~ inClass m x p q j).
    { rewrite (class_owner m Fa Sl' Sm' x a p q j Ow). intros C. assert (onBorder (cim m) (Z.of_nat l) x) as Bx' by (rewrite Ci; exact Bx). pose proof (border_contour m Fa _ x a Bx' C) as Ba2. rewrite Ci in Ba2.
      pose proof (border_unique _ _ a Ba Ba2) as E. assert (k = l) as -> by lia. unfold anchors in Hk. rewrite nth_error_map, Hf in Hk. injection Hk as <-. apply (No a Ia). apply (contour_sym m Wi), C. }
    destruct (bool_dec (w (p + dirX j) (q + dirY j)) (w p q)) as [E|E]; [exact E|]. exfalso. apply NC, (J3 p q j Sd), E. }
  destruct (A2 w Td) as (B1 & B2).
  assert (Bx' : onBorder (cim m) (Z.of_nat l) x) by (rewrite Ci; exact Bx). destruct (border_side m Fa Sl' Sm' _ x Bx') as (p & q & j & Sd & Ow & Lb & Pp). rewrite Ci in Lb.
  assert (Cp : CellTotal_Spec.contour im p q) by (apply contour_pixel, Sd). pose proof (side_owns p q j _ Sd Lb) as Op.
  assert (w (p + dirX j) (q + dirY j) <> w p q) as D by (apply (J3 p q j Sd), (class_owner m Fa Sl' Sm' x x p q j Ow), (contour_refl m Wi), Kx). apply D.
  rewrite (B1 (Z.of_nat l) _ _ ltac:(lia)); [|exists (finf f); split; [rewrite Nat2Z.id; cbn [cellsOf]; apply map_nth_error, Hf|exact If]|exact Op].
  symmetry. apply B2; [exact Cp|]. apply Pa; [exact Cp|]. pose proof (CellTotal_Init.contour_inner im Fr p q Cp) as [QX QY]. destruct (Z.eq_dec q 1) as [->|]; [auto|right]. apply rectPoints_in. unfold inRect. cbn. lia.
Qed.

Lemma find_anchor (cs : list dart) x : isDart im x \/ lonely im x -> (forall a, In a cs -> isDart im a \/ lonely im a) -> (exists a, In a cs /\ contour m a x) \/ (forall a, In a cs -> ~ contour m a x).
Proof.
  intros X. induction cs as [|a cs IH]; intros H; [right; intros a []|]. destruct (contour_or m Wi a x) as [C|C]; [rewrite Ci; apply H; left; reflexivity|rewrite Ci; exact X|left; exists a; split; [left; reflexivity|exact C]|].
  destruct IH as [(b & Ib & Cb)|N]; [intros b Ib; apply H; right; exact Ib|left; exists b; split; [right; exact Ib|exact Cb]|]. right. intros b [<-|Ib]; [exact C|apply N, Ib].
Qed.
Theorem import_contoured : contoured m.
Proof.
  split; [exact Fa|]. intros l f If. pose proof If as (Hf & _). destruct fresh as (_ & fl & _ & _ & A1 & _). assert (Hc : nth_error (anchors m) l = Some (fcontours f)) by (unfold anchors; apply map_nth_error, Hf).
  destruct (A1 l _ Hc) as (Nd & Q). unfold CellContour_Spec.covers. rewrite Ci. split; [intros a Ia; apply (Q a Ia)|]. intros x Bx.
  destruct (find_anchor (fcontours f) x (border_kind _ _ Bx)) as [(a & Ia & Ca)|N].
  - intros a Ia. destruct (Q a Ia) as (_ & (Ba & _) & _). exact (border_kind _ _ Ba).
  - apply In_nth_error in Ia. destruct Ia as (i & Hi). exists i, a. split; [exact Hi|]. split; [exact Ca|]. intros j b Hj Cb.
    assert (E : pixelComp b = pixelComp a) by (rewrite (contour_comp a x Ca); apply contour_comp, Cb).
    rewrite NoDup_nth_error in Nd. apply Nd; [rewrite map_length; apply nth_error_Some; congruence|]. rewrite !nth_error_map, Hi, Hj. cbn. f_equal. exact E.
  - exfalso. exact (anchored l f x If Bx N).
Qed.
Theorem contour_reach l a b : onBorder im l a -> onBorder im l b -> contour m a b <-> reach ways8 (CellTotal_Spec.contour im) (dcx a) (dcy a) (dcx b) (dcy b).
Proof.
  intros Oa Ob. assert (P : forall l x, onBorder im l x -> CellTotal_Spec.contour im (dcx x) (dcy x)).
  { intros l' x Ox. assert (Px : isPlace im x) by (destruct (border_kind l' x Ox) as [D|L]; [exact (dart_place im x D)|apply L]). destruct Px as ((X & Y & T) & _). split; [exact X|]. split; [exact Y|]. rewrite T. discriminate. }
  split.
  - intros H. apply (proj2 Ep); [exact (P l a Oa)|exact (P l b Ob)|]. exact (contour_comp a b H).
  - intros H. rewrite <- Ci in Oa, Ob, H. revert H. apply (one_contour m Fa) with (l := l); rewrite ?Ci; auto; rewrite <- Ci; auto.
Qed.
End Fresh.
