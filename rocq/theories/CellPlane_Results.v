(** C78: the map in the plane, after any calls. *)
From Coq Require Import Lia.
From Verif Require Import Base CellMap_Model CellMap_Spec CellMap_Init CellMap_Main CellMap_Check CellSigma_Spec CellSigma_Proofs CellSigma_Results CellLink_Spec CellLink_Proofs CellLink_Main CellLink_Results CellLink_Check
  CellFace_Spec CellFace_Walk CellFace_Main CellFace_Step CellStart_Spec CellStart_Results CellContour_Orbit CellContour_Spec CellContour_Phi CellContour_Step CellContour_Results CellCall_Results
  CellThresh_Model CellThresh_Spec CellThresh_Loops CellThresh_Results CellTotal_Init CellTotal_Results CellJordan_Spec CellJordan_Image CellJordan_Results CellPlane_Spec CellPlane_Class CellPlane_Start CellPlane_Cut CellPlane_Leave CellPlane_Join CellMap_Scan CellTotal_Spec.
Local Open Scope Z_scope.

Lemma planar_step m c m' s : planar m -> faceAllowed (cim m) c -> cexec m c = Ok (m', s) -> planar m'.
Proof.
  intros Pm A E. assert (Fa : faced m) by apply Pm. pose proof (faced_step m c m' s Fa A E) as Fa'. pose proof (faced_allows m c Fa A) as Al. assert (Wi : wired m) by apply Fa.
  assert (So : sound m) by apply Wi. assert (Fr : framed (cim m)) by apply So. destruct (cexec_sound m c m' s So (proj1 Al) E) as (_ & Ef). destruct c as [d|d|d|d]; cbn [faceAllowed] in A.
  - cbn [callEffect] in Ef. destruct Ef as (n & En & Es & Ta). rewrite nodeLabel_dart in En by apply A. rewrite leftFace_is in Es by (auto; apply A). injection En as En. injection Es as Es.
    apply (alone_planar m m' s n d); auto.
  - cbn [callEffect] in Ef. destruct Ef as (e & f & l & r & Ee & El & Er & Sf & Ta). rewrite edgeLabel_dart in Ee by (auto; apply A). injection Ee as Ee.
    rewrite leftFace_is in El by (auto; apply A). rewrite rightFace_is in Er by (auto; apply A). injection El as El. injection Er as Er. destruct (alpha_ends m d Wi A) as (i & a & b & _ & _ & _ & _ & T & <- & Ab & _).
    destruct (faced_edge m d b Fa A Ab) as (_ & Bo). rewrite Ee in Bo. apply (cut_planar m m' s e [(Line, e); (Region, f)] Fa Fa' Ta) with (d := d); auto; [left; reflexivity| |].
    + intros u k [X|[X|[]]]; injection X as <- <-; auto.
    + rewrite El, Er. intros k [->|[X|[X|[]]]]; [|discriminate X|injection X as <-]; destruct Sf as [(-> & ->)|(-> & ->)]; auto.
  - cbn [callEffect] in Ef. destruct Ef as (e & Ee & El & Er & Ta). rewrite edgeLabel_dart in Ee by (auto; apply A). injection Ee as Ee.
    rewrite leftFace_is in El by (auto; apply A). rewrite rightFace_is in Er by (auto; apply A). injection El as El. injection Er as Er. destruct (alpha_ends m d Wi A) as (i & a & b & _ & _ & _ & _ & T & <- & Ab & _).
    destruct (faced_edge m d b Fa A Ab) as (_ & Bo). rewrite Ee in Bo. apply (cut_planar m m' s e [(Line, e)] Fa Fa' Ta) with (d := d); auto; [left; reflexivity| |].
    + intros u k [X|[]]; injection X as <- <-; auto.
    + rewrite El, Er. intros k [->|[X|[]]]; [|discriminate X]; auto.
  - destruct (join_facts m d m' s Wi A E Ef) as (n & ml & d2 & d3 & a1 & a2 & Ta & Ci & Ee & Hh & D2 & D3 & N23 & N32 & N2 & N3 & L2 & L3 & Df & A1 & A2 & On & _).
    apply (join_planar m m' s n ml d2 d3 a1 a2 Fa Fa' Ta); assumption.
Qed.
Lemma start_planar crack outer comps im m : wfImg im -> framed im -> clean im -> rightAreas crack im -> exactParts comps im -> ruled im -> whole im -> import crack outer comps im = Ok m -> planar m /\ contoured m.
Proof.
  intros A B C D E F G H. destruct (fresh crack outer comps im A B C D E F m H) as (Ci & _). assert (Fa : faced m) by exact (built_faced m (fresh_built crack outer comps im A B C D E F m H)).
  assert (Sl : slim (cim m)) by (rewrite Ci; apply C). assert (Sm : smooth (cim m)) by (rewrite Ci; apply C). assert (Dr : drawn (cim m)) by (rewrite Ci; apply C).
  split; [|exact (import_contoured crack outer comps im A B C D E F G m H)]. split; [exact Fa|]. split; [rewrite Ci; exact G|]. split; [apply start_strung; assumption|]. split; [apply start_opened; assumption|].
  eexists. apply start_tracked; assumption.
Qed.
Theorem phistory_planar m : phistory m -> planar m.
Proof. induction 1 as [crack outer comps im m A B C D E F G H|m c m' s H IH A E]; [exact (proj1 (start_planar crack outer comps im m A B C D E F G H))|exact (planar_step m c m' s IH A E)]. Qed.
(** both darts of an edge with one face on both sides lie on one contour *)
Lemma planar_bridge m d : planar m -> isDart (cim m) d -> leftFaceLabel (cim m) d = rightFaceLabel (cim m) d -> exists k b, nextAlpha m d = Ok b /\ phis m k d = Ok b.
Proof.
  intros (Fa & Wh & Sg & _ & L & Tr) D Q. assert (Wi : wired m) by apply Fa. assert (Fr : framed (cim m)) by apply Wi. assert (Ne : neat (cim m)) by apply Wi.
  rewrite leftFace_is, rightFace_is in Q by (auto; apply D). injection Q as Q. destruct (alpha_opposite m d (dh_start m Wi) D) as (b & A & _). destruct (bridge_contour m Fa L Tr Wh Sg d b D A Q) as (k & K). exists k, b. auto.
Qed.
Lemma planar_allowed m c : planar m -> faceAllowed (cim m) c -> (exists r, cexec m c = Ok r) -> contourAllowed m c.
Proof.
  intros Pm A ((m' & s) & E). split; [exact A|]. destruct c as [d|d|d|d]; auto. assert (Fa : faced m) by apply Pm. pose proof (faced_allows m _ Fa A) as Al. assert (So : sound m) by apply Fa.
  destruct (cexec_sound m _ m' s So (proj1 Al) E) as (_ & Ef). cbn [callEffect] in Ef. destruct Ef as (e & _ & El & Er & _). apply planar_bridge; [exact Pm|exact A|congruence].
Qed.
Theorem phistory_khistory m : phistory m -> khistory m.
Proof.
  induction 1 as [crack outer comps im m A B C D E F G H|m c m' s H IH A E]; [apply kh_start; exact (proj2 (start_planar crack outer comps im m A B C D E F G H))|].
  apply (kh_call m c m' s IH); [|exact E]. apply planar_allowed; [exact (phistory_planar m H)|exact A|eauto].
Qed.
Theorem phistory_bridge m d : phistory m -> isDart (cim m) d -> leftFaceLabel (cim m) d = rightFaceLabel (cim m) d -> exists k b, nextAlpha m d = Ok b /\ phis m k d = Ok b.
Proof. intros H. exact (planar_bridge m d (phistory_planar m H)). Qed.
Theorem phistory_runs cs : forall m, phistory m -> dartCalls m cs -> exists m', runCalls m cs = Ok m' /\ phistory m'.
Proof.
  induction cs as [|c t IH]; intros m H A; cbn [runCalls dartCalls] in *; [eauto|]. destruct A as (A & B). destruct (calls_return m (phistory_khistory m H) c A) as [(m' & s & E)|E]; rewrite E in *; [|apply IH; assumption].
  cbn [fst] in *. apply IH; [exact (ph_call m c m' s H A E)|exact B].
Qed.

(** ** Contours and pixels *)
Section Plane.
Variable m : cmap.
Hypothesis Pm : planar m.
Let im := cim m.
Let Fa : faced m. Proof. apply Pm. Qed.
Let Wi : wired m. Proof. apply Fa. Qed.
Let Fr : framed im. Proof. apply Wi. Qed.
Let Jo : joined im. Proof. apply Wi. Qed.
Let Ri : ringed im. Proof. apply Wi. Qed.
Let walk (a b : dart) : Prop := reach ways8 (CellTotal_Spec.contour im) (dcx a) (dcy a) (dcx b) (dcy b).
Let drawnPix t l x y : t <> Region -> owns im t l x y -> CellTotal_Spec.contour im x y.
Proof. intros N (X & Y & E). split; [exact X|]. split; [exact Y|]. rewrite E. exact N. Qed.
Lemma node_path a b : isPlace im a -> isPlace im b -> nodeOf im a = nodeOf im b -> walk a b.
Proof.
  intros Pa Pb E. destruct (Ri a b Pa Pb E) as (k & <-). assert (O : owns im Vertex (nodeOf im a) (dcx a) (dcy a)) by apply vertex_owns, Pa.
  apply (reach_mono _ (owns im Vertex (nodeOf im a))); [intros x y; apply drawnPix; discriminate|]. apply places_walk; auto.
Qed.
Lemma edge_path a b : isDart im a -> isDart im b -> edgeOf im a = edgeOf im b -> walk a b.
Proof.
  intros Da Db E. destruct Pm as (_ & _ & Sg & _). pose proof (dart_owns im Fr a Da) as Oa. pose proof (dart_owns im Fr b Db) as Ob. rewrite <- E in Ob. pose proof (Sg _ _ _ _ _ Oa Ob) as R.
  assert (Step : forall c, isDart im c -> reach ways8 (CellTotal_Spec.contour im) (dcx c) (dcy c) (dcx c + dirX (ddir c)) (dcy c + dirY (ddir c))).
  { intros c Dc. pose proof Dc as (V & K & _). apply walk_one; [cbn; lia|apply (drawnPix Vertex (nodeOf im c)); [discriminate|apply vertex_owns, V]|apply (drawnPix Line (edgeOf im c)); [discriminate|apply dart_owns; assumption]]. }
  unfold walk. apply (walk_trans _ _ _ _ _ _ _ _ (Step a Da)). apply (walk_trans _ _ _ _ (dcx b + dirX (ddir b)) (dcy b + dirY (ddir b))); [|apply walk_back; [exact two8|apply Step, Db]].
  apply (reach_mono _ (owns im Line (edgeOf im a))); [intros x y; apply drawnPix; discriminate|exact R].
Qed.
Lemma phi_path a : isDart im a -> isDart im (phi m a) /\ walk a (phi m a).
Proof.
  intros Da. pose proof (phi_closed m Wi a Da) as Dp. fold im in Dp. split; [exact Dp|]. destruct (alpha_opposite m a (dh_start m Wi) Da) as (b & A & _). destruct (alpha_darts m a b Wi Da A) as (Db & _ & _ & E & _). fold im in Db, E.
  pose proof (phi_next m Wi a b Da A) as (_ & k & _ & Ek & _). fold im in Ek. unfold walk. apply (walk_trans _ _ _ _ (dcx b) (dcy b)); [apply edge_path; auto|]. apply node_path; [apply dart_place, Db|apply dart_place, Dp|].
  rewrite <- Ek. symmetry. apply (places_label im Fr Jo k (-1)); [right; reflexivity|apply dart_place, Db].
Qed.
Lemma contour_path a b : CellContour_Spec.contour m a b -> walk a b.
Proof.
  intros [(D & O)|(La & Lb & E)]; [|apply node_path; [apply La|apply Lb|exact E]]. apply (phis_orb m Wi a b D) in O. destruct O as (k & <-). fold im in D. revert a D. induction k as [|k IH]; intros a D; cbn [it].
  - apply re_here. destruct D as (V & _). apply (drawnPix Vertex (nodeOf im a)); [discriminate|apply vertex_owns, V].
  - destruct (phi_path a D) as (Dp & R). unfold walk. apply (walk_trans _ _ _ _ _ _ _ _ R), IH, Dp.
Qed.
Theorem plane_contours l a b : onBorder im l a -> onBorder im l b -> CellContour_Spec.contour m a b <-> walk a b.
Proof.
  intros Ba Bb. split; [apply contour_path|]. intros R. destruct Pm as (_ & Wh & Sg & _ & L & Tr). exact (one_contour m Fa L Tr Wh l a b Ba Bb R).
Qed.
End Plane.
Theorem phistory_contours m l a b : phistory m -> onBorder (cim m) l a -> onBorder (cim m) l b -> CellContour_Spec.contour m a b <-> reach ways8 (CellTotal_Spec.contour (cim m)) (dcx a) (dcy a) (dcx b) (dcy b).
Proof. intros H. exact (plane_contours m (phistory_planar m H) l a b). Qed.

(** ** From an image *)
Theorem threshold_phistory crack outer comps cv w h boundary im0 m : small w h -> initCellImage cv w h boundary = Ok im0 -> neat im0 -> unpierced im0 -> lean im0 ->
  (forall im n e f, cellImageOf cv w h boundary = Ok (im, n, e, f) -> rightAreas crack im /\ exactParts comps im) -> threshold crack outer comps cv w h boundary = Ok m -> phistory m.
Proof.
  intros Sm Ei Ne Un Le Or T. destruct (image_clean cv w h boundary im0 Sm Ei Ne Un Le) as (im & n & e & f & Q & Wf & Fr & C & M1 & M2 & M3). destruct (Or _ _ _ _ Q) as [Ra Rp].
  destruct (image_size cv w h boundary im0 Sm Ei Ne Un Le im n e f Q) as [W H].
  apply (ph_start crack outer comps im m Wf Fr C Ra Rp (image_ruled cv w h boundary im0 Sm Ei Ne Un Le im n e f Q W H) (image_whole crack outer comps cv w h boundary im0 Sm Ei Ne Un Le im n e f Q)).
  unfold threshold in T. rewrite Q in T. cbn [bind fst snd] in T. rewrite <- M1, <- M2, <- M3 in T. exact T.
Qed.
