(** C71, and the test of the contours in checkConsistency(). *)
From Coq Require Import Lia.
From Verif Require Import Base CellMap_Model CellMap_Spec CellMap_Main CellMap_Check CellSigma_Spec CellSigma_Proofs CellSigma_Results CellLink_Spec CellLink_Proofs CellLink_Main CellLink_Results CellLink_Check
  CellFace_Spec CellFace_Walk CellFace_Main CellFace_Step CellFace_Results CellContour_Orbit CellContour_Spec CellContour_Phi CellContour_Find CellContour_View CellContour_Cut CellContour_Step CellContour_Leave.
Local Open Scope Z_scope.

(** foureightsegmentation.cxx 614-624: do { leftFaceLabel() != it->label fails } while((dart.nextPhi() != *cc) && --maxSteps), which fails when [steps] (maxSteps) reaches 0 *)
Fixpoint contourLoop (steps : nat) (m : cmap) (cc d : dart) (l : Z) : res bool :=
  match steps with
  | O => Ok false
  | Datatypes.S k =>
      f <- leftFaceLabel (cim m) d ;; if negb (f =? l) then Ok false else
      d' <- nextPhi m d ;; q <- dartEq (cim m) d' cc ;; if q : bool then Ok true else contourLoop k m cc d' l
  end.
Definition maxSteps : nat := Z.to_nat 10000.
(** 597-632: one contour of the face with label [l] *)
Definition checkContour (m : cmap) (l : Z) (cc : dart) : res bool :=
  c <- centerPix (cim m) cc ;;
  broken <- (if negb (ctypeEqb (ptype c) Vertex) then Ok true else
             s <- isSingular (cim m) cc ;; if s : bool then nl <- startNodeLabel (cim m) cc ;; n <- at_ (cnodes m) nl ;; Ok (0 <? ndegree n) else Ok false) ;;
  d <- nextSigma (cim m) cc ;; d' <- prevSigma (cim m) d ;; q <- dartEq (cim m) d' cc ;;
  w <- contourLoop maxSteps m cc d' l ;; Ok (negb broken && q && w).
Fixpoint checkContourList (m : cmap) (l : Z) (cs : list dart) : res bool :=
  match cs with [] => Ok true | c :: t => b <- checkContour m l c ;; b' <- checkContourList m l t ;; Ok (b && b') end.
(** the loop over the faces, 583, without the bounds, which [checkBounds] tests *)
Definition checkContours (m : cmap) : res bool := checkAll (fun f => initialized (finf f)) (fun f => checkContourList m (clabel (finf f)) (fcontours f)) (cfaces m).
(** checkConsistency(), 493-647: does the postcondition hold? *)
Definition checkConsistency (m : cmap) : res bool :=
  a <- checkBounds m ;; b <- checkDarts m ;; c <- checkContours m ;; Ok (a && b && c).

Lemma khistory_fhistory m : khistory m -> fhistory m.
Proof. induction 1 as [m H|m c m' s H IH A E]; [apply fh_start, H|]. apply (fh_call m c m' s); auto. apply A. Qed.

(** ** The contours of a face *)
Section Of.
Variable (m : cmap).
Hypothesis Hm : khistory m.
Let Ko : contoured m. Proof. apply khistory_contoured, Hm. Qed.
Let Fa : faced m. Proof. apply Ko. Qed.
Let Wi : wired m. Proof. apply Fa. Qed.
Let Fr : framed (cim m). Proof. apply Wi. Qed.

Lemma left_is d l : isDart (cim m) d -> (leftFaceLabel (cim m) d = Ok l <-> sideOf (cim m) 1 d = l).
Proof. intros D. rewrite leftFace_is by (auto; apply D). split; [intros [=]; auto|intros <-; reflexivity]. Qed.
Lemma live_side d : isDart (cim m) d -> 0 <= sideOf (cim m) 1 d /\ exists f, isFace m (Z.to_nat (sideOf (cim m) 1 d)) f.
Proof.
  intros D. destruct (faces_beside m d (khistory_fhistory m Hm) D) as (l & r & c & c' & L & _ & Pl & _ & C & _). apply left_is in L; auto. rewrite L. split; auto.
  destruct C as (C & I). cbn [cellsOf] in C. rewrite nth_error_map in C. destruct (nth_error (cfaces m) (Z.to_nat l)) as [f|] eqn:E; [|discriminate C]. injection C as <-. exists f. split; auto.
Qed.
Lemma phis_lonely k d : lonely (cim m) d -> phis m k d = Ok d.
Proof. intros L. induction k; [reflexivity|]. cbn [phis]. rewrite (phi_lonely m Fa d L). exact IHk. Qed.

Theorem contour_darts d l : isDart (cim m) d -> leftFaceLabel (cim m) d = Ok l ->
  exists f i a, isFace m (Z.to_nat l) f /\ nth_error (fcontours f) i = Some a /\ (exists k, phis m k a = Ok d) /\ (exists k, phis m k d = Ok a) /\
    forall j b k, nth_error (fcontours f) j = Some b -> phis m k b = Ok d -> j = i.
Proof.
  intros D L. apply left_is in L; auto. destruct (live_side d D) as (P & f & F). rewrite L in *. destruct Ko as (_ & C). destruct (C _ f F) as (C1 & C2). rewrite Z2Nat.id in C1, C2 by exact P.
  destruct (C2 d (or_introl (conj D L))) as (i & a & A & Ca & U). exists f, i, a. split; [exact F|]. split; [exact A|].
  assert (Da : isDart (cim m) a). { destruct Ca as [(Da & _)|(_ & Ld & _)]; [exact Da|]. exfalso. apply (lonely_not m d Ld D). }
  split; [|split].
  - destruct Ca as [(_ & K)|(La & _)]; [exact K|]. exfalso. apply (lonely_not m a La Da).
  - apply (contour_sym m Wi) in Ca. destruct Ca as [(_ & K)|(Ld & _)]; [exact K|]. exfalso. apply (lonely_not m d Ld D).
  - intros j b k B K. apply (U j b B). destruct (C1 b (nth_error_In _ _ B)) as ([(Db & _)|(Lb & _)] & _); [left; split; auto; exists k; exact K|].
    rewrite phis_lonely in K by exact Lb. injection K as ->. exfalso. apply (lonely_not m d Lb D).
Qed.

Lemma lonely_face d : lonely (cim m) d -> 0 <= labelAt (cim m) d 0 /\ exists f, isFace m (Z.to_nat (labelAt (cim m) d 0)) f.
Proof.
  intros L. pose proof (lonely_region m Fa d L) as T. assert (So : sound m) by apply Wi.
  unfold typeAt in T. unfold labelAt. pose proof (neighbor_in (cim m) Fr _ _ ((ddir d + 0) mod 8) (proj1 (proj1 L))) as (X & Y).
  set (x := dcx d + _) in *. set (y := dcy d + _) in *. assert (O : ipix (cim m) x y = Pix Region (plabel (ipix (cim m) x y))) by (destruct (ipix (cim m) x y); cbn in *; congruence).
  destruct (pixel_live m x y Region (plabel (ipix (cim m) x y)) So) as (B & c & C & I); [split; [exact X|]; split; [exact Y|exact O]|discriminate|]. split; [lia|].
  cbn [cellsOf] in C. rewrite nth_error_map in C. destruct (nth_error (cfaces m) _) as [f|] eqn:E; [|discriminate C]. injection C as <-. exists f. split; auto.
Qed.
Theorem contour_nodes d l : isPlace (cim m) d -> (forall e, isDart (cim m) e -> nodeOf (cim m) e <> nodeOf (cim m) d) -> labelAt (cim m) d 0 = l ->
  exists f i a, isFace m (Z.to_nat l) f /\ nth_error (fcontours f) i = Some a /\ startNodeLabel (cim m) a = startNodeLabel (cim m) d /\
    forall j b, nth_error (fcontours f) j = Some b -> startNodeLabel (cim m) b = startNodeLabel (cim m) d -> j = i.
Proof.
  intros Pd Nd L. assert (Ld : lonely (cim m) d) by (split; auto). destruct (lonely_face d Ld) as (P & f & F). rewrite L in *. destruct Ko as (_ & C). destruct (C _ f F) as (C1 & C2). rewrite Z2Nat.id in C1, C2 by exact P.
  destruct (C2 d (or_intror (conj Ld L))) as (i & a & A & Ca & U). exists f, i, a. split; [exact F|]. split; [exact A|]. rewrite (nodeLabel_dart (cim m) d) by apply Pd.
  assert (La : lonely (cim m) a /\ nodeOf (cim m) a = nodeOf (cim m) d).
  { destruct Ca as [(Da & k & K)|(La & _ & N)]; auto. exfalso. destruct (face_phi m k a (khistory_fhistory m Hm) Da) as (x & X & Dx & _). rewrite X in K. injection K as ->. apply (lonely_not m d Ld Dx). }
  split; [rewrite nodeLabel_dart by apply La; f_equal; apply La|].
  intros j b B E. apply (U j b B). destruct (C1 b (nth_error_In _ _ B)) as (Ob & _).
  assert (Pb : isPlace (cim m) b) by (destruct Ob as [(Db & _)|(Lb & _)]; [apply dart_place, Db|apply Lb]). rewrite nodeLabel_dart in E by apply Pb. injection E as E.
  destruct Ob as [(Db & _)|(Lb & _)]; [exfalso; apply (Nd b Db E)|]. right. auto.
Qed.

(** what [covers] says of one anchor *)
Theorem contour_anchor l f a : isFace m l f -> In a (fcontours f) ->
  leftFaceLabel (cim m) a = Ok (Z.of_nat l) /\
  ((isDart (cim m) a /\ exists r, (0 < r)%nat /\ phis m r a = Ok a /\ forall k d, phis m k a = Ok d -> isDart (cim m) d /\ leftFaceLabel (cim m) d = Ok (Z.of_nat l)) \/
   (isPlace (cim m) a /\ isSingular (cim m) a = Ok true /\ exists nl n, startNodeLabel (cim m) a = Ok nl /\ isNode m (Z.to_nat nl) n /\ ndegree n = 0)).
Proof.
  intros F I. destruct Ko as (_ & C). destruct (C _ f F) as (C1 & _). destruct (C1 a I) as ([(Da & S)|(La & S)] & B).
  - assert (L : leftFaceLabel (cim m) a = Ok (Z.of_nat l)) by (apply left_is; auto). split; [exact L|]. left. split; [exact Da|].
    destruct (phi_round m Wi a Da) as (r & R & _ & E & _). exists r. split; [exact R|]. split; [rewrite (phis_it m Wi) by exact Da; f_equal; exact E|].
    intros k d K. destruct (face_phi m k a (khistory_fhistory m Hm) Da) as (x & X & Dx & Lx). assert (x = d) by congruence. subst x. split; [exact Dx|]. rewrite Lx. exact L.
  - destruct B as [Da|B]; [exfalso; apply (lonely_not m a La Da)|]. split; [rewrite (lonely_left m Fa a La B), S; reflexivity|]. right. split; [apply La|]. split; [apply (single_lonely m Fa a La)|].
    pose proof (proj1 (proj1 La)) as (X & Y & T). assert (So : sound m) by apply Wi. destruct (pixel_live m _ _ Vertex (nodeOf (cim m) a) So (vertex_owns (cim m) _ _ (proj1 (proj1 La))) ltac:(discriminate)) as (_ & c & Cc & Ic). cbn [cellsOf] in Cc.
    rewrite nth_error_map in Cc. destruct (nth_error (cnodes m) _) as [n|] eqn:En; [|discriminate Cc]. injection Cc as <-. exists (nodeOf (cim m) a), n. split; [apply nodeLabel_dart, La|]. split; [split; assumption|].
    destruct Wi as (_ & _ & _ & _ & _ & No). destruct (No _ n En Ic) as (_ & (ds & _ & Ds & Le) & _). destruct ds as [|x t]; [symmetry; exact Le|]. exfalso.
    destruct (proj1 (Ds x) (or_introl eq_refl)) as (Dx & Nx). apply (proj2 La x Dx). rewrite Nx. unfold nodeOf. apply Z2Nat.id.
    pose proof So as (((_ & _ & _ & Bd) & _) & _). specialize (Bd _ _ X Y). lia.
Qed.

(** ** checkConsistency() *)
Definition shortContours : Prop := forall d, isDart (cim m) d -> exists k, (0 < k <= maxSteps)%nat /\ phis m k d = Ok d.

Lemma loop_dart a l : isDart (cim m) a -> leftFaceLabel (cim m) a = Ok l -> forall k n d, (k < n)%nat -> (exists i, phis m i a = Ok d) -> phis m (Datatypes.S k) d = Ok a ->
  contourLoop n m a d l = Ok true.
Proof.
  intros Da L. induction k as [|k IH]; intros n d Hn (i & I) K; (destruct n as [|n]; [lia|]); cbn [contourLoop];
    destruct (face_phi m i a (khistory_fhistory m Hm) Da) as (x & X & Dx & Lx); (assert (x = d) by congruence); subst x; rewrite Lx, L; cbn [bind]; rewrite Z.eqb_refl; cbn [negb].
  - cbn [phis] in K. destruct (nextPhi m d) as [d'| | |] eqn:E; try discriminate K. cbn [bind] in K. injection K as ->. cbn [bind]. unfold dartEq. rewrite singular_dart by auto. cbn [bind negb].
    unfold dartEqb. rewrite !Z.eqb_refl. reflexivity.
  - cbn [phis] in K. destruct (nextPhi m d) as [d'| | |] eqn:E; try discriminate K. cbn [bind] in K |- *.
    assert (I' : phis m (i + 1) a = Ok d').
    { rewrite (phis_it m Wi) in I by exact Da. rewrite (phis_it m Wi) by exact Da. injection I as I. f_equal. rewrite it_add, I. cbn [it]. unfold phi. rewrite E. reflexivity. }
    destruct (face_phi m (i + 1) a (khistory_fhistory m Hm) Da) as (x & X' & Dx' & Lx'). assert (x = d') by congruence. subst x.
    unfold dartEq. rewrite singular_dart by auto. cbn [bind negb]. destruct (dartEqb d' a) eqn:Q; [reflexivity|]. apply IH; [lia|exists (i + 1)%nat; exact I'|exact K].
Qed.
Lemma contour_check l f a : shortContours -> isFace m l f -> In a (fcontours f) -> checkContour m (Z.of_nat l) a = Ok true.
Proof.
  intros Sh F I. destruct (contour_anchor l f a F I) as (L & R). unfold checkContour.
  assert (V : vertexAt (cim m) (dcx a) (dcy a)) by (destruct R as [(D & _)|(P & _)]; [apply D|apply P]).
  unfold centerPix, readPix, insideImg. destruct V as (X & Y & T).
  replace ((0 <=? dcx a) && _ && _ && _)%bool with true by (symmetry; rewrite !Bool.andb_true_iff, !Z.leb_le, !Z.ltb_lt; lia). cbn [bind]. rewrite T. cbn [ctypeEqb negb].
  destruct R as [(D & r & Pr & Er & _)|(P & S & nl & n & Nl & (En & _) & G)].
  - rewrite singular_dart by auto. cbn [bind]. destruct Wi as (_ & (So & Ne & Jo) & _).
    assert (W1 : way 1) by (left; reflexivity). destruct (sigma_defined (cim m) Fr Ne 1 a W1 D) as (d' & U & N & B). assert (U' : nextSigma (cim m) a = Ok d') by exact U. rewrite U'. cbn [bind].
    assert (B' : prevSigma (cim m) d' = Ok a) by exact B. rewrite B'. cbn [bind]. unfold dartEq. rewrite singular_dart by auto. cbn [bind negb]. unfold dartEqb at 1. rewrite !Z.eqb_refl. cbn [andb bind].
    destruct (Sh a D) as (k & (K0 & K) & E). destruct k as [|k]; [lia|]. rewrite (loop_dart a (Z.of_nat l) D L k maxSteps a); [reflexivity|lia|exists O; reflexivity|exact E].
  - rewrite S. cbn [bind]. rewrite Nl. cbn [bind]. assert (Pn : 0 <= nl).
    { rewrite nodeLabel_dart in Nl by apply P. injection Nl as <-. assert (So : sound m) by apply Wi. destruct So as (((_ & _ & _ & Bd) & _) & _). specialize (Bd _ _ X Y). unfold nodeOf. lia. }
    rewrite (proj2 (at_Ok (cnodes m) nl n) (conj Pn En)). cbn [bind]. rewrite G. change (0 <? 0) with false.
    unfold nextSigma, prevSigma, sigmaStep. rewrite S. cbn [bind]. unfold sigmaStep. rewrite S. cbn [bind]. unfold dartEq at 1. rewrite S. cbn [bind negb]. rewrite Nl. cbn [bind]. rewrite Z.eqb_refl.
    assert (La : lonely (cim m) a).
    { destruct Ko as (_ & C). destruct (C _ f F) as (C1 & _). destruct (C1 a I) as ([(Da & _)|(La & _)] & _); [|exact La]. rewrite singular_dart in S by auto. discriminate S. }
    assert (E : contourLoop maxSteps m a a (Z.of_nat l) = Ok true).
    { unfold maxSteps. destruct (Z.to_nat 10000) as [|k] eqn:Ek; [apply (f_equal Z.of_nat) in Ek; rewrite Z2Nat.id in Ek by lia; cbn in Ek; lia|]. cbn [contourLoop]. rewrite L. cbn [bind]. rewrite Z.eqb_refl. cbn [negb].
      rewrite (phi_lonely m Fa a La). cbn [bind]. unfold dartEq. rewrite S. cbn [bind negb]. rewrite Nl. cbn [bind]. rewrite Z.eqb_refl. reflexivity. }
    rewrite E. reflexivity.
Qed.
Theorem consistency : shortContours -> checkConsistency m = Ok true.
Proof.
  intros Sh. unfold checkConsistency. rewrite check_passes, darts_check; [cbn [bind]| |].
  - unfold checkContours. rewrite checkAll_true; [reflexivity|]. intros l f F I. assert (Fl : isFace m l f) by (split; auto).
    assert (Lb : clabel (finf f) = Z.of_nat l) by (destruct Wi as (_ & ((_ & _ & R & _) & _) & _); apply (R Region l); auto; cbn [cellsOf]; apply map_nth_error, F). rewrite Lb.
    assert (A : forall a, In a (fcontours f) -> checkContour m (Z.of_nat l) a = Ok true) by (intros a Ia; apply (contour_check l f); auto).
    induction (fcontours f) as [|c t IH]; [reflexivity|]. cbn [checkContourList]. rewrite (A c) by (left; reflexivity). cbn [bind]. rewrite IH by (intros a Ia; apply A; right; exact Ia). reflexivity.
  - apply fhistory_dhistory, khistory_fhistory, Hm.
  - apply ch_start. apply Wi.
Qed.
End Of.
