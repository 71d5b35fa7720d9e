(** C77: concrete images. *)
From Coq Require Import Lia.
From Verif Require Import Base CellMap_Model CellMap_Spec CellMap_Scan CellMap_Init CellMap_InitProofs CellMap_Check CellMap_Main CellMap_Examples CellSigma_Spec CellSigma_Proofs CellSigma_Results CellSigma_Examples CellLink_Spec CellLink_Check CellFace_Spec CellFace_Results CellStart_Spec CellStart_Results CellStart_Examples
  CellContour_Spec CellContour_Results CellThresh_Model CellThresh_Spec CellThresh_Comps CellThresh_Examples CellTotal_Init CellTotal_Results CellJordan_Spec CellJordan_Results CellJordan_Image CellTotal_Spec.
Local Open Scope Z_scope.

Definition isRegion (im : img) (x y : Z) : bool := ctypeEqb (ptype (ipix im x y)) Region.
Definition wholeB (im : img) : bool :=
  let lab := fst (labelComponents false (Rect 0 0 (iw im) (ih im)) (isRegion im)) in
  let t := map (fun p => (plabel (ipix im (fst p) (snd p)), lab (fst p) (snd p))) (filter (fun p => isRegion im (fst p) (snd p)) (allPoints im)) in
  forallb (fun p => forallb (fun q => negb (fst p =? fst q) || (snd p =? snd q)) t) t.
Lemma wholeB_holds im : wholeB im = true -> whole im.
Proof.
  unfold wholeB. destruct (labelComponents false (Rect 0 0 (iw im) (ih im)) (isRegion im)) as [lab n] eqn:E. cbv zeta. cbn [fst]. set (t := map _ _). intros H l x y u v O1 O2. destruct (components_spec _ _ _ _ _ E) as (_ & _ & C & _).
  assert (F : forall x y, owns im Region l x y -> (inRect (Rect 0 0 (iw im) (ih im)) x y /\ isRegion im x y = true) /\ In (l, lab x y) t).
  { intros a b (A & B & T). assert (I : inRect (Rect 0 0 (iw im) (ih im)) a b) by (unfold inRect; cbn; lia). assert (R : isRegion im a b = true) by (unfold isRegion; rewrite T; reflexivity). split; [auto|].
    unfold t. apply in_map_iff. exists (a, b). cbn [fst snd]. rewrite T. split; [reflexivity|]. apply filter_In. split; [apply rectPoints_in; exact I|exact R]. }
  destruct (F x y O1) as (P1 & I1). destruct (F u v O2) as (P2 & I2). rewrite forallb_forall in H. specialize (H _ I1). rewrite forallb_forall in H. specialize (H _ I2). cbn [fst snd] in H. rewrite Z.eqb_refl in H. cbn [negb orb] in H. apply Z.eqb_eq in H.
  apply (C _ _ _ _ P1 P2) in H. revert H. apply CellThresh_Loops.reach_mono. intros a b (A & B). unfold inRect in A. cbn in A. unfold isRegion in B. apply CellSigma_Proofs.ctypeEqb_eq in B. split; [lia|]. split; [lia|exact B].
Qed.
Lemma rooms_whole : whole rooms.
Proof. apply wholeB_holds. vm_compute. reflexivity. Qed.
Definition rm : cmap := Eval vm_compute in mapOf (import pixelArea (fun _ _ _ => []) contourParts rooms).
Lemma rm_imported : import pixelArea (fun _ _ _ => []) contourParts rooms = Ok rm.
Proof. vm_compute. reflexivity. Qed.

(** two rooms that have the same label *)
Definition twins : img := picture [
  [R 0; R 0; R 0; R 0; R 0; R 0; R 0];
  [R 0; V 0; L 0; V 1; L 1; V 2; R 0];
  [R 0; L 2; R 1; L 3; R 1; L 4; R 0];
  [R 0; V 3; L 5; V 4; L 6; V 5; R 0];
  [R 0; R 0; R 0; R 0; R 0; R 0; R 0]] 7 5.
Definition twinMap : cmap := Eval vm_compute in mapOf (import pixelArea (fun _ _ _ => []) contourParts twins).
Lemma twins_imported : import pixelArea (fun _ _ _ => []) contourParts twins = Ok twinMap.
Proof. vm_compute. reflexivity. Qed.
Lemma twins_clean : wfImg twins /\ framed twins /\ clean twins.
Proof.
  assert (F : framed twins) by (apply framedB_holds; vm_compute; reflexivity). split; [apply wfImgB_holds; vm_compute; reflexivity|]. split; [exact F|]. apply (cleanB_holds 40); [exact F|vm_compute; reflexivity].
Qed.
Lemma twins_ruled : ruled twins.
Proof.
  split; [split; [vm_compute; intuition congruence|split; [vm_compute; intuition congruence|vm_compute; reflexivity]]|].
  intros x X. split; [lia|]. split; [vm_compute; intuition congruence|]. cbn [iw] in X.
  assert (G : forallb (fun x => negb (ctypeEqb (ptype (ipix twins x 1)) Region)) (upFrom 1 (iw twins - 1)) = true) by (vm_compute; reflexivity). rewrite forallb_forall in G.
  specialize (G x). rewrite Bool.negb_true_iff, CellSigma_Proofs.ctypeEqb_ne in G. apply G. apply upFrom_in. lia.
Qed.
Definition sameDart (a b : dart) : bool := (dcx a =? dcx b) && (dcy a =? dcy b) && (ddir a =? ddir b).
Lemma closed_phis m (ds : list dart) : forallb (fun d => match nextPhi m d with Ok x => existsb (sameDart x) ds | _ => false end) ds = true -> forall k a x, In a ds -> phis m k a = Ok x -> In x ds.
Proof.
  intros H. rewrite forallb_forall in H. induction k as [|k IH]; intros a x I E; cbn [phis] in E; [injection E as <-; exact I|]. specialize (H a I). destruct (nextPhi m a) as [b| | |] eqn:Eb; try discriminate H. cbn [bind] in E.
  apply (IH b x); [|exact E]. apply existsb_exists in H. destruct H as (c & Ic & Ec). unfold sameDart in Ec. destruct b as [bx by_ bd], c as [cx cy cd]. cbn [dcx dcy ddir] in Ec. assert (bx = cx /\ by_ = cy /\ bd = cd) as (-> & -> & ->) by lia. exact Ic.
Qed.
Definition leftRoom : list dart := Eval vm_compute in match nth_error (cfaces twinMap) 1 with
  | Some f => match fcontours f with a :: _ => flat_map (fun k => match phis twinMap k a with Ok x => [x] | _ => [] end) (seq 0 4) | [] => [] end | None => [] end.
Lemma twins_open : ~ contoured twinMap.
Proof.
  intros (_ & H). assert (E : match nth_error (cfaces twinMap) 1 with Some f => (initialized (finf f), fcontours f) | None => (false, []) end = (true, [Dart 1 1 6])) by (vm_compute; reflexivity).
  destruct (nth_error (cfaces twinMap) 1) as [f|] eqn:Ef; [|discriminate E]. injection E as If Ec. destruct (H 1%nat f (conj Ef If)) as (_ & Q). destruct (Q (Dart 3 1 6)) as (i & a & Hi & C & _).
  { left. split; [apply isDartB_holds; vm_compute; reflexivity|vm_compute; reflexivity]. }
  rewrite Ec in Hi. apply nth_error_In in Hi. destruct Hi as [<-|[]]. destruct C as [(_ & k & C)|(Lo & _)].
  - apply (closed_phis twinMap leftRoom) in C; [|vm_compute; reflexivity|cbn; auto]. revert C. cbn. intuition congruence.
  - apply (proj2 Lo (Dart 1 1 6)); [apply isDartB_holds; vm_compute; reflexivity|reflexivity].
Qed.
Lemma whole_refuted : exists crack outer comps im m, wfImg im /\ framed im /\ clean im /\ rightAreas crack im /\ exactParts comps im /\ ruled im /\ import crack outer comps im = Ok m /\ ~ contoured m.
Proof.
  destruct twins_clean as (A & B & C). exists pixelArea, (fun _ _ _ => []), contourParts, twins, twinMap. split; [exact A|]. split; [exact B|]. split; [exact C|]. split; [apply area_right|]. split; [apply parts_exact|]. split; [exact twins_ruled|].
  split; [exact twins_imported|exact twins_open].
Qed.
