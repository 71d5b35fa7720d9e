(** C76: the constructors of the pixel based map return. *)
From Verif Require Import Base CellMap_Model CellMap_Spec CellMap_Scan CellMap_Init CellMap_InitProofs CellMap_Check CellMap_Main CellMap_Examples CellSigma_Spec CellSigma_Proofs CellSigma_Examples CellLink_Spec CellLink_Check CellFace_Spec CellStart_Spec CellStart_Results CellStart_Examples
  CellThresh_Model CellThresh_Spec CellThresh_Comps CellThresh_Types CellThresh_Draw CellThresh_Results CellThresh_Examples CellTotal_Spec CellTotal_Init.
Local Open Scope Z_scope.

Theorem import_built crack outer comps im : wfImg im -> framed im -> clean im -> rightAreas crack im -> rightParts comps im -> ruled im ->
  exists m, import crack outer comps im = Ok m /\ cim m = im /\ built m.
Proof.
  intros W F C A P R. destruct (import_total crack outer comps im W F C A P R) as (m & _ & E & M & _). exists m. split; [exact E|]. split; [exact M|]. exists crack, outer, comps, im. auto.
Qed.

Section Drawing.
Variables (crack : img -> Z -> Z -> Z) (outer : img -> Z -> Z -> list Z) (comps : img -> (Z -> Z -> Z) * nat).
Variables (cv : bool) (w h : Z) (boundary : Z -> Z -> bool) (im0 : img).
Hypothesis Sm : small w h.
Hypothesis Ei : initCellImage cv w h boundary = Ok im0.
Hypothesis Ne : neat im0.
Hypothesis Un : unpierced im0.
Hypothesis Le : lean im0.
Lemma image_ruled im n e f : cellImageOf cv w h boundary = Ok (im, n, e, f) -> iw im = w + 4 -> ih im = h + 4 -> ruled im.
Proof.
  intros Q W H. pose proof Sm as (Hw & Hh & _). split.
  - apply (image_vertices cv w h boundary im0 Sm Ei Ne Un Le im n e f Q 1 1). left. destruct (init_size cv w h boundary Hw Hh im0 Ei) as [A B].
    split; [lia|]. split; [lia|]. rewrite (init_corner cv w h boundary Hw Hh im0 Ei). reflexivity.
  - intros x X. split; [lia|]. split; [lia|]. intros T. apply (image_regions cv w h boundary im0 Sm Ei Ne Un Le im n e f Q x 1 ltac:(lia) ltac:(lia)) in T. apply T. right. lia.
Qed.
Theorem threshold_total : (forall im n e f, cellImageOf cv w h boundary = Ok (im, n, e, f) -> rightAreas crack im /\ rightParts comps im) ->
  exists m n e f, threshold crack outer comps cv w h boundary = Ok m /\ cellImageOf cv w h boundary = Ok (cim m, n, e, f) /\ built m.
Proof.
  intros Or. destruct (image_clean cv w h boundary im0 Sm Ei Ne Un Le) as (im & n & e & f & Q & Wf & Fr & C & M1 & M2 & M3). destruct (Or _ _ _ _ Q) as [Ra Rp].
  pose proof Sm as (Hw & Hh & _). destruct (image_size cv w h boundary im0 Sm Ei Ne Un Le im n e f Q) as [W H].
  destruct (import_total crack outer comps im Wf Fr C Ra Rp (image_ruled im n e f Q W H)) as (m & _ & E & Em & _). exists m, n, e, f. subst im.
  assert (Et : threshold crack outer comps cv w h boundary = Ok m). { unfold threshold. rewrite Q. cbn [bind fst snd]. rewrite <- M1, <- M2, <- M3. exact E. }
  split; [exact Et|]. split; [exact Q|]. apply (threshold_built crack outer comps cv w h boundary im0 m Sm Ei Ne Un Le Et). eauto.
Qed.
End Drawing.
(** the image is refused, or there is a map *)
Theorem threshold_decides crack outer comps cv w h boundary : small w h -> (forall im0, initCellImage cv w h boundary = Ok im0 -> neat im0 /\ unpierced im0 /\ lean im0) ->
  (forall im n e f, cellImageOf cv w h boundary = Ok (im, n, e, f) -> rightAreas crack im /\ rightParts comps im) ->
  (exists m, threshold crack outer comps cv w h boundary = Ok m /\ built m) \/ (threshold crack outer comps cv w h boundary = Exn /\ initCellImage cv w h boundary = Exn).
Proof.
  intros Sm H Or. pose proof Sm as (Hw & Hh & _). destruct (init_decides cv w h boundary Hw Hh) as [(im0 & E)|(E & _)].
  - left. destruct (H im0 E) as (A & B & C). destruct (threshold_total crack outer comps cv w h boundary im0 Sm E A B C Or) as (m & n & e & f & Q & _ & Bu). eauto.
  - right. split; [|exact E]. unfold threshold, cellImageOf. rewrite E. reflexivity.
Qed.

(** ** Helpers as they should be *)
Lemma area_right im : rightAreas pixelArea im.
Proof.
  intros l x y ((X & Y & P) & _). unfold pixelArea. exists (filter (fun p => pixEqb (ipix im (fst p) (snd p)) (ipix im x y)) (allPoints im)). split; [apply NoDup_filter, rectPoints_NoDup|]. split; [|reflexivity].
  intros u v. rewrite filter_In. unfold allPoints. rewrite rectPoints_in. unfold inRect. cbn [fst snd rx0 rx1 ry0 ry1]. rewrite pixEqb_eq, P. unfold owns. tauto.
Qed.
Lemma parts_right im : rightParts contourParts im.
Proof.
  unfold contourParts, rightParts. cbv zeta. cbn [fst snd]. set (fg := fun x y => negb (ctypeEqb (ptype (ipix im x y)) Region)). change (fun x y : Z => negb (ctypeEqb (ptype (ipix im x y)) Region)) with fg.
  destruct (labelComponents true (Rect 0 0 (iw im) (ih im)) fg) as [lab n] eqn:E. destruct (components_spec _ _ _ _ _ E) as (A & B & C & D). cbn [fst snd].
  assert (F : forall x y, contour im x y <-> inRect (Rect 0 0 (iw im) (ih im)) x y /\ fg x y = true).
  { intros x y. unfold contour, inRect, fg. cbn. rewrite Bool.negb_true_iff, CellSigma_Proofs.ctypeEqb_ne. tauto. }
  split; [|split].
  - intros x y X Y T. change (negb (ctypeEqb (ptype (ipix im x y)) Region)) with (fg x y). unfold fg. rewrite T. reflexivity.
  - intros x y Q. apply F in Q. change (negb (ctypeEqb (ptype (ipix im x y)) Region)) with (fg x y). rewrite (proj2 Q). specialize (A x y Q). lia.
  - intros x y k K P Q. apply F in P. apply F in Q. change (negb (ctypeEqb (ptype (ipix im x y)) Region)) with (fg x y). change (negb (ctypeEqb (ptype (ipix im (x + dirX k) (y + dirY k))) Region)) with (fg (x + dirX k) (y + dirY k)).
    rewrite (proj2 P), (proj2 Q). symmetry. apply (C _ _ _ _ P Q). apply re_step; [apply re_here, P| |exact Q]. cbn. lia.
Qed.

(** ** A map without a node in the corner *)
Definition lone : img := Img 5 5 (fun x y => if (x =? 2) && (y =? 2) then Pix Vertex 1 else Pix Region 0).
Lemma lone_clean : wfImg lone /\ framed lone /\ clean lone.
Proof.
  assert (F : framed lone) by (apply framedB_holds; vm_compute; reflexivity). split; [apply wfImgB_holds; vm_compute; reflexivity|]. split; [exact F|]. apply (cleanB_holds 40); [exact F|vm_compute; reflexivity].
Qed.
Lemma corner_refuted : exists crack outer comps im, wfImg im /\ framed im /\ clean im /\ rightAreas crack im /\ rightParts comps im /\ import crack outer comps im = Exn.
Proof.
  destruct lone_clean as (A & B & C). exists pixelArea, (fun _ _ _ => []), contourParts, lone. split; [exact A|]. split; [exact B|]. split; [exact C|]. split; [apply area_right|]. split; [apply parts_right|]. vm_compute. reflexivity.
Qed.
(** the upper side of the rooms *)
Lemma rooms_ruled : ruled rooms.
Proof.
  split; [split; [vm_compute; intuition congruence|split; [vm_compute; intuition congruence|vm_compute; reflexivity]]|].
  intros x X. split; [lia|]. split; [vm_compute; intuition congruence|]. cbn [iw] in X.
  assert (G : forallb (fun x => negb (ctypeEqb (ptype (ipix rooms x 1)) Region)) (upFrom 1 (iw rooms - 1)) = true) by (vm_compute; reflexivity). rewrite forallb_forall in G.
  specialize (G x). rewrite Bool.negb_true_iff, CellSigma_Proofs.ctypeEqb_ne in G. apply G. apply upFrom_in. lia.
Qed.
Lemma built_checked m : built m -> sound m /\ faced m /\ checkBounds m = Ok true /\ checkDarts m = Ok true.
Proof.
  intros B. apply bh_start in B. destruct (built_order m B) as (F & _ & _ & H). assert (T : tidy m) by apply F. assert (S : sound m) by apply T.
  split; [exact S|]. split; [exact F|]. split; [apply check_passes, ch_start, S|exact (built_checks m B)].
Qed.
