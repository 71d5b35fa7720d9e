(** Pixel based maps to try the statements about contours on. *)
From Coq Require Import Lia.
From Verif Require Import Base CellMap_Model CellMap_Spec CellMap_Scan CellMap_Proofs CellMap_Main CellMap_Init CellMap_InitProofs CellMap_Check CellMap_Examples
  CellSigma_Spec CellSigma_Proofs CellSigma_Results CellLink_Spec CellLink_Proofs CellLink_Main CellLink_Results CellLink_Check CellSigma_Examples
  CellFace_Spec CellFace_Walk CellFace_Main CellFace_Step CellFace_Results CellFace_Examples
  CellContour_Orbit CellContour_Spec CellContour_Phi CellContour_Find CellContour_View CellContour_Cut CellContour_Step CellContour_Leave CellContour_Results.
Local Open Scope Z_scope.

(** ** Tests *)
Definition dartIn (d : dart) (l : list dart) : bool := existsb (fun e => (dcx e =? dcx d) && (dcy e =? dcy d) && (ddir e =? ddir d)) l.
Lemma dartIn_holds d l : dartIn d l = true <-> In d l.
Proof.
  unfold dartIn. rewrite existsb_exists. split.
  - intros (e & I & E). rewrite !Bool.andb_true_iff, !Z.eqb_eq in E. destruct d, e. cbn in E. destruct E as ((-> & ->) & ->). exact I.
  - intros I. exists d. split; auto. rewrite !Z.eqb_refl. reflexivity.
Qed.
(** what nextPhi() reaches in [f] steps *)
Fixpoint phiList (f : nat) (m : cmap) (d : dart) : list dart := d :: match f with O => [] | Datatypes.S k => match nextPhi m d with Ok d' => phiList k m d' | _ => [] end end.
Definition closedB (m : cmap) (l : list dart) : bool := forallb (fun d => match nextPhi m d with Ok d' => dartIn d' l | _ => false end) l.
Lemma phiList_in m f : forall d x, In x (phiList f m d) -> exists k, phis m k d = Ok x.
Proof.
  induction f as [|f IH]; intros d x [I|I]; try (subst x; exists O; reflexivity); [contradiction|].
  destruct (nextPhi m d) as [d'| | |] eqn:E; try contradiction. destruct (IH d' x I) as (k & K). exists (Datatypes.S k). cbn [phis]. rewrite E. exact K.
Qed.
Lemma closed_in m l k : closedB m l = true -> forall d x, In d l -> phis m k d = Ok x -> In x l.
Proof.
  intros C. induction k as [|k IH]; intros d x I K; cbn [phis] in K; [injection K as <-; exact I|].
  unfold closedB in C. rewrite forallb_forall in C. pose proof (C d I) as Q. destruct (nextPhi m d) as [d'| | |] eqn:E; try discriminate Q. cbn [bind] in K. apply (IH d' x); [apply dartIn_holds, Q|exact K].
Qed.
Definition lonelyB (im : img) (ds : list dart) (d : dart) : bool := isPlaceB im d && forallb (fun e => negb (nodeOf im e =? nodeOf im d)) ds.
Lemma lonelyB_holds im d : lonelyB im (dartsOf im) d = true <-> lonely im d.
Proof.
  unfold lonelyB, lonely. rewrite Bool.andb_true_iff, isPlaceB_holds, forallb_forall. split; intros (P & Q); split; auto.
  - intros e D E. specialize (Q e (proj2 (dartsOf_in im e) D)). rewrite E, Z.eqb_refl in Q. discriminate Q.
  - intros e D. apply Bool.negb_true_iff, Z.eqb_neq, Q, dartsOf_in, D.
Qed.
Definition contourB (f : nat) (m : cmap) (ds : list dart) (a x : dart) : bool :=
  if isDartB (cim m) a then dartIn x (phiList f m a) else lonelyB (cim m) ds a && lonelyB (cim m) ds x && (nodeOf (cim m) a =? nodeOf (cim m) x).
Lemma contourB_holds f m a x : (if isDartB (cim m) a then closedB m (phiList f m a) else true) = true -> contourB f m (dartsOf (cim m)) a x = true <-> contour m a x.
Proof.
  intros C. unfold contourB, contour. destruct (isDartB (cim m) a) eqn:D.
  - rewrite dartIn_holds. assert (Da : isDart (cim m) a) by (apply isDartB_holds, D). split.
    + intros I. left. split; auto. apply (phiList_in m f), I.
    + intros [(_ & k & K)|(L & _)]; [|exfalso; destruct L as (_ & N); apply (N a Da eq_refl)]. apply (closed_in m _ k C a); [|exact K]. destruct f; left; reflexivity.
  - rewrite !Bool.andb_true_iff, !lonelyB_holds, Z.eqb_eq. split; [tauto|]. intros [(Da & _)|Q]; [apply isDartB_holds in Da; congruence|tauto].
Qed.
Definition onBorderB (im : img) (ds : list dart) (l : Z) (x : dart) : bool := (isDartB im x && (sideOf im 1 x =? l)) || (lonelyB im ds x && (labelAt im x 0 =? l)).
Lemma onBorderB_holds im l x : onBorderB im (dartsOf im) l x = true <-> onBorder im l x.
Proof. unfold onBorderB, onBorder. rewrite Bool.orb_true_iff, !Bool.andb_true_iff, lonelyB_holds, isDartB_holds, !Z.eqb_eq. reflexivity. Qed.
Definition coversB (f : nat) (m : cmap) (ds ps : list dart) (l : Z) (cs : list dart) : bool :=
  let im := cim m in
  forallb (fun a => onBorderB im ds l a && (isDartB im a || ctypeEqb (typeAt im a 1) Region || ctypeEqb (typeAt im a 2) Region) && (if isDartB im a then closedB m (phiList f m a) else true)) cs &&
  forallb (fun x => if onBorderB im ds l x then Nat.eqb (length (filter (fun a => contourB f m ds a x) cs)) 1 else true) ps.
Lemma one_filter {A} (p : A -> bool) (l : list A) : length (filter p l) = 1%nat -> exists i a, nth_error l i = Some a /\ p a = true /\ forall j b, nth_error l j = Some b -> p b = true -> j = i.
Proof.
  induction l as [|h t IH]; cbn [filter]; [discriminate|]. destruct (p h) eqn:E; cbn [length].
  - intros L. injection L as L. apply length_zero_iff_nil in L. exists O, h. split; auto. split; auto. intros [|j] b B Q; auto. exfalso.
    assert (I : In b (filter p t)) by (apply filter_In; split; auto; apply (nth_error_In _ j); exact B). rewrite L in I. exact I.
  - intros L. destruct (IH L) as (i & a & Hi & Pa & U). exists (Datatypes.S i), a. split; auto. split; auto. intros [|j] b B Q; [injection B as ->; congruence|]. f_equal. apply (U j b); auto.
Qed.
Lemma coversB_holds f m l cs : coversB f m (dartsOf (cim m)) (placesOf (cim m)) l cs = true -> covers m l cs.
Proof.
  unfold coversB. cbn zeta. rewrite Bool.andb_true_iff, !forallb_forall. intros (H1 & H2). split.
  - intros a I. specialize (H1 a I). rewrite !Bool.andb_true_iff, onBorderB_holds, !Bool.orb_true_iff, isDartB_holds, !CellSigma_Proofs.ctypeEqb_eq in H1. unfold beside. tauto.
  - intros x O. assert (P : In x (placesOf (cim m))) by (apply placesOf_in; destruct O as [(D & _)|(L & _)]; [apply dart_place, D|apply L]). specialize (H2 x P).
    rewrite (proj2 (onBorderB_holds (cim m) l x) O) in H2. apply Nat.eqb_eq, one_filter in H2. destruct H2 as (i & a & Hi & Ca & U). exists i, a. split; auto.
    assert (K : forall b j, nth_error cs j = Some b -> contourB f m (dartsOf (cim m)) b x = true <-> contour m b x).
    { intros b j B. apply contourB_holds. specialize (H1 b (nth_error_In _ _ B)). apply Bool.andb_true_iff in H1. apply H1. }
    split; [apply (K a i Hi), Ca|]. intros j b B Q. apply (U j b B). apply (K b j B), Q.
Qed.
Definition contouredB (f : nat) (m : cmap) : bool :=
  let ds := dartsOf (cim m) in let ps := placesOf (cim m) in allNth (fun l g => negb (initialized (finf g)) || coversB f m ds ps (Z.of_nat l) (fcontours g)) 0 (cfaces m).
Lemma contouredB_holds f m : faced m -> contouredB f m = true -> contoured m.
Proof. intros Fa H. split; auto. intros l g (C & I). pose proof (allNth_holds _ _ _ H _ _ C) as Q. cbn in Q. rewrite I in Q. cbn [negb orb] in Q. apply (coversB_holds f), Q. Qed.
Definition contourAllowedB (f : nat) (m : cmap) (c : ccall) : bool :=
  faceAllowedB (cim m) c && match c with CRemoveBridge d => match nextAlpha m d with Ok b => dartIn b (phiList f m d) | _ => false end | _ => true end.
Lemma contourAllowedB_holds f m c : contourAllowedB f m c = true -> contourAllowed m c.
Proof.
  unfold contourAllowedB, contourAllowed. rewrite Bool.andb_true_iff. intros (A & B). split; [apply faceAllowedB_holds, A|]. destruct c as [d|d|d|d]; auto.
  destruct (nextAlpha m d) as [b| | |]; try discriminate B. apply dartIn_holds, phiList_in in B. destruct B as (k & K). exists k, b. auto.
Qed.
Fixpoint kreplay (f : nat) (m : cmap) (cs : list ccall) : option cmap :=
  match cs with
  | [] => Some m
  | c :: t => if contourAllowedB f m c then match cexec m c with Ok (m', _) => kreplay f m' t | _ => None end else None
  end.
Lemma kreplay_history f cs : forall m r, khistory m -> kreplay f m cs = Some r -> khistory r.
Proof.
  induction cs as [|c t IH]; intros m r Hm H; cbn [kreplay] in H; [injection H as <-; exact Hm|].
  destruct (contourAllowedB f m c) eqn:Ea; [|discriminate H]. destruct (cexec m c) as [[m' s]| | |] eqn:E; try discriminate H.
  apply (IH m' r); [|exact H]. exact (kh_call m c m' s Hm (contourAllowedB_holds _ _ _ Ea) E).
Qed.
Fixpoint phiSeek (f : nat) (m : cmap) (d t : dart) : bool :=
  match f with O => false | Datatypes.S k => match nextPhi m d with Ok d' => if (dcx d' =? dcx t) && (dcy d' =? dcy t) && (ddir d' =? ddir t) then true else phiSeek k m d' t | _ => false end end.
Lemma phiSeek_holds m t f : forall d, phiSeek f m d t = true -> exists k, (0 < k <= f)%nat /\ phis m k d = Ok t.
Proof.
  induction f as [|f IH]; intros d H; cbn [phiSeek] in H; [discriminate H|]. destruct (nextPhi m d) as [d'| | |] eqn:E; try discriminate H.
  destruct ((dcx d' =? dcx t) && (dcy d' =? dcy t) && (ddir d' =? ddir t)) eqn:Q.
  - exists 1%nat. split; [lia|]. cbn [phis]. rewrite E. cbn [bind]. rewrite !Bool.andb_true_iff, !Z.eqb_eq in Q. destruct d', t. cbn in Q. destruct Q as ((-> & ->) & ->). reflexivity.
  - destruct (IH d' H) as (k & K & P). exists (Datatypes.S k). split; [lia|]. cbn [phis]. rewrite E. exact P.
Qed.
Lemma short_holds f m : (Z.of_nat f <= 10000) -> forallb (fun d => phiSeek f m d d) (dartsOf (cim m)) = true -> shortContours m.
Proof.
  intros F H d D. rewrite forallb_forall in H. destruct (phiSeek_holds m d f d (H d (proj2 (dartsOf_in _ d) D))) as (k & K & P). exists k. split; auto. unfold maxSteps. lia.
Qed.

Lemma r0_contoured : contoured r0.
Proof. apply (contouredB_holds 20); [exact r0_faced|vm_compute; reflexivity]. Qed.
Lemma fork_contoured : contoured fork0.
Proof. apply (contouredB_holds 20); [exact fork_faced|vm_compute; reflexivity]. Qed.
Definition contouredAfter (n : nat) : cmap := match kreplay 20 r0 (firstn n tidying) with Some m => m | None => r0 end.
Lemma contouredAfter_history n : khistory (contouredAfter n).
Proof.
  unfold contouredAfter. destruct (kreplay 20 r0 (firstn n tidying)) as [m|] eqn:E; [|apply kh_start; exact r0_contoured].
  exact (kreplay_history 20 _ r0 m (kh_start r0 r0_contoured) E).
Qed.
Example contouredAfter_same : map (fun n => (edgeCount (contouredAfter n), nodeCount (contouredAfter n), faceCount (contouredAfter n))) [0; 1; 2; 3; 4; 5; 6; 7]%nat =
  map (fun n => (edgeCount (tidied n), nodeCount (tidied n), faceCount (tidied n))) [0; 1; 2; 3; 4; 5; 6; 7]%nat.
Proof. vm_compute. reflexivity. Qed.
(** the anchors of the contours of each face *)
Definition contoursOf (m : cmap) : list (option (list dart)) := map (fun f => if initialized (finf f) then Some (fcontours f) else None) (cfaces m).
Lemma ell_contoured : contoured ell0.
Proof. apply (contouredB_holds 20); [exact ell_faced|vm_compute; reflexivity]. Qed.
Lemma after_short n : In n [0; 1; 2; 3; 4; 5; 6; 7]%nat -> shortContours (contouredAfter n).
Proof. intros I. apply (short_holds 20); [lia|]. cbn in I. intuition (subst n; vm_compute; reflexivity). Qed.
