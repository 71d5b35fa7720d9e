(** Pixel based maps to try the statements about faces on. *)
From Coq Require Import Lia.
From Verif Require Import Base CellMap_Model CellMap_Spec CellMap_Scan CellMap_Proofs CellMap_Main CellMap_Init CellMap_InitProofs CellMap_Check CellMap_Examples
  CellSigma_Spec CellSigma_Proofs CellSigma_Results CellLink_Spec CellLink_Proofs CellLink_Main CellLink_Results CellLink_Check CellSigma_Examples
  CellFace_Spec CellFace_Walk CellFace_Main CellFace_Step CellFace_Results.
Local Open Scope Z_scope.

Definition plainB (im : img) : bool := everyPixel im (fun x y => negb (ctypeEqb (ptype (ipix im x y)) ErrorType)).
Lemma plainB_holds im : plainB im = true -> plain im.
Proof. intros H x y X Y E. assert (Q := everyPixel_holds im _ H x y X Y). cbv beta in Q. rewrite E in Q. discriminate Q. Qed.
Definition airyB (im : img) : bool :=
  everyPixel im (fun x y => negb (ctypeEqb (ptype (ipix im x y)) Vertex) || forallb (fun k => let d := Dart x y k in
    negb (ctypeEqb (typeAt im d 0) Line) || forallb (fun n => ctypeEqb (typeAt im d n) Region || ctypeEqb (typeAt im d (2 * n)) Region) [1; -1]) [0; 2; 4; 6]).
Lemma airyB_holds im : airyB im = true -> airy im.
Proof.
  intros H [x y k] n (X & Y & V) K W L. cbn [dcx dcy ddir] in *. assert (Q := everyPixel_holds im _ H x y X Y). cbv beta in Q. rewrite V in Q. cbn [ctypeEqb negb orb] in Q.
  rewrite forallb_forall in Q. specialize (Q k K). cbn zeta in Q. rewrite L in Q. cbn [ctypeEqb negb orb] in Q. rewrite forallb_forall in Q. assert (I : In n [1; -1]) by (destruct W as [-> | ->]; cbn; auto).
  specialize (Q n I). apply Bool.orb_true_iff in Q. rewrite !CellSigma_Proofs.ctypeEqb_eq in Q. exact Q.
Qed.
Definition filledB (im : img) : bool :=
  everyPixel im (fun x y => negb (ctypeEqb (ptype (ipix im x y)) Region) || forallb (fun k =>
    negb (inB im (x + dirX k) (y + dirY k)) || negb (ctypeEqb (ptype (ipix im (x + dirX k) (y + dirY k))) Region) || (plabel (ipix im (x + dirX k) (y + dirY k)) =? plabel (ipix im x y))) [0; 2; 4; 6]).
Lemma filledB_holds im : filledB im = true -> filled im.
Proof.
  intros H x y k l K (X & Y & P) X' Y' V. assert (Q := everyPixel_holds im _ H x y X Y). cbv beta in Q. rewrite P in Q. cbn [ptype plabel ctypeEqb negb orb] in Q.
  rewrite forallb_forall in Q. specialize (Q k K). rewrite inB_true, V in Q by auto. cbn [ctypeEqb negb orb] in Q. apply Z.eqb_eq, Q.
Qed.
Definition facingB (im : img) (a b : dart) : bool := (sideOf im 1 a =? sideOf im (-1) b) && (sideOf im (-1) a =? sideOf im 1 b).
Definition borderedB (im : img) (l : Z) (a : dart) : bool :=
  everyPixel im (fun x y => negb (ctypeEqb (ptype (ipix im x y)) Line && (plabel (ipix im x y) =? l)) || forallb (fun k =>
    negb (inB im (x + dirX k) (y + dirY k)) || negb (ctypeEqb (ptype (ipix im (x + dirX k) (y + dirY k))) Region) ||
    (plabel (ipix im (x + dirX k) (y + dirY k)) =? sideOf im 1 a) || (plabel (ipix im (x + dirX k) (y + dirY k)) =? sideOf im (-1) a)) [0; 2; 4; 6]).
Lemma borderedB_holds im l a : borderedB im l a = true -> bordered im l a.
Proof.
  intros H x y k K (X & Y & P) X' Y' V. assert (Q := everyPixel_holds im _ H x y X Y). cbv beta in Q. rewrite P in Q. cbn [ptype plabel ctypeEqb andb] in Q. rewrite Z.eqb_refl in Q. cbn [negb orb] in Q.
  rewrite forallb_forall in Q. specialize (Q k K). rewrite inB_true, V in Q by auto. cbn [ctypeEqb negb orb] in Q. apply Bool.orb_true_iff in Q. rewrite !Z.eqb_eq in Q. exact Q.
Qed.
Definition facedB (m : cmap) : bool :=
  let im := cim m in plainB im && airyB im && filledB im &&
  allNth (fun l e => negb (initialized (einf e)) || facingB im (estart e) (eend e) && borderedB im (Z.of_nat l) (estart e)) 0 (cedges m).
Lemma facedB_holds m : wired m -> facedB m = true -> faced m.
Proof.
  intros Wi. unfold facedB. cbn zeta. rewrite !Bool.andb_true_iff. intros (((P & A) & F) & E). split; auto. split; [apply plainB_holds, P|]. split; [apply airyB_holds, A|]. split; [apply filledB_holds, F|].
  intros l e (C & I). pose proof (allNth_holds _ _ _ E _ _ C) as Q. cbn in Q. rewrite I in Q. cbn [negb orb] in Q. apply Bool.andb_true_iff in Q. destruct Q as (Q1 & Q2).
  split; [|apply borderedB_holds, Q2]. unfold facingB in Q1. rewrite Bool.andb_true_iff, !Z.eqb_eq in Q1. exact Q1.
Qed.
Definition faceAllowedB (im : img) (c : ccall) : bool :=
  match c with
  | CRemoveIsolatedNode d => isPlaceB im d && (ctypeEqb (typeAt im d 1) Region || ctypeEqb (typeAt im d 2) Region) && forallb (fun e => negb (nodeOf im e =? nodeOf im d)) (dartsOf im)
  | CMergeFaces d | CRemoveBridge d | CMergeEdges d => isDartB im d
  end.
Lemma faceAllowedB_holds im c : faceAllowedB im c = true -> faceAllowed im c.
Proof.
  destruct c as [d|d|d|d]; cbn [faceAllowedB faceAllowed]; try apply isDartB_holds. rewrite !Bool.andb_true_iff, Bool.orb_true_iff, !CellSigma_Proofs.ctypeEqb_eq, isPlaceB_holds, forallb_forall.
  intros ((P & Q) & N). split; auto. split; auto. intros e D E. specialize (N e (proj2 (dartsOf_in _ e) D)). rewrite E, Z.eqb_refl in N. discriminate N.
Qed.
Fixpoint freplay (m : cmap) (cs : list ccall) : option cmap :=
  match cs with
  | [] => Some m
  | c :: t => if faceAllowedB (cim m) c then match cexec m c with Ok (m', _) => freplay m' t | _ => None end else None
  end.
Lemma freplay_history cs : forall m r, fhistory m -> freplay m cs = Some r -> fhistory r.
Proof.
  induction cs as [|c t IH]; intros m r Hm H; cbn [freplay] in H; [injection H as <-; exact Hm|].
  destruct (faceAllowedB (cim m) c) eqn:Ea; [|discriminate H]. destruct (cexec m c) as [[m' s]| | |] eqn:E; try discriminate H.
  apply (IH m' r); [|exact H]. exact (fh_call m c m' s Hm (faceAllowedB_holds _ _ Ea) E).
Qed.

Lemma r0_faced : faced r0.
Proof. apply facedB_holds; [exact r0_wired|vm_compute; reflexivity]. Qed.
Lemma fork_faced : faced fork0.
Proof. apply facedB_holds; [exact fork_wired|vm_compute; reflexivity]. Qed.
Definition facedAfter (n : nat) : cmap := match freplay r0 (firstn n tidying) with Some m => m | None => r0 end.
Lemma facedAfter_history n : fhistory (facedAfter n).
Proof.
  unfold facedAfter. destruct (freplay r0 (firstn n tidying)) as [m|] eqn:E; [|apply fh_start; exact r0_faced].
  exact (freplay_history _ r0 m (fh_start r0 r0_faced) E).
Qed.
Example facedAfter_same : map (fun n => (edgeCount (facedAfter n), nodeCount (facedAfter n), faceCount (facedAfter n))) [0; 1; 2; 3; 4; 5; 6; 7]%nat =
  map (fun n => (edgeCount (tidied n), nodeCount (tidied n), faceCount (tidied n))) [0; 1; 2; 3; 4; 5; 6; 7]%nat.
Proof. vm_compute. reflexivity. Qed.

(** ** A node of three pixels with no edges *)
Definition ell : img := picture [
  [R 0; R 0; R 0; R 0; R 0; R 0; R 0; R 0; R 0; R 0];
  [R 0; V 0; L 0; V 2; L 1; L 1; L 1; L 1; L 1; R 0];
  [R 0; L 2; R 1; L 3; R 2; R 2; R 2; R 2; L 1; R 0];
  [R 0; L 2; R 1; L 3; R 2; R 2; V 1; R 2; L 1; R 0];
  [R 0; L 2; R 1; L 3; R 2; V 1; V 1; R 2; L 1; R 0];
  [R 0; L 2; R 1; L 3; R 2; R 2; R 2; R 2; L 1; R 0];
  [R 0; L 2; L 2; V 3; L 1; L 1; L 1; L 1; L 1; R 0];
  [R 0; R 0; R 0; R 0; R 0; R 0; R 0; R 0; R 0; R 0]] 10 8.
(** the contours: 1 is the frame with the wall, 2 the node *)
Definition ellComponents (im : img) : (Z -> Z -> Z) * nat :=
  (fun x y => if ctypeEqb (ptype (ipix im x y)) Region then 0 else if (5 <=? x) && (x <=? 6) && (3 <=? y) && (y <=? 4) then 2 else 1, 2%nat).
Definition ellArea (_ : img) (x y : Z) : Z := if x =? 6 then 3 else 1.
Definition ell0 : cmap := Eval vm_compute in mapOf (import ellArea (fun _ _ _ => []) ellComponents ell).
Lemma ell_imported : import ellArea (fun _ _ _ => []) ellComponents ell = Ok ell0.
Proof. vm_compute. reflexivity. Qed.
Lemma ell_sound : sound ell0.
Proof.
  apply (import_sound ellArea (fun _ _ _ => []) ellComponents ell).
  - apply wfImgB_holds. vm_compute. reflexivity.
  - apply framedB_holds. vm_compute. reflexivity.
  - vm_compute. reflexivity.
  - apply linesLiveB_holds. vm_compute. reflexivity.
Qed.
Lemma ell_wired : wired ell0.
Proof. apply (wiredB_holds 40); [exact ell_sound|vm_compute; reflexivity]. Qed.
Lemma ell_faced : faced ell0.
Proof. apply facedB_holds; [exact ell_wired|vm_compute; reflexivity]. Qed.
Definition ell1 : cmap := Eval vm_compute in match removeIsolatedNode ell0 (Dart 6 3 4) with Ok (m, _) => m | _ => ell0 end.

Lemma ell_isolated : isolatedIn (cim ell0) 1 2.
Proof.
  assert (A : allowedB ell0 (CRemoveIsolatedNode (Dart 6 3 3)) = true) by (vm_compute; reflexivity). apply allowedB_holds in A. destruct A as (n & f & (_ & _ & O) & F & I).
  assert (En : ipix (cim ell0) 6 3 = Pix Vertex 1) by (vm_compute; reflexivity). assert (Ef : leftFaceLabel (cim ell0) (Dart 6 3 3) = Ok 2) by (vm_compute; reflexivity).
  cbn [dcx dcy] in O. rewrite En in O. rewrite Ef in F. injection O as <-. injection F as <-. exact I.
Qed.
Lemma ell1_wrong : ~ recount ell1.
Proof.
  intros (A & _). assert (nth_error (cellsOf ell1 Region) 1 = Some (CInfo 1 (Rect 2 2 3 6) 7)) as E by (vm_compute; reflexivity).
  destruct (A Region 1%nat _ E eq_refl) as (_ & (X & _) & _).
  assert (owns (cim ell1) Region 1 6 3) as O by (split; [vm_compute; split; [discriminate | reflexivity]|]; split; [vm_compute; split; [discriminate | reflexivity]|]; vm_compute; reflexivity).
  apply X in O. unfold inRect in O. cbn in O. lia.
Qed.

(** removeIsolatedNode() with the anchor of the node: its pixels go to a face that does not touch them, and that face loses its contour *)
Theorem anchor_refuted : exists m n m' s f x y,
  faced m /\ isNode m 1 n /\ ndegree n = 0 /\ nanchor n = Dart x y 4 /\ owns (cim m) Vertex 1 x y /\ removeIsolatedNode m (nanchor n) = Ok (m', s) /\
  isolatedIn (cim m) 1 2 /\ s = 1 /\ owns (cim m') Region 1 x y /\ nth_error (cfaces m') 1 = Some f /\ fcontours f = [] /\ ~ recount m'.
Proof.
  exists ell0, (NInfo (CInfo 1 (Rect 5 3 7 5) 3) (Dart 6 3 4) 0), ell1, 1, (FInfo (CInfo 1 (Rect 2 2 3 6) 7) []), 6, 3.
  split; [exact ell_faced|]. split; [split; reflexivity|]. split; [reflexivity|]. split; [reflexivity|]. split; [split; [cbn; lia|split; [cbn; lia|reflexivity]]|].
  split; [vm_compute; reflexivity|]. split; [exact ell_isolated|]. split; [reflexivity|]. split; [split; [cbn; lia|split; [cbn; lia|vm_compute; reflexivity]]|].
  split; [reflexivity|]. split; [reflexivity|]. exact ell1_wrong.
Qed.
