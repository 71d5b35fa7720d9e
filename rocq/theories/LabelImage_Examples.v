(** Concrete maps with a label image.  [lreplay] runs a list of calls and checks their preconditions by computation. *)
From Coq Require Import QArith Sorted.
From Verif Require Import Base Orbit GeoMap_Model GeoMap_Views GeoMap_SInv GeoMap_MInv GeoMap_Area GeoMap_Initialize GeoMap_History GeoMap_Geometry GeoMap_Spec GeoMap_Facts GeoMap_Results GeoMap_Examples
  Scanlines_Model Scanlines_Spec Scanlines_Proofs ScanPoly_Model ScanPoly_Spec LabelLUT_Model
  LabelImage_Model LabelImage_Spec LabelImage_Loops LabelImage_Cover LabelImage_Cache LabelImage_Inv LabelImage_Contour LabelImage_Setup LabelImage_Switch LabelImage_Relabel LabelImage_Results LabelImage_Main.
Local Open Scope Z_scope.

Inductive ycall := YX (o : GeoMap_Model.op) | YInit (ord : list nat) (t : list (Z * nat)) (wi : bool) | YSet (b : bool) | YRel (new : list nat) (mx : nat) | YScan (l : nat).
Definition asL (c : ycall) : lcall :=
  match c with YX o => LCall yes o | YInit ord t wi => LInit ord (parTable t) wi | YSet b => LSetImage b | YRel n mx => LRelabel n mx | YScan l => LScan l end.
Definition lallowedb st (c : ycall) : bool :=
  match c with
  | YX o => allowedb (lg st) (XCall o) && geometricb (lg st) (XCall o)
  | YInit ord t _ => allowedb (lg st) (XInit ord t)
  | YSet _ => true
  | YRel new _ => match new with 0%nat :: _ => true | _ => false end
  | YScan l => liveb (edgeP (lg st) l) (fun _ => true)
  end.
Lemma lallowedb_spec st c : Inv (lg st) -> lallowedb st c = true -> lallowed st (asL c).
Proof.
  intros HI. destruct c as [o|ord t wi|b|new mx|l]; cbn [lallowedb asL lallowed]; intros H.
  - apply andb_true_iff in H as [A B]. split; [apply (allowedb_spec (lg st) (XCall o) HI A) | apply (geometricb_spec (lg st) (XCall o) B)].
  - apply (allowedb_spec (lg st) (XInit ord t) HI H).
  - exact I.
  - destruct new as [|[|?] ?]; try discriminate. reflexivity.
  - apply liveb_spec in H as (e & E & _). exists e. exact E.
Qed.
(** a sufficient condition for [tracked] *)
Definition segb (a p b : point) : bool :=
  ((fst p - fst a) * (snd b - snd a) =? (snd p - snd a) * (fst b - fst a)) &&
  (Z.min (fst a) (fst b) <=? fst p) && (fst p <=? Z.max (fst a) (fst b)) && (Z.min (snd a) (snd b) <=? snd p) && (snd p <=? Z.max (snd a) (snd b)).
Definition trackedb st (c : ycall) : bool :=
  match c with
  | YX (OSplitEdge l k p ins) => (isLive (lim st) || negb (isLive (lsc st l))) &&
      (negb ins || match edgeP (lg st) l with
                   | Ok (Some e) => match nth_error (epts e) k, nth_error (epts e) (S k) with Some a, Some b => segb a p b | _, _ => true end
                   | _ => true end)
  | YX (OSetPosition _ _) => false
  | _ => true
  end.
Lemma trackedb_spec st c : trackedb st c = true -> tracked st (asL c).
Proof.
  destruct c as [o|ord t wi|b|new mx|l]; cbn [asL tracked]; try (intros _; exact I). destruct o; cbn [trackedb]; intros H; try exact I; try discriminate.
  apply andb_true_iff in H as [A B]. split.
  - intros E. rewrite E in A. cbn in A. destruct (lsc st l); [discriminate | reflexivity].
  - intros _ -> e a b He Ha Hb. cbn [negb orb] in B. unfold isEdge in He. rewrite He, Ha, Hb in B. unfold segb in B. repeat (apply andb_true_iff in B as [B ?]). unfold onSegment. rewrite Z.eqb_eq in B. rewrite !Z.leb_le in *. auto.
Qed.

Section Replay.
Variable unit : positive.
Fixpoint lreplayFrom (cs : list ycall) st : res lmap :=
  match cs with
  | [] => Ok st
  | c :: t => if lallowedb st c && trackedb st c then s <- lexec isort unit st (asL c) ;; lreplayFrom t s else UB
  end.
Lemma lreplayFrom_hist cs : forall st st', lhistory isort unit tracked st -> lreplayFrom cs st = Ok st' -> lhistory isort unit tracked st'.
Proof.
  induction cs as [|c cs IH]; cbn [lreplayFrom]; intros st st' H E; [congruence|]. destruct (lallowedb st c && trackedb st c) eqn:K; [|discriminate]. apply andb_true_iff in K as [K1 K2].
  destruct (lexec isort unit st (asL c)) as [s| | |] eqn:E1; try discriminate. cbn [bind] in E. apply (IH s); [|exact E]. apply (lh_call isort unit tracked st (asL c) s H); [|apply trackedb_spec, K2 | exact E1].
  apply lallowedb_spec; [|exact K1]. apply (hist_inv isort isort_sorter unit st H).
Qed.
Definition lreplay w h cs : lmap := match lreplayFrom cs (newMap w h) with Ok s => s | _ => newMap w h end.
Definition lreplays w h cs : bool := match lreplayFrom cs (newMap w h) with Ok _ => true | _ => false end.
Lemma lreplay_hist w h cs : 0 <= w -> 0 <= h -> lreplays w h cs = true -> lhistory isort unit tracked (lreplay w h cs).
Proof.
  intros Hw Hh. unfold lreplays, lreplay. destruct (lreplayFrom cs (newMap w h)) as [s| | |] eqn:E; try discriminate. intros _. apply (lreplayFrom_hist cs (newMap w h)); [apply lh_new; assumption | exact E].
Qed.
End Replay.

(** the pixels of the image, row by row *)
Definition rows st : list (list Z) :=
  match lim st with
  | None => []
  | Some img => map (fun y => map (fun x => ipx img (Z.of_nat x) (Z.of_nat y)) (seq 0 (Z.to_nat (iw img)))) (seq 0 (Z.to_nat (ih img)))
  end.
Definition faceLabels st : list nat := filter (fun l => isLive (nth l (faces (lg st)) None)) (seq 0 (length (faces (lg st)))).
Definition areas st : list (nat * Z) := map (fun l => (l, larea st l)) (faceLabels st).

(** two nested squares, the inner one first *)
Definition nested : list ycall :=
  [YX (OAddNode (4, 4)); YX (OAddNode (2, 2));
   YX (OAddEdge (SAnode 0) (SAnode 0) [(4,4); (4,6); (6,6); (6,4); (4,4)] 0);
   YX (OAddEdge (SAnode 1) (SAnode 1) [(2,2); (2,8); (8,8); (8,2); (2,2)] 0)].
Definition ini (cs : list ycall) ord t := cs ++ [YInit ord t true].
Definition nestedMap := lreplay 1 11 11 (ini nested [4;3;2;1]%nat [(-1, 3%nat)]).
(** two rectangles side by side and an edge hanging into the right one *)
Definition windows : list ycall :=
  [YX (OAddNode (5, 1)); YX (OAddNode (5, 9)); YX (OAddNode (8, 4));
   YX (OAddEdge (SAnode 0) (SAnode 1) [(5,1); (1,1); (1,9); (5,9)] 0);
   YX (OAddEdge (SAnode 0) (SAnode 1) [(5,1); (5,9)] 0);
   YX (OAddEdge (SAnode 0) (SAnode 1) [(5,1); (9,1); (9,9); (5,9)] 0);
   YX (OAddEdge (SAnode 0) (SAnode 2) [(5,1); (8,4)] 0)].
Definition windowsMap := lreplay 1 11 11 (ini windows [2;3;1]%nat []).

(** ** Reading off concrete facts *)
Definition withinb st x y : bool := match lim st with Some img => insideB img x y | None => false end.
Lemma within_at st x y : withinb st x y = true -> within st x y.
Proof. unfold withinb. destruct (lim st) as [img|] eqn:E; [|discriminate]. intros H. apply (within_iff st img x y E), H. Qed.
Lemma shows_at st x y f : withinb st x y = true -> labelAt st x y = Ok (Z.of_nat f) -> showsFace st x y f.
Proof. intros H E. split; [apply within_at, H | exact E]. Qed.
Lemma shows_not st x y f g : f <> g -> labelAt st x y = Ok (Z.of_nat f) -> ~ showsFace st x y g.
Proof. intros N E [_ K]. rewrite E in K. injection K as K. apply N, Nat2Z.inj, K. Qed.
Definition pixelb st x y v : bool := match lim st with Some img => insideB img x y && (ipx img x y =? v) | None => false end.
Lemma pixel_at st x y v : pixelb st x y v = true -> pixel st x y v.
Proof.
  unfold pixelb. destruct (lim st) as [img|] eqn:E; [|discriminate]. intros H. apply andb_true_iff in H as [A B]. apply LabelImage_Loops.insideB_iff in A. apply Z.eqb_eq in B. exists img. tauto.
Qed.
Lemma image_at st : isLive (lim st) = true -> lim st <> None.
Proof. destruct (lim st); [discriminate | discriminate]. Qed.

(** ** A map whose pixel areas are counted: a square with an edge hanging into it *)
Definition pin : list ycall :=
  [YX (OAddNode (2, 2)); YX (OAddNode (5, 5));
   YX (OAddEdge (SAnode 0) (SAnode 0) [(2,2); (2,8); (8,8); (8,2); (2,2)] 0); YX (OAddEdge (SAnode 0) (SAnode 1) [(2,2); (5,5)] 0)].
Definition pinMap := lreplay 1 11 11 (ini pin [2;1]%nat []).

(** if every edge that is not a bridge is part of the outer contour of the face drawn last, the areas are right *)
Lemma drawn_last unit m a l L : outerContour m l L -> (forall k e, isEdge m k e -> isBridge e = true \/ exists d, In d L /\ elab d = k) ->
  forall x y k, crossedBy unit m k x y -> wellDrawn unit m (a ++ [l]) x y.
Proof.
  intros O H x y k K. pose proof K as (e & He & Hc). destruct (H k e He) as [B|(d & Hd & <-)]; [left; exists k, e; auto|].
  right. exists (length a), l. split; [rewrite nth_error_app2, Nat.sub_diag by lia; reflexivity|]. split; [exists L, d; auto|].
  intros j q Hj Hq. exfalso. assert (nth_error (a ++ [l]) j <> None) by congruence. apply nth_error_Some in H0. rewrite app_length in H0. cbn in H0. lia.
Qed.
Fixpoint roundb m (a : Z) (i : nat) (L : list Z) : bool :=
  match L with
  | [] => match walk (nextPhi m) i a with Ok d => d =? a | _ => false end
  | d :: t => match walk (nextPhi m) i a with Ok d' => d' =? d | _ => false end && roundb m a (S i) t
  end.
Lemma roundb_spec m a L : L <> [] -> nodupb L = true -> roundb m a 0 L = true -> roundTrip m a L.
Proof.
  intros NL ND H. assert (G : forall K i, roundb m a i K = true -> (forall j d, nth_error K j = Some d -> walk (nextPhi m) (i + j) a = Ok d) /\ walk (nextPhi m) (i + length K) a = Ok a).
  { induction K as [|d K IH]; intros i R; cbn [roundb] in R.
    - destruct (walk (nextPhi m) i a) eqn:E; try discriminate. apply Z.eqb_eq in R. subst. split; [intros [|j] d; discriminate | cbn; rewrite Nat.add_0_r; exact E].
    - apply andb_true_iff in R as [R1 R2]. destruct (walk (nextPhi m) i a) eqn:E; try discriminate. apply Z.eqb_eq in R1. subst. destruct (IH _ R2) as [G1 G2]. split.
      + intros [|j] d' Hd; cbn in Hd; [rewrite Nat.add_0_r; congruence|]. replace (i + S j)%nat with (S i + j)%nat by lia. apply G1, Hd.
      + cbn [length]. replace (i + S (length K))%nat with (S i + length K)%nat by lia. exact G2. }
  destruct (G L 0%nat H) as [G1 G2]. split; [exact NL|]. split; [apply nodupb_spec, ND|]. split; [exact G1 | exact G2].
Qed.
Definition onLastb m (l : nat) (L : list Z) : bool :=
  negb (Nat.eqb l 0) && nodupb L && liveb (faceP m l) (fun f => match fanchors f, L with a :: _, b :: _ => roundb m a 0 L | _, _ => false end) &&
  forallb (fun k => match edgeP m k with Ok (Some e) => isBridge e || existsb (fun d => Nat.eqb (elab d) k) L | _ => true end) (seq 0 (length (edges m))).
Lemma onLastb_spec unit m a l L : onLastb m l L = true -> forall x y k, crossedBy unit m k x y -> wellDrawn unit m (a ++ [l]) x y.
Proof.
  unfold onLastb. intros H. repeat (apply andb_true_iff in H as [H ?]). apply drawn_last with (L := L).
  - split; [destruct (Nat.eqb_spec l 0); [discriminate | assumption]|]. apply liveb_spec in H1 as (f & Ef & Hf). destruct (fanchors f) as [|b t] eqn:Ea; [discriminate|]. destruct L as [|c L]; [discriminate|].
    exists f, b, t. split; [exact Ef|]. split; [exact Ea|]. apply roundb_spec; [discriminate | assumption | exact Hf].
  - intros k e He. rewrite forallb_forall in H0. specialize (H0 k). unfold isEdge in He. rewrite He in H0. assert (K : In k (seq 0 (length (edges m)))).
    { apply in_seq. unfold edgeP in He. destruct (nth_error (edges m) k) eqn:Q; [|discriminate]. assert (nth_error (edges m) k <> None) by congruence. apply nth_error_Some in H3. lia. }
    apply H0, orb_true_iff in K. destruct K as [K|K]; [left; exact K|]. right. apply existsb_exists in K as (d & Hd & E). apply Nat.eqb_eq in E. exists d. auto.
Qed.
(** calls that never draw the image *)
Definition quiet (c : ycall) : bool := match c with YInit _ _ true | YSet true => false | _ => true end.
Lemma quiet_counted unit st c : quiet c = true -> tracked st (asL c) -> counted unit st (asL c).
Proof. intros Q T. split; [exact T|]. destruct c as [o|ord t []|[]|new mx|l]; cbn in *; try discriminate; exact I. Qed.
Lemma quiet_hist unit cs : forallb quiet cs = true -> forall st st', lhistory isort unit (counted unit) st -> lreplayFrom unit cs st = Ok st' -> lhistory isort unit (counted unit) st'.
Proof.
  induction cs as [|c cs IH]; intros Q st st' H E; cbn [lreplayFrom forallb] in *; [congruence|]. apply andb_true_iff in Q as [Q1 Q2]. destruct (lallowedb st c && trackedb st c) eqn:K; [|discriminate]. apply andb_true_iff in K as [K1 K2].
  destruct (lexec isort unit st (asL c)) as [s| | |] eqn:E1; try discriminate. cbn [bind] in E. apply (IH Q2 s); [|exact E]. apply (lh_call isort unit _ st (asL c) s H); [|apply quiet_counted, trackedb_spec, K2; exact Q1 | exact E1].
  apply lallowedb_spec; [|exact K1]. apply (hist_inv isort isort_sorter unit st (hist_mono _ unit _ _ st (fun s c (K : counted unit s c) => proj1 K) H)).
Qed.
Definition initOk (m : gmap) ord t l L : bool := match exec m (Init ord (parTable t)) with Ok m' => onLastb m' l L | _ => false end.
Lemma counted_init unit st a l t L : initOk (lg st) (a ++ [l]) t l L = true -> counted unit st (LInit (a ++ [l]) (parTable t) true).
Proof.
  unfold initOk. intros H. split; [exact I|]. intros m' E. rewrite E in H. apply onLastb_spec with (L := L). exact H.
Qed.
Definition pinGraph := lreplay 1 11 11 pin.
Lemma pin_counted : lhistory isort 1 (counted 1) pinMap.
Proof.
  assert (G : lhistory isort 1 (counted 1) pinGraph).
  { unfold pinGraph, lreplay. destruct (lreplayFrom 1 pin (newMap 11 11)) as [s| | |] eqn:E; try (apply lh_new; lia). apply (quiet_hist 1 pin eq_refl (newMap 11 11)); [apply lh_new; lia | exact E]. }
  assert (E : lexec isort 1 pinGraph (LInit [2;1]%nat (parTable []) true) = Ok pinMap) by (vm_compute; reflexivity).
  apply (lh_call isort 1 _ pinGraph (LInit [2;1]%nat (parTable []) true) pinMap G); [|apply (counted_init 1 pinGraph [2]%nat 1 [] [1; 2; -2]); vm_compute; reflexivity | exact E].
  apply (lallowedb_spec pinGraph (YInit [2;1]%nat [] true)); [|vm_compute; reflexivity]. apply (hist_inv isort isort_sorter 1 pinGraph (hist_mono _ 1 _ _ pinGraph (fun s c (K : counted 1 s c) => proj1 K) G)).
Qed.

(** ** What does not hold *)

Lemma nested_hist : lhistory isort 1 tracked nestedMap.
Proof. apply lreplay_hist; [lia | lia | vm_compute; reflexivity]. Qed.
Lemma windows_hist : lhistory isort 1 tracked windowsMap.
Proof. apply lreplay_hist; [lia | lia | vm_compute; reflexivity]. Qed.
Lemma pin_hist : lhistory isort 1 tracked pinMap.
Proof. apply lreplay_hist; [lia | lia | vm_compute; reflexivity]. Qed.

Definition orElse {A} (r : res A) (a : A) : A := match r with Ok x => x | _ => a end.
Definition next st c := orElse (lexec isort 1 st c) st.
Lemma next_Ok st c : isLive (match lexec isort 1 st c with Ok s => Some s | _ => None end) = true -> lexec isort 1 st c = Ok (next st c).
Proof. unfold next. destruct (lexec isort 1 st c); try discriminate. reflexivity. Qed.

(** off and on again: the inner face vanishes from the image and the area of the infinite face doubles *)
Theorem switch_refuted : exists st st1 st2, lhistory isort 1 tracked st /\ lim st <> None /\ lexec isort 1 st (LSetImage false) = Ok st1 /\ lexec isort 1 st1 (LSetImage true) = Ok st2 /\
  (exists x y f fc, isFace (lg st) f fc /\ showsFace st x y f /\ ~ showsFace st2 x y f /\ larea st2 f <> larea st f) /\ larea st2 0%nat = 2 * larea st 0%nat /\ larea st 0%nat <> 0.
Proof.
  exists nestedMap, (next nestedMap (LSetImage false)), (next (next nestedMap (LSetImage false)) (LSetImage true)). split; [exact nested_hist|]. split; [apply image_at; vm_compute; reflexivity|].
  split; [apply next_Ok; vm_compute; reflexivity|]. split; [apply next_Ok; vm_compute; reflexivity|]. split; [|split; [vm_compute; reflexivity | vm_compute; discriminate]].
  exists 5, 5, 1%nat. eexists. split; [vm_compute; reflexivity|]. split; [apply shows_at; vm_compute; reflexivity|]. split; [apply (shows_not _ _ _ 3); [discriminate | vm_compute; reflexivity] | vm_compute; discriminate].
Qed.

(** scanlines asked for before splitEdge stay: an edge is counted twice *)
Theorem stale_refuted : exists st x y v L, lhistory isort 1 anyLCall st /\ pixel st x y v /\ edgesAcross 1 (lg st) x y L /\ L <> [] /\ v <> - Z.of_nat (length L).
Proof.
  set (st0 := lreplay 1 11 11 (pin ++ [YInit [2;1]%nat [] false; YScan 2])). set (st1 := next st0 (LCall yes (OSplitEdge 2 0 (3,3) true))). set (st2 := next st1 (LSetImage true)).
  assert (H0 : lhistory isort 1 tracked st0) by (apply lreplay_hist; [lia | lia | vm_compute; reflexivity]).
  assert (A0 : lallowed st0 (asL (YX (OSplitEdge 2 0 (3,3) true)))) by (apply lallowedb_spec; [apply (hist_inv isort isort_sorter 1 st0 H0) | vm_compute; reflexivity]).
  assert (H1 : lhistory isort 1 anyLCall st1).
  { apply (lh_call isort 1 anyLCall st0 (LCall yes (OSplitEdge 2 0 (3,3) true)) st1); [apply (hist_mono isort 1 tracked); [intros; exact I | exact H0] | exact A0 | exact I | apply next_Ok; vm_compute; reflexivity]. }
  assert (H2 : lhistory isort 1 anyLCall st2) by (apply (lh_call isort 1 anyLCall st1 (LSetImage true) st2 H1 I I); apply next_Ok; vm_compute; reflexivity).
  destruct (cnt_exists isort isort_sorter 1 (lg st2) 4 4) as (L & HL). pose proof (cnt_list isort isort_sorter 1 _ _ _ _ HL) as Q.
  assert (C : cnt isort 1 (lg st2) 4 4 = 1) by (vm_compute; reflexivity). exists st2, 4, 4, (-2), L. split; [exact H2|]. split; [apply pixel_at; vm_compute; reflexivity|]. split; [exact HL|]. rewrite Q in C. split; [destruct L; [cbn in C; lia | discriminate] | lia].
Qed.

(** a point inserted beside the segment: a pixel crossed by the new edges still reads as a face *)
Theorem beside_refuted : exists st c st' x y L f, lhistory isort 1 tracked st /\ lallowed st c /\ lexec isort 1 st c = Ok st' /\ edgesAcross 1 (lg st') x y L /\ L <> [] /\ showsFace st' x y f.
Proof.
  set (c := YX (OSplitEdge 1 1 (5,6) true)). set (st' := next pinMap (asL c)). destruct (cnt_exists isort isort_sorter 1 (lg st') 3 7) as (L & HL). pose proof (cnt_list isort isort_sorter 1 _ _ _ _ HL) as Q.
  assert (C : cnt isort 1 (lg st') 3 7 = 1) by (vm_compute; reflexivity). exists pinMap, (asL c), st', 3, 7, L, 0%nat. split; [exact pin_hist|].
  split; [apply lallowedb_spec; [apply (hist_inv isort isort_sorter 1 pinMap pin_hist) | vm_compute; reflexivity]|]. split; [apply next_Ok; vm_compute; reflexivity|]. split; [exact HL|]. rewrite Q in C. split; [destruct L; [cbn in C; lia | discriminate]|]. apply shows_at; vm_compute; reflexivity.
Qed.

(** mergeEdges without label image: the scanlines of the survivor have been asked for, those of the other edge not *)
Definition chain2 : list ycall :=
  [YX (OAddNode (2, 2)); YX (OAddNode (5, 5)); YX (OAddNode (8, 5));
   YX (OAddEdge (SAnode 0) (SAnode 1) [(2,2); (5,5)] 0); YX (OAddEdge (SAnode 2) (SAnode 1) [(8,5); (5,5)] 0)].
Theorem merge_undefined_refuted : exists st d, lhistory isort 1 tracked st /\ lallowed st (LCall yes (OMergeEdges d)) /\ tracked st (LCall yes (OMergeEdges d)) /\ lexec isort 1 st (LCall yes (OMergeEdges d)) = UB.
Proof.
  exists (lreplay 1 11 11 (chain2 ++ [YScan 1])), (-1). split; [apply lreplay_hist; [lia | lia | vm_compute; reflexivity]|]. split; [split; exact I|]. split; [exact I | vm_compute; reflexivity].
Qed.
Theorem switch_undefined_refuted : exists st, lhistory isort 1 tracked st /\ lexec isort 1 st (LSetImage true) = UB.
Proof. exists pinGraph. split; [apply lreplay_hist; [lia | lia | vm_compute; reflexivity] | vm_compute; reflexivity]. Qed.

(** a rejected changeFaceLabels: face 1 already bears its new label, and so does the infinite face *)
Theorem rejected_refuted : exists st new mx f, lhistory isort 1 tracked st /\ changeFaceLabels st new mx = Exn /\ isFace (lg st) 1 f /\ nth 1 (heldLabels st new mx) 0%nat <> 1%nat.
Proof.
  exists nestedMap, [0; 2; 0; 2; 0]%nat, 5%nat. eexists. split; [exact nested_hist|]. split; [vm_compute; reflexivity|]. split; [vm_compute; reflexivity | vm_compute; discriminate].
Qed.
(** the label 0 of the infinite face can be given away *)
Theorem infinite_refuted : exists st new mx st' f, lhistory isort 1 tracked st /\ changeFaceLabels st new mx = Ok st' /\
  (forall l k g h, isFace (lg st) l g -> isFace (lg st) k h -> nth l new 0%nat = nth k new 0%nat -> l = k) /\ isFace (lg st) 3 f /\ isFace (lg st') 0 f.
Proof.
  exists nestedMap, [3; 1; 2; 0; 4]%nat, 5%nat, (orElse (changeFaceLabels nestedMap [3; 1; 2; 0; 4]%nat 5) nestedMap). eexists. split; [exact nested_hist|]. split; [vm_compute; reflexivity|]. split; [|split; [vm_compute; reflexivity | vm_compute; reflexivity]].
  intros l k g h Hl Hk. unfold isFace, faceP in *. assert (Lf : length (faces (lg nestedMap)) = 5%nat) by (vm_compute; reflexivity).
  assert (Bl : (l < 5)%nat) by (rewrite <- Lf; apply nth_error_Some; destruct (nth_error _ l); congruence). assert (Bk : (k < 5)%nat) by (rewrite <- Lf; apply nth_error_Some; destruct (nth_error _ k); congruence).
  do 5 (destruct l as [|l]; [do 5 (destruct k as [|k]; [cbn; intros; try reflexivity; discriminate|]); lia|]). lia.
Qed.
