(** Concrete maps with face statistics, and what does not hold. *)
From Coq Require Import QArith Permutation.
From Verif Require Import Base GeoMap_Model GeoMap_Views GeoMap_SInv GeoMap_History GeoMap_Spec GeoMap_Examples Scanlines_Model Scanlines_Spec Scanlines_Proofs LabelImage_Model LabelImage_Spec LabelImage_Inv LabelImage_Main LabelImage_Examples
  FaceStats_Model FaceStats_Spec FaceStats_Main.
Local Open Scope Z_scope.

Inductive zcall := ZM (seen : bool) (c : ycall) | ZBox (l : nat) | ZStats (o : orig Z) (min : nat) (extra : nat -> nat -> list Z) | ZDetach | ZDrop.
Definition asF (c : zcall) : fcall Z :=
  match c with ZM seen c => FMap seen (asL c) | ZBox l => FBox l | ZStats o min extra => FStats o min extra | ZDetach => FDetach | ZDrop => FDrop end.
Definition fallowedb (fs : fstate Z) (c : zcall) : bool :=
  match c with
  | ZM _ c => lallowedb (fm fs) c
  | ZBox l => liveb (faceP (lg (fm fs)) l) (fun _ => true)
  | ZStats _ _ _ => match fsl fs with SNone => true | _ => false end
  | _ => true
  end.
Lemma fallowedb_spec fs c : Inv (lg (fm fs)) -> fallowedb fs c = true -> fallowed fs (asF c).
Proof.
  intros HI. destruct c as [seen c|l|o min extra| |]; cbn [fallowedb asF fallowed]; intros H; try exact I.
  - apply lallowedb_spec; assumption.
  - apply liveb_spec in H as (f & E & _). exists f. exact E.
  - destruct (fsl fs); try discriminate. reflexivity.
Qed.

Definition inBoxb (b : box) (p : point) : bool := (bx0 b <=? fst p) && (fst p <=? bx1 b) && (by0 b <=? snd p) && (snd p <=? by1 b).
Lemma inBoxb_spec b p : inBoxb b p = true -> inBox b p.
Proof. unfold inBoxb, inBox. rewrite !andb_true_iff, !Z.leb_le. lia. Qed.
Definition coverb m (bx : boxes) : bool :=
  forallb (fun l => match nth l (faces m) None with
                    | None => true
                    | Some _ => Nat.eqb l 0 || match bx l with
                                | None => false
                                | Some b => forallb (fun o => match o with Some e => negb (optnat_eqb (elf e) (Some l) || optnat_eqb (erf e) (Some l)) || forallb (inBoxb b) (epts e) | None => true end) (edges m)
                                end
                    end) (seq 0 (length (faces m))).
Lemma optnat_refl o : optnat_eqb o o = true.
Proof. destruct o; [apply Nat.eqb_refl | reflexivity]. Qed.
Lemma coverb_spec m bx : coverb m bx = true -> boxesCover m bx.
Proof.
  unfold coverb. intros H l f Hf N. rewrite forallb_forall in H. unfold isFace, faceP in Hf. destruct (nth_error (faces m) l) as [o|] eqn:En; [|discriminate]. injection Hf as ->.
  assert (Ll : (l < length (faces m))%nat) by (apply nth_error_Some; congruence). specialize (H l ltac:(apply in_seq; lia)). rewrite (nth_error_nth _ _ None En) in H. apply Nat.eqb_neq in N. rewrite N in H. cbn [orb] in H. destruct (bx l) as [b|]; [|discriminate].
  exists b. split; [reflexivity|]. intros d ps p Hd (e & He & ->) Hp. apply inBoxb_spec. rewrite forallb_forall in H. unfold isEdge, edgeP in He. destruct (nth_error (edges m) (elab d)) as [o|] eqn:Ee; [|discriminate]. injection He as ->. specialize (H _ (nth_error_In _ _ Ee)). cbn in H.
  unfold leftLabel in Hd. apply bind_Ok in Hd. destruct Hd as (e' & He' & Hd). assert (e' = e). { unfold deref, gEdge, deref, edgeP in He'. rewrite Ee in He'. cbn in He'. congruence. } subst e'. injection Hd as Hd. unfold e_lf in Hd.
  assert (K : optnat_eqb (elf e) (Some l) || optnat_eqb (erf e) (Some l) = true) by (destruct (0 <? d); rewrite Hd, optnat_refl; [reflexivity | apply orb_true_r]).
  rewrite K in H. cbn [negb orb] in H. rewrite forallb_forall in H. apply H. destruct (0 <? d); [exact Hp | apply in_rev, Hp].
Qed.

Definition onb (sl : slot Z) : bool := match sl with SOn _ => true | _ => false end.
Definition fcountedb (fs : fstate Z) (c : zcall) : bool :=
  match c with
  | ZM _ c => trackedb (fm fs) c && (quiet c || match c with YSet true => negb (isLive (lim (fm fs))) && (larea (fm fs) 0%nat =? 0) && coverb (lg (fm fs)) (allBoxes (lg (fm fs)) (fbx fs)) | _ => false end) &&
             (negb (onb (fsl fs)) || match c with YX _ | YScan _ => true | _ => false end)
  | ZStats o _ _ => (ow o =? fst (lsize (fm fs))) && (oh o =? snd (lsize (fm fs)))
  | _ => true
  end.
Lemma fcountedb_spec unit fs c : fcountedb fs c = true -> fcounted unit fs (asF c).
Proof.
  destruct c as [seen c|l|o min extra| |]; cbn [fcountedb asF fcounted]; intros H; try exact I.
  - apply andb_true_iff in H as [H H3]. apply andb_true_iff in H as [H1 H2]. apply trackedb_spec in H1. split; [|split].
    + destruct (quiet c) eqn:Q; [apply quiet_counted; assumption|]. cbn [orb] in H2. destruct c as [o|ord t wi|[]|new mx|l]; try discriminate. apply andb_true_iff in H2 as [H2 _]. apply andb_true_iff in H2 as [_ H2]. apply Z.eqb_eq in H2. split; [exact H1|]. intros _. exact H2.
    + destruct c as [o|ord t []|[]|new mx|l]; cbn [asL]; try exact I; [discriminate H2|]. intros _. cbn [quiet orb] in H2. apply andb_true_iff in H2 as [_ H2]. apply coverb_spec, H2.
    + intros (s & Es). rewrite Es in H3. cbn [onb negb orb] in H3. destruct c; try discriminate; exact I.
  - apply andb_true_iff in H as [A B]. apply Z.eqb_eq in A, B. rewrite A, B. destruct (lsize (fm fs)); reflexivity.
Qed.

Section Replay.
Variable debug : bool.
Fixpoint freplayFrom (cs : list zcall) (fs : fstate Z) : res (fstate Z) :=
  match cs with
  | [] => Ok fs
  | c :: t => if fallowedb fs c && fcountedb fs c then s <- fexec isort 1 debug fs (asF c) ;; freplayFrom t s else UB
  end.
Lemma freplayFrom_hist cs : forall fs fs', fhistory isort 1 debug (fcounted 1) fs -> freplayFrom cs fs = Ok fs' -> fhistory isort 1 debug (fcounted 1) fs'.
Proof.
  induction cs as [|c cs IH]; cbn [freplayFrom]; intros fs fs' H E; [congruence|]. destruct (fallowedb fs c && fcountedb fs c) eqn:K; [|discriminate]. apply andb_true_iff in K as [K1 K2].
  destruct (fexec isort 1 debug fs (asF c)) as [s| | |] eqn:E1; try discriminate. cbn [bind] in E. apply (IH s); [|exact E]. apply (fh_call Z isort 1 debug _ fs (asF c) s H); [|apply fcountedb_spec, K2 | exact E1].
  apply fallowedb_spec; [|exact K1]. apply (hist_inv isort isort_sorter 1 (fm fs) (hist_tracked isort 1 (fm fs) (stats_map Z isort isort_sorter 1 debug fs H))).
Qed.
Definition freplay w h cs : fstate Z := match freplayFrom cs (newState w h) with Ok s => s | _ => newState w h end.
Definition freplays w h cs : bool := match freplayFrom cs (newState w h) with Ok _ => true | _ => false end.
Lemma freplay_hist w h cs : 0 <= w -> 0 <= h -> freplays w h cs = true -> fhistory isort 1 debug (fcounted 1) (freplay w h cs).
Proof.
  intros Hw Hh. unfold freplays, freplay. destruct (freplayFrom cs (newState w h)) as [s| | |] eqn:E; try discriminate. intros _. apply (freplayFrom_hist cs (newState w h)); [apply fh_new; assumption | exact E].
Qed.
End Replay.

(** two rectangles side by side with 21 and 18 pixels; the value at (x, y) is 100 y + x *)
Definition base : list zcall := map (ZM true) (windows ++ [YInit [2;3;1]%nat [] false; YSet true]).
Definition photo : orig Z := mkOrig 11 11 (fun x y => 100 * y + x).
Definition between (l k : nat) : list Z := repeat 7 10.
Definition merge2 : zcall := ZM true (YX (OMergeFaces 2)).
Definition plainState := freplay true 11 11 base.
(** no face is supersampled / both are / only the survivor of a merge is *)
Definition onState := freplay true 11 11 (base ++ [ZStats photo 0 between]).
Definition bothState := freplay true 11 11 (base ++ [ZStats photo 30 between]).
Definition oneState := freplay true 11 11 (base ++ [ZStats photo 20 between]).
Definition mergedState := freplay true 11 11 (base ++ [ZStats photo 0 between; merge2]).
Definition mergedBoth := freplay true 11 11 (base ++ [ZStats photo 30 between; merge2]).
Definition droppedState := freplay true 11 11 (base ++ [ZStats photo 0 between; ZDrop]).
Ltac replayed := apply freplay_hist; [lia | lia | vm_compute; reflexivity].
Lemma plain_fhist : fhistory isort 1 true (fcounted 1) plainState. Proof. replayed. Qed.
Lemma on_fhist : fhistory isort 1 true (fcounted 1) onState. Proof. replayed. Qed.
Lemma both_fhist : fhistory isort 1 true (fcounted 1) bothState. Proof. replayed. Qed.
Lemma one_fhist : fhistory isort 1 true (fcounted 1) oneState. Proof. replayed. Qed.
Lemma merged_fhist : fhistory isort 1 true (fcounted 1) mergedState. Proof. replayed. Qed.
Lemma mergedBoth_fhist : fhistory isort 1 true (fcounted 1) mergedBoth. Proof. replayed. Qed.
Lemma dropped_fhist : fhistory isort 1 true (fcounted 1) droppedState. Proof. replayed. Qed.

Definition statsOf (fs : fstate Z) : stats Z := match fsl fs with SOn s => s | _ => mkStats photo [] 0 None 0 [] 0 0 0 end.
Lemma attached fs : onb (fsl fs) = true -> fsl fs = SOn (statsOf fs).
Proof. unfold statsOf. destruct (fsl fs); try discriminate. reflexivity. Qed.
Definition sampleCount (fs : fstate Z) (l : nat) : option nat := match nth l (sFun (statsOf fs)) None with Some xs => Some (length xs) | None => None end.

Lemma superSampled_list (fs : fstate Z) (s : stats Z) L : nodupb (map Z.of_nat L) = true -> forallb (fun l => negb (Nat.eqb (level s l) 0) && liveb (faceP (lg (fm fs)) l) (fun _ => true)) L = true ->
  forallb (fun l => Nat.eqb (level s l) 0 || negb (liveb (faceP (lg (fm fs)) l) (fun _ => true)) || existsb (Nat.eqb l) L) (seq 0 (length (faces (lg (fm fs))))) = true -> superSampledFaces (lg (fm fs)) s L.
Proof.
  intros Nd Hp Ha. rewrite forallb_forall in Hp, Ha. split; [apply nodupb_spec, NoDup_map_inv in Nd; exact Nd|]. intros l. split.
  - intros Hl. specialize (Hp l Hl). apply andb_true_iff in Hp as [A B]. split; [intros Q; rewrite Q in A; discriminate|]. apply liveb_spec in B as (f & E & _). exists f. exact E.
  - intros [A (f & E)]. assert (Ll : (l < length (faces (lg (fm fs))))%nat). { unfold isFace, faceP in E. apply nth_error_Some. intros Q. rewrite Q in E. discriminate. }
    specialize (Ha l ltac:(apply in_seq; lia)). apply orb_true_iff in Ha as [Ha|Ha]; [|apply existsb_exists in Ha as (k & Hk & Q); apply Nat.eqb_eq in Q; subst; exact Hk].
    exfalso. apply orb_true_iff in Ha as [Ha|Ha]; [apply Nat.eqb_eq in Ha; exact (A Ha)|]. unfold isFace in E. rewrite E in Ha. discriminate Ha.
Qed.
Lemma one_loses : losesTable oneState (asF merge2).
Proof.
  exists (statsOf oneState), true, yes, 2, 2, 3%nat, 1%nat. destruct (pickDart (lg (fm oneState)) 2) as [[g d']| | |] eqn:E.
  2-4: exfalso; apply (f_equal (fun r => match r with Ok _ => true | _ => false end)) in E; vm_compute in E; discriminate E.
  assert (d' = 2). { apply (f_equal (fun r => match r with Ok x => snd x | _ => 0 end)) in E. cbn [snd] in E. rewrite <- E. vm_compute. reflexivity. } subst d'. exists g.
  split; [apply attached; vm_compute; reflexivity|]. split; [left; reflexivity|]. split; [reflexivity|]. split; [vm_compute; reflexivity|]. split; [vm_compute; reflexivity|]. split; [discriminate|]. split; [reflexivity|].
  split; [unfold superSampled; vm_compute; discriminate|]. split; [intros K; apply K; vm_compute; reflexivity|]. apply superSampled_list; vm_compute; reflexivity.
Qed.
Lemma next_f (fs : fstate Z) c : isLive (match fexec isort 1 true fs c with Ok s => Some s | _ => None end) = true -> fexec isort 1 true fs c = Ok (orElse (fexec isort 1 true fs c) fs).
Proof. destruct (fexec isort 1 true fs c); try discriminate. reflexivity. Qed.

(** the survivor of a merge was the only supersampled face: the table is released and then read *)
Theorem table_refuted : exists (fs : fstate Z) s seen lc st', fhistory isort 1 true (fcounted 1) fs /\ fsl fs = SOn s /\ sCount s = 1 /\ lallowed (fm fs) lc /\ fcounted 1 fs (FMap seen lc) /\
  lexec isort 1 (fm fs) lc = Ok st' /\ fexec isort 1 true fs (FMap seen lc) = UB.
Proof.
  exists oneState, (statsOf oneState), true, (asL (YX (OMergeFaces 2))), (next (fm oneState) (asL (YX (OMergeFaces 2)))). split; [exact one_fhist|]. split; [apply attached; vm_compute; reflexivity|]. split; [vm_compute; reflexivity|].
  split; [apply (fallowedb_spec oneState merge2); [apply (hist_inv isort isort_sorter 1 _ (hist_tracked isort 1 _ (stats_map Z isort isort_sorter 1 true _ one_fhist))) | vm_compute; reflexivity]|].
  split; [apply (fcountedb_spec 1 oneState merge2); vm_compute; reflexivity|]. split; [apply next_Ok; vm_compute; reflexivity | vm_compute; reflexivity].
Qed.
(** the last supersampled face got enough pixels by associatePixels: the table is kept *)
Theorem release_refuted : exists (fs : fstate Z) s, fhistory isort 1 true (fcounted 1) fs /\ fsl fs = SOn s /\ superSampledFaces (lg (fm fs)) s [] /\ sCount s = 0 /\ sTab s <> None.
Proof.
  exists mergedBoth, (statsOf mergedBoth). split; [exact mergedBoth_fhist|]. split; [apply attached; vm_compute; reflexivity|]. split; [apply superSampled_list; vm_compute; reflexivity|]. split; [vm_compute; reflexivity | vm_compute; discriminate].
Qed.
(** the object has been destroyed, the map calls it *)
Theorem dangling_refuted : exists (fs : fstate Z) lc st', fhistory isort 1 true (fcounted 1) fs /\ lallowed (fm fs) lc /\ fcounted 1 fs (FMap true lc) /\ lexec isort 1 (fm fs) lc = Ok st' /\ fexec isort 1 true fs (FMap true lc) = UB.
Proof.
  exists droppedState, (asL (YX (OMergeFaces 2))), (next (fm droppedState) (asL (YX (OMergeFaces 2)))). split; [exact dropped_fhist|].
  split; [apply (fallowedb_spec droppedState merge2); [apply (hist_inv isort isort_sorter 1 _ (hist_tracked isort 1 _ (stats_map Z isort isort_sorter 1 true _ dropped_fhist))) | vm_compute; reflexivity]|].
  split; [apply (fcountedb_spec 1 droppedState merge2); vm_compute; reflexivity|]. split; [apply next_Ok; vm_compute; reflexivity | vm_compute; reflexivity].
Qed.
(** a box asked for stays when a node of the contour is moved *)
Theorem box_refuted : exists (fs : fstate Z) l bx b ps p d, fhistory isort 1 true anyFCall fs /\ getBox (lg (fm fs)) (fbx fs) l = Ok (bx, b) /\ leftLabel (lg (fm fs)) d = Ok (Some l) /\ ptsOf (lg (fm fs)) d ps /\ In p ps /\ ~ inBox b p.
Proof.
  set (f0 := freplay true 11 11 (map (ZM true) (windows ++ [YInit [2;3;1]%nat [] false]) ++ [ZBox 1])). set (c := LCall yes (OSetPosition 0 (5, 0))). set (f1 := orElse (fexec isort 1 true f0 (FMap true c)) f0).
  assert (H0 : fhistory isort 1 true (fcounted 1) f0) by replayed.
  assert (H0' : fhistory isort 1 true anyFCall f0). { clear - H0. induction H0 as [w h Hw Hh|fs c fs' H IH Al Ct E]; [apply fh_new; assumption | apply (fh_call Z isort 1 true anyFCall fs c fs' IH Al I E)]. }
  assert (A : fallowed f0 (FMap true c)). { apply (fallowedb_spec f0 (ZM true (YX (OSetPosition 0 (5, 0))))); [apply (hist_inv isort isort_sorter 1 _ (hist_tracked isort 1 _ (stats_map Z isort isort_sorter 1 true _ H0))) | vm_compute; reflexivity]. }
  assert (H1 : fhistory isort 1 true anyFCall f1) by (apply (fh_call Z isort 1 true anyFCall f0 (FMap true c) f1 H0' A I); apply next_f; vm_compute; reflexivity).
  exists f1, 1%nat, (fbx f1), (mkBox 1 1 5 9), [(5, 0); (1, 1); (1, 9); (5, 9)], (5, 0), 1. split; [exact H1|]. split.
  { unfold getBox. assert (Eb : fbx f1 1%nat = Some (mkBox 1 1 5 9)) by (vm_compute; reflexivity). rewrite Eb. vm_compute. reflexivity. }
  split; [vm_compute; reflexivity|]. split; [eexists; split; [vm_compute; reflexivity | reflexivity]|]. split; [left; reflexivity | intros [_ [K _]]; cbn in K; lia].
Qed.
