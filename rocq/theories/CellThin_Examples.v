(** A wall with a kink to try the statements on, and statements that do not hold. *)
From Coq Require Import Lia.
From Verif Require Import Base CellMap_Model CellMap_Spec CellMap_Scan CellMap_Proofs CellMap_Main CellMap_Init CellMap_InitProofs CellMap_Check CellMap_Examples
  CellFace_Examples CellThin_Model CellThin_Spec CellThin_Pixel CellThin_Edge CellThin_Move.
Local Open Scope Z_scope.

(** ** Counting by computing *)
Definition hasB (im : img) (t : ctype) (l : Z) (p : Z * Z) : bool := pixEqb (ipix im (fst p) (snd p)) (Pix t l).
Definition countB (im : img) (t : ctype) (l : Z) : Z := Z.of_nat (length (filter (hasB im t l) (allPoints im))).
Lemma countB_many im t l : manyPixels (owns im t l) (countB im t l).
Proof.
  exists (filter (hasB im t l) (allPoints im)). split; [apply NoDup_filter, rectPoints_NoDup|]. split; [|reflexivity]. intros x y. rewrite filter_In. unfold hasB. cbn [fst snd]. rewrite pixEqb_eq. unfold allPoints. rewrite rectPoints_in. unfold inRect, owns. cbn. tauto.
Qed.
Lemma not_sound m t l c : nth_error (cellsOf m t) l = Some c -> initialized c = true -> ~ (t = Region /\ l = 0%nat) -> csize c <> countB (cim m) t (Z.of_nat l) -> ~ sound m.
Proof. intros A B N D (_ & _ & HC & _). destruct (HC t l c A B) as (_ & _ & M). apply D. exact (manyPixels_unique _ _ _ (M N) (countB_many _ _ _)). Qed.
Lemma sound_fine m : sound m -> (forall x y, 0 <= x < iw (cim m) -> 0 <= y < ih (cim m) -> ptype (ipix (cim m) x y) <> ErrorType) -> fine m.
Proof.
  intros S N. split; [intros t l c H; apply (live_facts _ _ _ _ S H)|]. intros x y X Y.
  destruct (pixel_live m x y (ptype (ipix (cim m) x y)) (plabel (ipix (cim m) x y)) S) as [A B]; [split; [exact X|split; [exact Y|destruct (ipix (cim m) x y); reflexivity]]|exact (N x y X Y)|]. split; [lia|exact B].
Qed.

(** ** Two rooms, the wall between them is edge 3 *)
Definition kink : img := picture [
  [R 0; R 0; R 0; R 0; R 0; R 0; R 0; R 0; R 0; R 0; R 0];
  [R 0; V 0; L 0; L 0; L 0; L 0; V 1; L 1; L 1; L 1; R 0];
  [R 0; L 2; R 1; R 1; R 1; R 1; L 3; R 2; R 2; L 1; R 0];
  [R 0; L 2; R 1; R 1; R 1; R 1; L 3; R 2; R 2; L 1; R 0];
  [R 0; L 2; R 1; R 1; R 1; L 3; R 2; R 2; R 2; L 1; R 0];
  [R 0; L 2; R 1; R 1; R 1; L 3; R 2; R 2; R 2; L 1; R 0];
  [R 0; L 2; R 1; R 1; R 1; L 3; R 2; R 2; R 2; L 1; R 0];
  [R 0; L 2; L 2; L 2; L 2; V 2; L 1; L 1; L 1; L 1; R 0];
  [R 0; R 0; R 0; R 0; R 0; R 0; R 0; R 0; R 0; R 0; R 0]] 11 9.
Definition kinkComponents (im : img) : (Z -> Z -> Z) * nat := (fun x y => if ctypeEqb (ptype (ipix im x y)) Region then 0 else 1, 1%nat).
Definition k0 : cmap := Eval vm_compute in mapOf (import (fun _ _ _ => 1) (fun _ _ _ => []) kinkComponents kink).
Lemma k0_sound : sound k0.
Proof.
  apply (import_sound (fun _ _ _ => 1) (fun _ _ _ => []) kinkComponents kink).
  - apply wfImgB_holds. vm_compute. reflexivity.
  - apply framedB_holds. vm_compute. reflexivity.
  - vm_compute. reflexivity.
  - apply linesLiveB_holds. vm_compute. reflexivity.
Qed.
Lemma k0_fine : fine k0.
Proof.
  apply (sound_fine k0 k0_sound). intros x y X Y. assert (plainB (cim k0) = true) as P by (vm_compute; reflexivity). unfold plainB in P. pose proof (everyPixel_holds _ _ P x y X Y) as Q. cbn beta in Q.
  destruct (ptype (ipix (cim k0) x y)); try discriminate. 
Qed.

(** ** reassociate *)
(** the wall goes through (6, 4) instead of (5, 4) *)
Lemma k0_contact : hasContact (cim k0) 6 4.
Proof. exists 7, 4. split; [discriminate|]. split; [lia|]. split; [lia|]. vm_compute. repeat split; discriminate. Qed.
Definition cellB (m : cmap) (t : ctype) (l : nat) : option cinfo := match nth_error (cellsOf m t) l with Some c => if initialized c then Some c else None | None => None end.
Lemma cellB_is m t l c : cellB m t l = Some c -> isCell m t l c.
Proof. unfold cellB, isCell. destruct (nth_error (cellsOf m t) l) as [d|]; [|discriminate]. destruct (initialized d) eqn:E; [|discriminate]. intros [= ->]. auto. Qed.
Definition liveP (m : cmap) (p : pix) : bool := (0 <=? plabel p) && match cellB m (ptype p) (Z.to_nat (plabel p)) with Some _ => true | None => false end.
Lemma liveP_is m p : liveP m p = true -> isLive m p.
Proof. unfold liveP. rewrite andb_true_iff, Z.leb_le. intros [A B]. split; [exact A|]. destruct (cellB m (ptype p) (Z.to_nat (plabel p))) as [c|] eqn:E; [|discriminate B]. exists c. apply cellB_is, E. Qed.
Definition k1 : cmap := Eval vm_compute in mapOf (reassociate k0 6 4 (Pix Line 3)).
Lemma k1_is : reassociate k0 6 4 (Pix Line 3) = Ok k1. Proof. vm_compute. reflexivity. Qed.
Lemma sizes_refuted : exists m x y new m', sound m /\ boundsRight m /\ pixelsLive m /\ hasContact (cim m) x y /\ isLive m new /\ reassociate m x y new = Ok m' /\ ~ sound m'.
Proof.
  exists k0, 6, 4, (Pix Line 3), k1. split; [exact k0_sound|]. split; [apply k0_fine|]. split; [apply k0_fine|]. split; [exact k0_contact|]. split; [apply liveP_is; vm_compute; reflexivity|]. split; [exact k1_is|].
  eapply (not_sound k1 Line 3); [vm_compute; reflexivity|vm_compute; reflexivity|intros [D _]; discriminate D|vm_compute; discriminate].
Qed.
(** the rectangle of the wall is the same, that of the second face has lost nothing; the wall at (6, 2) moves: now it begins a row further down *)
Example k0_shrinks : exists m', reassociate k0 6 2 (Pix Region 2) = Ok m' /\
  map (fun c => cbounds c) (cellsOf k0 Line) = [Rect 2 1 6 2; Rect 6 1 10 8; Rect 1 2 5 8; Rect 5 2 7 7] /\
  map (fun c => cbounds c) (cellsOf m' Line) = [Rect 2 1 6 2; Rect 6 1 10 8; Rect 1 2 5 8; Rect 5 3 7 7].
Proof. eexists. split; [vm_compute; reflexivity|]. split; vm_compute; reflexivity. Qed.
(** a node of one pixel *)
Example k0_only : reassociate k0 6 1 (Pix Line 3) = UB.
Proof.
  apply reassociate_only; [apply k0_fine|apply k0_fine|vm_compute; split; [discriminate|reflexivity]|vm_compute; split; [discriminate|reflexivity]|vm_compute; discriminate|].
  intros a b (X & Y & K). assert (everyPixel (cim k0) (fun x y => negb (pixEqb (ipix (cim k0) x y) (Pix Vertex 1)) || ((x =? 6) && (y =? 1))) = true) as P by (vm_compute; reflexivity).
  pose proof (everyPixel_holds _ _ P a b X Y) as Q. cbn beta in Q. change (Pix (ptype (ipix (cim k0) 6 1)) (plabel (ipix (cim k0) 6 1))) with (Pix Vertex 1) in K. rewrite K in Q. cbn in Q. apply andb_true_iff in Q. rewrite !Z.eqb_eq in Q. destruct Q as [-> ->]. reflexivity.
Qed.

(** ** edgeRethinning *)
Definition wallRange : rect := Rect 4 1 8 8.
Definition wall : einfo := Eval vm_compute in match nth_error (cedges k0) 3 with Some e => e | None => EInfo newInfo noDart noDart end.
(** what the hypotheses of the theorem say, by computing *)
Definition grownB (grown : Z -> Z -> Z) (f1 f2 : Z) : bool :=
  everyPixel (cim k0) (fun x y => negb (pixEqb (ipix (cim k0) x y) (Pix Line 3)) || ((grown x y =? 0) || (grown x y =? f1) || (grown x y =? f2)) && (4 <=? x) && (x <? 8) && (1 <=? y) && (y <? 8)).
Lemma grownB_is grown f1 f2 : grownB grown f1 f2 = true ->
  (forall x y, owns (cim k0) Line 3 x y -> inRect wallRange x y) /\ (forall x y, owns (cim k0) Line 3 x y -> grown x y = 0 \/ grown x y = f1 \/ grown x y = f2).
Proof.
  intros P. assert (forall x y, owns (cim k0) Line 3 x y -> inRect wallRange x y /\ (grown x y = 0 \/ grown x y = f1 \/ grown x y = f2)) as Q.
  { intros x y (X & Y & K). pose proof (everyPixel_holds _ _ P x y X Y) as Q. cbn beta in Q. rewrite K in Q. cbn [pixEqb ptype plabel ctypeEqb andb negb orb Z.eqb Pos.eqb] in Q. rewrite !andb_true_iff, !orb_true_iff, !Z.eqb_eq, !Z.leb_le, !Z.ltb_lt in Q. unfold inRect. cbn. lia. }
  split; intros x y K; apply (Q x y K).
Qed.
(** the two rooms grow into the wall from both sides *)
Definition twice : Z -> Z -> Z := fun x y => if (x =? 5) && (y =? 4) then 1 else if (x =? 6) && (y =? 2) then 2 else 0.
Example k0_thinned : exists m', edgeRethinning twice k0 3 wallRange = Ok m' /\ sound m' /\ thinned (cim k0) (cim m') 3 twice /\
  map (fun c => (cbounds c, csize c)) (cellsOf m' Line) = [(Rect 2 1 6 2, 4); (Rect 6 1 10 8, 12); (Rect 1 2 5 8, 9); (Rect 5 3 7 7, 3)] /\
  map (fun c => csize c) (cellsOf k0 Region) = [4294967295; 17; 13] /\ map (fun c => csize c) (cellsOf m' Region) = [4294967295; 18; 14].
Proof.
  assert (grownB twice 2 1 = true) as G by (vm_compute; reflexivity). apply grownB_is in G. destruct G as [G1 G2].
  assert (at_ (cedges k0) 3 = Ok wall) as A1 by (vm_compute; reflexivity). assert (initialized (einf wall) = true) as A2 by (vm_compute; reflexivity).
  assert (leftFaceLabel (cim k0) (estart wall) = Ok 2) as A3 by (vm_compute; reflexivity). assert (rightFaceLabel (cim k0) (estart wall) = Ok 1) as A4 by (vm_compute; reflexivity).
  assert (exists c, isCell k0 Region (Z.to_nat 2) c) as A5 by (eexists; apply cellB_is; vm_compute; reflexivity). assert (exists c, isCell k0 Region (Z.to_nat 1) c) as A6 by (eexists; apply cellB_is; vm_compute; reflexivity).
  assert (throughout (cim k0) wallRange) as A7 by (vm_compute; repeat split; discriminate).
  assert (exists x y, owns (cim k0) Line 3 x y /\ twice x y = 0) as A8 by (exists 5, 5; split; [|reflexivity]; vm_compute; repeat split; discriminate).
  destruct (edgeRethinning_sound twice k0 3 wall 2 1 wallRange k0_sound A1 A2 A3 A4 ltac:(lia) A5 A6 ltac:(lia) ltac:(lia) A7 G1 G2 A8) as (m' & E & S & T & _).
  exists m'. split; [exact E|]. split; [exact S|]. split; [exact T|].
  assert (match edgeRethinning twice k0 3 wallRange with Ok q =>
    map (fun c => (cbounds c, csize c)) (cellsOf q Line) = [(Rect 2 1 6 2, 4); (Rect 6 1 10 8, 12); (Rect 1 2 5 8, 9); (Rect 5 3 7 7, 3)] /\
    map (fun c => csize c) (cellsOf k0 Region) = [4294967295; 17; 13] /\ map (fun c => csize c) (cellsOf q Region) = [4294967295; 18; 14] | _ => False end) as Q by (vm_compute; auto).
  rewrite E in Q. exact Q.
Qed.
(** if no pixel is left to the edge, it stays a cell of the map without pixels *)
Definition flood : Z -> Z -> Z := fun _ _ => 2.
Lemma vanish_refuted : exists grown m e ei f1 f2 r m', sound m /\ at_ (cedges m) e = Ok ei /\ initialized (einf ei) = true /\
  leftFaceLabel (cim m) (estart ei) = Ok f1 /\ rightFaceLabel (cim m) (estart ei) = Ok f2 /\ f1 <> f2 /\
  (forall x y, owns (cim m) Line e x y -> inRect r x y) /\ (forall x y, owns (cim m) Line e x y -> grown x y = 0 \/ grown x y = f1 \/ grown x y = f2) /\
  edgeRethinning grown m e r = Ok m' /\ (exists c, isCell m' Line (Z.to_nat e) c) /\ (forall x y, ~ owns (cim m') Line e x y) /\ ~ sound m'.
Proof.
  assert (grownB flood 2 1 = true) as G by (vm_compute; reflexivity). apply grownB_is in G. destruct G as [G1 G2].
  assert (edgeRethinning flood k0 3 wallRange = Ok (mapOf (edgeRethinning flood k0 3 wallRange))) as E' by (vm_compute; reflexivity).
  set (m' := mapOf (edgeRethinning flood k0 3 wallRange)) in *.
  assert (forall x y, ~ owns (cim m') Line 3 x y) as N.
  { intros x y (X & Y & K). assert (everyPixel (cim m') (fun x y => negb (pixEqb (ipix (cim m') x y) (Pix Line 3))) = true) as P by (vm_compute; reflexivity). pose proof (everyPixel_holds _ _ P x y X Y) as Q. cbn beta in Q. rewrite K in Q. discriminate Q. }
  assert (isCell m' Line 3 (CInfo 3 emptyRect 0)) as C by (apply cellB_is; vm_compute; reflexivity).
  exists flood, k0, 3, wall, 2, 1, wallRange, m'. split; [exact k0_sound|]. split; [vm_compute; reflexivity|]. split; [reflexivity|]. split; [vm_compute; reflexivity|]. split; [vm_compute; reflexivity|]. split; [lia|]. split; [exact G1|]. split; [exact G2|]. split; [exact E'|].
  split; [eexists; exact C|]. split; [exact N|]. intros S. destruct (live_facts _ _ _ _ S C) as (_ & _ & _ & (b & B) & _). exact (N _ _ B).
Qed.
(** a label that is neither 0 nor that of one of the two faces: the pixel stays, but is no longer counted *)
Definition foreign : Z -> Z -> Z := fun x y => if (x =? 5) && (y =? 4) then 9 else 0.
Lemma foreign_refuted : exists grown m e r m', sound m /\ (forall x y, owns (cim m) Line e x y -> inRect r x y) /\ (exists x y, owns (cim m) Line e x y /\ grown x y = 0) /\
  edgeRethinning grown m e r = Ok m' /\ (forall x y, ipix (cim m') x y = ipix (cim m) x y) /\ ~ sound m'.
Proof.
  assert (grownB twice 2 1 = true) as G by (vm_compute; reflexivity). apply grownB_is in G. destruct G as [G1 _].
  assert (edgeRethinning foreign k0 3 wallRange = Ok (mapOf (edgeRethinning foreign k0 3 wallRange))) as E' by (vm_compute; reflexivity).
  exists foreign, k0, 3, wallRange, (mapOf (edgeRethinning foreign k0 3 wallRange)). split; [exact k0_sound|]. split; [exact G1|]. split; [exists 5, 5; split; [|reflexivity]; vm_compute; repeat split; discriminate|]. split; [exact E'|]. split; [reflexivity|].
  eapply (not_sound _ Line 3); [vm_compute; reflexivity|vm_compute; reflexivity|intros [D _]; discriminate D|vm_compute; discriminate].
Qed.

(** ** The pixels of the former node *)
(** the gradient at the centre (5, 4) is 1, below it 2, at (6, 4), where the centre goes, 0 *)
Definition slope : Z -> Z -> Z := fun x y => if (x =? 5) && (y =? 4) then 1 else if (x =? 5) && (y =? 5) then 2 else 0.
Definition k2 : cmap := Eval vm_compute in match relocatePoint k0 slope 5 4 with Ok (m, _) => m | _ => k0 end.
Lemma k2_is : relocatePoint k0 slope 5 4 = Ok (k2, [(6, 3); (5, 5)]). Proof. vm_compute. reflexivity. Qed.
Lemma uphill_refuted : exists m grad x y m' ps a b, sound m /\ boundsRight m /\ pixelsLive m /\ relocatePoint m grad x y = Ok (m', ps) /\ relocated (cim m) (cim m') x y a b /\ grad a b < grad x y.
Proof.
  exists k0, slope, 5, 4, k2, [(6, 3); (5, 5)], 6, 4. split; [exact k0_sound|]. split; [apply k0_fine|]. split; [apply k0_fine|]. split; [exact k2_is|]. split; [|vm_compute; reflexivity].
  destruct (relocatePoint_moved _ _ _ _ _ _ k0_fine k2_is) as [(E & _)|(_ & _ & _ & a & b & Rl & _)].
  - exfalso. apply (f_equal (fun m => ipix (cim m) 5 4)) in E. vm_compute in E. discriminate E.
  - assert ((a, b) = (6, 4)) as Eab; [|injection Eab as -> ->; exact Rl].
    destruct (point_dec a b 6 4) as [E|E]; [exact E|]. exfalso. destruct Rl as (_ & _ & _ & _ & _ & _ & _ & Rr). assert (ipix (cim k2) 6 4 = ipix (cim k0) 6 4) as K by (apply Rr; congruence). vm_compute in K. discriminate K.
Qed.
Lemma move_sizes_refuted : exists fuel m grad ps m', sound m /\ boundsRight m /\ pixelsLive m /\ relocatePoints fuel m grad ps = Ok m' /\ ~ sound m'.
Proof.
  exists 5%nat, k0, slope, [(5, 4)], k2. split; [exact k0_sound|]. split; [apply k0_fine|]. split; [apply k0_fine|]. split; [vm_compute; reflexivity|].
  eapply (not_sound k2 Region 1); [vm_compute; reflexivity|vm_compute; reflexivity|intros [_ D]; discriminate D|vm_compute; discriminate].
Qed.
