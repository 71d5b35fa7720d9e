(** A pixel of an edge is moved to the pixel next to it. *)
From Coq Require Import Lia.
From Verif Require Import Base CellMap_Model CellMap_Spec CellMap_Scan CellMap_Proofs CellMap_Main CellMap_Check CellThin_Model CellThin_Spec CellThin_Pixel CellThin_Edge.
Local Open Scope Z_scope.

Lemma eight (k : Z) : k mod 8 = 0 \/ k mod 8 = 1 \/ k mod 8 = 2 \/ k mod 8 = 3 \/ k mod 8 = 4 \/ k mod 8 = 5 \/ k mod 8 = 6 \/ k mod 8 = 7.
Proof. pose proof (Z.mod_pos_bound k 8 ltac:(lia)). lia. Qed.
Lemma dir_step k : -1 <= dirX (k mod 8) <= 1 /\ -1 <= dirY (k mod 8) <= 1 /\ (dirX (k mod 8) <> 0 \/ dirY (k mod 8) <> 0).
Proof. destruct (eight k) as [->|[->|[->|[->|[->|[->|[->| ->]]]]]]]; cbn; lia. Qed.
Lemma dir_opposite k : dirX ((k + -4) mod 8) = - dirX (k mod 8) /\ dirY ((k + -4) mod 8) = - dirY (k mod 8).
Proof. rewrite <- Zplus_mod_idemp_l. destruct (eight k) as [->|[->|[->|[->|[->|[->|[->| ->]]]]]]]; split; reflexivity. Qed.
Lemma turn_add d n k : (ddir (turn n d) + k) mod 8 = (ddir d + (n + k)) mod 8.
Proof. cbn. rewrite Zplus_mod_idemp_l. f_equal. ring. Qed.
Lemma turn_neighbor im d n k : neighborPix im (turn n d) k = neighborPix im d (n + k).
Proof. unfold neighborPix. rewrite turn_add. reflexivity. Qed.

Lemma sbb_labels m m' : sameButBounds m m' -> forall t, map clabel (cellsOf m' t) = map clabel (cellsOf m t).
Proof.
  intros (A & B & C & _) []; cbn; rewrite ?map_map; [| | |reflexivity].
  - pose proof (f_equal (map (fun q : Z * Z * list dart => fst (fst q))) C) as Q. rewrite !map_map in Q. exact Q.
  - pose proof (f_equal (map (fun q : Z * Z * dart * dart => fst (fst (fst q)))) B) as Q. rewrite !map_map in Q. exact Q.
  - pose proof (f_equal (map (fun q : Z * Z * dart * Z => fst (fst (fst q)))) A) as Q. rewrite !map_map in Q. exact Q.
Qed.
Lemma sbb_live m m' p : sameButBounds m m' -> isLive m p -> isLive m' p.
Proof.
  intros S (L & c & A & B). split; [exact L|]. pose proof (f_equal (fun v => nth_error v (Z.to_nat (plabel p))) (sbb_labels _ _ S (ptype p))) as Q. cbn beta in Q. rewrite !nth_error_map, A in Q.
  destruct (nth_error (cellsOf m' (ptype p)) (Z.to_nat (plabel p))) as [c'|] eqn:E; [|discriminate Q]. injection Q as Q. exists c'. split; [exact E|]. apply initialized_iff. rewrite Q. apply initialized_iff, B.
Qed.

(** ** One move *)
Definition fine (m : cmap) : Prop := boundsRight m /\ pixelsLive m.

Lemma move_two m d : fine m -> 0 <= dcx d < iw (cim m) -> 0 <= dcy d < ih (cim m) ->
  newNeighborsAgree (cim m) d = Ok true -> forall region, neighborPix (cim m) d (-4) = Ok region ->
  let a := dcx d + dirX (ddir d mod 8) in let b := dcy d + dirY (ddir d mod 8) in
  exists m1 m2, reassociate m a b (ipix (cim m) (dcx d) (dcy d)) = Ok m1 /\ reassociate m1 (dcx d) (dcy d) region = Ok m2 /\
    fine m2 /\ sameButBounds m m2 /\ relocated (cim m) (cim m2) (dcx d) (dcy d) a b /\ agreeBeyond (cim m) (dcx d) (dcy d) (ddir d).
Proof.
  intros [BR PL] Hx Hy NA region ER a b. unfold newNeighborsAgree in NA. bnd NA q Eqq. bnd NA n0 En0. destruct (pixEqb n0 q) eqn:Q0; [|discriminate NA]. cbn [negb] in NA. bnd NA n1 En1. destruct (pixEqb n1 q) eqn:Q1; [|discriminate NA]. cbn [negb] in NA.
  bnd NA n2 En2. injection NA as Q2. apply pixEqb_eq in Q0, Q1, Q2. subst n0 n1 n2.
  apply neighborPix_owns in Eqq, En0, En1, En2, ER. unfold moveCenterToNeighbor in En0, En1, En2. cbn [dcx dcy ddir] in En0, En1, En2. fold a b in En0, En1, En2. rewrite Z.add_0_r in Eqq. fold a b in Eqq.
  rewrite Z.add_0_r in En0. pose proof (dir_step (ddir d)) as (DX & DY & DN).
  assert ((a, b) <> (dcx d, dcy d)) as Nab by (unfold a, b; intros [= U V]; lia).
  destruct Eqq as (Ha & Hb & Eq0). assert (ipix (cim m) a b = q) as Eqab by (rewrite Eq0; destruct q; reflexivity).
  destruct (reassociate_right m a b (ipix (cim m) (dcx d) (dcy d)) BR PL Ha Hb) as (m1 & R1 & O1 & S1 & BR1 & PL1).
  { left. exists (a + dirX (ddir d mod 8)), (b + dirY (ddir d mod 8)). split; [intros [= U V]; lia|]. split; [lia|]. split; [lia|]. rewrite Eqab. exact En0. }
  { exact (PL _ _ Hx Hy). }
  pose proof O1 as (W1 & H1 & P1 & N1).
  assert (ipix (cim m1) (dcx d) (dcy d) = ipix (cim m) (dcx d) (dcy d)) as Ec by (apply N1; congruence).
  destruct (dir_opposite (ddir d)) as [OX OY]. rewrite OX, OY in ER. destruct ER as (Hrx & Hry & Er). assert (ipix (cim m) (dcx d + - dirX (ddir d mod 8)) (dcy d + - dirY (ddir d mod 8)) = region) as Er' by (rewrite Er; destruct region; reflexivity).
  destruct (reassociate_right m1 (dcx d) (dcy d) region BR1 PL1) as (m2 & R2 & O2 & S2 & BR2 & PL2); [rewrite W1; exact Hx|rewrite H1; exact Hy| | |].
  { left. exists a, b. split; [exact Nab|]. split; [unfold a; lia|]. split; [unfold b; lia|]. rewrite Ec. split; [rewrite W1; exact Ha|]. split; [rewrite H1; exact Hb|]. rewrite P1. destruct (ipix (cim m) (dcx d) (dcy d)); reflexivity. }
  { apply (sbb_live m m1 region S1). rewrite <- Er'. exact (PL _ _ Hrx Hry). }
  pose proof O2 as (W2 & H2 & P2 & N2). exists m1, m2. split; [exact R1|]. split; [exact R2|]. split; [split; assumption|]. split; [exact (sbb_trans _ _ _ S1 S2)|]. split.
  - split; [unfold a; lia|]. split; [unfold b; lia|]. split; [exact Nab|]. split; [congruence|]. split; [congruence|]. split; [rewrite N2 by exact Nab; exact P1|]. split.
    + rewrite P2, <- Er'. f_equal; unfold a, b; ring.
    + intros u v U V. rewrite N2 by exact U. apply N1, V.
  - intros i [<-|[<-|[<-|[]]]]; fold a b.
    + destruct En2 as (_ & _ & ->). rewrite Eqab. destruct q; reflexivity.
    + rewrite Z.add_0_r. destruct En0 as (_ & _ & ->). rewrite Eqab. destruct q; reflexivity.
    + destruct En1 as (_ & _ & ->). rewrite Eqab. destruct q; reflexivity.
Qed.

Lemma centerPix_Ok im d c : centerPix im d = Ok c <-> (0 <= dcx d < iw im /\ 0 <= dcy d < ih im) /\ c = ipix im (dcx d) (dcy d).
Proof. apply readPix_Ok. Qed.

Lemma tryRelocate_Some m d m' : fine m -> tryRelocate m d = Ok (Some m') ->
  let a := dcx d + dirX (ddir d mod 8) in let b := dcy d + dirY (ddir d mod 8) in
  fine m' /\ sameButBounds m m' /\ relocated (cim m) (cim m') (dcx d) (dcy d) a b /\ agreeBeyond (cim m) (dcx d) (dcy d) (ddir d).
Proof.
  intros F H. unfold tryRelocate in H. bnd H ok Eok. destruct ok; [|discriminate H]. cbn [negb] in H. bnd H region Er. bnd H c Ec. apply centerPix_Ok in Ec. destruct Ec as [[Hx Hy] ->].
  destruct (move_two m d F Hx Hy Eok region Er) as (m1 & m2 & R1 & R2 & A). rewrite R1 in H. cbn [bind] in H. rewrite R2 in H. cbn [bind] in H. injection H as <-. exact A.
Qed.

Lemma same_reads im d n p : neighborPix im d n = Ok p -> ipix im (dcx d + dirX ((ddir d + n) mod 8)) (dcy d + dirY ((ddir d + n) mod 8)) = p.
Proof. intros H. apply neighborPix_owns in H. destruct H as (_ & _ & ->). destruct p; reflexivity. Qed.
Lemma pixEqb_no a b : pixEqb a b = false -> a <> b.
Proof. intros E K. apply pixEqb_eq in K. congruence. Qed.
Lemma disagree im d : newNeighborsAgree im d = Ok false -> ~ agreeBeyond im (dcx d) (dcy d) (ddir d).
Proof.
  intros H A. unfold newNeighborsAgree in H. bnd H q Eqq. apply same_reads in Eqq. rewrite Z.add_0_r in Eqq.
  assert (forall n p, In n [-1; 0; 1] -> neighborPix im (moveCenterToNeighbor d) n = Ok p -> p = q) as K.
  { intros n p I E. apply same_reads in E. unfold moveCenterToNeighbor in E. cbn [dcx dcy ddir] in E. rewrite <- E, <- Eqq. apply A, I. }
  bnd H n0 En0. rewrite (K 0 n0) in H by (cbn; auto). assert (pixEqb q q = true) as Q by (apply pixEqb_eq; reflexivity). rewrite Q in H. cbn [negb] in H.
  bnd H n1 En1. rewrite (K 1 n1) in H by (cbn; auto). rewrite Q in H. cbn [negb] in H. bnd H n2 En2. rewrite (K (-1) n2) in H by (cbn; auto). congruence.
Qed.
Lemma tryRelocate_None m d : tryRelocate m d = Ok None -> ~ agreeBeyond (cim m) (dcx d) (dcy d) (ddir d).
Proof.
  intros H. unfold tryRelocate in H. bnd H ok Eok. destruct ok; [|exact (disagree _ _ Eok)]. cbn [negb] in H. bnd H r Er. bnd H c Ec. bnd H m1 E1. bnd H m2 E2. discriminate H.
Qed.
Lemma agree_mod im x y k : agreeBeyond im x y (k mod 8) <-> agreeBeyond im x y k.
Proof. unfold agreeBeyond. rewrite Z.mod_mod by lia. split; intros H i I; specialize (H i I); rewrite Zplus_mod_idemp_l in *; exact H. Qed.
Lemma goesOn_read im d n p : neighborPix im d n = Ok p -> (goesOn im (dcx d) (dcy d) (ddir d + n) <-> p = ipix im (dcx d) (dcy d)).
Proof. intros H. apply same_reads in H. unfold goesOn. rewrite H. tauto. Qed.

(** ** The four diagonal directions *)
Definition moved (m : cmap) (grad : Z -> Z -> Z) (x y : Z) (m' : cmap) (ps : list (Z * Z)) : Prop :=
  fine m' /\ sameButBounds m m' /\ exists a b, relocated (cim m) (cim m') x y a b /\ configured (cim m) grad x y a b ps.

Lemma diag_next k : In k [1; 3; 5; 7] -> In ((k + 2) mod 8) [1; 3; 5; 7].
Proof. intros [<-|[<-|[<-|[<-|[]]]]]; cbn; auto. Qed.
Lemma far_apart k i j : In k [1; 3; 5; 7] -> In (i, j) [(1, 2); (-4, 2)] -> (dirX ((k + i) mod 8), dirY ((k + i) mod 8)) <> (dirX ((k + j) mod 8), dirY ((k + j) mod 8)).
Proof. intros [<-|[<-|[<-|[<-|[]]]]] [[= <- <-]|[[= <- <-]|[]]]; discriminate. Qed.

Lemma relocateLoop_moved grad : forall n m d m' ps, fine m -> In (ddir d) [1; 3; 5; 7] -> relocateLoop n m grad d = Ok (m', ps) ->
  (m' = m /\ ps = [] /\ forall i, (i < n)%nat -> stuck (cim m) grad (dcx d) (dcy d) ((ddir d + 2 * Z.of_nat i) mod 8)) \/ moved m grad (dcx d) (dcy d) m' ps.
Proof.
  induction n as [|n IH]; intros m d m' ps F Hd H; [injection H as <- <-; left; split; [auto|split; [auto|lia]]|]. cbn [relocateLoop] in H.
  assert (stuck (cim m) grad (dcx d) (dcy d) (ddir d) -> relocateLoop n m grad (turn 2 d) = Ok (m', ps) ->
    (m' = m /\ ps = [] /\ forall i, (i < Datatypes.S n)%nat -> stuck (cim m) grad (dcx d) (dcy d) ((ddir d + 2 * Z.of_nat i) mod 8)) \/ moved m grad (dcx d) (dcy d) m' ps) as Next.
  { intros St R. apply (IH m (turn 2 d) m' ps F) in R; [|cbn; apply diag_next, Hd]. cbn [turn dcx dcy ddir] in R. destruct R as [(A & B & C)|R]; [left|right; exact R]. split; [exact A|]. split; [exact B|].
    intros [|i] Hi; [|specialize (C i ltac:(lia)); rewrite Zplus_mod_idemp_l in C; replace (ddir d + 2 * Z.of_nat (Datatypes.S i)) with (ddir d + 2 + 2 * Z.of_nat i) by lia; exact C].
    replace ((ddir d + 2 * Z.of_nat 0) mod 8) with (ddir d); [exact St|]. destruct Hd as [<-|[<-|[<-|[<-|[]]]]]; reflexivity. }
  bnd H c Ec. bnd H p Ep. apply centerPix_Ok in Ec. destruct Ec as [[Hx Hy] ->]. pose proof (goesOn_read _ _ _ _ Ep) as G0. rewrite Z.add_0_r in G0.
  destruct (pixEqb p (ipix (cim m) (dcx d) (dcy d))) eqn:E0; cbn [negb] in H.
  2:{ apply Next; [|exact H]. apply pixEqb_no in E0. split; intros (K & _); apply G0 in K; contradiction. }
  apply pixEqb_eq in E0. assert (goesOn (cim m) (dcx d) (dcy d) (ddir d)) as G by (apply G0, E0).
  bnd H a2 Ea. bnd H hit Eh. pose proof (goesOn_read _ _ _ _ Ea) as G2.
  assert (hit = true <-> goesOn (cim m) (dcx d) (dcy d) (ddir d + 2) \/ goesOn (cim m) (dcx d) (dcy d) (ddir d + 3)) as Gh.
  { destruct (pixEqb a2 (ipix (cim m) (dcx d) (dcy d))) eqn:E2; [apply pixEqb_eq in E2; injection Eh as <-; split; [intros _; left; apply G2, E2|reflexivity]|]. apply pixEqb_no in E2.
    bnd Eh b3 Eb. injection Eh as <-. pose proof (goesOn_read _ _ _ _ Eb) as G3. rewrite pixEqb_eq, <- G3. rewrite G2. tauto. }
  assert (hit && (grad (dcx d) (dcy d) <? gradAt grad d 1) = true <-> mayTurn (cim m) grad (dcx d) (dcy d) (ddir d)) as MT.
  { rewrite andb_true_iff, Z.ltb_lt, Gh. unfold mayTurn. change (gradAt grad d 1) with (gradTo grad (dcx d) (dcy d) (ddir d + 1)). tauto. }
  destruct (hit && (grad (dcx d) (dcy d) <? gradAt grad d 1)) eqn:EH.
  - assert (mayTurn (cim m) grad (dcx d) (dcy d) (ddir d)) as M by (apply MT; reflexivity). bnd H r Er. destruct r as [m1|].
    + bnd H o Eo. bnd H a' Ea'. injection H as <- <-. right.
      destruct (tryRelocate_Some _ _ _ F Er) as (F1 & S1 & R1 & U1). cbn [turn dcx dcy ddir] in R1, U1. rewrite Z.mod_mod in R1 by lia. apply (proj1 (agree_mod _ _ _ _)) in U1. split; [exact F1|]. split; [exact S1|]. eexists. eexists. split; [exact R1|].
      exists (ddir d). split; [exact Hd|]. left. split; [exact M|]. split; [exact U1|]. split; [split; reflexivity|].
      destruct R1 as (_ & _ & _ & _ & _ & _ & _ & Rr).
      assert (o = ipix (cim m) (dcx d + dirX ((ddir d + 1) mod 8)) (dcy d + dirY ((ddir d + 1) mod 8))) as Eo'.
      { apply same_reads in Eo. unfold moveCenterToNeighbor in Eo. cbn [turn dcx dcy ddir] in Eo. rewrite Z.add_0_r, !Z.mod_mod in Eo by lia. rewrite <- Eo. pose proof (dir_step (ddir d + 1)) as (_ & _ & DN). rewrite Rr by (intros [= A B]; lia).
        specialize (U1 0 ltac:(cbn; auto)). rewrite Z.add_0_r in U1. exact U1. }
      assert (a' = ipix (cim m) (dcx d + dirX ((ddir d + 2) mod 8)) (dcy d + dirY ((ddir d + 2) mod 8))) as Ea2.
      { apply same_reads in Ea'. rewrite <- Ea'. apply Rr; [pose proof (dir_step (ddir d + 2)); intros [= A B]; lia|]. pose proof (far_apart (ddir d) 1 2 Hd ltac:(cbn; auto)) as N. intros [= A B]. apply N. f_equal; lia. }
      rewrite <- Eo', <- Ea2. destruct (pixEqb o a') eqn:E; [apply pixEqb_eq in E|apply pixEqb_no in E]; (split; intros K; [|]); try congruence; unfold pointAt, place; rewrite Z.add_0_r; reflexivity.
    + apply Next; [|exact H]. apply tryRelocate_None in Er. cbn [turn dcx dcy ddir] in Er. rewrite agree_mod in Er. split; [intros _; exact Er|]. intros (_ & N & _). contradiction.
  - assert (~ mayTurn (cim m) grad (dcx d) (dcy d) (ddir d)) as M by (intros K; apply MT in K; discriminate K). bnd H b3 Eb. pose proof (goesOn_read _ _ _ _ Eb) as G3.
    assert (gradAt grad d (-11) = gradTo grad (dcx d) (dcy d) (ddir d - 3)) as Eg.
    { unfold gradAt, gradTo. replace ((ddir d + -11) mod 8) with ((ddir d - 3) mod 8); [reflexivity|]. destruct Hd as [<-|[<-|[<-|[<-|[]]]]]; reflexivity. }
    assert (pixEqb b3 (ipix (cim m) (dcx d) (dcy d)) && (grad (dcx d) (dcy d) <? gradAt grad d (-11)) = true <-> mayTurnBack (cim m) grad (dcx d) (dcy d) (ddir d)) as MB.
    { rewrite andb_true_iff, Z.ltb_lt, pixEqb_eq, Eg, <- G3. unfold mayTurnBack. replace (ddir d - 3) with (ddir d + -3) by ring. tauto. }
    destruct (pixEqb b3 (ipix (cim m) (dcx d) (dcy d)) && (grad (dcx d) (dcy d) <? gradAt grad d (-11))) eqn:EB.
    2:{ apply Next; [|exact H]. split; [intros K; contradiction|]. intros K. apply MB in K. discriminate K. }
    assert (mayTurnBack (cim m) grad (dcx d) (dcy d) (ddir d)) as B by (apply MB; reflexivity). bnd H r Er. destruct r as [m1|].
    + injection H as <- <-. right. destruct (tryRelocate_Some _ _ _ F Er) as (F1 & S1 & R1 & U1). cbn [turn dcx dcy ddir] in R1, U1. rewrite Z.mod_mod in R1 by lia. apply (proj1 (agree_mod _ _ _ _)) in U1. split; [exact F1|]. split; [exact S1|]. eexists. eexists. split; [exact R1|].
      exists (ddir d). split; [exact Hd|]. right. split; [exact B|]. replace (ddir d - 1) with (ddir d + -1) by ring. replace (ddir d - 3) with (ddir d + -3) by ring. split; [exact U1|]. split; [split; reflexivity|]. unfold pointAt, place. rewrite Z.add_0_r. reflexivity.
    + apply Next; [|exact H]. apply tryRelocate_None in Er. cbn [turn dcx dcy ddir] in Er. rewrite agree_mod in Er. split; [intros K; contradiction|]. intros _. replace (ddir d - 1) with (ddir d + -1) by ring. exact Er.
Qed.

Lemma relocatePoint_moved grad m x y m' ps : fine m -> relocatePoint m grad x y = Ok (m', ps) ->
  (m' = m /\ ps = [] /\ (ptype (ipix (cim m) x y) = Line -> forall k, In k [1; 3; 5; 7] -> stuck (cim m) grad x y k)) \/ (ptype (ipix (cim m) x y) = Line /\ moved m grad x y m' ps).
Proof.
  intros F H. unfold relocatePoint in H. bnd H c Ec. apply readPix_Ok in Ec. destruct Ec as [_ ->]. destruct (ctypeEqb (ptype (ipix (cim m) x y)) Line) eqn:T; cbn [negb] in H.
  - apply CellMap_Scan.ctypeEqb_eq in T. apply (relocateLoop_moved grad 4 m (Dart x y 3) m' ps F) in H; [|cbn; auto]. destruct H as [(A & B & C)|H]; [left|right; auto]. split; [exact A|]. split; [exact B|]. intros _ k Hk. cbn [dcx dcy ddir] in C.
    destruct Hk as [<-|[<-|[<-|[<-|[]]]]]; [exact (C 3%nat ltac:(lia))|exact (C 0%nat ltac:(lia))|exact (C 1%nat ltac:(lia))|exact (C 2%nat ltac:(lia))].
  - injection H as <- <-. left. split; [reflexivity|]. split; [reflexivity|]. intros K. apply CellMap_Scan.ctypeEqb_eq in K. congruence.
Qed.

Lemma relocatePoint_done grad m x y m' ps : fine m -> relocatePoint m grad x y = Ok (m', ps) -> fine m' /\ sameButBounds m m' /\ pointDone m grad x y m' ps.
Proof.
  intros F H. destruct (relocatePoint_moved _ _ _ _ _ _ F H) as [(-> & K)|(T & F1 & S1 & K)]; [split; [exact F|split; [apply sbb_refl|left; auto]]|split; [exact F1|split; [exact S1|right; auto]]].
Qed.
Lemma relocatePoints_fine grad : forall fuel m ps m', fine m -> relocatePoints fuel m grad ps = Ok m' ->
  fine m' /\ sameButBounds m m' /\ allDone grad m ps m'.
Proof.
  induction fuel as [|fuel IH]; intros m [|[x y] ps] m' F H; cbn [relocatePoints] in H; try (injection H as <-; split; [exact F|split; [apply sbb_refl|constructor]]); [discriminate H|].
  bnd H r Er. destruct r as [m1 qs]. cbn [fst snd] in H. destruct (relocatePoint_done _ _ _ _ _ _ F Er) as (F1 & S1 & D). destruct (IH _ _ _ F1 H) as (F2 & S2 & D2).
  split; [exact F2|]. split; [exact (sbb_trans _ _ _ S1 S2)|]. exact (done_next _ _ _ _ _ _ _ _ D D2).
Qed.

(** ** No access outside of the image *)
Lemma neighbor_total im d n : 1 <= dcx d < iw im - 1 -> 1 <= dcy d < ih im - 1 -> exists p, neighborPix im d n = Ok p.
Proof. intros X Y. unfold neighborPix. pose proof (dir_step (ddir d + n)) as (A & B & _). eexists. apply readPix_Ok. split; [lia|reflexivity]. Qed.
Ltac reads k := match goal with |- context [neighborPix ?i ?e ?n] => let p := fresh "p" in let E := fresh "E" in destruct (neighbor_total i e n) as (p & E); [k|k|rewrite E; cbn [bind]] end.

Lemma agree_total m d : 2 <= dcx d < iw (cim m) - 2 -> 2 <= dcy d < ih (cim m) - 2 -> exists b, newNeighborsAgree (cim m) d = Ok b.
Proof.
  intros X Y. unfold newNeighborsAgree. reads lia. pose proof (dir_step (ddir d)) as (DX & DY & _).
  reads ltac:(unfold moveCenterToNeighbor; cbn; lia). destruct (negb _); [eauto|]. reads ltac:(unfold moveCenterToNeighbor; cbn; lia). destruct (negb _); [eauto|]. reads ltac:(unfold moveCenterToNeighbor; cbn; lia). eauto.
Qed.
Lemma try_total m d : fine m -> 2 <= dcx d < iw (cim m) - 2 -> 2 <= dcy d < ih (cim m) - 2 -> exists r, tryRelocate m d = Ok r.
Proof.
  intros F X Y. unfold tryRelocate. destruct (agree_total m d X Y) as (ok & Eok). rewrite Eok. cbn [bind]. destruct ok; [|eexists; reflexivity]. cbn [negb].
  destruct (neighbor_total (cim m) d (-4)) as (region & Er); [lia|lia|]. rewrite Er. cbn [bind]. assert (centerPix (cim m) d = Ok (ipix (cim m) (dcx d) (dcy d))) as -> by (apply centerPix_Ok; split; [lia|reflexivity]). cbn [bind].
  destruct (move_two m d F ltac:(lia) ltac:(lia) Eok region Er) as (m1 & m2 & R1 & R2 & _). rewrite R1. cbn [bind]. rewrite R2. cbn [bind]. eauto.
Qed.
Lemma loop_total grad : forall n m d, fine m -> 2 <= dcx d < iw (cim m) - 2 -> 2 <= dcy d < ih (cim m) - 2 -> exists r, relocateLoop n m grad d = Ok r.
Proof.
  induction n as [|n IH]; intros m d F X Y; [eexists; reflexivity|]. cbn [relocateLoop]. destruct (IH m (turn 2 d) F X Y) as (rn & En).
  assert (centerPix (cim m) d = Ok (ipix (cim m) (dcx d) (dcy d))) as -> by (apply centerPix_Ok; split; [lia|reflexivity]). cbn [bind]. reads lia. destruct (negb _); [eauto|]. reads lia.
  assert (exists hit, (if pixEqb p0 (ipix (cim m) (dcx d) (dcy d)) then Ok true else b <- neighborPix (cim m) d 3 ;; Ok (pixEqb b (ipix (cim m) (dcx d) (dcy d)))) = Ok hit) as (hit & ->).
  { destruct (pixEqb p0 _); [eauto|]. reads lia. eauto. }
  cbn [bind]. destruct (hit && _).
  - destruct (try_total m (turn 1 d) F X Y) as (r & Er). rewrite Er. cbn [bind]. destruct r as [m1|]; [|eauto].
    destruct (tryRelocate_Some _ _ _ F Er) as (_ & _ & R & _). destruct R as (_ & _ & _ & Rw & Rh & _). pose proof (dir_step (ddir (turn 1 d))) as (DX & DY & _).
    destruct (neighbor_total (cim m1) (moveCenterToNeighbor (turn 1 d)) 0) as (o & Eo); [unfold moveCenterToNeighbor; cbn [dcx dcy turn] in *; lia|unfold moveCenterToNeighbor; cbn [dcx dcy turn] in *; lia|]. rewrite Eo. cbn [bind].
    destruct (neighbor_total (cim m1) d 2) as (a' & Ea); [lia|lia|]. rewrite Ea. cbn [bind]. eauto.
  - reads lia. destruct (_ && _); [|eauto]. destruct (try_total m (turn (-1) d) F X Y) as (r & Er). rewrite Er. cbn [bind]. destruct r; eauto.
Qed.
Lemma relocatePoint_total grad m x y : fine m -> 2 <= x < iw (cim m) - 2 -> 2 <= y < ih (cim m) - 2 -> exists m' ps, relocatePoint m grad x y = Ok (m', ps).
Proof.
  intros F X Y. unfold relocatePoint. assert (readPix (cim m) x y = Ok (ipix (cim m) x y)) as -> by (apply readPix_Ok; split; [lia|reflexivity]). cbn [bind]. destruct (negb _); [eauto|].
  destruct (loop_total grad 4 m (Dart x y 3) F X Y) as ([m' ps] & E). eauto.
Qed.

(** ** The number of pixels of each cell *)
Lemma oneIf_yes p t l : p = Pix t l -> oneIf p t l = 1. Proof. intros ->. unfold oneIf. assert (pixEqb (Pix t l) (Pix t l) = true) as -> by (apply pixEqb_eq; reflexivity). reflexivity. Qed.
Lemma oneIf_no p t l : p <> Pix t l -> oneIf p t l = 0. Proof. intros N. unfold oneIf. destruct (pixEqb p (Pix t l)) eqn:E; [apply pixEqb_eq in E; contradiction|reflexivity]. Qed.
Lemma pix_dec (p q : pix) : p = q \/ p <> q. Proof. destruct (pixEqb p q) eqn:E; [left; apply pixEqb_eq, E|right; intros K; apply pixEqb_eq in K; congruence]. Qed.
Lemma onePixel_count im im' x y v t l n : onePixel im im' x y v -> 0 <= x < iw im -> 0 <= y < ih im -> manyPixels (owns im t l) n ->
  manyPixels (owns im' t l) (n - oneIf (ipix im x y) t l + oneIf v t l).
Proof.
  intros OP Hx Hy M. destruct v as [tv lv]. destruct (onePixel_owns _ _ _ _ _ _ OP Hx Hy) as [OA OB]. destruct (pix_dec (Pix tv lv) (Pix t l)) as [E|N].
  - injection E as -> ->. rewrite (oneIf_yes (Pix t l)) by reflexivity. destruct (pix_dec (ipix im x y) (Pix t l)) as [E|N].
    + rewrite (oneIf_yes _ _ _ E). replace (n - 1 + 1) with n by ring. refine (manyPixels_ext _ _ _ _ M). intros a b. rewrite OA. split; [auto|]. intros [K|[= -> ->]]; [exact K|split; [exact Hx|split; [exact Hy|exact E]]].
    + rewrite (oneIf_no _ _ _ N), Z.sub_0_r. refine (manyPixels_ext _ _ _ _ (manyPixels_or _ _ _ _ _ M (one_many' x y))); [intros a b; rewrite OA; tauto|]. intros a b (_ & _ & K) [= -> ->]. contradiction.
  - rewrite (oneIf_no (Pix tv lv)) by exact N. assert ((t, l) <> (tv, lv)) as N' by congruence. specialize (OB t l N'). destruct (pix_dec (ipix im x y) (Pix t l)) as [E|Nx].
    + rewrite (oneIf_yes _ _ _ E), Z.add_0_r. refine (manyPixels_ext _ _ _ _ (manyPixels_remove _ _ x y M _)); [intros a b; rewrite OB; tauto|split; [exact Hx|split; [exact Hy|exact E]]].
    + rewrite (oneIf_no _ _ _ Nx), Z.add_0_r, Z.sub_0_r. refine (manyPixels_ext _ _ _ _ M). intros a b. rewrite OB. split; [|tauto]. intros K. split; [exact K|]. intros [= -> ->]. destruct K as (_ & _ & K). contradiction.
Qed.
Lemma relocated_count im im' x y a b t l n : relocated im im' x y a b -> 0 <= x < iw im -> 0 <= y < ih im -> 0 <= a < iw im -> 0 <= b < ih im -> manyPixels (owns im t l) n ->
  manyPixels (owns im' t l) (n - oneIf (ipix im a b) t l + oneIf (ipix im (2 * x - a) (2 * y - b)) t l).
Proof.
  intros (_ & _ & Nab & Rw & Rh & Pa & Px & Pr) Hx Hy Ha Hb M. destruct (writePix_one im a b (ipix im x y) Ha Hb) as (i1 & _ & O1). pose proof O1 as (W1 & H1 & P1 & N1).
  assert (ipix i1 x y = ipix im x y) as E1 by (apply N1; congruence).
  assert (onePixel i1 im' x y (ipix im (2 * x - a) (2 * y - b))) as O2.
  { split; [congruence|]. split; [congruence|]. split; [exact Px|]. intros u v D. destruct (point_dec u v a b) as [[= -> ->]|D']; [congruence|]. rewrite Pr by assumption. symmetry. apply N1, D'. }
  pose proof (onePixel_count _ _ _ _ _ _ _ _ O1 Ha Hb M) as M1. pose proof (onePixel_count _ _ _ _ _ _ _ _ O2 ltac:(lia) ltac:(lia) M1) as M2. rewrite E1 in M2.
  replace (n - oneIf (ipix im a b) t l + oneIf (ipix im (2 * x - a) (2 * y - b)) t l) with (n - oneIf (ipix im a b) t l + oneIf (ipix im x y) t l - oneIf (ipix im x y) t l + oneIf (ipix im (2 * x - a) (2 * y - b)) t l) by ring. exact M2.
Qed.
