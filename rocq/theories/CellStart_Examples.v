(** Images the constructor makes maps from. *)
From Coq Require Import Lia.
From Verif Require Import Base CellMap_Model CellMap_Spec CellMap_Scan CellMap_Proofs CellMap_Main CellMap_Init CellMap_InitProofs CellMap_Check CellMap_Examples
  CellSigma_Spec CellSigma_Proofs CellSigma_Results CellLink_Spec CellLink_Proofs CellLink_Main CellLink_Results CellLink_Check CellSigma_Examples
  CellFace_Spec CellFace_Walk CellFace_Main CellFace_Step CellFace_Results CellFace_Examples CellStart_Spec CellStart_Init CellStart_Results.
Local Open Scope Z_scope.

(** ** Tests *)
Definition linkB (im : img) (d : dart) : bool :=
  (0 <=? ddir d) && (ddir d <? 8) && negb (ctypeEqb (typeAt im d 0) Region) && (negb (Z.odd (ddir d)) || ctypeEqb (typeAt im d 1) Region && ctypeEqb (typeAt im d (-1)) Region).
Lemma linkB_holds im d : linkB im d = true <-> link im d.
Proof.
  unfold linkB, link. rewrite !Bool.andb_true_iff, Bool.orb_true_iff, !Bool.andb_true_iff, !Bool.negb_true_iff, Z.leb_le, Z.ltb_lt, !CellSigma_Proofs.ctypeEqb_eq, CellSigma_Proofs.ctypeEqb_ne.
  destruct (Z.odd (ddir d)); intuition (try discriminate; auto).
Qed.
Definition slimB (im : img) : bool :=
  everyPixel im (fun x y => if ctypeEqb (ptype (ipix im x y)) Line then match filter (fun k => linkB im (Dart x y k)) [0; 1; 2; 3; 4; 5; 6; 7] with [a; b] => negb (a =? b) | _ => false end else true).
Lemma slimB_holds im : slimB im = true -> slim im.
Proof.
  intros H x y (X & Y & T). assert (Q := everyPixel_holds im _ H x y X Y). cbv beta in Q. rewrite T in Q. cbn [ctypeEqb] in Q.
  destruct (filter (fun k => linkB im (Dart x y k)) [0; 1; 2; 3; 4; 5; 6; 7]) as [|a [|b [|c t]]] eqn:E; try discriminate Q. exists a, b. split; [apply Z.eqb_neq, Bool.negb_true_iff, Q|].
  intros k. assert (G : In k [a; b] <-> link im (Dart x y k)).
  { rewrite <- E, filter_In, linkB_holds. split; [tauto|]. intros L. split; auto. destruct L as (R & _). cbn [ddir] in R. cbn. lia. }
  rewrite <- G. cbn. intuition.
Qed.
Definition smoothB (im : img) : bool :=
  everyPixel im (fun x y => if ctypeEqb (ptype (ipix im x y)) Line then forallb (fun k => let d := Dart x y k in
    ctypeEqb (typeAt im d 0) Region || ctypeEqb (typeAt im d 2) Region || ctypeEqb (typeAt im d 1) Region) [0; 2; 4; 6] else true).
Lemma smoothB_holds im : smoothB im = true -> smooth im.
Proof.
  intros H [x y k] (X & Y & T) K A B. cbn [dcx dcy ddir] in *. assert (Q := everyPixel_holds im _ H x y X Y). cbv beta in Q. rewrite T in Q. cbn [ctypeEqb] in Q.
  rewrite forallb_forall in Q. specialize (Q k K). cbn zeta in Q. rewrite !Bool.orb_true_iff, !CellSigma_Proofs.ctypeEqb_eq in Q. tauto.
Qed.
(** the pixels of the line through (x, y) within [f] steps *)
Definition isLineB (im : img) (x y : Z) : bool := inB im x y && ctypeEqb (ptype (ipix im x y)) Line.
Lemma isLineB_holds im x y : isLineB im x y = true <-> lineAt im x y.
Proof. unfold isLineB, lineAt, inB. rewrite !Bool.andb_true_iff, !Z.leb_le, !Z.ltb_lt, CellSigma_Proofs.ctypeEqb_eq. intuition. Qed.
Definition onwards (im : img) (p : Z * Z) : list (Z * Z) :=
  map (fun k => (fst p + dirX k, snd p + dirY k)) (filter (fun k => linkB im (Dart (fst p) (snd p) k) && isLineB im (fst p + dirX k) (snd p + dirY k)) [0; 1; 2; 3; 4; 5; 6; 7]).
Definition pointIn (p : Z * Z) (l : list (Z * Z)) : bool := existsb (fun q => (fst p =? fst q) && (snd p =? snd q)) l.
Lemma pointIn_in p l : pointIn p l = true -> In p l.
Proof. unfold pointIn. rewrite existsb_exists. intros ([a b] & I & E). rewrite Bool.andb_true_iff, !Z.eqb_eq in E. destruct p. cbn in E. destruct E as (-> & ->). exact I. Qed.
Fixpoint spread (f : nat) (im : img) (seen now : list (Z * Z)) : list (Z * Z) :=
  match f with
  | O => seen
  | Datatypes.S j => let new := filter (fun p => negb (pointIn p seen)) (flat_map (onwards im) now) in match new with [] => seen | _ => spread j im (new ++ seen) new end
  end.
Lemma spread_along im x y f : forall seen now, (forall u v, In (u, v) seen -> along im x y u v) -> (forall u v, In (u, v) now -> along im x y u v) -> forall u v, In (u, v) (spread f im seen now) -> along im x y u v.
Proof.
  induction f as [|f IH]; intros seen now Hs Hn u v I; cbn [spread] in I; [apply Hs, I|]. set (new := filter _ _) in I.
  assert (N : forall u v, In (u, v) new -> along im x y u v).
  { clear I. intros a b I. apply filter_In in I. destruct I as (I & _). apply in_flat_map in I. destruct I as ((c, d) & C & I). apply in_map_iff in I. destruct I as (k & E & I). injection E as <- <-.
    apply filter_In in I. destruct I as (_ & I). apply Bool.andb_true_iff in I. destruct I as (L & A). apply al_on; [apply Hn, C|apply linkB_holds, L|apply isLineB_holds, A]. }
  destruct new as [|h t] eqn:En; [apply Hs, I|]. apply IH in I; auto. intros a b J. apply in_app_or in J. destruct J as [J|J]; auto.
Qed.
Definition drawnB (f : nat) (im : img) : bool :=
  let ds := dartsOf im in
  everyPixel im (fun x y => if ctypeEqb (ptype (ipix im x y)) Line then
    forallb (fun q => plabel (ipix im (fst q) (snd q)) =? plabel (ipix im x y)) (onwards im (x, y)) &&
    (let r := spread f im [(x, y)] [(x, y)] in everyPixel im (fun u v => if pixEqb (ipix im u v) (ipix im x y) then pointIn (u, v) r else true)) &&
    existsb (fun d => edgeOf im d =? plabel (ipix im x y)) ds else true).
Lemma drawnB_holds f im : drawnB f im = true -> drawn im.
Proof.
  intros H. unfold drawnB in H. cbn zeta in H.
  assert (G : forall x y, lineAt im x y -> (forall q, In q (onwards im (x, y)) -> plabel (ipix im (fst q) (snd q)) = plabel (ipix im x y)) /\
    (forall u v, 0 <= u < iw im -> 0 <= v < ih im -> ipix im u v = ipix im x y -> along im x y u v) /\ exists d, isDart im d /\ edgeOf im d = plabel (ipix im x y)).
  { intros x y (X & Y & T). assert (Q := everyPixel_holds im _ H x y X Y). cbv beta in Q. rewrite T in Q. cbn [ctypeEqb] in Q. rewrite !Bool.andb_true_iff in Q. destruct Q as ((Q1 & Q2) & Q3). split; [|split].
    - intros q I. rewrite forallb_forall in Q1. apply Z.eqb_eq, Q1, I.
    - intros u v U V E. assert (Q := everyPixel_holds im _ Q2 u v U V). cbv beta in Q. rewrite E in Q. assert (pixEqb (ipix im x y) (ipix im x y) = true) as P by (apply pixEqb_eq; reflexivity). rewrite P in Q.
      apply pointIn_in in Q. apply (spread_along im x y f [(x, y)] [(x, y)]); auto; intros a b [I|[]]; injection I as <- <-; constructor.
    - apply existsb_exists in Q3. destruct Q3 as (d & D & E). exists d. split; [apply dartsOf_in, D|apply Z.eqb_eq, E]. }
  split; [|split].
  - intros x y u v L A. assert (K : lineAt im u v /\ plabel (ipix im u v) = plabel (ipix im x y)); [|apply K]. induction A as [|u v k A IH Lk Ln]; [auto|]. destruct IH as (IH1 & IH2). split; auto. rewrite <- IH2.
    destruct (G u v IH1) as (G1 & _). apply (G1 (u + dirX k, v + dirY k)). apply in_map_iff. exists k. split; auto. apply filter_In. split; [destruct Lk as (R & _); cbn [ddir] in R; cbn; lia|].
    apply Bool.andb_true_iff. split; [apply linkB_holds, Lk|apply isLineB_holds, Ln].
  - intros l x y u v (X & Y & E) (U & V & E'). destruct (G x y) as (_ & G2 & _); [split; auto; split; auto; rewrite E; reflexivity|]. apply G2; auto. congruence.
  - intros l x y (X & Y & E). destruct (G x y) as (_ & _ & d & D & Ed); [split; auto; split; auto; rewrite E; reflexivity|]. rewrite E in Ed. exists d. split; auto.
Qed.
Definition dart_dec (a b : dart) : {a = b} + {a <> b}.
Proof. decide equality; apply Z.eq_dec. Defined.
(** every image of less than 2^13 pixels *)
Lemma few_light im : 0 <= iw im -> 0 <= ih im -> iw im * ih im < 2 ^ 13 -> light im.
Proof.
  intros W H B l. set (ds := filter (fun d => nodeOf im d =? l) (dartsOf im)). assert (I : forall d, In d ds <-> dartOfNode im l d) by (intros d; unfold ds; rewrite filter_In, dartsOf_in, Z.eqb_eq; reflexivity).
  set (es := nodup dart_dec ds). assert (J : forall d, In d es <-> dartOfNode im l d) by (intros d; unfold es; rewrite nodup_In; apply I).
  exists (Z.of_nat (length es)). split; [|exists es; split; [apply NoDup_nodup|split; [exact J|reflexivity]]].
  assert (L : (length es <= length (allStates im))%nat) by (apply NoDup_incl_length; [apply NoDup_nodup|]; intros d Hd; apply J in Hd; apply states_in, place_state, dart_place, Hd).
  rewrite states_length in L. assert (Z.of_nat (length es) <= iw im * ih im * 8); [|lia]. apply Nat2Z.inj_le in L. rewrite !Nat2Z.inj_mul, !Z2Nat.id in L by assumption. lia.
Qed.
Definition cleanB (f : nat) (im : img) : bool :=
  neatB im && joinedB im && ringedB f im && separateB im && plainB im && airyB im && filledB im && slimB im && smoothB im && drawnB f im && (0 <=? iw im) && (0 <=? ih im) && (iw im * ih im <? 2 ^ 13).
Lemma cleanB_holds f im : framed im -> cleanB f im = true -> clean im.
Proof.
  intros Fr. unfold cleanB. rewrite !Bool.andb_true_iff, !Z.leb_le, Z.ltb_lt. intros ((((((((((((H1 & H2) & H3) & H4) & H5) & H6) & H7) & H8) & H9) & H10) & H11) & H12) & H13).
  split; [apply neatB_holds, H1|]. split; [apply joinedB_holds, H2|]. split; [apply (ringedB_holds f); auto|]. split; [apply separateB_holds, H4|]. split; [apply plainB_holds, H5|]. split; [apply airyB_holds, H6|].
  split; [apply filledB_holds, H7|]. split; [apply slimB_holds, H8|]. split; [apply smoothB_holds, H9|]. split; [apply (drawnB_holds f), H10|apply few_light; auto].
Qed.

(** ** Images *)
Lemma rooms_clean : wfImg rooms /\ framed rooms /\ clean rooms.
Proof.
  assert (F : framed rooms) by (apply framedB_holds; vm_compute; reflexivity). split; [apply wfImgB_holds; vm_compute; reflexivity|]. split; [exact F|]. apply (cleanB_holds 40); [exact F|vm_compute; reflexivity].
Qed.
Lemma fork_clean : wfImg fork /\ framed fork /\ clean fork.
Proof.
  assert (F : framed fork) by (apply framedB_holds; vm_compute; reflexivity). split; [apply wfImgB_holds; vm_compute; reflexivity|]. split; [exact F|]. apply (cleanB_holds 40); [exact F|vm_compute; reflexivity].
Qed.
Lemma ell_clean : wfImg ell /\ framed ell /\ clean ell.
Proof.
  assert (F : framed ell) by (apply framedB_holds; vm_compute; reflexivity). split; [apply wfImgB_holds; vm_compute; reflexivity|]. split; [exact F|]. apply (cleanB_holds 40); [exact F|vm_compute; reflexivity].
Qed.
Lemma r0_built : built r0.
Proof. destruct rooms_clean as (A & B & C). exists (fun _ _ _ => 1), (fun _ _ _ => []), roomsComponents, rooms. split; [exact A|]. split; [exact B|]. split; [exact C|]. split; vm_compute; reflexivity. Qed.
Lemma fork_built : built fork0.
Proof. destruct fork_clean as (A & B & C). exists forkArea, (fun _ _ _ => []), knotComponents, fork. split; [exact A|]. split; [exact B|]. split; [exact C|]. split; [exact fork_imported|vm_compute; reflexivity]. Qed.
Lemma ell_built : built ell0.
Proof. destruct ell_clean as (A & B & C). exists ellArea, (fun _ _ _ => []), ellComponents, ell. split; [exact A|]. split; [exact B|]. split; [exact C|]. split; [exact ell_imported|vm_compute; reflexivity]. Qed.
Fixpoint breplay_ok (cs : list ccall) : forall m r, bhistory m -> freplay m cs = Some r -> bhistory r.
Proof.
  destruct cs as [|c t]; intros m r Hm H; cbn [freplay] in H; [injection H as <-; exact Hm|].
  destruct (faceAllowedB (cim m) c) eqn:Ea; [|discriminate H]. destruct (cexec m c) as [[m' s]| | |] eqn:E; try discriminate H.
  apply (breplay_ok t m' r); [|exact H]. exact (bh_call m c m' s Hm (faceAllowedB_holds _ _ Ea) E).
Qed.
Lemma facedAfter_built n : bhistory (facedAfter n).
Proof. unfold facedAfter. destruct (freplay r0 (firstn n tidying)) as [m|] eqn:E; [|apply bh_start, r0_built]. exact (breplay_ok _ _ _ (bh_start _ r0_built) E). Qed.
