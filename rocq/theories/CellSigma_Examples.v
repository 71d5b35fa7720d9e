(** Pixel based maps to try the statements about darts on. *)
From Coq Require Import Lia.
From Verif Require Import Base CellMap_Model CellMap_Spec CellMap_Scan CellMap_Proofs CellMap_Main CellMap_Init CellMap_InitProofs CellMap_Check CellMap_Examples
  CellSigma_Spec CellSigma_Proofs CellSigma_Results CellLink_Spec CellLink_Proofs CellLink_Main CellLink_Results CellLink_Check.
Local Open Scope Z_scope.

(** ** Tests *)
Definition neatB (im : img) : bool :=
  everyPixel im (fun x y => negb (ctypeEqb (ptype (ipix im x y)) Line) || forallb (fun k =>
    negb (ctypeEqb (ptype (ipix im (x + dirX k) (y + dirY k))) Vertex && ctypeEqb (ptype (ipix im (x + dirX ((k + 2) mod 8)) (y + dirY ((k + 2) mod 8)))) Vertex)) [0; 2; 4; 6]).
Lemma neatB_holds im : neatB im = true -> neat im.
Proof.
  intros H x y k X Y K T V1 V2. assert (Q := everyPixel_holds im _ H x y ltac:(lia) ltac:(lia)). cbv beta in Q. rewrite T in Q. cbn [ctypeEqb negb orb] in Q.
  rewrite forallb_forall in Q. specialize (Q k K). rewrite V1, V2 in Q. discriminate Q.
Qed.
Definition inB (im : img) (x y : Z) : bool := (0 <=? x) && (x <? iw im) && (0 <=? y) && (y <? ih im).
Lemma inB_true im x y : 0 <= x < iw im -> 0 <= y < ih im -> inB im x y = true.
Proof. intros X Y. unfold inB. rewrite !Bool.andb_true_iff, !Z.leb_le, !Z.ltb_lt. lia. Qed.
Definition joinedB (im : img) : bool :=
  everyPixel im (fun x y => negb (ctypeEqb (ptype (ipix im x y)) Vertex) || forallb (fun k =>
    negb (inB im (x + dirX k) (y + dirY k)) || negb (ctypeEqb (ptype (ipix im (x + dirX k) (y + dirY k))) Vertex) || (plabel (ipix im (x + dirX k) (y + dirY k)) =? plabel (ipix im x y))) [0; 1; 2; 3; 4; 5; 6; 7]).
Lemma joinedB_holds im : joinedB im = true -> joined im.
Proof.
  intros H x y k l K (X & Y & P) (X' & Y' & V). assert (Q := everyPixel_holds im _ H x y X Y). cbv beta in Q. rewrite P in Q. cbn [ptype plabel ctypeEqb negb orb] in Q.
  rewrite forallb_forall in Q. assert (I : In k [0; 1; 2; 3; 4; 5; 6; 7]) by (cbn; lia). specialize (Q k I). rewrite inB_true, V in Q by auto. cbn [ctypeEqb negb orb] in Q.
  apply Z.eqb_eq in Q. split; auto. split; auto. apply pix_eta; auto.
Qed.
Definition separateB (im : img) : bool :=
  everyPixel im (fun x y => negb (ctypeEqb (ptype (ipix im x y)) Line) || forallb (fun k =>
    negb (inB im (x + dirX k) (y + dirY k)) || negb (ctypeEqb (ptype (ipix im (x + dirX k) (y + dirY k))) Line) || (plabel (ipix im (x + dirX k) (y + dirY k)) =? plabel (ipix im x y))) [0; 2; 4; 6]).
Lemma separateB_holds im : separateB im = true -> separate im.
Proof.
  intros H x y k l K (X & Y & P) X' Y' V. assert (Q := everyPixel_holds im _ H x y X Y). cbv beta in Q. rewrite P in Q. cbn [ptype plabel ctypeEqb negb orb] in Q.
  rewrite forallb_forall in Q. specialize (Q k K). rewrite inB_true, V in Q by auto. cbn [ctypeEqb negb orb] in Q. apply Z.eqb_eq, Q.
Qed.
Definition isPlaceB (im : img) (d : dart) : bool :=
  inB im (dcx d) (dcy d) && ctypeEqb (ptype (ipix im (dcx d) (dcy d))) Vertex && (0 <=? ddir d) && (ddir d <? 8) && negb (ctypeEqb (typeAt im d 0) Vertex) &&
  (negb (Z.odd (ddir d)) || negb (ctypeEqb (typeAt im d 1) Vertex) && negb (ctypeEqb (typeAt im d (-1)) Vertex)).
Lemma isPlaceB_holds im d : isPlaceB im d = true <-> isPlace im d.
Proof.
  unfold isPlaceB, isPlace, vertexAt, inB. rewrite !Bool.andb_true_iff, Bool.orb_true_iff, !Bool.andb_true_iff, !Bool.negb_true_iff, !Z.leb_le, !Z.ltb_lt, CellSigma_Proofs.ctypeEqb_eq, !CellSigma_Proofs.ctypeEqb_ne.
  destruct (Z.odd (ddir d)); intuition (try discriminate; auto).
Qed.
Definition placesOf (im : img) : list dart := filter (isPlaceB im) (allStates im).
Lemma placesOf_in im d : isPlace im d -> In d (placesOf im).
Proof. intros P. apply filter_In. split; [apply states_in, place_state, P|apply isPlaceB_holds, P]. Qed.
(** is [b] among the next [f] places? *)
Fixpoint reaches (f : nat) (im : img) (a b : dart) : bool := if dartEqb a b then true else match f with O => false | Datatypes.S k => reaches k im (placeNext im 1 a) b end.
Lemma reaches_holds im f : framed im -> forall a b, isPlace im a -> isPlace im b -> reaches f im a b = true -> exists k, places k im 1 a = b.
Proof.
  intros Fr. induction f; intros a b A B; cbn [reaches]; destruct (dartEqb a b) eqn:E; intros H.
  - apply dart_ext in E; [exists O; exact E|apply A|apply B].
  - discriminate H.
  - apply dart_ext in E; [exists O; exact E|apply A|apply B].
  - destruct (IHf (placeNext im 1 a) b) as (k & K); auto; [apply (place_next im Fr 1 a); auto; left; reflexivity|]. exists (Datatypes.S k). exact K.
Qed.
Definition ringedB (f : nat) (im : img) : bool :=
  let ps := placesOf im in forallb (fun a => forallb (fun b => negb (nodeOf im a =? nodeOf im b) || reaches f im a b) ps) ps.
Lemma ringedB_holds f im : framed im -> ringedB f im = true -> ringed im.
Proof.
  intros Fr H a b A B E. unfold ringedB in H. rewrite forallb_forall in H. specialize (H a (placesOf_in im a A)). rewrite forallb_forall in H. specialize (H b (placesOf_in im b B)).
  rewrite E, Z.eqb_refl in H. apply (reaches_holds im f); auto.
Qed.
Definition dartsOf (im : img) : list dart := filter (isDartB im) (allStates im).
Lemma dartsOf_in im d : In d (dartsOf im) <-> isDart im d.
Proof.
  unfold dartsOf. rewrite filter_In, isDartB_holds. split; [tauto|]. intros D. split; auto. apply states_in, place_state, dart_place, D.
Qed.
Definition dartIs (a b : dart) : bool := (dcx a =? dcx b) && (dcy a =? dcy b) && (ddir a =? ddir b).
Lemma dartIs_eq a b : dartIs a b = true <-> a = b.
Proof. unfold dartIs. rewrite !Bool.andb_true_iff, !Z.eqb_eq. destruct a, b; cbn. split; [intros ((-> & ->) & ->); reflexivity|intros H; injection H; auto]. Qed.
Definition twoEndsB (im : img) (ds : list dart) (l : Z) (a b : dart) : bool :=
  negb (dartIs a b) && isDartB im a && (edgeOf im a =? l) && isDartB im b && (edgeOf im b =? l) && forallb (fun d => negb (edgeOf im d =? l) || dartIs d a || dartIs d b) ds.
Lemma twoEndsB_holds im l a b : twoEndsB im (dartsOf im) l a b = true -> twoEnds im l a b.
Proof.
  unfold twoEndsB. rewrite !Bool.andb_true_iff, !Z.eqb_eq, !isDartB_holds, Bool.negb_true_iff. intros (((((N & A) & Ea) & B) & Eb) & H). split.
  - intros ->. assert (dartIs b b = true) by (apply dartIs_eq; reflexivity). congruence.
  - intros d. split; [|intros [->| ->]; split; auto]. intros (D & E). rewrite forallb_forall in H. specialize (H d (proj2 (dartsOf_in im d) D)).
    rewrite E, Z.eqb_refl in H. cbn [negb orb] in H. apply Bool.orb_true_iff in H. rewrite !dartIs_eq in H. exact H.
Qed.
Fixpoint nodupB (ds : list dart) : bool := match ds with [] => true | d :: t => negb (existsb (dartIs d) t) && nodupB t end.
Lemma nodupB_holds ds : nodupB ds = true -> NoDup ds.
Proof.
  induction ds as [|d t IH]; cbn [nodupB]; intros H; constructor; apply Bool.andb_true_iff in H; destruct H as (A & B); auto.
  intros I. apply Bool.negb_true_iff in A. assert (existsb (dartIs d) t = true) by (apply existsb_exists; exists d; split; auto; apply dartIs_eq; reflexivity). congruence.
Qed.
Definition hubB (im : img) (ds : list dart) (l : Z) (a : dart) (g : Z) : bool :=
  let ns := filter (fun d => nodeOf im d =? l) ds in
  (0 <=? g) && (g <? 2 ^ 16) && nodupB ns && (Z.of_nat (length ns) =? g) && isPlaceB im a && (nodeOf im a =? l) && ((g =? 0) || isDartB im a) && (negb (g =? 0) || negb (ctypeEqb (typeAt im a 0) Line)).
Lemma hubB_holds im l a g : hubB im (dartsOf im) l a g = true -> hub im l a g.
Proof.
  unfold hubB. cbn zeta. rewrite !Bool.andb_true_iff, !Bool.orb_true_iff, !Bool.negb_true_iff, !Z.eqb_eq, Z.leb_le, Z.ltb_lt, isPlaceB_holds, isDartB_holds, CellSigma_Proofs.ctypeEqb_ne, Z.eqb_neq.
  intros (((((((A & B) & N) & C) & P) & D) & E) & F). split; [auto|]. split.
  - exists (filter (fun d => nodeOf im d =? l) (dartsOf im)). split; [apply nodupB_holds, N|]. split; auto.
    intros d. rewrite filter_In, dartsOf_in, Z.eqb_eq. reflexivity.
  - split; auto. split; auto. split; [intros G; destruct E; auto; lia|]. intros G. destruct F; auto.
Qed.
Fixpoint allNth {A} (f : nat -> A -> bool) (i : nat) (l : list A) : bool := match l with [] => true | h :: t => f i h && allNth f (Datatypes.S i) t end.
Lemma allNth_holds {A} (f : nat -> A -> bool) l : forall i, allNth f i l = true -> forall j a, nth_error l j = Some a -> f (i + j)%nat a = true.
Proof.
  induction l as [|h t IH]; intros i H [|j] a E; cbn in *; try discriminate E; apply Bool.andb_true_iff in H; destruct H as (X & Y).
  - injection E as <-. rewrite Nat.add_0_r. exact X.
  - rewrite <- Nat.add_succ_comm. apply IH; auto.
Qed.
Definition wiredB (f : nat) (m : cmap) : bool :=
  let im := cim m in let ds := dartsOf im in
  cinit m && neatB im && joinedB im && ringedB f im && separateB im &&
  allNth (fun l e => negb (initialized (einf e)) || twoEndsB im ds (Z.of_nat l) (estart e) (eend e)) 0 (cedges m) &&
  allNth (fun l n => negb (initialized (ninf n)) || hubB im ds (Z.of_nat l) (nanchor n) (ndegree n)) 0 (cnodes m).
Lemma wiredB_holds f m : sound m -> wiredB f m = true -> wired m.
Proof.
  intros So. unfold wiredB. cbn zeta. rewrite !Bool.andb_true_iff. intros ((((((Ci & Ne) & Jo) & Ri) & Se) & Ed) & No).
  split; auto. split; [split; [exact So|split; [apply neatB_holds, Ne|apply joinedB_holds, Jo]]|]. split; [apply (ringedB_holds f); auto; apply So|]. split; [apply separateB_holds, Se|]. split.
  - intros l e C I. pose proof (allNth_holds _ _ _ Ed _ _ C) as Q. cbn in Q. rewrite I in Q. apply twoEndsB_holds, Q.
  - intros l n C I. pose proof (allNth_holds _ _ _ No _ _ C) as Q. cbn in Q. rewrite I in Q. apply hubB_holds, Q.
Qed.
Lemma wired_tidy f m : sound m -> wiredB f m = true -> tidy m.
Proof. intros So H. apply (wiredB_holds f m So H). Qed.

(** calls one after the other with darts *)
Definition dartAllowedB (m : cmap) (c : ccall) : bool :=
  allowedB m c && match c with
  | CRemoveIsolatedNode d => forallb (fun e => negb (nodeOf (cim m) e =? nodeOf (cim m) d)) (dartsOf (cim m))
  | CMergeFaces d | CRemoveBridge d | CMergeEdges d => isDartB (cim m) d
  end.
Lemma dartAllowedB_holds m c : dartAllowedB m c = true -> dartAllowed m c.
Proof.
  unfold dartAllowedB, dartAllowed. rewrite Bool.andb_true_iff. intros (A & B). split; [apply allowedB_holds, A|].
  destruct c as [d|d|d|d]; try (apply isDartB_holds, B). intros e D E. rewrite forallb_forall in B. specialize (B e (proj2 (dartsOf_in _ e) D)). rewrite E, Z.eqb_refl in B. discriminate B.
Qed.
Fixpoint dreplay (m : cmap) (cs : list ccall) : option cmap :=
  match cs with
  | [] => Some m
  | c :: t => if dartAllowedB m c then match cexec m c with Ok (m', _) => dreplay m' t | _ => None end else None
  end.
Lemma dreplay_history cs : forall m r, dhistory m -> dreplay m cs = Some r -> dhistory r.
Proof.
  induction cs as [|c t IH]; intros m r Hm H; cbn [dreplay] in H; [injection H as <-; exact Hm|].
  destruct (dartAllowedB m c) eqn:Ea; [|discriminate H]. destruct (cexec m c) as [[m' s]| | |] eqn:E; try discriminate H.
  apply (IH m' r); [|exact H]. exact (dh_call m c m' s Hm (dartAllowedB_holds _ _ Ea) E).
Qed.
Lemma r0_wired : wired r0.
Proof. apply (wiredB_holds 20); [exact r0_sound|vm_compute; reflexivity]. Qed.
Definition wiredAfter (n : nat) : cmap := match dreplay r0 (firstn n tidying) with Some m => m | None => r0 end.
Lemma wiredAfter_history n : dhistory (wiredAfter n).
Proof.
  unfold wiredAfter. destruct (dreplay r0 (firstn n tidying)) as [m|] eqn:E; [|apply dh_start; exact r0_wired].
  exact (dreplay_history _ r0 m (dh_start r0 r0_wired) E).
Qed.
Example wiredAfter_same : map (fun n => (edgeCount (wiredAfter n), nodeCount (wiredAfter n))) [0; 1; 2; 3; 4; 5; 6; 7]%nat = map (fun n => (edgeCount (tidied n), nodeCount (tidied n))) [0; 1; 2; 3; 4; 5; 6; 7]%nat.
Proof. vm_compute. reflexivity. Qed.

(** ** A line pixel in the corner between two pixels of a node *)
Definition knot : img := picture [
  [R 0; R 0; R 0; R 0; R 0; R 0; R 0];
  [R 0; V 0; L 0; L 0; L 0; V 1; R 0];
  [R 0; R 0; V 0; R 0; R 0; R 0; R 0];
  [R 0; R 0; R 0; R 0; R 0; R 0; R 0]] 7 4.
Definition knotComponents (im : img) : (Z -> Z -> Z) * nat := (fun x y => if ctypeEqb (ptype (ipix im x y)) Region then 0 else 1, 1%nat).
Definition knotArea (im : img) (x y : Z) : Z := if plabel (ipix im x y) =? 0 then 2 else 1.
Definition knotMap : cmap := Eval vm_compute in mapOf (import knotArea (fun _ _ _ => []) knotComponents knot).
Lemma knot_imported : import knotArea (fun _ _ _ => []) knotComponents knot = Ok knotMap.
Proof. vm_compute. reflexivity. Qed.
Lemma knot_sound : sound knotMap.
Proof.
  apply (import_sound knotArea (fun _ _ _ => []) knotComponents knot).
  - apply wfImgB_holds. vm_compute. reflexivity.
  - apply framedB_holds. vm_compute. reflexivity.
  - vm_compute. reflexivity.
  - apply linesLiveB_holds. vm_compute. reflexivity.
Qed.

(** ** A straight line pixel beside a diagonal one *)
Definition bent : img := picture [
  [R 0; R 0; R 0; R 0; R 0; R 0];
  [R 0; L 0; L 0; L 0; V 1; R 0];
  [R 0; V 0; R 0; R 0; R 0; R 0];
  [R 0; R 0; R 0; R 0; R 0; R 0]] 6 4.

(** ** A node of three pixels with three edges, one of them a loop *)
Definition fork : img := picture [
  [R 0; R 0; R 0; R 0; R 0; R 0; R 0; R 0; R 0];
  [R 0; V 1; R 0; R 0; R 0; L 1; L 1; R 0; R 0];
  [R 0; R 0; L 0; V 0; V 0; R 1; R 1; L 1; R 0];
  [R 0; R 0; R 0; R 0; R 0; V 0; L 1; R 0; R 0];
  [R 0; R 0; R 0; R 0; L 2; R 0; R 0; R 0; R 0];
  [R 0; R 0; R 0; V 2; R 0; R 0; R 0; R 0; R 0];
  [R 0; R 0; R 0; R 0; R 0; R 0; R 0; R 0; R 0]] 9 7.
Definition forkArea (im : img) (x y : Z) : Z := if plabel (ipix im x y) =? 0 then 3 else 1.
Definition fork0 : cmap := Eval vm_compute in mapOf (import forkArea (fun _ _ _ => []) knotComponents fork).
Lemma fork_imported : import forkArea (fun _ _ _ => []) knotComponents fork = Ok fork0.
Proof. vm_compute. reflexivity. Qed.
Lemma fork_sound : sound fork0.
Proof.
  apply (import_sound forkArea (fun _ _ _ => []) knotComponents fork).
  - apply wfImgB_holds. vm_compute. reflexivity.
  - apply framedB_holds. vm_compute. reflexivity.
  - vm_compute. reflexivity.
  - apply linesLiveB_holds. vm_compute. reflexivity.
Qed.
Lemma fork_wired : wired fork0.
Proof. apply (wiredB_holds 40); [exact fork_sound|vm_compute; reflexivity]. Qed.
(** the loop goes, then the edge to the node below, then that node *)
Definition pruning : list ccall := [CMergeFaces (Dart 5 3 0); CRemoveBridge (Dart 5 3 5); CRemoveIsolatedNode (Dart 3 5 1)].
Definition pruned (n : nat) : cmap := match dreplay fork0 (firstn n pruning) with Some m => m | None => fork0 end.
Lemma pruned_history n : dhistory (pruned n).
Proof.
  unfold pruned. destruct (dreplay fork0 (firstn n pruning)) as [m|] eqn:E; [|apply dh_start; exact fork_wired].
  exact (dreplay_history _ fork0 m (dh_start fork0 fork_wired) E).
Qed.
Lemma dhistory_chistory m : dhistory m -> chistory tidy m.
Proof. intros H. apply ch_start. apply dhistory_wired in H. apply H. Qed.

(** ** Refutations *)
Theorem sigma_refuted : exists crack outer comps im m d d',
  wfImg im /\ framed im /\ joined im /\ import crack outer comps im = Ok m /\ sound m /\ isDart (cim m) d /\ nextSigma (cim m) d = Ok d' /\ prevSigma (cim m) d' <> Ok d.
Proof.
  exists knotArea, (fun _ _ _ => []), knotComponents, knot, knotMap, (Dart 2 2 2), (Dart 2 2 2).
  split; [apply wfImgB_holds; vm_compute; reflexivity|]. split; [apply framedB_holds; vm_compute; reflexivity|]. split; [apply joinedB_holds; vm_compute; reflexivity|].
  split; [exact knot_imported|]. split; [exact knot_sound|]. split; [apply isDartB_holds; vm_compute; reflexivity|]. split; [vm_compute; reflexivity|]. vm_compute. congruence.
Qed.
Theorem constructor_refuted : exists im d d',
  wfImg im /\ framed im /\ neat im /\ joined im /\ vertexAt im (dcx d) (dcy d) /\ 0 <= ddir d < 8 /\ typeAt im d 0 = Line /\ makeDart im d = Ok d' /\ ptype (ipix im (dcx d') (dcy d')) = Line.
Proof.
  exists bent, (Dart 1 2 1), (Dart 1 1 0).
  split; [apply wfImgB_holds; vm_compute; reflexivity|]. split; [apply framedB_holds; vm_compute; reflexivity|]. split; [apply neatB_holds; vm_compute; reflexivity|]. split; [apply joinedB_holds; vm_compute; reflexivity|].
  split; [split; [cbn; lia|split; [cbn; lia|reflexivity]]|]. split; [cbn; lia|]. computes.
Qed.
