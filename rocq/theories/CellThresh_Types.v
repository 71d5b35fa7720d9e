(** What initCellImage makes of the contour image. *)
From Verif Require Import Base CellMap_Model CellMap_Spec CellMap_Init CellMap_InitProofs CellSigma_Spec CellLink_Spec CellFace_Spec CellStart_Spec CellStart_Walk
  CellThresh_Model CellThresh_Spec CellThresh_Comps.
Local Open Scope Z_scope.

(** the number of the configuration *)
Definition confOf (nb : Z -> bool) : Z := fold_left (fun c k => 2 * c + Z.b2z (nb k)) [7; 6; 5; 4; 3; 2; 1; 0] 0.
Definition typeOf (cv : bool) (nb : Z -> bool) : ctype := chooseType cv (nth (Z.to_nat (confOf nb)) cellConfigurations CfError).

Definition ofList (l : list bool) (k : Z) : bool := nth (Z.to_nat k) l false.
Definition seven (nb : Z -> bool) : list bool := map nb ways8.
Lemma type_list cv nb : typeOf cv nb = typeOf cv (ofList (seven nb)). Proof. reflexivity. Qed.
Lemma groups_list nb : groups nb = groups (ofList (seven nb)). Proof. reflexivity. Qed.
Lemma goesOn_list nb : count8 (goesOn nb) = count8 (goesOn (ofList (seven nb))). Proof. reflexivity. Qed.
Lemma angle_list nb : rightAngle nb = rightAngle (ofList (seven nb)). Proof. reflexivity. Qed.
Lemma seven_in nb : In (seven nb) (rings 8). Proof. apply rings_in. reflexivity. Qed.

Lemma all_rings (f : list bool -> bool) : forallb f (rings 8) = true -> forall nb, f (seven nb) = true.
Proof. intros H nb. rewrite forallb_forall in H. apply H, seven_in. Qed.

Definition lineB (cv : bool) (nb : Z -> bool) : bool := Nat.eqb (groups nb) 2 && Nat.eqb (count8 (goesOn nb)) 2 && negb (cv && rightAngle nb).
Lemma line_table cv nb : ctypeEqb (typeOf cv nb) Line = lineB cv nb.
Proof.
  assert (H : forallb (fun l => Bool.eqb (ctypeEqb (typeOf cv (ofList l)) Line) (lineB cv (ofList l))) (rings 8) = true) by (destruct cv; vm_compute; reflexivity).
  apply (all_rings _) with (nb := nb) in H. apply Bool.eqb_prop in H. exact H.
Qed.
Lemma ctypeEqb_iff a b : ctypeEqb a b = true <-> a = b. Proof. destruct a, b; cbn; split; congruence. Qed.
Theorem line_iff cv nb : typeOf cv nb = Line <-> lineLike nb /\ (cv = true -> rightAngle nb = false).
Proof.
  rewrite <- ctypeEqb_iff, line_table. unfold lineB, lineLike. rewrite !andb_true_iff, !Nat.eqb_eq, negb_true_iff.
  destruct cv, (rightAngle nb); cbn; intuition congruence.
Qed.
(** refused configurations *)
Definition tall (nb : Z -> bool) : bool := Nat.leb 4 (count8 nb).
Theorem error_many cv nb : typeOf cv nb = ErrorType -> (4 <= count8 nb)%nat /\ (groups nb = 1 \/ groups nb = 2)%nat.
Proof.
  intros T. assert (H : forallb (fun l => negb (ctypeEqb (typeOf cv (ofList l)) ErrorType) || (Nat.leb 4 (count8 (ofList l)) && (Nat.eqb (groups (ofList l)) 1 || Nat.eqb (groups (ofList l)) 2))) (rings 8) = true)
    by (destruct cv; vm_compute; reflexivity).
  apply (all_rings _) with (nb := nb) in H. change (typeOf cv (ofList (seven nb))) with (typeOf cv nb) in H. rewrite T in H. cbn [ctypeEqb negb orb] in H.
  apply andb_prop in H. destruct H as [H G]. apply Nat.leb_le in H. apply orb_prop in G. rewrite !Nat.eqb_eq in G. split; [exact H|exact G].
Qed.
Theorem never_region cv nb : typeOf cv nb <> Region.
Proof. unfold typeOf. destruct (nth _ _ _), cv; discriminate. Qed.
(** turning the image by a quarter and reflecting it *)
Theorem type_turned cv nb : typeOf cv (fun k => nb ((k + 2) mod 8)) = typeOf cv nb.
Proof.
  assert (H : forallb (fun l => ctypeEqb (typeOf cv (fun k => ofList l ((k + 2) mod 8))) (typeOf cv (ofList l))) (rings 8) = true) by (destruct cv; vm_compute; reflexivity).
  apply (all_rings _) with (nb := nb) in H. apply ctypeEqb_iff in H. exact H.
Qed.
Theorem type_mirrored cv nb : typeOf cv (fun k => nb ((4 - k) mod 8)) = typeOf cv nb.
Proof.
  assert (H : forallb (fun l => ctypeEqb (typeOf cv (fun k => ofList l ((4 - k) mod 8))) (typeOf cv (ofList l))) (rings 8) = true) by (destruct cv; vm_compute; reflexivity).
  apply (all_rings _) with (nb := nb) in H. apply ctypeEqb_iff in H. exact H.
Qed.
(** the end of a line, and a single pixel *)
Theorem end_vertex cv nb : count8 (goesOn nb) = 1%nat \/ count8 nb = 0%nat -> typeOf cv nb = Vertex.
Proof.
  intros C. assert (H : forallb (fun l => negb (Nat.eqb (count8 (goesOn (ofList l))) 1 || Nat.eqb (count8 (ofList l)) 0) || ctypeEqb (typeOf cv (ofList l)) Vertex) (rings 8) = true) by (destruct cv; vm_compute; reflexivity).
  apply (all_rings _) with (nb := nb) in H. apply ctypeEqb_iff. change (typeOf cv (ofList (seven nb))) with (typeOf cv nb) in H.
  destruct C as [C|C]; [change (count8 (goesOn (ofList (seven nb)))) with (count8 (goesOn nb)) in H|change (count8 (ofList (seven nb))) with (count8 nb) in H];
    rewrite C in H; cbn [Nat.eqb orb negb] in H; [exact H|]. rewrite orb_true_r in H. exact H.
Qed.
(** three or four ways to go on *)
Theorem fork_vertex cv nb : (3 <= groups nb)%nat -> typeOf cv nb = Vertex.
Proof.
  intros C. assert (H : forallb (fun l => negb (Nat.leb 3 (groups (ofList l))) || ctypeEqb (typeOf cv (ofList l)) Vertex) (rings 8) = true) by (destruct cv; vm_compute; reflexivity).
  apply (all_rings _) with (nb := nb) in H. apply ctypeEqb_iff. change (typeOf cv (ofList (seven nb))) with (typeOf cv nb) in H. change (groups (ofList (seven nb))) with (groups nb) in H.
  apply Nat.leb_le in C. rewrite C in H. exact H.
Qed.

(** ** The loop over the pixels *)
Section Init.
Variable cv : bool.
Variables w h : Z.
Variable boundary : Z -> Z -> bool.
Hypothesis Hw : 0 <= w.
Hypothesis Hh : 0 <= h.
Let C := contourAt w h boundary.
Let nbs (x y k : Z) : bool := C (x + dirX k) (y + dirY k).
Let tOf (x y : Z) : ctype := if C x y then typeOf cv (nbs x y) else Region.

Lemma contour_spec x y : C x y = true <-> isContour w h boundary x y.
Proof.
  unfold C, contourAt, isContour. destruct (within 2 (w + 2) x && within 2 (h + 2) y) eqn:E.
  - apply andb_prop in E. rewrite !within_iff in E. split; [intros H; left; tauto|]. intros [H|H]; [tauto|lia].
  - rewrite andb_true_iff, !within_iff. assert (N : ~ (2 <= x < w + 2 /\ 2 <= y < h + 2)) by (rewrite <- (within_iff 2 (w + 2) x), <- (within_iff 2 (h + 2) y), <- andb_true_iff, E; discriminate).
    split; [intros H; right; lia|]. intros [H|H]; lia.
Qed.
Lemma contour_inner x y : C x y = true -> 0 < x < w + 3 /\ 0 < y < h + 3.
Proof. intros H. apply contour_spec in H. unfold isContour in H. lia. Qed.
Lemma dir_bound k : -1 <= dirX k <= 1 /\ -1 <= dirY k <= 1.
Proof. unfold dirX, dirY. repeat match goal with |- context [match ?x with _ => _ end] => is_var x; destruct x end; lia. Qed.
Lemma conf_read x y : 0 < x < w + 3 -> 0 < y < h + 3 -> forall ks c, readConf w h boundary x y ks c = Ok (fold_left (fun c k => 2 * c + Z.b2z (nbs x y k)) ks c).
Proof.
  intros X Y. induction ks as [|k t IH]; intros c; cbn [readConf fold_left]; [reflexivity|].
  unfold readContour. assert (E : within 0 (w + 4) (x + dirX k) && within 0 (h + 4) (y + dirY k) = true) by (rewrite andb_true_iff, !within_iff; pose proof (dir_bound k); lia).
  rewrite E. cbn [bind]. apply IH.
Qed.
Lemma pix_step im x y : iw im = w + 4 -> ih im = h + 4 -> 0 <= x < w + 4 -> 0 <= y < h + 4 ->
  initCellPix cv w h boundary im (x, y) = if ctypeEqb (tOf x y) ErrorType then Exn else writePix im x y (Pix (tOf x y) 0).
Proof.
  intros W H X Y. unfold initCellPix, tOf. cbn [fst snd]. unfold readContour.
  assert (E : within 0 (w + 4) x && within 0 (h + 4) y = true) by (rewrite andb_true_iff, !within_iff; lia). rewrite E. cbn [bind]. fold (C x y).
  destruct (C x y) eqn:Ec; cbn [negb]; [|reflexivity].
  destruct (contour_inner x y Ec) as [X' Y']. rewrite (conf_read x y X' Y'). cbn [bind]. fold (confOf (nbs x y)). fold (typeOf cv (nbs x y)).
  destruct (typeOf cv (nbs x y)); reflexivity.
Qed.

Definition typed (im : img) (done : list (Z * Z)) : Prop :=
  iw im = w + 4 /\ ih im = h + 4 /\ forall x y, In (x, y) done -> ipix im x y = Pix (tOf x y) 0 /\ tOf x y <> ErrorType.
Lemma write_some im x y p : 0 <= x < iw im -> 0 <= y < ih im ->
  writePix im x y p = Ok (Img (iw im) (ih im) (fun x' y' => if (x' =? x) && (y' =? y) then p else ipix im x' y')).
Proof.
  intros X Y. unfold writePix. assert (insideImg im x y = true) as -> by (unfold insideImg; rewrite !andb_true_iff; lia). reflexivity.
Qed.
Lemma loop_typed : forall rest done im, (forall x y, In (x, y) (done ++ rest) -> 0 <= x < w + 4 /\ 0 <= y < h + 4) -> typed im done ->
  (exists im', forEach (initCellPix cv w h boundary) rest im = Ok im' /\ typed im' (done ++ rest)) \/
  (forEach (initCellPix cv w h boundary) rest im = Exn /\ exists x y, In (x, y) rest /\ tOf x y = ErrorType).
Proof.
  induction rest as [|[x y] t IH]; intros done im R T; cbn [forEach].
  - left. exists im. rewrite app_nil_r. split; [reflexivity|exact T].
  - destruct (R x y) as [X Y]; [apply in_or_app; right; left; reflexivity|]. destruct T as (W & H & T).
    rewrite (pix_step im x y W H X Y). destruct (ctypeEqb (tOf x y) ErrorType) eqn:E.
    + right. cbn [bind]. split; [reflexivity|]. exists x, y. split; [left; reflexivity|apply ctypeEqb_iff; exact E].
    + rewrite write_some by lia. cbn [bind]. 
      destruct (IH (done ++ [(x, y)]) (Img (iw im) (ih im) (fun x' y' => if (x' =? x) && (y' =? y) then Pix (tOf x y) 0 else ipix im x' y'))) as [(im' & F & T')|(F & u & v & I & Er)].
      * rewrite <- app_assoc. exact R.
      * split; [exact W|split; [exact H|]]. intros u v I. cbn [ipix]. destruct ((u =? x) && (v =? y)) eqn:Q.
        -- apply andb_prop in Q. destruct Q as [Q1 Q2]. apply Z.eqb_eq in Q1, Q2. subst u v. split; [reflexivity|]. intros K. rewrite K in E. discriminate E.
        -- apply in_app_or in I. destruct I as [I|[I|[]]]; [apply T, I|]. injection I as -> ->. rewrite !Z.eqb_refl in Q. discriminate Q.
      * left. exists im'. rewrite <- app_assoc in T'. split; [exact F|exact T'].
      * right. split; [exact F|]. exists u, v. split; [right; exact I|exact Er].
Qed.
Definition typedImage (im : img) : Prop :=
  iw im = w + 4 /\ ih im = h + 4 /\ forall x y, 0 <= x < w + 4 -> 0 <= y < h + 4 ->
    ipix im x y = Pix (if (x =? 1) && (y =? 1) then Vertex else tOf x y) 0 /\ tOf x y <> ErrorType.
Theorem init_outcome : (exists im, initCellImage cv w h boundary = Ok im /\ typedImage im) \/
  (initCellImage cv w h boundary = Exn /\ exists x y, 0 <= x < w + 4 /\ 0 <= y < h + 4 /\ tOf x y = ErrorType).
Proof.
  unfold initCellImage. set (im0 := Img (w + 4) (h + 4) (fun _ _ => Pix ErrorType 0)).
  assert (A : forall x y, In (x, y) (allPoints im0) <-> 0 <= x < w + 4 /\ 0 <= y < h + 4) by (intros x y; unfold allPoints; rewrite rectPoints_in; unfold inRect; cbn; lia).
  destruct (loop_typed (allPoints im0) [] im0) as [(im' & F & W & H & T)|(F & x & y & I & E)].
  - intros x y I. apply A, I.
  - split; [reflexivity|split; [reflexivity|intros x y []]].
  - left. rewrite F. cbn [bind]. rewrite write_some by lia. eexists. split; [reflexivity|]. split; [exact W|split; [exact H|]].
    intros x y X Y. destruct (T x y (proj2 (A x y) (conj X Y))) as [Ti Te]. split; [|exact Te]. cbn [ipix]. destruct ((x =? 1) && (y =? 1)); [reflexivity|exact Ti].
  - right. rewrite F. split; [reflexivity|]. exists x, y. destruct (proj1 (A x y) I). auto.
Qed.

(** ** The image *)
Variable im : img.
Hypothesis Im : typedImage im.
Lemma one_contour : C 1 1 = true. Proof. apply contour_spec. unfold isContour. lia. Qed.
Lemma t_region x y : C x y = false <-> tOf x y = Region.
Proof. unfold tOf. destruct (C x y) eqn:E; [|tauto]. split; [discriminate|]. intros K. destruct (never_region _ _ K). Qed.
Lemma typed_pix x y : 0 <= x < w + 4 -> 0 <= y < h + 4 -> ipix im x y = Pix (if (x =? 1) && (y =? 1) then Vertex else tOf x y) 0.
Proof. intros X Y. apply Im; assumption. Qed.
Lemma typed_region x y : 0 <= x < w + 4 -> 0 <= y < h + 4 -> (ptype (ipix im x y) = Region <-> C x y = false).
Proof.
  intros X Y. rewrite (typed_pix x y X Y). cbn [ptype]. rewrite t_region. destruct ((x =? 1) && (y =? 1)) eqn:E; [|tauto].
  apply andb_prop in E. destruct E as [E1 E2]. apply Z.eqb_eq in E1, E2. subst x y. split; [discriminate|]. rewrite <- t_region. rewrite one_contour. discriminate.
Qed.
Lemma typed_regionB x y : 0 <= x < w + 4 -> 0 <= y < h + 4 -> ctypeEqb (ptype (ipix im x y)) Region = negb (C x y).
Proof.
  intros X Y. pose proof (typed_region x y X Y) as H. rewrite <- ctypeEqb_iff in H. destruct (ctypeEqb _ _), (C x y); cbn; intuition congruence.
Qed.
Lemma typed_framed : framed im.
Proof.
  intros x y X Y B. destruct Im as (W & H & _). rewrite W in X, B. rewrite H in Y, B. rewrite (typed_pix x y X Y).
  assert (N : C x y = false). { destruct (C x y) eqn:E; [|reflexivity]. apply contour_inner in E. lia. }
  assert (E : (x =? 1) && (y =? 1) = false). { destruct ((x =? 1) && (y =? 1)) eqn:E; [|reflexivity]. apply andb_prop in E. destruct E as [E1 E2]. apply Z.eqb_eq in E1, E2. subst. rewrite one_contour in N. discriminate N. }
  rewrite E. apply t_region in N. rewrite N. reflexivity.
Qed.
Lemma typed_plain : plain im.
Proof.
  intros x y X Y. destruct Im as (W & H & T). rewrite W in X. rewrite H in Y. destruct (T x y X Y) as [-> N]. cbn [ptype]. destruct (_ && _); [discriminate|exact N].
Qed.
Lemma typed_label x y : 0 <= x < w + 4 -> 0 <= y < h + 4 -> plabel (ipix im x y) = 0.
Proof. intros X Y. rewrite (typed_pix x y X Y). reflexivity. Qed.

Lemma line_inner x y : lineAt im x y -> 0 < x < w + 3 /\ 0 < y < h + 3 /\ C x y = true /\ typeOf cv (nbs x y) = Line.
Proof.
  intros (X & Y & T). destruct Im as (W & H & _). rewrite W in X. rewrite H in Y. rewrite (typed_pix x y X Y) in T. cbn [ptype] in T.
  destruct (_ && _); [discriminate T|]. unfold tOf in T. destruct (C x y) eqn:E; [|discriminate T]. pose proof (contour_inner x y E). tauto.
Qed.
Lemma line_ring x y : 0 < x < w + 3 -> 0 < y < h + 3 -> ringOf im x y = map negb (seven (nbs x y)).
Proof.
  intros X Y. unfold ringOf, seven. rewrite map_map. change ways8 with dirs. apply map_ext. intros k. pose proof (dir_bound k). unfold nbs. apply typed_regionB; lia.
Qed.
Lemma ring_line cvx nb : typeOf cvx nb = Line -> smoothR (map negb (seven nb)) = true /\ exists a b, 0 <= a < 8 /\ 0 <= b < 8 /\ slimR (map negb (seven nb)) a b = true.
Proof.
  intros T. assert (H : forallb (fun l => negb (ctypeEqb (typeOf cvx (ofList l)) Line) || (smoothR (map negb l) && existsb (fun a => existsb (slimR (map negb l) a) dirs) dirs)) (rings 8) = true)
    by (destruct cvx; vm_compute; reflexivity).
  apply (all_rings _) with (nb := nb) in H. change (typeOf cvx (ofList (seven nb))) with (typeOf cvx nb) in H. rewrite T in H. cbn [ctypeEqb negb orb] in H.
  apply andb_prop in H. destruct H as [S E]. split; [exact S|]. apply existsb_exists in E. destruct E as (a & A & E). apply existsb_exists in E. destruct E as (b & B & E).
  assert (R : forall k, In k dirs -> 0 <= k < 8) by (unfold dirs; cbn; intros k K; lia). exists a, b. auto.
Qed.
Lemma typed_slim : slim im.
Proof.
  intros x y L. destruct (line_inner x y L) as (X & Y & _ & T). destruct (ring_line cv _ T) as (_ & a & b & A & B & S).
  rewrite <- (line_ring x y X Y) in S. unfold slimR in S. apply andb_prop in S. destruct S as [N S]. exists a, b. split; [intros ->; rewrite Z.eqb_refl in N; discriminate N|].
  intros k. rewrite link_ring. rewrite forallb_forall in S. split.
  - intros [K R]. specialize (S k (dirs_in k K)). rewrite R in S. apply Bool.eqb_prop in S. symmetry in S. apply orb_prop in S. rewrite !Z.eqb_eq in S. exact S.
  - intros K. assert (K' : 0 <= k < 8) by (destruct K as [->| ->]; assumption). split; [exact K'|]. specialize (S k (dirs_in k K')). apply Bool.eqb_prop in S. rewrite S. apply orb_true_iff. rewrite !Z.eqb_eq. exact K.
Qed.
Lemma typed_smooth : smooth im.
Proof.
  intros d L K N0 N2. destruct (line_inner _ _ L) as (X & Y & _ & T). destruct (ring_line cv _ T) as (S & _).
  rewrite <- (line_ring _ _ X Y) in S. unfold smoothR in S. rewrite forallb_forall in S. specialize (S (ddir d) K).
  apply orb_prop in S. destruct S as [S|S]; [apply orb_prop in S; destruct S as [S|S]|].
  - exfalso. apply N0. apply ring_region. rewrite Z.add_0_r. exact S.
  - exfalso. apply N2. apply ring_region. exact S.
  - apply ring_region. exact S.
Qed.
(** with corners as nodes *)
Lemma typed_neat : cv = true -> neat im.
Proof.
  intros Cv x y k X Y K T V V'. assert (L : lineAt im x y) by (split; [lia|split; [lia|exact T]]).
  destruct (line_inner x y L) as (X' & Y' & _ & Ty). apply line_iff in Ty. destruct Ty as [_ R]. specialize (R Cv).
  assert (F : nbs x y k && nbs x y ((k + 2) mod 8) = true).
  { unfold nbs. pose proof (dir_bound k). pose proof (dir_bound ((k + 2) mod 8)). apply andb_true_intro.
    split; match goal with |- C ?a ?b = true => destruct (C a b) eqn:E; [reflexivity|]; apply typed_region in E; [congruence|lia|lia] end. }
  assert (G : rightAngle (nbs x y) = true) by (unfold rightAngle; apply existsb_exists; exists k; split; [exact K|exact F]). congruence.
Qed.
End Init.
