(** Walking along the lines of an image (EdgelIterator). *)
From Verif Require Import Base CellMap_Model CellMap_Spec CellSigma_Spec CellSigma_Proofs CellSigma_Results CellLink_Spec CellLink_Proofs CellFace_Spec CellStart_Spec.
Local Open Scope Z_scope.

(** ** The eight pixels around one: which of them belong to regions *)

Definition rg (r : list bool) (k : Z) : bool := nth (Z.to_nat (k mod 8)) r false.
Definition dirs : list Z := [0; 1; 2; 3; 4; 5; 6; 7].
Fixpoint rings (n : nat) : list (list bool) := match n with O => [[]] | Datatypes.S k => map (cons true) (rings k) ++ map (cons false) (rings k) end.
Lemma rings_in n : forall r, length r = n -> In r (rings n).
Proof.
  induction n as [|n IH]; intros [|b r] H; cbn in H; try discriminate; [left; reflexivity|]. injection H as H. cbn [rings]. apply in_or_app.
  destruct b; [left|right]; apply in_map, IH, H.
Qed.
Definition linkR (r : list bool) (k : Z) : bool := negb (rg r k) && (negb (Z.odd k) || (rg r (k + 1) && rg r (k - 1))).
Definition slimR (r : list bool) (b k : Z) : bool := negb (b =? k) && forallb (fun j => Bool.eqb (linkR r j) ((j =? b) || (j =? k))) dirs.
Definition smoothR (r : list bool) : bool := forallb (fun k => rg r k || rg r (k + 2) || rg r (k + 1)) [0; 2; 4; 6].
Fixpoint skipR (f : nat) (r : list bool) (j : Z) : option Z :=
  match f with O => None | Datatypes.S g => if rg r j then skipR g r ((j + 1) mod 8) else Some j end.
Definition nextR (r : list bool) (b : Z) : option Z :=
  match skipR 8 r ((b + 2) mod 8) with
  | None => None
  | Some j => Some (if Z.odd j then if rg r (j + 1) then j else (j + 1) mod 8 else j)
  end.
(** the regions beside the line that comes from [b], and beside the line that leaves to [k] *)
Definition inR (r : list bool) (n b : Z) : Z := if Z.odd b then b - n else if rg r (b - 2 * n) then b - 2 * n else b - n.
Definition outR (r : list bool) (n k : Z) : Z := if rg r (k + n) then k + n else k + 2 * n.
(** a way from [a] to [b] through regions *)
Definition arcR (r : list bool) (a b : Z) : bool :=
  existsb (fun len => ((a + len - b) mod 8 =? 0) && forallb (fun i => negb (i <=? len) || rg r (a + i)) dirs) dirs.
Definition joinR (r : list bool) (a b : Z) : bool := arcR r a b || arcR r b a.
Definition factR (r : list bool) (b k : Z) : bool :=
  if slimR r b k then if smoothR r then
    match nextR r b with Some j => j =? k | None => false end &&
    joinR r (inR r 1 b) (outR r 1 k) && joinR r (inR r (-1) b) (outR r (-1) k) &&
    forallb (fun j => negb (rg r j) || joinR r j (outR r 1 k) || joinR r j (outR r (-1) k)) [0; 2; 4; 6]
  else true else true.
Lemma facts_hold : forallb (fun r => forallb (fun b => forallb (factR r b) dirs) dirs) (rings 8) = true.
Proof. vm_compute. reflexivity. Qed.
Lemma dirs_in k : 0 <= k < 8 -> In k dirs.
Proof. intros K. apply dir8 in K. unfold dirs. cbn. intuition. Qed.
Lemma ring_facts r b k : length r = 8%nat -> 0 <= b < 8 -> 0 <= k < 8 -> slimR r b k = true -> smoothR r = true ->
  nextR r b = Some k /\ (forall n, way n -> joinR r (inR r n b) (outR r n k) = true) /\
  forall j, In j [0; 2; 4; 6] -> rg r j = true -> joinR r j (outR r 1 k) = true \/ joinR r j (outR r (-1) k) = true.
Proof.
  intros L B K S M. pose proof facts_hold as F. rewrite forallb_forall in F. specialize (F r (rings_in 8 r L)). rewrite forallb_forall in F. specialize (F b (dirs_in b B)).
  rewrite forallb_forall in F. specialize (F k (dirs_in k K)). unfold factR in F. rewrite S, M in F.
  apply andb_true_iff in F. destruct F as [F F4]. apply andb_true_iff in F. destruct F as [F F3]. apply andb_true_iff in F. destruct F as [F1 F2]. split; [|split].
  - destruct (nextR r b) as [j|]; [|discriminate F1]. f_equal. lia.
  - intros n [->| ->]; assumption.
  - intros j J R. rewrite forallb_forall in F4. specialize (F4 j J). rewrite R in F4. cbn [negb orb] in F4. apply orb_true_iff in F4. exact F4.
Qed.
Lemma rg_mod r k : rg r (k mod 8) = rg r k.
Proof. unfold rg. rewrite Z.mod_mod by lia. reflexivity. Qed.

Section Image.
Variable im : img.
Hypothesis Fr : framed im.

Definition ringOf (x y : Z) : list bool := map (fun k => ctypeEqb (ptype (ipix im (x + dirX k) (y + dirY k))) Region) dirs.
Lemma ring_length x y : length (ringOf x y) = 8%nat. Proof. reflexivity. Qed.
Lemma ring_at x y k : rg (ringOf x y) k = ctypeEqb (ptype (ipix im (x + dirX (k mod 8)) (y + dirY (k mod 8)))) Region.
Proof.
  unfold rg. pose proof (Z.mod_pos_bound k 8 ltac:(lia)) as B. destruct (dir8 _ B) as [->|[->|[->|[->|[->|[->|[->| ->]]]]]]]; reflexivity.
Qed.
Lemma ring_type d n : ctypeEqb (typeAt im d n) Region = rg (ringOf (dcx d) (dcy d)) (ddir d + n).
Proof. rewrite ring_at. reflexivity. Qed.
Lemma ring_region d n : typeAt im d n = Region <-> rg (ringOf (dcx d) (dcy d)) (ddir d + n) = true.
Proof. rewrite <- ring_type. symmetry. apply CellSigma_Proofs.ctypeEqb_eq. Qed.

Lemma line_is_inner x y : lineAt im x y -> 0 < x < iw im - 1 /\ 0 < y < ih im - 1.
Proof.
  intros (X & Y & T). destruct (Z.eq_dec x 0), (Z.eq_dec x (iw im - 1)), (Z.eq_dec y 0), (Z.eq_dec y (ih im - 1)); try lia;
    rewrite (Fr x y X Y) in T by lia; discriminate T.
Qed.
Definition inner (x y : Z) : Prop := 0 < x < iw im - 1 /\ 0 < y < ih im - 1.
Lemma inner_read d n : inner (dcx d) (dcy d) ->
  neighborPix im d n = Ok (ipix im (dcx d + dirX ((ddir d + n) mod 8)) (dcy d + dirY ((ddir d + n) mod 8))).
Proof.
  intros (X & Y). unfold neighborPix, readPix, insideImg.
  pose proof (dirX_bound ((ddir d + n) mod 8)). pose proof (dirY_bound ((ddir d + n) mod 8)).
  destruct (Z.leb_spec 0 (dcx d + dirX ((ddir d + n) mod 8))); [|lia]. destruct (Z.ltb_spec (dcx d + dirX ((ddir d + n) mod 8)) (iw im)); [|lia].
  destruct (Z.leb_spec 0 (dcy d + dirY ((ddir d + n) mod 8))); [|lia]. destruct (Z.ltb_spec (dcy d + dirY ((ddir d + n) mod 8)) (ih im)); [|lia]. reflexivity.
Qed.
Lemma inner_type d n p : inner (dcx d) (dcy d) -> neighborPix im d n = Ok p -> ptype p = typeAt im d n.
Proof. intros I H. rewrite inner_read in H by exact I. injection H as <-. reflexivity. Qed.

(** ** Where a step along the line leads *)

Definition tx (d : dart) : Z := dcx d + dirX (ddir d).
Definition ty (d : dart) : Z := dcy d + dirY (ddir d).
Definition back (d : dart) : dart := Dart (tx d) (ty d) ((ddir d + 4) mod 8).
Lemma back_swap d : 0 <= ddir d < 8 -> swapCenterNeighbor d = back d.
Proof. intros D. unfold swapCenterNeighbor, moveCenterToNeighbor, turn, back, tx, ty. cbn. rewrite (Z.mod_small (ddir d)) by exact D. reflexivity. Qed.
Lemma back_target d : 0 <= ddir d < 8 -> tx (back d) = dcx d /\ ty (back d) = dcy d.
Proof. intros D. destruct d as [x y k]. unfold back, tx, ty. cbn [ddir dcx dcy] in *. destruct (dir8 _ D) as [->|[->|[->|[->|[->|[->|[->| ->]]]]]]]; cbn; lia. Qed.
Lemma back_range d : 0 <= ddir (back d) < 8. Proof. cbn. apply Z.mod_pos_bound. lia. Qed.
Lemma back_back d : 0 <= ddir d < 8 -> back (back d) = d.
Proof.
  intros D. destruct (back_target d D) as [X Y]. unfold back at 1. rewrite X, Y. destruct d as [x y k]. cbn [back ddir dcx dcy] in *. f_equal.
  destruct (dir8 _ D) as [->|[->|[->|[->|[->|[->|[->| ->]]]]]]]; reflexivity.
Qed.
Lemma type_ahead d : 0 <= ddir d < 8 -> typeAt im d 0 = ptype (ipix im (tx d) (ty d)).
Proof. intros D. unfold typeAt, tx, ty. rewrite Z.add_0_r, Z.mod_small by exact D. reflexivity. Qed.
Lemma back_sides d : 0 <= ddir d < 8 -> Z.odd (ddir d) = true -> typeAt im (back d) 1 = typeAt im d (-1) /\ typeAt im (back d) (-1) = typeAt im d 1.
Proof.
  intros D O. destruct d as [x y k]. cbn [ddir] in *. unfold typeAt, back, tx, ty. cbn [dcx dcy ddir].
  destruct (odd_dirs k D O) as [->|[->|[->| ->]]]; cbn; split; f_equal; f_equal; lia.
Qed.
Lemma link_back d : link im d -> ptype (ipix im (dcx d) (dcy d)) <> Region -> link im (back d).
Proof.
  intros (D & T & S) C. split; [apply back_range|]. split.
  - rewrite type_ahead by apply back_range. destruct (back_target d D) as [-> ->]. exact C.
  - intros O. assert (O' : Z.odd (ddir d) = true) by (destruct (dir8 _ D) as [E|[E|[E|[E|[E|[E|[E|E]]]]]]]; cbn in O; rewrite E in O |- *; exact O).
    destruct (back_sides d D O') as [-> ->]. destruct (S O'). auto.
Qed.

Lemma link_ring x y k : link im (Dart x y k) <-> 0 <= k < 8 /\ linkR (ringOf x y) k = true.
Proof.
  unfold link, linkR. cbn [ddir]. rewrite !(ring_region (Dart x y k)). cbn [dcx dcy ddir]. rewrite Z.add_0_r. change (k + -1) with (k - 1).
  destruct (rg _ k), (Z.odd k), (rg _ (k + 1)), (rg _ (k - 1)); cbn; intuition congruence.
Qed.

Lemma skip_ring f : forall x y j, inner x y -> skipRegion f im (Dart x y j) = match skipR f (ringOf x y) j with Some k => Ok (Dart x y k) | None => NoFuel end.
Proof.
  induction f as [|f IH]; intros x y j I; [reflexivity|]. cbn [skipRegion skipR]. rewrite inner_read by exact I. cbn [bind]. cbn [dcx dcy ddir]. rewrite Z.add_0_r, <- ring_at.
  destruct (rg (ringOf x y) j); [|reflexivity]. unfold turn. cbn [dcx dcy ddir]. apply IH, I.
Qed.
Lemma edgel_ring d k : 0 <= ddir d < 8 -> inner (tx d) (ty d) -> nextR (ringOf (tx d) (ty d)) (ddir (back d)) = Some k ->
  edgelNext im d = Ok (Dart (tx d) (ty d) k, ctypeEqb (typeAt im (Dart (tx d) (ty d) k) 0) Vertex).
Proof.
  intros D I H. unfold edgelNext. replace (turn (-2) (moveCenterToNeighbor d)) with (Dart (tx d) (ty d) ((ddir (back d) + 2) mod 8)).
  2: { unfold turn, moveCenterToNeighbor, tx, ty, back. cbn [dcx dcy ddir]. rewrite (Z.mod_small (ddir d)) by exact D. f_equal.
       destruct (dir8 _ D) as [->|[->|[->|[->|[->|[->|[->| ->]]]]]]]; reflexivity. }
  rewrite skip_ring by exact I. unfold nextR in H. destruct (skipR 8 _ _) as [j|]; [|discriminate H]. injection H as H. cbn [bind].
  unfold isDiagonal. cbn [ddir]. destruct (Z.odd j) eqn:O.
  - rewrite inner_read by exact I. cbn [bind dcx dcy ddir]. rewrite <- ring_at. destruct (rg _ (j + 1)); unfold turn; cbn [bind dcx dcy ddir]; rewrite H; rewrite inner_read by exact I; reflexivity.
  - cbn [bind]. rewrite H. rewrite inner_read by exact I. reflexivity.
Qed.

Hypothesis Sl : slim im.
Hypothesis Sm : smooth im.

Lemma smooth_ring x y : lineAt im x y -> smoothR (ringOf x y) = true.
Proof.
  intros L. unfold smoothR. apply forallb_forall. intros k K. destruct (rg _ k) eqn:E0; [reflexivity|]. destruct (rg _ (k + 2)) eqn:E2; [reflexivity|]. cbn [orb].
  rewrite <- (ring_region (Dart x y k) 1). apply Sm; auto; rewrite (ring_region (Dart x y k)); cbn [dcx dcy ddir]; rewrite ?Z.add_0_r; congruence.
Qed.
Lemma slim_ring x y b : lineAt im x y -> link im (Dart x y b) ->
  exists k, 0 <= k < 8 /\ slimR (ringOf x y) b k = true /\ k <> b /\ forall j, link im (Dart x y j) <-> j = b \/ j = k.
Proof.
  intros L B. destruct (Sl x y L) as (a & c & N & H).
  assert (exists k, k <> b /\ forall j, link im (Dart x y j) <-> j = b \/ j = k) as (k & K & J).
  { apply H in B as B'. destruct B' as [->| ->]; [exists c|exists a]; split; auto; intros j; rewrite H; tauto. }
  exists k. assert (Lk : link im (Dart x y k)) by (apply J; auto). split; [apply Lk|]. split; [|auto].
  unfold slimR. apply andb_true_iff. split; [destruct (Z.eqb_spec b k); [congruence|reflexivity]|]. apply forallb_forall. intros j Hj.
  assert (0 <= j < 8) as Rj by (unfold dirs in Hj; cbn in Hj; lia).
  specialize (J j). rewrite link_ring in J. destruct (linkR _ j); destruct (Z.eqb_spec j b); destruct (Z.eqb_spec j k); cbn; try reflexivity; exfalso; intuition congruence.
Qed.

(** on the way along a line: from a pixel of the contours to a line pixel *)
Definition half (h : dart) : Prop := link im h /\ lineAt im (tx h) (ty h) /\ ptype (ipix im (dcx h) (dcy h)) <> Region.
Definition forth (h : dart) : dart := match edgelNext im h with Ok r => fst r | _ => h end.
Lemma forth_spec h : half h -> exists k, forth h = Dart (tx h) (ty h) k /\ 0 <= k < 8 /\ k <> ddir (back h) /\
  edgelNext im h = Ok (forth h, ctypeEqb (typeAt im (forth h) 0) Vertex) /\ slimR (ringOf (tx h) (ty h)) (ddir (back h)) k = true /\
  forall j, link im (Dart (tx h) (ty h) j) <-> j = ddir (back h) \/ j = k.
Proof.
  intros (Lk & Ln & C). pose proof (link_back h Lk C) as B. destruct (slim_ring _ _ _ Ln B) as (k & K & S & N & J).
  destruct (ring_facts _ _ k (ring_length (tx h) (ty h)) (back_range h) K S (smooth_ring _ _ Ln)) as (E & _).
  pose proof (edgel_ring h k (proj1 Lk) (line_is_inner _ _ Ln) E) as X. exists k. unfold forth. rewrite X. cbn [fst]. auto 8.
Qed.
Lemma forth_half h : half h -> link im (forth h) /\ dcx (forth h) = tx h /\ dcy (forth h) = ty h /\ (lineAt im (tx (forth h)) (ty (forth h)) -> half (forth h)).
Proof.
  intros H. destruct (forth_spec h H) as (k & E & K & N & X & S & J). rewrite E. assert (L : link im (Dart (tx h) (ty h) k)) by (apply J; auto).
  split; [exact L|]. split; [reflexivity|]. split; [reflexivity|]. intros Q. split; [exact L|]. split; [exact Q|]. cbn. destruct H as (_ & (_ & _ & T) & _). rewrite T. discriminate.
Qed.
Lemma back_range_eq a b : tx a = tx b -> ty a = ty b -> ddir (back a) = ddir (back b) -> 0 <= ddir a < 8 -> 0 <= ddir b < 8 -> a = b.
Proof. intros X Y D A B. rewrite <- (back_back a A), <- (back_back b B). f_equal. unfold back in *. cbn [ddir] in D. congruence. Qed.
Lemma forth_inj a b : half a -> half b -> forth a = forth b -> a = b.
Proof.
  intros A B H. destruct (forth_spec a A) as (k & E & K & N & _ & _ & J). destruct (forth_spec b B) as (k' & E' & K' & N' & _ & _ & J').
  rewrite E, E' in H. injection H as X Y <-. apply back_range_eq; auto; [|apply A|apply B].
  pose proof (link_back b (proj1 B) (proj2 (proj2 B))) as Lb. unfold back in Lb. rewrite <- X, <- Y in Lb. apply J in Lb. destruct Lb as [Q|Q]; [|cbn [back ddir] in *; congruence].
  symmetry. exact Q.
Qed.

Fixpoint forths (n : nat) (d : dart) : dart := match n with O => d | Datatypes.S k => forth (forths k d) end.
(** [n] steps can be made *)
Definition runs (n : nat) (d : dart) : Prop := forall j, (j < n)%nat -> half (forths j d).

Lemma dart_half d : isDart im d -> half d.
Proof.
  intros (V & D & T & S). split; [split; [exact D|]; split; [rewrite T; discriminate | exact S]|]. rewrite type_ahead in T by exact D. pose proof (neighbor_in im Fr _ _ (ddir d) V) as [X Y].
  split; [split; [exact X|]; split; [exact Y|exact T]|]. destruct V as (_ & _ & ->). discriminate.
Qed.
Lemma runs_link n d : isDart im d -> runs n d -> link im (forths n d).
Proof. intros D R. destruct n as [|n]; [apply dart_half, D|]. cbn [forths]. exact (proj1 (forth_half (forths n d) (R n ltac:(lia)))). Qed.
Lemma runs_center n d : isDart im d -> runs n d -> (0 < n)%nat -> ptype (ipix im (dcx (forths n d)) (dcy (forths n d))) = Line.
Proof. intros D R N. destruct n as [|n]; [lia|]. cbn [forths]. destruct (forth_half (forths n d) (R n ltac:(lia))) as (_ & -> & -> & _). apply (R n ltac:(lia)). Qed.
Lemma runs_cancel i : forall j d, isDart im d -> runs (i + j) d -> forths i d = forths (i + j) d -> d = forths j d.
Proof.
  induction i as [|i IH]; intros j d D R E; [exact E|]. cbn [forths Nat.add] in E. apply IH; auto; [intros q Q; apply R; lia|].
  apply forth_inj; auto; apply R; lia.
Qed.
Lemma runs_distinct n d i j : isDart im d -> runs n d -> (i < j <= n)%nat -> forths i d <> forths j d.
Proof.
  intros D R H E. replace j with (i + (j - i))%nat in E by lia. apply runs_cancel in E; auto; [|intros q Q; apply R; lia].
  pose proof (runs_center (j - i) d D ltac:(intros q Q; apply R; lia) ltac:(lia)) as C. rewrite <- E in C. destruct D as ((_ & _ & V) & _). congruence.
Qed.
Lemma half_in h : half h -> In h (allStates im).
Proof.
  intros ((D & _) & L & _). apply line_is_inner in L. pose proof (dirX_bound (ddir h)). pose proof (dirY_bound (ddir h)). unfold tx, ty in L. destruct h as [x y k]. cbn [dcx dcy ddir] in *. unfold allStates.
  apply in_flat_map. exists (Z.to_nat x). split; [apply in_seq; lia|].
  apply in_flat_map. exists (Z.to_nat y). split; [apply in_seq; lia|].
  apply in_map_iff. exists (Z.to_nat k). split; [f_equal; lia|apply in_seq; lia].
Qed.
Lemma runs_short n d : isDart im d -> runs n d -> (n <= length (allStates im))%nat.
Proof.
  intros D R. replace n with (length (map (fun j => forths j d) (seq 0 n))) by (rewrite map_length, seq_length; reflexivity). apply NoDup_incl_length.
  - assert (forall b a, (a + b <= n)%nat -> NoDup (map (fun j => forths j d) (seq a b))) as G; [|apply (G n O); lia].
    induction b as [|b IH]; intros a H; [constructor|]. cbn [seq map]. constructor; [|apply IH; lia]. intros I. apply in_map_iff in I. destruct I as (j & E & I). apply in_seq in I.
    apply (runs_distinct n d a j D R); [lia|]. symmetry. exact E.
  - intros h I. apply in_map_iff in I. destruct I as (j & <- & J). apply in_seq in J. apply half_in, R. lia.
Qed.

(** ** The end of the line *)
Hypothesis Pl : plain im.
Lemma half_dec h : {half h} + {~ half h}.
Proof.
  destruct (Z_le_dec 0 (ddir h)) as [a|a]; [|right; intros ((D & _) & _); lia]. destruct (Z_lt_dec (ddir h) 8) as [b|b]; [|right; intros ((D & _) & _); lia].
  assert (forall x y : ctype, {x = y} + {x <> y}) as TD by (decide equality).
  destruct (linkR (ringOf (dcx h) (dcy h)) (ddir h)) eqn:E.
  2: { right. intros (L & _). destruct h as [x y k]. apply link_ring in L. cbn [dcx dcy ddir] in *. destruct L. congruence. }
  destruct (Z_le_dec 0 (tx h)); [|right; intros (_ & (X & _) & _); lia]. destruct (Z_lt_dec (tx h) (iw im)); [|right; intros (_ & (X & _) & _); lia].
  destruct (Z_le_dec 0 (ty h)); [|right; intros (_ & (_ & X & _) & _); lia]. destruct (Z_lt_dec (ty h) (ih im)); [|right; intros (_ & (_ & X & _) & _); lia].
  destruct (TD (ptype (ipix im (tx h) (ty h))) Line) as [T|T]; [|right; intros (_ & (_ & _ & X) & _); contradiction].
  destruct (TD (ptype (ipix im (dcx h) (dcy h))) Region) as [C|C]; [right; intros (_ & _ & X); contradiction|].
  left. split; [|split; [split; [lia|split; [lia|exact T]]|exact C]]. destruct h as [x y k]. apply link_ring. cbn [dcx dcy ddir] in *. split; [lia|exact E].
Qed.
(** the walk from [d] makes [n] steps and ends before a node *)
Definition lineTo (d : dart) (n : nat) : Prop := (0 < n)%nat /\ runs n d /\ typeAt im (forths n d) 0 = Vertex.
Lemma line_ends d : isDart im d -> exists n, lineTo d n /\ (n <= length (allStates im))%nat.
Proof.
  intros D. assert (exists n, (0 < n <= Datatypes.S (length (allStates im)))%nat /\ ~ half (forths n d) /\ forall j, (0 < j < n)%nat -> half (forths j d)) as (n & N & E & L).
  { destruct (Forall_dec (fun j => half (forths j d)) (fun j => half_dec _) (seq 1 (length (allStates im)))) as [A|A].
    - exfalso. assert (runs (Datatypes.S (length (allStates im))) d) as R; [|apply runs_short in R; auto; lia].
      intros j J. destruct j as [|j]; [apply dart_half, D|]. rewrite Forall_forall in A. apply A, in_seq. lia.
    - assert (exists n, (0 < n <= length (allStates im))%nat /\ ~ half (forths n d)) as (n & N & E).
      { apply neg_Forall_Exists_neg in A; [|intros; apply half_dec]. apply Exists_exists in A. destruct A as (n & I & E). apply in_seq in I. exists n. split; [lia|exact E]. }
      assert (forall j, {~ half (forths j d)} + {~ ~ half (forths j d)}) as Dc by (intros j; destruct (half_dec (forths j d)); [right; tauto|left; assumption]).
      destruct (least (fun j => ~ half (forths j d)) Dc n (proj1 N) E) as (i & I & Ei & Li). exists i. split; [lia|]. split; [exact Ei|].
      intros j J. destruct (half_dec (forths j d)) as [Q|Q]; [exact Q|]. exfalso. exact (Li j J Q). }
  assert (R : runs n d). { intros [|j] J; [apply dart_half, D|apply L; lia]. }
  exists n. split; [|apply (runs_short n d D R)]. split; [lia|]. split; [exact R|].
  pose proof (runs_link n d D R) as Lk. pose proof (runs_center n d D R ltac:(lia)) as C.
  assert (lineAt im (dcx (forths n d)) (dcy (forths n d))) as LC.
  { destruct n as [|n]; [lia|]. cbn [forths]. destruct (forth_half (forths n d) (R n ltac:(lia))) as (_ & -> & -> & _). apply (R n). lia. }
  apply line_is_inner in LC. destruct Lk as (Dr & T & S). pose proof (dirX_bound (ddir (forths n d))). pose proof (dirY_bound (ddir (forths n d))).
  rewrite type_ahead in T |- * by exact Dr. assert (0 <= tx (forths n d) < iw im /\ 0 <= ty (forths n d) < ih im) as [X Y] by (unfold tx, ty; lia).
  destruct (ptype (ipix im (tx (forths n d)) (ty (forths n d)))) eqn:Et; auto; [contradiction| |exfalso; exact (Pl _ _ X Y Et)].
  exfalso. apply E. split; [|split; [split; [exact X|split; [exact Y|exact Et]]|rewrite C; discriminate]]. split; [exact Dr|]. split; [rewrite type_ahead by exact Dr; congruence|exact S].
Qed.
End Image.
