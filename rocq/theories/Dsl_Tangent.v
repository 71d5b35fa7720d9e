(** tangentDSL (C56). *)
From Coq Require Import Znumtheory.
From Verif Require Import Base Dsl_Model Dsl_Spec Dsl_Proofs.
Local Open Scope Z_scope.

Lemma land1 c : Z.land c 1 = 0 \/ Z.land c 1 = 1.
Proof. change (Z.land c 1) with (Z.land c (Z.ones 1)). rewrite (Z.land_ones c 1) by lia. change (2 ^ 1) with 2. pose proof (Z.mod_pos_bound c 2 ltac:(lia)). lia. Qed.

Lemma onLine_shiftTo d o x y : onLine true (shiftTo d o) x y <-> onLine true d (x + fst o) (y + snd o).
Proof.
  rewrite !onLine_iff. unfold shiftTo, dslAt, width. cbn [da db dp].
  replace (da d * x - db d * y - (dp d - (da d * fst o - db d * snd o))) with (da d * (x + fst o) - db d * (y + snd o) - dp d) by ring.
  reflexivity.
Qed.
Lemma fits_shiftTo d o lo hi : fits d lo hi -> fits (shiftTo d o) (lo - fst o) (hi - fst o).
Proof.
  intros (O & Hl & H). split; [exact O|]. split; [lia|]. destruct H as [H|(k & K1 & K2 & K3)]; [left; exact H|right].
  exists (k - fst o). split; [lia|]. split; [cbn [db shiftTo]; lia|]. unfold upperAt, lowerAt, shiftTo, dslAt. cbn [da db dp].
  destruct K3 as [(j & K3)|(j & K3)]; [left|right]; exists (j - snd o); lia.
Qed.
Lemma shiftBack_to d o : shiftBack d o = shiftTo d (- fst o, - snd o).
Proof. unfold shiftBack, shiftTo, dslAt. cbn [fst snd]. f_equal. ring. Qed.
Lemma onLine_shiftBack d o x y : onLine true (shiftBack d o) x y <-> onLine true d (x - fst o) (y - snd o).
Proof. rewrite shiftBack_to, onLine_shiftTo. cbn [fst snd]. reflexivity. Qed.
Lemma fits_shiftBack d o lo hi : fits d lo hi -> fits (shiftBack d o) (lo + fst o) (hi + fst o).
Proof. intros H. rewrite shiftBack_to. pose proof (fits_shiftTo d (- fst o, - snd o) lo hi H) as K. cbn [fst] in K. rewrite !Z.sub_opp_r in K. exact K. Qed.

Lemma rise_mono code : forall j, rise code j <= rise code (S j) <= rise code j + 1.
Proof. intros j. cbn [rise]. destruct (land1 (code j)) as [E|E]; rewrite E; lia. Qed.
Lemma rise_nonneg code j : 0 <= rise code j.
Proof. induction j as [|j IH]; [cbn; lia|]. pose proof (rise_mono code j). lia. Qed.

Section T.
Variables (asserts closed : bool) (codes : list Z).
Let n := length codes.
Variable s : nat.
Hypothesis Hs : (s < n)%nat.
Notation A := (rise (codeAhead codes s)).
Notation B := (rise (codeBehind codes s)).

Definition fwdIx (j : nat) : nat := ((s + j) mod n)%nat.
Definition bwdIx (j : nat) : nat := ((s + S j * (n - 1)) mod n)%nat.

Lemma fwdIx_lt j : (fwdIx j < n)%nat.
Proof. apply Nat.mod_upper_bound. lia. Qed.
Lemma bwdIx_lt j : (bwdIx j < n)%nat.
Proof. apply Nat.mod_upper_bound. lia. Qed.
Lemma fwdNext_ix j f : fwdNext closed codes (fwdIx j) = Some f -> f = fwdIx (S j).
Proof.
  unfold fwdNext. fold n. pose proof (fwdIx_lt j). unfold fwdIx in *. replace (s + S j)%nat with (s + j + 1)%nat by lia.
  rewrite (Nat.add_mod (s + j) 1 n) by lia. set (i := ((s + j) mod n)%nat) in *.
  destruct (S i =? n)%nat eqn:E; [apply Nat.eqb_eq in E; destruct closed; [|discriminate]|apply Nat.eqb_neq in E]; intros [= <-].
  - destruct (Nat.eq_dec n 1) as [E1|E1]; [rewrite E1; reflexivity|]. rewrite (Nat.mod_small 1) by lia. replace (i + 1)%nat with n by lia.
    rewrite Nat.mod_same by lia. reflexivity.
  - rewrite (Nat.mod_small 1) by lia. rewrite Nat.mod_small by lia. lia.
Qed.
Lemma bwdNext_ix j b : bwdNext closed codes (bwdIx j) = Some b -> b = bwdIx (S j).
Proof.
  unfold bwdNext. fold n. pose proof (bwdIx_lt j). unfold bwdIx in *.
  replace (s + S (S j) * (n - 1))%nat with (s + S j * (n - 1) + (n - 1))%nat by lia.
  rewrite (Nat.add_mod (s + S j * (n - 1)) (n - 1) n) by lia. set (i := ((s + S j * (n - 1)) mod n)%nat) in *.
  rewrite (Nat.mod_small (n - 1)) by lia.
  destruct (i =? 0)%nat eqn:E; [apply Nat.eqb_eq in E; destruct closed; [|discriminate]|apply Nat.eqb_neq in E]; intros [= <-].
  - rewrite E. cbn [Nat.add]. rewrite Nat.mod_small by lia. reflexivity.
  - replace (i + (n - 1))%nat with (i - 1 + 1 * n)%nat by lia. rewrite Nat.mod_add by lia. rewrite Nat.mod_small by lia. reflexivity.
Qed.
Lemma get_fwd j : vget codes (fwdIx j) = Ok (codeAhead codes s j).
Proof.
  unfold vget, codeAhead. fold n. change ((s + j) mod n)%nat with (fwdIx j).
  destruct (nth_error codes (fwdIx j)) eqn:E; [rewrite (nth_error_nth _ _ _ E); reflexivity|].
  apply nth_error_None in E. pose proof (fwdIx_lt j). unfold n in *. lia.
Qed.
Lemma get_bwd j : vget codes (bwdIx j) = Ok (codeBehind codes s j).
Proof.
  unfold vget, codeBehind. fold n. change ((s + S j * (n - 1)) mod n)%nat with (bwdIx j).
  destruct (nth_error codes (bwdIx j)) eqn:E; [rewrite (nth_error_nth _ _ _ E); reflexivity|].
  apply nth_error_None in E. pose proof (bwdIx_lt j). unfold n in *. lia.
Qed.

(** the line fits the points within [k] steps behind and [k'] steps ahead *)
Definition carries (d : dsl) (k k' : nat) : Prop :=
  fits d (- Z.of_nat k) (Z.of_nat k') /\ (forall j, (j <= k')%nat -> onLine true d (Z.of_nat j) (A j)) /\
  (forall j, (j <= k)%nat -> onLine true d (- Z.of_nat j) (- B j)).
(** a rising line has risen *)
Definition risen (d : dsl) (k k' : nat) : Prop := 0 < da d -> - B k < A k'.

(** the points of the line in the columns reached are those of the polygon *)
Lemma carried d k k' i j : carries d k k' -> - Z.of_nat k <= i <= Z.of_nat k' -> onLine true d i j ->
  (exists l, (l <= k')%nat /\ i = Z.of_nat l /\ j = A l) \/ (exists l, (l <= k)%nat /\ i = - Z.of_nat l /\ j = - B l).
Proof.
  intros ((O & _) & CA & CB) Hi H.
  assert (U : forall j', onLine true d i j' -> j = j').
  { intros j'. rewrite (octant_line _ i j' O). rewrite (octant_line _ i j O) in H. destruct O as (_ & O2 & _). intros H'.
    assert (db d * (j - j') = (da d * i - db d * j' - dp d) - (da d * i - db d * j - dp d)) by ring.
    assert (j - j' = 0 \/ j - j' <= -1 \/ 1 <= j - j') as [D|[D|D]] by lia; [lia| |].
    - assert (db d * (j - j') <= db d * -1) by (apply Z.mul_le_mono_nonneg_l; lia). lia.
    - assert (db d * 1 <= db d * (j - j')) by (apply Z.mul_le_mono_nonneg_l; lia). lia. }
  destruct (Z_le_gt_dec 0 i).
  - left. exists (Z.to_nat i). split; [lia|]. split; [lia|]. apply U. pose proof (CA (Z.to_nat i) ltac:(lia)) as C. rewrite Z2Nat.id in C by lia. exact C.
  - right. exists (Z.to_nat (- i)). split; [lia|]. split; [lia|]. apply U. pose proof (CB (Z.to_nat (- i)) ltac:(lia)) as C.
    rewrite Z2Nat.id in C by lia. rewrite Z.opp_involutive in C. exact C.
Qed.

Lemma flat_shiftTo e o : flat e -> flat (shiftTo e o).
Proof. intros H. exact H. Qed.

Lemma ahead_step d k : carries d k k -> (k = 0%nat /\ d = mkDsl (Z.land (codeAhead codes s 0) 1) 1 0) \/ risen d k k ->
  let o := (- Z.of_nat k, - B k) in
  (exists t, addPoint true (shiftTo d o) (Z.of_nat (S k) - fst o) (A (S k) - snd o) = (Returned true, t) /\
     carries (shiftBack t o) k (S k) /\ risen (shiftBack t o) k (S k)) \/
  (exists t, addPoint true (shiftTo d o) (Z.of_nat (S k) - fst o) (A (S k) - snd o) = (Returned false, t) /\
     forall e, flat e -> ~ covers codes s e k (S k)).
Proof.
  intros HC R. pose proof HC as (F & CA & CB). cbn zeta. set (o := (- Z.of_nat k, - B k)).
  assert (Eo : fst o = - Z.of_nat k) by reflexivity. assert (Eo' : snd o = - B k) by reflexivity. clearbody o.
  pose proof (rise_mono (codeAhead codes s) k) as MA. pose proof (rise_nonneg (codeAhead codes s) (S k)) as NA. pose proof (rise_nonneg (codeBehind codes s) k) as NB.
  assert (FS : fits (shiftTo d o) 0 (Z.of_nat (S k) - fst o - 1)).
  { pose proof (fits_shiftTo d o _ _ F) as K. replace (- Z.of_nat k - fst o) with 0 in K by lia.
    replace (Z.of_nat k - fst o) with (Z.of_nat (S k) - fst o - 1) in K by lia. exact K. }
  destruct (addPoint_right (shiftTo d o) (Z.of_nat (S k) - fst o) (A (S k) - snd o) FS ltac:(lia) ltac:(lia)) as [(t & E & F' & X1 & X2)|[E X]].
  - exists (A k - snd o). split; [|lia]. apply onLine_shiftTo. replace (Z.of_nat (S k) - fst o - 1 + fst o) with (Z.of_nat k) by lia.
    replace (A k - snd o + snd o) with (A k) by lia. apply CA. lia.
  - left. exists t. split; [exact E|]. split.
    + split; [|split].
      * pose proof (fits_shiftBack t o _ _ F') as K. replace (0 + fst o) with (- Z.of_nat k) in K by lia.
        replace (Z.of_nat (S k) - fst o + fst o) with (Z.of_nat (S k)) in K by lia. exact K.
      * intros j Hj. apply onLine_shiftBack. destruct (Nat.eq_dec j (S k)) as [->|N]; [exact X2|].
        apply X1; [lia|]. apply onLine_shiftTo. replace (Z.of_nat j - fst o + fst o) with (Z.of_nat j) by lia.
        replace (A j - snd o + snd o) with (A j) by lia. apply CA. lia.
      * intros j Hj. apply onLine_shiftBack. apply X1; [lia|]. apply onLine_shiftTo.
        replace (- Z.of_nat j - fst o + fst o) with (- Z.of_nat j) by lia.
        replace (- B j - snd o + snd o) with (- B j) by lia. apply CB. exact Hj.
    + intros Hp. cbn [da shiftBack] in Hp. destruct (Z.eq_dec (A (S k)) (- B k)) as [Eq|N]; [exfalso|lia].
      (* nothing has risen: the line is horizontal and has not changed *)
      assert (Hd : da d = 0).
      { destruct R as [[-> ->]|R].
        - cbn [da]. cbn [rise] in Eq. lia.
        - destruct F as (((P & _) & _) & _). destruct (Z.eq_dec (da d) 0) as [|Nz]; [assumption|]. pose proof (R ltac:(lia)). lia. }
      assert (Hb : db d = 1).
      { destruct F as ((_ & P2 & P3) & _). rewrite Hd in P3.
        destruct P3 as [_ _ P4]. specialize (P4 (db d) ltac:(exists 0; ring) ltac:(exists 1; ring)).
        apply Z.divide_1_r_nonneg in P4; lia. }
      assert (OL : onLine true (shiftTo d o) (Z.of_nat (S k) - fst o) (A (S k) - snd o)).
      { apply onLine_shiftTo. pose proof (CB k ltac:(lia)) as CK. pose proof F as (Oc & _).
        rewrite (octant_line _ _ _ Oc) in CK. apply (octant_line _ _ _ Oc). rewrite Hd, Hb in *. lia. }
      rewrite (addPoint_in _ _ _ (proj1 FS) OL) in E. injection E as <-. cbn [da shiftTo] in Hp. lia.
  - right. exists (shiftTo d o). split; [exact E|]. intros e Fe [V1 V2].
    apply (X (shiftTo e o) (flat_shiftTo e o Fe)).
    + intros i j Hi. rewrite !onLine_shiftTo. intros Hij.
      destruct (carried d k k (i + fst o) (j + snd o) HC ltac:(lia) Hij) as [(l & L1 & L2 & L3)|(l & L1 & L2 & L3)]; rewrite L2, L3;
        [apply (V1 l); lia|apply (V2 l); lia].
    + apply onLine_shiftTo. rewrite !Z.sub_add. apply (V1 (S k)). lia.
Qed.

Lemma behind_step d k : carries d k (S k) -> risen d k (S k) ->
  let o := (Z.of_nat (S k), A (S k)) in
  (exists t, addPoint true (shiftTo d o) (- Z.of_nat (S k) - fst o) (- B (S k) - snd o) = (Returned true, t) /\
     carries (shiftBack t o) (S k) (S k) /\ risen (shiftBack t o) (S k) (S k)) \/
  (exists t, addPoint true (shiftTo d o) (- Z.of_nat (S k) - fst o) (- B (S k) - snd o) = (Returned false, t) /\
     forall e, flat e -> ~ covers codes s e (S k) (S k)).
Proof.
  intros HC R. pose proof HC as (F & CA & CB). cbn zeta. set (o := (Z.of_nat (S k), A (S k))).
  assert (Eo : fst o = Z.of_nat (S k)) by reflexivity. assert (Eo' : snd o = A (S k)) by reflexivity. clearbody o.
  pose proof (rise_mono (codeBehind codes s) k) as MB. pose proof (rise_nonneg (codeAhead codes s) (S k)) as NA. pose proof (rise_nonneg (codeBehind codes s) k) as NB.
  assert (FS : fits (shiftTo d o) (- Z.of_nat (S k) - fst o + 1) 0).
  { pose proof (fits_shiftTo d o _ _ F) as K. replace (Z.of_nat (S k) - fst o) with 0 in K by lia.
    replace (- Z.of_nat k - fst o) with (- Z.of_nat (S k) - fst o + 1) in K by lia. exact K. }
  assert (Horiz : da d = 0 -> db d = 1).
  { intros Hd. destruct F as ((_ & P2 & P3) & _). rewrite Hd in P3. destruct P3 as [_ _ P4].
    specialize (P4 (db d) ltac:(exists 0; ring) ltac:(exists 1; ring)). apply Z.divide_1_r_nonneg in P4; lia. }
  assert (Flat : - B (S k) = A (S k) -> onLine true (shiftTo d o) (- Z.of_nat (S k) - fst o) (- B (S k) - snd o)).
  { intros Eq. assert (Hd : da d = 0).
    { destruct F as (((P & _) & _) & _). destruct (Z.eq_dec (da d) 0) as [|Nz]; [assumption|]. pose proof (R ltac:(lia)). lia. }
    apply onLine_shiftTo. pose proof (CA (S k) ltac:(lia)) as CK. pose proof F as (Oc & _).
    rewrite (octant_line _ _ _ Oc) in CK. apply (octant_line _ _ _ Oc). pose proof (Horiz Hd) as Hb. rewrite Hd, Hb in *. lia. }
  destruct (addPoint_left (shiftTo d o) (- Z.of_nat (S k) - fst o) (- B (S k) - snd o) FS ltac:(lia)) as [(t & E & F' & X1 & X2)|[E X]].
  - destruct (Z.eq_dec (- B (S k)) (A (S k))) as [Eq|N]; [right; apply Flat, Eq|left; lia].
  - exists (- B k - snd o). split; [|lia]. apply onLine_shiftTo. replace (- Z.of_nat (S k) - fst o + 1 + fst o) with (- Z.of_nat k) by lia.
    replace (- B k - snd o + snd o) with (- B k) by lia. apply CB. lia.
  - left. exists t. split; [exact E|]. split.
    + split; [|split].
      * pose proof (fits_shiftBack t o _ _ F') as K. replace (0 + fst o) with (Z.of_nat (S k)) in K by lia.
        replace (- Z.of_nat (S k) - fst o + fst o) with (- Z.of_nat (S k)) in K by lia. exact K.
      * intros j Hj. apply onLine_shiftBack. apply X1; [lia|]. apply onLine_shiftTo.
        replace (Z.of_nat j - fst o + fst o) with (Z.of_nat j) by lia.
        replace (A j - snd o + snd o) with (A j) by lia. apply CA. exact Hj.
      * intros j Hj. apply onLine_shiftBack. destruct (Nat.eq_dec j (S k)) as [->|N]; [exact X2|].
        apply X1; [lia|]. apply onLine_shiftTo.
        replace (- Z.of_nat j - fst o + fst o) with (- Z.of_nat j) by lia.
        replace (- B j - snd o + snd o) with (- B j) by lia. apply CB. lia.
    + intros Hp. cbn [da shiftBack] in Hp. destruct (Z.eq_dec (- B (S k)) (A (S k))) as [Eq|N]; [exfalso|lia].
      rewrite (addPoint_in _ _ _ (proj1 FS) (Flat Eq)) in E. injection E as <-. cbn [da shiftTo] in Hp. pose proof (R Hp). lia.
  - right. exists (shiftTo d o). split; [exact E|]. intros e Fe [V1 V2].
    apply (X (shiftTo e o) (flat_shiftTo e o Fe)).
    + intros i j Hi. rewrite !onLine_shiftTo. intros Hij.
      destruct (carried d k (S k) (i + fst o) (j + snd o) HC ltac:(lia) Hij) as [(l & L1 & L2 & L3)|(l & L1 & L2 & L3)]; rewrite L2, L3;
        [apply (V1 l); lia|apply (V2 l); lia].
    + apply onLine_shiftTo. rewrite !Z.sub_add. apply (V2 (S k)). lia.
Qed.

(** for open polygons the indices do not wrap *)
Definition inside (k : nat) : Prop := closed = false -> (k <= s)%nat /\ (s + k <= n)%nat.

Lemma fwdNext_inside j f : closed = false -> (s + j < n)%nat -> fwdNext closed codes (fwdIx j) = Some f -> (s + S j < n)%nat.
Proof.
  intros -> Hj. unfold fwdNext, fwdIx. fold n. rewrite Nat.mod_small by lia.
  destruct (S (s + j) =? n)%nat eqn:E; [discriminate|]. apply Nat.eqb_neq in E. lia.
Qed.
Lemma bwdIx_open j : (S j <= s)%nat -> bwdIx j = (s - S j)%nat.
Proof.
  intros Hj. unfold bwdIx. replace (s + S j * (n - 1))%nat with (s - S j + S j * n)%nat by lia.
  rewrite Nat.mod_add by lia. apply Nat.mod_small. lia.
Qed.
Lemma bwdNext_inside j b : closed = false -> (S j <= s)%nat -> bwdNext closed codes (bwdIx j) = Some b -> (S (S j) <= s)%nat.
Proof.
  intros -> Hj. rewrite (bwdIx_open j Hj). unfold bwdNext.
  destruct (s - S j =? 0)%nat eqn:E; [discriminate|]. apply Nat.eqb_neq in E. lia.
Qed.

Lemma neither f c1 c2 : negb (f =? c1) && negb (f =? c2) = false -> f = c1 \/ f = c2.
Proof.
  intros H. destruct (f =? c1) eqn:E1; [left; apply Z.eqb_eq; exact E1|]. destruct (f =? c2) eqn:E2; [right; apply Z.eqb_eq; exact E2|discriminate].
Qed.

Lemma fwdNext_end j : fwdNext closed codes (fwdIx j) = None -> (closed = false -> (s + j < n)%nat) -> ends closed codes s (S j).
Proof.
  unfold fwdNext, fwdIx, ends. fold n. destruct (S ((s + j) mod n) =? n)%nat eqn:E; [|discriminate]. destruct closed; [discriminate|].
  intros _ H. specialize (H eq_refl). rewrite Nat.mod_small in E by lia. apply Nat.eqb_eq in E. split; [reflexivity|lia].
Qed.
Lemma bwdNext_end j : bwdNext closed codes (bwdIx j) = None -> (closed = false -> (S j <= s)%nat) -> ends closed codes s (S j).
Proof.
  unfold bwdNext, ends. destruct (bwdIx j =? 0)%nat eqn:E; [|discriminate]. destruct closed; [discriminate|].
  intros _ H. specialize (H eq_refl). rewrite (bwdIx_open j H) in E. apply Nat.eqb_eq in E. split; [reflexivity|lia].
Qed.
Lemma covers_le e k k' l l' : covers codes s e k k' -> (l <= k)%nat -> (l' <= k')%nat -> covers codes s e l l'.
Proof. intros [H1 H2] L1 L2. split; intros j Hj; [apply H1|apply H2]; lia. Qed.

(** the loop has no reason to go beyond [k] *)
Definition stops c1 c2 (k : nat) : Prop :=
  ends closed codes s k \/ ~ among codes s c1 c2 (S k) \/ (forall e, flat e -> ~ covers codes s e (S k) (S k)).

Lemma tangentLoop_ok c1 c2 : forall fuel k d out, carries d k k ->
  (k = 0%nat /\ d = mkDsl (Z.land (codeAhead codes s 0) 1) 1 0) \/ risen d k k ->
  among codes s c1 c2 k -> ((0 < k)%nat -> out = d) -> (closed = false -> (S k <= s)%nat /\ (s + k < n)%nat) ->
  match tangentLoop closed codes fuel (fwdIx k) (bwdIx k) c1 c2 d (- Z.of_nat k, - B k) (Z.of_nat k, A k) (- Z.of_nat k, - B k) k out with
  | Ok (k', d') => ((0 < k')%nat -> carries d' k' k' /\ among codes s c1 c2 k' /\ inside k') /\ (k <= k')%nat /\ (k' = k -> d' = out) /\ stops c1 c2 k'
  | NoFuel => (exists k', (k + fuel <= k')%nat /\ among codes s c1 c2 k' /\ (closed = false -> (S k' <= s)%nat)) 
  | _ => False
  end.
Proof.
  induction fuel as [|fuel IH]; intros k d out C R M Ho HI; cbn [tangentLoop].
  { exists k. split; [lia|]. split; [exact M|]. intros Hc. apply HI, Hc. }
  assert (Done : stops c1 c2 k -> ((0 < k)%nat -> carries out k k /\ among codes s c1 c2 k /\ inside k) /\ (k <= k)%nat /\ (k = k -> out = out) /\ stops c1 c2 k).
  { intros St. split; [|split; [lia|split; [reflexivity|exact St]]]. intros Hk. rewrite (Ho Hk). split; [exact C|]. split; [exact M|]. intros Hc. destruct (HI Hc). lia. }
  rewrite get_fwd. cbn [bind]. destruct (negb (codeAhead codes s k =? c1) && negb (codeAhead codes s k =? c2)) eqn:E1.
  { apply Done. right. left. intros M1. apply andb_true_iff in E1 as [E1 E1']. apply negb_true_iff, Z.eqb_neq in E1, E1'. destruct (M1 k ltac:(lia)) as [[|] _]; contradiction. }
  rewrite get_bwd. cbn [bind]. destruct (negb (codeBehind codes s k =? c1) && negb (codeBehind codes s k =? c2)) eqn:E2.
  { apply Done. right. left. intros M1. apply andb_true_iff in E2 as [E2 E2']. apply negb_true_iff, Z.eqb_neq in E2, E2'. destruct (M1 k ltac:(lia)) as [_ [|]]; contradiction. }
  apply neither in E1, E2. cbn [fst snd]. cbn zeta.
  assert (Q1 : Z.of_nat k + 1 = Z.of_nat (S k)) by lia. assert (Q2 : A k + Z.land (codeAhead codes s k) 1 = A (S k)) by reflexivity.
  assert (Q3 : - Z.of_nat k - 1 = - Z.of_nat (S k)) by lia. assert (Q4 : - B k - Z.land (codeBehind codes s k) 1 = - B (S k)) by (cbn [rise]; lia).
  rewrite Q1, Q2, Q3, Q4.
  pose proof (ahead_step d k C R) as SA. cbn [fst snd] in SA. cbn zeta in SA.
  destruct SA as [(t & E & C1 & R1)|(t & E & NL)]; rewrite E.
  2:{ apply Done. right. right. intros e Fe Cv. apply (NL e Fe). apply (covers_le _ _ _ _ _ Cv); lia. }
  pose proof (behind_step _ k C1 R1) as SB. cbn [fst snd] in SB. cbn zeta in SB.
  destruct SB as [(t2 & E' & C2 & R2)|(t2 & E' & NL)]; rewrite E'; [|apply Done; right; right; exact NL].
  set (d2 := shiftBack t2 (Z.of_nat (S k), A (S k))) in *.
  assert (M' : among codes s c1 c2 (S k)).
  { intros j Hj. destruct (Nat.eq_dec j k) as [->|N]; [split; assumption|apply M; lia]. }
  assert (Last : ends closed codes s (S k) -> ((0 < S k)%nat -> carries d2 (S k) (S k) /\ among codes s c1 c2 (S k) /\ inside (S k)) /\ (k <= S k)%nat /\ (S k = k -> d2 = out) /\ stops c1 c2 (S k)).
  { intros En. split; [|split; [lia|split; [lia|left; exact En]]]. intros _. split; [exact C2|]. split; [exact M'|]. intros Hc. destruct (HI Hc). lia. }
  destruct (fwdNext closed codes (fwdIx k)) as [f|] eqn:EF; [|apply Last, fwdNext_end; [exact EF|apply HI]].
  destruct (bwdNext closed codes (bwdIx k)) as [b|] eqn:EB; [|apply Last, bwdNext_end; [exact EB|apply HI]].
  assert (HI' : closed = false -> (S (S k) <= s)%nat /\ (s + S k < n)%nat).
  { intros Hc. destruct (HI Hc) as [I1 I2]. split; [eapply bwdNext_inside; eassumption|eapply fwdNext_inside; eassumption]. }
  apply fwdNext_ix in EF. apply bwdNext_ix in EB. subst f b.
  specialize (IH (S k) d2 d2 C2 (or_intror R2) M' (fun _ => eq_refl) HI').
  destruct (tangentLoop closed codes fuel _ _ c1 c2 d2 _ _ _ (S k) d2) as [[k' d']| | |]; [|exact IH|exact IH|].
  - destruct IH as (IH1 & IH2 & _ & IH3). split; [exact IH1|]. split; [lia|]. split; [lia|exact IH3].
  - destruct IH as (k' & I1 & I2 & I3). exists k'. split; [lia|]. split; assumption.
Qed.

Notation c0 := (codeAhead codes s 0).
Lemma second_among c2 : secondCode codes s c2 -> among codes s c0 c2 1.
Proof.
  intros (N & j & M & H) i Hi. replace i with 0%nat by lia. split; [left; reflexivity|].
  destruct j as [|j]; [|destruct (M 0%nat ltac:(lia)) as [_ [E|E]]; left; exact E].
  destruct H as [H|[_ H]]; [congruence|right; exact H].
Qed.

Lemma codesLoop_ok : forall fuel k c2, among codes s c0 c0 k ->
  (c2 = c0 -> among codes s c0 c0 (S k)) -> (c2 <> c0 -> secondCode codes s c2) -> (closed = false -> (S k <= s)%nat /\ (s + k < n)%nat) ->
  match codesLoop asserts closed codes fuel s (fwdIx k) (bwdIx k) c0 c2 with
  | Ok None => noTangent closed codes s
  | Ok (Some c2) => secondCode codes s c2
  | NoFuel => exists k', (k + fuel <= k')%nat /\ among codes s c0 c0 (S k') /\ (closed = false -> (S k' <= s)%nat)
  | Exn => asserts = true
  | UB => False
  end.
Proof.
  induction fuel as [|fuel IH]; intros k c2 M M1 M2 HI; cbn [codesLoop]; destruct (c2 =? c0) eqn:E2;
    try (apply Z.eqb_neq in E2; apply M2, E2); apply Z.eqb_eq in E2.
  { exists k. split; [lia|]. split; [apply M1, E2|]. intros Hc. apply HI, Hc. }
  specialize (M1 E2). subst c2.
  destruct (fwdNext closed codes (fwdIx k)) as [f|] eqn:EF.
  2:{ exists (S k). split; [exact M1|]. left. apply fwdNext_end; [exact EF|apply HI]. }
  destruct (asserts && (f =? s)%nat) eqn:EA; [apply andb_true_iff in EA as [EA _]; exact EA|].
  destruct (bwdNext closed codes (bwdIx k)) as [b|] eqn:EB.
  2:{ exists (S k). split; [exact M1|]. left. apply bwdNext_end; [exact EB|apply HI]. }
  destruct (asserts && negb (b =? s)%nat) eqn:EA'; [apply andb_true_iff in EA' as [EA' _]; exact EA'|].
  assert (HI' : closed = false -> (S (S k) <= s)%nat /\ (s + S k < n)%nat).
  { intros Hc. destruct (HI Hc) as [I1 I2]. split; [eapply bwdNext_inside; eassumption|eapply fwdNext_inside; eassumption]. }
  apply fwdNext_ix in EF. apply bwdNext_ix in EB. subst f b. rewrite get_fwd, get_bwd. cbn [bind].
  destruct (codeAhead codes s (S k) =? c0) eqn:EQ; cbn [negb].
  - apply Z.eqb_eq in EQ.
    assert (X1 : codeBehind codes s (S k) = c0 -> among codes s c0 c0 (S (S k))).
    { intros Eb i Hi. destruct (Nat.eq_dec i (S k)) as [->|N]; [split; left; assumption|apply M1; lia]. }
    assert (X2 : codeBehind codes s (S k) <> c0 -> secondCode codes s (codeBehind codes s (S k))).
    { intros Nb. split; [exact Nb|]. exists (S k). split; [exact M1|]. right. split; [exact EQ|reflexivity]. }
    specialize (IH (S k) (codeBehind codes s (S k)) M1 X1 X2 HI').
    destruct (codesLoop asserts closed codes fuel s _ _ c0 (codeBehind codes s (S k))) as [[c|]| | |]; try exact IH.
    destruct IH as (k' & I1 & I2 & I3). exists k'. split; [lia|]. split; assumption.
  - apply Z.eqb_neq in EQ. destruct (negb (codeBehind codes s (S k) =? c0) && negb (codeBehind codes s (S k) =? codeAhead codes s (S k))) eqn:ET.
    + apply andb_true_iff in ET as [T1 T2]. apply negb_true_iff, Z.eqb_neq in T1, T2. exists (S k). split; [exact M1|]. right. repeat split; congruence.
    + assert (SC : secondCode codes s (codeAhead codes s (S k))).
      { split; [exact EQ|]. exists (S k). split; [exact M1|]. left. reflexivity. }
      specialize (IH (S k) (codeAhead codes s (S k)) M1 ltac:(intros; contradiction) (fun _ => SC) HI').
      destruct (codesLoop asserts closed codes fuel s _ _ c0 (codeAhead codes s (S k))) as [[c|]| | |]; try exact IH.
      destruct IH as (k' & I1 & I2 & I3). exists k'. split; [lia|]. split; assumption.
Qed.

Lemma carries_start : carries (mkDsl (Z.land c0 1) 1 0) 0 0.
Proof.
  assert (O : octant (mkDsl (Z.land c0 1) 1 0)).
  { split; [cbn [da db]; destruct (land1 c0) as [E|E]; rewrite E; lia|]. split; [cbn; lia|]. cbn [da db]. apply Zis_gcd_1. }
  split; [split; [exact O|split; [lia|left; reflexivity]]|].
  split; intros j Hj; replace j with 0%nat by lia; cbn [rise Z.of_nat Z.opp]; apply (octant_line _ _ _ O); cbn [da db dp]; lia.
Qed.

(** one step on both sides is always possible *)
Lemma three_points : exists e, flat e /\ covers codes s e 1 1.
Proof.
  assert (G : forall e, flat e -> onLine true e 0 0 -> onLine true e 1 (Z.land (codeAhead codes s 0) 1) -> onLine true e (-1) (- Z.land (codeBehind codes s 0) 1) -> covers codes s e 1 1).
  { intros e Fe H0 H1 H2. split; intros j Hj; assert (j = 0%nat \/ j = 1%nat) as [->| ->] by lia; cbn [pointAhead pointBehind fst snd rise Z.of_nat Z.opp];
      [exact H0|exact H1|exact H0|exact H2]. }
  destruct (land1 (codeAhead codes s 0)) as [E1|E1], (land1 (codeBehind codes s 0)) as [E2|E2].
  - exists (mkDsl 0 1 0). assert (Fe : flat (mkDsl 0 1 0)) by (split; cbn; lia). split; [exact Fe|]. apply (G _ Fe); rewrite ?E1, ?E2; reflexivity.
  - exists (mkDsl 1 2 0). assert (Fe : flat (mkDsl 1 2 0)) by (split; cbn; lia). split; [exact Fe|]. apply (G _ Fe); rewrite ?E1, ?E2; reflexivity.
  - exists (mkDsl 1 2 (-1)). assert (Fe : flat (mkDsl 1 2 (-1))) by (split; cbn; lia). split; [exact Fe|]. apply (G _ Fe); rewrite ?E1, ?E2; reflexivity.
  - exists (mkDsl 1 1 0). assert (Fe : flat (mkDsl 1 1 0)) by (split; cbn; lia). split; [exact Fe|]. apply (G _ Fe); rewrite ?E1, ?E2; reflexivity.
Qed.

(** every code of a closed polygon is met when walking around *)
Lemma all_ahead c : In c codes -> exists j, (j < n)%nat /\ codeAhead codes s j = c.
Proof.
  intros H. apply (In_nth _ _ 0) in H as (i & Hi & E). fold n in Hi. exists ((i + n - s) mod n)%nat.
  split; [apply Nat.mod_upper_bound; lia|]. unfold codeAhead. fold n. rewrite Nat.add_mod_idemp_r by lia.
  replace (s + (i + n - s))%nat with (i + 1 * n)%nat by lia. rewrite Nat.mod_add by lia. rewrite Nat.mod_small by exact Hi. exact E.
Qed.
End T.

Section Final.
Variables (asserts closed : bool) (codes : list Z).
Let n := length codes.

Lemma startIx idx : closed = true \/ (0 < idx < n)%nat -> (if closed then (idx mod n)%nat else idx) = (idx mod n)%nat.
Proof. intros H. destruct closed; [reflexivity|]. destruct H as [H|H]; [discriminate|]. rewrite Nat.mod_small; [reflexivity|]. lia. Qed.

Lemma tangent_all fuel idx out : (0 < n)%nat -> closed = true \/ (0 < idx < n)%nat ->
  let s := (idx mod n)%nat in
  match tangentDSL asserts closed codes fuel idx out with
  | Ok (dist, d) => (dist = 0%nat /\ d = out /\ noTangent closed codes s) \/
      ((0 < dist)%nat /\ exists c2, secondCode codes s c2 /\ longestTangent closed codes s (codeAhead codes s 0) c2 dist d)
  | NoFuel => exists k c1 c2, (fuel <= k)%nat /\ among codes s c1 c2 k /\ (closed = false -> (k < s)%nat)
  | Exn => asserts = true
  | UB => False
  end.
Proof.
  intros Hn Hi. cbn zeta. set (s := (idx mod n)%nat). assert (Hs : (s < n)%nat) by (apply Nat.mod_upper_bound; lia).
  unfold tangentDSL. fold n.
  replace (negb (closed || (0 <? idx)%nat && (idx <? n)%nat)) with false.
  2:{ symmetry. apply negb_false_iff, orb_true_iff. destruct Hi as [->|Hi]; [left; reflexivity|right]. apply andb_true_iff. rewrite !Nat.ltb_lt. lia. }
  destruct (n =? 0)%nat eqn:E0; [apply Nat.eqb_eq in E0; lia|]. rewrite andb_false_r. rewrite (startIx idx Hi). fold s.
  assert (Open : closed = false -> (0 < s)%nat).
  { intros Hc. destruct Hi as [Hi|Hi]; [congruence|]. unfold s. rewrite Nat.mod_small by lia. lia. }
  assert (F0 : fwdIx codes s 0 = s). { unfold fwdIx. fold n. rewrite Nat.add_0_r. apply Nat.mod_small, Hs. }
  assert (B0 : (if (s =? 0)%nat then (n - 1)%nat else (s - 1)%nat) = bwdIx codes s 0).
  { unfold bwdIx. fold n. destruct (s =? 0)%nat eqn:Es; [apply Nat.eqb_eq in Es; rewrite Es; rewrite Nat.mod_small; lia|apply Nat.eqb_neq in Es].
    replace (s + 1 * (n - 1))%nat with (s - 1 + 1 * n)%nat by lia. rewrite Nat.mod_add by lia. rewrite Nat.mod_small by lia. reflexivity. }
  rewrite B0. set (c0 := codeAhead codes s 0).
  assert (G0 : vget codes s = Ok c0) by (rewrite <- F0 at 1; apply (get_fwd codes s Hs)).
  rewrite G0, (get_bwd codes s Hs). cbn [bind].
  assert (HI : closed = false -> (1 <= s)%nat /\ (s + 0 < n)%nat) by (intros Hc; specialize (Open Hc); lia).
  pose proof (codesLoop_ok asserts closed codes s Hs fuel 0 (codeBehind codes s 0)) as CL. fold c0 in CL.
  specialize (CL ltac:(intros j Hj; lia)).
  assert (X1 : codeBehind codes s 0 = c0 -> among codes s c0 c0 1).
  { intros E j Hj. replace j with 0%nat by lia. split; left; [reflexivity|exact E]. }
  assert (X2 : codeBehind codes s 0 <> c0 -> secondCode codes s (codeBehind codes s 0)).
  { intros N. split; [exact N|]. exists 0%nat. split; [intros j Hj; lia|]. right. split; reflexivity. }
  specialize (CL X1 X2 HI). rewrite F0 in CL.
  destruct (codesLoop asserts closed codes fuel s s (bwdIx codes s 0) c0 (codeBehind codes s 0)) as [[c2|]| | |]; cbn [bind].
  - pose proof (tangentLoop_ok closed codes s Hs c0 c2 fuel 0 (mkDsl (Z.land c0 1) 1 0) out (carries_start codes s Hs)
      (or_introl (conj eq_refl eq_refl)) ltac:(intros j Hj; lia) ltac:(lia) HI) as TL.
    cbn [rise Z.of_nat Z.opp] in TL. rewrite F0 in TL.
    destruct (tangentLoop closed codes fuel s (bwdIx codes s 0) c0 c2 _ (0, 0) (0, 0) (0, 0) 0 out) as [[k d]| | |]; try contradiction.
    + destruct TL as (T1 & _ & _ & T2). right.
      assert (Hk : (0 < k)%nat).
      { destruct k as [|k]; [exfalso|lia]. destruct T2 as [[Ec [E|E]]|[T2|T2]].
        - specialize (Open Ec). lia.
        - fold n in E. lia.
        - apply T2, (second_among codes s Hs), CL.
        - destruct (three_points codes s Hs) as (e & Fe & Ce). exact (T2 e Fe Ce). }
      split; [exact Hk|]. exists c2. split; [exact CL|]. destruct (T1 Hk) as ((C1 & C2 & C3) & M & I).
      split; [exact C1|]. split; [split; [exact C2|exact C3]|]. split; [exact M|]. split; [exact I|exact T2].
    + destruct TL as (k & K1 & K2 & K3). exists k, c0, c2. split; [exact K1|]. split; [exact K2|]. intros Hc. specialize (K3 Hc). lia.
  - left. auto.
  - exact CL.
  - exact CL.
  - destruct CL as (k & K1 & K2 & K3). exists k, c0, c0. split; [lia|]. split; [intros j Hj; apply K2; lia|]. intros Hc. specialize (K3 Hc). lia.
Qed.

Theorem tangent_ok fuel idx out dist d : (0 < n)%nat -> closed = true \/ (0 < idx < n)%nat ->
  tangentDSL asserts closed codes fuel idx out = Ok (dist, d) -> let s := (idx mod n)%nat in
  (dist = 0%nat /\ d = out /\ noTangent closed codes s) \/
  ((0 < dist)%nat /\ exists c2, secondCode codes s c2 /\ longestTangent closed codes s (codeAhead codes s 0) c2 dist d).
Proof. intros Hn Hi E. pose proof (tangent_all fuel idx out Hn Hi) as H. rewrite E in H. exact H. Qed.

Theorem tangent_terminates fuel idx out : asserts = false -> (n <= fuel)%nat -> (0 < n)%nat ->
  (closed = true /\ exists a b c, In a codes /\ In b codes /\ In c codes /\ a <> b /\ a <> c /\ b <> c) \/ (closed = false /\ (0 < idx < n)%nat) ->
  exists dist d, tangentDSL asserts closed codes fuel idx out = Ok (dist, d).
Proof.
  intros Ha Hf Hn H. assert (Hi : closed = true \/ (0 < idx < n)%nat) by (destruct H as [[H _]|[_ H]]; auto).
  pose proof (tangent_all fuel idx out Hn Hi) as T. cbn zeta in T. assert (Hs : (idx mod n < n)%nat) by (apply Nat.mod_upper_bound; lia).
  destruct (tangentDSL asserts closed codes fuel idx out) as [[dist d]| | |]; [eauto|congruence|contradiction|exfalso].
  destruct T as (k & c1 & c2 & K1 & K2 & K3). destruct H as [(Hc & a & b & c & A & B & C & N1 & N2 & N3)|[Hc _]].
  - assert (G : forall x, In x codes -> x = c1 \/ x = c2).
    { intros x Hx. destruct (all_ahead codes (idx mod n)%nat Hs x Hx) as (j & Hj & E). fold n in Hj.
      destruct (K2 j ltac:(lia)) as [K _]. rewrite E in K. exact K. }
    destruct (G a A), (G b B), (G c C); congruence.
  - specialize (K3 Hc). lia.
Qed.
End Final.

(** ** Defects *)
(** with assertions compiled in, the inverted condition of the second one makes the function throw on a polygon with a straight piece *)
Theorem tangent_assert_refuted : exists codes idx out, (forall fuel dist d, tangentDSL true true codes (S fuel) idx out <> Ok (dist, d)) /\
  exists dist d, tangentDSL false true codes 8 idx out = Ok (dist, d).
Proof.
  exists [0; 0; 1; 1; 2; 2; 3; 3], 1%nat, (mkDsl 0 1 0). split; [|eexists; eexists; reflexivity].
  intros fuel dist d. cbn. discriminate.
Qed.
(** a closed contour that goes forth and back is walked around forever *)
Lemma forth_loop : forall fuel k d out, carries [0; 2] 0 d k k -> da d = 0 -> db d = 1 -> dp d = 0 ->
  tangentLoop true [0; 2] fuel (fwdIx [0; 2] 0 k) (bwdIx [0; 2] 0 k) 0 2 d (- Z.of_nat k, 0) (Z.of_nat k, 0) (- Z.of_nat k, 0) k out = NoFuel.
Proof.
  induction fuel as [|fuel IH]; intros k d out C E1 E2 E3; [reflexivity|]. cbn [tangentLoop].
  assert (Hs : (0 < length [0; 2]%Z)%nat) by (cbn; lia).
  rewrite (get_fwd [0; 2] 0 Hs), (get_bwd [0; 2] 0 Hs). cbn [bind].
  assert (G : forall i, (i < 2)%nat -> nth i [0; 2] 0 = 0 \/ nth i [0; 2] 0 = 2) by (intros [|[|i]] Hi; [left; reflexivity|right; reflexivity|lia]).
  assert (GA : codeAhead [0; 2] 0 k = 0 \/ codeAhead [0; 2] 0 k = 2) by (apply G, Nat.mod_upper_bound; lia).
  assert (GB : codeBehind [0; 2] 0 k = 0 \/ codeBehind [0; 2] 0 k = 2) by (apply G, Nat.mod_upper_bound; cbn; lia).
  replace (negb (codeAhead [0; 2] 0 k =? 0) && negb (codeAhead [0; 2] 0 k =? 2)) with false by (destruct GA as [-> | ->]; reflexivity).
  replace (negb (codeBehind [0; 2] 0 k =? 0) && negb (codeBehind [0; 2] 0 k =? 2)) with false by (destruct GB as [-> | ->]; reflexivity).
  replace (Z.land (codeAhead [0; 2] 0 k) 1) with 0 by (destruct GA as [-> | ->]; reflexivity).
  replace (Z.land (codeBehind [0; 2] 0 k) 1) with 0 by (destruct GB as [-> | ->]; reflexivity).
  destruct d as [a b p]. cbn [da db dp] in E1, E2, E3. subst a b p. cbn [fst snd Z.add Z.sub Z.opp].
  assert (O : octant (mkDsl 0 1 0)) by (destruct C as ((O & _) & _); exact O).
  assert (Sh : forall o, shiftTo (mkDsl 0 1 0) (o, 0) = mkDsl 0 1 0) by (intros o; unfold shiftTo, dslAt; cbn [da db dp fst snd]; f_equal; lia).
  assert (Bk : forall o, shiftBack (mkDsl 0 1 0) (o, 0) = mkDsl 0 1 0) by (intros o; unfold shiftBack, dslAt; cbn [da db dp fst snd]; f_equal; lia).
  assert (P : forall x, addPoint true (mkDsl 0 1 0) x 0 = (Returned true, mkDsl 0 1 0)).
  { intros x. apply addPoint_in; [exact O|]. apply (octant_line _ _ _ O). cbn [da db dp]. lia. }
  rewrite Sh, P, Bk. cbn [fst snd]. rewrite Sh, P, Bk.
  destruct (fwdNext true [0; 2] (fwdIx [0; 2] 0 k)) as [f|] eqn:EF.
  2:{ unfold fwdNext in EF. destruct (_ =? _)%nat in EF; discriminate. }
  destruct (bwdNext true [0; 2] (bwdIx [0; 2] 0 k)) as [b|] eqn:EB.
  2:{ unfold bwdNext in EB. destruct (_ =? _)%nat in EB; discriminate. }
  apply (fwdNext_ix true [0; 2] 0 Hs) in EF. apply (bwdNext_ix true [0; 2] 0 Hs) in EB. subst f b.
  replace (Z.of_nat k + 1) with (Z.of_nat (S k)) by lia. replace (- Z.of_nat k - 1) with (- Z.of_nat (S k)) by lia.
  apply IH; [|reflexivity|reflexivity|reflexivity].
  assert (R : forall code : nat -> Z, (forall j, Z.land (code j) 1 = 0) -> forall j, rise code j = 0).
  { intros code Hc. induction j as [|j IHj]; [reflexivity|]. cbn [rise]. rewrite Hc. lia. }
  split; [split; [exact O|split; [lia|left; reflexivity]]|].
  split; intros j _; apply (octant_line _ _ _ O); cbn [da db dp].
  - rewrite R; [lia|]. intros i. assert (codeAhead [0; 2] 0 i = 0 \/ codeAhead [0; 2] 0 i = 2) as [-> | ->] by (apply G, Nat.mod_upper_bound; lia); reflexivity.
  - rewrite R; [lia|]. intros i. assert (codeBehind [0; 2] 0 i = 0 \/ codeBehind [0; 2] 0 i = 2) as [-> | ->] by (apply G, Nat.mod_upper_bound; cbn; lia); reflexivity.
Qed.
Theorem tangent_hangs_refuted : exists codes idx out, forall fuel, tangentDSL false true codes fuel idx out = NoFuel.
Proof.
  exists [0; 2], 0%nat, (mkDsl 0 1 0). intros fuel.
  pose proof (forth_loop fuel 0 (mkDsl 0 1 0) (mkDsl 0 1 0)) as H.
  unfold tangentDSL. cbn. destruct fuel as [|fuel]; apply H; try reflexivity; apply (carries_start [0; 2] 0); cbn; lia.
Qed.
