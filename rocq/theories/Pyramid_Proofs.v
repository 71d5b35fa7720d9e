(** Proofs about CellPyramid (C31-C33). *)
From Coq Require Import Sorted.
From Verif Require Import Base Pyramid_Model Pyramid_Spec.

Section Proofs.
Variable S : Type.
Variable apply : euler -> Z -> S -> bool * S.
Variable sameFaces : Z -> S -> bool.
Variable endNodes : Z -> S -> nat * nat.
Variable degree : nat -> S -> nat.
Variable anchor : nat -> S -> Z.
Variable cells : S -> nat.
Notation level := (level S).
Notation pyramid := (pyramid S).
Notation index := (index S).
Notation top := (top S).
Notation history := (history S).
Notation composing := (composing S).
Notation checkpoints := (checkpoints S).
Notation bump := (bump S).
Notation perform := (perform S apply sameFaces endNodes degree anchor).
Notation performAtom := (performAtom S apply sameFaces endNodes degree anchor).
Notation performList := (performList S apply sameFaces endNodes degree anchor).
Notation replay := (replay S apply sameFaces endNodes degree anchor).
Notation add := (addAndPerform S apply sameFaces endNodes degree anchor cells).
Notation cut := (cutAbove S apply sameFaces endNodes degree anchor cells).
Notation cutLevel := (cutAboveLevel S cells).
Notation goto := (gotoLevel S apply sameFaces endNodes degree anchor).
Notation approach := (approachLevel S apply sameFaces endNodes degree anchor).
Notation getLevel := (getLevel S apply sameFaces endNodes degree anchor).
Notation orderly := (orderly S apply sameFaces endNodes degree anchor cells).

Lemma internal_index e d l : index (snd (internal S apply e d l)) = index l.
Proof. unfold internal. destruct (apply e d (st S l)) as [[|] s]; reflexivity. Qed.
Lemma andThen_index r k l : index (snd r) = index l -> (forall l', index l' = index l -> index (snd (k l')) = index l) ->
  index (snd (andThen S r k)) = index l.
Proof. destruct r as [[| |] l']; cbn; intros H1 H2; auto. Qed.
Lemma performAtom_index t d l : index (snd (performAtom t d l)) = index l.
Proof.
  destruct t as [e| |]; cbn [Pyramid_Model.performAtom].
  - apply internal_index.
  - unfold removeEdgeInternal. destruct (sameFaces d (st S l)); apply internal_index.
  - destruct (endNodes d (st S l)) as [n1 n2]. apply andThen_index.
    { unfold removeEdgeInternal. destruct (sameFaces d (st S l)); apply internal_index. }
    intros l1 E1. apply andThen_index.
    { destruct (degree n1 (st S l1) =? 0)%nat; [rewrite internal_index|]; exact E1. }
    intros l2 E2. destruct (negb (n1 =? n2)%nat && (degree n2 (st S l2) =? 0)%nat); [rewrite internal_index|]; exact E2.
Qed.
Fixpoint opSize (o : op) : nat := match o with Atom _ _ => 1 | Composite l => 1 + list_sum (map opSize l) end.
Lemma perform_index : forall n o l, (opSize o <= n)%nat -> index (snd (perform o l)) = index l.
Proof.
  induction n as [|n IH]; intros o l Hn; [destruct o; cbn in Hn; lia|].
  destruct o as [t d|ops]; [apply performAtom_index|]. cbn [opSize] in Hn.
  assert (G : forall ops l, (list_sum (map opSize ops) <= n)%nat -> index (snd (performList ops l)) = index l).
  { clear ops l Hn. induction ops as [|o ops IHo]; intros l Hn; [reflexivity|]. change (list_sum (map opSize (o :: ops))) with (opSize o + list_sum (map opSize ops)) in Hn.
    change (performList (o :: ops) l) with (andThen S (perform o l) (performList ops)). apply andThen_index; [apply IH; lia|].
    intros l' E. rewrite IHo by lia. exact E. }
  destruct ops as [|o ops]; [reflexivity|]. change (perform (Composite (o :: ops)) l) with (performList (o :: ops) l). apply G. lia.
Qed.
Lemma perform_Done_index o l o' l' : perform o l = (o', l') -> index l' = index l.
Proof. intros E. pose proof (perform_index (opSize o) o l (le_n _)) as H. rewrite E in H. exact H. Qed.
Lemma performList_index ops l o' l' : performList ops l = (o', l') -> index l' = index l.
Proof.
  revert l. induction ops as [|o ops IH]; intros l; [intros [= _ <-]; reflexivity|].
  change (performList (o :: ops) l) with (andThen S (perform o l) (performList ops)). destruct (perform o l) as [r l1] eqn:E.
  apply perform_Done_index in E. destruct r; cbn [andThen]; [intros H; apply IH in H; congruence|intros [= _ <-]; exact E|intros [= _ <-]; exact E].
Qed.
Lemma performList_app ops1 ops2 l : performList (ops1 ++ ops2) l = andThen S (performList ops1 l) (performList ops2).
Proof.
  revert l. induction ops1 as [|o ops IH]; intros l; [cbn; reflexivity|].
  change (performList ((o :: ops) ++ ops2) l) with (andThen S (perform o l) (performList (ops ++ ops2))).
  change (performList (o :: ops) l) with (andThen S (perform o l) (performList ops)). destruct (perform o l) as [[| |] l']; cbn [andThen]; auto.
Qed.
Lemma performList_one o l : performList [o] l = perform o l.
Proof. change (performList [o] l) with (andThen S (perform o l) (performList [])). destruct (perform o l) as [[| |] l']; reflexivity. Qed.

(** ** The invariant *)
(** [seen] are the levels reached by the operations of [h], one after the other *)
Definition steps (h : list op) (seen : list level) : Prop :=
  length seen = Datatypes.S (length h) /\ (forall k l, nth_error seen k = Some l -> index l = k) /\
  (forall k o l, nth_error h k = Some o -> nth_error seen k = Some l -> exists l', perform o l = (Done, l') /\ nth_error seen (k + 1) = Some (bump l')).
Definition goodCps (cps : list (nat * level)) (seen : list level) : Prop :=
  Sorted.StronglySorted (fun a b => (fst a < fst b)%nat) cps /\ (exists l, In (0%nat, l) cps) /\ Forall (fun c => nth_error seen (fst c) = Some (snd c)) cps.
Definition PInv (walk : bool) (p : pyramid) (seen : list level) : Prop :=
  goodCps (checkpoints p) seen /\ (0 <= composing p < 2 ^ 32)%Z /\
  (if (composing p =? 0)%Z then steps (history p) seen /\ nth_error seen (index (top p)) = Some (top p) /\ (walk = false -> index (top p) = length (history p))
   else exists h ops l, history p = h ++ [Composite ops] /\ steps h seen /\ nth_error seen (length h) = Some l /\ performList ops l = (Done, top p)).

Lemma lastUpTo_spec k cps c : lastUpTo S k cps = Some c -> In c cps /\ (fst c <= k)%nat.
Proof.
  revert c. induction cps as [|c0 cps IH]; intros c; cbn [lastUpTo]; [discriminate|].
  destruct (fst c0 <=? k)%nat eqn:E; [|discriminate]. apply Nat.leb_le in E.
  destruct (lastUpTo S k cps) as [c'|]; intros [= <-]; [destruct (IH c' eq_refl); split; [right|]; assumption|split; [left; reflexivity|exact E]].
Qed.
Lemma lastUpTo_some k cps seen : goodCps cps seen -> exists c, lastUpTo S k cps = Some c.
Proof.
  intros (Hs & (l & Hl) & _). destruct cps as [|c0 cps]; [destruct Hl|].
  assert (fst c0 = 0%nat).
  { destruct Hl as [->|Hl]; [reflexivity|]. apply Sorted.StronglySorted_inv in Hs as [_ Hs]. rewrite Forall_forall in Hs. specialize (Hs _ Hl). cbn in Hs. lia. }
  cbn [lastUpTo]. destruct (fst c0 <=? k)%nat eqn:E; [|apply Nat.leb_gt in E; lia]. destruct (lastUpTo S k cps); eauto.
Qed.

Lemma gotoCheckpoint_ok cps seen k l : goodCps cps seen -> nth_error seen (index l) = Some l -> (k < length seen)%nat ->
  (forall i l, nth_error seen i = Some l -> index l = i) ->
  exists used l', gotoCheckpoint S cps k l = Some (used, l') /\ nth_error seen (index l') = Some l' /\ (index l' <= k)%nat.
Proof.
  intros G Hl Hk HI. destruct (lastUpTo_some k cps seen G) as [[ck cl] E]. unfold gotoCheckpoint. rewrite E.
  destruct (lastUpTo_spec _ _ _ E) as [Hin Hle]. cbn in Hle. destruct G as (_ & _ & F). rewrite Forall_forall in F. specialize (F _ Hin). cbn in F.
  destruct ((index l <=? k)%nat && (ck <=? index l)%nat) eqn:C.
  - apply andb_true_iff in C as [C _]. apply Nat.leb_le in C. exists false, l. auto.
  - exists true, cl. rewrite (HI _ _ F). auto.
Qed.

Lemma replay_ok hist seen n l : steps hist seen -> nth_error seen (index l) = Some l -> (index l + n < length seen)%nat ->
  exists l', replay hist n l = (Done, l') /\ nth_error seen (index l + n) = Some l' /\ index l' = (index l + n)%nat.
Proof.
  intros (HL & HI & HS). revert l. induction n as [|n IH]; intros l Hl Hn; cbn [Pyramid_Model.replay].
  - exists l. rewrite Nat.add_0_r. auto.
  - destruct (nth_error hist (index l)) as [o|] eqn:E.
    2:{ apply nth_error_None in E. lia. }
    destruct (HS _ _ _ E Hl) as (l' & P & Q). rewrite P. cbn [andThen].
    assert (B : index (bump l') = (index l + 1)%nat) by (rewrite (HI _ _ Q); reflexivity).
    destruct (IH (bump l')) as (l2 & R1 & R2 & R3); [rewrite B; exact Q|lia|]. rewrite R1. exists l2.
    split; [reflexivity|]. rewrite B in *. replace (index l + Datatypes.S n)%nat with (index l + 1 + n)%nat by lia. auto.
Qed.

(** replaying stays possible when further operations are recorded *)
Lemma replay_app hist more seen n l : steps hist seen -> nth_error seen (index l) = Some l -> (index l + n < length seen)%nat ->
  replay (hist ++ more) n l = replay hist n l.
Proof.
  intros (HL & HI & HS). revert l. induction n as [|n IH]; intros l Hl Hn; cbn [Pyramid_Model.replay]; [reflexivity|].
  destruct (nth_error hist (index l)) as [o|] eqn:E.
  2:{ apply nth_error_None in E. lia. }
  rewrite nth_error_app1 by (apply nth_error_Some; congruence). rewrite E. destruct (HS _ _ _ E Hl) as (l' & P & Q). rewrite P. cbn [andThen].
  assert (B : index (bump l') = (index l + 1)%nat) by (rewrite (HI _ _ Q); reflexivity).
  apply IH; [rewrite B; exact Q|lia].
Qed.

Lemma goto_ok p hist more seen k l : goodCps (checkpoints p) seen -> steps hist seen -> history p = hist ++ more ->
  nth_error seen (index l) = Some l -> (k < length seen)%nat ->
  exists l', goto p k l = (Done, l') /\ nth_error seen k = Some l' /\ index l' = k.
Proof.
  intros G St H Hl Hk. unfold gotoLevel. destruct (gotoCheckpoint_ok _ _ k l G Hl Hk (proj1 (proj2 St))) as (used & l1 & E & N & Le). rewrite E, H.
  destruct (replay_ok hist seen (k - index l1) l1 St N ltac:(lia)) as (l2 & R1 & R2 & R3).
  rewrite (replay_app hist more seen) by (assumption || lia). exists l2. replace (index l1 + (k - index l1))%nat with k in * by lia. auto.
Qed.
Lemma approach_ok p hist more seen k n l : goodCps (checkpoints p) seen -> steps hist seen -> history p = hist ++ more ->
  nth_error seen (index l) = Some l -> (k < length seen)%nat ->
  exists l', approach p k n l = (Done, l', (index l' =? k)%nat) /\ nth_error seen (index l') = Some l' /\ (index l' <= k)%nat /\
    (index l <= k -> Nat.min k (index l + n) <= index l')%nat.
Proof.
  intros G St H Hl Hk. unfold approachLevel.
  destruct (lastUpTo_some k _ seen G) as [[ck cl] E]. unfold gotoCheckpoint. rewrite E.
  destruct (lastUpTo_spec _ _ _ E) as [Hin Hle]. cbn in Hle. pose proof G as (_ & _ & F). rewrite Forall_forall in F. specialize (F _ Hin). cbn in F.
  pose proof (proj1 (proj2 St)) as HI.
  destruct ((index l <=? k)%nat && (ck <=? index l)%nat) eqn:C.
  - apply andb_true_iff in C as [C1 C2]. apply Nat.leb_le in C1, C2. rewrite Nat.sub_0_r. rewrite H.
    destruct (replay_ok hist seen (Nat.min (k - index l) n) l St Hl ltac:(lia)) as (l2 & R1 & R2 & R3).
    rewrite (replay_app hist more seen) by (assumption || lia). rewrite R1. exists l2. cbn [snd]. split; [reflexivity|]. rewrite R3. split; [exact R2|]. lia.
  - pose proof (HI _ _ F) as IC. rewrite H. assert (F' : nth_error seen (index cl) = Some cl) by (rewrite IC; exact F).
    destruct (replay_ok hist seen (Nat.min (k - index cl) (n - 1)) cl St F' ltac:(lia)) as (l2 & R1 & R2 & R3).
    rewrite (replay_app hist more seen) by (assumption || lia). rewrite R1. exists l2. cbn [snd]. split; [reflexivity|]. rewrite R3. split; [exact R2|].
    apply andb_false_iff in C. rewrite !Nat.leb_gt in C. lia.
Qed.

(** ** Checkpoints *)
Lemma insertCp_in k l cps c : In c (insertCp S k l cps) -> c = (k, l) \/ In c cps.
Proof.
  induction cps as [|c0 cps IH]; cbn [insertCp]; [intros [<-|[]]; left; reflexivity|].
  destruct (k <? fst c0)%nat; [intros [<-|H]; [left; reflexivity|right; exact H]|].
  destruct (k =? fst c0)%nat; [intros H; right; exact H|]. intros [<-|H]; [right; left; reflexivity|]. destruct (IH H); [left; assumption|right; right; assumption].
Qed.
Lemma insertCp_keep k l cps c : In c cps -> In c (insertCp S k l cps).
Proof.
  induction cps as [|c0 cps IH]; [intros []|]. cbn [insertCp]. intros H. destruct (k <? fst c0)%nat; [right; exact H|].
  destruct (k =? fst c0)%nat; [exact H|]. destruct H as [->|H]; [left; reflexivity|right; apply IH, H].
Qed.
Lemma insertCp_good l cps seen : goodCps cps seen -> nth_error seen (index l) = Some l -> goodCps (insertCp S (index l) l cps) seen.
Proof.
  intros (Hs & (l0 & H0) & F) Hl. split; [|split].
  - clear H0 F. induction cps as [|c0 cps IH]; cbn [insertCp]; [repeat constructor|]. pose proof Hs as Hs'. apply Sorted.StronglySorted_inv in Hs' as [Hs1 Hs2].
    destruct (index l <? fst c0)%nat eqn:E.
    + apply Nat.ltb_lt in E. constructor; [exact Hs|]. constructor; [exact E|]. eapply Forall_impl; [|exact Hs2]. cbn. lia.
    + apply Nat.ltb_ge in E. destruct (index l =? fst c0)%nat eqn:E2; [exact Hs|]. apply Nat.eqb_neq in E2. constructor; [apply IH, Hs1|].
      rewrite Forall_forall in *. intros c Hc. destruct (insertCp_in _ _ _ _ Hc) as [->|Hc']; [cbn; lia|apply Hs2, Hc'].
  - exists l0. apply insertCp_keep, H0.
  - rewrite Forall_forall in *. intros c Hc. destruct (insertCp_in _ _ _ _ Hc) as [->|Hc']; [exact Hl|apply F, Hc'].
Qed.
Lemma goodCps_more cps seen more : goodCps cps seen -> goodCps cps (seen ++ more).
Proof.
  intros (Hs & H0 & F). split; [exact Hs|]. split; [exact H0|]. rewrite Forall_forall in *. intros c Hc. specialize (F c Hc).
  rewrite nth_error_app1; [exact F|]. apply nth_error_Some. congruence.
Qed.
Lemma maybeStore_cps p seen : goodCps (checkpoints p) seen -> nth_error seen (index (top p)) = Some (top p) ->
  goodCps (checkpoints (maybeStore S cells p)) seen.
Proof. intros G H. unfold maybeStore. destruct (nextCp S p <=? sub S (top p))%nat; [apply insertCp_good; assumption|exact G]. Qed.
Lemma maybeStore_rest p : history (maybeStore S cells p) = history p /\ top (maybeStore S cells p) = top p /\ composing (maybeStore S cells p) = composing p.
Proof. unfold maybeStore. destruct (nextCp S p <=? sub S (top p))%nat; repeat split. Qed.

Lemma steps_push h seen l o l' : steps h seen -> nth_error seen (length h) = Some l -> perform o l = (Done, l') -> steps (h ++ [o]) (seen ++ [bump l']).
Proof.
  intros (HL & HI & HS) Hl P. pose proof (perform_Done_index _ _ _ _ P) as E. rewrite (HI _ _ Hl) in E. split; [|split].
  - rewrite !app_length. cbn. lia.
  - intros k x Hx. destruct (Nat.lt_ge_cases k (length seen)) as [L|L]; [rewrite nth_error_app1 in Hx by exact L; apply HI, Hx|].
    rewrite nth_error_app2 in Hx by exact L. destruct (k - length seen)%nat as [|j] eqn:Ek; cbn in Hx; [|destruct j; discriminate].
    injection Hx as <-. cbn. lia.
  - intros k o' x Ho Hx. assert (Hk : (k < length (h ++ [o]))%nat) by (apply nth_error_Some; congruence). rewrite app_length in Hk. cbn in Hk.
    rewrite nth_error_app1 in Hx by lia. destruct (Nat.lt_ge_cases k (length h)) as [L|L].
    + rewrite nth_error_app1 in Ho by exact L. destruct (HS _ _ _ Ho Hx) as (x' & P1 & P2). exists x'. split; [exact P1|].
      rewrite nth_error_app1; [exact P2|lia].
    + rewrite nth_error_app2 in Ho by exact L. assert (k = length h) by lia. subst k. rewrite Nat.sub_diag in Ho. cbn in Ho. injection Ho as <-.
      rewrite Hl in Hx. injection Hx as <-. exists l'. split; [exact P|]. rewrite nth_error_app2 by lia.
      replace (length h + 1 - length seen)%nat with 0%nat by lia. reflexivity.
Qed.
Lemma firstn_nth {A} (s : list A) n j : (j < n)%nat -> nth_error (firstn n s) j = nth_error s j.
Proof. revert n j. induction s as [|a s IH]; intros [|n] [|j] H; cbn; try reflexivity; try lia. apply IH. lia. Qed.
Lemma steps_cut h seen k : steps h seen -> (k <= length h)%nat -> steps (firstn k h) (firstn (k + 1) seen).
Proof.
  intros (HL & HI & HS) Hk. split; [|split].
  - rewrite !firstn_length. lia.
  - intros i l Hl. apply HI. rewrite <- Hl. symmetry. assert (i < length (firstn (k + 1) seen))%nat by (apply nth_error_Some; congruence).
    rewrite firstn_length in *. apply firstn_nth. lia.
  - intros i o l Ho Hl.
    assert (L1 : (i < k)%nat). { assert (i < length (firstn k h))%nat by (apply nth_error_Some; congruence). rewrite firstn_length in *. lia. }
    assert (Ho' : nth_error h i = Some o). { rewrite <- (firstn_skipn k h). rewrite nth_error_app1 by (rewrite firstn_length; lia). exact Ho. }
    assert (N : forall j, (j <= k)%nat -> nth_error (firstn (k + 1) seen) j = nth_error seen j).
    { intros j Hj. apply firstn_nth. lia. }
    rewrite N in Hl by lia. destruct (HS _ _ _ Ho' Hl) as (l' & P1 & P2). exists l'. split; [exact P1|]. rewrite N by lia. exact P2.
Qed.
Lemma filter_sorted (P : nat * level -> bool) cps : Sorted.StronglySorted (fun a b => (fst a < fst b)%nat) cps ->
  Sorted.StronglySorted (fun a b => (fst a < fst b)%nat) (filter P cps).
Proof.
  induction 1 as [|c cps H IH F]; cbn; [constructor|]. destruct (P c); [|exact IH]. constructor; [exact IH|].
  rewrite Forall_forall in *. intros x Hx. apply filter_In in Hx as [Hx _]. apply F, Hx.
Qed.
Lemma goodCps_cut cps seen k : goodCps cps seen -> goodCps (filter (fun c => (fst c <=? k)%nat) cps) (firstn (k + 1) seen).
Proof.
  intros (Hs & (l & H0) & F). split; [apply filter_sorted, Hs|]. split; [exists l; apply filter_In; split; [exact H0|reflexivity]|].
  rewrite Forall_forall in *. intros c Hc. apply filter_In in Hc as [Hc E]. apply Nat.leb_le in E. specialize (F c Hc).
  rewrite firstn_nth by lia. exact F.
Qed.
Lemma cutApex_ok p seen l : goodCps (checkpoints p) seen -> steps (history p) seen -> composing p = 0%Z -> top p = l ->
  nth_error seen (index l) = Some l ->
  exists p', cutApex S cells p = (Done, p') /\ goodCps (checkpoints p') (firstn (index l + 1) seen) /\ steps (history p') (firstn (index l + 1) seen) /\
    top p' = l /\ composing p' = 0%Z /\ length (history p') = index l.
Proof.
  intros G St C E Hl. unfold cutApex. rewrite E.
  assert (Hi : (index l < length seen)%nat) by (apply nth_error_Some; congruence). pose proof (proj1 St) as HL.
  destruct (length (history p) <? index l)%nat eqn:EL; [apply Nat.ltb_lt in EL; lia|]. apply Nat.ltb_ge in EL.
  pose proof (goodCps_cut _ _ (index l) G) as G'. set (cps := filter _ _) in *.
  destruct (nth_error cps (length cps - 1)) as [[ck cl]|] eqn:EN.
  2:{ apply nth_error_None in EN. destruct G' as (_ & (l0 & H0) & _). destruct cps; [destruct H0|]. cbn in EN. lia. }
  eexists. split; [reflexivity|]. cbn [storeCheckpoint Pyramid_Model.checkpoints Pyramid_Model.history Pyramid_Model.top Pyramid_Model.composing].
  assert (Hc : nth_error (firstn (index l + 1) seen) (index cl) = Some cl).
  { pose proof G' as (_ & _ & F). rewrite Forall_forall in F. specialize (F _ (nth_error_In _ _ EN)). cbn in F.
    replace (index cl) with ck; [exact F|]. symmetry. apply (proj1 (proj2 (steps_cut _ _ (index l) St EL))). exact F. }
  split; [apply insertCp_good; assumption|]. split; [apply steps_cut; assumption|]. split; [reflexivity|]. split; [exact C|]. rewrite firstn_length. lia.
Qed.

Lemma back_app {A} (l : list A) x : back (l ++ [x]) = Some x.
Proof. unfold back. rewrite app_length. cbn. rewrite Nat.add_sub. rewrite nth_error_app2, Nat.sub_diag by lia. reflexivity. Qed.
Lemma setLast_app {A} (l : list A) x y : setLast (l ++ [x]) y = l ++ [y].
Proof. unfold setLast. rewrite app_length. cbn. rewrite Nat.add_sub. rewrite firstn_app, Nat.sub_diag, firstn_all. cbn. rewrite app_nil_r. reflexivity. Qed.

Lemma last_seen h seen : steps h seen -> exists l, nth_error seen (length h) = Some l.
Proof. intros (HL & _). destruct (nth_error seen (length h)) eqn:E; [eauto|]. apply nth_error_None in E. lia. Qed.
Lemma firstn_seen h seen k l : steps h seen -> nth_error seen (index l) = Some l -> (length h <= k)%nat -> firstn (k + 1) seen = seen.
Proof. intros (HL & _) _ Hk. apply firstn_all2. lia. Qed.

Lemma orderly_PInv walk p seen : orderly walk p seen -> PInv walk p seen.
Proof.
  induction 1 as [s|p seen t d p' _ IH C A E|p seen t d p' _ IH C E|p seen t d p' _ IH C E ET|p seen p' _ IH C B E|p seen p' _ IH C B E
    |p seen p' _ IH C E|p seen p' _ IH C N E|p seen k p' _ IH E|p seen l p' _ IH HI E|p seen l _ IH HI|p seen k l _ IH W C Hk E|p seen k n l b _ IH W C Hk E].
  - split; [|split; [cbn; lia|]].
    + cbn. split; [repeat constructor|]. split; [eexists; left; reflexivity|]. repeat constructor.
    + cbn. split; [|split; reflexivity]. split; [reflexivity|]. split; [intros [|[|k]] l; cbn; [intros [= <-]; reflexivity|discriminate|destruct k; discriminate]|].
      intros [|k] o l; cbn; discriminate.
  - destruct IH as (G & _ & I). rewrite C in I. cbn in I. destruct I as (St & Ht & _).
    unfold addAndPerform in E. rewrite C in E. cbn [Z.eqb] in E. cbn zeta in E. cbn [setHistory Pyramid_Model.top] in E.
    destruct (perform (Atom t d) (top p)) as [[| |] l] eqn:P.
    + injection E as <-.
      set (p1 := setTop S (setHistory S p (history p ++ [Atom t d])) (bump l)) in *. destruct (maybeStore_rest p1) as (R1 & R2 & R3).
      assert (Ht' : nth_error seen (length (history p)) = Some (top p)) by (rewrite <- A; exact Ht).
      pose proof (steps_push _ _ _ _ _ St Ht' P) as St'. rewrite R2. change (top p1) with (bump l).
      assert (IB : index (bump l) = Datatypes.S (length (history p))) by (pose proof (perform_Done_index _ _ _ _ P) as Q; cbn; lia).
      assert (NB : nth_error (seen ++ [bump l]) (index (bump l)) = Some (bump l)).
      { rewrite IB. rewrite nth_error_app2 by (destruct St as (L & _); lia). destruct St as (L & _). rewrite L, Nat.sub_diag. reflexivity. }
      split; [apply maybeStore_cps; [apply goodCps_more, G|exact NB]|]. split; [rewrite R3; change (composing p1) with (composing p); lia|].
      rewrite R3. change (composing p1) with (composing p). rewrite C. cbn [Z.eqb]. rewrite R1, R2. change (history p1) with (history p ++ [Atom t d]).
      change (top p1) with (bump l). split; [exact St'|]. split; [exact NB|]. intros _. rewrite IB, app_length. cbn. lia.
    + destruct (Pyramid_Model.cutAbove S apply sameFaces endNodes degree anchor cells _ _) as [[| |] q]; discriminate.
    + discriminate.
  - destruct IH as (G & R & I). destruct (composing p =? 0)%Z eqn:C0; [apply Z.eqb_eq in C0; contradiction|]. destruct I as (h & ops & l0 & Hh & St & Hl & PL).
    unfold addAndPerform in E. rewrite C0, Hh, back_app in E.
    destruct (perform (Atom t d) (top p)) as [[| |] l] eqn:P; [|discriminate|discriminate]. rewrite setLast_app in E. injection E as <-.
    split; [exact G|]. split; [exact R|]. cbn [setTop setHistory Pyramid_Model.composing Pyramid_Model.history Pyramid_Model.top]. rewrite C0.
    exists h, (ops ++ [Atom t d]), l0. split; [reflexivity|]. split; [exact St|]. split; [exact Hl|].
    rewrite performList_app, PL. cbn [andThen]. rewrite performList_one. exact P.
  - destruct IH as (G & R & I). destruct (composing p =? 0)%Z eqn:C0; [apply Z.eqb_eq in C0; contradiction|]. destruct I as (h & ops & l0 & Hh & St & Hl & PL).
    unfold addAndPerform in E. rewrite C0, Hh, back_app in E.
    destruct (perform (Atom t d) (top p)) as [[| |] l] eqn:P; [discriminate| |discriminate]. injection E as <-. cbn [setTop Pyramid_Model.top] in ET. subst l.
    split; [exact G|]. split; [exact R|]. cbn [setTop Pyramid_Model.composing Pyramid_Model.history Pyramid_Model.top]. rewrite C0.
    exists h, ops, l0. auto.
  - destruct IH as (G & R & I). unfold beginComposite in E. injection E as <-.
    destruct (composing p =? 0)%Z eqn:C0.
    + apply Z.eqb_eq in C0. destruct C as [C|C]; [contradiction|]. destruct I as (St & Ht & _).
      split; [exact G|]. cbn [setComposing setHistory Pyramid_Model.composing Pyramid_Model.history Pyramid_Model.top]. rewrite C0. split; [cbn; lia|]. change ((0 + 1) mod 2 ^ 32 =? 0)%Z with false. cbn iota.
      exists (history p), [], (top p). split; [reflexivity|]. split; [exact St|]. split; [rewrite <- C; exact Ht|reflexivity].
    + apply Z.eqb_neq in C0. split; [exact G|]. cbn [setComposing Pyramid_Model.composing Pyramid_Model.history Pyramid_Model.top].
      rewrite Z.mod_small by lia. split; [lia|]. destruct (composing p + 1 =? 0)%Z eqn:C1; [apply Z.eqb_eq in C1; lia|exact I].
  - destruct IH as (G & R & I). unfold changeIntoComposite in E.
    destruct (composing p =? 0)%Z eqn:C0; [apply Z.eqb_eq in C0; contradiction|]. injection E as <-. apply Z.eqb_neq in C0.
    split; [exact G|]. cbn [setComposing Pyramid_Model.composing Pyramid_Model.history Pyramid_Model.top].
    rewrite Z.mod_small by lia. split; [lia|]. destruct (composing p + 1 =? 0)%Z eqn:C1; [apply Z.eqb_eq in C1; lia|exact I].
  - destruct IH as (G & R & I). unfold endComposite in E. cbn zeta in E. cbn [setComposing Pyramid_Model.composing] in E. rewrite Z.mod_small in E by lia.
    destruct (composing p - 1 =? 0)%Z eqn:C1; [apply Z.eqb_eq in C1; lia|]. injection E as <-.
    destruct (composing p =? 0)%Z eqn:C0; [apply Z.eqb_eq in C0; lia|].
    split; [exact G|]. cbn [setComposing Pyramid_Model.composing Pyramid_Model.history Pyramid_Model.top]. split; [lia|]. rewrite C1. exact I.
  - destruct IH as (G & R & I). rewrite C in I. cbn [Z.eqb] in I. destruct I as (h & ops & l0 & Hh & St & Hl & PL).
    unfold endComposite in E. cbn zeta in E. cbn [setComposing Pyramid_Model.composing Pyramid_Model.history Pyramid_Model.top] in E. rewrite C in E. change ((1 - 1) mod 2 ^ 32)%Z with 0%Z in E. cbn [Z.eqb] in E.
    rewrite Hh in E, N. rewrite back_app in E, N. assert (Nops : ops <> []) by congruence.
    set (o := match ops with [o] => o | _ => Composite ops end).
    assert (Eh : match ops with [o] => setLast (h ++ [Composite ops]) o | _ => h ++ [Composite ops] end = h ++ [o]).
    { unfold o. destruct ops as [|o1 [|o2 ops]]; [contradiction|apply setLast_app|reflexivity]. }
    rewrite Eh in E. assert (P : perform o l0 = (Done, top p)).
    { unfold o. destruct ops as [|o1 [|o2 ops]]; [contradiction|rewrite performList_one in PL; exact PL|exact PL]. }
    injection E as <-. set (p1 := setTop S _ (bump (top p))) in *. destruct (maybeStore_rest p1) as (R1 & R2 & R3).
    pose proof (steps_push _ _ _ _ _ St Hl P) as St'. rewrite R2. change (top p1) with (bump (top p)).
    assert (IB : index (bump (top p)) = Datatypes.S (length h)).
    { pose proof (perform_Done_index _ _ _ _ P) as Q. pose proof (proj1 (proj2 St) _ _ Hl). cbn. lia. }
    assert (NB : nth_error (seen ++ [bump (top p)]) (index (bump (top p))) = Some (bump (top p))).
    { rewrite IB. rewrite nth_error_app2 by (destruct St as (L & _); lia). destruct St as (L & _). rewrite L, Nat.sub_diag. reflexivity. }
    split; [apply maybeStore_cps; [apply goodCps_more, G|exact NB]|]. rewrite R3. change (composing p1) with 0%Z. split; [lia|]. cbn [Z.eqb].
    rewrite R1, R2. change (history p1) with (h ++ [o]). change (top p1) with (bump (top p)). split; [exact St'|]. split; [exact NB|].
    intros _. rewrite IB, app_length. cbn. lia.
  - destruct IH as (G & R & I). unfold cutAbove, levelCount in E. rewrite Nat.add_sub in E.
    destruct (index (top p) =? length (history p))%nat eqn:E1; [cbn [negb] in E|discriminate]. apply Nat.eqb_eq in E1.
    destruct (composing p =? 0)%Z eqn:C0.
    2:{ destruct I as (h & ops & l0 & Hh & St & Hl & PL). apply performList_index in PL. rewrite Hh, app_length in E1. cbn in E1.
        rewrite (proj1 (proj2 St) _ _ Hl) in PL. lia. }
    destruct I as (St & Ht & Wk). assert (C0' : composing p = 0%Z) by (apply Z.eqb_eq; exact C0).
    destruct (k <? index (top p))%nat eqn:EK.
    + apply Nat.ltb_lt in EK. assert (Hk : (k < length seen)%nat) by (destruct St as (L & _); lia).
      destruct (goto_ok p (history p) [] seen k (top p) G St (eq_sym (app_nil_r _)) Ht Hk) as (l & E2 & E3 & E4). rewrite E2 in E.
      assert (E3' : nth_error seen (index l) = Some l) by (rewrite E4; exact E3).
      destruct (cutApex_ok (setTop S p l) seen l G St C0' eq_refl E3') as (p2 & F1 & F2 & F3 & F4 & F5 & F6).
      rewrite F1 in E. injection E as <-. rewrite E4 in *. split; [exact F2|]. rewrite F5. split; [lia|]. cbn [Z.eqb]. rewrite F4, E4.
      split; [exact F3|]. split; [|intros _; symmetry; exact F6].
      rewrite firstn_nth by lia. exact E3.
    + apply Nat.ltb_ge in EK. injection E as <-. rewrite (firstn_seen _ _ _ _ St Ht) by lia. split; [exact G|]. split; [exact R|]. rewrite C0. auto.
  - destruct IH as (G & R & I). unfold cutAboveLevel, levelCount in E. rewrite Nat.add_sub in E.
    destruct (index (top p) =? length (history p))%nat eqn:E1; [cbn [negb] in E|discriminate]. apply Nat.eqb_eq in E1.
    destruct (composing p =? 0)%Z eqn:C0.
    2:{ destruct I as (h & ops & l0 & Hh & St & Hl & PL). apply performList_index in PL. rewrite Hh, app_length in E1. cbn in E1.
        rewrite (proj1 (proj2 St) _ _ Hl) in PL. lia. }
    destruct I as (St & Ht & Wk). assert (C0' : composing p = 0%Z) by (apply Z.eqb_eq; exact C0).
    apply In_nth_error in HI as (i & Hi). pose proof (proj1 (proj2 St) _ _ Hi) as Ei. subst i.
    destruct (index (top p) =? index l)%nat eqn:EK; cbn [negb] in E.
    + apply Nat.eqb_eq in EK. injection E as <-. rewrite (firstn_seen _ _ _ _ St Ht) by lia. split; [exact G|]. split; [exact R|]. rewrite C0. auto.
    + destruct (cutApex_ok (setTop S p l) seen l G St C0' eq_refl Hi) as (p2 & F1 & F2 & F3 & F4 & F5 & F6).
      rewrite F1 in E. injection E as <-. split; [exact F2|]. rewrite F5. split; [lia|]. cbn [Z.eqb]. rewrite F4.
      split; [exact F3|]. split; [|intros _; symmetry; exact F6].
      assert (index l < length seen)%nat by (apply nth_error_Some; congruence).
      rewrite firstn_nth by lia. exact Hi.
  - destruct IH as (G & R & I). assert (Hl : nth_error seen (index l) = Some l).
    { apply In_nth_error in HI as (i & Hi). destruct (composing p =? 0)%Z; [destruct I as (St & _)|destruct I as (h & ops & l0 & _ & St & _)];
        rewrite (proj1 (proj2 St) _ _ Hi); exact Hi. }
    split; [apply insertCp_good; assumption|]. split; [exact R|exact I].
  - destruct IH as (G & R & I). rewrite C in I. cbn [Z.eqb] in I. destruct I as (St & Ht & _).
    destruct (goto_ok p (history p) [] seen k (top p) G St (eq_sym (app_nil_r _)) Ht Hk) as (l' & E2 & E3 & E4). rewrite E2 in E. injection E as <-.
    split; [exact G|]. split; [exact R|]. cbn [setTop Pyramid_Model.composing Pyramid_Model.history Pyramid_Model.top]. rewrite C. cbn [Z.eqb].
    split; [exact St|]. split; [rewrite E4; exact E3|]. intros ->. discriminate.
  - destruct IH as (G & R & I). rewrite C in I. cbn [Z.eqb] in I. destruct I as (St & Ht & _).
    destruct (approach_ok p (history p) [] seen k n (top p) G St (eq_sym (app_nil_r _)) Ht Hk) as (l' & E2 & E3 & E4). rewrite E2 in E. injection E as <- _.
    split; [exact G|]. split; [exact R|]. cbn [setTop Pyramid_Model.composing Pyramid_Model.history Pyramid_Model.top]. rewrite C. cbn [Z.eqb].
    split; [exact St|]. split; [exact E3|]. intros ->. discriminate.
Qed.

(** the closed part of the history *)
Lemma PInv_closed walk p seen : PInv walk p seen -> exists h more, history p = h ++ more /\ steps h seen /\ length more = (if (composing p =? 0)%Z then 0 else 1)%nat.
Proof.
  intros (_ & _ & I). destruct (composing p =? 0)%Z.
  - destruct I as (St & _). exists (history p), []. rewrite app_nil_r. auto.
  - destruct I as (h & ops & l & Hh & St & _). exists h, [Composite ops]. auto.
Qed.

(** ** Theorems *)
Theorem getLevel_ok walk p seen k l : orderly walk p seen -> nth_error seen k = Some l -> getLevel p k = Some (Done, l).
Proof.
  intros O Hk. pose proof (orderly_PInv _ _ _ O) as I. destruct (PInv_closed _ _ _ I) as (h & more & Hh & St & Hm). destruct I as (G & _ & _).
  assert (Lk : (k < length seen)%nat) by (apply nth_error_Some; congruence). unfold Pyramid_Model.getLevel, levelCount. rewrite Hh, app_length.
  destruct (k <? length h + length more + 1)%nat eqn:E1; [cbn [negb]|apply Nat.ltb_ge in E1; destruct St as (L & _); lia].
  destruct (lastUpTo_some k _ _ G) as [[ck cl] E2]. rewrite E2. destruct (lastUpTo_spec _ _ _ E2) as [Hin _].
  pose proof G as (_ & _ & F). rewrite Forall_forall in F. specialize (F _ Hin). cbn in F.
  assert (Hcl : nth_error seen (index cl) = Some cl) by (rewrite (proj1 (proj2 St) _ _ F); exact F).
  destruct (goto_ok p h more seen k cl G St Hh Hcl Lk) as (l' & E3 & E4 & _). rewrite E3. congruence.
Qed.
Theorem gotoLevel_ok walk p seen l k lk : orderly walk p seen -> In l seen -> nth_error seen k = Some lk -> goto p k l = (Done, lk).
Proof.
  intros O Hl Hk. pose proof (orderly_PInv _ _ _ O) as I. destruct (PInv_closed _ _ _ I) as (h & more & Hh & St & Hm). destruct I as (G & _ & _).
  assert (Lk : (k < length seen)%nat) by (apply nth_error_Some; congruence). apply In_nth_error in Hl as (i & Hi).
  assert (Hcl : nth_error seen (index l) = Some l) by (rewrite (proj1 (proj2 St) _ _ Hi); exact Hi).
  destruct (goto_ok p h more seen k l G St Hh Hcl Lk) as (l' & E3 & E4 & _). rewrite E3. congruence.
Qed.
Theorem approachLevel_ok walk p seen l k n : orderly walk p seen -> In l seen -> (k < length seen)%nat ->
  exists l', approach p k n l = (Done, l', (index l' =? k)%nat) /\ In l' seen /\ (index l' <= k)%nat /\
    (index l <= k -> Nat.min k (index l + n) <= index l')%nat.
Proof.
  intros O Hl Hk. pose proof (orderly_PInv _ _ _ O) as I. destruct (PInv_closed _ _ _ I) as (h & more & Hh & St & Hm). destruct I as (G & _ & _).
  apply In_nth_error in Hl as (i & Hi). assert (Hcl : nth_error seen (index l) = Some l) by (rewrite (proj1 (proj2 St) _ _ Hi); exact Hi).
  destruct (approach_ok p h more seen k n l G St Hh Hcl Hk) as (l' & E & N & Le & B). exists l'. split; [exact E|]. split; [eapply nth_error_In; exact N|].
  split; [exact Le|]. intros Hle. lia.
Qed.
Lemma after_ok hist seen l0 k : steps hist seen -> nth_error seen 0 = Some l0 -> (k <= length hist)%nat ->
  exists l, after S apply sameFaces endNodes degree anchor (firstn k hist) l0 = (Done, l) /\ nth_error seen k = Some l.
Proof.
  intros St H0. destruct St as (HL & HI & HS). induction k as [|k IH]; intros Hk; [exists l0; split; [reflexivity|exact H0]|].
  destruct IH as (l & E1 & E2); [lia|]. destruct (nth_error hist k) as [o|] eqn:Eo; [|apply nth_error_None in Eo; lia].
  destruct (HS _ _ _ Eo E2) as (l' & P & N). exists (bump l'). replace (Datatypes.S k) with (k + 1)%nat by lia. split; [|exact N].
  assert (F : firstn (k + 1) hist = firstn k hist ++ [o]).
  { clear - Eo. revert k Eo. induction hist as [|a h IH]; intros [|k] Eo; try discriminate; cbn in *; [injection Eo as <-; reflexivity|]. f_equal. apply IH, Eo. }
  rewrite F. unfold after in *. rewrite fold_left_app, E1. cbn [fold_left andThen]. rewrite P. reflexivity.
Qed.
Theorem recorded_ok walk p seen k l0 : orderly walk p seen -> nth_error seen 0 = Some l0 -> (k < length seen)%nat ->
  exists l, after S apply sameFaces endNodes degree anchor (firstn k (history p)) l0 = (Done, l) /\ nth_error seen k = Some l.
Proof.
  intros O H0 Hk. pose proof (orderly_PInv _ _ _ O) as I. destruct (PInv_closed _ _ _ I) as (h & more & Hh & St & Hm).
  pose proof (proj1 St) as L. rewrite Hh, firstn_app. replace (k - length h)%nat with 0%nat by lia. cbn [firstn]. rewrite app_nil_r.
  apply after_ok; [exact St|exact H0|lia].
Qed.
Theorem counts_ok walk p seen : orderly walk p seen -> composing p = 0%Z ->
  levelCount S p = length seen /\ In (top p) seen /\ (forall k l, nth_error seen k = Some l -> index l = k) /\ (walk = false -> index (top p) = (levelCount S p - 1)%nat).
Proof.
  intros O C. pose proof (orderly_PInv _ _ _ O) as (_ & _ & I). rewrite C in I. cbn [Z.eqb] in I. destruct I as (St & Ht & W).
  unfold levelCount. pose proof (proj1 St) as L. split; [lia|]. split; [eapply nth_error_In; exact Ht|]. split; [exact (proj1 (proj2 St))|].
  intros Hw. rewrite (W Hw). lia.
Qed.
(** inside of a composite the level count is one ahead of the levels seen, and cuts are rejected *)
Theorem composing_ok walk p seen : orderly walk p seen -> composing p <> 0%Z ->
  levelCount S p = (length seen + 1)%nat /\ (forall k, cut p k = (Thrown, p)) /\ (forall l, cutLevel p l = (Thrown, p)).
Proof.
  intros O C. pose proof (orderly_PInv _ _ _ O) as (_ & _ & I). destruct (composing p =? 0)%Z eqn:C0; [apply Z.eqb_eq in C0; contradiction|].
  destruct I as (h & ops & l0 & Hh & St & Hl & PL). apply performList_index in PL. rewrite (proj1 (proj2 St) _ _ Hl) in PL. destruct St as (L & _).
  assert (N : negb (index (top p) =? levelCount S p - 1)%nat = true).
  { unfold levelCount. rewrite Hh, app_length. cbn. apply negb_true_iff, Nat.eqb_neq. lia. }
  split; [unfold levelCount; rewrite Hh, app_length; cbn; lia|]. split; intros; unfold Pyramid_Model.cutAbove, Pyramid_Model.cutAboveLevel; rewrite N; reflexivity.
Qed.
(** a failing operation inside of a composite is taken back, if it leaves the level alone *)
Theorem fails_inside walk p seen t d p' : orderly walk p seen -> composing p <> 0%Z -> add p t d = (Thrown, p') ->
  history p' = history p /\ checkpoints p' = checkpoints p /\ composing p' = composing p /\ levelCount S p' = levelCount S p.
Proof.
  intros O C E. pose proof (orderly_PInv _ _ _ O) as (_ & _ & I). destruct (composing p =? 0)%Z eqn:C0; [apply Z.eqb_eq in C0; contradiction|].
  destruct I as (h & ops & l0 & Hh & St & Hl & PL). unfold addAndPerform in E. rewrite C0, Hh, back_app in E.
  destruct (perform (Atom t d) (top p)) as [[| |] l]; [discriminate| |discriminate]. injection E as <-. repeat split.
Qed.
(** a failing operation outside keeps the levels so far, but the level count is one too large afterwards *)
Theorem fails_outside walk p seen t d p' : orderly walk p seen -> composing p = 0%Z -> index (top p) = length (history p) ->
  add p t d = (Thrown, p') ->
  levelCount S p' = (levelCount S p + 1)%nat /\ index (top p') = index (top p) /\ (forall k l, nth_error seen k = Some l -> getLevel p' k = Some (Done, l)).
Proof.
  intros O C A E. pose proof (orderly_PInv _ _ _ O) as (G & _ & I). rewrite C in I. cbn [Z.eqb] in I. destruct I as (St & Ht & _).
  unfold addAndPerform in E. rewrite C in E. cbn [Z.eqb] in E. cbn zeta in E. cbn [setHistory Pyramid_Model.top] in E.
  destruct (perform (Atom t d) (top p)) as [[| |] l] eqn:P; [discriminate| |discriminate]. pose proof (perform_Done_index _ _ _ _ P) as IL.
  set (p1 := setTop S (setHistory S p (history p ++ [Atom t d])) l) in *.
  assert (N : negb (index (top p1) =? levelCount S p1 - 1)%nat = true).
  { unfold p1, levelCount. cbn. rewrite app_length. cbn. apply negb_true_iff, Nat.eqb_neq. lia. }
  unfold Pyramid_Model.cutAbove in E. rewrite N in E. injection E as <-.
  split; [unfold p1, levelCount; cbn; rewrite app_length; cbn; lia|]. split; [exact IL|].
  intros k lk Hk. assert (Lk : (k < length seen)%nat) by (apply nth_error_Some; congruence). unfold Pyramid_Model.getLevel.
  destruct (k <? levelCount S p1)%nat eqn:E1; [cbn [negb]|apply Nat.ltb_ge in E1; unfold p1, levelCount in E1; cbn in E1; rewrite app_length in E1; destruct St as (L & _); lia].
  change (checkpoints p1) with (checkpoints p). destruct (lastUpTo_some k _ _ G) as [[ck cl] E2]. rewrite E2. destruct (lastUpTo_spec _ _ _ E2) as [Hin _].
  pose proof G as (_ & _ & F). rewrite Forall_forall in F. specialize (F _ Hin). cbn in F.
  assert (Hcl : nth_error seen (index cl) = Some cl) by (rewrite (proj1 (proj2 St) _ _ F); exact F).
  destruct (goto_ok p1 (history p) [Atom t d] seen k cl G St eq_refl Hcl Lk) as (l' & E3 & E4 & _). rewrite E3. congruence.
Qed.
End Proofs.
