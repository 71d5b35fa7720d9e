(** One cell takes over the pixels of another: the book-keeping stays that of a recount. *)
From Verif Require Import Base CellMap_Model CellMap_Spec CellMap_Scan.
Local Open Scope Z_scope.

(** ** Rectangles and numbers of pixels *)

Lemma exactRect_ext (P Q : Z -> Z -> Prop) r : (forall x y, P x y <-> Q x y) -> exactRect P r -> exactRect Q r.
Proof.
  intros H (A & (b & B) & (c & C) & (d & D) & (e & E)). split; [intros x y K; apply A, H, K|].
  split; [exists b; apply H, B|]. split; [exists c; apply H, C|]. split; [exists d; apply H, D | exists e; apply H, E].
Qed.

Lemma exactRect_nonempty P r : exactRect P r -> rx0 r < rx1 r /\ ry0 r < ry1 r.
Proof. intros (A & (b & B) & _). apply A in B. unfold inRect in B. lia. Qed.

Lemma rectEmpty_false r : rx0 r < rx1 r /\ ry0 r < ry1 r -> rectEmpty r = false.
Proof. intros [H K]. unfold rectEmpty. apply orb_false_iff. rewrite !Z.leb_gt. lia. Qed.

Lemma exactRect_or (P Q : Z -> Z -> Prop) a b : exactRect P a -> exactRect Q b -> exactRect (fun x y => P x y \/ Q x y) (rectOr a b).
Proof.
  intros HP HQ. pose proof (exactRect_nonempty _ _ HP) as NP. pose proof (exactRect_nonempty _ _ HQ) as NQ.
  unfold rectOr. rewrite (rectEmpty_false _ NP), (rectEmpty_false _ NQ).
  destruct HP as (PA & (p1 & P1) & (p2 & P2) & (p3 & P3) & (p4 & P4)). destruct HQ as (QA & (q1 & Q1) & (q2 & Q2) & (q3 & Q3) & (q4 & Q4)).
  split; [|cbn; repeat split].
  - intros x y [H|H]; [apply PA in H | apply QA in H]; unfold inRect in *; cbn; lia.
  - destruct (Z_le_dec (rx0 a) (rx0 b)); [exists p1; left; rewrite Z.min_l by lia; exact P1 | exists q1; right; rewrite Z.min_r by lia; exact Q1].
  - destruct (Z_le_dec (rx1 a) (rx1 b)); [exists q2; right; rewrite Z.max_r by lia; exact Q2 | exists p2; left; rewrite Z.max_l by lia; exact P2].
  - destruct (Z_le_dec (ry0 a) (ry0 b)); [exists p3; left; rewrite Z.min_l by lia; exact P3 | exists q3; right; rewrite Z.min_r by lia; exact Q3].
  - destruct (Z_le_dec (ry1 a) (ry1 b)); [exists q4; right; rewrite Z.max_r by lia; exact Q4 | exists p4; left; rewrite Z.max_l by lia; exact P4].
Qed.

Lemma exactRect_unique P a b : exactRect P a -> exactRect P b -> a = b.
Proof.
  intros (PA & (p1 & P1) & (p2 & P2) & (p3 & P3) & (p4 & P4)) (QA & (q1 & Q1) & (q2 & Q2) & (q3 & Q3) & (q4 & Q4)).
  apply QA in P1, P2, P3, P4. apply PA in Q1, Q2, Q3, Q4. unfold inRect in *. destruct a, b; cbn in *. f_equal; lia.
Qed.

Lemma manyPixels_ext (P Q : Z -> Z -> Prop) n : (forall x y, P x y <-> Q x y) -> manyPixels P n -> manyPixels Q n.
Proof. intros H (ps & A & B & C). exists ps. split; [exact A|]. split; [|exact C]. intros x y. rewrite B. apply H. Qed.

Lemma manyPixels_or (P Q : Z -> Z -> Prop) a b : (forall x y, P x y -> ~ Q x y) -> manyPixels P a -> manyPixels Q b ->
  manyPixels (fun x y => P x y \/ Q x y) (a + b).
Proof.
  intros D (ps & A & B & C) (qs & A' & B' & C'). exists (ps ++ qs). split.
  - apply NoDup_app_intro; auto. intros [x y] H1 H2. apply B in H1. apply B' in H2. exact (D x y H1 H2).
  - split; [intros x y; rewrite in_app_iff, B, B'; reflexivity | rewrite app_length, Nat2Z.inj_add; lia].
Qed.

Lemma manyPixels_unique P a b : manyPixels P a -> manyPixels P b -> a = b.
Proof.
  intros (ps & A & B & C) (qs & A' & B' & C').
  assert (length ps <= length qs)%nat by (apply NoDup_incl_length; [exact A|]; intros [x y]; rewrite B, B'; auto).
  assert (length qs <= length ps)%nat by (apply NoDup_incl_length; [exact A'|]; intros [x y]; rewrite B, B'; auto).
  lia.
Qed.

(** all positions of an image *)
Definition zseq (a n : Z) : list Z := map (fun i => a + Z.of_nat i) (seq 0 (Z.to_nat n)).
Lemma zseq_length a n : length (zseq a n) = Z.to_nat n.
Proof. unfold zseq. rewrite map_length, seq_length. reflexivity. Qed.
Lemma zseq_in a n x : In x (zseq a n) <-> a <= x < a + n.
Proof.
  unfold zseq. rewrite in_map_iff. split.
  - intros (i & <- & H). apply in_seq in H. lia.
  - intros H. exists (Z.to_nat (x - a)). split; [lia|]. apply in_seq. lia.
Qed.

Lemma manyPixels_le (P : Z -> Z -> Prop) w h n : 0 <= w -> 0 <= h -> (forall x y, P x y -> 0 <= x < w /\ 0 <= y < h) -> manyPixels P n -> 0 <= n <= w * h.
Proof.
  intros Hw Hh H (ps & A & B & C). split; [lia|].
  assert (length ps <= length (list_prod (zseq 0 w) (zseq 0 h)))%nat as L.
  { apply NoDup_incl_length; [exact A|]. intros [x y] Hi. apply B, H in Hi. apply in_prod; apply zseq_in; lia. }
  rewrite prod_length, !zseq_length in L. apply inj_le in L. rewrite Nat2Z.inj_mul, !Z2Nat.id in L by lia. lia.
Qed.

(** ** Taking over *)

Definition tEqb := ctypeEqb.
Definition absorbCells (cells : ctype -> list cinfo) (ts : ctype) (s : nat) (cs : cinfo) (tr : ctype) (r : nat) (cr : cinfo) (t : ctype) : list cinfo :=
  let base := if ctypeEqb t tr then list_upd (cells t) r (uninitialize cr) else cells t in
  if ctypeEqb t ts then list_upd base s (absorb cs cr) else base.

(** the pixels of (tr, r) become pixels of (ts, s) *)
Definition repainted (im im' : img) (ts : ctype) (s : Z) (tr : ctype) (r : Z) : Prop :=
  iw im' = iw im /\ ih im' = ih im /\ forall x y, 0 <= x < iw im -> 0 <= y < ih im ->
    (ipix im x y = Pix tr r -> ipix im' x y = Pix ts s) /\ (ipix im x y <> Pix tr r -> ipix im' x y = ipix im x y).

Lemma ctype_dec (a b : ctype) : {a = b} + {a <> b}. Proof. decide equality. Qed.
Lemma pix_dec (a b : pix) : {a = b} + {a <> b}. Proof. decide equality; [apply Z.eq_dec | apply ctype_dec]. Qed.
Lemma ctypeEqb_refl t : ctypeEqb t t = true. Proof. destruct t; reflexivity. Qed.
Lemma ctypeEqb_spec a b : reflect (a = b) (ctypeEqb a b).
Proof. destruct (ctypeEqb a b) eqn:E; constructor; [apply ctypeEqb_eq; exact E | intros ->; rewrite ctypeEqb_refl in E; discriminate]. Qed.

Lemma repainted_owns im im' ts s tr r : repainted im im' ts s tr r -> (ts, s) <> (tr, r) -> forall t l x y,
  owns im' t l x y <-> (owns im t l x y /\ (t, l) <> (tr, r)) \/ ((t, l) = (ts, s) /\ owns im tr r x y).
Proof.
  intros (Ew & Eh & H) N t l x y. unfold owns. rewrite Ew, Eh. split.
  - intros (A & B & C). destruct (H x y A B) as [H1 H2]. destruct (pix_dec (ipix im x y) (Pix tr r)) as [E|E].
    + rewrite (H1 E) in C. right. injection C as <- <-. auto.
    + rewrite (H2 E) in C. left. split; [auto|]. intros [= -> ->]. congruence.
  - intros [[(A & B & C) K]|(K & A & B & C)]; destruct (H x y A B) as [H1 H2].
    + split; [exact A|]. split; [exact B|]. rewrite H2; [exact C|]. intros E. rewrite C in E. apply K. congruence.
    + split; [exact A|]. split; [exact B|]. rewrite (H1 C). injection K as -> ->. reflexivity.
Qed.

Lemma filter_upd_length (v : list cinfo) i c c' : nth_error v i = Some c ->
  Z.of_nat (length (filter initialized (list_upd v i c'))) =
  Z.of_nat (length (filter initialized v)) - (if initialized c then 1 else 0) + (if initialized c' then 1 else 0).
Proof.
  revert i. induction v as [|h t IH]; intros [|i] H; cbn in H; try discriminate.
  - injection H as ->. cbn [list_upd filter]. destruct (initialized c), (initialized c'); cbn [length]; lia.
  - cbn [list_upd filter]. specialize (IH i H). destruct (initialized h); cbn [length]; lia.
Qed.

Lemma uninitialize_off c : initialized (uninitialize c) = false.
Proof. unfold initialized, uninitialize. cbn. reflexivity. Qed.
Lemma absorb_on c d : initialized (absorb c d) = initialized c.
Proof. reflexivity. Qed.

Lemma absorb_nth cells ts s cs tr r cr : nth_error (cells ts) s = Some cs -> nth_error (cells tr) r = Some cr -> (ts, s) <> (tr, r) -> forall t l,
  nth_error (absorbCells cells ts s cs tr r cr t) l =
  if ctypeEqb t ts && Nat.eqb l s then Some (absorb cs cr)
  else if ctypeEqb t tr && Nat.eqb l r then Some (uninitialize cr) else nth_error (cells t) l.
Proof.
  intros Hs Hr N t l. unfold absorbCells. pose proof (nth_error_lt _ _ _ Hs) as Ls. pose proof (nth_error_lt _ _ _ Hr) as Lr.
  destruct (ctypeEqb_spec t ts) as [->|Nt]; destruct (ctypeEqb_spec t tr) as [->|Nt'] || destruct (ctypeEqb_spec ts tr) as [->|Nt']; cbn [andb].
  all: rewrite ?nth_error_upd, ?list_upd_length.
  all: repeat match goal with |- context [Nat.eqb ?a ?b] => destruct (Nat.eqb_spec a b); subst end; try congruence; try lia.
  all: repeat match goal with |- context [Nat.ltb ?a ?b] => destruct (Nat.ltb_spec a b) end; try congruence; try lia.
Qed.

Lemma absorb_recount im im' cells counts counts' ts s cs tr r cr :
  wfImg im ->
  recountOf im cells counts -> (forall t, Z.of_nat (length (cells t)) <= 2 ^ 30) ->
  nth_error (cells ts) s = Some cs -> initialized cs = true -> ts <> ErrorType ->
  nth_error (cells tr) r = Some cr -> initialized cr = true -> tr <> ErrorType ->
  (ts, s) <> (tr, r) -> ~ (tr = Region /\ r = 0%nat) ->
  repainted im im' ts (Z.of_nat s) tr (Z.of_nat r) ->
  (forall t, counts' t = if ctypeEqb t tr then (counts t - 1) mod 2 ^ 32 else counts t) ->
  recountOf im' (absorbCells cells ts s cs tr r cr) counts'.
Proof.
  intros (W1 & W2 & W3 & W4) (HC & HP & HN) HL Hs Is Ts Hr Ir Tr N N0 Hpaint Hc'.
  assert ((ts, Z.of_nat s) <> (tr, Z.of_nat r)) as NZ by (intros [= -> K]; apply N; f_equal; lia).
  pose proof (repainted_owns _ _ _ _ _ _ Hpaint NZ) as Ho.
  destruct (HC ts s cs Hs Is) as (Ls & Bs & Ss). destruct (HC tr r cr Hr Ir) as (Lr & Br & Sr).
  split; [|split].
  - intros t l c Hn Hi. rewrite (absorb_nth cells ts s cs tr r cr Hs Hr N) in Hn.
    destruct (ctypeEqb t ts && Nat.eqb l s) eqn:E1.
    + apply andb_true_iff in E1. rewrite ctypeEqb_eq, Nat.eqb_eq in E1. destruct E1 as [-> ->]. injection Hn as <-.
      assert (forall x y, owns im' ts (Z.of_nat s) x y <-> owns im ts (Z.of_nat s) x y \/ owns im tr (Z.of_nat r) x y) as Ho'.
      { intros x y. rewrite Ho. split; [intros [[A _]|[_ A]]; auto | intros [A|A]; [left; auto | right; auto]]. }
      split; [exact Ls|]. split.
      * apply (exactRect_ext (fun x y => owns im ts (Z.of_nat s) x y \/ owns im tr (Z.of_nat r) x y)); [intros x y; symmetry; apply Ho'|].
        apply exactRect_or; auto.
      * intros K. specialize (Ss K). specialize (Sr N0).
        assert (manyPixels (fun x y => owns im ts (Z.of_nat s) x y \/ owns im tr (Z.of_nat r) x y) (csize cs + csize cr)) as M.
        { apply manyPixels_or; auto. intros x y (_ & _ & A) (_ & _ & B). rewrite A in B. apply NZ. congruence. }
        cbn [csize absorb]. rewrite Z.mod_small.
        -- apply (manyPixels_ext (fun x y => owns im ts (Z.of_nat s) x y \/ owns im tr (Z.of_nat r) x y)); [intros x y; symmetry; apply Ho' | exact M].
        -- assert (0 <= csize cs + csize cr <= iw im * ih im) by (eapply manyPixels_le; [lia | lia | | exact M]; intros x y [(A & B & _)|(A & B & _)]; auto). lia.
    + destruct (ctypeEqb t tr && Nat.eqb l r) eqn:E2.
      * injection Hn as <-. discriminate Hi.
      * destruct (HC t l c Hn Hi) as (A & B & C).
        assert ((t, l) <> (ts, s)) as N1 by (intros [= -> ->]; rewrite ctypeEqb_refl, Nat.eqb_refl in E1; discriminate E1).
        assert ((t, l) <> (tr, r)) as N2 by (intros [= -> ->]; rewrite ctypeEqb_refl, Nat.eqb_refl in E2; discriminate E2).
        assert (forall x y, owns im' t (Z.of_nat l) x y <-> owns im t (Z.of_nat l) x y) as Ho'.
        { intros x y. rewrite Ho. split; [intros [[K _]|[[= -> K] _]]; [exact K | exfalso; apply N1; f_equal; lia] |].
          intros K. left. split; [exact K|]. intros [= -> K']. apply N2. f_equal; lia. }
        split; [exact A|]. split; [apply (exactRect_ext (owns im t (Z.of_nat l))); [intros; symmetry; apply Ho' | exact B]|].
        intros K. apply (manyPixels_ext (owns im t (Z.of_nat l))); [intros; symmetry; apply Ho' | exact (C K)].
  - intros t l x y H Ht. rewrite (absorb_nth cells ts s cs tr r cr Hs Hr N).
    apply Ho in H. destruct H as [[H K]|[[= -> ->] H]].
    + destruct (HP t l x y H Ht) as (c & Hc & Hi).
      destruct (ctypeEqb t ts && Nat.eqb (Z.to_nat l) s) eqn:E1; [eexists; split; [reflexivity | exact Is]|].
      destruct (ctypeEqb t tr && Nat.eqb (Z.to_nat l) r) eqn:E2; [|exists c; auto].
      apply andb_true_iff in E2. rewrite ctypeEqb_eq, Nat.eqb_eq in E2. destruct E2 as [-> <-]. exfalso.
      apply K. destruct H as (A & B & C). specialize (W4 x y A B). rewrite C in W4. cbn in W4. f_equal. lia.
    + rewrite Nat2Z.id, ctypeEqb_refl, Nat.eqb_refl. cbn. eexists; split; [reflexivity | exact Is].
  - intros t Ht. rewrite Hc'. unfold absorbCells.
    assert (1 <= Z.of_nat (length (filter initialized (cells tr))) <= 2 ^ 30) as Bnd.
    { split.
      - assert (In cr (filter initialized (cells tr))) as Hin by (apply filter_In; split; [apply nth_error_In with (1 := Hr) | exact Ir]).
        destruct (filter initialized (cells tr)); [destruct Hin | cbn [length]; lia].
      - specialize (HL tr). assert (length (filter initialized (cells tr)) <= length (cells tr))%nat; [|lia].
        clear. induction (cells tr) as [|h v IH]; cbn; [lia|]. destruct (initialized h); cbn; lia. }
    destruct (ctypeEqb_spec t tr) as [->|Nt].
    + rewrite HN by exact Tr. rewrite Z.mod_small by lia. destruct (ctypeEqb_spec tr ts) as [<-|Nt'].
      * assert (nth_error (list_upd (cells tr) r (uninitialize cr)) s = Some cs) as Hs'.
        { rewrite nth_error_upd_neq; [exact Hs | intros ->; apply N; reflexivity]. }
        rewrite (filter_upd_length _ _ _ _ Hs'), (filter_upd_length _ _ _ _ Hr), uninitialize_off, absorb_on, Is, Ir. lia.
      * rewrite (filter_upd_length _ _ _ _ Hr), uninitialize_off, Ir. lia.
    + destruct (ctypeEqb_spec t ts) as [->|Nt'].
      * rewrite (filter_upd_length _ _ _ _ Hs), absorb_on, Is, HN by exact Ht. lia.
      * apply HN; exact Ht.
Qed.
