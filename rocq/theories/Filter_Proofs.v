From Verif Require Import Base Filter_Model Filter_Spec.
Local Open Scope Z_scope.

(** ** cell iterators *)
Section C.
Context {A : Type}.
Implicit Types (v : list (option A)) (it : fiter).

Lemma vget_nth {B} (l : list B) i a : nth_error l i = Some a -> vget l i = Ok a.
Proof. apply vget_Ok. Qed.

(** the result of check: the first live position at or after the current one, or the end *)
Lemma check_spec n v e : length v = e -> forall p, (p <= e)%nat -> (e - p <= n)%nat ->
  exists q, checkPredicate notNull n v (mkFiter p e) = Ok (mkFiter q e) /\ (p <= q <= e)%nat /\
    (forall i, (p <= i < q)%nat -> nth_error v i = Some None) /\ (q <> e -> exists a, nth_error v q = Some (Some a)).
Proof.
  intros He. induction n as [|n IH]; intros p Hp Hn; cbn [checkPredicate fi_pos fi_end]; destruct (Nat.eqb_spec p e) as [->|Hne].
  - exists e. repeat split; try lia.
  - lia.
  - exists e. repeat split; try lia.
  - destruct (nth_error_ex v p) as [o Ho]; [lia|]. rewrite (vget_nth v p o Ho). cbn [bind]. destruct o as [a|]; cbn [notNull].
    + exists p. split; [reflexivity|]. split; [lia|]. split; [intros i; lia|]. intros _. exists a. exact Ho.
    + destruct (IH (S p)) as (q & E & Hq & Hs & Hl); [lia|lia|]. exists q. split; [exact E|]. split; [lia|]. split; [|exact Hl].
      intros i Hi. destruct (Nat.eq_dec i p) as [->|]; [exact Ho | apply Hs; lia].
Qed.

Lemma check_live v e p a : length v = e -> nth_error v p = Some (Some a) -> check notNull v (mkFiter p e) = Ok (mkFiter p e).
Proof.
  intros He Hp. pose proof (nth_error_lt _ _ _ Hp). unfold check. cbn [fi_pos fi_end].
  destruct (e - p)%nat as [|k] eqn:Ek; [lia|]. cbn [checkPredicate fi_pos fi_end]. destruct (Nat.eqb_spec p e); [lia|].
  rewrite (vget_nth _ _ _ Hp). reflexivity.
Qed.

Lemma check_idem v e q : length v = e -> (q = e \/ exists a, nth_error v q = Some (Some a)) -> check notNull v (mkFiter q e) = Ok (mkFiter q e).
Proof.
  intros He [->|[a Ha]]; [|apply (check_live v e q a He Ha)]. unfold check. cbn [fi_pos fi_end]. rewrite Nat.sub_diag. cbn [checkPredicate fi_pos fi_end]. rewrite Nat.eqb_refl. reflexivity.
Qed.

(** bodies that only remove cells *)
Definition removing (body : list (nat * A) -> list (option A) -> list (option A)) : Prop := forall seen v, onlyRemoves v (body seen v).

Lemma onlyRemoves_refl v : onlyRemoves v v.
Proof. split; [reflexivity|]. auto. Qed.
Lemma onlyRemoves_trans v1 v2 v3 : onlyRemoves v1 v2 -> onlyRemoves v2 v3 -> onlyRemoves v1 v3.
Proof.
  intros [L1 H1] [L2 H2]. split; [congruence|]. intros i. destruct (H2 i) as [E|E]; [rewrite E; apply H1 | right; exact E].
Qed.
Lemma onlyRemoves_live v v' i a : onlyRemoves v v' -> nth_error v' i = Some (Some a) -> nth_error v i = Some (Some a).
Proof. intros [_ H] E. destruct (H i) as [K|K]; congruence. Qed.

(** positions ascend *)
Inductive ascending : list nat -> Prop :=
| as_nil : ascending []
| as_cons a l : (forall b, In b l -> (a < b)%nat) -> ascending l -> ascending (a :: l).

Lemma ascending_snoc l a : ascending l -> (forall b, In b l -> (b < a)%nat) -> ascending (l ++ [a]).
Proof.
  induction 1 as [|x l Hx Hl IH]; simpl; intros H.
  - constructor; [intros b []|constructor].
  - constructor; [|apply IH; intros b Hb; apply H; auto]. intros b Hb. apply in_app_iff in Hb. destruct Hb as [Hb|[<-|[]]]; [apply Hx, Hb | apply H; auto].
Qed.

Lemma forCells_spec body v0 : removing body -> forall n v p seen,
  onlyRemoves v0 v -> (p <= length v0)%nat -> (length v0 - p < n)%nat ->
  ascending (map fst seen) -> (forall i a, In (i, a) seen -> (i < p)%nat /\ nth_error v0 i = Some (Some a)) ->
  (forall i a, (i < p)%nat -> nth_error v i = Some (Some a) -> In (i, a) seen) ->
  exists seen' v', forCells n body v (mkFiter p (length v0)) seen = Ok (seen', v') /\ onlyRemoves v0 v' /\
    ascending (map fst seen') /\ (forall i a, In (i, a) seen' -> nth_error v0 i = Some (Some a)) /\
    (forall i a, nth_error v' i = Some (Some a) -> In (i, a) seen').
Proof.
  intros Hb. induction n as [|n IH]; intros v p seen Hr Hp Hn Has Hin Hall; [lia|].
  cbn [forCells]. unfold sInRange, check at 1. cbn [fi_pos fi_end].
  assert (Lv : length v = length v0) by apply Hr.
  destruct (check_spec (length v0 - p) v (length v0) Lv p Hp (Nat.le_refl _)) as (q & Eq & Hq & Hskip & Hlive).
  rewrite Eq. cbn [bind fst snd]. unfold fInRange. cbn [fi_pos fi_end]. destruct (Nat.eqb_spec q (length v0)) as [Hqe|Hne]; cbn [negb].
  - exists seen, v. split; [reflexivity|]. split; [exact Hr|]. split; [exact Has|]. split; [intros i a Hi; apply (Hin i a Hi)|].
    intros i a Hi. destruct (Nat.lt_ge_cases i p) as [L|L]; [apply Hall; assumption|].
    pose proof (nth_error_lt _ _ _ Hi) as Hl. rewrite (Hskip i ltac:(lia)) in Hi. discriminate.
  - destruct (Hlive Hne) as [a Ha]. unfold sDeref. rewrite (check_live v (length v0) q a Lv Ha). cbn [bind]. unfold fDeref. cbn [fi_pos]. rewrite (vget_nth _ _ _ Ha). cbn [bind fst snd fi_pos].
    set (seen1 := seen ++ [(q, a)]). set (v1 := body seen1 v).
    assert (Hr1 : onlyRemoves v v1) by apply Hb. assert (Hr01 : onlyRemoves v0 v1) by (apply (onlyRemoves_trans v0 v v1 Hr Hr1)).
    unfold fNext. cbn [fi_pos fi_end]. destruct (Nat.ltb_spec q (length v0)); [|lia]. unfold check at 1. cbn [fi_pos fi_end].
    assert (Lv1 : length v1 = length v0) by apply Hr01.
    destruct (check_spec (length v0 - S q) v1 (length v0) Lv1 (S q) ltac:(lia) (Nat.le_refl _)) as (q' & Eq' & Hq' & Hskip' & Hlive').
    rewrite Eq'. cbn [bind]. apply IH; [exact Hr01 | lia | lia | | | ].
    + unfold seen1. rewrite map_app. cbn [map fst]. apply ascending_snoc; [exact Has|]. intros b Hbn. apply in_map_iff in Hbn. destruct Hbn as ([i x] & <- & Hi). destruct (Hin i x Hi). cbn [fst]. lia.
    + intros i x Hi. unfold seen1 in Hi. apply in_app_iff in Hi. destruct Hi as [Hi|[Hi|[]]].
      * destruct (Hin i x Hi). split; [lia | assumption].
      * injection Hi as <- <-. split; [lia|]. apply (onlyRemoves_live v0 v q a Hr Ha).
    + intros i x Hi Hx. unfold seen1. apply in_app_iff.
      destruct (Nat.lt_ge_cases i p) as [L|L]; [left; apply Hall; [exact L | apply (onlyRemoves_live v v1 i x Hr1 Hx)]|].
      destruct (Nat.lt_ge_cases i q) as [L2|L2]; [pose proof (onlyRemoves_live v v1 i x Hr1 Hx) as K; rewrite (Hskip i ltac:(lia)) in K; discriminate|].
      destruct (Nat.eq_dec i q) as [->|Hiq]; [pose proof (onlyRemoves_live v v1 q x Hr1 Hx) as K; right; left; congruence|].
      rewrite (Hskip' i ltac:(lia)) in Hx. discriminate.
Qed.

Lemma nth_error_skipn' {B} (w : list B) p i : nth_error (skipn p w) i = nth_error w (p + i).
Proof. revert w. induction p as [|p IH]; intros w; [reflexivity|]. destruct w as [|b w]; [destruct i; reflexivity | apply IH]. Qed.

Lemma liveFrom_In k v i a : In (i, a) (liveFrom k v) <-> (k <= i)%nat /\ nth_error v (i - k) = Some (Some a).
Proof.
  revert k. induction v as [|o t IH]; intros k; cbn [liveFrom].
  - split; [intros []|]. intros [_ K]. destruct (i - k)%nat; discriminate.
  - assert (Hs : In (i, a) (liveFrom (S k) t) <-> (k <= i)%nat /\ i <> k /\ nth_error (o :: t) (i - k) = Some (Some a)).
    { rewrite IH. split; intros H.
      - destruct H as [H1 H2]. split; [lia|]. split; [lia|]. replace (i - k)%nat with (S (i - S k)) by lia. exact H2.
      - destruct H as (H1 & H2 & H3). split; [lia|]. replace (i - k)%nat with (S (i - S k)) in H3 by lia. exact H3. }
    destruct o as [x|].
    + cbn [In]. rewrite Hs. split.
      * intros [K|(K1 & K2 & K3)]; [injection K as -> ->; rewrite Nat.sub_diag; auto | auto].
      * intros [K1 K2]. destruct (Nat.eq_dec i k) as [->|Hn]; [left; rewrite Nat.sub_diag in K2; cbn in K2; congruence | right; auto].
    + rewrite Hs. split; [intros (K1 & K2 & K3); auto|]. intros [K1 K2]. repeat split; auto. intros ->. rewrite Nat.sub_diag in K2. discriminate.
Qed.

Lemma liveFrom_asc k v : ascending (map fst (liveFrom k v)).
Proof.
  revert k. induction v as [|o t IH]; intros k; cbn [liveFrom map]; [constructor|].
  destruct o as [x|]; [|apply IH]. cbn [map fst]. constructor; [|apply IH].
  intros b Hb. apply in_map_iff in Hb. destruct Hb as ([i y] & <- & Hi). apply liveFrom_In in Hi. cbn [fst]. lia.
Qed.

Lemma ascending_ext (l1 l2 : list (nat * A)) : ascending (map fst l1) -> ascending (map fst l2) -> (forall x, In x l1 <-> In x l2) -> l1 = l2.
Proof.
  revert l2. induction l1 as [|[i a] t IH]; intros l2 H1 H2 Hx.
  - destruct l2 as [|y t2]; [reflexivity|]. exfalso. apply (Hx y). left. reflexivity.
  - destruct l2 as [|[j b] t2]; [exfalso; apply (proj1 (Hx (i, a))); left; reflexivity|].
    cbn [map fst] in H1, H2. inversion H1 as [|? ? Hl1 Ha1]; subst. inversion H2 as [|? ? Hl2 Ha2]; subst.
    assert (E : (i, a) = (j, b)).
    { pose proof (proj1 (Hx (i, a)) (or_introl eq_refl)) as [K|K]; [congruence|].
      pose proof (proj2 (Hx (j, b)) (or_introl eq_refl)) as [K'|K']; [congruence|].
      assert (L1 : (j < i)%nat) by (apply Hl2; apply in_map_iff; exists (i, a); auto).
      assert (L2 : (i < j)%nat) by (apply Hl1; apply in_map_iff; exists (j, b); auto). lia. }
    injection E as <- <-. f_equal. apply IH; [exact Ha1 | exact Ha2|]. intros [k c]. split; intros K.
    + assert (K' : In (k, c) ((i, a) :: t2)) by (apply Hx; right; exact K). destruct K' as [K'|K']; [|exact K'].
      injection K' as <- <-. exfalso. apply (Nat.lt_irrefl i). apply Hl1. apply in_map_iff. exists (i, a). auto.
    + assert (K' : In (k, c) ((i, a) :: t)) by (apply Hx; right; exact K). destruct K' as [K'|K']; [|exact K'].
      injection K' as <- <-. exfalso. apply (Nat.lt_irrefl i). apply Hl2. apply in_map_iff. exists (i, a). auto.
Qed.

(** C16: an iterator that stands anywhere in the table reads the first cell still alive *)
Theorem deref_live (v : list (option A)) p : (p <= length v)%nat ->
  match liveFrom p (skipn p v) with
  | (i, a) :: _ => sDeref notNull v (mkFiter p (length v)) = Ok (mkFiter i (length v), Some a) /\
                   sInRange notNull v (mkFiter p (length v)) = Ok (mkFiter i (length v), true)
  | [] => exists q, sInRange notNull v (mkFiter p (length v)) = Ok (mkFiter q (length v), false)
  end.
Proof.
  intros Hp. unfold sDeref, sInRange, check. cbn [fi_pos fi_end].
  destruct (check_spec (length v - p) v (length v) eq_refl p Hp (Nat.le_refl _)) as (q & Eq & Hq & Hskip & Hlive). rewrite Eq. cbn [bind].
  assert (Hat : forall i, (p <= i)%nat -> nth_error (skipn p v) (i - p) = nth_error v i).
  { intros i Hi. rewrite nth_error_skipn'. f_equal. lia. }
  pose proof (liveFrom_asc p (skipn p v)) as Hasc. pose proof (liveFrom_In p (skipn p v)) as Hin.
  destruct (liveFrom p (skipn p v)) as [|[i a] t].
  - exists q. unfold fInRange. cbn [fi_pos fi_end]. destruct (Nat.eqb_spec q (length v)) as [->|Hne]; [reflexivity|].
    destruct (Hlive Hne) as [a Ha]. exfalso. apply (proj2 (Hin q a)). split; [lia|]. rewrite Hat by lia. exact Ha.
  - destruct (proj1 (Hin i a) (or_introl eq_refl)) as [Hi Hi2]. rewrite Hat in Hi2 by lia.
    pose proof (nth_error_lt _ _ _ Hi2) as Hl.
    assert (q = i) as ->.
    { destruct (Nat.lt_trichotomy q i) as [L|[L|L]]; [|exact L|].
      - destruct (Hlive ltac:(lia)) as [b Hb]. assert (K : In (q, b) ((i, a) :: t)) by (apply Hin; split; [lia|]; rewrite Hat by lia; exact Hb).
        destruct K as [K|K]; [congruence|]. cbn [map fst] in Hasc. inversion Hasc as [|? ? Hlt _]; subst.
        assert (i < q)%nat by (apply Hlt; apply in_map_iff; exists (q, b); auto). lia.
      - rewrite (Hskip i ltac:(lia)) in Hi2. discriminate. }
    unfold fDeref, fInRange. cbn [fi_pos fi_end]. rewrite (vget_nth v i _ Hi2). cbn [bind].
    destruct (Nat.eqb_spec i (length v)); [lia|]. auto.
Qed.

(** C16: iterating over all cells while cells are removed *)
Theorem iterate_removing body v : removing body -> exists it, cellsBegin v = Ok it /\
  exists seen v', forCells (S (length v)) body v it [] = Ok (seen, v') /\ onlyRemoves v v' /\
    ascending (map fst seen) /\ (forall i a, In (i, a) seen -> In (i, a) (liveCells v)) /\
    (forall i a, In (i, a) (liveCells v') -> In (i, a) seen).
Proof.
  intros Hb. unfold cellsBegin, fBegin, check. cbn [fi_pos fi_end].
  destruct (check_spec (length v - 0) v (length v) eq_refl 0 ltac:(lia) ltac:(lia)) as (q & Eq & Hq & Hs & Hl). rewrite Eq.
  exists (mkFiter q (length v)). split; [reflexivity|].
  destruct (forCells_spec body v Hb (S (length v)) v q [] (onlyRemoves_refl v)) as (seen & v' & E & H1 & H2 & H3 & H4).
  - lia. - lia. - constructor. - intros i a []. - intros i a Hi K. rewrite (Hs i ltac:(lia)) in K. discriminate.
  - exists seen, v'. split; [exact E|]. split; [exact H1|]. split; [exact H2|]. unfold liveCells. split; intros i a Hi.
    + apply liveFrom_In. rewrite Nat.sub_0_r. split; [lia | apply H3, Hi].
    + apply H4. apply liveFrom_In in Hi. rewrite Nat.sub_0_r in Hi. apply Hi.
Qed.

(** C16: iterating without removals gives the live cells in label order *)
Theorem iterate_all v : exists it, cellsBegin v = Ok it /\ forCells (S (length v)) (fun _ w => w) v it [] = Ok (liveCells v, v).
Proof.
  set (body := fun (_ : list (nat * A)) w => w : list (option A)).
  destruct (iterate_removing body v) as (it & Eb & seen & v' & E & Hr & Has & Hin & Hall); [intros s w; apply onlyRemoves_refl|].
  exists it. split; [exact Eb|]. fold body.
  assert (Hid : forall n w i s s' w', forCells n body w i s = Ok (s', w') -> w' = w).
  { induction n as [|n IH]; intros w i s s' w'; cbn [forCells]; [discriminate|]. destruct (sInRange notNull w i) as [[i1 b1]| | |]; try discriminate. cbn [bind fst snd].
    destruct b1; [|intros K; congruence]. destruct (sDeref notNull w i1) as [[i2 o2]| | |]; try discriminate. cbn [bind fst snd]. destruct o2 as [a|]; [|discriminate].
    unfold body at 1. destruct (fNext notNull w i2) as [i3| | |]; try discriminate. cbn [bind]. apply IH. }
  assert (v' = v) by (apply (Hid _ _ _ _ _ _ E)). subst v'. rewrite E. f_equal. f_equal.
  apply ascending_ext; [exact Has | apply liveFrom_asc|]. intros [i a]. split; [apply Hin | apply Hall].
Qed.

(** C16: finiteFacesBegin skips the first live face *)
Theorem iterate_finite f0 v : exists it, finiteFacesBegin (Some f0 :: v) = Ok it /\
  forCells (S (length (Some f0 :: v))) (fun _ w => w) (Some f0 :: v) it [] = Ok (liveFrom 1 v, Some f0 :: v).
Proof.
  set (w0 := Some f0 :: v).
  assert (H0 : cellsBegin w0 = Ok (mkFiter 0 (length w0))) by reflexivity.
  unfold finiteFacesBegin. rewrite H0. cbn [bind]. unfold fNext. cbn [fi_pos fi_end]. change (0 <? length w0)%nat with true. cbn iota. unfold check. cbn [fi_pos fi_end].
  destruct (check_spec (length w0 - 1) w0 (length w0) eq_refl 1 ltac:(simpl; lia) ltac:(lia)) as (q & Eq & Hq & Hs & Hl). rewrite Eq.
  exists (mkFiter q (length w0)). split; [reflexivity|].
  destruct (iterate_all w0) as (it & Eb & E). rewrite H0 in Eb. injection Eb as <-.
  set (body := fun (_ : list (nat * A)) w => w : list (option A)) in *.
  (* the first round of the full iteration leads to the same iterator *)
  cbn [length] in E |- *. set (n := length v) in *.
  assert (E1 : forCells (S (S n)) body w0 (mkFiter 0 (length w0)) [] = forCells (S n) body w0 (mkFiter q (length w0)) [(0%nat, f0)]).
  { remember (S n) as k. cbn [forCells]. unfold sInRange. rewrite (check_live w0 (length w0) 0 f0 eq_refl eq_refl). cbn [bind fst snd fInRange fi_pos fi_end]. change (negb (0 =? length w0)%nat) with true. cbn iota.
    unfold sDeref. rewrite (check_live w0 (length w0) 0 f0 eq_refl eq_refl). cbn [bind fst snd]. unfold fDeref. cbn [fi_pos]. cbn [vget nth_error bind snd]. unfold vget. cbn [nth_error w0 bind snd fst fi_pos app].
    unfold body at 1. unfold fNext. cbn [fi_pos fi_end]. change (0 <? length w0)%nat with true. cbn iota. unfold check. cbn [fi_pos fi_end]. rewrite Eq. reflexivity. }
  (* the list collected so far is a prefix of the result *)
  assert (Hpre : forall m w i s, forCells m body w i s = match forCells m body w i [] with Ok (s', w') => Ok (s ++ s', w') | Exn => Exn | UB => UB | NoFuel => NoFuel end).
  { assert (Hg : forall m w i s1 s2, forCells m body w i (s1 ++ s2) = match forCells m body w i s2 with Ok (s', w') => Ok (s1 ++ s', w') | Exn => Exn | UB => UB | NoFuel => NoFuel end).
    { induction m as [|m IH]; intros w i s1 s2; [reflexivity|]. cbn [forCells]. destruct (sInRange notNull w i) as [[i1 b1]| | |]; try reflexivity. cbn [bind fst snd].
      destruct b1; [|reflexivity]. destruct (sDeref notNull w i1) as [[i2 o2]| | |]; try reflexivity. cbn [bind fst snd]. destruct o2 as [a|]; [|reflexivity].
      cbv zeta. change (body ((s1 ++ s2) ++ [(fi_pos i2, a)]) w) with w. change (body (s2 ++ [(fi_pos i2, a)]) w) with w. destruct (fNext notNull w i2) as [i3| | |]; try reflexivity. cbn [bind]. rewrite <- app_assoc. apply IH. }
    intros m w i s. rewrite <- (app_nil_r s) at 1. apply Hg. }
  assert (E' : forCells (S (S n)) body w0 (mkFiter 0 (length w0)) [] = Ok (liveCells w0, w0)) by exact E. clear E. rename E' into E. rewrite E1, Hpre in E. fold body.
  assert (Hmono : forall m w i s r, forCells m body w i s = Ok r -> forCells (S m) body w i s = Ok r).
  { induction m as [|m IH]; intros w i s r; [discriminate|]. intros K. change (forCells (S (S m)) body w i s) with
      (r <- sInRange notNull w i ;; if snd r then d <- sDeref notNull w (fst r) ;; match snd d with None => UB | Some a => let seen' := s ++ [(fi_pos (fst d), a)] in let v' := body seen' w in it' <- fNext notNull v' (fst d) ;; forCells (S m) body v' it' seen' end else Ok (s, w)).
    cbn [forCells] in K. destruct (sInRange notNull w i) as [[i1 b1]| | |]; try discriminate. cbn [bind fst snd] in K |- *.
    destruct b1; [|exact K]. destruct (sDeref notNull w i1) as [[i2 o2]| | |]; try discriminate. cbn [bind fst snd] in K |- *. destruct o2 as [a|]; [|discriminate]. cbv zeta in K |- *.
    destruct (fNext notNull (body (s ++ [(fi_pos i2, a)]) w) i2) as [i3| | |]; try discriminate. cbn [bind] in K |- *. apply IH, K. }
  destruct (forCells (S n) body w0 (mkFiter q (length w0)) []) as [[s' w']| | |] eqn:Ef; try discriminate.
  refine (Hmono (S n) w0 (mkFiter q (length w0)) [] _ _). rewrite Ef. unfold w0 at 1 in E. unfold liveCells in E. cbn [liveFrom app] in E. congruence.
Qed.

Theorem finiteFaces_empty_refuted : finiteFacesBegin (A := A) [] = UB.
Proof. reflexivity. Qed.
End C.

(** ** images *)
Lemma upTo_nil a b : b <= a -> upTo a b = [].
Proof. intros H. unfold upTo. replace (Z.to_nat (b - a)) with 0%nat by lia. reflexivity. Qed.

Lemma upTo_cons a b : a < b -> upTo a b = a :: upTo (a + 1) b.
Proof.
  intros H. unfold upTo. replace (Z.to_nat (b - a)) with (S (Z.to_nat (b - (a + 1)))) by lia. cbn [seq map]. f_equal; [lia|].
  rewrite <- seq_shift, map_map. apply map_ext. intros i. lia.
Qed.

Lemma upTo_In a b x : In x (upTo a b) <-> a <= x < b.
Proof.
  unfold upTo. rewrite in_map_iff. split.
  - intros (i & <- & Hi). apply in_seq in Hi. lia.
  - intros H. exists (Z.to_nat (x - a)). split; [lia|]. apply in_seq. lia.
Qed.

Section I.
Context {V : Type} (rd : Z -> Z -> res V) (img : Z -> Z -> V) (ok : V -> bool) (r : rect).
Hypothesis Hrd : forall x y, r_ulx r <= x < r_lrx r -> r_uly r <= y < r_lry r -> rd x y = Ok (img x y).

Definition okAt (p : Z * Z) : bool := ok (img (fst p) (snd p)).
Definition rowFrom x y : list (Z * Z) := filter okAt (map (fun x => (x, y)) (upTo x (r_lrx r))).
Definition rowsFrom y : list (Z * Z) := filter okAt (rowMajor (r_ulx r) y (r_lrx r) (r_lry r)).

Lemma rowsFrom_step y : y < r_lry r -> rowsFrom y = rowFrom (r_ulx r) y ++ rowsFrom (y + 1).
Proof. intros H. unfold rowsFrom, rowMajor. rewrite (upTo_cons y) by exact H. cbn [flat_map]. rewrite filter_app. reflexivity. Qed.
Lemma rowsFrom_end y : r_lry r <= y -> rowsFrom y = [].
Proof. intros H. unfold rowsFrom, rowMajor. rewrite (upTo_nil y) by exact H. reflexivity. Qed.
Lemma rowFrom_end x y : r_lrx r <= x -> rowFrom x y = [].
Proof. intros H. unfold rowFrom. rewrite (upTo_nil x) by exact H. reflexivity. Qed.
Lemma rowFrom_step x y : x < r_lrx r -> rowFrom x y = if ok (img x y) then (x, y) :: rowFrom (x + 1) y else rowFrom (x + 1) y.
Proof. intros H. unfold rowFrom. rewrite (upTo_cons x) by exact H. cbn [map filter]. unfold okAt at 1. cbn [fst snd]. destruct (ok (img x y)); reflexivity. Qed.

(** remaining pixels of an iterator standing at (x, y), including this one *)
Definition restOf x y : list (Z * Z) := if (x =? r_lrx r) && (y =? r_lry r) then [] else (x, y) :: rowFrom (x + 1) y ++ rowsFrom (y + 1).
Definition standing x y : Prop := (x = r_lrx r /\ y = r_lry r) \/ (r_ulx r <= x < r_lrx r /\ r_uly r <= y < r_lry r /\ ok (img x y) = true).

Lemma skipRow_spec dx dy : forall n x y, r_ulx r <= x <= r_lrx r -> r_uly r <= y < r_lry r -> (Z.to_nat (r_lrx r - x) <= n)%nat ->
  exists x', skipRow rd n ok (r_lrx r) (mkScan x y (x + dx) (y + dy)) = Ok (mkScan x' y (x' + dx) (y + dy)) /\ x <= x' <= r_lrx r /\
    rowFrom x y = rowFrom x' y /\ (x' < r_lrx r -> ok (img x' y) = true).
Proof.
  induction n as [|n IH]; intros x y Hx Hy Hn; cbn [skipRow sc_x sc_y im_x im_y]; destruct (Z.eqb_spec x (r_lrx r)) as [He|He].
  - exists x. repeat split; auto; lia.
  - lia.
  - exists x. repeat split; auto; lia.
  - rewrite (Hrd x y) by lia. cbn [bind]. destruct (ok (img x y)) eqn:Eo.
    + exists x. repeat split; auto; lia.
    + destruct (IH (x + 1) y) as (x' & E & H1 & H2 & H3); [lia..|]. exists x'. rewrite Z.add_shuffle0. split; [exact E|]. split; [lia|]. split; [|exact H3].
      rewrite rowFrom_step, Eo by lia. exact H2.
Qed.

Lemma scanNext_spec dx dy n : forall x y, r_ulx r <= x < r_lrx r -> r_uly r <= y < r_lry r -> (Z.to_nat (r_lry r - y) <= n)%nat ->
  exists x' y' ix iy, scanNext rd n ok r (r_lrx r - r_ulx r) (mkScan x y (x + dx) (y + dy)) = Ok (mkScan x' y' ix iy) /\ standing x' y' /\
    restOf x' y' = rowFrom (x + 1) y ++ rowsFrom (y + 1) /\ (x' <> r_lrx r \/ y' <> r_lry r -> ix = x' + dx /\ iy = y' + dy).
Proof.
  induction n as [|n IH]; intros x y Hx Hy Hn; [lia|]. cbn [scanNext sc_x sc_y im_x im_y]. rewrite (Z.add_shuffle0 x dx 1).
  destruct (skipRow_spec dx dy (Z.to_nat (r_lrx r - r_ulx r)) (x + 1) y) as (x1 & E & H1 & H2 & H3); [lia..|]. rewrite E. cbn [bind sc_x sc_y im_x im_y].
  destruct (Z.eqb_spec x1 (r_lrx r)) as [He|He].
  - rewrite H2, He, (rowFrom_end (r_lrx r)) by lia. cbn [app]. destruct (Z.eqb_spec (y + 1) (r_lry r)) as [Hy1|Hy1].
    + eexists _, _, _, _. split; [reflexivity|]. split; [left; auto|]. split; [|lia]. unfold restOf. rewrite !Z.eqb_refl. cbn [andb]. symmetry. apply rowsFrom_end. lia.
    + replace (r_lrx r - (r_lrx r - r_ulx r)) with (r_ulx r) by ring.
      rewrite (Hrd (r_ulx r) (y + 1)) by lia. cbn [bind]. rewrite (rowsFrom_step (y + 1)), (rowFrom_step (r_ulx r)) by lia.
      replace (r_lrx r + dx - (r_lrx r - r_ulx r)) with (r_ulx r + dx) by ring. rewrite (Z.add_shuffle0 y dy 1).
      destruct (ok (img (r_ulx r) (y + 1))) eqn:Eo.
      * eexists _, _, _, _. split; [reflexivity|]. split; [right; repeat split; auto; lia|]. split; [|auto].
        unfold restOf. destruct (Z.eqb_spec (r_ulx r) (r_lrx r)); [lia|]. reflexivity.
      * destruct (IH (r_ulx r) (y + 1)) as (x' & y' & ix & iy & E' & Hs & Hr & Ho); [lia..|]. exists x', y', ix, iy. split; [exact E'|]. split; [exact Hs|]. split; [exact Hr | exact Ho].
  - eexists _, _, _, _. split; [reflexivity|]. split; [right; repeat split; auto; try lia; apply H3; lia|]. split; [|auto].
    unfold restOf. destruct (Z.eqb_spec x1 (r_lrx r)); [lia|]. cbn [andb]. rewrite H2, (rowFrom_step x1) by lia. rewrite H3 by lia. reflexivity.
Qed.

Definition withOffset dx dy (p : Z * Z) : (Z * Z) * (Z * Z) := (p, (fst p + dx, snd p + dy)).

Lemma lsDrain_spec dx dy n : forall x y ix iy, standing x y -> (x <> r_lrx r \/ y <> r_lry r -> ix = x + dx /\ iy = y + dy) -> (length (restOf x y) <= n)%nat ->
  lsDrain rd n ok r (mkScan x y ix iy) = Ok (map (withOffset dx dy) (restOf x y)).
Proof.
  induction n as [|n IH]; intros x y ix iy Hs Ho Hn; cbn [lsDrain]; unfold lsAtEnd; cbn [sc_x sc_y]; unfold restOf in Hn |- *;
    destruct ((x =? r_lrx r) && (y =? r_lry r))%bool eqn:Ee; try reflexivity.
  - simpl in Hn. lia.
  - assert (Hne : x <> r_lrx r \/ y <> r_lry r) by (apply andb_false_iff in Ee; rewrite !Z.eqb_neq in Ee; exact Ee).
    destruct Hs as [[K1 K2]|(K1 & K2 & K3)]; [lia|]. destruct (Ho Hne) as [-> ->]. unfold lsNext.
    destruct (scanNext_spec dx dy (S (Z.to_nat (r_lry r - r_uly r))) x y) as (x' & y' & ix & iy & E & Hs' & Hr & Ho'); [lia..|]. rewrite E. cbn [bind].
    cbn [length] in Hn. rewrite <- Hr in Hn |- *. rewrite (IH x' y' ix iy Hs' Ho') by lia. reflexivity.
Qed.

(** C17: LabelScanIterator *)
Theorem labelScan_visits ix iy n : (length (rowMajor (r_ulx r) (r_uly r) (r_lrx r) (r_lry r)) <= n)%nat ->
  exists it, lsBegin rd ok r ix iy = Ok it /\
    lsDrain rd n ok r it = Ok (map (withOffset (ix - r_ulx r) (iy - r_uly r)) (filter okAt (rowMajor (r_ulx r) (r_uly r) (r_lrx r) (r_lry r)))).
Proof.
  intros Hn. fold (rowsFrom (r_uly r)). assert (Hn' : (length (rowsFrom (r_uly r)) <= n)%nat).
  { apply (Nat.le_trans _ (length (rowMajor (r_ulx r) (r_uly r) (r_lrx r) (r_lry r)))); [|exact Hn]. unfold rowsFrom. generalize (rowMajor (r_ulx r) (r_uly r) (r_lrx r) (r_lry r)).
    intros l. induction l as [|h t IHl]; simpl; [lia|]. destruct (okAt h); simpl; lia. }
  unfold lsBegin. rewrite !Z.gtb_ltb. destruct (Z.ltb_spec (r_ulx r) (r_lrx r)) as [Hx|Hx]; destruct (Z.ltb_spec (r_uly r) (r_lry r)) as [Hy|Hy]; cbn [andb negb].
  2: { eexists. split; [reflexivity|]. rewrite (rowsFrom_end _ Hy). destruct n; cbn [lsDrain]; unfold lsAtEnd; cbn [sc_x sc_y]; rewrite !Z.eqb_refl; reflexivity. }
  2, 3: eexists; split; [reflexivity|]; assert (Z0 : rowsFrom (r_uly r) = []);
    [ unfold rowsFrom, rowMajor; rewrite (upTo_nil (r_ulx r)) by exact Hx; generalize (upTo (r_uly r) (r_lry r)); intros l; induction l; auto
    | rewrite Z0; destruct n; cbn [lsDrain]; unfold lsAtEnd; cbn [sc_x sc_y]; rewrite !Z.eqb_refl; reflexivity].
  destruct (Z.eqb_spec (r_ulx r) (r_lrx r)); [lia|]. cbn [andb]. rewrite Hrd by lia. cbn [bind].
  rewrite rowsFrom_step in Hn' |- * by exact Hy. rewrite rowFrom_step in Hn' |- * by exact Hx. destruct (ok (img (r_ulx r) (r_uly r))) eqn:Eo.
  - eexists. split; [reflexivity|].
    rewrite (lsDrain_spec (ix - r_ulx r) (iy - r_uly r) n); [| right; split; [lia|]; split; [lia | exact Eo] | intros _; split; ring |].
    + unfold restOf. destruct (Z.eqb_spec (r_ulx r) (r_lrx r)); [lia|]. reflexivity.
    + unfold restOf. destruct (Z.eqb_spec (r_ulx r) (r_lrx r)); [lia|]. exact Hn'.
  - unfold lsNext.
    destruct (scanNext_spec (ix - r_ulx r) (iy - r_uly r) (S (Z.to_nat (r_lry r - r_uly r))) (r_ulx r) (r_uly r)) as (x' & y' & ix' & iy' & E & Hs & Hr & Ho); [lia..|].
    replace (r_ulx r + (ix - r_ulx r)) with ix in E by ring. replace (r_uly r + (iy - r_uly r)) with iy in E by ring.
    rewrite E. eexists. split; [reflexivity|]. rewrite <- Hr in Hn' |- *. apply lsDrain_spec; assumption.
Qed.

Lemma ifSkip_spec : forall n x y, r_ulx r <= x <= r_lrx r -> r_uly r <= y < r_lry r -> (Z.to_nat (r_lrx r - x) <= n)%nat ->
  exists x', ifSkip rd n ok (r_lrx r) x y = Ok x' /\ x <= x' <= r_lrx r /\ rowFrom x y = rowFrom x' y /\ (x' < r_lrx r -> ok (img x' y) = true).
Proof.
  induction n as [|n IH]; intros x y Hx Hy Hn; cbn [ifSkip]; destruct (Z.eqb_spec x (r_lrx r)) as [He|He].
  - exists x. repeat split; auto; lia.
  - lia.
  - exists x. repeat split; auto; lia.
  - rewrite (Hrd x y) by lia. cbn [bind]. destruct (ok (img x y)) eqn:Eo.
    + exists x. repeat split; auto; lia.
    + destruct (IH (x + 1) y) as (x' & E & H1 & H2 & H3); [lia..|]. exists x'. split; [exact E|]. split; [lia|]. split; [|exact H3].
      rewrite rowFrom_step, Eo by lia. exact H2.
Qed.

Lemma ifNextLoop_spec n : forall x y, r_ulx r - 1 <= x < r_lrx r -> r_uly r <= y < r_lry r -> (Z.to_nat (r_lry r - y) <= n)%nat ->
  exists x' y', ifNextLoop rd n ok r (r_lrx r - r_ulx r) x y = Ok (x', y') /\ standing x' y' /\ restOf x' y' = rowFrom (x + 1) y ++ rowsFrom (y + 1).
Proof.
  induction n as [|n IH]; intros x y Hx Hy Hn; [lia|]. cbn [ifNextLoop].
  destruct (ifSkip_spec (Z.to_nat (r_lrx r - r_ulx r)) (x + 1) y) as (x1 & E & H1 & H2 & H3); [lia..|]. rewrite E. cbn [bind].
  destruct (Z.eqb_spec x1 (r_lrx r)) as [He|He].
  - rewrite H2, He, (rowFrom_end (r_lrx r)) by lia. cbn [app]. destruct (Z.eqb_spec (y + 1) (r_lry r)) as [Hy1|Hy1].
    + eexists _, _. split; [reflexivity|]. split; [left; auto|]. unfold restOf. rewrite !Z.eqb_refl. cbn [andb]. symmetry. apply rowsFrom_end. lia.
    + replace (r_lrx r - (r_lrx r - r_ulx r + 1)) with (r_ulx r - 1) by ring.
      rewrite (rowsFrom_step (y + 1)) by lia.
      destruct (IH (r_ulx r - 1) (y + 1)) as (x' & y' & E' & Hs & Hr); [lia..|]. exists x', y'. split; [exact E'|]. split; [exact Hs|].
      rewrite Hr. replace (r_ulx r - 1 + 1) with (r_ulx r) by ring. reflexivity.
  - eexists _, _. split; [reflexivity|]. split; [right; repeat split; auto; try lia; apply H3; lia|].
    unfold restOf. destruct (Z.eqb_spec x1 (r_lrx r)); [lia|]. cbn [andb]. rewrite H2, (rowFrom_step x1) by lia. rewrite H3 by lia. reflexivity.
Qed.

Lemma ifDrain_spec n : forall x y, standing x y -> (length (restOf x y) <= n)%nat -> ifDrain rd n ok r (x, y) = Ok (restOf x y).
Proof.
  induction n as [|n IH]; intros x y Hs Hn; cbn [ifDrain]; unfold ifAtEnd; cbn [fst snd]; unfold restOf in Hn |- *;
    destruct ((x =? r_lrx r) && (y =? r_lry r))%bool eqn:Ee; try reflexivity.
  - simpl in Hn. lia.
  - assert (Hne : x <> r_lrx r \/ y <> r_lry r) by (apply andb_false_iff in Ee; rewrite !Z.eqb_neq in Ee; exact Ee).
    destruct Hs as [[K1 K2]|(K1 & K2 & K3)]; [lia|]. unfold ifNext. cbn [fst snd].
    destruct (ifNextLoop_spec (S (Z.to_nat (r_lry r - r_uly r))) x y) as (x' & y' & E & Hs' & Hr); [lia..|]. rewrite E. cbn [bind].
    cbn [length] in Hn. rewrite <- Hr in Hn |- *. rewrite (IH x' y' Hs') by lia. reflexivity.
Qed.

(** C17: ImageFilterIterator, for a rectangle with pixels or with equal corners *)
Theorem imageFilter_visits n : (r_ulx r < r_lrx r /\ r_uly r < r_lry r) \/ (r_ulx r = r_lrx r /\ r_uly r = r_lry r) ->
  (length (rowMajor (r_ulx r) (r_uly r) (r_lrx r) (r_lry r)) <= n)%nat ->
  exists it, ifBegin rd ok r = Ok it /\ ifDrain rd n ok r it = Ok (filter okAt (rowMajor (r_ulx r) (r_uly r) (r_lrx r) (r_lry r))).
Proof.
  intros Hr Hn. fold (rowsFrom (r_uly r)). assert (Hn' : (length (rowsFrom (r_uly r)) <= n)%nat).
  { apply (Nat.le_trans _ (length (rowMajor (r_ulx r) (r_uly r) (r_lrx r) (r_lry r)))); [|exact Hn]. unfold rowsFrom. generalize (rowMajor (r_ulx r) (r_uly r) (r_lrx r) (r_lry r)).
    intros l. induction l as [|h t IHl]; simpl; [lia|]. destruct (okAt h); simpl; lia. }
  unfold ifBegin. destruct Hr as [[Hx Hy]|[Hx Hy]].
  - destruct (Z.eqb_spec (r_ulx r) (r_lrx r)); [lia|]. cbn [andb]. rewrite Hrd by lia. cbn [bind].
    rewrite rowsFrom_step in Hn' |- * by exact Hy. rewrite rowFrom_step in Hn' |- * by exact Hx. destruct (ok (img (r_ulx r) (r_uly r))) eqn:Eo.
    + eexists. split; [reflexivity|]. rewrite ifDrain_spec; [| right; repeat split; auto; lia |].
      * unfold restOf. destruct (Z.eqb_spec (r_ulx r) (r_lrx r)); [lia|]. reflexivity.
      * unfold restOf. destruct (Z.eqb_spec (r_ulx r) (r_lrx r)); [lia|]. exact Hn'.
    + unfold ifNext. cbn [fst snd].
      destruct (ifNextLoop_spec (S (Z.to_nat (r_lry r - r_uly r))) (r_ulx r) (r_uly r)) as (x' & y' & E & Hs & Hr'); [lia..|].
      rewrite E. eexists. split; [reflexivity|]. rewrite <- Hr' in Hn' |- *. apply ifDrain_spec; assumption.
  - rewrite Hx, Hy, !Z.eqb_refl. cbn [andb]. eexists. split; [reflexivity|]. rewrite rowsFrom_end by lia. destruct n; cbn [ifDrain]; unfold ifAtEnd; cbn [fst snd]; rewrite !Z.eqb_refl; reflexivity.
Qed.
End I.

(** C17, limit: ImageFilterIterator leaves the image when only one extent is zero *)
Theorem imageFilter_flat_refuted : exists (rd : Z -> Z -> res Z) (img : Z -> Z -> Z) r,
  (forall x y, r_ulx r <= x < r_lrx r -> r_uly r <= y < r_lry r -> rd x y = Ok (img x y)) /\ rowMajor (r_ulx r) (r_uly r) (r_lrx r) (r_lry r) = [] /\
  ifBegin rd (fun _ => true) r = UB.
Proof.
  exists (fun _ _ => UB), (fun _ _ => 0), (mkRect 2 0 2 3). split; [intros x y; cbn [r_ulx r_lrx]; lia|]. split; reflexivity.
Qed.
