From Coq Require Import Sorted.
From Verif Require Import Base Scanlines_Model Scanlines_Spec Filter_Spec Filter_Proofs.
Local Open Scope Z_scope.

Lemma covered_cons g l x : covered (g :: l) x <-> covers g x \/ covered l x.
Proof.
  split.
  - intros (h & [<-|H] & K); [left; exact K | right; exists h; auto].
  - intros [K|(h & H & K)]; [exists g; split; [left; reflexivity | exact K] | exists h; split; [right; exact H | exact K]].
Qed.
Lemma covered_nil x : ~ covered [] x.
Proof. intros (g & [] & _). Qed.
Lemma windLeft_cons g l x : windLeft (g :: l) x = (if send g <=? x then sdir g else 0) + windLeft l x.
Proof. unfold windLeft. cbn [filter]. destruct (send g <=? x); cbn [map sumZ]; lia. Qed.
Lemma totalDir_cons g l : totalDir (g :: l) = sdir g + totalDir l.
Proof. reflexivity. Qed.
Lemma proper_cons g l : proper (g :: l) <-> sbeg g <= send g /\ proper l.
Proof.
  split.
  - intros H. split; [apply H; left; reflexivity | intros h Hh; apply H; right; exact Hh].
  - intros [H1 H2] h [<-|Hh]; [exact H1 | apply H2, Hh].
Qed.

Lemma covered_perm l l' x : Permutation l l' -> covered l x -> covered l' x.
Proof. intros P (g & H & K). exists g. split; [apply (Permutation_in _ P H) | exact K]. Qed.
Lemma windLeft_perm l l' x : Permutation l l' -> windLeft l x = windLeft l' x.
Proof. intros P. induction P as [|g l l' P IH|a b l|l1 l2 l3 P1 IH1 P2 IH2]; rewrite ?windLeft_cons; lia. Qed.
Lemma totalDir_perm l l' : Permutation l l' -> totalDir l = totalDir l'.
Proof. intros P. induction P as [|g l l' P IH|a b l|l1 l2 l3 P1 IH1 P2 IH2]; rewrite ?totalDir_cons; lia. Qed.

Record joined (l r : list seg) : Prop := {
  jn_spaced : spaced r; jn_proper : proper r;
  jn_cov : forall x, covered r x <-> covered l x;
  jn_wind : forall x, ~ covered l x -> windLeft r x = windLeft l x;
  jn_total : totalDir r = totalDir l }.

Lemma joinRest_spec t : forall cur, StronglySorted begLe (cur :: t) -> proper (cur :: t) ->
  joined (cur :: t) (joinRest cur t) /\ (forall g, In g (joinRest cur t) -> sbeg cur <= sbeg g).
Proof.
  induction t as [|s t IH]; intros cur Hs Hp; cbn [joinRest].
  - split; [|intros g [<-|[]]; lia]. split; [constructor; constructor | exact Hp | intros x; reflexivity | reflexivity | reflexivity].
  - inversion Hs as [|? ? Hs' Hc]; subst. inversion Hc as [|? ? Hcs Hct]; subst. unfold begLe in Hcs.
    apply proper_cons in Hp. destruct Hp as [Hpc Hp]. pose proof (proj1 (proper_cons s t) Hp) as [Hps Hpt].
    destruct (Z.leb_spec (sbeg s) (send cur)) as [Hj|Hj].
    + set (c := joinSuccessor cur s).
      assert (Ec : send c = Z.max (send cur) (send s)) by (unfold c, joinSuccessor; cbn [send]; rewrite Z.gtb_ltb; destruct (Z.ltb_spec (send cur) (send s)); lia).
      assert (Eb : sbeg c = sbeg cur) by reflexivity. assert (Ed : sdir c = sdir cur + sdir s) by reflexivity.
      destruct (IH c) as [[J1 J2 J3 J4 J5] J6].
      * constructor; [inversion Hs'; assumption | exact Hct].
      * apply proper_cons. split; [lia | exact Hpt].
      * assert (Hcov : forall x, covered (c :: t) x <-> covered (cur :: s :: t) x).
        { intros x. rewrite !covered_cons. unfold covers. rewrite Ec, Eb. split; [intros [K|K]|intros [K|[K|K]]]; try tauto; lia. }
        split; [|intros g Hg; rewrite <- Eb; apply J6, Hg]. split; [exact J1 | exact J2 | intros x; rewrite J3; apply Hcov | |].
        { intros x Hx. rewrite J4 by (rewrite Hcov; exact Hx). rewrite !windLeft_cons, Ec, Ed. rewrite !covered_cons in Hx. unfold covers in Hx.
          destruct (Z.leb_spec (Z.max (send cur) (send s)) x), (Z.leb_spec (send cur) x), (Z.leb_spec (send s) x); try lia; exfalso; apply Hx; lia. }
        { rewrite J5, !totalDir_cons, Ed. lia. }
    + destruct (IH s Hs' Hp) as [[J1 J2 J3 J4 J5] J6]. split.
      * split.
        { constructor; [exact J1|]. apply Forall_forall. intros g Hg. specialize (J6 g Hg). lia. }
        { apply proper_cons. split; assumption. }
        { intros x. rewrite (covered_cons cur (joinRest s t)), (covered_cons cur (s :: t)), J3. reflexivity. }
        { intros x Hx. rewrite (windLeft_cons cur (joinRest s t)), (windLeft_cons cur (s :: t)), J4; [reflexivity|]. intros K. apply Hx. apply covered_cons. right. exact K. }
        { rewrite (totalDir_cons cur (joinRest s t)), (totalDir_cons cur (s :: t)), J5. reflexivity. }
      * intros g [<-|Hg]; [lia|]. specialize (J6 g Hg). lia.
Qed.

(** C18 *)
Theorem normalizeLine_spec srt l : sorter srt -> proper l ->
  spaced (normalizeLine srt l) /\ proper (normalizeLine srt l) /\
  (forall x, covered (normalizeLine srt l) x <-> covered l x) /\
  (forall x, ~ covered l x -> windLeft (normalizeLine srt l) x = windLeft l x) /\
  totalDir (normalizeLine srt l) = totalDir l.
Proof.
  intros Hs Hp. destruct (Hs l) as [P S]. unfold normalizeLine. destruct (srt l) as [|c t] eqn:E.
  - apply Permutation_sym, Permutation_nil in P. subst l. split; [constructor|]. repeat split; auto.
  - assert (Hp' : proper (c :: t)) by (intros g Hg; apply Hp, (Permutation_in _ (Permutation_sym P) Hg)).
    destruct (joinRest_spec t c S Hp') as [[J1 J2 J3 J4 J5] _]. cbn [joinLine].
    assert (Hcov : forall x, covered (c :: t) x <-> covered l x) by (intros x; split; apply covered_perm; [apply Permutation_sym|]; exact P).
    split; [exact J1|]. split; [exact J2|]. split; [intros x; rewrite J3; apply Hcov|]. split.
    + intros x Hx. rewrite J4 by (rewrite Hcov; exact Hx). symmetry. apply windLeft_perm, P.
    + rewrite J5. symmetry. apply totalDir_perm, P.
Qed.

(** a sort exists *)
Fixpoint insSeg (g : seg) (l : list seg) : list seg :=
  match l with [] => [g] | h :: t => if sbeg g <=? sbeg h then g :: l else h :: insSeg g t end.
Definition isort (l : list seg) : list seg := fold_right insSeg [] l.
Lemma insSeg_perm g l : Permutation (g :: l) (insSeg g l).
Proof.
  induction l as [|h t IH]; cbn [insSeg]; [apply Permutation_refl|]. destruct (sbeg g <=? sbeg h); [apply Permutation_refl|].
  eapply Permutation_trans; [apply perm_swap | apply perm_skip, IH].
Qed.
Lemma insSeg_sorted g l : StronglySorted begLe l -> StronglySorted begLe (insSeg g l).
Proof.
  induction 1 as [|h t Ht IH Hh]; cbn [insSeg]; [constructor; constructor|]. destruct (Z.leb_spec (sbeg g) (sbeg h)).
  - constructor; [constructor; assumption|]. constructor; [exact H|]. apply Forall_forall. intros x Hx. rewrite Forall_forall in Hh. specialize (Hh x Hx). unfold begLe in *. lia.
  - constructor; [exact IH|]. apply Forall_forall. intros x Hx. apply (Permutation_in _ (Permutation_sym (insSeg_perm g t))) in Hx.
    destruct Hx as [<-|Hx]; [unfold begLe; lia | rewrite Forall_forall in Hh; apply Hh, Hx].
Qed.
Lemma isort_sorter : sorter isort.
Proof.
  intros l. induction l as [|h t [IH1 IH2]]; [split; constructor|]. change (isort (h :: t)) with (insSeg h (isort t)). split.
  - eapply Permutation_trans; [apply perm_skip, IH1 | apply insSeg_perm].
  - apply insSeg_sorted, IH2.
Qed.

(** ** lines *)
Lemma lineAt_lineOf s y : lineAt s y = if (y <? sl_start s) || (endIndex s <=? y) then UB else Ok (lineOf s y).
Proof.
  unfold lineAt, lineOf, endIndex. destruct (Z.ltb_spec (y - sl_start s) 0), (Z.ltb_spec y (sl_start s)); try lia; cbn [orb]; [reflexivity|].
  unfold vget. destruct (Z.leb_spec (sl_start s + Z.of_nat (length (sl_lines s))) y) as [L|L].
  - rewrite (proj2 (nth_error_None _ _)) by lia. reflexivity.
  - destruct (nth_error_ex (sl_lines s) (Z.to_nat (y - sl_start s))) as [a Ha]; [lia|]. rewrite Ha. f_equal. symmetry. apply nth_error_nth, Ha.
Qed.

Lemma lineAt_in s y : sl_start s <= y < endIndex s -> lineAt s y = Ok (lineOf s y).
Proof. intros H. rewrite lineAt_lineOf. destruct (Z.ltb_spec y (sl_start s)), (Z.leb_spec (endIndex s) y); try lia. reflexivity. Qed.

Lemma lineOf_out s y : y < sl_start s \/ endIndex s <= y -> lineOf s y = [].
Proof.
  unfold lineOf, endIndex. intros H. destruct (Z.ltb_spec y (sl_start s)); [reflexivity|]. apply nth_overflow. lia.
Qed.

Lemma lineOf_at a l y : lineOf (mkSL a l) (a + Z.of_nat y) = nth y l [].
Proof. unfold lineOf. cbn [sl_start sl_lines]. destruct (Z.ltb_spec (a + Z.of_nat y) a); [lia|]. f_equal. lia. Qed.

Lemma lineOf_eq a l y : a <= y -> lineOf (mkSL a l) y = nth (Z.to_nat (y - a)) l [].
Proof. intros H. unfold lineOf. cbn [sl_start sl_lines]. destruct (Z.ltb_spec y a); [lia|]. reflexivity. Qed.

Lemma nth_upd {A} (l : list A) i j x d : nth j (list_upd l i x) d = if (i =? j)%nat && (i <? length l)%nat then x else nth j l d.
Proof.
  revert i j. induction l as [|h t IH]; intros [|i] [|j]; cbn [list_upd nth]; try reflexivity.
  - rewrite andb_false_r. reflexivity.
  - rewrite IH. reflexivity.
Qed.

Theorem append_spec s line g : forall y, lineOf (append s line g) y = lineOf s y ++ (if (y =? line) && (sl_start s <=? line) && (line <? endIndex s) then [g] else []).
Proof.
  intros y. unfold append. rewrite Z.geb_leb. unfold endIndex.
  destruct (Z.leb_spec 0 (line - sl_start s)) as [L1|L1], (Z.ltb_spec (line - sl_start s) (Z.of_nat (length (sl_lines s)))) as [L2|L2]; cbn [andb].
  - destruct (Z.leb_spec (sl_start s) line); [|lia]. destruct (Z.ltb_spec line (sl_start s + Z.of_nat (length (sl_lines s)))); [|lia]. rewrite !andb_true_r.
    unfold lineOf. cbn [sl_start sl_lines]. destruct (Z.ltb_spec y (sl_start s)).
    + destruct (Z.eqb_spec y line); [lia|]. reflexivity.
    + rewrite nth_upd. destruct (Z.eqb_spec y line) as [->|Hn].
      * rewrite Nat.eqb_refl. destruct (Nat.ltb_spec (Z.to_nat (line - sl_start s)) (length (sl_lines s))); [reflexivity | lia].
      * destruct (Nat.eqb_spec (Z.to_nat (line - sl_start s)) (Z.to_nat (y - sl_start s))); [lia|]. cbn [andb]. rewrite app_nil_r. reflexivity.
  - destruct (Z.ltb_spec line (sl_start s + Z.of_nat (length (sl_lines s)))); [lia|]. rewrite andb_false_r, app_nil_r. reflexivity.
  - destruct (Z.leb_spec (sl_start s) line); [lia|]. rewrite andb_false_r. cbn [andb]. rewrite app_nil_r. reflexivity.
  - destruct (Z.leb_spec (sl_start s) line); [lia|]. rewrite andb_false_r. cbn [andb]. rewrite app_nil_r. reflexivity.
Qed.

Lemma addLines_spec src : forall dest k, (k + length src <= length dest)%nat ->
  exists r, addLines dest k src = Ok r /\ length r = length dest /\
    (forall i, nth i r [] = nth i dest [] ++ (if (k <=? i)%nat then nth (i - k) src [] else [])).
Proof.
  induction src as [|l t IH]; intros dest k H; cbn [addLines].
  - exists dest. split; [reflexivity|]. split; [reflexivity|]. intros i. destruct (k <=? i)%nat; [destruct (i - k)%nat|]; cbn [nth]; rewrite app_nil_r; reflexivity.
  - cbn [length] in H. destruct (nth_error_ex dest k) as [d Hd]; [lia|]. rewrite (proj2 (vget_Ok _ _ _) Hd). cbn [bind]. unfold vset.
    destruct (Nat.ltb_spec k (length dest)); [|lia]. cbn [bind]. destruct (IH (list_upd dest k (d ++ l)) (S k)) as (r & E & Hl & Hr); [rewrite list_upd_length; lia|].
    exists r. split; [exact E|]. split; [rewrite Hl; apply list_upd_length|]. intros i. rewrite Hr, nth_upd.
    destruct (Nat.eqb_spec k i) as [<-|Hn].
    + destruct (Nat.ltb_spec k (length dest)); [|lia]. cbn [andb]. destruct (Nat.leb_spec (S k) k); [lia|]. destruct (Nat.leb_spec k k); [|lia].
      rewrite Nat.sub_diag, app_nil_r. cbn [nth]. rewrite (nth_error_nth _ _ [] Hd). reflexivity.
    + cbn [andb]. f_equal. destruct (Nat.leb_spec (S k) i), (Nat.leb_spec k i); try lia; [|reflexivity]. replace (i - k)%nat with (S (i - S k)) by lia. reflexivity.
Qed.

Lemma nth_repeat_nil k i : nth i (repeat (@nil seg) k) [] = [].
Proof. revert i. induction k as [|k IH]; intros [|i]; cbn; auto. Qed.

Lemma nth_app_repeat (l : list (list seg)) k i : nth i (l ++ repeat [] k) [] = nth i l [].
Proof.
  destruct (Nat.lt_ge_cases i (length l)) as [L|L]; [apply app_nth1, L|]. rewrite app_nth2 by exact L. rewrite nth_repeat_nil. symmetry. apply nth_overflow, L.
Qed.

(** merge: both domains are included and the segments of every line are put together *)
Theorem merge_spec s other : exists r, merge s other = Ok r /\ sl_start r = Z.min (sl_start s) (sl_start other) /\
  endIndex r = Z.max (endIndex s) (endIndex other) /\ (forall y, lineOf r y = lineOf s y ++ lineOf other y).
Proof.
  unfold merge. rewrite !Z.gtb_ltb.
  set (s1 := if 0 <? sl_start s - sl_start other then mkSL (sl_start other) (repeat [] (Z.to_nat (sl_start s - sl_start other)) ++ sl_lines s) else s).
  assert (H1 : sl_start s1 = Z.min (sl_start s) (sl_start other) /\ endIndex s1 = endIndex s /\ (forall y, lineOf s1 y = lineOf s y)).
  { unfold s1. destruct (Z.ltb_spec 0 (sl_start s - sl_start other)) as [L|L]; [|split; [lia | split; reflexivity]]. cbn [sl_start]. split; [lia|]. split.
    - unfold endIndex. cbn [sl_start sl_lines]. rewrite app_length, repeat_length. lia.
    - intros y. unfold lineOf. cbn [sl_start sl_lines]. destruct (Z.ltb_spec y (sl_start other)), (Z.ltb_spec y (sl_start s)); try lia; try reflexivity.
      + rewrite app_nth1 by (rewrite repeat_length; lia). apply nth_repeat_nil.
      + rewrite app_nth2 by (rewrite repeat_length; lia). rewrite repeat_length. f_equal. lia. }
  destruct H1 as (A1 & A2 & A3).
  set (s2 := if 0 <? endIndex other - endIndex s1 then mkSL (sl_start s1) (sl_lines s1 ++ repeat [] (Z.to_nat (endIndex other - endIndex s1))) else s1).
  assert (H2 : sl_start s2 = sl_start s1 /\ endIndex s2 = Z.max (endIndex s) (endIndex other) /\ (forall y, lineOf s2 y = lineOf s1 y)).
  { unfold s2. destruct (Z.ltb_spec 0 (endIndex other - endIndex s1)) as [L|L]; [|split; [reflexivity | split; [lia | reflexivity]]]. cbn [sl_start]. split; [reflexivity|]. split.
    - unfold endIndex at 1. cbn [sl_start sl_lines]. rewrite app_length, repeat_length. unfold endIndex in *. lia.
    - intros y. unfold lineOf. cbn [sl_start sl_lines]. rewrite nth_app_repeat. reflexivity. }
  destruct H2 as (B1 & B2 & B3).
  destruct (Z.ltb_spec (sl_start other - sl_start s2) 0); [lia|].
  destruct (addLines_spec (sl_lines other) (sl_lines s2) (Z.to_nat (sl_start other - sl_start s2))) as (r & E & Hl & Hr).
  { unfold endIndex in *. lia. }
  rewrite E. cbn [bind]. eexists. split; [reflexivity|]. cbn [sl_start]. split; [lia|]. split.
  - unfold endIndex at 1. cbn [sl_start sl_lines]. rewrite Hl. unfold endIndex in B2 at 1. exact B2.
  - intros y. rewrite <- A3, <- B3. unfold lineOf. cbn [sl_start sl_lines]. destruct (Z.ltb_spec y (sl_start s2)).
    + destruct (Z.ltb_spec y (sl_start other)); [reflexivity | lia].
    + rewrite Hr. f_equal. destruct (Z.ltb_spec y (sl_start other)).
      * destruct (Nat.leb_spec (Z.to_nat (sl_start other - sl_start s2)) (Z.to_nat (y - sl_start s2))); [lia | reflexivity].
      * destruct (Nat.leb_spec (Z.to_nat (sl_start other - sl_start s2)) (Z.to_nat (y - sl_start s2))); [|lia]. f_equal. lia.
Qed.

Lemma normalize_line srt s y : sorter srt -> lineOf (normalize srt s) y = normalizeLine srt (lineOf s y).
Proof.
  intros Hs. unfold lineOf, normalize. cbn [sl_start sl_lines].
  assert (E0 : normalizeLine srt [] = []). { unfold normalizeLine. destruct (Hs []) as [P _]. apply Permutation_nil in P. rewrite P. reflexivity. }
  destruct (y <? sl_start s); [symmetry; exact E0|]. rewrite <- E0 at 1. apply map_nth.
Qed.
Lemma normalize_domain srt s : sl_start (normalize srt s) = sl_start s /\ endIndex (normalize srt s) = endIndex s.
Proof. unfold normalize, endIndex. cbn [sl_start sl_lines]. rewrite map_length. auto. Qed.

Lemma covered_app l1 l2 x : covered (l1 ++ l2) x <-> covered l1 x \/ covered l2 x.
Proof.
  split.
  - intros (g & H & K). apply in_app_iff in H. destruct H as [H|H]; [left | right]; exists g; auto.
  - intros [(g & H & K)|(g & H & K)]; exists g; (split; [apply in_app_iff; auto | exact K]).
Qed.
Lemma sumZ_app a b : sumZ (a ++ b) = sumZ a + sumZ b.
Proof. induction a as [|h t IH]; cbn [app sumZ]; lia. Qed.
Lemma windLeft_app l1 l2 x : windLeft (l1 ++ l2) x = windLeft l1 x + windLeft l2 x.
Proof. unfold windLeft. rewrite filter_app, map_app. apply sumZ_app. Qed.
Lemma totalDir_app l1 l2 : totalDir (l1 ++ l2) = totalDir l1 + totalDir l2.
Proof. unfold totalDir. rewrite map_app. apply sumZ_app. Qed.
Lemma proper_app l1 l2 : proper (l1 ++ l2) <-> proper l1 /\ proper l2.
Proof.
  split.
  - intros H. split; intros g Hg; apply H, in_app_iff; auto.
  - intros [H1 H2] g Hg. apply in_app_iff in Hg. destruct Hg; auto.
Qed.

(** operator+=: coverage is united, turning counts add up, the result is normalised *)
Theorem plusAssign_spec srt s other : sorter srt -> properLines s -> properLines other ->
  exists r, plusAssign srt s other = Ok r /\ sl_start r = Z.min (sl_start s) (sl_start other) /\ endIndex r = Z.max (endIndex s) (endIndex other) /\
    properLines r /\ (forall y, spaced (lineOf r y)) /\
    (forall y x, covered (lineOf r y) x <-> covered (lineOf s y) x \/ covered (lineOf other y) x) /\
    (forall y x, ~ covered (lineOf r y) x -> windLeft (lineOf r y) x = windLeft (lineOf s y) x + windLeft (lineOf other y) x) /\
    (forall y, totalDir (lineOf r y) = totalDir (lineOf s y) + totalDir (lineOf other y)).
Proof.
  intros Hs Hp Ho. destruct (merge_spec s other) as (m & E & H1 & H2 & H3). unfold plusAssign. rewrite E. cbn [bind]. eexists. split; [reflexivity|].
  destruct (normalize_domain srt m) as [D1 D2]. rewrite D1, D2. split; [exact H1|]. split; [exact H2|].
  assert (N : forall y, proper (lineOf m y)) by (intros y; rewrite H3; apply proper_app; auto).
  assert (K : forall y, _) by (intros y; exact (normalizeLine_spec srt (lineOf m y) Hs (N y))).
  split; [intros y; rewrite normalize_line by exact Hs; apply (K y)|].
  split; [intros y; rewrite normalize_line by exact Hs; apply (K y)|]. split; [|split].
  - intros y x. rewrite normalize_line by exact Hs. destruct (K y) as (_ & _ & K3 & _). rewrite K3, H3. apply covered_app.
  - intros y x. rewrite normalize_line by exact Hs. destruct (K y) as (_ & _ & K3 & K4 & _). rewrite K3. intros Hx. rewrite (K4 x Hx), H3. apply windLeft_app.
  - intros y. rewrite normalize_line by exact Hs. destruct (K y) as (_ & _ & _ & _ & K5). rewrite K5, H3. apply totalDir_app.
Qed.

Theorem reverse_spec s y : lineOf (reverseLines s) y = map (fun g => mkSeg (sbeg g) (- sdir g) (send g)) (lineOf s y).
Proof.
  unfold lineOf, reverseLines. cbn [sl_start sl_lines]. destruct (y <? sl_start s); [reflexivity|].
  change (@nil seg) with (map (fun g => mkSeg (sbeg g) (- sdir g) (send g)) []) at 1. apply map_nth.
Qed.

(** ** filling and drawing *)
Lemma setRun_spec n w : forall x e, (Z.to_nat (e - x) <= n)%nat -> 0 <= x -> e <= w -> setRun n w x e = Ok (upTo x e).
Proof.
  induction n as [|n IH]; intros x e Hn Hx He; cbn [setRun]; destruct (Z.ltb_spec x e) as [L|L]; try (rewrite upTo_nil by lia; reflexivity); [lia|].
  destruct (Z.leb_spec 0 x), (Z.ltb_spec x w); try lia. cbn [andb]. rewrite IH by lia. cbn [bind]. rewrite (upTo_cons x e) by lia. reflexivity.
Qed.

Definition clip (w v : Z) : Z := Z.max 0 (Z.min w v).

(** a strictly ascending list *)
Inductive ascZ : list Z -> Prop :=
| az_nil : ascZ []
| az_cons a l : (forall b, In b l -> a < b) -> ascZ l -> ascZ (a :: l).
Lemma ascZ_NoDup l : ascZ l -> NoDup l.
Proof. induction 1 as [|a l H _ IH]; constructor; [intros K; specialize (H a K); lia | exact IH]. Qed.
Lemma ascZ_app l1 l2 : ascZ l1 -> ascZ l2 -> (forall a b, In a l1 -> In b l2 -> a < b) -> ascZ (l1 ++ l2).
Proof.
  induction 1 as [|a l H Hl IH]; cbn [app]; intros H2 H3; [exact H2|]. constructor.
  - intros b Hb. apply in_app_iff in Hb. destruct Hb as [Hb|Hb]; [apply H, Hb | apply H3; [left; reflexivity | exact Hb]].
  - apply IH; [exact H2|]. intros x b Hx. apply H3. right. exact Hx.
Qed.
Lemma upTo_asc b : forall n a, (Z.to_nat (b - a) <= n)%nat -> ascZ (upTo a b).
Proof.
  induction n as [|n IH]; intros a Hn.
  - rewrite upTo_nil by lia. constructor.
  - destruct (Z.lt_ge_cases a b) as [L|L]; [|rewrite upTo_nil by lia; constructor]. rewrite upTo_cons by exact L. constructor; [|apply IH; lia].
    intros x Hx. apply upTo_In in Hx. lia.
Qed.

Lemma windLeft_zero l x : (forall g, In g l -> x < send g) -> windLeft l x = 0.
Proof.
  induction l as [|g t IH]; intros H; [reflexivity|]. rewrite windLeft_cons, IH by (intros h Hh; apply H; right; exact Hh).
  specialize (H g (or_introl eq_refl)). destruct (Z.leb_spec (send g) x); lia.
Qed.
Lemma windLeft_all l x : (forall g, In g l -> send g <= x) -> windLeft l x = totalDir l.
Proof.
  induction l as [|g t IH]; intros H; [reflexivity|]. rewrite windLeft_cons, totalDir_cons, IH by (intros h Hh; apply H; right; exact Hh).
  specialize (H g (or_introl eq_refl)). destruct (Z.leb_spec (send g) x); lia.
Qed.

Lemma fillRow_spec w l : 0 <= w -> forall x inside, spaced l -> proper l -> 0 <= x <= w -> (forall g, In g l -> x <= clip w (sbeg g)) ->
  exists px, fillRow w x inside l = Ok (px, inside + totalDir l) /\ ascZ px /\
    (forall p, In p px <-> x <= p < w /\ ~ covered l p /\ inside + windLeft l p > 0 /\ exists g, In g l /\ p < sbeg g).
Proof.
  intros Hw. induction l as [|g t IH]; intros x inside Hs Hp Hx Hb; cbn [fillRow].
  - exists []. split; [f_equal; f_equal; unfold totalDir; cbn; lia|]. split; [constructor|]. intros p. split; [intros [] | intros (_ & _ & _ & h & [] & _)].
  - inversion Hs as [|? ? Hst Hsg]; subst. rewrite Forall_forall in Hsg. apply proper_cons in Hp. destruct Hp as [Hpg Hpt].
    assert (Hbg : x <= clip w (sbeg g)) by (apply Hb; left; reflexivity).
    set (b1 := if sbeg g <? 0 then 0 else sbeg g). set (e1 := if sbeg g <? 0 then (if send g <? 0 then 0 else send g) else send g). rewrite !Z.gtb_ltb.
    set (b2 := if w <? e1 then (if w <? b1 then w else b1) else b1). set (e2 := if w <? e1 then w else e1).
    assert (Eb : b2 = clip w (sbeg g)).
    { unfold b2, e1, b1, clip. destruct (Z.ltb_spec (sbeg g) 0); [destruct (Z.ltb_spec (send g) 0)|];
        repeat match goal with |- context[if ?a <? ?b then _ else _] => destruct (Z.ltb_spec a b) end; lia. }
    assert (Ee : e2 = clip w (send g)).
    { unfold e2, e1, clip. destruct (Z.ltb_spec (sbeg g) 0); [destruct (Z.ltb_spec (send g) 0)|];
        repeat match goal with |- context[if ?a <? ?b then _ else _] => destruct (Z.ltb_spec a b) end; lia. }
    rewrite Eb, Ee. unfold clip in *.
    destruct (IH (Z.max 0 (Z.min w (send g))) (inside + sdir g) Hst Hpt ltac:(lia)) as (px & E & Ha & Hin).
    { intros h Hh. specialize (Hsg h Hh). lia. }
    exists ((if 0 <? inside then upTo x (Z.max 0 (Z.min w (sbeg g))) else []) ++ px). split; [|split].
    + destruct (0 <? inside); [rewrite setRun_spec by lia|]; cbn [bind]; rewrite E; cbn [bind fst snd app]; rewrite totalDir_cons; do 2 f_equal; lia.
    + apply ascZ_app; [destruct (0 <? inside); [apply (upTo_asc _ _ _ (Nat.le_refl _)) | constructor] | exact Ha|].
      intros a b Ha' Hb'. apply Hin in Hb'. destruct Hb' as ((Hb1 & _) & _ & _ & h & Hh & Hbh).
      destruct (0 <? inside); [|destruct Ha']. apply upTo_In in Ha'. lia.
    + intros p. rewrite in_app_iff, Hin, covered_cons, windLeft_cons. unfold covers.
      assert (Hup : In p (if 0 <? inside then upTo x (Z.max 0 (Z.min w (sbeg g))) else []) <-> inside > 0 /\ x <= p < Z.max 0 (Z.min w (sbeg g))).
      { destruct (Z.ltb_spec 0 inside); [rewrite upTo_In; lia|]. split; [intros [] | lia]. }
      rewrite Hup. split.
      * intros [(K1 & K2)|(K1 & K2 & K3 & h & Hh & K4)].
        { assert (W0 : windLeft t p = 0) by (apply windLeft_zero; intros h Hh; specialize (Hsg h Hh); specialize (Hpt h Hh); lia).
          split; [lia|]. split.
          - intros [C|(h & Hh & C)]; [lia|]. unfold covers in C. specialize (Hsg h Hh). lia.
          - rewrite W0. destruct (Z.leb_spec (send g) p); [lia|]. split; [lia|]. exists g. split; [left; reflexivity | lia]. }
        { split; [lia|]. split; [intros [C|C]; [lia | contradiction]|]. destruct (Z.leb_spec (send g) p); [|lia]. split; [lia|]. exists h. split; [right; exact Hh | exact K4]. }
      * intros (K1 & K2 & K3 & h & Hh & K4). destruct (Z.lt_ge_cases p (sbeg g)) as [L|L].
        { left. assert (W0 : windLeft t p = 0) by (apply windLeft_zero; intros h' Hh'; specialize (Hsg h' Hh'); specialize (Hpt h' Hh'); lia).
          rewrite W0 in K3. destruct (Z.leb_spec (send g) p); [lia|]. split; [lia|]. lia. }
        { right. assert (send g <= p) by (destruct (Z.lt_ge_cases p (send g)); [exfalso; apply K2; left; lia | assumption]).
          destruct (Z.leb_spec (send g) p); [|lia]. split; [lia|]. split; [intros C; apply K2; right; exact C|]. split; [lia|].
          destruct Hh as [<-|Hh]; [lia|]. exists h. auto. }
Qed.

Lemma fillRow_top w l : 0 <= w -> spaced l -> proper l ->
  exists px, fillRow w 0 0 l = Ok (px, totalDir l) /\ ascZ px /\
    (totalDir l = 0 -> forall p, In p px <-> 0 <= p < w /\ ~ covered l p /\ windLeft l p > 0).
Proof.
  intros Hw Hs Hp. destruct (fillRow_spec w l Hw 0 0 Hs Hp ltac:(lia)) as (px & E & Ha & Hin); [intros g _; unfold clip; lia|].
  exists px. split; [exact E|]. split; [exact Ha|]. intros Ht p. rewrite Hin. split; [intros (K1 & K2 & K3 & _); auto|].
  intros (K1 & K2 & K3). split; [exact K1|]. split; [exact K2|]. split; [lia|].
  assert (Hd : (exists g, In g l /\ p < sbeg g) \/ (forall g, In g l -> sbeg g <= p)).
  { clear. induction l as [|g t [(h & Hh & K)|IH]]; [right; intros g [] | left; exists h; split; [right|]; assumption |].
    destruct (Z.lt_ge_cases p (sbeg g)); [left; exists g; split; [left; reflexivity | assumption]|]. right. intros h [<-|Hh]; auto. }
  destruct Hd as [Hd|Hd]; [exact Hd|]. exfalso. rewrite windLeft_all in K3; [lia|]. intros g Hg. destruct (Z.lt_ge_cases p (send g)); [|assumption].
  exfalso. apply K2. exists g. split; [exact Hg|]. split; [apply Hd, Hg | assumption].
Qed.

Lemma NoDup_map_row (y : Z) (l : list Z) : NoDup l -> NoDup (map (fun x => (x, y)) l).
Proof. induction 1 as [|a l H _ IH]; cbn [map]; constructor; [|exact IH]. intros K. apply in_map_iff in K. destruct K as (b & E & K). congruence. Qed.

Lemma fillRows_spec w s : 0 <= w -> (forall y, spaced (lineOf s y)) -> properLines s -> forall n y endY, (Z.to_nat (endY - y) <= n)%nat -> sl_start s <= y -> endY <= endIndex s ->
  exists px b, fillRows n s w y endY = Ok (px, b) /\ (b = true <-> forall y', y <= y' < endY -> totalDir (lineOf s y') = 0) /\ NoDup px /\
    (forall p, In p px -> y <= snd p < endY) /\
    (b = true -> forall x y', In (x, y') px <-> (0 <= x < w /\ y <= y' < endY) /\ ~ covered (lineOf s y') x /\ windLeft (lineOf s y') x > 0).
Proof.
  intros Hw Hs Hp. induction n as [|n IH]; intros y endY Hn Hy He; cbn [fillRows]; destruct (Z.ltb_spec y endY) as [L|L]; try lia.
  1, 3: exists [], true; split; [reflexivity|]; split; [split; [intros _ y'; lia | reflexivity]|]; split; [constructor|]; split; [intros p []|]; intros _ x y'; split; [intros [] | lia].
  rewrite lineAt_in by lia. cbn [bind]. destruct (fillRow_top w (lineOf s y) Hw (Hs y) (Hp y)) as (r & Er & Ha & Hr). rewrite Er. cbn [bind fst snd].
  destruct (IH (y + 1) endY) as (px & b & E & Hb & Hnd & Hin & Hch); [lia..|]. rewrite E. cbn [bind fst snd].
  eexists _, _. split; [reflexivity|]. split; [|split; [|split]].
  - rewrite andb_true_iff, Hb, Z.eqb_eq. split.
    + intros [K1 K2] y' Hy'. destruct (Z.eq_dec y' y) as [->|]; [exact K1 | apply K2; lia].
    + intros K. split; [apply K; lia | intros y' Hy'; apply K; lia].
  - apply NoDup_app_intro; [apply NoDup_map_row, ascZ_NoDup, Ha | exact Hnd|]. intros p K1 K2. apply in_map_iff in K1. destruct K1 as (x & <- & _). specialize (Hin _ K2). cbn [snd] in Hin. lia.
  - intros p K. apply in_app_iff in K. destruct K as [K|K]; [apply in_map_iff in K; destruct K as (x & <- & _); cbn [snd]; lia | specialize (Hin p K); lia].
  - intros Hbt x y'. apply andb_true_iff in Hbt. destruct Hbt as [Ht Hb']. apply Z.eqb_eq in Ht. rewrite in_app_iff, (Hch Hb'). split.
    + intros [K|(K1 & K2 & K3)].
      * apply in_map_iff in K. destruct K as (x' & K & Hx'). injection K as -> ->. apply (Hr Ht) in Hx'. destruct Hx' as (K1 & K2 & K3). split; [lia|]. auto.
      * split; [lia|]. auto.
    + intros ((K1 & K1') & K2 & K3). destruct (Z.eq_dec y' y) as [->|Hn']; [left; apply in_map_iff; exists x; split; [reflexivity | apply (Hr Ht); auto]|]. right. split; [lia|]. auto.
Qed.

(** fillScannedPoly on normalised scanlines *)
Theorem fill_spec srt s w h : sorter srt -> properLines s -> 0 <= w ->
  let rows := fun y => 0 <= y < h /\ sl_start s <= y < endIndex s in
  ((forall y, rows y -> totalDir (lineOf s y) = 0) ->
     exists px, fillScannedPoly (normalize srt s) w h = Ok (px, Z.of_nat (length px)) /\ NoDup px /\
       (forall x y, In (x, y) px <-> 0 <= x < w /\ 0 <= y < h /\ ~ covered (lineOf s y) x /\ windLeft (lineOf s y) x > 0)) /\
  (~ (forall y, rows y -> totalDir (lineOf s y) = 0) -> fillScannedPoly (normalize srt s) w h = Exn).
Proof.
  intros Hsrt Hp Hw rows. set (s' := normalize srt s). destruct (normalize_domain srt s) as [D1 D2]. fold s' in D1, D2.
  assert (K : forall y, _) by (intros y; exact (normalizeLine_spec srt (lineOf s y) Hsrt (Hp y))).
  assert (L : forall y, lineOf s' y = normalizeLine srt (lineOf s y)) by (intros y; apply normalize_line, Hsrt).
  unfold fillScannedPoly. rewrite D1, D2.
  destruct (fillRows_spec w s' Hw) with (n := Z.to_nat (Z.min h (endIndex s) - Z.max 0 (sl_start s))) (y := Z.max 0 (sl_start s)) (endY := Z.min h (endIndex s)) as (px & b & E & Hb & Hnd & Hin & Hch).
  { intros y. rewrite L. apply (K y). } { intros y. rewrite L. apply (K y). } { lia. } { lia. } { lia. }
  rewrite E. cbn [bind fst snd].
  assert (Ht : (forall y, rows y -> totalDir (lineOf s y) = 0) <-> b = true).
  { rewrite Hb. split; intros T y Hy.
    - rewrite L. destruct (K y) as (_ & _ & _ & _ & K5). rewrite K5. apply T. unfold rows. lia.
    - specialize (T y). rewrite L in T. destruct (K y) as (_ & _ & _ & _ & K5). rewrite K5 in T. apply T. unfold rows in Hy. lia. }
  split.
  - intros T. apply Ht in T. subst b. exists px. split; [reflexivity|]. split; [exact Hnd|]. intros x y. rewrite (Hch eq_refl), L. destruct (K y) as (_ & _ & K3 & K4 & _). rewrite K3. split.
    + intros (H1 & H2 & H3). rewrite (K4 x H2) in H3. repeat split; try tauto; lia.
    + intros (H1 & H2 & H3 & H4). rewrite (K4 x H3). split; [|auto]. split; [lia|].
      assert (~ (y < sl_start s \/ endIndex s <= y)); [|lia]. intros O. rewrite (lineOf_out s y O) in H4. cbn in H4. lia.
  - intros T. destruct b; [exfalso; apply T, Ht; reflexivity | reflexivity].
Qed.

Lemma drawRow_spec w l : spaced l -> proper l -> exists px, drawRow w l = Ok px /\ ascZ px /\ (forall p, In p px <-> 0 <= p < w /\ covered l p).
Proof.
  induction l as [|g t IH]; intros Hs Hp; cbn [drawRow].
  - exists []. split; [reflexivity|]. split; [constructor|]. intros p. split; [intros [] | intros (_ & h & [] & _)].
  - inversion Hs as [|? ? Hst Hsg]; subst. rewrite Forall_forall in Hsg. apply proper_cons in Hp. destruct Hp as [Hpg Hpt].
    destruct (IH Hst Hpt) as (px & E & Ha & Hin). rewrite !Z.gtb_ltb.
    set (b := if sbeg g <? 0 then 0 else sbeg g). set (e := if w <? send g then w else send g).
    assert (Hb : b = Z.max 0 (sbeg g)) by (unfold b; destruct (Z.ltb_spec (sbeg g) 0); lia).
    assert (He : e = Z.min w (send g)) by (unfold e; destruct (Z.ltb_spec w (send g)); lia).
    rewrite setRun_spec by lia. cbn [bind]. rewrite E. cbn [bind]. exists (upTo b e ++ px). split; [reflexivity|]. split.
    + apply ascZ_app; [apply (upTo_asc _ _ _ (Nat.le_refl _)) | exact Ha|]. intros a c Ka Kc. apply upTo_In in Ka. apply Hin in Kc. destruct Kc as (_ & h & Hh & C). unfold covers in C. specialize (Hsg h Hh). lia.
    + intros p. rewrite in_app_iff, upTo_In, Hin, covered_cons. unfold covers. rewrite Hb, He. split.
      * intros [C|[C1 C2]]; [split; [lia | left; lia] | split; [exact C1 | right; exact C2]].
      * intros [C1 [C2|C2]]; [left; lia | right; auto].
Qed.

Lemma drawRows_spec w s : (forall y, spaced (lineOf s y)) -> properLines s -> forall n y endY, (Z.to_nat (endY - y) <= n)%nat -> sl_start s <= y -> endY <= endIndex s ->
  exists px, drawRows n s w y endY = Ok px /\ NoDup px /\ (forall x y', In (x, y') px <-> (0 <= x < w /\ y <= y' < endY) /\ covered (lineOf s y') x).
Proof.
  intros Hs Hp. induction n as [|n IH]; intros y endY Hn Hy He; cbn [drawRows]; destruct (Z.ltb_spec y endY) as [L|L]; try lia.
  1, 3: exists []; split; [reflexivity|]; split; [constructor|]; intros x y'; split; [intros [] | lia].
  rewrite lineAt_in by lia. cbn [bind]. destruct (drawRow_spec w (lineOf s y) (Hs y) (Hp y)) as (r & Er & Ha & Hr). rewrite Er. cbn [bind].
  destruct (IH (y + 1) endY) as (px & E & Hnd & Hin); [lia..|]. rewrite E. cbn [bind]. eexists. split; [reflexivity|]. split.
  - apply NoDup_app_intro; [apply NoDup_map_row, ascZ_NoDup, Ha | exact Hnd|]. intros [x y'] K1 K2. apply in_map_iff in K1. destruct K1 as (x' & K1 & _). injection K1 as -> <-. apply Hin in K2. lia.
  - intros x y'. rewrite in_app_iff, Hin. split.
    + intros [K|(K1 & K2)]; [|split; [lia | exact K2]]. apply in_map_iff in K. destruct K as (x' & K & Hx'). injection K as -> ->. apply Hr in Hx'. split; [lia | apply Hx'].
    + intros ((K1 & K1') & K2). destruct (Z.eq_dec y' y) as [->|Hn']; [left; apply in_map_iff; exists x; split; [reflexivity | apply Hr; auto]|]. right. split; [lia | exact K2].
Qed.

(** drawScannedPoly on normalised scanlines *)
Theorem draw_spec srt s w h : sorter srt -> properLines s ->
  exists px, drawScannedPoly (normalize srt s) w h = Ok (px, Z.of_nat (length px)) /\ NoDup px /\
    (forall x y, In (x, y) px <-> 0 <= x < w /\ 0 <= y < h /\ covered (lineOf s y) x).
Proof.
  intros Hsrt Hp. set (s' := normalize srt s). destruct (normalize_domain srt s) as [D1 D2]. fold s' in D1, D2.
  assert (K : forall y, _) by (intros y; exact (normalizeLine_spec srt (lineOf s y) Hsrt (Hp y))).
  assert (L : forall y, lineOf s' y = normalizeLine srt (lineOf s y)) by (intros y; apply normalize_line, Hsrt).
  unfold drawScannedPoly. rewrite D1, D2.
  destruct (drawRows_spec w s') with (n := Z.to_nat (Z.min h (endIndex s) - Z.max 0 (sl_start s))) (y := Z.max 0 (sl_start s)) (endY := Z.min h (endIndex s)) as (px & E & Hnd & Hin).
  { intros y. rewrite L. apply (K y). } { intros y. rewrite L. apply (K y). } { lia. } { lia. } { lia. }
  rewrite E. cbn [bind]. exists px. split; [reflexivity|]. split; [exact Hnd|]. intros x y. rewrite Hin, L. destruct (K y) as (_ & _ & K3 & _). rewrite K3. split.
  - intros (H1 & H2). repeat split; try tauto; lia.
  - intros (H1 & H2 & H3). split; [|exact H3]. split; [lia|].
    assert (~ (y < sl_start s \/ endIndex s <= y)); [|lia]. intros O. rewrite (lineOf_out s y O) in H3. destruct (covered_nil x H3).
Qed.

(** ** ScanlinesIter *)
Fixpoint flatFrom (y : Z) (ls : list (list seg)) : list (Z * seg) :=
  match ls with [] => [] | l :: t => map (fun g => (y, g)) l ++ flatFrom (y + 1) t end.
Definition flat (s : scanlines) (y : Z) (i : nat) : list (Z * seg) :=
  map (fun g => (y, g)) (skipn i (lineOf s y)) ++ flatFrom (y + 1) (skipn (S (Z.to_nat (y - sl_start s))) (sl_lines s)).
Definition runPx (x y : Z) (g : seg) : list (Z * Z) := map (fun x => (x, y)) (upTo x (send g)).
Definition flatPx (l : list (Z * seg)) : list (Z * Z) := flat_map (fun e => runPx (sbeg (snd e)) (fst e) (snd e)) l.

Lemma flatPx_from ls : forall y, flatPx (flatFrom y ls) = pixelsFrom y ls.
Proof.
  induction ls as [|l t IH]; intros y; [reflexivity|]. cbn [flatFrom pixelsFrom]. unfold flatPx in *. rewrite flat_map_app, IH. f_equal.
  induction l as [|g l IHl]; [reflexivity|]. cbn [map flat_map fst snd]. rewrite IHl. reflexivity.
Qed.

Lemma skipn_nth_S {A} (l : list A) k d : (k < length l)%nat -> skipn k l = nth k l d :: skipn (S k) l.
Proof. revert k. induction l as [|h t IH]; intros [|k] H; cbn [length] in H; try lia; [reflexivity|]. cbn [skipn nth]. rewrite (IH k) by lia. reflexivity. Qed.

Lemma flat_line s y : sl_start s <= y -> flatFrom y (skipn (Z.to_nat (y - sl_start s)) (sl_lines s)) = flat s y 0.
Proof.
  intros H. unfold flat. cbn [skipn]. set (k := Z.to_nat (y - sl_start s)). destruct (Nat.lt_ge_cases k (length (sl_lines s))) as [L|L].
  - rewrite (skipn_nth_S _ k [] L). cbn [flatFrom]. f_equal. unfold lineOf. destruct (Z.ltb_spec y (sl_start s)); [lia|]. reflexivity.
  - rewrite skipn_all2 by exact L. rewrite (lineOf_out s y) by (right; unfold endIndex; lia). destruct (sl_lines s) as [|h t]; [reflexivity|].
    cbn [skipn]. rewrite skipn_all2 by (cbn [length] in L; lia). reflexivity.
Qed.

Lemma flat_next s y i : sl_start s <= y -> (length (lineOf s y) <= i)%nat -> flat s y i = flat s (y + 1) 0.
Proof.
  intros H Hi. unfold flat at 1. rewrite skipn_all2 by exact Hi. cbn [map app]. rewrite <- flat_line by lia.
  replace (Z.to_nat (y + 1 - sl_start s)) with (S (Z.to_nat (y - sl_start s))) by lia. reflexivity.
Qed.

Lemma flat_here s y i g : nth_error (lineOf s y) i = Some g -> flat s y i = (y, g) :: flat s y (S i).
Proof.
  intros H. unfold flat. assert (i < length (lineOf s y))%nat by (apply nth_error_Some; congruence). rewrite (skipn_nth_S _ i g) by assumption.
  rewrite (nth_error_nth _ _ g H). reflexivity.
Qed.

Lemma flat_end s y : endIndex s <= y -> sl_start s <= y -> flat s y 0 = [].
Proof.
  intros H H0. rewrite <- flat_line by exact H0. rewrite skipn_all2; [reflexivity|]. unfold endIndex in H. lia.
Qed.

Lemma skipLines_spec s x : forall n y i, sl_start s <= y < endIndex s -> (Z.to_nat (endIndex s - y) <= S n)%nat ->
  (exists y' i' g, skipLines n s x y i = Ok (mkSIt x y' i', true) /\ sl_start s <= y' < endIndex s /\
     nth_error (lineOf s y') i' = Some g /\ flat s y i = (y', g) :: flat s y' (S i')) \/
  (exists i', skipLines n s x y i = Ok (mkSIt x (endIndex s) i', false) /\ flat s y i = []).
Proof.
  induction n as [|n IH]; intros y i Hy Hn; cbn [skipLines]; rewrite lineAt_in by exact Hy; cbn [bind];
    (destruct (Nat.ltb_spec i (length (lineOf s y))) as [L|L];
      [left; destruct (nth_error_ex (lineOf s y) i L) as [g Hg]; exists y, i, g; split; [reflexivity|]; split; [exact Hy|]; split; [exact Hg | apply flat_here, Hg]|]);
    rewrite Z.geb_leb; destruct (Z.leb_spec (endIndex s) (y + 1)) as [E|E].
  - right. exists i. replace (y + 1) with (endIndex s) by lia. split; [reflexivity|]. rewrite flat_next by (lia || exact L). apply flat_end; lia.
  - lia.
  - right. exists i. replace (y + 1) with (endIndex s) by lia. split; [reflexivity|]. rewrite flat_next by (lia || exact L). apply flat_end; lia.
  - rewrite (flat_next s y i) by (lia || exact L). apply IH; lia.
Qed.

Lemma runPx_nil x y g : send g <= x -> runPx x y g = [].
Proof. intros H. unfold runPx. rewrite upTo_nil by lia. reflexivity. Qed.

Definition vIt (s : scanlines) (it : sliter) (g : seg) : Prop :=
  sl_start s <= si_y it < endIndex s /\ nth_error (lineOf s (si_y it)) (si_i it) = Some g.
Definition rest (s : scanlines) (it : sliter) (g : seg) : list (Z * Z) :=
  runPx (si_x it) (si_y it) g ++ flatPx (flat s (si_y it) (S (si_i it))).

Lemma validLoop_spec s : forall n it g, vIt s it g -> (length (flat s (si_y it) (S (si_i it))) < n)%nat ->
  (exists it' g', validLoop n s it = Ok it' /\ vIt s it' g' /\ si_x it' < send g' /\ rest s it' g' = rest s it g /\
     (length (flat s (si_y it') (S (si_i it'))) <= length (flat s (si_y it) (S (si_i it))))%nat) \/
  (exists it', validLoop n s it = Ok it' /\ si_y it' = endIndex s /\ rest s it g = []).
Proof.
  induction n as [|n IH]; intros it g [Hy Hg] Hn; [lia|]. cbn [validLoop]. rewrite lineAt_in by exact Hy. cbn [bind].
  rewrite (proj2 (vget_Ok _ _ _) Hg). cbn [bind]. rewrite Z.geb_leb. destruct (Z.leb_spec (send g) (si_x it)) as [L|L].
  - unfold rest at 2 3. rewrite (runPx_nil _ _ _ L). cbn [app].
    destruct (skipLines_spec s (si_x it) (length (sl_lines s)) (si_y it) (S (si_i it)) Hy ltac:(unfold endIndex in *; lia)) as [(y' & i' & g' & E & Hy' & Hg' & F)|(i' & E & F)];
      rewrite E; cbn [bind fst snd si_x si_y si_i].
    + rewrite lineAt_in by exact Hy'. cbn [bind]. rewrite (proj2 (vget_Ok _ _ _) Hg'). cbn [bind].
      destruct (IH (mkSIt (sbeg g') y' i') g') as [(it'' & g'' & E' & V & X & R & Le)|(it'' & E' & Ye & R)].
      * split; assumption.
      * cbn [si_y si_i]. rewrite F in Hn. cbn [length] in Hn. lia.
      * left. exists it'', g''. split; [exact E'|]. split; [exact V|]. split; [exact X|]. cbn [si_y si_i] in Le. rewrite F. cbn [length]. split; [|lia].
        rewrite R. unfold rest. cbn [si_x si_y si_i]. reflexivity.
      * right. exists it''. split; [exact E'|]. split; [exact Ye|]. rewrite F. unfold rest in R. cbn [si_x si_y si_i] in R. exact R.
    + right. exists (mkSIt (si_x it) (endIndex s) i'). split; [reflexivity|]. split; [reflexivity|]. rewrite F. reflexivity.
  - left. exists it, g. split; [reflexivity|]. split; [split; assumption|]. split; [exact L|]. split; [reflexivity | lia].
Qed.

Lemma flatFrom_length ls : forall y, length (flatFrom y ls) = length (concat ls).
Proof. induction ls as [|l t IH]; intros y; [reflexivity|]. cbn [flatFrom concat]. rewrite !app_length, map_length, IH. reflexivity. Qed.

Lemma concat_skipn {A} k : forall ls : list (list A), (length (concat (skipn k ls)) <= length (concat ls))%nat.
Proof. induction k as [|k IH]; intros [|l t]; cbn [skipn concat]; try lia. specialize (IH t). rewrite app_length. lia. Qed.

Lemma flat_length s y i : sl_start s <= y -> (length (flat s y i) <= segCount s)%nat.
Proof.
  intros H. apply Nat.le_trans with (length (flat s y 0)).
  - unfold flat. rewrite !app_length, !map_length, !skipn_length. lia.
  - rewrite <- flat_line by exact H. rewrite flatFrom_length. apply concat_skipn.
Qed.

Lemma slDrain_spec s : forall n it g, vIt s it g -> si_x it < send g -> (length (rest s it g) <= n)%nat -> slDrain n s it = Ok (rest s it g).
Proof.
  induction n as [|n IH]; intros it g V X Hn; pose proof V as [Hy Hg]; cbn [slDrain]; unfold slAtEnd; rewrite Z.geb_leb; destruct (Z.leb_spec (endIndex s) (si_y it)); try lia.
  - unfold rest, runPx in Hn. rewrite (upTo_cons _ _ X) in Hn. cbn in Hn. lia.
  - unfold slNext, slAtEnd. rewrite Z.geb_leb. destruct (Z.leb_spec (endIndex s) (si_y it)); [lia|].
    assert (Er : rest s it g = (si_x it, si_y it) :: rest s (mkSIt (si_x it + 1) (si_y it) (si_i it)) g).
    { unfold rest, runPx. cbn [si_x si_y si_i]. rewrite (upTo_cons _ _ X). reflexivity. }
    rewrite Er in Hn. cbn [length] in Hn.
    destruct (validLoop_spec s (S (segCount s)) (mkSIt (si_x it + 1) (si_y it) (si_i it)) g) as [(it' & g' & E & V' & X' & R & _)|(it' & E & Ye & R)].
    + split; assumption.
    + cbn [si_y si_i]. pose proof (flat_length s (si_y it) (S (si_i it)) ltac:(lia)). lia.
    + unfold ensureValid. rewrite E. cbn [bind]. rewrite (IH it' g' V' X') by (rewrite R; lia). cbn [bind]. rewrite Er, R. reflexivity.
    + unfold ensureValid. rewrite E. cbn [bind]. rewrite Er, R.
      replace (slDrain n s it') with (@Ok (list (Z * Z)) []); [reflexivity|]. destruct n; cbn [slDrain]; unfold slAtEnd; rewrite Z.geb_leb, Ye; destruct (Z.leb_spec (endIndex s) (endIndex s)); reflexivity || lia.
Qed.

Lemma firstLine_spec s : forall n y, sl_start s <= y <= endIndex s -> (Z.to_nat (endIndex s - y) <= n)%nat ->
  exists y', firstLine n s y = Ok y' /\ y <= y' <= endIndex s /\ flat s y' 0 = flat s y 0 /\ (y' < endIndex s -> lineOf s y' <> []).
Proof.
  induction n as [|n IH]; intros y Hy Hn; cbn [firstLine]; rewrite Z.geb_leb; destruct (Z.leb_spec (endIndex s) y) as [L|L]; try lia;
    try (exists y; split; [reflexivity|]; split; [lia|]; split; [reflexivity | lia]).
  rewrite lineAt_in by lia. cbn [bind]. destruct (lineOf s y) as [|g t] eqn:El.
  - destruct (IH (y + 1)) as (y' & E & H1 & H2 & H3); [lia..|]. exists y'. split; [exact E|]. split; [lia|]. split; [|exact H3].
    rewrite H2. symmetry. apply flat_next; [lia|]. rewrite El. cbn. lia.
  - exists y. split; [reflexivity|]. split; [lia|]. split; [reflexivity|]. intros _. rewrite El. discriminate.
Qed.

(** the iterator yields every covered pixel in order *)
Theorem sliter_spec s n : (0 < segCount s)%nat -> (length (allPixels s) <= n)%nat ->
  (it <- slBegin s ;; slDrain n s it) = Ok (allPixels s).
Proof.
  intros Hc Hn. unfold slBegin.
  destruct (firstLine_spec s (length (sl_lines s)) (sl_start s)) as (y & E & Hy & F & Hne); [unfold endIndex; lia..|].
  assert (Fa : flatPx (flat s y 0) = allPixels s).
  { rewrite F, <- flat_line by lia. rewrite Z.sub_diag. cbn [Z.to_nat skipn]. apply flatPx_from. }
  rewrite E. cbn [bind]. destruct (Z.ltb_spec y (endIndex s)) as [L|L].
  - rewrite lineAt_in by lia. cbn [bind]. specialize (Hne L). destruct (lineOf s y) as [|g t] eqn:El; [destruct (Hne eq_refl)|]. cbn [vget nth_error bind].
    assert (Hg : nth_error (lineOf s y) 0 = Some g) by (rewrite El; reflexivity).
    assert (Er : rest s (mkSIt (sbeg g) y 0) g = allPixels s) by (rewrite <- Fa, (flat_here s y 0 g Hg); reflexivity).
    unfold ensureValid. destruct (validLoop_spec s (S (segCount s)) (mkSIt (sbeg g) y 0) g) as [(it' & g' & E' & V' & X' & R & _)|(it' & E' & Ye & R)].
    + split; [cbn; lia | exact Hg].
    + cbn [si_y si_i]. pose proof (flat_length s y 1 ltac:(lia)). lia.
    + rewrite E'. cbn [bind]. rewrite (slDrain_spec s n it' g' V' X') by (rewrite R, Er; exact Hn). rewrite R, Er. reflexivity.
    + rewrite E'. cbn [bind]. rewrite Er in R. rewrite R. destruct n; cbn [slDrain]; unfold slAtEnd; rewrite Z.geb_leb, Ye; destruct (Z.leb_spec (endIndex s) (endIndex s)); reflexivity || lia.
  - exfalso. assert (y = endIndex s) by lia. subst y. rewrite flat_end in F by lia. rewrite <- flat_line in F by lia. rewrite Z.sub_diag in F. cbn [Z.to_nat skipn] in F.
    apply (f_equal (@length _)) in F. rewrite flatFrom_length in F. cbn in F. unfold segCount in Hc. lia.
Qed.

(** an iterator over scanlines without segments reads outside the line array *)
Theorem sliter_empty s : segCount s = 0%nat -> slBegin s = UB.
Proof.
  intros Hc. unfold slBegin. destruct (firstLine_spec s (length (sl_lines s)) (sl_start s)) as (y & E & Hy & F & Hne); [unfold endIndex; lia..|].
  rewrite E. cbn [bind]. destruct (Z.ltb_spec y (endIndex s)) as [L|L].
  - exfalso. specialize (Hne L). destruct (lineOf s y) as [|g t] eqn:El; [destruct (Hne eq_refl)|]. pose proof (flat_length s y 0 ltac:(lia)) as K.
    rewrite (flat_here s y 0 g) in K by (rewrite El; reflexivity). cbn [length] in K. lia.
  - unfold ensureValid. cbn [validLoop si_y]. rewrite lineAt_lineOf. destruct (Z.leb_spec (endIndex s) y); [|lia]. rewrite orb_true_r. reflexivity.
Qed.

Lemma pixelsFrom_In ls : forall y0 x y, In (x, y) (pixelsFrom y0 ls) <-> y0 <= y < y0 + Z.of_nat (length ls) /\ covered (nth (Z.to_nat (y - y0)) ls []) x.
Proof.
  assert (L : forall (l : list seg) (y0 x y : Z), In (x, y) (flat_map (fun g => map (fun x => (x, y0)) (map (fun k => sbeg g + Z.of_nat k) (seq 0 (Z.to_nat (send g - sbeg g))))) l) <-> y = y0 /\ covered l x).
  { intros l y0 x y. rewrite in_flat_map. split.
    - intros (g & Hg & K). apply in_map_iff in K. destruct K as (x' & K & Hx'). injection K as -> <-. split; [reflexivity|].
      apply in_map_iff in Hx'. destruct Hx' as (k & <- & Hk). apply in_seq in Hk. exists g. split; [exact Hg|]. unfold covers. lia.
    - intros [-> (g & Hg & C)]. exists g. split; [exact Hg|]. apply in_map_iff. exists x. split; [reflexivity|]. unfold covers in C. apply in_map_iff. exists (Z.to_nat (x - sbeg g)). split; [lia|]. apply in_seq. lia. }
  induction ls as [|l t IH]; intros y0 x y; cbn [pixelsFrom length].
  - split; [intros [] | lia].
  - rewrite in_app_iff, L, IH. split.
    + intros [[-> C]|[C1 C2]].
      * split; [lia|]. rewrite Z.sub_diag. exact C.
      * split; [lia|]. replace (Z.to_nat (y - y0)) with (S (Z.to_nat (y - (y0 + 1)))) by lia. exact C2.
    + intros [C1 C2]. destruct (Z.eq_dec y y0) as [->|Hn]; [left; rewrite Z.sub_diag in C2; auto|]. right. split; [lia|].
      replace (Z.to_nat (y - y0)) with (S (Z.to_nat (y - (y0 + 1)))) in C2 by lia. exact C2.
Qed.
Theorem allPixels_In s x y : In (x, y) (allPixels s) <-> covered (lineOf s y) x.
Proof.
  unfold allPixels. rewrite pixelsFrom_In. unfold lineOf. destruct (Z.ltb_spec y (sl_start s)) as [L|L].
  - split; [lia | intros C; destruct (covered_nil _ C)].
  - split; [intros [_ C]; exact C|]. intros C. split; [|exact C]. split; [exact L|]. destruct (Nat.lt_ge_cases (Z.to_nat (y - sl_start s)) (length (sl_lines s))); [lia|].
    rewrite nth_overflow in C by assumption. destruct (covered_nil _ C).
Qed.
