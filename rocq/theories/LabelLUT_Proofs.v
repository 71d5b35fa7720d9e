From Verif Require Import Base LabelLUT_Model LabelLUT_Spec.

Fixpoint linked (prv : list nat) (L : list nat) : Prop :=
  match L with
  | [] => False
  | [x] => nth_error prv x = Some x
  | x :: ((y :: _) as t) => nth_error prv x = Some y /\ x <> y /\ linked prv t
  end.

Lemma linked_cons prv x y t :
  linked prv (x :: y :: t) <-> nth_error prv x = Some y /\ x <> y /\ linked prv (y :: t).
Proof. reflexivity. Qed.

Record inv (t : lut) (past : list op) (n : nat) : Prop := {
  inv_len1 : length (labelLUT t) = n;
  inv_len2 : length (prevMerged t) = n;
  inv_rep : forall l, l < n -> exists r,
      nth_error (labelLUT t) l = Some r /\ r < n /\ ~ absorbed past r /\ same past l r;
  inv_same : forall l l', l < n -> l' < n -> same past l l' ->
      nth_error (labelLUT t) l = nth_error (labelLUT t) l';
  inv_self : forall r, r < n -> ~ absorbed past r -> nth_error (labelLUT t) r = Some r;
  inv_chain : forall r, r < n -> ~ absorbed past r -> exists L,
      linked (prevMerged t) (r :: L) /\ NoDup (r :: L) /\
      forall x, In x (r :: L) <-> nth_error (labelLUT t) x = Some r;
  inv_past : forall a b, In (Relabel a b) past -> a < n /\ b < n
}.

Lemma same_bound past n :
  (forall a b, In (Relabel a b) past -> a < n /\ b < n) ->
  forall a b, same past a b -> a = b \/ (a < n /\ b < n).
Proof.
  intros H a b E; induction E as [a b E | a | a b E IH | a b c E1 IH1 E2 IH2].
  - right; eauto.
  - left; reflexivity.
  - destruct IH as [->|[? ?]]; auto.
  - destruct IH1 as [->|[? ?]], IH2 as [->|[? ?]]; auto.
Qed.

Lemma same_mono past past' a b :
  (forall x y, In (Relabel x y) past -> In (Relabel x y) past') ->
  same past a b -> same past' a b.
Proof.
  intros H E; induction E.
  - apply rst_step; auto.
  - apply rst_refl.
  - apply rst_sym; auto.
  - eapply rst_trans; eauto.
Qed.

Lemma absorbed_app past o l :
  absorbed (past ++ [o]) l <-> absorbed past l \/ exists g, o = Relabel l g.
Proof.
  unfold absorbed; split.
  - intros [g H]; apply in_app_or in H; destruct H as [H|[H|[]]]; eauto.
  - intros [[g H]|[g ->]]; exists g; apply in_or_app; [left; auto|right; left; auto].
Qed.

Lemma init_inv n : inv (initIdentity n) [] n.
Proof.
  assert (N : forall l, l < n -> nth_error (seq 0 n) l = Some l).
  { intros l H. rewrite (nth_error_nth' _ 0) by (rewrite seq_length; auto).
    rewrite seq_nth by auto. reflexivity. }
  assert (NA : forall l, ~ absorbed [] l) by (intros l [g []]).
  constructor; simpl.
  - apply seq_length.
  - apply seq_length.
  - intros l H; exists l; repeat split; auto. apply rst_refl.
  - intros l l' _ _ E. apply same_bound with (n := 0) in E; [|intros ? ? []].
    destruct E as [->|]; [auto|lia].
  - auto.
  - intros r H _; exists []; simpl; split; [auto|split].
    + constructor; [simpl; tauto|constructor].
    + intros x; split.
      * intros [->|[]]; auto.
      * intros E. left. assert (x < n) by (apply nth_error_lt in E; rewrite seq_length in E; auto).
        rewrite N in E by auto. inversion E; auto.
  - intros ? ? [].
Qed.

Lemma nth_error_snoc {A} (v : list A) a i :
  nth_error (v ++ [a]) i = if Nat.eqb i (length v) then Some a else nth_error v i.
Proof.
  destruct (Nat.eqb_spec i (length v)) as [->|H].
  - rewrite nth_error_app2 by lia. rewrite Nat.sub_diag. reflexivity.
  - destruct (Nat.lt_ge_cases i (length v)).
    + apply nth_error_app1; auto.
    + rewrite nth_error_app2 by lia.
      destruct (i - length v) as [|k] eqn:E; [lia|]. simpl.
      assert (nth_error v i = None) as -> by (apply nth_error_None; lia).
      destruct k; reflexivity.
Qed.

Lemma linked_ext prv prv' L :
  (forall x, In x L -> nth_error prv' x = nth_error prv x) ->
  linked prv L -> linked prv' L.
Proof.
  induction L as [|x [|y t] IH]; intros H; auto.
  - simpl. intros E; rewrite H; simpl; auto.
  - rewrite !linked_cons. intros (E1 & E2 & E3); repeat split; auto.
    + rewrite H; simpl; auto.
    + apply IH; auto. intros z Hz; apply H; right; auto.
Qed.

Lemma append_inv t past n : inv t past n -> inv (appendOne t) (past ++ [AppendOne]) (S n).
Proof.
  intros I. destruct I as [L1 L2 R SM SF CH PA].
  assert (INP : forall a b, In (Relabel a b) (past ++ [AppendOne]) <-> In (Relabel a b) past).
  { intros a b; rewrite in_app_iff; simpl; intuition congruence. }
  assert (AB : forall l, absorbed (past ++ [AppendOne]) l <-> absorbed past l).
  { intros l; rewrite absorbed_app; split; [intros [H|[g H]]; [auto|discriminate]|auto]. }
  assert (SA : forall a b, same (past ++ [AppendOne]) a b <-> same past a b).
  { intros a b; split; apply same_mono; intros x y; apply INP. }
  assert (ABn : ~ absorbed past n).
  { intros [g Hg]; apply PA in Hg; lia. }
  constructor; cbn [appendOne labelLUT prevMerged].
  - rewrite app_length, L1; simpl; lia.
  - rewrite app_length, L2; simpl; lia.
  - intros l Hl. rewrite nth_error_snoc, L1.
    destruct (Nat.eqb_spec l n) as [->|Hn].
    + exists n; repeat split; auto. rewrite AB; auto. apply rst_refl.
    + destruct (R l) as (r & E & Hr & Ha & Hs); [lia|].
      exists r; repeat split; auto. rewrite AB; auto. apply SA; auto.
  - intros l l' Hl Hl' E. apply SA in E. rewrite !nth_error_snoc, L1.
    pose proof (same_bound past n PA l l' E) as B.
    destruct (Nat.eqb_spec l n), (Nat.eqb_spec l' n); auto.
    + destruct B as [->|[? ?]]; lia.
    + destruct B as [->|[? ?]]; lia.
    + apply SM; auto; lia.
  - intros r Hr Ha. rewrite AB in Ha. rewrite nth_error_snoc, L1.
    destruct (Nat.eqb_spec r n) as [->|Hn]; auto. apply SF; auto; lia.
  - intros r Hr Ha. rewrite AB in Ha.
    destruct (Nat.eq_dec r n) as [->|Hn].
    + exists []; split; [|split].
      * simpl. rewrite nth_error_snoc, L2, Nat.eqb_refl; auto.
      * constructor; [simpl; tauto|constructor].
      * intros x. rewrite nth_error_snoc, L1. split.
        -- intros [<-|[]]. rewrite Nat.eqb_refl; auto.
        -- destruct (Nat.eqb_spec x n); [simpl; auto|]. intros E.
           assert (x < n) by (apply nth_error_lt in E; lia).
           destruct (R x) as (r & E' & Hr' & _); auto. rewrite E in E'. inversion E'; lia.
    + destruct (CH r) as (L & HL & ND & HI); [lia|auto|].
      assert (BD : forall x, In x (r :: L) -> x < n).
      { intros x Hx. apply HI in Hx. apply nth_error_lt in Hx. lia. }
      exists L; split; [|split; auto].
      * eapply linked_ext; [|exact HL]. intros x Hx. rewrite nth_error_snoc, L2.
        specialize (BD x Hx). destruct (Nat.eqb_spec x n); [lia|auto].
      * intros x. rewrite nth_error_snoc, L1.
        destruct (Nat.eqb_spec x n) as [->|Hx]; [|apply HI].
        split; [intros Hx; specialize (BD n Hx); lia|intros E; inversion E; lia].
  - intros a b H. apply INP in H. apply PA in H; lia.
Qed.

(** the relabel loop over a linked chain *)
Lemma relabel_loop_spec prv to : forall L fuel lab x,
  linked prv (x :: L) -> NoDup (x :: L) ->
  (forall y, In y (x :: L) -> y < length lab) ->
  length L < fuel ->
  exists lab' last,
    relabel_loop fuel lab prv x to = Ok (lab', last) /\
    length lab' = length lab /\
    In last (x :: L) /\ nth_error prv last = Some last /\
    (forall y, nth_error lab' y = if in_dec Nat.eq_dec y (x :: L) then Some to else nth_error lab y).
Proof.
  induction L as [|y L IH]; intros [|fuel] lab x HL ND B F; simpl in F; try lia.
  - simpl in HL. exists (list_upd lab x to), x. cbn [relabel_loop].
    unfold vset. destruct (Nat.ltb_spec x (length lab)) as [Hx|Hx];
      [|specialize (B x (or_introl eq_refl)); lia].
    cbn [bind]. unfold vget; rewrite HL; cbn [bind]. rewrite Nat.eqb_refl.
    repeat split; auto. apply list_upd_length. left; auto.
    intros z. rewrite nth_error_upd. destruct (Nat.eqb_spec x z) as [->|Hz].
    + destruct (in_dec _ z [z]) as [_|N]; [|elim N; left; auto].
      destruct (Nat.ltb_spec z (length lab)); auto; lia.
    + destruct (in_dec _ z [x]) as [[->|[]]|_]; [congruence|auto].
  - rewrite linked_cons in HL. destruct HL as (E & Hxy & HL).
    inversion ND as [|? ? Hni ND']; subst.
    assert (Hx : x < length lab) by (apply B; left; auto).
    destruct (IH fuel (list_upd lab x to) y HL ND') as (lab' & last & E' & Len & Hin & Hlast & Hspec).
    { intros z Hz. rewrite list_upd_length. apply B; right; auto. }
    { lia. }
    exists lab', last. cbn [relabel_loop]. unfold vset.
    destruct (Nat.ltb_spec x (length lab)); [|lia]. cbn [bind].
    unfold vget; rewrite E; cbn [bind]. destruct (Nat.eqb_spec y x); [congruence|].
    repeat split; auto.
    + rewrite Len, list_upd_length; auto.
    + right; auto.
    + intros z. rewrite Hspec, nth_error_upd.
      destruct (in_dec Nat.eq_dec z (y :: L)) as [Hz|Hz].
      * destruct (in_dec Nat.eq_dec z (x :: y :: L)) as [_|N]; auto. elim N; right; auto.
      * destruct (Nat.eqb_spec x z) as [->|Hxz].
        -- destruct (in_dec _ z (z :: y :: L)) as [_|N]; [|elim N; left; auto].
           destruct (Nat.ltb_spec z (length lab)); auto; lia.
        -- destruct (in_dec _ z (x :: y :: L)) as [[?|?]|_]; auto; [congruence|contradiction].
Qed.

Lemma linked_end prv x L : linked prv (x :: L) -> exists L' e, x :: L = L' ++ [e] /\ nth_error prv e = Some e.
Proof.
  revert x; induction L as [|y L IH]; intros x H.
  - exists [], x; auto.
  - rewrite linked_cons in H; destruct H as (_ & _ & H).
    destruct (IH y H) as (L' & e & E & He). exists (x :: L'), e; split; auto.
    simpl; rewrite E; auto.
Qed.

Lemma linked_self_is_end prv x L e :
  linked prv (x :: L) -> In e (x :: L) -> nth_error prv e = Some e -> exists L', x :: L = L' ++ [e].
Proof.
  revert x; induction L as [|y L IH]; intros x H HI He.
  - destruct HI as [->|[]]; exists []; auto.
  - rewrite linked_cons in H; destruct H as (E & N & H).
    destruct HI as [->|HI]; [congruence|].
    destruct (IH y H HI He) as (L' & E'). exists (x :: L'); simpl; rewrite E'; auto.
Qed.

(** Concatenating chains: replacing the end link of a chain. *)
Lemma linked_app prv prv' L e y M :
  linked prv (L ++ [e]) -> NoDup (L ++ [e]) ->
  (forall x, In x L -> nth_error prv' x = nth_error prv x) ->
  nth_error prv' e = Some y -> e <> y -> linked prv' (y :: M) ->
  linked prv' ((L ++ [e]) ++ y :: M).
Proof.
  revert e y M; induction L as [|x L IH]; intros e y M HL ND Hx He Hey HM.
  - simpl. split; [auto|split; auto].
  - simpl in ND; inversion ND; subst.
    assert (exists z T, L ++ [e] = z :: T) as (z & T & EL).
    { destruct L; simpl; eauto. }
    assert (HL' : linked prv (L ++ [e])).
    { simpl app in HL; rewrite EL in HL |- *; rewrite linked_cons in HL; tauto. }
    pose proof (IH e y M HL' H2 (fun w Hw => Hx w (or_intror Hw)) He Hey HM) as R.
    simpl app in *. rewrite EL in HL, R |- *. rewrite linked_cons in HL.
    change ((z :: T) ++ y :: M) with (z :: (T ++ y :: M)) in *.
    rewrite linked_cons. destruct HL as (Q1 & Q2 & Q3).
    repeat split; auto. rewrite Hx; [auto|left; auto].
Qed.

Lemma relabel_inv t past n f g :
  inv t past n -> f < n -> g < n -> f <> g -> ~ absorbed past f -> ~ absorbed past g ->
  exists t', relabel t f g = Ok t' /\ inv t' (past ++ [Relabel f g]) n.
Proof.
  intros I Hf Hg Hfg Af Ag. destruct I as [L1 L2 R SM SF CH PA].
  destruct (CH f Hf Af) as (Lf & HLf & NDf & HIf).
  destruct (CH g Hg Ag) as (Lg & HLg & NDg & HIg).
  assert (Bf : forall y, In y (f :: Lf) -> y < length (labelLUT t)).
  { intros y Hy. apply HIf in Hy. eapply nth_error_lt; eauto. }
  assert (Bg : forall y, In y (g :: Lg) -> y < length (labelLUT t)).
  { intros y Hy. apply HIg in Hy. eapply nth_error_lt; eauto. }
  assert (LenF : length (f :: Lf) <= n).
  { rewrite <- (seq_length n 0). apply NoDup_incl_length; auto.
    intros y Hy; apply in_seq. specialize (Bf y Hy). lia. }
  destruct (relabel_loop_spec (prevMerged t) g Lf (S (length (prevMerged t))) (labelLUT t) f
              HLf NDf Bf) as (lab' & last & E & Len & Hin & Hlast & Hspec).
  { simpl in LenF. lia. }
  assert (DISJ : forall x, In x (f :: Lf) -> ~ In x (g :: Lg)).
  { intros x X1 X2. apply HIf in X1; apply HIg in X2. congruence. }
  (* membership in the new chain for g and its labels *)
  assert (MEM : forall x, In x (g :: (f :: Lf) ++ Lg) <-> nth_error lab' x = Some g).
  { intros x. rewrite Hspec. destruct (in_dec Nat.eq_dec x (f :: Lf)) as [Hx|Hx].
    - split; auto. intros _. right. apply in_or_app; auto.
    - rewrite <- HIg. split.
      + intros [->|H]; [left; auto|]. apply in_app_or in H; destruct H; [contradiction|right; auto].
      + intros [->|H]; [left; auto|right; apply in_or_app; auto]. }
  assert (NDN : NoDup (g :: (f :: Lf) ++ Lg)).
  { inversion NDg; subst. constructor.
    - rewrite in_app_iff. intros [H|H]; [apply (DISJ g H); left; auto|auto].
    - apply NoDup_app_intro; auto. intros x X1 X2; apply (DISJ x X1); right; auto. }
  destruct (linked_self_is_end _ _ _ _ HLf Hin Hlast) as (Lf' & EF).
  (* the updated prevMerged table *)
  assert (exists prv2,
     (pto <- vget (prevMerged t) g ;;
      prv1 <- (if Nat.eqb pto g then Ok (prevMerged t) else vset (prevMerged t) last pto) ;;
      prv2 <- vset prv1 g f ;; Ok prv2) = Ok prv2 /\ length prv2 = n /\
      linked prv2 (g :: (f :: Lf) ++ Lg) /\
      forall y, ~ In y (g :: f :: Lf) -> nth_error prv2 y = nth_error (prevMerged t) y) as
      (prv2 & EP & LP & LNK & FR).
  { assert (glast : g <> last) by (intros ->; apply (DISJ last Hin); left; auto).
    assert (Hl : last < n) by (specialize (Bf last Hin); lia).
    destruct Lg as [|y Lg].
    - simpl in HLg. unfold vget at 1; rewrite HLg; cbn [bind]. rewrite Nat.eqb_refl. cbn [bind].
      unfold vset. rewrite L2. destruct (Nat.ltb_spec g n); [|lia]. cbn [bind].
      eexists; split; [reflexivity|]. split; [rewrite list_upd_length; auto|]. split.
      + rewrite app_nil_r. rewrite linked_cons. split; [|split; auto].
        * apply nth_error_upd_eq; lia.
        * eapply linked_ext; [|exact HLf]. intros x Hx. apply nth_error_upd_neq.
          intros ->; apply (DISJ x Hx); left; auto.
      + intros y Hy. apply nth_error_upd_neq. intros ->; apply Hy; left; auto.
    - rewrite linked_cons in HLg. destruct HLg as (Q1 & Q2 & Q3).
      unfold vget at 1; rewrite Q1; cbn [bind].
      destruct (Nat.eqb_spec y g); [congruence|].
      unfold vset at 1. rewrite L2. destruct (Nat.ltb_spec last n); [|lia]. cbn [bind].
      unfold vset. rewrite list_upd_length, L2. destruct (Nat.ltb_spec g n); [|lia]. cbn [bind].
      eexists; split; [reflexivity|]. split; [rewrite !list_upd_length; auto|].
      assert (FR : forall z, z <> last -> z <> g ->
         nth_error (list_upd (list_upd (prevMerged t) last y) g f) z = nth_error (prevMerged t) z).
      { intros z Z1 Z2. rewrite !nth_error_upd_neq; auto. }
      split.
      + change ((f :: Lf) ++ y :: Lg) with (f :: (Lf ++ y :: Lg)).
        rewrite linked_cons. split; [|split; auto].
        * apply nth_error_upd_eq. rewrite list_upd_length; lia.
        * change (f :: (Lf ++ y :: Lg)) with ((f :: Lf) ++ y :: Lg).
          pose proof HLf as HLf0. pose proof NDf as NDf0.
          rewrite EF in HLf0, NDf0 |- *.
          eapply linked_app; eauto.
          -- intros x Hx. apply FR.
             ++ intros ->. apply NoDup_app_inv in NDf0. destruct NDf0 as (_ & _ & D).
                apply (D last Hx); left; auto.
             ++ intros ->. apply (DISJ g); [|left; auto]. rewrite EF; apply in_or_app; auto.
          -- rewrite nth_error_upd_neq by auto. apply nth_error_upd_eq; lia.
          -- intros ->. apply (DISJ y Hin). right; left; auto.
          -- eapply linked_ext; [|exact Q3]. intros x Hx. apply FR.
             ++ intros ->. apply (DISJ last Hin). right; auto.
             ++ intros ->. inversion NDg; auto.
      + intros z Hz. apply FR.
        * intros ->. apply Hz. right; auto.
        * intros ->. apply Hz. left; auto. }
  exists {| labelLUT := lab'; prevMerged := prv2 |}. split.
  { unfold relabel. rewrite E. cbn [bind]. destruct (vget (prevMerged t) g); cbn [bind] in *; try discriminate.
    destruct (if Nat.eqb a g then _ else _); cbn [bind] in *; try discriminate.
    destruct (vset a0 g f); cbn [bind] in *; try discriminate. inversion EP; auto. }
  assert (AB : forall l, absorbed (past ++ [Relabel f g]) l <-> absorbed past l \/ l = f).
  { intros l; rewrite absorbed_app; split.
    - intros [H|[g' H]]; [auto|inversion H; auto].
    - intros [H| ->]; eauto. }
  assert (INC : forall x y, In (Relabel x y) past -> In (Relabel x y) (past ++ [Relabel f g])).
  { intros; apply in_or_app; auto. }
  assert (Slab : forall l, l < n -> exists r, nth_error (labelLUT t) l = Some r /\
       nth_error lab' l = Some (if Nat.eqb r f then g else r)).
  { intros l Hl. destruct (R l Hl) as (r & Er & _). exists r; split; auto.
    rewrite Hspec. destruct (in_dec Nat.eq_dec l (f :: Lf)) as [H|H].
    - apply HIf in H. rewrite Er in H; inversion H; subst. rewrite Nat.eqb_refl; auto.
    - destruct (Nat.eqb_spec r f) as [->|]; auto. apply HIf in Er; contradiction. }
  constructor; cbn [labelLUT prevMerged]; auto; try lia.
  - intros l Hl. destruct (Slab l Hl) as (r & E1 & E2).
    destruct (R l Hl) as (r' & E1' & Hr & Ha & Hs). rewrite E1 in E1'; inversion E1'; subst r'.
    exists (if Nat.eqb r f then g else r). split; [auto|].
    destruct (Nat.eqb_spec r f) as [->|Hrf].
    + repeat split; auto. rewrite AB; intros [H| ->]; auto.
      eapply rst_trans; [eapply same_mono; [exact INC|exact Hs]|].
      apply rst_step. apply in_or_app; right; left; auto.
    + repeat split; auto. rewrite AB; intros [H|H]; auto.
      eapply same_mono; [exact INC|exact Hs].
  - intros l l' Hl Hl' ES.
    assert (PA' : forall a b, In (Relabel a b) (past ++ [Relabel f g]) -> a < n /\ b < n).
    { intros a b H. apply in_app_or in H; destruct H as [H|[H|[]]]; [eauto|inversion H; subst; auto]. }
    assert (G : forall a b, same (past ++ [Relabel f g]) a b -> a < n -> b < n ->
                nth_error lab' a = nth_error lab' b).
    { intros a b S0; induction S0 as [a b S0|a|a b S0 IH|a b c S1 IH1 S2 IH2]; intros Ha Hb; auto.
      - apply in_app_or in S0; destruct S0 as [S0|[S0|[]]].
        + destruct (Slab a Ha) as (r & Q1 & Q2), (Slab b Hb) as (r' & Q1' & Q2').
          assert (nth_error (labelLUT t) a = nth_error (labelLUT t) b)
            by (apply SM; auto; apply rst_step; auto).
          rewrite Q2, Q2'. rewrite Q1, Q1' in H; inversion H; reflexivity.
        + inversion S0; subst a b. rewrite !Hspec.
          destruct (in_dec Nat.eq_dec f (f :: Lf)) as [_|N]; [|elim N; left; auto].
          destruct (in_dec Nat.eq_dec g (f :: Lf)) as [H|_]; [|rewrite SF; auto].
          elim (DISJ g H); left; auto.
      - symmetry; apply IH; auto.
      - destruct (same_bound _ n PA' a b S1) as [->|[? ?]]; [apply IH2; auto|].
        rewrite IH1 by auto. apply IH2; auto. }
    apply G; auto.
  - intros r Hr Ha. rewrite AB in Ha.
    destruct (Slab r Hr) as (r' & Q1 & Q2). rewrite SF in Q1 by tauto. inversion Q1; subst r'.
    rewrite Q2. destruct (Nat.eqb_spec r f); [tauto|auto].
  - intros r Hr Ha. rewrite AB in Ha.
    destruct (Nat.eq_dec r g) as [->|Hrg].
    + exists ((f :: Lf) ++ Lg). auto.
    + destruct (CH r) as (L & HL & ND & HI); [auto|tauto|].
      exists L. split; [|split; auto].
      * eapply linked_ext; [|exact HL]. intros x Hx. apply FR.
        intros HX. apply HI in Hx. destruct HX as [<-|HX].
        -- rewrite SF in Hx by auto. inversion Hx; auto.
        -- apply HIf in HX. rewrite HX in Hx. inversion Hx; subst; tauto.
      * intros x. rewrite HI, Hspec. destruct (in_dec Nat.eq_dec x (f :: Lf)) as [H|H]; [|tauto].
        apply HIf in H. rewrite H. split; intros Q; inversion Q; subst; tauto.
  - intros a b H. apply in_app_or in H; destruct H as [H|[H|[]]]; [eauto|inversion H; subst; auto].
Qed.

Lemma run_inv : forall os t past n,
  inv t past n -> admissible_from past n os ->
  exists t', run t os = Ok t' /\ inv t' (past ++ os) (nlabels n os).
Proof.
  induction os as [|[f g|] os IH]; intros t past n I A; simpl in *.
  - exists t; rewrite app_nil_r; auto.
  - destruct A as (Hf & Hg & Hfg & Af & Ag & A).
    destruct (relabel_inv t past n f g I Hf Hg Hfg Af Ag) as (t1 & E1 & I1).
    rewrite E1; simpl. destruct (IH t1 _ _ I1 A) as (t' & E & I').
    exists t'; split; auto. rewrite <- app_assoc in I'; auto.
  - destruct (IH (appendOne t) _ _ (append_inv t past n I) A) as (t' & E & I').
    exists t'; split; auto. rewrite <- app_assoc in I'; auto.
Qed.

Lemma enumerate_linked t : forall L fuel x,
  linked (prevMerged t) (x :: L) -> length L + 1 < fuel ->
  enumerate fuel t {| cur := x; atEnd := false |} = Ok (x :: L).
Proof.
  induction L as [|y L IH]; intros [|fuel] x HL F; simpl in F; try lia.
  - simpl in HL. cbn [enumerate atEnd]. unfold mnext, vget; cbn [cur]; rewrite HL; cbn [bind].
    rewrite Nat.eqb_refl. cbn [bind]. destruct fuel; [lia|]. reflexivity.
  - rewrite linked_cons in HL; destruct HL as (E & N & HL).
    cbn [enumerate atEnd]. unfold mnext, vget; cbn [cur]; rewrite E; cbn [bind].
    destruct (Nat.eqb_spec y x); [congruence|]. cbn [bind atEnd].
    rewrite (IH fuel y HL) by lia. reflexivity.
Qed.

(** lookups after an admissible history *)
Lemma lut_lookup n os : admissible n os ->
  exists t, run (initIdentity n) os = Ok t /\ size t = nlabels n os /\
  (forall l, l < size t -> exists r, lookup t l = Ok r /\ r < size t /\
      same os l r /\ ~ absorbed os r /\ lookup t r = Ok r) /\
  (forall l l', l < size t -> l' < size t -> (lookup t l = lookup t l' <-> same os l l')) /\
  (forall l, size t <= l -> lookup t l = UB).
Proof.
  intros A. destruct (run_inv os _ _ _ (init_inv n) A) as (t & E & I).
  exists t. simpl in I. destruct I as [L1 L2 R SM SF CH PA].
  unfold size, lookup, vget. rewrite L1. repeat split; auto.
  - intros l Hl. destruct (R l Hl) as (r & Er & Hr & Ha & Hs).
    exists r; rewrite Er, (SF r Hr Ha); auto.
  - intros Q. destruct (R l H) as (r & Er & Hr & Ha & Hs), (R l' H0) as (r' & Er' & Hr' & Ha' & Hs').
    rewrite Er, Er' in Q. inversion Q; subst.
    eapply rst_trans; [exact Hs|]. apply rst_sym; auto.
  - intros Q. rewrite (SM l l'); auto.
  - intros l Hl. destruct (nth_error (labelLUT t) l) eqn:Q; auto.
    apply nth_error_lt in Q; lia.
Qed.

Lemma lut_merged n os : admissible n os ->
  exists t, run (initIdentity n) os = Ok t /\
  forall r, r < size t -> ~ absorbed os r ->
  exists L, merged t r = Ok L /\ NoDup L /\ forall x, In x L <-> lookup t x = Ok r.
Proof.
  intros A. destruct (run_inv os _ _ _ (init_inv n) A) as (t & E & I).
  exists t; split; auto. simpl in I. destruct I as [L1 L2 R SM SF CH PA].
  intros r Hr Ha. unfold size in Hr; rewrite L1 in Hr.
  destruct (CH r Hr Ha) as (L & HL & ND & HI).
  exists (r :: L). split; [|split; auto].
  - unfold merged, mergedBegin, size. rewrite L1. apply enumerate_linked; auto.
    assert (length (r :: L) <= n \/ True) by auto.
    assert (length (r :: L) <= nlabels n os).
    { rewrite <- (seq_length (nlabels n os) 0). apply NoDup_incl_length; auto.
      intros y Hy; apply in_seq. apply HI in Hy. apply nth_error_lt in Hy. lia. }
    simpl in H0; lia.
  - intros x. rewrite HI. unfold lookup. rewrite vget_Ok. tauto.
Qed.
