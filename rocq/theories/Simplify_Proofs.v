(** simplifyPolygon. *)
From Coq Require Import Reals Lra.
From Verif Require Import Base DartPosition_Model DartPosition_Spec DartPosition_Proofs Simplify_Model Simplify_Spec.
Local Open Scope R_scope.

(** ** The searches *)
Lemma farthest_spec d mid : forall i m s r, farthest d mid i m s = r ->
  (r = s /\ forall p, In p mid -> d p <= m) \/ (exists k, r = Some (i + k)%nat /\ (k < length mid)%nat).
Proof.
  induction mid as [|p t IH]; intros i m s r H; cbn [farthest] in H.
  - left. split; [congruence|]. intros p [].
  - destruct (Rlt_dec m (d p)) as [L|L].
    + right. destruct (IH _ _ _ _ H) as [[-> _]|[k [-> Hk]]].
      * exists 0%nat. split; [f_equal; lia|cbn; lia].
      * exists (S k). split; [f_equal; lia|cbn; lia].
    + destruct (IH _ _ _ _ H) as [[-> A]|[k [-> Hk]]].
      * left. split; [reflexivity|]. intros q [<-|Hq]; [lra|exact (A q Hq)].
      * right. exists (S k). split; [f_equal; lia|cbn; lia].
Qed.
Lemma mostCentral_spec d mid : forall i b s, mostCentral d mid i b s = s \/ exists k, mostCentral d mid i b s = (i + k)%nat /\ (k < length mid)%nat.
Proof.
  induction mid as [|p t IH]; intros i b s; cbn [mostCentral]; [left; reflexivity|].
  destruct (Rlt_dec (d p) b).
  - right. destruct (IH (S i) (d p) i) as [E|[k [E Hk]]]; [exists 0%nat|exists (S k)]; (split; [lia|cbn; lia]).
  - destruct (IH (S i) b s) as [E|[k [E Hk]]]; [left; exact E|right; exists (S k); split; [lia|cbn; lia]].
Qed.

Lemma near_foot a b p eps : 0 < sqMag (vsub b a) ->
  Rabs (vdot (vsub p a) (vscale (snd (vsub b a), - fst (vsub b a)) (/ sqrt (sqMag (vsub b a))))) <= eps -> nearLine eps a b p.
Proof.
  intros L H. set (s := vsub b a) in *. set (l2 := sqMag s) in *.
  exists (vdot (vsub p a) s / l2).
  refine (Rle_trans _ _ _ (Req_le _ _ _) H). clear H.
  assert (Q : sqrt l2 * sqrt l2 = l2) by (apply sqrt_sqrt; lra).
  assert (SP : 0 < sqrt l2) by (apply sqrt_lt_R0; exact L).
  set (c := vdot (vsub p a) (vscale (snd s, - fst s) (/ sqrt l2))).
  unfold dist. cbn [fst snd]. rewrite <- sqrt_Rsqr_abs. f_equal. unfold Rsqr.
  assert (C : c = ((fst p - fst a) * snd s - (snd p - snd a) * fst s) / sqrt l2).
  { unfold c, vdot, vscale, vsub. cbn [fst snd]. field. lra. }
  rewrite C. replace (((fst p - fst a) * snd s - (snd p - snd a) * fst s) / sqrt l2 * (((fst p - fst a) * snd s - (snd p - snd a) * fst s) / sqrt l2))
    with (((fst p - fst a) * snd s - (snd p - snd a) * fst s) * ((fst p - fst a) * snd s - (snd p - snd a) * fst s) / (sqrt l2 * sqrt l2)) by (field; lra).
  rewrite Q. unfold vdot. cbn [fst snd].
  replace (fst b - fst a) with (fst s) by reflexivity. replace (snd b - snd a) with (snd s) by reflexivity.
  change (fst (vsub p a)) with (fst p - fst a). change (snd (vsub p a)) with (snd p - snd a).
  assert (L2 : l2 = fst s * fst s + snd s * snd s) by reflexivity.
  set (u := fst p - fst a). set (v := snd p - snd a). 
  replace (fst p - (fst a + (u * fst s + v * snd s) / l2 * fst s)) with (snd s * (u * snd s - v * fst s) / l2)
    by (replace (fst p) with (fst a + u) by (unfold u; ring); rewrite L2; field; rewrite <- L2; lra).
  replace (snd p - (snd a + (u * fst s + v * snd s) / l2 * snd s)) with (- fst s * (u * snd s - v * fst s) / l2)
    by (replace (snd p) with (snd a + v) by (unfold v; ring); rewrite L2; field; rewrite <- L2; lra).
  rewrite L2. field. rewrite <- L2. lra.
Qed.
Lemma near_first a b p eps : mag (vsub p a) <= eps -> nearLine eps a b p.
Proof.
  intro H. exists 0. rewrite mag_dist in H. refine (Rle_trans _ _ _ (Req_le _ _ _) H).
  unfold dist. cbn [fst snd]. f_equal. ring.
Qed.
Lemma tiny_pos : 0 < tiny.
Proof. unfold tiny. apply Rinv_0_lt_compat. apply IZR_lt. reflexivity. Qed.

Lemma distSplit_spec a b mid eps :
  match distSplit a b mid eps with
  | Some i => (1 <= i <= length mid)%nat
  | None => forall p, In p mid -> nearLine eps a b p
  end.
Proof.
  unfold distSplit. cbn zeta. destruct (Rlt_dec tiny (sqMag (vsub b a))) as [L|_].
  - pose proof tiny_pos as T.
    match goal with |- context [farthest ?d mid 1 eps None] => destruct (farthest_spec d mid 1 eps None _ eq_refl) as [[E A]|[k [E Hk]]] end.
    + rewrite E. intros p Hp. apply near_foot; [lra|]. exact (A p Hp).
    + rewrite E. lia.
  - destruct (farthest_spec (fun p => mag (vsub p a)) mid 1 eps None _ eq_refl) as [[E A]|[k [E Hk]]].
    + rewrite E. intros p Hp. apply near_first. exact (A p Hp).
    + rewrite E. lia.
Qed.
Lemma stepSplit_spec a b mid : mid <> [] -> exists i, stepSplit a b mid = Some i /\ (1 <= i <= length mid)%nat.
Proof.
  destruct mid as [|p t]; [congruence|]. intros _. unfold stepSplit. eexists. split; [reflexivity|].
  match goal with |- (1 <= mostCentral ?d t 2 ?x 1 <= _)%nat => destruct (mostCentral_spec d t 2 x 1) as [E|[k [E Hk]]]; rewrite E end; cbn [length]; lia.
Qed.

(** ** Index chains *)
Fixpoint chainFrom (G : nat -> nat -> Prop) (i : nat) (l : list nat) : Prop :=
  match l with [] => True | j :: t => G i j /\ chainFrom G j t end.
Lemma chainFrom_app (G : nat -> nat -> Prop) l : forall i j l', chainFrom G i (l ++ [j]) -> chainFrom G j l' -> chainFrom G i (l ++ j :: l').
Proof.
  induction l as [|a l IH]; intros i j l' H H'; cbn [app chainFrom] in *; [tauto|]. destruct H as [H1 H2]. split; [exact H1|]. apply IH; assumption.
Qed.
Lemma chainFrom_mono (G H : nat -> nat -> Prop) f l : forall i, (forall a b, In b l -> (a = i \/ In a l) -> G a b -> H (f a) (f b)) -> chainFrom G i l -> chainFrom H (f i) (map f l).
Proof.
  induction l as [|a l IH]; intros i M C; cbn [map chainFrom] in *; [exact I|]. destruct C as [C1 C2]. split.
  - apply M; [left; reflexivity|left; reflexivity|exact C1].
  - apply IH; [|exact C2]. intros x y Hy Hx. apply M; [right; exact Hy|right]. destruct Hx as [->|Hx]; [left; reflexivity|right; exact Hx].
Qed.
Lemma chainFrom_pairs (G : nat -> nat -> Prop) l : forall i, chainFrom G i l -> forall l1 a b l2, i :: l = l1 ++ a :: b :: l2 -> G a b.
Proof.
  induction l as [|j l IH]; intros i C l1 a b l2 E.
  - destruct l1 as [|x [|y l1]]; discriminate.
  - cbn [chainFrom] in C. destruct C as [C1 C2]. destruct l1 as [|x l1].
    + cbn [app] in E. injection E as -> -> _. exact C1.
    + cbn [app] in E. injection E as _ E. exact (IH j C2 l1 a b l2 E).
Qed.

Section S.
Variables (eps : R) (maxStep : option R).
Let m2 := option_map (fun m => m * m) maxStep.

Lemma nth_firstn (P : list vec) n k : (k < n)%nat -> nth_error (firstn n P) k = nth_error P k.
Proof.
  revert n k. induction P as [|a P IH]; intros [|n] [|k] H; try lia; try reflexivity.
  - cbn [firstn nth_error]. apply IH. lia.
Qed.
Lemma nth_skipn (P : list vec) n k : nth_error (skipn n P) k = nth_error P (n + k).
Proof. revert P. induction n as [|n IH]; intros P; [reflexivity|]. destruct P as [|a P]; [destruct k; reflexivity|]. cbn [skipn]. rewrite IH. reflexivity. Qed.
Lemma nth_mid (P : list vec) k p : (0 < k < length P - 1)%nat -> nth_error P k = Some p -> In p (removelast (tl P)).
Proof.
  intros H E. destruct P as [|a P]; [destruct k; discriminate|]. cbn [tl length] in *. destruct k as [|k]; [lia|]. cbn [nth_error] in E.
  assert (N : P <> []) by (intros ->; destruct k; discriminate).
  rewrite (app_removelast_last a N) in E. rewrite nth_error_app1 in E; [eapply nth_error_In; exact E|].
  assert (LL : length P = S (length (removelast P))) by (rewrite (app_removelast_last a N) at 1; rewrite app_length; cbn; lia). lia.
Qed.
Lemma mid_length (P : list vec) : (2 < length P)%nat -> length (removelast (tl P)) = (length P - 2)%nat.
Proof.
  intro H. destruct P as [|a P]; [cbn in H; lia|]. cbn [tl length] in *.
  assert (N : P <> []) by (intros ->; cbn in H; lia).
  assert (LL : length P = S (length (removelast P))) by (rewrite (app_removelast_last a N) at 1; rewrite app_length; cbn; lia). lia.
Qed.

Lemma gap_first P i k j : (k <= i)%nat -> (j <= i)%nat -> gapOK (firstn (S i) P) eps maxStep k j -> gapOK P eps maxStep k j.
Proof.
  intros Hk Hj [L G]. split; [exact L|]. intros a b Ha Hb.
  destruct (G a b) as [G1 G2]; [rewrite nth_firstn by lia; exact Ha|rewrite nth_firstn by lia; exact Hb|].
  split; [|exact G2]. intros q p Hq Hp. apply (G1 q p Hq). rewrite nth_firstn by lia. exact Hp.
Qed.
Lemma gap_skip P i k j : gapOK (skipn i P) eps maxStep k j -> gapOK P eps maxStep (i + k) (i + j).
Proof.
  intros [L G]. split; [lia|]. intros a b Ha Hb.
  destruct (G a b) as [G1 G2]; [rewrite nth_skipn; exact Ha|rewrite nth_skipn; exact Hb|].
  split.
  - intros q p Hq Hp. apply (G1 (q - i)%nat p); [lia|]. rewrite nth_skipn. replace (i + (q - i))%nat with q by lia. exact Hp.
  - intros m Hm. destruct (G2 m Hm) as [->|D]; [left; lia|right; exact D].
Qed.

Lemma dist_le_step a b m : ~ (m * m < sqMag (vsub b a)) -> dist a b <= Rabs m.
Proof.
  intro H. rewrite <- mag_dist. unfold mag. rewrite <- sqrt_Rsqr_abs. apply sqrt_le_1_alt. unfold Rsqr. lra.
Qed.

Lemma helper_spec : forall fuel P, (2 <= length P)%nat -> (length P <= fuel)%nat ->
  exists K idx, simplifyHelper fuel P eps m2 = Ok K /\ Forall2 (fun i p => nth_error P i = Some p) idx K /\
    (forall i, In i idx -> (0 < i < length P - 1)%nat) /\
    chainFrom (gapOK P eps maxStep) 0 (idx ++ [(length P - 1)%nat]).
Proof.
  induction fuel as [|fuel IH]; intros P H2 HF; [lia|]. cbn [simplifyHelper].
  destruct (length P <=? 2)%nat eqn:E2.
  - apply Nat.leb_le in E2. exists [], []. split; [reflexivity|]. split; [constructor|]. split; [intros i []|].
    cbn [app chainFrom]. split; [|exact I]. split; [lia|]. intros a b _ _. split; [intros k p Hk; lia|]. intros m _. left. lia.
  - apply Nat.leb_gt in E2.
    destruct (nth_error P 0) as [a|] eqn:Ha; [|apply nth_error_None in Ha; lia].
    destruct (nth_error P (length P - 1)) as [b|] eqn:Hb; [|apply nth_error_None in Hb; lia].
    unfold vget. rewrite Ha, Hb. cbn [bind]. cbn zeta. set (mid := removelast (tl P)).
    assert (ML : length mid = (length P - 2)%nat) by (apply mid_length; exact E2).
    match goal with |- context [match ?s with Some i => bind _ _ | None => Ok [] end] => set (split := s) end.
    assert (SP : match split with
                 | Some i => (1 <= i <= length mid)%nat
                 | None => (forall p, In p mid -> nearLine eps a b p) /\ (forall m, maxStep = Some m -> dist a b <= Rabs m)
                 end).
    { unfold split. pose proof (distSplit_spec a b mid eps) as D. destruct (distSplit a b mid eps) as [i|]; [exact D|].
      unfold m2. destruct maxStep as [m|]; cbn [option_map].
      - destruct (Rlt_dec (m * m) (sqMag (vsub b a))) as [L|L].
        + destruct (stepSplit_spec a b mid) as [i [E Hi]]; [intros C; rewrite C in ML; cbn in ML; lia|]. rewrite E. exact Hi.
        + split; [exact D|]. intros m' [= <-]. apply dist_le_step. exact L.
      - split; [exact D|]. intros m [=]. }
    destruct split as [i|].
    + rewrite ML in SP.
      assert (L1 : length (firstn (S i) P) = S i) by (rewrite firstn_length; lia).
      assert (L2 : length (skipn i P) = (length P - i)%nat) by apply skipn_length.
      destruct (IH (firstn (S i) P)) as [K1 [idx1 [X1 [F1 [R1 C1]]]]]; [lia|lia|].
      destruct (IH (skipn i P)) as [K2 [idx2 [X2 [F2 [R2 C2]]]]]; [lia|lia|].
      rewrite X1. cbn [bind]. destruct (nth_error P i) as [p|] eqn:Hp; [|apply nth_error_None in Hp; lia]. cbn [bind]. rewrite X2. cbn [bind].
      rewrite L1 in *. rewrite L2 in *.
      exists (K1 ++ [p] ++ K2), (idx1 ++ [i] ++ map (fun k => (i + k)%nat) idx2). split; [reflexivity|]. split; [|split].
      * apply Forall2_app; [|apply Forall2_app].
        -- clear - F1 R1. induction F1 as [|k q idx K H F IH]; [constructor|]. constructor.
           ++ specialize (R1 k (or_introl eq_refl)). rewrite nth_firstn in H by lia. exact H.
           ++ apply IH. intros j Hj. apply R1. right. exact Hj.
        -- constructor; [exact Hp|constructor].
        -- clear - F2. induction F2 as [|k q idx K H F IH]; [constructor|]. cbn [map]. constructor; [rewrite nth_skipn in H; exact H|exact IH].
      * intros k Hk. apply in_app_iff in Hk. destruct Hk as [Hk|Hk]; [specialize (R1 k Hk); lia|].
        cbn [app In] in Hk. destruct Hk as [<-|Hk]; [lia|]. apply in_map_iff in Hk. destruct Hk as [j [<- Hj]]. specialize (R2 j Hj). lia.
      * replace ((idx1 ++ [i] ++ map (fun k => (i + k)%nat) idx2) ++ [(length P - 1)%nat])
          with (idx1 ++ i :: map (fun k => (i + k)%nat) (idx2 ++ [(length P - i - 1)%nat]))
          by (rewrite map_app, <- !app_assoc; cbn [app map]; replace (i + (length P - i - 1))%nat with (length P - 1)%nat by lia; reflexivity).
        apply chainFrom_app.
        -- replace (S i - 1)%nat with i in C1 by lia.
           assert (IL : forall x, In x (idx1 ++ [i]) -> (x <= i)%nat).
           { intros x Hx. apply in_app_iff in Hx. destruct Hx as [Hx|[->|[]]]; [specialize (R1 x Hx); lia|lia]. }
           assert (ST : forall x y, In y (idx1 ++ [i]) -> (x = 0%nat \/ In x (idx1 ++ [i])) ->
             gapOK (firstn (S i) P) eps maxStep x y -> gapOK P eps maxStep x y).
           { intros x y Hy Hx G. apply gap_first with (i := i); [|exact (IL y Hy)|exact G]. destruct Hx as [->|Hx]; [lia|exact (IL x Hx)]. }
           pose proof (chainFrom_mono _ (gapOK P eps maxStep) (fun k => k) _ _ ST C1) as M.
           rewrite map_id in M. exact M.
        -- pose proof (chainFrom_mono _ (gapOK P eps maxStep) (fun k => (i + k)%nat) _ _ (fun a b _ _ G => gap_skip P i a b G) C2) as M.
           rewrite Nat.add_0_r in M. exact M.
    + exists [], []. split; [reflexivity|]. split; [constructor|]. split; [intros i []|]. cbn [app chainFrom]. split; [|exact I].
      split; [lia|]. intros a' b' Ha' Hb'. assert (a' = a) by congruence. assert (b' = b) by congruence. subst a' b'. destruct SP as [SP1 SP2]. split.
      * intros k p Hk Hp. apply SP1. apply nth_mid with (k := k); [lia|exact Hp].
      * intros m Hm. right. exact (SP2 m Hm).
Qed.

Theorem simplify_spec P : (2 <= length P)%nat -> exists K idx, simplifyPolygon P eps maxStep = Ok K /\ simplified P K eps maxStep idx.
Proof.
  intro H. destruct (helper_spec (S (length P)) P H ltac:(lia)) as [K [idx [E [F [Rg C]]]]].
  destruct (nth_error P 0) as [a|] eqn:Ha; [|apply nth_error_None in Ha; lia].
  destruct (nth_error P (length P - 1)) as [b|] eqn:Hb; [|apply nth_error_None in Hb; lia].
  exists ([a] ++ K ++ [b]), (0%nat :: idx ++ [(length P - 1)%nat]). split.
  - unfold simplifyPolygon. unfold vget at 1. rewrite Ha. cbn [bind]. fold m2. rewrite E. cbn [bind]. unfold vget. rewrite Hb. reflexivity.
  - split; [|split; [|split]].
    + cbn [app]. constructor; [exact Ha|]. apply Forall2_app; [exact F|]. constructor; [exact Hb|constructor].
    + eexists. reflexivity.
    + exists (0%nat :: idx). reflexivity.
    + apply chainFrom_pairs. exact C.
Qed.
End S.
Lemma simplify_single p eps ms : simplifyPolygon [p] eps ms = Ok [p; p].
Proof. reflexivity. Qed.
