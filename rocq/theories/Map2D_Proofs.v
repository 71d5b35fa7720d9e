From Verif Require Import Base Map2D_Model Map2D_Spec.
Local Open Scope Z_scope.

Lemma dist2_farSq v w : dist2 v w = farSq v w.
Proof. unfold dist2, farSq, sq. ring. Qed.

Section P.
Context {A : Type}.
Implicit Types (l : list (entry A)) (v : pos).

Definition stored l : list (pos * A) := map (fun e => (epos e, epay e)) l.

Inductive asc : list (entry A) -> Prop :=
| asc_nil : asc []
| asc_cons h t : (forall e, In e t -> ekey h <= ekey e) -> asc t -> asc (h :: t).

Definition wf l : Prop := asc l /\ (forall e, In e l -> ekey e = fst (epos e)).

Lemma mmInsert_perm e l : Permutation (mmInsert e l) (e :: l).
Proof.
  induction l as [|h t IH]; simpl; [apply Permutation_refl|].
  destruct (ekey e <? ekey h); [apply Permutation_refl|].
  eapply Permutation_trans; [apply perm_skip, IH | apply perm_swap].
Qed.

Lemma mmInsert_in e l x : In x (mmInsert e l) <-> x = e \/ In x l.
Proof.
  split; intros H.
  - apply (Permutation_in _ (mmInsert_perm e l)) in H. destruct H as [H|H]; auto.
  - apply (Permutation_in _ (Permutation_sym (mmInsert_perm e l))). destruct H as [H|H]; [left; auto | right; exact H].
Qed.

Lemma mmInsert_asc e l : asc l -> asc (mmInsert e l).
Proof.
  induction 1 as [|h t Hh Ht IH]; simpl.
  - constructor; [intros x []|constructor].
  - destruct (Z.ltb_spec (ekey e) (ekey h)).
    + constructor; [|constructor; assumption]. intros x [<-|Hx]; [lia|]. specialize (Hh x Hx). lia.
    + constructor; [|exact IH]. intros x Hx. apply mmInsert_in in Hx. destruct Hx as [->|Hx]; [exact H | apply Hh, Hx].
Qed.

Lemma insert_wf l v a : wf l -> wf (insert l v a).
Proof.
  intros [Ha Hk]. split; [apply mmInsert_asc, Ha|]. intros e He. apply mmInsert_in in He.
  destruct He as [->|He]; [reflexivity | apply Hk, He].
Qed.

Lemma insert_stored l v a : Permutation (stored (insert l v a)) ((v, a) :: stored l).
Proof. unfold stored, insert. eapply Permutation_trans; [apply Permutation_map, mmInsert_perm | reflexivity]. Qed.

Lemma removeAt_in i l x : In x (removeAt i l) -> In x l.
Proof. revert i. induction l as [|h t IH]; intros [|i]; simpl; auto. intros [H|H]; eauto. Qed.

Lemma removeAt_asc i l : asc l -> asc (removeAt i l).
Proof.
  intros H. revert i. induction H as [|h t Hh Ht IH]; intros [|i]; simpl; [constructor.. | exact Ht |].
  constructor; [|apply IH]. intros e He. apply Hh, (removeAt_in i), He.
Qed.

Lemma removeAt_perm i l e : nth_error l i = Some e -> Permutation l (e :: removeAt i l).
Proof.
  revert i. induction l as [|h t IH]; intros [|i]; simpl; try discriminate; intros H.
  - injection H as ->. apply Permutation_refl.
  - eapply Permutation_trans; [apply perm_skip, (IH i H) | apply perm_swap].
Qed.

Lemma erase_wf l i l' : wf l -> erase l i = Ok l' -> wf l'.
Proof.
  unfold erase. intros [Ha Hk]. destruct (i <? length l)%nat; [|discriminate]. intros H. injection H as <-.
  split; [apply removeAt_asc, Ha|]. intros e He. apply Hk, (removeAt_in i), He.
Qed.

Lemma erase_stored l i e : nth_error l i = Some e ->
  exists l', erase l i = Ok l' /\ Permutation (stored l) ((epos e, epay e) :: stored l').
Proof.
  intros H. exists (removeAt i l). split.
  - unfold erase. destruct (Nat.ltb_spec i (length l)) as [|K]; [reflexivity|]. apply nth_error_lt in H. lia.
  - unfold stored. eapply Permutation_trans; [apply Permutation_map, (removeAt_perm i l e H) | reflexivity].
Qed.

Lemma asc_nth l i j e f : asc l -> (i <= j)%nat -> nth_error l i = Some e -> nth_error l j = Some f -> ekey e <= ekey f.
Proof.
  intros H. revert i j. induction H as [|h t Hh Ht IH]; intros i j Hij He Hf.
  - destruct i; discriminate.
  - destruct i as [|i], j as [|j]; simpl in *; try lia.
    + injection He as ->. injection Hf as ->. lia.
    + injection He as ->. apply Hh. apply nth_error_In in Hf. exact Hf.
    + apply (IH i j); auto. lia.
Qed.

Lemma lowerBound_le l x : (lowerBound l x <= length l)%nat.
Proof. induction l as [|h t IH]; simpl; [lia|]. destruct (ekey h <? x); simpl; lia. Qed.

Lemma lowerBound_below l x i e : (i < lowerBound l x)%nat -> nth_error l i = Some e -> ekey e < x.
Proof.
  revert i. induction l as [|h t IH]; intros i; simpl; [lia|]. destruct (Z.ltb_spec (ekey h) x); [|lia].
  destruct i as [|i]; simpl; intros Hi He; [injection He as ->; assumption|]. apply (IH i); auto. lia.
Qed.

Lemma lowerBound_at l x e : nth_error l (lowerBound l x) = Some e -> x <= ekey e.
Proof.
  induction l as [|h t IH]; simpl; [discriminate|]. destruct (Z.ltb_spec (ekey h) x); simpl; [exact IH|].
  intros He. injection He as ->. assumption.
Qed.

(** what the loops know after looking at the entries in [D] *)
Record bestOf l v (b : Z) (D : nat -> Prop) (best : nat) (maxd : Z) : Prop := {
  bo_best : (best = length l /\ maxd = b) \/ (exists e, nth_error l best = Some e /\ dist2 (epos e) v = maxd /\ maxd < b);
  bo_min : forall j e, D j -> nth_error l j = Some e -> maxd <= dist2 (epos e) v }.

Lemma bestOf_weaken l v b (D D' : nat -> Prop) best maxd : (forall j, (j < length l)%nat -> D' j -> D j) -> bestOf l v b D best maxd -> bestOf l v b D' best maxd.
Proof. intros H [H1 H2]. split; [exact H1|]. intros j e Hj He. apply (H2 j e); [apply H; [apply (nth_error_lt l j e He) | exact Hj] | exact He]. Qed.

Lemma bestOf_step l v b D best maxd i e : nth_error l i = Some e -> bestOf l v b D best maxd ->
  bestOf l v b (fun j => j = i \/ D j) (if dist2 (epos e) v <? maxd then i else best) (if dist2 (epos e) v <? maxd then dist2 (epos e) v else maxd).
Proof.
  intros He [H1 H2]. destruct (Z.ltb_spec (dist2 (epos e) v) maxd).
  - split.
    + right. exists e. repeat split; auto. destruct H1 as [[_ ->]|(e' & _ & _ & K)]; lia.
    + intros j e' [->|Hj] He'; [rewrite He in He'; injection He' as ->; lia|]. specialize (H2 j e' Hj He'). lia.
  - split; [exact H1|]. intros j e' [->|Hj] He'; [rewrite He in He'; injection He' as ->; lia|]. exact (H2 j e' Hj He').
Qed.

Lemma sq_mono a b : 0 <= a <= b -> sq a <= sq b.
Proof. unfold sq. nia. Qed.
Lemma sq_nonneg a : 0 <= sq a.
Proof. unfold sq. nia. Qed.

Lemma searchUp_spec l v b mid n : wf l -> (forall i e, (mid <= i)%nat -> nth_error l i = Some e -> fst v <= ekey e) ->
  forall i best maxd, (mid <= i <= length l)%nat -> (length l - i <= n)%nat -> bestOf l v b (fun j => (mid <= j < i)%nat) best maxd ->
  exists best' maxd', searchUp n l i v best maxd = Ok (best', maxd') /\ bestOf l v b (fun j => (mid <= j)%nat) best' maxd'.
Proof.
  intros [Ha Hk] Hm. induction n as [|n IH]; intros i best maxd Hi Hn Hb; cbn [searchUp].
  - assert (E : i = length l) by lia. destruct (Nat.eqb_spec i (length l)); [|lia]. exists best, maxd. split; [reflexivity|].
    apply (bestOf_weaken l v b (fun j => (mid <= j < i)%nat)); [intros j; lia | exact Hb].
  - destruct (Nat.eqb_spec i (length l)) as [->|Hne].
    + exists best, maxd. split; [reflexivity|]. apply (bestOf_weaken l v b (fun j => (mid <= j < length l)%nat)); [intros j; lia | exact Hb].
    + destruct (nth_error_ex l i) as [e He]; [lia|]. assert (E : vget l i = Ok e) by (apply vget_Ok, He). rewrite E. cbn [bind].
      rewrite Z.gtb_ltb. destruct (Z.ltb_spec maxd (sq (ekey e - fst v))) as [Hbr|_].
      * exists best, maxd. split; [reflexivity|]. destruct Hb as [H1 H2]. split; [exact H1|]. intros j f Hj Hf.
        destruct (Nat.lt_ge_cases j i) as [L|L]; [apply (H2 j f); [lia | exact Hf]|].
        pose proof (asc_nth l i j e f Ha L He Hf). pose proof (Hm i e (proj1 Hi) He).
        unfold dist2. rewrite <- (Hk f (nth_error_In _ _ Hf)).
        pose proof (sq_mono (ekey e - fst v) (ekey f - fst v) ltac:(lia)). pose proof (sq_nonneg (snd (epos f) - snd v)). lia.
      * pose proof (bestOf_step l v b _ best maxd i e He Hb) as Hs. cbv zeta.
        assert (Hs' : bestOf l v b (fun j => (mid <= j < S i)%nat) (if dist2 (epos e) v <? maxd then i else best) (if dist2 (epos e) v <? maxd then dist2 (epos e) v else maxd))
          by (apply (bestOf_weaken l v b (fun j => j = i \/ (mid <= j < i)%nat)); [intros j; lia | exact Hs]).
        destruct (dist2 (epos e) v <? maxd); apply IH; (lia || exact Hs').
Qed.

Lemma searchDown_spec l v b mid : wf l -> (forall i e, (i < mid)%nat -> nth_error l i = Some e -> ekey e < fst v) ->
  forall i best maxd, (i < mid)%nat -> (mid <= length l)%nat -> bestOf l v b (fun j => (i < j)%nat) best maxd ->
  exists best' maxd', searchDown l i v best maxd = Ok (best', maxd') /\ bestOf l v b (fun _ => True) best' maxd'.
Proof.
  intros [Ha Hk] Hm. induction i as [|i IH]; intros best maxd Hi Hl Hb; cbn [searchDown];
    (destruct (nth_error_ex l _ (Nat.lt_le_trans _ _ _ Hi Hl)) as [e He]; rewrite (proj2 (vget_Ok l _ e) He); cbn [bind]; rewrite Z.gtb_ltb;
     destruct (Z.ltb_spec maxd (sq (fst v - ekey e))) as [Hbr|_]).
  1, 3: exists best, maxd; split; [reflexivity|]; destruct Hb as [H1 H2]; split; [exact H1|]; intros j f _ Hf.
  - destruct j as [|j]; [|apply (H2 (S j) f); [lia | exact Hf]]. rewrite He in Hf. injection Hf as ->.
    unfold dist2. rewrite <- (Hk f (nth_error_In _ _ He)). pose proof (sq_nonneg (snd (epos f) - snd v)).
    replace (sq (ekey f - fst v)) with (sq (fst v - ekey f)) by (unfold sq; ring). lia.
  - destruct (Nat.le_gt_cases j (S i)) as [L|L]; [|apply (H2 j f); [exact L | exact Hf]].
    pose proof (asc_nth l j (S i) f e Ha L Hf He). pose proof (Hm (S i) e Hi He).
    unfold dist2. rewrite <- (Hk f (nth_error_In _ _ Hf)).
    pose proof (sq_mono (fst v - ekey e) (fst v - ekey f) ltac:(lia)). pose proof (sq_nonneg (snd (epos f) - snd v)).
    replace (sq (ekey f - fst v)) with (sq (fst v - ekey f)) by (unfold sq; ring). lia.
  - pose proof (bestOf_step l v b _ best maxd 0%nat e He Hb) as Hs.
    eexists _, _. split; [reflexivity|]. apply (bestOf_weaken l v b (fun j => j = 0%nat \/ (0 < j)%nat)); [intros j; lia | exact Hs].
  - pose proof (bestOf_step l v b _ best maxd (S i) e He Hb) as Hs.
    apply IH; [lia | exact Hl |]. apply (bestOf_weaken l v b (fun j => j = S i \/ (S i < j)%nat)); [intros j; lia | exact Hs].
Qed.

Lemma nearest_spec l v b : wf l ->
  exists i, nearest l v b = Ok i /\
    ((i = length l /\ (forall e, In e l -> b <= dist2 (epos e) v)) \/
     (exists e, nth_error l i = Some e /\ dist2 (epos e) v < b /\ (forall e', In e' l -> dist2 (epos e) v <= dist2 (epos e') v))).
Proof.
  intros Hw. set (mid := lowerBound l (fst v)).
  assert (Hm : (mid <= length l)%nat) by apply lowerBound_le.
  assert (Hup : forall i e, (mid <= i)%nat -> nth_error l i = Some e -> fst v <= ekey e).
  { intros i e Hi He. destruct (nth_error_ex l mid) as [e0 He0]; [apply nth_error_lt in He; lia|].
    pose proof (lowerBound_at l (fst v) e0 He0). pose proof (asc_nth l mid i e0 e (proj1 Hw) Hi He0 He). lia. }
  destruct (searchUp_spec l v b mid (length l) Hw Hup mid (length l) b) as (b1 & m1 & E1 & H1).
  { lia. } { lia. } { split; [left; auto|]. intros j e Hj. lia. }
  assert (Hex : exists i m', nearest l v b = Ok i /\ bestOf l v b (fun _ => True) i m').
  { unfold nearest, search. fold mid. rewrite E1. cbn [bind fst snd]. destruct mid as [|j] eqn:Emid.
    - exists b1, m1. split; [reflexivity|]. apply (bestOf_weaken l v b (fun j => (0 <= j)%nat)); [intros j; lia | exact H1].
    - destruct (searchDown_spec l v b (S j) Hw (fun i e Hi He => lowerBound_below l (fst v) i e (Nat.lt_le_trans i (S j) _ Hi (eq_ind (S j) (fun k => (S j <= k)%nat) (le_n _) mid (eq_sym Emid))) He) j b1 m1) as (b2 & m2 & E2 & H2).
      + lia. + exact Hm. + apply (bestOf_weaken l v b (fun j0 => (S j <= j0)%nat)); [intros k; lia | exact H1].
      + exists b2, m2. rewrite E2. split; [reflexivity | exact H2]. }
  destruct Hex as (i & m' & E & [Hb Hmin]). exists i. split; [exact E|].
  destruct Hb as [[-> ->]|(e & He & Hd & Hlt)].
  - left. split; [reflexivity|]. intros e He. apply In_nth_error in He. destruct He as [j Hj]. apply (Hmin j e I Hj).
  - right. exists e. split; [exact He|]. split; [lia|]. intros e' He'. apply In_nth_error in He'. destruct He' as [j Hj]. rewrite Hd. apply (Hmin j e' I Hj).
Qed.

(** any way of filling and thinning a Map2D *)
Inductive m2op := MIns (v : pos) (a : A) | MErase (i : nat) | MFill (vs : list (pos * A)).
Definition m2step l (o : m2op) : res (list (entry A)) :=
  match o with
  | MIns v a => Ok (insert l v a)
  | MErase i => erase l i
  | MFill vs => Ok (fillFrom [] vs)
  end.
Inductive m2hist : list (entry A) -> Prop :=
| mh_nil : m2hist []
| mh_step l o l' : m2hist l -> m2step l o = Ok l' -> m2hist l'.

Lemma fillFrom_wf vs : forall l, wf l -> wf (fillFrom l vs).
Proof. induction vs as [|[v a] t IH]; simpl; intros l H; [exact H|]. apply IH, insert_wf, H. Qed.

Lemma wf_nil : wf [].
Proof. split; [constructor | intros e []]. Qed.

Lemma m2hist_wf l : m2hist l -> wf l.
Proof.
  induction 1 as [|l o l' H IH E]; [exact wf_nil|]. destruct o as [v a|i|vs]; cbn [m2step] in E.
  - injection E as <-. apply insert_wf, IH.
  - exact (erase_wf l i l' IH E).
  - injection E as <-. apply fillFrom_wf, wf_nil.
Qed.

Lemma fillFrom_stored vs : forall l, Permutation (stored (fillFrom l vs)) (vs ++ stored l).
Proof.
  induction vs as [|[v a] t IH]; simpl; intros l; [apply Permutation_refl|].
  eapply Permutation_trans; [apply IH|]. eapply Permutation_trans; [apply Permutation_app_head, insert_stored|].
  apply Permutation_sym, Permutation_middle.
Qed.

(** C14 *)
Theorem nearest_is_nearest l v b : m2hist l ->
  exists i, nearest l v b = Ok i /\
    nearestOf (stored l) v b (match nth_error l i with Some e => Some (epos e, epay e) | None => None end) /\
    (nth_error l i = None -> i = length l).
Proof.
  intros Hh. apply m2hist_wf in Hh. destruct (nearest_spec l v b Hh) as (i & E & [[-> Hn]|(e & He & Hlt & Hmin)]); exists i || exists (length l).
  - split; [exact E|]. assert (K : nth_error l (length l) = None) by (apply nth_error_None; lia). rewrite K. split; [|auto].
    intros e' He'. apply in_map_iff in He'. destruct He' as (e & <- & He). cbn [fst]. rewrite <- dist2_farSq. apply Hn, He.
  - split; [exact E|]. rewrite He. split; [|discriminate]. split; [apply in_map_iff; exists e; split; [reflexivity | apply (nth_error_In l i), He]|].
    cbn [fst]. rewrite <- dist2_farSq. split; [exact Hlt|]. intros e' He'. apply in_map_iff in He'. destruct He' as (f & <- & Hf). cbn [fst]. rewrite <- dist2_farSq. apply Hmin, Hf.
Qed.

Theorem stored_by_ops l : m2hist l ->
  (forall (v : pos) (a : A), Permutation (stored (insert l v a)) ((v, a) :: stored l)) /\
  (forall i e, nth_error l i = Some e -> exists l', erase l i = Ok l' /\ Permutation (stored l) ((epos e, epay e) :: stored l')) /\
  erase l (length l) = UB /\
  (forall vs : list (pos * A), Permutation (stored (fillFrom [] vs)) vs).
Proof.
  intros _. split; [intros v a; apply insert_stored|]. split; [intros i e H; apply erase_stored, H|]. split.
  - unfold erase. rewrite Nat.ltb_irrefl. reflexivity.
  - intros vs. pose proof (fillFrom_stored vs []) as H. cbn [stored map] in H. rewrite app_nil_r in H. exact H.
Qed.
End P.

(** ** the node index *)

(** no two live nodes at one position *)
Definition apart (t : list (option pos)) : Prop := forall l l' p, liveAt t l p -> liveAt t l' p -> l = l'.

Inductive nhist (eps : Z) (P : nstate -> Prop) : nstate -> Prop :=
| nh_nil : nhist eps P (mkNS [] [])
| nh_step s o s' : nhist eps P s -> nodeStep eps s o = Ok s' -> P s' -> nhist eps P s'.

Lemma nhist_wf eps P s : nhist eps P s -> wf (nidx s).
Proof.
  induction 1 as [|s o s' H IH E HP]; [exact wf_nil|]. destruct o as [p|l|l p|k]; cbn [nodeStep] in E.
  - injection E as <-. apply insert_wf, IH.
  - apply bind_Ok in E. destruct E as (q & _ & E). apply bind_Ok in E. destruct E as (idx & Ed & E). injection E as <-. cbn [nidx].
    unfold dropPos in Ed. apply bind_Ok in Ed. destruct Ed as (i & _ & Ed). apply (erase_wf _ _ _ IH Ed).
  - apply bind_Ok in E. destruct E as (q & _ & E). apply bind_Ok in E. destruct E as (idx & Ed & E). injection E as <-. cbn [nidx].
    unfold dropPos in Ed. apply bind_Ok in Ed. destruct Ed as (i & _ & Ed). apply insert_wf, (erase_wf _ _ _ IH Ed).
  - injection E as <-. exact IH.
Qed.

(** the index holds exactly the live nodes *)
Definition mirrors (s : nstate) : Prop := NoDup (map snd (stored (nidx s))) /\ (forall l p, In (p, l) (stored (nidx s)) <-> liveAt (ntab s) l p).

Lemma stored_in (idx : list (entry nat)) e : In e idx -> In (epos e, epay e) (stored idx).
Proof. intros H. apply in_map_iff. exists e. auto. Qed.

Lemma dist2_zero v w : dist2 v w <= 0 -> v = w.
Proof. destruct v as [a b], w as [c d]. unfold dist2, sq. cbn [fst snd]. intros H.
  pose proof (Z.square_nonneg (a - c)). pose proof (Z.square_nonneg (b - d)).
  assert (K1 : (a - c) * (a - c) = 0) by lia. assert (K2 : (b - d) * (b - d) = 0) by lia.
  apply Z.mul_eq_0 in K1, K2. f_equal; lia.
Qed.

Lemma dist2_self v : dist2 v v = 0.
Proof. unfold dist2, sq. ring. Qed.

(** what is dropped is an entry with exactly the position of the node *)
Lemma dropPos_spec eps idx p l : 0 < eps -> wf idx -> In (p, l) (stored idx) ->
  exists idx' l', dropPos eps idx p = Ok idx' /\ Permutation (stored idx) ((p, l') :: stored idx').
Proof.
  intros He Hw Hin. destruct (nearest_spec idx p eps Hw) as (i & E & [[-> Hn]|(e & Hi & _ & Hmin)]).
  - apply in_map_iff in Hin. destruct Hin as (e & Ee & Hin). specialize (Hn e Hin). injection Ee as Ep _. rewrite Ep, dist2_self in Hn. lia.
  - destruct (erase_stored idx i e Hi) as (idx' & E' & HP). exists idx', (epay e). split; [unfold dropPos; rewrite E; exact E'|].
    apply in_map_iff in Hin. destruct Hin as (f & Ee & Hin). specialize (Hmin f Hin). injection Ee as Ep _. rewrite Ep, dist2_self in Hmin.
    apply dist2_zero in Hmin. rewrite <- Hmin. exact HP.
Qed.

Lemma live_upd t l x l' p : (l < length t)%nat -> (liveAt (list_upd t l x) l' p <-> (l' = l /\ x = Some p) \/ (l' <> l /\ liveAt t l' p)).
Proof.
  intros Hl. unfold liveAt. rewrite nth_error_upd. destruct (Nat.eqb_spec l l') as [<-|Hn].
  - destruct (Nat.ltb_spec l (length t)); [|lia]. split; [intros E; injection E as ->; auto|]. intros [[_ ->]|[K _]]; [reflexivity | congruence].
  - split; [intros E; right; split; [congruence | exact E]|]. intros [[K _]|[_ K]]; [congruence | exact K].
Qed.

Lemma mirrors_step eps s o s' : 0 < eps -> wf (nidx s) -> mirrors s -> apart (ntab s) -> nodeStep eps s o = Ok s' -> mirrors s'.
Proof.
  intros He Hw [Hn Hm] Hap E.
  assert (Hdrop : forall l q, liveAt (ntab s) l q -> exists idx, dropPos eps (nidx s) q = Ok idx /\ NoDup (map snd (stored idx)) /\ ~ In l (map snd (stored idx)) /\
            (forall l' p, In (p, l') (stored idx) <-> l' <> l /\ liveAt (ntab s) l' p)).
  { intros l q Hl. destruct (dropPos_spec eps (nidx s) q l He Hw (proj2 (Hm l q) Hl)) as (idx & l0 & Ed & HP).
    assert (El : l0 = l).
    { apply (Hap l0 l q); [|exact Hl]. apply Hm. apply (Permutation_in _ (Permutation_sym HP)). left. reflexivity. }
    subst l0. exists idx. split; [exact Ed|].
    assert (Hnd : NoDup (l :: map snd (stored idx))).
    { apply (Permutation_NoDup (Permutation_map snd HP)), Hn. }
    inversion Hnd as [|? ? Hni Hnd']; subst. split; [exact Hnd'|]. split; [exact Hni|]. intros l' p. split.
    - intros Hi. split; [intros ->; apply Hni, in_map_iff; exists (p, l); auto|]. apply Hm, (Permutation_in _ (Permutation_sym HP)). right. exact Hi.
    - intros [Hne Hp]. apply Hm in Hp. apply (Permutation_in _ HP) in Hp. destruct Hp as [Hp|Hp]; [congruence | exact Hp]. }
  destruct o as [p|l|l p|k]; cbn [nodeStep] in E.
  - injection E as <-. unfold mirrors. cbn [ntab nidx].
    pose proof (insert_stored (nidx s) p (length (ntab s))) as HP.
    assert (Hni : ~ In (length (ntab s)) (map snd (stored (nidx s)))).
    { intros K. apply in_map_iff in K. destruct K as ([q l] & El & K). cbn [snd] in El. subst l. apply Hm in K. apply nth_error_lt in K. exact (Nat.lt_irrefl _ K). }
    split.
    + apply (Permutation_NoDup (Permutation_sym (Permutation_map snd HP))). cbn [map snd]. constructor; assumption.
    + intros l q. split.
      * intros Hi. apply (Permutation_in _ HP) in Hi. destruct Hi as [Hi|Hi].
        { injection Hi as <- <-. unfold liveAt. rewrite nth_error_app2 by apply Nat.le_refl. rewrite Nat.sub_diag. reflexivity. }
        { apply Hm in Hi. unfold liveAt. rewrite nth_error_app1; [exact Hi | apply (nth_error_lt _ _ _ Hi)]. }
      * intros Hl. apply (Permutation_in _ (Permutation_sym HP)). unfold liveAt in Hl.
        destruct (Nat.lt_ge_cases l (length (ntab s))) as [L|L].
        { rewrite nth_error_app1 in Hl by exact L. right. apply Hm, Hl. }
        { rewrite nth_error_app2 in Hl by exact L. destruct (l - length (ntab s))%nat as [|j] eqn:Ej; [|destruct j; discriminate].
          injection Hl as ->. left. f_equal. lia. }
  - apply bind_Ok in E. destruct E as (q & Eq & E). unfold tabPos in Eq. destruct (nth_error (ntab s) l) as [[q'|]|] eqn:El; try discriminate. injection Eq as ->.
    destruct (Hdrop l q El) as (idx & Ed & Hnd & Hni & Hi). rewrite Ed in E. cbn [bind] in E. injection E as <-. unfold mirrors. cbn [ntab nidx].
    split; [exact Hnd|]. intros l' p. rewrite Hi, (live_upd _ l None l' p (nth_error_lt _ _ _ El)). split; [auto|]. intros [[_ K]|K]; [discriminate | exact K].
  - apply bind_Ok in E. destruct E as (q & Eq & E). unfold tabPos in Eq. destruct (nth_error (ntab s) l) as [[q'|]|] eqn:El; try discriminate. injection Eq as ->.
    destruct (Hdrop l q El) as (idx & Ed & Hnd & Hni & Hi). rewrite Ed in E. cbn [bind] in E. injection E as <-. unfold mirrors. cbn [ntab nidx].
    pose proof (insert_stored idx p l) as HP. split.
    + apply (Permutation_NoDup (Permutation_sym (Permutation_map snd HP))). cbn [map snd]. constructor; assumption.
    + intros l' p'. rewrite (live_upd _ l (Some p) l' p' (nth_error_lt _ _ _ El)). split.
      * intros K. apply (Permutation_in _ HP) in K. destruct K as [K|K]; [injection K as <- <-; auto | right; apply Hi, K].
      * intros K. apply (Permutation_in _ (Permutation_sym HP)). destruct K as [[-> K]|K]; [injection K as ->; left; reflexivity | right; apply Hi, K].
  - injection E as <-. unfold mirrors. cbn [ntab nidx]. split; [exact Hn|]. intros l p. rewrite Hm.
    destruct (length (ntab s) <? k)%nat; [|reflexivity]. unfold liveAt. destruct (Nat.lt_ge_cases l (length (ntab s))) as [L|L].
    + rewrite nth_error_app1 by exact L. reflexivity.
    + rewrite nth_error_app2 by exact L. split; [intros K; apply nth_error_lt in K; exfalso; exact (Nat.lt_irrefl _ (Nat.lt_le_trans _ _ _ K L))|]. intros K.
      apply nth_error_In, repeat_spec in K. discriminate.
Qed.

Definition distinct (s : nstate) : Prop := apart (ntab s).

Lemma apart_nil : apart [].
Proof. intros l l' p K. unfold liveAt in K. destruct l; discriminate. Qed.

Lemma nhist_mirrors eps s : 0 < eps -> nhist eps distinct s -> mirrors s /\ apart (ntab s).
Proof.
  intros He H. induction H as [|s o s' H IH E HP].
  - split; [|exact apart_nil]. split; [constructor|]. intros l p. split; [intros []|]. unfold liveAt. destruct l; discriminate.
  - destruct IH as [IHm IHa]. split; [|exact HP]. exact (mirrors_step eps s o s' He (nhist_wf eps distinct s H) IHm IHa E).
Qed.

(** C15 *)
Theorem nearestNode_is_nearest eps s p b : 0 < eps -> nhist eps distinct s ->
  exists o, nearestNode s p b = Ok o /\ nearestLive (ntab s) p b o.
Proof.
  intros He H. destruct (nhist_mirrors eps s He H) as [[_ Hm] _]. pose proof (nhist_wf eps distinct s H) as Hw.
  unfold nearestNode. destruct (nearest_spec (nidx s) p b Hw) as (i & E & [[-> Hn]|(e & Hi & Hlt & Hmin)]); rewrite E; cbn [bind].
  - rewrite Nat.eqb_refl. exists None. split; [reflexivity|]. intros l q Hl. apply Hm in Hl. apply in_map_iff in Hl. destruct Hl as (f & Ef & Hf).
    injection Ef as <- _. rewrite <- dist2_farSq. apply Hn, Hf.
  - destruct (Nat.eqb_spec i (length (nidx s))) as [->|_]; [apply nth_error_lt in Hi; lia|]. rewrite (proj2 (vget_Ok _ _ _) Hi). cbn [bind].
    exists (Some (epay e)). split; [reflexivity|]. exists (epos e). split; [apply Hm, stored_in, (nth_error_In _ _ Hi)|].
    rewrite <- dist2_farSq. split; [exact Hlt|]. intros l q Hl. apply Hm in Hl. apply in_map_iff in Hl. destruct Hl as (f & Ef & Hf).
    injection Ef as <- _. rewrite <- !dist2_farSq. apply Hmin, Hf.
Qed.

(** the calls on live nodes are defined while positions are distinct *)
Theorem nodeStep_defined eps s o : 0 < eps -> nhist eps distinct s ->
  match o with NGone l | NMove l _ => exists q, liveAt (ntab s) l q | _ => True end -> exists s', nodeStep eps s o = Ok s'.
Proof.
  intros He H Ho. destruct (nhist_mirrors eps s He H) as [[_ Hm] _]. pose proof (nhist_wf eps distinct s H) as Hw.
  destruct o as [p|l|l p|k]; cbn [nodeStep]; try (eexists; reflexivity); destruct Ho as [q Hq]; unfold tabPos; unfold liveAt in Hq; rewrite Hq; cbn [bind];
    destruct (dropPos_spec eps (nidx s) q l He Hw (proj2 (Hm l q) Hq)) as (idx & l0 & Ed & _); rewrite Ed; cbn [bind]; eexists; reflexivity.
Qed.

(** C15 fails for two nodes at one position: three nodes 0, 1, 2, two of them at (0,0); removing
    node 1 drops the entry of node 0, and nearestNode then answers with the removed node 1 *)
Definition stale : nstate :=
  match nodeStep 1 (mkNS [] []) (NNew (0,0)) with Ok s =>
  match nodeStep 1 s (NNew (0,0)) with Ok s =>
  match nodeStep 1 s (NGone 1) with Ok s => s | _ => s end | _ => s end | _ => mkNS [] [] end.

Theorem nearestNode_coincident_refuted : exists s, nhist 1 (fun _ => True) s /\ liveAt (ntab s) 0 (0,0) /\
  nearestNode s (0,0) 1 = Ok (Some 1%nat) /\ nth_error (ntab s) 1 = Some None.
Proof.
  exists stale. split.
  - eapply nh_step with (o := NGone 1); [eapply nh_step with (o := NNew (0,0)); [eapply nh_step with (o := NNew (0,0)); [constructor|..]|..]|..]; try reflexivity; exact I.
  - vm_compute. repeat split.
Qed.
