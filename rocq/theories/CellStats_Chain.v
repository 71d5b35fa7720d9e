(** C82: the chains of mergedEdges_, and what protectEdge() and edgeProtected() do with the flags along one. *)
From Coq Require Import Lia.
From Verif Require Import Base CellMap_Model CellMap_Main CellMap_Init CellStats_Model.
Local Open Scope Z_scope.

(** the entries met from [e] on, up to the one that is its own *)
Inductive chain (mg : list Z) : Z -> list Z -> Prop :=
| cn_end e : at_ mg e = Ok e -> chain mg e [e]
| cn_next e n t : at_ mg e = Ok n -> n <> e -> chain mg n t -> chain mg e (e :: t).
Lemma chain_unique mg e a : chain mg e a -> forall b, chain mg e b -> a = b.
Proof.
  induction 1 as [e A|e n t A N C IH]; intros b D; inversion D; subst; auto; try (assert (e = n) by congruence; congruence).
  assert (n0 = n) by congruence. subst n0. f_equal. apply IH. assumption.
Qed.
Lemma chain_head mg e a : chain mg e a -> In e a. Proof. intros H. destruct H; left; reflexivity. Qed.
Lemma chain_in mg e a x : chain mg e a -> In x a -> exists y, at_ mg x = Ok y.
Proof. induction 1 as [e A|e n t A N C IH]; intros I; [destruct I as [<-|[]]; eauto|]. destruct I as [<-|I]; eauto. Qed.
Lemma chain_bound mg e a x : chain mg e a -> In x a -> 0 <= x < Z.of_nat (length mg).
Proof.
  intros C I. destruct (chain_in mg e a x C I) as (y & E). apply at_Ok in E. destruct E as (P & E). assert (Z.to_nat x < length mg)%nat by (apply nth_error_Some; congruence). lia.
Qed.
Lemma chain_length mg e a : chain mg e a -> NoDup a -> (length a <= length mg)%nat.
Proof.
  intros C N. assert (G : incl (map Z.to_nat a) (seq 0 (length mg))).
  { intros x I. apply in_map_iff in I. destruct I as (y & <- & I). pose proof (chain_bound mg e a y C I). apply in_seq. lia. }
  assert (M : NoDup (map Z.to_nat a)).
  { assert (B : forall y, In y a -> 0 <= y) by (intros y I; apply (chain_bound mg e a y C I)). clear -N B. induction N as [|x t I N IH]; cbn; constructor.
    - intros J. apply in_map_iff in J. destruct J as (y & E & J). assert (y = x) by (pose proof (B y (or_intror J)); pose proof (B x (or_introl eq_refl)); lia). subst y. contradiction.
    - apply IH. intros y J. apply B. right. exact J. }
  pose proof (NoDup_incl_length M G) as L. rewrite map_length, seq_length in L. exact L.
Qed.
(** the last entry *)
Lemma chain_last mg e a fuel : chain mg e a -> (length a <= fuel)%nat -> exists r b, lastMerged fuel mg e = Ok r /\ a = b ++ [r] /\ at_ mg r = Ok r.
Proof.
  intros C. revert fuel. induction C as [e A|e n t A N C IH]; intros fuel F; (destruct fuel as [|fuel]; [cbn in F; lia|]); cbn [lastMerged]; rewrite A; cbn [bind].
  - rewrite Z.eqb_refl. exists e, []. auto.
  - rewrite (proj2 (Z.eqb_neq n e) N). cbn [length] in F. destruct (IH fuel ltac:(lia)) as (r & b & L & E & R). exists r, (e :: b). split; [exact L|]. split; [cbn; f_equal; exact E|exact R].
Qed.
Lemma at_other {A} (v : list A) r x y : x <> r -> 0 <= r -> at_ (list_upd v (Z.to_nat r) y) x = at_ v x.
Proof.
  intros N R. unfold at_. rewrite list_upd_length. destruct (_ && _) eqn:E; [|reflexivity]. apply andb_true_iff in E. rewrite Z.leb_le, Z.ltb_lt in E. unfold vget. rewrite nth_error_upd_neq by lia. reflexivity.
Qed.
Lemma at_same {A} (v : list A) r y : 0 <= r < Z.of_nat (length v) -> at_ (list_upd v (Z.to_nat r) y) r = Ok y.
Proof. intros R. apply at_Ok. split; [lia|]. apply nth_error_upd_eq. lia. Qed.
Lemma chain_other mg e a r y : chain mg e a -> ~ In r a -> 0 <= r -> chain (list_upd mg (Z.to_nat r) y) e a.
Proof.
  intros C N R. induction C as [e A|e n t A M C IH].
  - apply cn_end. rewrite at_other; auto. intros ->. apply N. left. reflexivity.
  - apply (cn_next _ e n); auto; [|apply IH; intros I; apply N; right; exact I]. rewrite at_other; auto. intros ->. apply N. left. reflexivity.
Qed.
(** two chains become one *)
Lemma chain_join mg k a e b r : chain mg k a -> NoDup a -> (exists a0, a = a0 ++ [r]) -> chain mg e b -> ~ In r b -> chain (list_upd mg (Z.to_nat r) e) k (a ++ b).
Proof.
  intros C Nd (a0 & La) D N. assert (R : 0 <= r < Z.of_nat (length mg)) by (apply (chain_bound mg k a r C); subst a; apply in_or_app; right; left; reflexivity).
  pose proof (chain_other mg e b r e D N ltac:(lia)) as D'. revert a0 La. induction C as [k A|k n t A M C IH]; intros a0 La.
  - assert (k = r) by (destruct a0 as [|z [|]]; cbn in La; congruence). subst r. cbn [app]. apply (cn_next _ k e); [apply at_same; exact R| |exact D']. intros ->. apply N, (chain_head _ _ _ D).
  - destruct a0 as [|z a0]; [exfalso; cbn in La; injection La as <- ->; inversion C|]. cbn in La. injection La as <- La. cbn [app]. inversion_clear Nd as [|? ? N1 N2].
    apply (cn_next _ k n); [|exact M|apply (IH N2 a0 La)]. rewrite at_other; [exact A| |lia]. intros ->. apply N1. rewrite La. apply in_or_app. right. left. reflexivity.
Qed.

(** ** The flags *)
Definition flagOn (f flag : Z) : bool := negb (Z.land f flag =? 0).
Definition flagTo (f flag : Z) (on : bool) : Z := if Bool.eqb (flagOn f flag) on then f else Z.lxor f flag.
Lemma flagEdge_is p e flag on f : at_ p e = Ok f -> flagEdge p e flag on = Ok (list_upd p (Z.to_nat e) (flagTo f flag on), negb (Bool.eqb (flagOn f flag) on)).
Proof.
  intros A. unfold flagEdge, flagTo. rewrite A. cbn [bind]. fold (flagOn f flag). pose proof (proj1 (at_Ok _ _ _) A) as (P & Q). destruct (Bool.eqb (flagOn f flag) on).
  - cbn. f_equal. f_equal. clear -Q. revert Q. generalize (Z.to_nat e). induction p as [|a p IH]; intros [|n] H; cbn in *; try discriminate H; try congruence. f_equal. apply IH, H.
  - unfold put. assert (Z.to_nat e < length p)%nat by (apply nth_error_Some; congruence). replace (_ && _) with true by (symmetry; rewrite andb_true_iff, Z.leb_le, Z.ltb_lt; lia).
    unfold vset. rewrite (proj2 (Nat.ltb_lt _ _)) by assumption. reflexivity.
Qed.
Lemma protectLoop_is mg e a flag on : chain mg e a -> NoDup a -> forall fuel p, (length a <= fuel)%nat -> (forall x, In x a -> (Z.to_nat x < length p)%nat) ->
  exists p' b, protectLoop fuel mg p e flag on = Ok (p', b) /\ length p' = length p /\
    (forall x f, In x a -> nth_error p (Z.to_nat x) = Some f -> nth_error p' (Z.to_nat x) = Some (flagTo f flag on)) /\
    (forall x, ~ In x (map Z.to_nat a) -> nth_error p' x = nth_error p x) /\
    (b = true <-> exists x f, In x a /\ nth_error p (Z.to_nat x) = Some f /\ flagOn f flag <> on).
Proof.
  intros C. induction C as [e A|e n t A N C IH]; intros Nd fuel p F B; (destruct fuel as [|fuel]; [cbn in F; lia|]); cbn [protectLoop].
  - destruct (nth_error p (Z.to_nat e)) as [f|] eqn:Ef; [|apply nth_error_None in Ef; specialize (B e (or_introl eq_refl)); lia].
    assert (P : at_ p e = Ok f) by (apply at_Ok; split; [apply at_Ok in A; apply A|exact Ef]). rewrite (flagEdge_is p e flag on f P). cbn [bind]. rewrite A. cbn [bind]. rewrite Z.eqb_refl.
    eexists _, _. split; [reflexivity|]. split; [apply list_upd_length|]. split; [|split].
    + intros x g [Q|[]] G. subst x. rewrite nth_error_upd_eq by (apply B; left; reflexivity). congruence.
    + intros x Nx. apply nth_error_upd_neq. intros <-. apply Nx. left. reflexivity.
    + rewrite negb_true_iff, Bool.eqb_false_iff. split; [intros Q; exists e, f; split; [left; reflexivity|auto]|]. intros (x & g & [<-|[]] & G & Q). congruence.
  - destruct (nth_error p (Z.to_nat e)) as [f|] eqn:Ef; [|apply nth_error_None in Ef; specialize (B e (or_introl eq_refl)); lia].
    pose proof (proj1 (at_Ok _ _ _) A) as (Pe & _).
    assert (P : at_ p e = Ok f) by (apply at_Ok; split; [exact Pe|exact Ef]). rewrite (flagEdge_is p e flag on f P). cbn [bind]. rewrite A. cbn [bind fst snd]. rewrite (proj2 (Z.eqb_neq n e) N).
    inversion_clear Nd as [|? ? N1 N2]. cbn [length] in F. set (p1 := list_upd p (Z.to_nat e) (flagTo f flag on)). assert (L1 : length p1 = length p) by apply list_upd_length.
    assert (Bt : forall x, In x t -> 0 <= x) by (intros x I; apply (chain_bound mg n t x C I)).
    assert (Ne : ~ In (Z.to_nat e) (map Z.to_nat t)). { intros I. apply in_map_iff in I. destruct I as (y & Ey & I). assert (y = e) by (specialize (Bt y I); lia). subst y. contradiction. }
    destruct (IH N2 fuel p1 ltac:(lia)) as (p' & b & Lp & Le & P1 & P2 & P3). { intros x I. rewrite L1. apply B. right. exact I. }
    rewrite Lp. cbn [bind fst snd]. eexists _, _. split; [reflexivity|]. split; [lia|].
    assert (Ot : forall x, In x t -> nth_error p1 (Z.to_nat x) = nth_error p (Z.to_nat x)). { intros x I. apply nth_error_upd_neq. intros E. apply Ne. rewrite E. apply in_map, I. }
    split; [|split].
    + intros x g [Q|I] G; [subst x|apply P1; [exact I|]; rewrite Ot by exact I; exact G]. rewrite P2 by exact Ne. unfold p1. rewrite nth_error_upd_eq by (apply B; left; reflexivity). congruence.
    + intros x Nx. rewrite P2 by (intros I; apply Nx; right; exact I). apply nth_error_upd_neq. intros <-. apply Nx. left. reflexivity.
    + rewrite orb_true_iff, P3, negb_true_iff, Bool.eqb_false_iff. split.
      * intros [(x & g & I & G & Q)|Q]; [exists x, g; split; [right; exact I|]; split; [rewrite <- Ot by exact I; exact G|exact Q]|exists e, f; split; [left; reflexivity|auto]].
      * intros (x & g & [<-|I] & G & Q); [right; congruence|]. left. exists x, g. split; [exact I|]. split; [rewrite Ot by exact I; exact G|exact Q].
Qed.
Lemma protectedLoop_is mg e a p : chain mg e a -> forall fuel, (length a <= fuel)%nat -> (forall x, In x a -> (Z.to_nat x < length p)%nat) ->
  exists b, protectedLoop fuel mg p e = Ok b /\ (b = true <-> exists x f, In x a /\ nth_error p (Z.to_nat x) = Some f /\ f <> 0).
Proof.
  intros C. induction C as [e A|e n t A N C IH]; intros fuel F B; (destruct fuel as [|fuel]; [cbn in F; lia|]); cbn [protectedLoop].
  - destruct (nth_error p (Z.to_nat e)) as [f|] eqn:Ef; [|apply nth_error_None in Ef; specialize (B e (or_introl eq_refl)); lia].
    assert (P : at_ p e = Ok f) by (apply at_Ok; split; [apply at_Ok in A; apply A|exact Ef]). rewrite P. cbn [bind]. destruct (f =? 0) eqn:Z0; cbn [negb].
    + rewrite A. cbn [bind]. rewrite Z.eqb_refl. exists false. split; [reflexivity|]. split; [discriminate|]. apply Z.eqb_eq in Z0. intros (x & g & [<-|[]] & G & Q). congruence.
    + exists true. split; [reflexivity|]. split; [|reflexivity]. intros _. apply Z.eqb_neq in Z0. exists e, f. split; [left; reflexivity|auto].
  - destruct (nth_error p (Z.to_nat e)) as [f|] eqn:Ef; [|apply nth_error_None in Ef; specialize (B e (or_introl eq_refl)); lia].
    assert (P : at_ p e = Ok f) by (apply at_Ok; split; [apply at_Ok in A; apply A|exact Ef]). rewrite P. cbn [bind]. destruct (f =? 0) eqn:Z0; cbn [negb].
    + rewrite A. cbn [bind]. rewrite (proj2 (Z.eqb_neq n e) N). cbn [length] in F. destruct (IH fuel ltac:(lia)) as (b & Lb & Q); [intros x I; apply B; right; exact I|]. exists b. split; [exact Lb|]. rewrite Q. apply Z.eqb_eq in Z0. split.
      * intros (x & g & I & G). exists x, g. split; [right; exact I|exact G].
      * intros (x & g & [<-|I] & G & R); [congruence|]. exists x, g. auto.
    + exists true. split; [reflexivity|]. split; [|reflexivity]. intros _. apply Z.eqb_neq in Z0. exists e, f. split; [left; reflexivity|auto].
Qed.
(** a flag of one bit: this bit is set or cleared, the others stay *)
Lemma flag_on f b : 0 <= b -> flagOn f (2 ^ b) = Z.testbit f b.
Proof.
  intros B. unfold flagOn. destruct (Z.testbit f b) eqn:T.
  - apply negb_true_iff, Z.eqb_neq. intros E. assert (Q : Z.testbit (Z.land f (2 ^ b)) b = false) by (rewrite E; apply Z.bits_0). rewrite Z.land_spec, T, Z.pow2_bits_true in Q by exact B. discriminate Q.
  - apply negb_false_iff, Z.eqb_eq. apply Z.bits_inj'. intros n Hn. rewrite Z.land_spec, Z.bits_0, Z.pow2_bits_eqb by exact B. destruct (b =? n) eqn:E; [apply Z.eqb_eq in E; subst n; rewrite T; reflexivity|apply andb_false_r].
Qed.
Lemma flag_to f b on n : 0 <= b -> 0 <= n -> Z.testbit (flagTo f (2 ^ b) on) n = if n =? b then on else Z.testbit f n.
Proof.
  intros B N. unfold flagTo. rewrite (flag_on f b B). destruct (Bool.eqb (Z.testbit f b) on) eqn:E.
  - apply Bool.eqb_prop in E. destruct (n =? b) eqn:Q; [apply Z.eqb_eq in Q; subst n; exact E|reflexivity].
  - apply Bool.eqb_false_iff in E. rewrite Z.lxor_spec, Z.pow2_bits_eqb by exact B. destruct (n =? b) eqn:Q; [apply Z.eqb_eq in Q; subst n; rewrite Z.eqb_refl; destruct (Z.testbit f b), on; cbn; congruence|].
    apply Z.eqb_neq in Q. rewrite (proj2 (Z.eqb_neq b n)) by congruence. apply xorb_false_r.
Qed.
