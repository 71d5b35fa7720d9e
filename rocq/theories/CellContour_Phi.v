(** C71: nextPhi() as a permutation of the darts. *)
From Coq Require Import Lia.
From Verif Require Import Base CellMap_Model CellMap_Spec CellMap_Main CellSigma_Spec CellSigma_Proofs CellSigma_Results CellLink_Spec CellLink_Proofs CellLink_Main CellLink_Results CellLink_Check CellFace_Spec CellFace_Walk CellContour_Orbit CellContour_Spec.
Local Open Scope Z_scope.

Definition phi (m : cmap) (d : dart) : dart := match nextPhi m d with Ok x => x | _ => d end.

Section Phi.
Variable m : cmap.
Hypothesis Wi : wired m.
Let D := isDart (cim m).
Let Fr : framed (cim m). Proof. apply Wi. Qed.
Let Ne : neat (cim m). Proof. apply Wi. Qed.

Lemma phi_ok d : D d -> nextPhi m d = Ok (phi m d) /\ D (phi m d).
Proof. intros H. destruct (phi_around m d (dh_start m Wi) H) as (x & _ & P & Dx & _). unfold phi. rewrite P. auto. Qed.
Lemma phi_closed d : D d -> D (phi m d). Proof. intros H. apply phi_ok, H. Qed.
Lemma phi_inj x y : D x -> D y -> phi m x = phi m y -> x = y.
Proof.
  intros Hx Hy E. destruct (phi_around m x (dh_start m Wi) Hx) as (x' & bx & P & _ & S1 & A1). destruct (phi_around m y (dh_start m Wi) Hy) as (y' & by_ & Q & _ & S2 & A2).
  unfold phi in E. rewrite P, Q in E. subst y'. rewrite S1 in S2. injection S2 as <-. congruence.
Qed.
Lemma phi_is d b y : D d -> nextAlpha m d = Ok b -> nextDart (cim m) (-1) b y -> phi m d = y.
Proof.
  intros H A N. destruct (alpha_opposite m d (dh_start m Wi) H) as (b' & A' & Db & _). assert (b' = b) by congruence. subst b'.
  unfold phi, nextPhi. rewrite A. cbn [bind]. unfold prevSigma. rewrite (sigma_next (cim m) Fr Ne (-1) b y) by (auto; right; reflexivity). reflexivity.
Qed.
Lemma phi_next d b : D d -> nextAlpha m d = Ok b -> nextDart (cim m) (-1) b (phi m d).
Proof.
  intros H A. destruct (alpha_opposite m d (dh_start m Wi) H) as (b' & A' & Db & _). assert (b' = b) by congruence. subst b'.
  destruct (next_exists (cim m) Fr (-1) b ltac:(right; reflexivity) Db) as (y & N). rewrite (phi_is d b y H A N). exact N.
Qed.
Lemma phis_it k : forall d, D d -> phis m k d = Ok (it k (phi m) d).
Proof. induction k; intros d H; cbn [phis it]; [reflexivity|]. destruct (phi_ok d H) as (-> & Dp). cbn [bind]. apply IHk, Dp. Qed.
Lemma phis_orb d x : D d -> ((exists k, phis m k d = Ok x) <-> orb (phi m) d x).
Proof. intros H. split; intros (k & E); exists k; rewrite phis_it in * by exact H; congruence. Qed.

Lemma its_D k d : D d -> D (it k (phi m) d).
Proof. apply (it_P D (phi m) phi_closed). Qed.
(** distinct darts reached one after the other *)
Lemma its_bound d n : D d -> (forall i j, (i < j)%nat -> (j < n)%nat -> it i (phi m) d <> it j (phi m) d) -> (n < walkFuel (cim m))%nat.
Proof.
  intros H N. destruct n as [|n]; [unfold walkFuel; lia|]. set (ds := map (fun i => it i (phi m) d) (seq 0 (Datatypes.S n))).
  assert (L : length ds = Datatypes.S n) by (unfold ds; rewrite map_length, seq_length; reflexivity). rewrite <- L. apply turn_fuel.
  - unfold ds. assert (G : forall s k, (s + k <= Datatypes.S n)%nat -> NoDup (map (fun i => it i (phi m) d) (seq s k))).
    { intros s k. revert s. induction k; intros s B; cbn [seq map]; constructor; [|apply IHk; lia]. intros I. apply in_map_iff in I. destruct I as (j & E & J). apply in_seq in J. apply (N s j); auto; lia. }
    apply G. lia.
  - intros x I. apply in_map_iff in I. destruct I as (i & <- & _). apply its_D, H.
  - unfold ds. discriminate.
Qed.
Lemma phi_return d : D d -> exists k, (0 < k)%nat /\ it k (phi m) d = d.
Proof.
  intros H. set (n := walkFuel (cim m)).
  assert (X : (exists i j, (i < j)%nat /\ it i (phi m) d = it j (phi m) d) \/ forall i j, (i < j)%nat -> (j < n)%nat -> it i (phi m) d <> it j (phi m) d).
  { assert (G : forall k, (exists i j, (i < j)%nat /\ it i (phi m) d = it j (phi m) d) \/ forall i j, (i < j)%nat -> (j < k)%nat -> it i (phi m) d <> it j (phi m) d).
    { induction k as [|k [IH|IH]]; [right; lia|left; exact IH|].
      destruct (Exists_dec (fun i => it i (phi m) d = it k (phi m) d) (seq 0 k) (fun i => dart_eq_dec _ _)) as [X|X].
      - left. apply Exists_exists in X. destruct X as (i & I & E). apply in_seq in I. exists i, k. split; [lia|exact E].
      - right. intros i j I J. destruct (Nat.eq_dec j k) as [->|]; [|apply IH; lia]. intros E. apply X, Exists_exists. exists i. split; [apply in_seq; lia|exact E]. }
    apply G. }
  destruct X as [(i & j & I & E)|X].
  - exists (j - i)%nat. split; [lia|]. revert j I E. induction i as [|i IH]; intros j I E; [rewrite Nat.sub_0_r; symmetry; exact E|].
    destruct j as [|j]; [lia|]. rewrite !it_S in E. apply phi_inj in E; try (apply its_D, H). replace (Datatypes.S j - Datatypes.S i)%nat with (j - i)%nat by lia. apply IH; [lia|exact E].
  - exfalso. pose proof (its_bound d n H X). unfold n in *. lia.
Qed.
(** the first return *)
Lemma phi_round d : D d -> exists r, (0 < r)%nat /\ (r < walkFuel (cim m))%nat /\ it r (phi m) d = d /\ (forall j, (0 < j < r)%nat -> it j (phi m) d <> d).
Proof.
  intros H. destruct (first_return dart_eq_dec D (phi m) phi_return d H) as (r & R & E & F). exists r. split; [exact R|]. split; [|split; [exact E|exact F]].
  apply (its_bound d r H). intros i j I J. apply (distinct D (phi m) phi_closed phi_inj d r i j H F I J).
Qed.
Lemma phi_sym x y : D x -> orb (phi m) x y -> orb (phi m) y x.
Proof. apply (orb_sym D (phi m) phi_return). Qed.
Lemma phi_to x y : D x -> orb (phi m) x y -> D y.
Proof. intros H (k & <-). apply its_D, H. Qed.
Lemma phi_or x y : D x -> orb (phi m) x y \/ ~ orb (phi m) x y.
Proof. apply (orb_or dart_eq_dec D (phi m) phi_return). Qed.

(** ** The parts of a border *)
Lemma lonely_not d : lonely (cim m) d -> ~ D d.
Proof. intros (_ & N) H. apply (N d H). reflexivity. Qed.
Lemma contour_dart a x : D a -> (contour m a x <-> orb (phi m) a x).
Proof.
  intros H. unfold contour. rewrite phis_orb by exact H. split; [|intros O; left; auto]. intros [(_ & O)|(L & _)]; [exact O|]. exfalso. apply (lonely_not a L H).
Qed.
Lemma contour_lonely a x : lonely (cim m) a -> (contour m a x <-> lonely (cim m) x /\ nodeOf (cim m) a = nodeOf (cim m) x).
Proof. intros L. unfold contour. split; [intros [(H & _)|(_ & Q)]; [exfalso; apply (lonely_not a L H)|exact Q]|]. intros Q. right. auto. Qed.
Lemma contour_refl a : D a \/ lonely (cim m) a -> contour m a a.
Proof. intros [H|L]; [apply contour_dart; [exact H|apply orb_refl]|apply contour_lonely; auto]. Qed.
Lemma contour_sym a x : contour m a x -> contour m x a.
Proof.
  intros [(H & O)|(L & Lx & E)].
  - rewrite phis_orb in O by exact H. apply contour_dart; [apply (phi_to a); auto|]. apply phi_sym; auto.
  - apply contour_lonely; auto.
Qed.
Lemma contour_trans a b c : contour m a b -> contour m b c -> contour m a c.
Proof.
  intros [(H & O)|(L & Lb & E)] Q.
  - rewrite phis_orb in O by exact H. apply contour_dart in Q; [|apply (phi_to a); auto]. apply contour_dart; auto. apply (orb_trans _ _ b); auto.
  - apply contour_lonely in Q; auto. destruct Q as (Lc & E'). apply contour_lonely; auto. split; auto. congruence.
Qed.
Lemma contour_or a x : D a \/ lonely (cim m) a -> D x \/ lonely (cim m) x -> contour m a x \/ ~ contour m a x.
Proof.
  intros [H|L] X.
  - rewrite contour_dart by exact H. apply phi_or, H.
  - rewrite contour_lonely by exact L. destruct X as [X|X]; [right; intros (Y & _); apply (lonely_not x Y X)|]. destruct (Z.eq_dec (nodeOf (cim m) a) (nodeOf (cim m) x)); [left; auto|right; tauto].
Qed.
End Phi.

(** ** Lists of anchors *)
Section Cover.
Variables (T : dart -> Prop) (R : dart -> dart -> Prop).
Hypothesis Rs : forall a b, R a b -> R b a.
Hypothesis Rt : forall a b c, R a b -> R b c -> R a c.
Hypothesis Rr : forall a, T a -> R a a.
Fixpoint apart (cs : list dart) : Prop := match cs with [] => True | c :: t => (forall b, In b t -> ~ R c b) /\ apart t end.
Definition cover (cs : list dart) : Prop := (forall a, In a cs -> T a) /\ (forall x, T x -> exists a, In a cs /\ R a x) /\ apart cs.
Lemma apart_nth cs : apart cs <-> forall i j a b, nth_error cs i = Some a -> nth_error cs j = Some b -> i <> j -> ~ R a b.
Proof.
  induction cs as [|c t IH]; cbn [apart].
  - split; auto. intros _ [|i] j a b H; discriminate H.
  - rewrite IH. split.
    + intros (A & B) [|i] [|j] a b Ha Hb N; cbn in Ha, Hb; [lia| | |apply (B i j); auto].
      * injection Ha as <-. apply A. eapply nth_error_In, Hb.
      * injection Hb as <-. intros Q. apply (A a); [eapply nth_error_In, Ha|]. apply Rs, Q.
    + intros B. split; [|intros i j a b Ha Hb N; apply (B (Datatypes.S i) (Datatypes.S j)); auto].
      intros b I. apply In_nth_error in I. destruct I as (j & J). apply (B 0%nat (Datatypes.S j) c b); auto.
Qed.
Lemma cover_index cs : cover cs <-> (forall a, In a cs -> T a) /\
  (forall x, T x -> exists i a, nth_error cs i = Some a /\ R a x /\ forall j b, nth_error cs j = Some b -> R b x -> j = i).
Proof.
  unfold cover. rewrite apart_nth. split.
  - intros (A & B & C). split; auto. intros x X. destruct (B x X) as (a & I & Q). apply In_nth_error in I. destruct I as (i & I). exists i, a. split; auto. split; auto.
    intros j b J Qb. destruct (Nat.eq_dec j i) as [|N]; auto. exfalso. apply (C j i b a); auto. apply (Rt _ x); auto.
  - intros (A & B). split; auto. split.
    + intros x X. destruct (B x X) as (i & a & I & Q & _). exists a. split; auto. eapply nth_error_In, I.
    + intros i j a b I J N Q. assert (Tb : T b) by (apply A; eapply nth_error_In, J). destruct (B b Tb) as (k & c & _ & _ & U). apply N. rewrite (U i a I Q), (U j b J (Rr b Tb)). reflexivity.
Qed.
Lemma apart_app u v : apart (u ++ v) <-> apart u /\ apart v /\ forall a b, In a u -> In b v -> ~ R a b.
Proof.
  induction u as [|c t IH]; cbn [apart app]; [split; [intros H; split; auto; split; auto; intros a b []|tauto]|]. rewrite IH. split.
  - intros (A & B & C & E). split; [split; auto; intros b I; apply A, in_or_app; auto|]. split; auto. intros a b [<-|I] J; [apply A, in_or_app; auto|apply E; auto].
  - intros ((A & B) & C & E). split; [|split; [exact B|split; [exact C|]]].
    + intros b I. apply in_app_or in I. destruct I as [I|I]; [apply A, I|apply E; auto; left; reflexivity].
    + intros a b I J. apply E; auto. right. exact I.
Qed.
End Cover.
Lemma list_split {A} (v : list A) i a : nth_error v i = Some a -> exists u w, v = u ++ a :: w /\ length u = i.
Proof. apply nth_error_split. Qed.
Lemma upd_split {A} (u w : list A) a b : list_upd (u ++ a :: w) (length u) b = u ++ b :: w.
Proof. induction u; cbn; congruence. Qed.
Lemma erase_split {A} (u w : list A) a : eraseAt (length u) (u ++ a :: w) = u ++ w.
Proof. induction u; cbn; congruence. Qed.
Lemma apart_mid (R : dart -> dart -> Prop) (Rs : forall a b, R a b -> R b a) u a w : apart R (u ++ a :: w) <-> apart R (u ++ w) /\ forall b, In b (u ++ w) -> ~ R a b.
Proof.
  rewrite !apart_app. cbn [apart]. split.
  - intros (A & (B & C) & E). split; [split; [exact A|split; [exact C|]]|].
    + intros x y X Y. apply E; auto. right. exact Y.
    + intros b I Q. apply in_app_or in I. destruct I as [I|I]; [|apply (B b I Q)]. apply (E b a I (or_introl eq_refl)), Rs, Q.
  - intros ((A & C & E) & B). split; [exact A|]. split; [split; [intros b I; apply B, in_or_app; auto|exact C]|].
    intros x y X [<-|Y]; [|apply E; auto]. intros Q. apply (B x); [apply in_or_app; auto|]. apply Rs, Q.
Qed.
