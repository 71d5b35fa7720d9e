(** Connectivity and rank of finite undirected multigraphs.

    Pure mathematics used by the GeoMap proofs.  Vertices are natural numbers
    (node labels), a graph is the list of its edges.  [rank G] is the number of
    edges of a spanning forest, computed by a union-find style fold; it does not
    depend on the order of the edges and only on connectivity. *)
From Verif Require Import Base.

Definition graph := list (nat * nat).

Inductive conn (G : graph) : nat -> nat -> Prop :=
| conn_refl x : conn G x x
| conn_edge a b : In (a, b) G -> conn G a b
| conn_sym x y : conn G x y -> conn G y x
| conn_trans x y z : conn G x y -> conn G y z -> conn G x z.

Fixpoint uf (G : graph) (x : nat) : nat :=
  match G with
  | [] => x
  | (a, b) :: G' => if uf G' x =? uf G' b then uf G' a else uf G' x
  end.

Fixpoint rank (G : graph) : nat :=
  match G with
  | [] => 0
  | (a, b) :: G' => (if uf G' a =? uf G' b then 0 else 1) + rank G'
  end.

Lemma conn_incl G H x y : incl G H -> conn G x y -> conn H x y.
Proof.
  intros Hi Hc; induction Hc.
  - apply conn_refl.
  - apply conn_edge, Hi; assumption.
  - apply conn_sym; assumption.
  - eapply conn_trans; eassumption.
Qed.

Lemma conn_cons G a b x y :
  conn ((a, b) :: G) x y <->
  conn G x y \/ (conn G x a /\ conn G b y) \/ (conn G x b /\ conn G a y).
Proof.
  split.
  - intros Hc; induction Hc.
    + left; apply conn_refl.
    + destruct H as [H|H].
      * injection H as -> ->. right; left; split; apply conn_refl.
      * left; apply conn_edge; assumption.
    + destruct IHHc as [H|[[H1 H2]|[H1 H2]]].
      * left; apply conn_sym; assumption.
      * right; right; split; apply conn_sym; assumption.
      * right; left; split; apply conn_sym; assumption.
    + destruct IHHc1 as [H|[[H1 H2]|[H1 H2]]]; destruct IHHc2 as [K|[[K1 K2]|[K1 K2]]].
      * left; eapply conn_trans; eassumption.
      * right; left; split; [eapply conn_trans; eassumption | assumption].
      * right; right; split; [eapply conn_trans; eassumption | assumption].
      * right; left; split; [assumption | eapply conn_trans; eassumption].
      * right; left; split; assumption.
      * left; eapply conn_trans; eassumption.
      * right; right; split; [assumption | eapply conn_trans; eassumption].
      * left; eapply conn_trans; eassumption.
      * right; right; split; assumption.
  - assert (Hi : incl G ((a, b) :: G)) by (intros z Hz; right; assumption).
    assert (Hab : conn ((a, b) :: G) a b) by (apply conn_edge; left; reflexivity).
    intros [H|[[H1 H2]|[H1 H2]]].
    + eapply conn_incl; eassumption.
    + apply (conn_trans _ _ a); [eapply conn_incl; eassumption|].
      apply (conn_trans _ _ b); [assumption | eapply conn_incl; eassumption].
    + apply (conn_trans _ _ b); [eapply conn_incl; eassumption|].
      apply (conn_trans _ _ a); [apply conn_sym; assumption | eapply conn_incl; eassumption].
Qed.

Lemma conn_nil x y : conn [] x y <-> x = y.
Proof.
  split; [|intros ->; apply conn_refl].
  intros H; induction H; congruence || auto. destruct H.
Qed.

Lemma uf_spec G x y : uf G x = uf G y <-> conn G x y.
Proof.
  revert x y; induction G as [|[a b] G IH]; intros x y.
  - simpl; rewrite conn_nil; reflexivity.
  - rewrite conn_cons, <- !IH. simpl.
    destruct (Nat.eqb_spec (uf G x) (uf G b)) as [E1|E1];
      destruct (Nat.eqb_spec (uf G y) (uf G b)) as [E2|E2];
      split; intros H.
    + left; congruence.
    + reflexivity.
    + right; right; split; congruence.
    + destruct H as [H|[[H1 H2]|[H1 H2]]]; congruence.
    + right; left; split; congruence.
    + destruct H as [H|[[H1 H2]|[H1 H2]]]; congruence.
    + left; assumption.
    + destruct H as [H|[[H1 H2]|[H1 H2]]]; congruence.
Qed.

Lemma conn_dec G x y : {conn G x y} + {~ conn G x y}.
Proof.
  destruct (Nat.eq_dec (uf G x) (uf G y)) as [H|H].
  - left; apply uf_spec; assumption.
  - right; intros Hc; apply H, uf_spec; assumption.
Qed.

Lemma rank_dep G a b : conn G a b -> rank ((a, b) :: G) = rank G.
Proof.
  intros H; apply uf_spec in H. simpl. apply Nat.eqb_eq in H; rewrite H; reflexivity.
Qed.

Lemma rank_indep G a b : ~ conn G a b -> rank ((a, b) :: G) = S (rank G).
Proof.
  intros H. simpl. destruct (Nat.eqb_spec (uf G a) (uf G b)) as [E|E]; [|reflexivity].
  apply uf_spec in E; contradiction.
Qed.

Lemma rank_cons_le G p : rank G <= rank (p :: G) <= S (rank G).
Proof. destruct p as [a b]; simpl; destruct (_ =? _); lia. Qed.

Lemma rank_cons_conn G a b : rank ((a, b) :: G) = rank G <-> conn G a b.
Proof.
  split; [|apply rank_dep]. intros H. destruct (conn_dec G a b) as [|Hn]; auto.
  rewrite (rank_indep _ _ _ Hn) in H; lia.
Qed.

Lemma conn_swap G p q x y : conn (p :: q :: G) x y <-> conn (q :: p :: G) x y.
Proof.
  split; apply conn_incl; intros z Hz; simpl in *; tauto.
Qed.

Lemma conn_ext_cons G H p x y :
  (forall u v, conn G u v <-> conn H u v) -> conn (p :: G) x y <-> conn (p :: H) x y.
Proof.
  intros He; destruct p as [a b]. rewrite !conn_cons, !He. reflexivity.
Qed.

Lemma rank_cons_ext G H p :
  (forall u v, conn G u v <-> conn H u v) -> rank (p :: G) + rank H = rank (p :: H) + rank G.
Proof.
  intros He; destruct p as [a b].
  destruct (conn_dec G a b) as [Hc|Hc].
  - rewrite (rank_dep G) by assumption. rewrite (rank_dep H) by (apply He; assumption). lia.
  - rewrite (rank_indep G) by assumption.
    rewrite (rank_indep H) by (rewrite <- He; assumption). lia.
Qed.

Lemma conn_ext_app K G H x y :
  (forall u v, conn G u v <-> conn H u v) -> conn (K ++ G) x y <-> conn (K ++ H) x y.
Proof.
  revert x y. induction K as [|p K IH]; intros x y He; simpl; [apply He|].
  apply conn_ext_cons. intros; apply IH; assumption.
Qed.

(** The rank added by [K] depends only on the connectivity below. *)
Lemma rank_app_ext K G H :
  (forall u v, conn G u v <-> conn H u v) -> rank (K ++ G) + rank H = rank (K ++ H) + rank G.
Proof.
  intros He. induction K as [|p K IH]; [simpl; lia|]. cbn [app].
  pose proof (rank_cons_ext (K ++ G) (K ++ H) p (fun u v => conn_ext_app K G H u v He)). lia.
Qed.

Lemma rank_swap G p q : rank (p :: q :: G) = rank (q :: p :: G).
Proof.
  destruct p as [a b], q as [c d].
  destruct (conn_dec G a b) as [Hp|Hp]; destruct (conn_dec G c d) as [Hq|Hq].
  - rewrite !rank_dep; auto; eapply conn_incl; try eassumption; intros z Hz; right; assumption.
  - rewrite (rank_dep ((c, d) :: G)).
    + rewrite (rank_indep G c d) by assumption.
      rewrite (rank_indep ((a, b) :: G)).
      * rewrite rank_dep by assumption; reflexivity.
      * rewrite conn_cons. intros [H|[[H1 H2]|[H1 H2]]]; apply Hq; auto.
        -- apply (conn_trans _ _ a); auto. apply (conn_trans _ _ b); auto.
        -- apply (conn_trans _ _ b); auto. apply (conn_trans _ _ a); auto using conn_sym.
    + eapply conn_incl; try eassumption; intros z Hz; right; assumption.
  - rewrite (rank_dep ((a, b) :: G)).
    + rewrite (rank_indep G a b) by assumption.
      rewrite (rank_indep ((c, d) :: G)).
      * rewrite rank_dep by assumption; reflexivity.
      * rewrite conn_cons. intros [H|[[H1 H2]|[H1 H2]]]; apply Hp; auto.
        -- apply (conn_trans _ _ c); auto. apply (conn_trans _ _ d); auto.
        -- apply (conn_trans _ _ d); auto. apply (conn_trans _ _ c); auto using conn_sym.
    + eapply conn_incl; try eassumption; intros z Hz; right; assumption.
  - (* exchange *)
    assert (Hex : conn ((c, d) :: G) a b <-> conn ((a, b) :: G) c d).
    { rewrite !conn_cons. split; intros [H|[[H1 H2]|[H1 H2]]]; try contradiction;
        eauto 6 using conn_sym. }
    destruct (conn_dec ((c, d) :: G) a b) as [H|H].
    + rewrite (rank_dep ((c, d) :: G)) by assumption.
      rewrite (rank_dep ((a, b) :: G)) by (apply Hex; assumption).
      rewrite !rank_indep by assumption; reflexivity.
    + rewrite (rank_indep ((c, d) :: G)) by assumption.
      rewrite (rank_indep ((a, b) :: G)) by (rewrite <- Hex; assumption).
      rewrite !rank_indep by assumption; reflexivity.
Qed.

Lemma conn_perm G H x y : Permutation G H -> conn G x y <-> conn H x y.
Proof.
  intros Hp; split; apply conn_incl; intros z Hz.
  - eapply Permutation_in; eassumption.
  - eapply Permutation_in; [apply Permutation_sym|]; eassumption.
Qed.

Lemma rank_perm G H : Permutation G H -> rank G = rank H.
Proof.
  intros Hp; induction Hp as [|x l l' Hp IH|x y l|l l' l'' Hp1 IH1 Hp2 IH2].
  - reflexivity.
  - pose proof (rank_cons_ext l l' x (fun u v => conn_perm l l' u v Hp)). lia.
  - apply rank_swap.
  - congruence.
Qed.

(** Edges may be replaced by edges between connected vertices. *)
Lemma conn_equiv_head G a b a' b' x y :
  conn G a a' -> conn G b b' -> conn ((a, b) :: G) x y <-> conn ((a', b') :: G) x y.
Proof.
  intros Ha Hb. rewrite !conn_cons.
  split; intros [H|[[H1 H2]|[H1 H2]]]; eauto 8 using conn_sym, conn_trans.
Qed.

Lemma rank_equiv_head G a b a' b' :
  conn G a a' -> conn G b b' -> rank ((a, b) :: G) = rank ((a', b') :: G).
Proof.
  intros Ha Hb.
  destruct (conn_dec G a b) as [H|H].
  - rewrite rank_dep by assumption. rewrite rank_dep; [reflexivity|].
    apply (conn_trans _ _ a); [apply conn_sym; assumption|].
    apply (conn_trans _ _ b); assumption.
  - rewrite rank_indep by assumption. rewrite rank_indep; [reflexivity|].
    intros H'; apply H. apply (conn_trans _ _ a'); [assumption|].
    apply (conn_trans _ _ b'); [assumption | apply conn_sym; assumption].
Qed.

Lemma conn_app_r K G x y : conn G x y -> conn (K ++ G) x y.
Proof. apply conn_incl; intros z Hz; apply in_or_app; auto. Qed.

Lemma equiv_links G K K' :
  Forall2 (fun p q => conn G (fst p) (fst q) /\ conn G (snd p) (snd q)) K K' ->
  rank (K ++ G) = rank (K' ++ G) /\ forall x y, conn (K ++ G) x y <-> conn (K' ++ G) x y.
Proof.
  induction 1 as [|[a b] [a' b'] K K' [H1 H2] HF [IHr IHc]]; [split; [reflexivity | tauto]|].
  simpl in H1, H2. cbn [app].
  assert (Hc : forall x y, conn ((a, b) :: K ++ G) x y <-> conn ((a', b') :: K' ++ G) x y).
  { intros x y. rewrite (conn_equiv_head (K ++ G) a b a' b') by (apply conn_app_r; assumption).
    apply conn_ext_cons; assumption. }
  split; [|exact Hc].
  rewrite (rank_equiv_head (K ++ G) a b a' b') by (apply conn_app_r; assumption).
  pose proof (rank_cons_ext (K ++ G) (K' ++ G) (a', b') IHc). lia.
Qed.

Lemma rank_app_le K G : rank (K ++ G) <= length K + rank G.
Proof.
  induction K as [|p K IH]; simpl; [lia|]. pose proof (rank_cons_le (K ++ G) p).
  cbn [app] in *. destruct p; simpl in *; lia.
Qed.

(** [K] is independent over [G]: every edge of [K] connects something new. *)
Definition indep (K G : graph) : Prop := rank (K ++ G) = length K + rank G.

Lemma indep_perm K K' G : Permutation K K' -> indep K G -> indep K' G.
Proof.
  unfold indep; intros Hp H.
  rewrite <- (rank_perm (K ++ G)), H by (apply Permutation_app_tail; assumption).
  rewrite (Permutation_length Hp); reflexivity.
Qed.

Lemma indep_ext K G H :
  (forall u v, conn G u v <-> conn H u v) -> indep K G -> indep K H.
Proof.
  unfold indep; intros He Hi. pose proof (rank_app_ext K G H He). lia.
Qed.

Lemma indep_equiv G K K' :
  Forall2 (fun p q => conn G (fst p) (fst q) /\ conn G (snd p) (snd q)) K K' ->
  indep K G -> indep K' G.
Proof.
  intros HF. unfold indep. destruct (equiv_links G K K' HF) as [Hr _].
  rewrite <- Hr. assert (Hl : length K = length K') by (clear -HF; induction HF; simpl; congruence).
  intros; lia.
Qed.

Lemma indep_app K1 K2 G : indep (K1 ++ K2) G -> indep K2 G.
Proof.
  unfold indep; rewrite <- app_assoc, app_length; intros H.
  pose proof (rank_app_le K1 (K2 ++ G)). pose proof (rank_app_le K2 G). lia.
Qed.

(** In an independent set no edge joins connected vertices. *)
Lemma indep_head a b K G : indep ((a, b) :: K) G -> ~ conn (K ++ G) a b.
Proof.
  unfold indep; cbn [app length]; intros H Hc.
  rewrite (rank_dep _ _ _ Hc) in H. pose proof (rank_app_le K G). lia.
Qed.

Lemma indep_cons a b K G : indep K G -> ~ conn (K ++ G) a b -> indep ((a, b) :: K) G.
Proof.
  unfold indep; cbn [app length]; intros H Hc.
  rewrite (rank_indep _ _ _ Hc), H. lia.
Qed.

Lemma indep_tail p K G : indep (p :: K) G -> indep K G.
Proof. apply (indep_app [p]). Qed.

(** Fresh vertices. *)
Definition verts (G : graph) : list nat := flat_map (fun p => [fst p; snd p]) G.

Lemma conn_fresh G w x : ~ In w (verts G) -> conn G w x -> x = w.
Proof.
  revert x; induction G as [|[a b] G IH]; intros x Hw Hc.
  - apply conn_nil in Hc; auto.
  - simpl in Hw. rewrite conn_cons in Hc. destruct Hc as [H|[[H1 H2]|[H1 H2]]].
    + apply IH in H; tauto.
    + apply IH in H1; intuition congruence.
    + apply IH in H1; intuition congruence.
Qed.

Lemma in_verts G a b : In (a, b) G -> In a (verts G) /\ In b (verts G).
Proof.
  intros H; unfold verts; split; apply in_flat_map; exists (a, b); simpl; auto.
Qed.

(** Subdividing an edge by a fresh vertex. *)
Lemma conn_subdiv G u v w x y :
  ~ In w (verts G) -> w <> u -> w <> v -> x <> w -> y <> w ->
  conn ((u, w) :: (w, v) :: G) x y <-> conn ((u, v) :: G) x y.
Proof.
  intros Hw Hu Hv Hx Hy.
  assert (Hf : forall z, conn G z w -> z = w).
  { intros z Hz; apply (conn_fresh G); auto using conn_sym. }
  assert (Hf' : forall z, conn G w z -> z = w).
  { intros z Hz; apply (conn_fresh G); auto. }
  rewrite (conn_cons _ u w), !(conn_cons _ w v), (conn_cons _ u v).
  split.
  - intros [[H|[[H1 H2]|[H1 H2]]]|[[[H|[[H1 H2]|[H1 H2]]] K]|[[H|[[H1 H2]|[H1 H2]]] K]]];
      repeat match goal with
      | H : conn G ?z w |- _ => apply Hf in H; subst; try congruence
      | H : conn G w ?z |- _ => apply Hf' in H; subst; try congruence
      end; auto;
      destruct K as [K|[[K1 K2]|[K1 K2]]];
      repeat match goal with
      | H : conn G ?z w |- _ => apply Hf in H; subst; try congruence
      | H : conn G w ?z |- _ => apply Hf' in H; subst; try congruence
      end; auto; eauto using conn_trans, conn_sym.
  - intros [H|[[H1 H2]|[H1 H2]]]; auto.
    + right; left; split; [left; assumption|]. right; left; split; [apply conn_refl|assumption].
    + right; right; split; [|left; assumption]. right; right; split; [assumption|apply conn_refl].
Qed.

Lemma rank_subdiv G u v w :
  ~ In w (verts G) -> w <> u -> w <> v ->
  rank ((u, w) :: (w, v) :: G) = S (rank ((u, v) :: G)).
Proof.
  intros Hw Hu Hv.
  assert (Hwv : ~ conn G w v) by (intros H; apply conn_fresh in H; auto).
  assert (He : conn ((w, v) :: G) u w <-> conn G u v).
  { rewrite conn_cons. split.
    - intros [H|[[H1 H2]|[H1 H2]]]; auto.
      + apply conn_sym, conn_fresh in H; auto; congruence.
      + apply conn_sym, conn_fresh in H1; auto; congruence.
    - intros H; right; right; split; [assumption | apply conn_refl]. }
  destruct (conn_dec G u v) as [H|H].
  - rewrite (rank_dep ((w, v) :: G)) by (apply He; assumption).
    rewrite (rank_indep G w v) by assumption. rewrite rank_dep by assumption; reflexivity.
  - rewrite (rank_indep ((w, v) :: G)) by (rewrite He; assumption).
    rewrite (rank_indep G w v) by assumption. rewrite rank_indep by assumption; reflexivity.
Qed.

(** Number of connected components on a given vertex set. *)
Record creps (G : graph) (V R : list nat) : Prop := {
  creps_nodup : NoDup R;
  creps_incl : incl R V;
  creps_cover : forall x, In x V -> exists r, In r R /\ conn G r x;
  creps_sep : forall r s, In r R -> In s R -> conn G r s -> r = s }.

Lemma comps_count G V :
  NoDup V -> incl (verts G) V -> exists R, creps G V R /\ length R + rank G = length V.
Proof.
  intros Hnd. induction G as [|[a b] G IH]; intros Hi.
  - exists V. split; [|simpl; lia]. constructor; auto.
    + apply incl_refl.
    + intros x Hx; exists x; split; [assumption | apply conn_refl].
    + intros r s _ _ H; apply conn_nil in H; assumption.
  - destruct IH as (R & HR & Hl).
    { intros z Hz; apply Hi; simpl; auto. }
    assert (HaV : In a V) by (apply Hi; simpl; auto).
    assert (HbV : In b V) by (apply Hi; simpl; auto).
    destruct (conn_dec G a b) as [Hab|Hab].
    + exists R. rewrite rank_dep by assumption. split; [|assumption].
      assert (He : forall x y, conn ((a, b) :: G) x y <-> conn G x y).
      { intros x y; rewrite conn_cons. split; auto.
        intros [H|[[H1 H2]|[H1 H2]]]; eauto using conn_sym, conn_trans. }
      constructor; try apply HR.
      * intros x Hx. destruct (creps_cover _ _ _ HR x Hx) as (r & Hr & H).
        exists r; rewrite He; auto.
      * intros r s Hr Hs H; rewrite He in H; apply (creps_sep _ _ _ HR); auto.
    + destruct (creps_cover _ _ _ HR a HaV) as (ra & Hra & Ha).
      destruct (creps_cover _ _ _ HR b HbV) as (rb & Hrb & Hb).
      assert (Hne : ra <> rb).
      { intros ->; apply Hab; eauto using conn_sym, conn_trans. }
      exists (filter (fun z => negb (z =? rb)) R).
      assert (Hin : forall z, In z (filter (fun z => negb (z =? rb)) R) <-> In z R /\ z <> rb).
      { intros z; rewrite filter_In, negb_true_iff, Nat.eqb_neq; reflexivity. }
      split.
      * constructor.
        -- apply NoDup_filter, HR.
        -- intros z Hz; apply Hin in Hz; apply HR; tauto.
        -- intros x Hx. destruct (creps_cover _ _ _ HR x Hx) as (r & Hr & H).
           destruct (Nat.eq_dec r rb) as [->|Hn].
           ++ exists ra; split; [apply Hin; auto|]. apply conn_cons. right; left; split; auto.
              eauto using conn_sym, conn_trans.
           ++ exists r; split; [apply Hin; auto|]. apply conn_cons; auto.
        -- intros r s Hr Hs H. apply Hin in Hr as [Hr Hr2]. apply Hin in Hs as [Hs Hs2].
           apply conn_cons in H as [H|[[H1 H2]|[H1 H2]]].
           ++ apply (creps_sep _ _ _ HR); auto.
           ++ exfalso; apply Hs2. apply (creps_sep _ _ _ HR); auto.
              eauto using conn_sym, conn_trans.
           ++ exfalso; apply Hr2. apply (creps_sep _ _ _ HR); auto.
              eauto using conn_sym, conn_trans.
      * rewrite rank_indep by assumption.
        assert (Hlen : S (length (filter (fun z => negb (z =? rb)) R)) = length R).
        { assert (HndR : NoDup R) by apply HR. clear -HndR Hrb.
          induction R as [|c R IHR]; [destruct Hrb|]. inversion HndR; subst. simpl.
          destruct (Nat.eqb_spec c rb) as [->|E]; simpl.
          - f_equal. clear -H1. induction R as [|e R IH]; simpl; auto.
            destruct (Nat.eqb_spec e rb) as [->|E]; simpl.
            + exfalso; apply H1; left; reflexivity.
            + f_equal; apply IH; intros Hi; apply H1; right; assumption.
          - f_equal; apply IHR; auto. destruct Hrb; [congruence | assumption]. }
        lia.
Qed.

Lemma creps_unique G V R S_ : creps G V R -> creps G V S_ -> length R = length S_.
Proof.
  assert (Hle : forall A B, creps G V A -> creps G V B -> length A <= length B).
  { intros A B HA HB.
    assert (Hgen : forall l1 l2, NoDup l1 ->
      (forall a, In a l1 -> exists b, In b l2 /\ conn G b a) ->
      (forall a a', In a l1 -> In a' l1 -> conn G a a' -> a = a') ->
      length l1 <= length l2).
    { induction l1 as [|a l1 IH]; intros l2 Hnd Hex Hs; simpl; [lia|].
      inversion Hnd; subst. destruct (Hex a (or_introl eq_refl)) as (b & Hb & Hc).
      apply in_split in Hb as (u & v & ->). rewrite app_length; simpl.
      assert (length l1 <= length (u ++ v)); [|rewrite app_length in *; lia].
      apply IH; auto.
      - intros a' Ha'. destruct (Hex a' (or_intror Ha')) as (b' & Hb' & Hc').
        exists b'; split; auto. apply in_app_or in Hb' as [H|[H|H]]; apply in_or_app; auto.
        subst b'. exfalso. assert (a = a'); [|subst; contradiction].
        apply Hs; simpl; auto. eauto using conn_sym, conn_trans.
      - intros; apply Hs; simpl; auto. }
    apply Hgen; try apply HA.
    intros a Ha. apply (creps_cover _ _ _ HB). apply HA; assumption. }
  intros; apply Nat.le_antisymm; auto.
Qed.
