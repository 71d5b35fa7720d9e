(** Graph equivalence (same rank, same connectivity) and stars.

    Pure mathematics used by the GeoMap proofs: the contours of one face are
    linked by a star of virtual edges between the nodes of their anchors. *)
From Verif Require Import Base GraphRank.
From Coq Require Import Setoid Morphisms.

Definition geq (G H : graph) : Prop :=
  rank G = rank H /\ forall x y, conn G x y <-> conn H x y.

Global Instance geq_equiv : Equivalence geq.
Proof.
  split.
  - intros G; split; [reflexivity | tauto].
  - intros G H [H1 H2]; split; [auto | intros; symmetry; apply H2].
  - intros G H K [H1 H2] [K1 K2]; split; [congruence|].
    intros; rewrite H2; apply K2.
Qed.

Lemma geq_perm G H : Permutation G H -> geq G H.
Proof. intros Hp; split; [apply rank_perm; assumption | intros; apply conn_perm; assumption]. Qed.

Lemma geq_app_tail K G H : geq G H -> geq (K ++ G) (K ++ H).
Proof.
  intros [Hr Hc]; split; [|intros; apply conn_ext_app; assumption].
  pose proof (rank_app_ext K G H Hc). lia.
Qed.

Lemma geq_cons p G H : geq G H -> geq (p :: G) (p :: H).
Proof. apply (geq_app_tail [p]). Qed.

Lemma geq_app_head K K' G : geq K K' -> geq (K ++ G) (K' ++ G).
Proof.
  intros H. rewrite (geq_perm (K ++ G) (G ++ K)) by apply Permutation_app_comm.
  rewrite (geq_app_tail G K K' H). apply geq_perm, Permutation_app_comm.
Qed.

Lemma geq_flip a b G : geq ((a, b) :: G) ((b, a) :: G).
Proof.
  split.
  - destruct (conn_dec G a b) as [H|H].
    + rewrite !rank_dep; auto using conn_sym.
    + rewrite !rank_indep; auto. intros H'; apply H, conn_sym; assumption.
  - intros x y; rewrite !conn_cons; tauto.
Qed.

Lemma geq_equiv_links G K K' :
  Forall2 (fun p q => conn G (fst p) (fst q) /\ conn G (snd p) (snd q)) K K' ->
  geq (K ++ G) (K' ++ G).
Proof. intros H; destruct (equiv_links G K K' H); split; auto. Qed.

Definition spokes (a : nat) (R : list nat) : graph := map (fun b => (a, b)) R.
Definition star (A : list nat) : graph :=
  match A with [] => [] | a :: t => spokes a t end.

Lemma spokes_length a R : length (spokes a R) = length R.
Proof. apply map_length. Qed.

Lemma star_length A : length (star A) = length A - 1.
Proof. destruct A; simpl; [reflexivity|]. rewrite spokes_length; lia. Qed.

Lemma spokes_app a R S_ : spokes a (R ++ S_) = spokes a R ++ spokes a S_.
Proof. apply map_app. Qed.

Lemma geq_spokes a b R H : conn H a b -> geq (spokes a R ++ H) (spokes b R ++ H).
Proof.
  intros Hc. apply geq_equiv_links. induction R as [|r R IH]; simpl; constructor; auto.
  split; [assumption | apply conn_refl].
Qed.

Lemma geq_spokes2 a b R R' H : conn H a b -> Forall2 (conn H) R R' ->
  geq (spokes a R ++ H) (spokes b R' ++ H).
Proof.
  intros Hc HF. apply geq_equiv_links. induction HF; simpl; constructor; auto.
Qed.

Lemma geq_star2 R R' H : Forall2 (conn H) R R' -> geq (star R ++ H) (star R' ++ H).
Proof.
  intros HF; inversion HF; subst; simpl; [reflexivity|]. apply geq_spokes2; assumption.
Qed.

Lemma geq_star_perm A B H : Permutation A B -> geq (star A ++ H) (star B ++ H).
Proof.
  intros Hp; induction Hp as [|x l l' Hp IH|x y l|l l' l'' Hp1 IH1 Hp2 IH2].
  - reflexivity.
  - simpl. apply geq_perm, Permutation_app_tail. apply Permutation_map; assumption.
  - simpl.
    transitivity (spokes y l ++ (y, x) :: H).
    { apply geq_perm. apply Permutation_cons_app; reflexivity. }
    transitivity (spokes x l ++ (y, x) :: H).
    { apply geq_spokes. apply conn_edge; left; reflexivity. }
    transitivity (spokes x l ++ (x, y) :: H).
    { apply geq_app_tail, geq_flip. }
    apply geq_perm. symmetry. apply Permutation_cons_app; reflexivity.
  - etransitivity; eassumption.
Qed.

(** Stars whose centres are connected can be joined. *)
Lemma geq_star_merge a b R S_ H : conn H a b ->
  geq (star (a :: R) ++ star (b :: S_) ++ H) (star (a :: R ++ S_) ++ H).
Proof.
  intros Hc. simpl. rewrite spokes_app, <- app_assoc.
  apply geq_app_tail. apply geq_spokes. apply conn_sym; assumption.
Qed.

Lemma indep_geq K K' G :
  length K = length K' -> geq (K ++ G) (K' ++ G) -> indep K G -> indep K' G.
Proof. unfold indep; intros Hl [Hr _] H; lia. Qed.

Lemma indep_geq_base K G H : geq G H -> indep K G -> indep K H.
Proof.
  intros [Hr Hc]; apply indep_ext; assumption.
Qed.

(** Dropping the centre of an independent star leaves an independent star. *)
Lemma indep_spokes_star a R K G : indep (spokes a R ++ K) G -> indep (star R ++ K) G.
Proof.
  destruct R as [|r R]; simpl; [auto|].
  intros Hi. apply (indep_tail (a, r)).
  apply (indep_geq ((a, r) :: spokes a R ++ K)); auto.
  - simpl; rewrite !app_length, !spokes_length; reflexivity.
  - cbn [app]. rewrite <- !app_assoc.
    transitivity (spokes a R ++ (a, r) :: K ++ G).
    { apply geq_perm, Permutation_cons_app; reflexivity. }
    transitivity (spokes r R ++ (a, r) :: K ++ G).
    { apply geq_spokes, conn_edge; left; reflexivity. }
    apply geq_perm; symmetry; apply Permutation_cons_app; reflexivity.
Qed.

(** An independent set over a graph with a bridge. *)
Lemma indep_bridge p K G :
  indep K (p :: G) -> rank (p :: G) = S (rank G) -> indep (p :: K) G.
Proof.
  unfold indep; intros H Hr.
  rewrite <- (rank_perm (K ++ p :: G)); [simpl in *; lia|].
  cbn [app]. symmetry. apply Permutation_cons_app; reflexivity.
Qed.

(** Two members of an independent star are never connected. *)
Lemma indep_star_two A K G i j x y :
  indep (star A ++ K) G -> i <> j -> nth_error A i = Some x -> nth_error A j = Some y ->
  ~ conn (K ++ G) x y.
Proof.
  intros Hi Hij Hx Hy Hc.
  assert (Hp : exists R, Permutation A (x :: y :: R)).
  { destruct (nth_error_split A i Hx) as (u & v & -> & Hu).
    assert (Hin : In y (u ++ v)).
    { rewrite <- Hu in Hij. destruct (Nat.lt_ge_cases j (length u)) as [Hl|Hl].
      - rewrite nth_error_app1 in Hy by assumption. apply nth_error_In in Hy.
        apply in_or_app; auto.
      - rewrite nth_error_app2 in Hy by assumption.
        destruct (j - length u) as [|k] eqn:E; [lia|]. simpl in Hy.
        apply nth_error_In in Hy. apply in_or_app; auto. }
    apply in_split in Hin as (u' & v' & E).
    exists (u' ++ v').
    transitivity (x :: u ++ v); [symmetry; apply Permutation_middle|].
    constructor. rewrite E. symmetry; apply Permutation_middle. }
  destruct Hp as (R & Hp).
  assert (Hi2 : indep (star (x :: y :: R) ++ K) G).
  { apply (indep_geq (star A ++ K)); auto.
    - rewrite !app_length, !star_length, (Permutation_length Hp); reflexivity.
    - rewrite <- !app_assoc. apply geq_star_perm; assumption. }
  simpl in Hi2. apply indep_head in Hi2. apply Hi2.
  rewrite <- app_assoc. apply conn_app_r; assumption.
Qed.

(** Subdividing an edge under an independent set that avoids the new vertex. *)
Lemma verts_app G H : verts (G ++ H) = verts G ++ verts H.
Proof. apply flat_map_app. Qed.

Lemma indep_subdiv K G u v w :
  ~ In w (verts K) -> ~ In w (verts G) -> w <> u -> w <> v ->
  indep K ((u, w) :: (w, v) :: G) <-> indep K ((u, v) :: G).
Proof.
  intros HK HG Hu Hv. unfold indep.
  assert (E1 : rank (K ++ (u, w) :: (w, v) :: G) = rank ((u, w) :: (w, v) :: K ++ G)).
  { apply rank_perm. symmetry. 
    transitivity ((u, w) :: K ++ (w, v) :: G).
    - constructor. apply Permutation_middle.
    - apply Permutation_middle. }
  assert (E2 : rank (K ++ (u, v) :: G) = rank ((u, v) :: K ++ G)).
  { apply rank_perm. symmetry. apply Permutation_middle. }
  rewrite E1, E2.
  rewrite (rank_subdiv G) by assumption.
  rewrite (rank_subdiv (K ++ G)); auto; [lia|].
  rewrite verts_app, in_app_iff; tauto.
Qed.
