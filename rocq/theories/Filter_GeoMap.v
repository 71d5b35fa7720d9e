(** The cell iterators on the tables of a GeoMap. *)
From Verif Require Import Base GeoMap_Model GeoMap_Views GeoMap_MInv GeoMap_Spec GeoMap_Results Filter_Model Filter_Spec Filter_Proofs.
Local Open Scope Z_scope.

(** all labels visited by [for(it = begin; it.inRange(); ++it)] *)
Definition visited {A} (v : list (option A)) (b : res fiter) : res (list nat) :=
  it <- b ;; r <- forCells (S (length v)) (fun _ w => w) v it [] ;; Ok (map fst (fst r)).

Lemma visited_all {A} (v : list (option A)) : visited v (cellsBegin v) = Ok (map fst (liveCells v)).
Proof. destruct (iterate_all v) as (it & E & R). unfold visited. rewrite E. cbn [bind]. rewrite R. reflexivity. Qed.

Lemma liveFrom_length {A} (v : list (option A)) : forall k, Z.of_nat (length (liveFrom k v)) = countSome (fun _ => true) v.
Proof.
  unfold countSome. induction v as [|[a|] t IH]; intros k; cbn [liveFrom filter length]; [reflexivity | | apply IH].
  rewrite !Nat2Z.inj_succ, IH. reflexivity.
Qed.

Lemma liveCells_labels {A} (v : list (option A)) l : In l (map fst (liveCells v)) <-> exists a, nth_error v l = Some (Some a).
Proof.
  rewrite in_map_iff. split.
  - intros ([i a] & <- & H). apply liveFrom_In in H. rewrite Nat.sub_0_r in H. exists a. apply H.
  - intros [a H]. exists (l, a). split; [reflexivity|]. apply liveFrom_In. rewrite Nat.sub_0_r. split; [lia | exact H].
Qed.

(** C16 for the maps: ascending labels of exactly the live cells, as many as the counter says *)
Theorem cells_visited m : history anyCall m ->
  (exists ls, visited (nodes m) (cellsBegin (nodes m)) = Ok ls /\ ascending ls /\ (forall l, In l ls <-> exists nd, isNode m l nd) /\ Z.of_nat (length ls) = nodeCount m) /\
  (exists ls, visited (edges m) (cellsBegin (edges m)) = Ok ls /\ ascending ls /\ (forall l, In l ls <-> exists e, isEdge m l e) /\ Z.of_nat (length ls) = edgeCount m) /\
  (exists ls, visited (faces m) (cellsBegin (faces m)) = Ok ls /\ ascending ls /\ (forall l, In l ls <-> exists f, isFace m l f) /\ Z.of_nat (length ls) = faceCount m) /\
  (initialised m -> exists ls, visited (faces m) (finiteFacesBegin (faces m)) = Ok ls /\ ascending ls /\ (forall l, In l ls <-> l <> 0%nat /\ exists f, isFace m l f) /\
     Z.of_nat (length ls) = faceCount m - 1).
Proof.
  intros H. destruct (counters m H) as (Cn & Ce & Cf).
  assert (G : forall A (v : list (option A)), ascending (map fst (liveCells v)) /\ Z.of_nat (length (map fst (liveCells v))) = countSome (fun _ => true) v).
  { intros A v. split; [apply liveFrom_asc|]. rewrite map_length. apply liveFrom_length. }
  split; [|split; [|split]].
  - exists (map fst (liveCells (nodes m))). split; [apply visited_all|]. destruct (G _ (nodes m)) as [G1 G2]. split; [exact G1|]. split; [|rewrite Cn; exact G2].
    intros l. rewrite liveCells_labels. unfold isNode, nodeP. split; intros [a K]; exists a; [rewrite K; reflexivity|]. destruct (nth_error (nodes m) l); congruence.
  - exists (map fst (liveCells (edges m))). split; [apply visited_all|]. destruct (G _ (edges m)) as [G1 G2]. split; [exact G1|]. split; [|rewrite Ce; exact G2].
    intros l. rewrite liveCells_labels. unfold isEdge, edgeP. split; intros [a K]; exists a; [rewrite K; reflexivity|]. destruct (nth_error (edges m) l); congruence.
  - exists (map fst (liveCells (faces m))). split; [apply visited_all|]. destruct (G _ (faces m)) as [G1 G2]. split; [exact G1|]. split; [|rewrite Cf; exact G2].
    intros l. rewrite liveCells_labels. unfold isFace, faceP. split; intros [a K]; exists a; [rewrite K; reflexivity|]. destruct (nth_error (faces m) l); congruence.
  - intros Hi. pose proof (mi_0 _ (history_MInv _ m H Hi)) as H0. unfold fAt, tget in H0.
    destruct (faces m) as [|[f0|] v] eqn:Ef; [congruence | | cbn in H0; congruence].
    destruct (iterate_finite f0 v) as (it & E & R). exists (map fst (liveFrom 1 v)). unfold visited. rewrite E. cbn [bind]. rewrite R. cbn [bind fst].
    split; [reflexivity|]. split; [apply liveFrom_asc|]. split.
    + intros l. rewrite in_map_iff. unfold isFace, faceP. rewrite Ef. split.
      * intros ([i a] & <- & K). apply liveFrom_In in K. destruct K as [K1 K2]. cbn [fst]. split; [lia|]. exists a. destruct i as [|i]; [lia|]. cbn [Nat.sub nth_error] in *. rewrite Nat.sub_0_r in K2. rewrite K2. reflexivity.
      * intros [Hl [a K]]. exists (l, a). split; [reflexivity|]. apply liveFrom_In. destruct l as [|l]; [congruence|]. split; [lia|]. cbn [Nat.sub nth_error] in *. rewrite Nat.sub_0_r. destruct (nth_error v l); congruence.
    + rewrite map_length, liveFrom_length, Cf. unfold liveFaces. rewrite Ef. unfold countSome. cbn [filter length]. lia.
Qed.
