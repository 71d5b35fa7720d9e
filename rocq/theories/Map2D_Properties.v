(** C14, C15: nearest search and the node position index. *)
From Verif Require Import Base Map2D_Model Map2D_Spec Map2D_Proofs.
Local Open Scope Z_scope.

(** C14: however the index was filled, nearest returns an entry of minimal distance below the bound, or
    end() if there is none.  [stored] lists the points with their payload. *)
Theorem C14_nearest_is_nearest {A : Type} (l : list (entry A)) (v : pos) (b : Z) : m2hist l ->
  exists i, nearest l v b = Ok i /\
    nearestOf (stored l) v b (match nth_error l i with Some e => Some (epos e, epay e) | None => None end) /\
    (nth_error l i = None -> i = length l).
Proof. exact (nearest_is_nearest l v b). Qed.
Print Assumptions C14_nearest_is_nearest.

Definition square : list (entry nat) := fillFrom [] [((0,0), 0%nat); ((4,0), 1%nat); ((0,4), 2%nat); ((4,4), 3%nat); ((4,9), 4%nat)].
Example C14_case : m2hist square /\ nearest square (3,6) 100 = Ok 3%nat /\ nearest square (3,6) 5 = Ok 5%nat /\ length square = 5%nat /\
  nearest square (-2,7) 1000 = Ok 1%nat.
Proof. split; [eapply (mh_step [] (MFill [((0,0), 0%nat); ((4,0), 1%nat); ((0,4), 2%nat); ((4,4), 3%nat); ((4,9), 4%nat)])); [constructor | reflexivity]|]. vm_compute. repeat split. Qed.

(** C14: which points are stored: insert adds one, erase takes out exactly the one addressed (erasing
    end() is undefined), fillFrom replaces all. *)
Theorem C14_contents {A : Type} (l : list (entry A)) : m2hist l ->
  (forall (v : pos) (a : A), Permutation (stored (insert l v a)) ((v, a) :: stored l)) /\
  (forall i e, nth_error l i = Some e -> exists l', erase l i = Ok l' /\ Permutation (stored l) ((epos e, epay e) :: stored l')) /\
  erase l (length l) = UB /\
  (forall vs : list (pos * A), Permutation (stored (fillFrom [] vs)) vs).
Proof. exact (stored_by_ops l). Qed.
Print Assumptions C14_contents.

(** C15: while no two live nodes share a position, nearestNode returns a live node of minimal distance
    below the bound, or null if there is none. *)
Theorem C15_nearestNode eps s p b : 0 < eps -> nhist eps distinct s ->
  exists o, nearestNode s p b = Ok o /\ nearestLive (ntab s) p b o.
Proof. exact (nearestNode_is_nearest eps s p b). Qed.
Print Assumptions C15_nearestNode.

Definition threeNodes : nstate := mkNS [Some (5,5); None; Some (0,3); Some (0,0)]
  [mkEntry 0 (0,3) 2%nat; mkEntry 0 (0,0) 3%nat; mkEntry 5 (5,5) 0%nat].
Lemma distinct4 a b c d : (forall p q, In (Some p) [a;b;c;d] -> In (Some q) [a;b;c;d] -> True) ->
  (match a, b with Some x, Some y => x <> y | _, _ => True end) -> (match a, c with Some x, Some y => x <> y | _, _ => True end) ->
  (match a, d with Some x, Some y => x <> y | _, _ => True end) -> (match b, c with Some x, Some y => x <> y | _, _ => True end) ->
  (match b, d with Some x, Some y => x <> y | _, _ => True end) -> (match c, d with Some x, Some y => x <> y | _, _ => True end) ->
  forall i, distinct (mkNS [a;b;c;d] i).
Proof.
  intros _ H1 H2 H3 H4 H5 H6 i l l' p. unfold liveAt, ntab. intros K K'.
  destruct l as [|[|[|[|[|l]]]]], l' as [|[|[|[|[|l']]]]]; cbn [nth_error] in K, K'; try discriminate; try reflexivity;
    injection K as K; injection K' as K'; subst; contradiction.
Qed.
(** nodes 0, 1, 2 are made, 1 is removed, 2 is moved, 3 is made at the old place of 2 *)
Example C15_case : nhist 1 distinct threeNodes /\ nearestNode threeNodes (1,1) 100 = Ok (Some 3%nat) /\ nearestNode threeNodes (9,9) 4 = Ok None.
Proof.
  split; [|vm_compute; split; reflexivity].
  assert (D0 : forall i, distinct (mkNS [Some (5,5)] i)) by (intros i [|[|l]] [|[|l']] p K K'; try discriminate; reflexivity).
  assert (D1 : forall a i, a <> Some (5,5) -> distinct (mkNS [Some (5,5); a] i)).
  { intros a i Ha [|[|[|l]]] [|[|[|l']]] p K K'; unfold liveAt in K, K'; cbn [ntab nth_error] in K, K'; try discriminate; try reflexivity; congruence. }
  assert (D2 : forall a c i, a <> Some (5,5) -> c <> Some (5,5) -> (a = c -> a = None) -> distinct (mkNS [Some (5,5); a; c] i)).
  { intros a c i Ha Hc Hac [|[|[|[|l]]]] [|[|[|[|l']]]] p K K'; unfold liveAt in K, K'; cbn [ntab nth_error] in K, K'; try discriminate; try reflexivity; try congruence;
      injection K as K; injection K' as K'; subst; specialize (Hac eq_refl); discriminate. }
  assert (D3 : forall i, distinct (mkNS [Some (5,5); None; Some (0,3); Some (0,0)] i)).
  { intros i. apply distinct4; auto; discriminate. }
  pose proof (nh_step 1 distinct _ (NNew (5,5)) _ (nh_nil _ _) eq_refl (D0 _)) as H1.
  pose proof (nh_step 1 distinct _ (NNew (2,2)) _ H1 eq_refl (D1 (Some (2,2)) _ ltac:(congruence))) as H2.
  pose proof (nh_step 1 distinct _ (NNew (0,0)) _ H2 eq_refl (D2 (Some (2,2)) (Some (0,0)) _ ltac:(congruence) ltac:(congruence) ltac:(congruence))) as H3.
  pose proof (nh_step 1 distinct _ (NGone 1) _ H3 eq_refl (D2 None (Some (0,0)) _ ltac:(congruence) ltac:(congruence) ltac:(congruence))) as H4.
  pose proof (nh_step 1 distinct _ (NMove 2 (0,3)) _ H4 eq_refl (D2 None (Some (0,3)) _ ltac:(congruence) ltac:(congruence) ltac:(congruence))) as H5.
  exact (nh_step 1 distinct _ (NNew (0,0)) _ H5 eq_refl (D3 _)).
Qed.

(** C15: under the same condition no call on a live node erases end() or leaves the table. *)
Theorem C15_node_calls_defined eps s o : 0 < eps -> nhist eps distinct s ->
  match o with NGone l | NMove l _ => exists q, liveAt (ntab s) l q | _ => True end -> exists s', nodeStep eps s o = Ok s'.
Proof. exact (nodeStep_defined eps s o). Qed.
Print Assumptions C15_node_calls_defined.

(** C15, limit: with two nodes at one position, removing one can drop the entry of the other;
    nearestNode then answers with a removed (null) node although a live node is there. *)
Theorem C15_coincident_nodes_refuted : exists s, nhist 1 (fun _ => True) s /\ liveAt (ntab s) 0 (0,0) /\
  nearestNode s (0,0) 1 = Ok (Some 1%nat) /\ nth_error (ntab s) 1 = Some None.
Proof. exact (nearestNode_coincident_refuted). Qed.
Print Assumptions C15_coincident_nodes_refuted.

