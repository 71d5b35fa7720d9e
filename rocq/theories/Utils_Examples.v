(** Concrete cases for EdgeProtection and the bulk operations, and what they do not promise. *)
From Verif Require Import Base GeoMap_Model GeoMap_Views GeoMap_Spec GeoMap_Facts GeoMap_Results GeoMap_Examples
  Utils_Model Utils_Spec Utils_Bridges Utils_Results Utils_Protect Utils_Trace Utils_Complete Utils_Bulk.
Local Open Scope Z_scope.

(** two faces with a common boundary of two edges (2 and 3), in a ring made of the edges 1 and 4 *)
Definition thetaCalls : list xcall :=
  [XCall (OAddNode (0,0)); XCall (OAddNode (10,0)); XCall (OAddNode (5,0));
   XCall (OAddEdge (SAnode 0) (SAnode 1) [(0,0);(5,-6);(10,0)] 0);
   XCall (OAddEdge (SAnode 0) (SAnode 2) [(0,0);(5,0)] 0);
   XCall (OAddEdge (SAnode 2) (SAnode 1) [(5,0);(10,0)] 0);
   XCall (OAddEdge (SAnode 0) (SAnode 1) [(0,0);(5,5);(10,0)] 0);
   XInit [1;2;3]%nat []].
Definition theta : gmap := Eval vm_compute in replay true thetaCalls.
Lemma theta_replays : replays true thetaCalls = true.
Proof. vm_compute. reflexivity. Qed.
Lemma theta_history : history geometricStraight theta.
Proof. exact (replay_history true thetaCalls theta_replays). Qed.
Lemma theta_init : initialised theta.
Proof. discriminate. Qed.
Lemma yes_accepting : accepting yes.
Proof. repeat split. Qed.

Definition noFlagb m which : bool := forallb (fun l => negb (flagb m l which)) (seq 0 (length (edges m))).
Lemma noFlagb_spec m which : noFlagb m which = true -> forall l, ~ flagAt m l which.
Proof.
  intros H l K. pose proof K as (e & He & _). apply flagb_spec in K. unfold noFlagb in H. rewrite forallb_forall in H.
  assert (L : In l (seq 0 (length (edges m)))) by (apply in_seq; apply isEdge_iff in He; pose proof (eAt_lt _ _ _ He); lia).
  apply H in L. rewrite K in L. discriminate.
Qed.
Lemma bridgeb_false m l : bridgeb m l = false -> ~ bridgeAt m l.
Proof.
  intros H (e & He & K). unfold bridgeb in H. unfold isEdge in He. rewrite He in H. apply GeoMap_Area.optnat_eqb_eq in K. unfold isBridge in H. congruence.
Qed.
Lemma theta_dart d : In d [2; 3] -> isDart theta d.
Proof. intros [<-|[<-|[]]]; (split; [discriminate|]); eexists; vm_compute; reflexivity. Qed.

(** ** mergeFacesCompletely *)

Example theta_complete : isDart theta 2 /\ ~ bridgeAt theta 2 /\ (forall l, commonEdge theta 2 l -> ~ flagAt theta l ALL_PROTECTION) /\
  commonEdge theta 2 2 /\ commonEdge theta 2 3 /\
  exists m', mergeFacesCompletely yes true theta 2 = Ok (m', Some 2%nat) /\ noEdge m' 2 /\ noEdge m' 3 /\ liveEdges m' = 1 /\ liveNodes m' = 1.
Proof.
  split; [apply theta_dart; left; reflexivity|]. split; [apply bridgeb_false; vm_compute; reflexivity|].
  split; [intros l _; apply noFlagb_spec; vm_compute; reflexivity|].
  split; [exists 2; split; [split; [exists 0%nat|]; vm_compute; reflexivity | reflexivity]|].
  split; [exists 3; split; [split; [exists 1%nat|]; vm_compute; reflexivity | reflexivity]|].
  eexists. split; [vm_compute; reflexivity|]. repeat split.
Qed.

(** one protected edge of the two *)
Definition thetaKept : gmap := Eval vm_compute in replay true (thetaCalls ++ [XCall (OSetFlag 3 1 true)]).
Example theta_kept : history geometricStraight thetaKept /\ commonEdge thetaKept 2 3 /\ flagAt thetaKept 3 ALL_PROTECTION /\ ~ flagAt thetaKept 2 ALL_PROTECTION /\
  mergeFacesCompletely yes true thetaKept 2 = Ok (thetaKept, None).
Proof.
  split; [apply (replay_history true (thetaCalls ++ [XCall (OSetFlag 3 1 true)])); vm_compute; reflexivity|].
  split; [exists 3; split; [split; [exists 1%nat|]; vm_compute; reflexivity | reflexivity]|].
  split; [apply flagb_spec; vm_compute; reflexivity|]. split; [apply flagb_false; vm_compute; reflexivity | vm_compute; reflexivity].
Qed.

(** a slot refusing to remove bridges: the faces are merged but a part of the common boundary stays behind *)
Theorem mergeFacesCompletely_veto_refuted : exists hk m d l m' s, history geometricStraight m /\ initialised m /\ isDart m d /\
  (forall k, ~ flagAt m k ALL_PROTECTION) /\ commonEdge m d l /\ mergeFacesCompletely hk false m d = Ok (m', Some s) /\ exists e, isEdge m' l e.
Proof.
  exists noBridges, theta, 2, 3%nat. do 2 eexists. split; [apply theta_history|]. split; [apply theta_init|]. split; [apply theta_dart; left; reflexivity|].
  split; [apply noFlagb_spec; vm_compute; reflexivity|]. split; [exists 3; split; [split; [exists 1%nat|]; vm_compute; reflexivity | reflexivity]|].
  split; [vm_compute; reflexivity|]. eexists. vm_compute. reflexivity.
Qed.

(** ** EdgeProtection *)

(** the ring protected: the boundary inside it is removed, its two edges are merged, and the edge that is left cannot be removed *)
Definition ringKept : gmap := Eval vm_compute in replay true (thetaCalls ++ [XCall (OSetFlag 1 1 true); XCall (OSetFlag 4 1 true)]).
Lemma guarded_step (P : op -> Prop) m m1 o m2 : guarded P m m1 -> P o -> allowed m1 (Call (protect yes) o) -> run_op (protect yes) m1 o = Ok m2 -> guarded P m m2.
Proof. intros. eapply gd_call; eassumption. Qed.
Example ring_protected : history geometric ringKept /\ initialised ringKept /\ flagAt ringKept 1 ALL_PROTECTION /\ flagAt ringKept 4 ALL_PROTECTION /\
  exists m', guarded eulerOp ringKept m' /\ liveEdges m' = 1 /\ pointWith m' 1 (5, -6) /\ pointWith m' 1 (5, 5) /\ exists m'', mergeFaces (protect yes) m' 1 = Ok (m'', None) /\ liveEdges m'' = 1.
Proof.
  split; [apply (replay_geometric true (thetaCalls ++ [XCall (OSetFlag 1 1 true); XCall (OSetFlag 4 1 true)])); vm_compute; reflexivity|].
  split; [discriminate|]. split; [apply flagb_spec; vm_compute; reflexivity|]. split; [apply flagb_spec; vm_compute; reflexivity|].
  eexists. split; [|split; [|split; [|split]]].
  - eapply (guarded_step _ _ _ (OMergeEdges 1)); [|exact I|exact I|].
    { eapply (guarded_step _ _ _ (ORemoveBridge 3)); [|exact I|exact I|].
      { eapply (guarded_step _ _ _ (OMergeFaces 2)); [apply gd_refl|exact I|exact I|]. vm_compute. reflexivity. }
      vm_compute. reflexivity. }
    vm_compute. reflexivity.
  - reflexivity.
  - exists 1%nat. eexists. split; [vm_compute; reflexivity|]. split; [reflexivity|]. cbn. auto.
  - exists 1%nat. eexists. split; [vm_compute; reflexivity|]. split; [reflexivity|]. cbn. auto.
  - eexists. split; vm_compute; reflexivity.
Qed.

(** before initializeMap, removeEdge asks nobody *)
Definition drawing : gmap := Eval vm_compute in replay true (firstn 7 thetaCalls ++ [XCall (OSetFlag 3 1 true)]).
Theorem protection_drawing_refuted : exists m d m', history geometric m /\ flagAt m (elab d) ALL_PROTECTION /\
  allowed m (Call (protect yes) (ORemoveEdge d)) /\ run_op (protect yes) m (ORemoveEdge d) = Ok m' /\ noEdge m' (elab d).
Proof.
  exists drawing, 3. eexists. split; [apply (replay_geometric true (firstn 7 thetaCalls ++ [XCall (OSetFlag 3 1 true)])); vm_compute; reflexivity|].
  split; [apply flagb_spec; vm_compute; reflexivity|]. split; [split; [discriminate|]; eexists; vm_compute; reflexivity|]. split; [vm_compute; reflexivity | reflexivity].
Qed.

(** ** removeEdges *)

Example theta_removeEdges : NoDup [2;3]%nat /\ (forall l, In l [2;3]%nat -> (exists e, isEdge theta l e) /\ ~ flagAt theta l UNREMOVABLE_BRIDGE) /\
  exists m', removeEdges yes theta [2;3]%nat = Ok (m', 3%nat) /\ noEdge m' 2 /\ noEdge m' 3 /\ liveEdges m' = 1 /\ liveNodes m' = 1.
Proof.
  split; [repeat constructor; cbn; lia|]. split.
  - intros l [<-|[<-|[]]]; (split; [eexists; vm_compute; reflexivity | apply noFlagb_spec; vm_compute; reflexivity]).
  - eexists. split; [vm_compute; reflexivity|]. repeat split.
Qed.
Theorem removeEdges_duplicate_refuted : exists m ls, history geometricStraight m /\ initialised m /\
  (forall l, In l ls -> (exists e, isEdge m l e) /\ ~ flagAt m l UNREMOVABLE_BRIDGE) /\ removeEdges yes m ls = Exn.
Proof.
  exists theta, [2;2]%nat. split; [apply theta_history|]. split; [apply theta_init|]. split; [|vm_compute; reflexivity].
  intros l [<-|[<-|[]]]; (split; [eexists; vm_compute; reflexivity | apply noFlagb_spec; vm_compute; reflexivity]).
Qed.
