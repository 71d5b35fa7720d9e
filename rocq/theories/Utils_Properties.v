(** C39, C40, C49, C57: edge protection and the bulk operations of cppmap_utils. *)
From Verif Require Import Base GeoMap_Model GeoMap_Views GeoMap_Spec GeoMap_Facts GeoMap_Results GeoMap_Examples
  Utils_Model Utils_Spec Utils_Bridges Utils_Results Utils_Protect Utils_Trace Utils_Complete Utils_Bulk Utils_Examples.
Local Open Scope Z_scope.

(** C39: with EdgeProtection attached no history of Euler operations removes a protected edge, except into a merged edge with the same flags containing its points; the protected points stay the same. *)
Theorem C39_protection m m' : history geometric m -> initialised m -> guarded eulerOp m m' ->
  (forall l e, isEdge m l e -> N.land (eflags e) ALL_PROTECTION <> 0%N -> exists l' e', isEdge m' l' e' /\ eflags e' = eflags e /\ inside (epts e) (epts e')) /\
  (forall F p, N.land F ALL_PROTECTION <> 0%N -> (pointWith m F p <-> pointWith m' F p)).
Proof. exact (protection m m'). Qed.
Print Assumptions C39_protection.

Example C39_case := ring_protected.

(** C39: the same when flags outside of the protection flags are set in between, for every way of attaching further slots. *)
Theorem C39_protection_marks m m' : history geometric m -> initialised m -> guarded eulerOrMark m m' ->
  (forall l e, isEdge m l e -> N.land (eflags e) ALL_PROTECTION <> 0%N ->
     exists l' e', isEdge m' l' e' /\ N.land (eflags e') ALL_PROTECTION = N.land (eflags e) ALL_PROTECTION /\ inside (epts e) (epts e')) /\
  (forall F p, F <> 0%N -> (pointProtected m F p <-> pointProtected m' F p)).
Proof. exact (protection_marks m m'). Qed.
Print Assumptions C39_protection_marks.

(** C39: the protection flags are the eight lowest flags. *)
Theorem C39_flags F : N.land F ALL_PROTECTION <> 0%N <-> exists k, (k < 8)%N /\ N.testbit F k = true.
Proof. exact (protection_flags F). Qed.
Print Assumptions C39_flags.

(** C39: and for every bulk operation. *)
Theorem C39_protection_bulk hk m m' : history geometric m -> initialised m ->
  (exists merge2 d s, mergeFacesCompletely (protect hk) merge2 m d = Ok (m', s)) \/ (exists n, removeIsolatedNodes (protect hk) m = Ok (m', n)) \/
  (exists n, mergeDegree2Nodes (protect hk) m = Ok (m', n)) \/ (exists bs n, removeBridges (protect hk) m bs = Ok (m', n)) \/
  (exists n, removeAllBridges (protect hk) m = Ok (m', n)) \/ (exists ls n, removeEdges (protect hk) m ls = Ok (m', n)) ->
  (forall l e, isEdge m l e -> N.land (eflags e) ALL_PROTECTION <> 0%N ->
     exists l' e', isEdge m' l' e' /\ N.land (eflags e') ALL_PROTECTION = N.land (eflags e) ALL_PROTECTION /\ inside (epts e) (epts e')) /\
  (forall F p, F <> 0%N -> (pointProtected m F p <-> pointProtected m' F p)).
Proof. exact (protection_bulk hk m m'). Qed.
Print Assumptions C39_protection_bulk.

Example C39_bulk_case := theta_kept.

(** C39 does not hold before initializeMap: removeEdge then asks no slot. *)
Theorem C39_drawing_refuted : exists m d m', history geometric m /\ flagAt m (elab d) ALL_PROTECTION /\
  allowed m (Call (protect yes) (ORemoveEdge d)) /\ run_op (protect yes) m (ORemoveEdge d) = Ok m' /\ noEdge m' (elab d).
Proof. exact (protection_drawing_refuted). Qed.
Print Assumptions C39_drawing_refuted.

(** C40: removeBridges returns for every list of distinct bridges not carrying its internal mark, and every slot behaviour. *)
Theorem C40_removeBridges hk m bs : history anyCall m -> initialised m -> NoDup bs ->
  (forall b, In b bs -> bridgeAt m b /\ ~ flagAt m b UNREMOVABLE_BRIDGE) ->
  exists m' n, removeBridges hk m bs = Ok (m', n) /\ later m m' /\ Z.of_nat n = liveEdges m - liveEdges m' /\ liveFaces m' = liveFaces m /\
    bridgesRemoved hk m bs m' /\ ((forall m1 d, hkBridge hk m1 d = true) -> forall b, In b bs -> noEdge m' b).
Proof. exact (removeBridges_spec hk m bs). Qed.
Print Assumptions C40_removeBridges.

Example C40_case := dumbbell_bridges.
Example C40_case_refused := dumbbell_refused.

(** C40: removeBridges of all bridges. *)
Theorem C40_removeAllBridges hk m : history anyCall m -> initialised m -> (forall b, bridgeAt m b -> ~ flagAt m b UNREMOVABLE_BRIDGE) ->
  exists m' n, removeAllBridges hk m = Ok (m', n) /\ later m m' /\ Z.of_nat n = liveEdges m - liveEdges m' /\ liveFaces m' = liveFaces m /\
    (forall l e, isEdge m l e -> ~ bridgeAt m l -> isEdge m' l e) /\
    (forall l e, isEdge m l e -> bridgeAt m l -> noEdge m' l \/ exists e', isEdge m' l e' /\ sameButFlags e e' /\ flagsOutside (N.lor UNREMOVABLE_BRIDGE REMOVE_BRIDGE) e e') /\
    ((forall m1 d, hkBridge hk m1 d = true) -> forall b, ~ bridgeAt m' b).
Proof. exact (removeAllBridges_spec hk m). Qed.
Print Assumptions C40_removeAllBridges.

(** C40: a label listed twice makes removeBridges take the front of an empty list. *)
Theorem C40_duplicate_refuted : exists m bs, history geometricStraight m /\ initialised m /\
  (forall b, In b bs -> bridgeAt m b /\ ~ flagAt m b UNREMOVABLE_BRIDGE) /\ removeBridges yes m bs = UB.
Proof. exact (removeBridges_duplicate_refuted). Qed.
Print Assumptions C40_duplicate_refuted.

(** C40: as does a listed bridge that carries the internal mark. *)
Theorem C40_marked_refuted : exists m bs, history geometricStraight m /\ initialised m /\ NoDup bs /\
  (forall b, In b bs -> bridgeAt m b) /\ removeBridges yes m bs = UB.
Proof. exact (removeBridges_marked_refuted). Qed.
Print Assumptions C40_marked_refuted.

(** C40: and such marks can be left behind by an earlier call. *)
Theorem C40_unmarks_refuted : exists hk m, history geometricStraight m /\ initialised m /\ (forall b, ~ flagAt m b UNREMOVABLE_BRIDGE) /\
  exists m' n l, removeAllBridges hk m = Ok (m', n) /\ flagAt m' l UNREMOVABLE_BRIDGE.
Proof. exact (removeBridges_unmarks_refuted). Qed.
Print Assumptions C40_unmarks_refuted.

(** C49: mergeFacesCompletely removes the whole common boundary or nothing. *)
Theorem C49_spec hk merge2 m d : history anyCall m -> initialised m -> isDart m d ->
  (bridgeAt m (elab d) -> mergeFacesCompletely hk merge2 m d = Exn) /\
  (~ bridgeAt m (elab d) -> (exists l, commonEdge m d l /\ flagAt m l ALL_PROTECTION) -> mergeFacesCompletely hk merge2 m d = Ok (m, None)) /\
  (~ bridgeAt m (elab d) -> (forall l, commonEdge m d l -> ~ flagAt m l ALL_PROTECTION) ->
   exists m' s, mergeFacesCompletely hk merge2 m d = Ok (m', s) /\ later m m' /\
     (* the faces *)
     match s with
     | None => liveFaces m' = liveFaces m /\ (forall l, noFace m' l <-> noFace m l)
     | Some s => exists gone, (leftLabel m d = Ok (Some s) /\ rightLabel m d = Ok (Some gone) \/ leftLabel m d = Ok (Some gone) /\ rightLabel m d = Ok (Some s)) /\
                 gone <> s /\ liveFaces m' = liveFaces m - 1 /\ (forall l, noFace m' l <-> noFace m l \/ l = gone)
     end /\
     (* nothing else is removed *)
     (merge2 = false -> forall l e, isEdge m l e -> (exists e', isEdge m' l e' /\ sameButFaces e e') \/ (noEdge m' l /\ commonEdge m d l)) /\
     (* the whole common boundary is removed *)
     (accepting hk -> s <> None /\ (forall l, commonEdge m d l -> noEdge m' l) /\
        (forall x n, commonDart m d x -> startLabel m x = Ok n \/ endLabel m x = Ok n -> ~ isolatedAt m' n /\ (merge2 = true -> ~ deg2At m' n)))).
Proof. exact (mergeFacesCompletely_spec hk merge2 m d). Qed.
Print Assumptions C49_spec.

Example C49_case := theta_complete.
Example C49_case_protected := theta_kept.

(** C49: every point of every other edge stays in an edge. *)
Theorem C49_points hk merge2 m d m' s : history geometric m -> initialised m -> isDart m d ->
  mergeFacesCompletely hk merge2 m d = Ok (m', s) -> pointsKept m (fun l => ~ commonEdge m d l) m'.
Proof. exact (mergeFacesCompletely_points hk merge2 m d m' s). Qed.
Print Assumptions C49_points.

(** C49 fails for slots refusing single bridges: the faces are merged and part of the common boundary stays. *)
Theorem C49_veto_refuted : exists hk m d l m' s, history geometricStraight m /\ initialised m /\ isDart m d /\
  (forall k, ~ flagAt m k ALL_PROTECTION) /\ commonEdge m d l /\ mergeFacesCompletely hk false m d = Ok (m', Some s) /\ exists e, isEdge m' l e.
Proof. exact (mergeFacesCompletely_veto_refuted). Qed.
Print Assumptions C49_veto_refuted.

(** C57: removeIsolatedNodes removes isolated nodes only, and all of them unless refused. *)
Theorem C57_removeIsolatedNodes hk m : history anyCall m -> initialised m ->
  exists m' k, removeIsolatedNodes hk m = Ok (m', k) /\ later m m' /\ Z.of_nat k = liveNodes m - liveNodes m' /\
    (forall l, edgeP m' l = edgeP m l) /\ (forall l, faceP m' l = faceP m l) /\
    (forall n, nodeP m' n = nodeP m n \/ (noNode m' n /\ isolatedAt m n)) /\
    ((forall m1 l, hkNode hk m1 l = true) -> forall n, ~ isolatedAt m' n).
Proof. exact (removeIsolatedNodes_spec hk m). Qed.
Print Assumptions C57_removeIsolatedNodes.

(** C57: mergeDegree2Nodes keeps faces and points, and leaves no mergeable node unless refused. *)
Theorem C57_mergeDegree2Nodes hk m : history anyCall m -> initialised m ->
  exists m' k, mergeDegree2Nodes hk m = Ok (m', k) /\ later m m' /\ Z.of_nat k = liveNodes m - liveNodes m' /\ Z.of_nat k = liveEdges m - liveEdges m' /\
    liveFaces m' = liveFaces m /\ (forall l, noFace m' l <-> noFace m l) /\
    (history geometric m -> pointsKept m (fun _ => True) m') /\ (forall n, isolatedAt m' n -> isolatedAt m n) /\
    (accepting hk -> forall n, ~ deg2At m' n).
Proof. exact (mergeDegree2Nodes_spec hk m). Qed.
Print Assumptions C57_mergeDegree2Nodes.

(** C57: removeEdges removes all listed edges unless refused, keeps the points of all others, and leaves no isolated or mergeable node. *)
Theorem C57_removeEdges hk m ls : history anyCall m -> initialised m -> NoDup ls ->
  (forall l, In l ls -> (exists e, isEdge m l e) /\ ~ flagAt m l UNREMOVABLE_BRIDGE) ->
  exists m' n, removeEdges hk m ls = Ok (m', n) /\ later m m' /\ liveEdges m - liveEdges m' <= Z.of_nat n /\
    (history geometric m -> pointsKept m (fun l => ~ In l ls /\ ~ flagAt m l REMOVE_BRIDGE) m') /\
    ((forall m1 l, hkNode hk m1 l = true) -> forall n, ~ isolatedAt m' n) /\
    (accepting hk -> (forall l, In l ls -> noEdge m' l) /\ (forall n, ~ deg2At m' n)).
Proof. exact (removeEdges_spec hk m ls). Qed.
Print Assumptions C57_removeEdges.

Example C57_case := theta_removeEdges.

(** C57: with a label listed twice removeEdges throws. *)
Theorem C57_duplicate_refuted : exists m ls, history geometricStraight m /\ initialised m /\
  (forall l, In l ls -> (exists e, isEdge m l e) /\ ~ flagAt m l UNREMOVABLE_BRIDGE) /\ removeEdges yes m ls = Exn.
Proof. exact (removeEdges_duplicate_refuted). Qed.
Print Assumptions C57_duplicate_refuted.

