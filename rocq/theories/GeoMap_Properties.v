(** C01-C11, C28, C29, C41, C43, C44: the GeoMap core. *)
From Coq Require Import QArith Reals Sorted.
From Verif Require Import Base GeoMap_Model GeoMap_Spec GeoMap_IterModel GeoMap_Results GeoMap_Results2 GeoMap_Results3
  GeoMap_Results4 GeoMap_Results5 GeoMap_Hooks GeoMap_Examples SigmaArray Angle_Proofs.
Local Open Scope Z_scope.

(** The running example: a thin ring around a disc, built by addNode / addEdge and
    initializeMap (GeoMap_Results5.v).  It has two components, a hole, and three faces. *)
Example ring_is_history : history geometricStraight ringMap /\ history geometric ringMap /\ history anyCall ringMap /\ initialised ringMap.
Proof.
  split; [exact ring_history|]. split; [exact (replay_geometric true ringCalls ring_replays)|].
  split; [exact (replay_any true ringCalls ring_replays)|]. vm_compute. discriminate.
Qed.
Example ring_darts : isDart ringMap 1 /\ isDart ringMap (-3) /\ ~ isDart ringMap 4.
Proof.
  split; [|split]; try (split; [discriminate|]; eexists; vm_compute; reflexivity). intros (_ & e & K). vm_compute in K. discriminate.
Qed.

(** C01: nextSigma and prevSigma are inverse on the live darts, keep the start node, and every
    dart is reached from the anchor of its start node. *)
Theorem C01_rotation_permutation m : history anyCall m ->
  (forall d, isDart m d -> exists n d1 d2, startLabel m d = Ok n /\
     nextSigma m d = Ok d1 /\ isDart m d1 /\ startLabel m d1 = Ok n /\ prevSigma m d1 = Ok d /\
     prevSigma m d = Ok d2 /\ isDart m d2 /\ startLabel m d2 = Ok n /\ nextSigma m d2 = Ok d) /\
  (forall d n, isDart m d -> startLabel m d = Ok n -> exists nd, isNode m n nd /\ nanchor nd <> 0 /\ reaches (nextSigma m) (nanchor nd) d) /\
  (forall n nd, isNode m n nd ->
     (nanchor nd = 0 /\ forall d, isDart m d -> startLabel m d <> Ok n) \/
     (isDart m (nanchor nd) /\ startLabel m (nanchor nd) = Ok n)).
Proof. exact (rotation_permutation m). Qed.
Print Assumptions C01_rotation_permutation.

Example C01_case : nextSigma ringMap 1 = Ok 2 /\ nextSigma ringMap 2 = Ok 1 /\ nextSigma ringMap 3 = Ok (-3) /\ startLabel ringMap 2 = Ok 0%nat.
Proof. vm_compute. repeat split. Qed.

(** C01, limit: removeIsolatedNode trusts its caller; on a node that still has darts it removes the
    node and leaves darts without start node. *)
Theorem C01_remove_used_node_refuted : exists m l nd m' d, history anyCall m /\ isNode m l nd /\
  removeIsolatedNode yes m l = Ok (m', true) /\ isDart m' d /\ startLabel m' d = Ok l /\ ~ exists nd', isNode m' l nd'.
Proof. exact (remove_used_node_refuted). Qed.
Print Assumptions C01_remove_used_node_refuted.

(** C02 *)
Theorem C02_contours_partition m : history anyCall m -> initialised m ->
  (forall d, isDart m d -> exists l f a, leftLabel m d = Ok (Some l) /\ isFace m l f /\
      In a (fanchors f) /\ sameContour m a d /\
      (forall b, In b (fanchors f) -> sameContour m b d -> b = a) /\
      (forall l' f' b, isFace m l' f' -> In b (fanchors f') -> sameContour m b d -> l' = l)) /\
  (forall l f, isFace m l f -> NoDup (fanchors f)) /\
  (forall l f a d, isFace m l f -> In a (fanchors f) -> sameContour m a d -> isDart m d /\ leftLabel m d = Ok (Some l)).
Proof. exact (contours_partition m). Qed.
Print Assumptions C02_contours_partition.

(** the contour relation used above: the next dart starts where the dart ends, and turns around
    that node as prevSigma says *)
Theorem C02_contour_step m d : history anyCall m -> isDart m d ->
  exists d' n, nextPhi m d = Ok d' /\ isDart m d' /\ nextSigma m d' = Ok (- d) /\
    endLabel m d = Ok n /\ startLabel m d' = Ok n /\ prevPhi m d' = Ok d.
Proof. exact (contour_step m d). Qed.
Print Assumptions C02_contour_step.

Example C02_case : leftLabel ringMap 1 = Ok (Some 4%nat) /\ leftLabel ringMap (-3) = Ok (Some 4%nat) /\
  isFace ringMap 4 (mkFace [-3; 1] (Some 88) 0) /\ nextPhi ringMap 1 = Ok (-2).
Proof. vm_compute. repeat split. Qed.

(** C03 *)
Theorem C03_euler_poincare m : history anyCall m -> initialised m ->
  nonIsolatedNodes m - liveEdges m + liveFaces m - allHoles m = 1 /\
  nonIsolatedNodes m - liveEdges m + allContours m - 2 * allHoles m = 0 /\
  (forall l f, isFace m l f -> 0 <= holeCount l f).
Proof. exact (euler_poincare m). Qed.
Print Assumptions C03_euler_poincare.

Example C03_case : nonIsolatedNodes ringMap = 3 /\ liveEdges ringMap = 3 /\ liveFaces ringMap = 3 /\ allHoles ringMap = 2 /\ allContours ringMap = 4.
Proof. vm_compute. repeat split. Qed.

(** C04: counters *)
Theorem C04_counters m : history anyCall m ->
  nodeCount m = liveNodes m /\ edgeCount m = liveEdges m /\ faceCount m = liveFaces m.
Proof. exact (counters m). Qed.
Print Assumptions C04_counters.

(** C04: a removed label stays removed *)
Theorem C04_labels_not_reused m m' : history anyCall m -> later m m' ->
  (forall l, nodeP m l = Ok None -> nodeP m' l = Ok None) /\
  (forall l, edgeP m l = Ok None -> edgeP m' l = Ok None) /\
  (forall l, faceP m l = Ok None -> faceP m' l = Ok None) /\
  (length (nodes m) <= length (nodes m'))%nat /\ (length (edges m) <= length (edges m'))%nat /\ (length (faces m) <= length (faces m'))%nat.
Proof. exact (labels_not_reused m m'). Qed.
Print Assumptions C04_labels_not_reused.

Example C04_case : exists m', later ringMap m' /\ faceP ringMap 4 <> Ok None /\ faceP m' 4 = Ok None /\ faceCount m' = 2.
Proof.
  destruct (mergeFaces yes ringMap 1) as [[m' o]| | |] eqn:E; [|vm_compute in E; discriminate..].
  exists m'. split; [apply (lt_call ringMap (Call yes (OMergeFaces 1)) m' m'); [exact I | cbn [exec run_op]; rewrite E; reflexivity | apply lt_refl]|].
  vm_compute in E. injection E as <- _. split; [vm_compute; discriminate|]. split; vm_compute; reflexivity.
Qed.

(** C04: new cells get labels that were never used *)
Theorem C04_new_labels m : history anyCall m ->
  (forall p m' l, addNode m p = (m', l) -> nodeP m l = Exn /\ exists nd, isNode m' l nd) /\
  (forall p k m' l, addNodeL m p k = (m', l) -> nodeP m l = Exn /\ exists nd, isNode m' l nd) /\
  (forall sa ea pts k m' l, anchorExists m sa -> anchorExists m ea -> addEdge m sa ea pts k = Ok (m', l) -> edgeP m l = Exn /\ exists e, isEdge m' l e) /\
  (forall k i p ins m' l e, isEdge m k e -> epts e <> [] -> splitEdge m k i p ins = Ok (m', l) -> edgeP m l = Exn /\ exists e, isEdge m' l e).
Proof. exact (new_labels m). Qed.
Print Assumptions C04_new_labels.

(** C05: a null result means that every query is answered as before *)
Theorem C05_vetoed_unchanged m m' : history anyCall m ->
  (forall hk d, mergeEdges hk m d = Ok (m', None) -> sameObservations m m') /\
  (forall hk d, removeBridge hk m d = Ok (m', None) -> sameObservations m m') /\
  (forall hk d, mergeFaces hk m d = Ok (m', None) -> sameObservations m m') /\
  (forall hk l, removeIsolatedNode hk m l = Ok (m', false) -> sameObservations m m').
Proof. exact (vetoed_unchanged m m'). Qed.
Print Assumptions C05_vetoed_unchanged.

Definition no : hooks := {| hkNode := fun _ _ => false; hkMergeEdges := fun _ _ => false; hkBridge := fun _ _ => false; hkMergeFaces := fun _ _ => false |}.
Example C05_case : refusing no /\ (exists m', mergeFaces no ringMap 1 = Ok (m', None)) /\ (exists m', removeIsolatedNode no ringMap 0 = Ok (m', false)).
Proof. split; [repeat split|]. split; eexists; vm_compute; reflexivity. Qed.
(** a merge of degree-2 edges that is vetoed after the anchors were moved *)
Definition ringSplit : gmap := match splitEdge ringMap 3 2 (0,0) false with Ok (m, _) => m | _ => ringMap end.
Example C05_merge_case : exists m', mergeEdges no ringSplit (-4) = Ok (m', None).
Proof. eexists. vm_compute. reflexivity. Qed.

(** C05: refusing hooks give a null result *)
Theorem C05_veto_refuses m hk : history anyCall m -> refusing hk ->
  (forall d m' r, mergeEdges hk m d = Ok (m', r) -> r = None) /\
  (forall d m' r, removeBridge hk m d = Ok (m', r) -> r = None) /\
  (forall d m' r, mergeFaces hk m d = Ok (m', r) -> r = None) /\
  (forall l m' r, removeIsolatedNode hk m l = Ok (m', r) -> r = false).
Proof. exact (veto_refuses m hk). Qed.
Print Assumptions C05_veto_refuses.

(** C05: without a veto the operations are performed exactly under the documented conditions *)
Theorem C05_performed_iff m hk : history anyCall m -> accepting hk ->
  (forall d, (exists m' l, mergeEdges hk m d = Ok (m', Some l)) <->
     isDart m d /\ exists d2, nextSigma m d = Ok d2 /\ elab d2 <> elab d /\ nextSigma m d2 = Ok d) /\
  (initialised m ->
   (forall d, (exists m' l, removeBridge hk m d = Ok (m', Some l)) <->
     isDart m d /\ leftLabel m d = rightLabel m d /\ startLabel m d <> endLabel m d) /\
   (forall d, (exists m' l, mergeFaces hk m d = Ok (m', Some l)) <->
     isDart m d /\ leftLabel m d <> rightLabel m d)).
Proof. exact (performed_iff m hk). Qed.
Print Assumptions C05_performed_iff.

(** C06 *)
Theorem C06_mergeFaces_result m hk d m' s : history anyCall m -> initialised m -> mergeFaces hk m d = Ok (m', Some s) ->
  exists l r vl vr mm, leftLabel m d = Ok (Some l) /\ rightLabel m d = Ok (Some r) /\ l <> r /\
    reportedArea m l vl /\ reportedArea m r vr /\
    s = (if Nat.eqb l 0 then l else if Nat.eqb r 0 then r else if vl <? vr then r else l) /\
    mm = (if Nat.eqb s l then r else l) /\ mm <> 0%nat /\
    faceP m' mm = Ok None /\ (exists f, isFace m' s f) /\ faceCount m' = faceCount m - 1 /\
    (forall k, k <> s -> k <> mm -> (exists f, isFace m k f) <-> (exists f, isFace m' k f)) /\
    (forall x, isDart m' x <-> isDart m x /\ elab x <> elab d) /\
    (forall x k, isDart m' x -> leftLabel m x = Ok (Some k) -> leftLabel m' x = Ok (Some (if Nat.eqb k mm then s else k))) /\
    (forall x, isDart m' x -> (leftLabel m' x = Ok (Some s) <-> leftLabel m x = Ok (Some s) \/ leftLabel m x = Ok (Some mm))).
Proof. exact (mergeFaces_result m hk d m' s). Qed.
Print Assumptions C06_mergeFaces_result.

Example C06_case : exists m', mergeFaces yes ringMap 1 = Ok (m', Some 2%nat) /\ leftLabel m' (-3) = Ok (Some 2%nat) /\
  leftLabel m' 3 = Ok (Some 0%nat) /\ faceP m' 4 = Ok None.
Proof.
  destruct (mergeFaces yes ringMap 1) as [[m' o]| | |] eqn:E; [|vm_compute in E; discriminate..]. exists m'.
  vm_compute in E. injection E as <- <-. repeat split; vm_compute; reflexivity.
Qed.

(** C07, the part that holds: after initializeMap the first contour of every finite face encloses a
    positive area and all others do not; all contours of the infinite face are holes.  Missing: the
    claim for mergeFaces, which is refuted next. *)
Theorem C07_init_outer_first_partial m ord par m' : history anyCall m -> allowed m (Init ord par) -> exec m (Init ord par) = Ok m' -> outerFirst m'.
Proof. exact (init_outerFirst m ord par m'). Qed.
Print Assumptions C07_init_outer_first_partial.

(** C07, refuted for mergeFaces: when the surviving face lies in a hole of the removed face its
    first contour is no longer the exterior one. *)
Theorem C07_mergeFaces_refuted : exists m d m' s, history geometricStraight m /\ initialised m /\ outerFirst m /\
  mergeFaces yes m d = Ok (m', Some s) /\ ~ outerFirst m'.
Proof. exact (mergeFaces_outerFirst_refuted). Qed.
Print Assumptions C07_mergeFaces_refuted.

(** C08: what splitEdge does *)
Theorem C08_split_result m l e k p ins m1 r : history anyCall m -> isEdge m l e -> epts e <> [] -> splitEdge m l k p ins = Ok (m1, r) ->
  exists n q el er, (if ins then q = p else nth_error (epts e) k = Some q) /\ nodeP m n = Exn /\ edgeP m r = Exn /\
    posOf m1 n = Some q /\ isEdge m1 l el /\ isEdge m1 r er /\
    estart el = estart e /\ eend el = n /\ estart er = n /\ eend er = eend e /\
    elf el = elf e /\ erf el = erf e /\ elf er = elf e /\ erf er = erf e /\ eflags el = eflags e /\ eflags er = eflags e /\
    epts el ++ skipn 1 (epts er) = (if ins then insert_at (epts e) (S k) p else epts e) /\
    (forall j, j <> l -> j <> r -> edgeP m1 j = edgeP m j) /\
    nextSigma m1 (- Z.of_nat l) = Ok (Z.of_nat r) /\ nextSigma m1 (Z.of_nat r) = Ok (- Z.of_nat l).
Proof. exact (split_result m l e k p ins m1 r). Qed.
Print Assumptions C08_split_result.

(** C08: merging the halves restores the edge *)
Theorem C08_split_then_merge m hk l e k p ins m1 r d : history anyCall m -> accepting hk -> isEdge m l e -> epts e <> [] ->
  splitEdge m l k p ins = Ok (m1, r) -> d = Z.of_nat r \/ d = - Z.of_nat l ->
  exists m2, mergeEdges hk m1 d = Ok (m2, Some l) /\
    isEdge m2 l (mkEdge (estart e) (eend e) (elf e) (erf e) (if ins then insert_at (epts e) (S k) p else epts e) (eflags e)) /\
    edgeP m2 r = Ok None /\ (forall j, j <> l -> j <> r -> edgeP m2 j = edgeP m j) /\
    (forall n nd, isNode m n nd -> exists nd', isNode m2 n nd' /\ npos nd' = npos nd) /\
    (forall n nd, isNode m2 n nd -> exists nd', isNode m n nd') /\
    nodeCount m2 = nodeCount m /\ edgeCount m2 = edgeCount m /\ faceCount m2 = faceCount m /\ sorted m2 = sorted m /\
    (forall x, isDart m2 x <-> isDart m x) /\
    (forall x, isDart m x -> nextSigma m2 x = nextSigma m x /\ prevSigma m2 x = prevSigma m x /\
        startLabel m2 x = startLabel m x /\ leftLabel m2 x = leftLabel m x) /\
    (forall j, match faceP m j, faceP m2 j with
      | Ok (Some f), Ok (Some f') => fflags f' = fflags f /\ farea f' = farea f /\ Forall2 (sameContour m) (fanchors f) (fanchors f')
      | Ok None, Ok None => True | Exn, Exn => True | _, _ => False end).
Proof. exact (split_then_merge m hk l e k p ins m1 r d). Qed.
Print Assumptions C08_split_then_merge.

Example C08_case : exists m1, splitEdge ringMap 3 2 (0,0) false = Ok (m1, 4%nat) /\
  (exists m2, mergeEdges yes m1 4 = Ok (m2, Some 3%nat) /\ edgeP m2 3 = edgeP ringMap 3).
Proof.
  destruct (splitEdge ringMap 3 2 (0,0) false) as [[m1 r]| | |] eqn:E; [|vm_compute in E; discriminate..]. exists m1.
  vm_compute in E. injection E as <- <-. split; [reflexivity|]. eexists. split; vm_compute; reflexivity.
Qed.

(** C09 *)
Theorem C09_end_points m d : history geometric m -> isDart m d ->
  exists ps n p, ptsOf m d ps /\ (2 <= length ps)%nat /\ startLabel m d = Ok n /\ posOf m n = Some p /\ hd_error ps = Some p.
Proof. exact (end_points m d). Qed.
Print Assumptions C09_end_points.

Example C09_case : ptsOf ringMap (-2) [(10,0);(10,10);(0,10);(0,0)] /\ startLabel ringMap (-2) = Ok 1%nat /\ posOf ringMap 1 = Some (10,0).
Proof. split; [|vm_compute; repeat split]. eexists. split; vm_compute; reflexivity. Qed.

(** C10: inserted split points on the edge *)
Theorem C10_area_is_enclosed m l f : history geometricStraight m -> isFace m l f ->
  exists v, reportedArea m l v /\ enclosedArea m f v /\ (forall w, reportedArea m l w -> w = v).
Proof. exact (area_is_enclosed m l f). Qed.
Print Assumptions C10_area_is_enclosed.

(** twice the area 144 of the outer square minus 100 of the disc *)
Example C10_case : reportedArea ringMap 4 88 /\ reportedArea ringMap 2 200.
Proof. split; eexists; vm_compute; reflexivity. Qed.

(** C10, limit: splitEdge with an inserted point beside the edge changes the polygon but not the
    cached area of the adjacent faces. *)
Theorem C10_bent_split_refuted : exists m l f v w, history geometric m /\ isFace m l f /\ reportedArea m l v /\ enclosedArea m f w /\ v <> w.
Proof. exact (bent_area_refuted). Qed.
Print Assumptions C10_bent_split_refuted.

(** C11 *)
Theorem C11_degrees m l nd : history anyCall m -> isNode m l nd ->
  exists L, NoDup L /\ (forall d, In d L <-> isDart m d /\ startLabel m d = Ok l) /\
    degree m nd = Ok (length L) /\
    (forall k, hasDegree m nd k = Ok (Nat.eqb k (length L))) /\
    (forall k, hasMinDegree m nd k = Ok (Nat.leb k (length L))).
Proof. exact (degrees m l nd). Qed.
Print Assumptions C11_degrees.

Example C11_case : isNode ringMap 2 (mkNode (-1,-1) 3) /\ degree ringMap (mkNode (-1,-1) 3) = Ok 2%nat /\
  hasDegree ringMap (mkNode (-1,-1) 3) 2 = Ok true /\ hasMinDegree ringMap (mkNode (-1,-1) 3) 3 = Ok false.
Proof. vm_compute. repeat split. Qed.

(** C28: range *)
Theorem C28_angleTheta_range dy dx r t : polar (IZR dy) (IZR dx) r t -> (-2 < angleTheta dy dx <= 2)%Q.
Proof. exact (angleTheta_range dy dx r t). Qed.
Print Assumptions C28_angleTheta_range.

(** C28: order *)
Theorem C28_angleTheta_lt dy dx r t dy' dx' r' t' : polar (IZR dy) (IZR dx) r t -> polar (IZR dy') (IZR dx') r' t' ->
  ((angleTheta dy dx < angleTheta dy' dx')%Q <-> (t < t')%R).
Proof. exact (angleTheta_lt dy dx r t dy' dx' r' t'). Qed.
Print Assumptions C28_angleTheta_lt.

(** C28: equality *)
Theorem C28_angleTheta_eq dy dx r t dy' dx' r' t' : polar (IZR dy) (IZR dx) r t -> polar (IZR dy') (IZR dx') r' t' ->
  ((angleTheta dy dx == angleTheta dy' dx')%Q <-> t = t').
Proof. exact (angleTheta_eq dy dx r t dy' dx' r' t'). Qed.
Print Assumptions C28_angleTheta_eq.

Example C28_case : (angleTheta 3 (-3) == 3 # 2)%Q /\ (angleTheta (-1) (-7) < angleTheta (-1) 0)%Q /\ (angleTheta 0 (-5) == 2)%Q.
Proof. vm_compute. repeat split. Qed.
Example C28_polar_case : polar (IZR 2) (IZR 0) 2 (PI / 2).
Proof. unfold polar. rewrite cos_PI2, sin_PI2. pose proof PI_RGT_0. repeat split; try Lra.lra. Qed.

(** C29 *)
Theorem C29_sort_result m : history anyCall m -> ~ initialised m ->
  (exists m', sortEdgesDirectly m = Ok m' /\ sorted m' = true /\ ~ sameAngle m /\
     (forall l, nodeP m' l = nodeP m l) /\ (forall l, edgeP m' l = edgeP m l) /\
     (nodeCount m' = nodeCount m /\ edgeCount m' = edgeCount m /\ faceCount m' = faceCount m) /\
     forall l nd, isNode m l nd -> exists W, NoDup W /\ (forall x, In x W <-> isDart m x /\ startLabel m x = Ok l) /\
       StronglySorted (angleBefore m) W /\ cyclicWalk (nextSigma m') W) \/
  (sortEdgesDirectly m = Exn /\ (sameAngle m \/ tooShort m)).
Proof. exact (sort_result m). Qed.
Print Assumptions C29_sort_result.

Definition star3 : gmap := replay true [XCall (OAddNode (0,0)); XCall (OAddNode (5,0)); XCall (OAddNode (0,5)); XCall (OAddNode (-5,0));
  XCall (OAddEdge (SAnode 0) (SAnode 1) [(0,0);(5,0)] 0); XCall (OAddEdge (SAnode 0) (SAnode 2) [(0,0);(0,5)] 0);
  XCall (OAddEdge (SAnode 3) (SAnode 0) [(-5,0);(0,0)] 0)].
(** down, right, left in counter-clockwise order *)
Example C29_case : history anyCall star3 /\ ~ initialised star3 /\
  (exists m', sortEdgesDirectly star3 = Ok m' /\ nextSigma m' 2 = Ok 1 /\ nextSigma m' 1 = Ok (-3) /\ nextSigma m' (-3) = Ok 2).
Proof.
  split; [apply replay_any; vm_compute; reflexivity|]. split; [vm_compute; intros K; apply K; reflexivity|].
  destruct (sortEdgesDirectly star3) as [m'| | |] eqn:E; [|vm_compute in E; discriminate..]. exists m'. vm_compute in E. injection E as <-. repeat split; vm_compute; reflexivity.
Qed.

(** C41: no call reads or writes outside the tables (nor dereferences a null cell, nor loops) *)
Theorem C41_calls_defined m c : history anyCall m -> allowed m c -> exec m c = Exn \/ exists m', exec m c = Ok m'.
Proof. exact (calls_defined m c). Qed.
Print Assumptions C41_calls_defined.

(** C41: vector level; every dart of an existing edge label has an entry *)
Theorem C41_table_covers m t l : history anyCall m -> tables m t -> (l < length (edges m))%nat ->
  exists s1 s2 i1 i2, arrGet (fst t) (Z.of_nat l) = Ok s1 /\ arrGet (fst t) (- Z.of_nat l) = Ok s2 /\
                      arrGet (snd t) (Z.of_nat l) = Ok i1 /\ arrGet (snd t) (- Z.of_nat l) = Ok i2.
Proof. exact (table_covers m t l). Qed.
Print Assumptions C41_table_covers.

Example C41_case : tables empty_map (repeat 0 101, repeat 0 101) /\ (exists a, arrGrow (repeat 0 101) = Ok a /\ length a = 201%nat).
Proof. split; [exact tables_empty|]. eexists. split; vm_compute; reflexivity. Qed.

(** C41: growing keeps the entries *)
Theorem C41_growth_keeps_entries m t : tables m t ->
  exists a b, arrGrow (fst t) = Ok a /\ arrGrow (snd t) = Ok b /\ tables (resizeSigma m) (a, b) /\
    forall d, Z.abs d <= cap m -> arrGet a d = arrGet (fst t) d /\ arrGet b d = arrGet (snd t) d.
Proof. exact (grow_sim m t). Qed.
Print Assumptions C41_growth_keeps_entries.

(** C41: the vectors behave like the functions of the model *)
Theorem C41_vectors_simulate_get m t d : tables m t -> arrGet (fst t) d = getS m d /\ arrGet (snd t) d = getSi m d.
Proof. exact (get_sim m t d). Qed.
Print Assumptions C41_vectors_simulate_get.

(** C41: same, writing *)
Theorem C41_vectors_simulate_put m t d v : tables m t ->
  match putS m d v with Ok m' => exists a, arrPut (fst t) d v = Ok a /\ tables m' (a, snd t) | _ => arrPut (fst t) d v = UB end /\
  match putSi m d v with Ok m' => exists a, arrPut (snd t) d v = Ok a /\ tables m' (fst t, a) | _ => arrPut (snd t) d v = UB end.
Proof. exact (put_sim m t d v). Qed.
Print Assumptions C41_vectors_simulate_put.

(** C41: same, the growing loop *)
Theorem C41_vectors_simulate_ensure n m t d : tables m t ->
  match growSigma n m d with
  | Ok m' => exists a b, arrEnsure n (fst t) d = Ok a /\ arrEnsure n (snd t) d = Ok b /\ tables m' (a, b) /\ Z.abs d <= cap m'
  | NoFuel => arrEnsure n (fst t) d = NoFuel
  | _ => False
  end.
Proof. exact (ensure_sim n m t d). Qed.
Print Assumptions C41_vectors_simulate_ensure.

(** C41: the resize inside setSigmaMapping is unreachable *)
Theorem C41_setSigma_never_resizes m t : history anyCall m -> tables m t -> (2 * length (edges m) - 1 <= length (fst t))%nat.
Proof. exact (setSigma_never_resizes m t). Qed.
Print Assumptions C41_setSigma_never_resizes.

(** C41, limit: resizeSigmaMapping is only right for doubling *)
Theorem C41_resize_other_sizes_refuted :
  (exists a n, (length a < n)%nat /\ arrResize a n = UB) /\
  (exists a a' n d, (length a < n)%nat /\ arrResize a n = Ok a' /\ arrGet a d = Ok 7 /\ arrGet a' d <> Ok 7).
Proof. exact (resize_other_sizes_refuted). Qed.
Print Assumptions C41_resize_other_sizes_refuted.

(** C43: the combiner *)
Theorem C43_accumulate {A} (slots : list (A -> bool)) a b n : accumulate slots a = (b, n) ->
  (b = true <-> forall s, In s slots -> s a = true) /\
  (b = true -> n = length slots) /\
  (b = false -> exists k s, n = S k /\ nth_error slots k = Some s /\ s a = false) /\
  (forall k s, (S k < n)%nat -> nth_error slots k = Some s -> s a = true).
Proof. exact (accumulate_spec slots a b n). Qed.
Print Assumptions C43_accumulate.

Example C43_case : accumulate [Nat.even; Nat.ltb 3; Nat.eqb 7] 2%nat = (false, 2%nat) /\ accumulate [Nat.even; Nat.ltb 3] 4%nat = (true, 2%nat) /\
  accumulate [] 5%nat = (true, 0%nat).
Proof. repeat split. Qed.

(** C43: the operations with any number of hooks *)
Theorem C43_hooks_decide m s : history anyCall m ->
  (forall d, (exists m' l, mergeEdges (hooksOf s) m d = Ok (m', Some l)) <->
     isDart m d /\ (exists d2, nextSigma m d = Ok d2 /\ elab d2 <> elab d /\ nextSigma m d2 = Ok d) /\
     (forall d', edgesDart m d d' -> allAgree (onMergeEdges s) d') /\
     (forall n, startLabel m d = Ok n -> allAgree (onNode s) n)) /\
  (initialised m ->
   (forall d, (exists m' l, removeBridge (hooksOf s) m d = Ok (m', Some l)) <->
     isDart m d /\ leftLabel m d = rightLabel m d /\ startLabel m d <> endLabel m d /\ allAgree (onBridge s) d) /\
   (forall d, (exists m' l, mergeFaces (hooksOf s) m d = Ok (m', Some l)) <->
     isDart m d /\ leftLabel m d <> rightLabel m d /\ forall d', facesDart m d d' -> allAgree (onMergeFaces s) d')) /\
  (forall l nd, isNode m l nd -> ((exists m', removeIsolatedNode (hooksOf s) m l = Ok (m', true)) <-> allAgree (onNode s) l)).
Proof. exact (hooks_decide m s). Qed.
Print Assumptions C43_hooks_decide.

(** C44: contours *)
Theorem C44_contour_walk m d : history anyCall m -> isDart m d ->
  (exists L, contourWalk m d L) /\
  (exists d', nextPhi m d = Ok d' /\ isDart m d' /\ prevPhi m d' = Ok d /\ startLabel m d' = endLabel m d) /\
  (exists d', prevPhi m d = Ok d' /\ isDart m d' /\ nextPhi m d' = Ok d /\ endLabel m d' = startLabel m d).
Proof. exact (contour_walk m d). Qed.
Print Assumptions C44_contour_walk.

(** C44: contour point iterator and contourPoly *)
Theorem C44_contour_points m d : history geometric m -> isDart m d ->
  exists L pss ps q, contourWalk m d L /\ Forall2 (ptsOf m) L pss /\
    ps = flat_map (skipn 1) pss /\ hd_error (hd [] pss) = Some q /\ hd_error (rev ps) = Some q /\
    (exists n0, forall n, (n0 <= n)%nat -> (it <- cpiOf m d false ;; drain n m it) = Ok ps) /\
    (exists n0, forall n, (n0 <= n)%nat -> (it <- cpiOf m d true ;; drain n m it) = Ok (q :: ps)) /\
    contourPoly m d = Ok (q :: ps).
Proof. exact (contour_points m d). Qed.
Print Assumptions C44_contour_points.

Example C44_case : contourPoly ringMap 1 = Ok [(0,0);(10,0);(10,10);(0,10);(0,0)] /\
  (it <- cpiOf ringMap 1 false ;; drain 9 ringMap it) = Ok [(10,0);(10,10);(0,10);(0,0)].
Proof. vm_compute. split; reflexivity. Qed.

(** C44: dart point iterator *)
Theorem C44_dart_points m d : history anyCall m -> isDart m d -> exists ps it, ptsOf m d ps /\ dpiOf m d = Ok it /\
  (exists n0, forall n, (n0 <= n)%nat -> drainDpi n it = Ok ps) /\
  (forall j p, nth_error ps j = Some p -> exists it', it' = Nat.iter j dpiNext it /\ dpiAtEnd it' = false /\ dpiGet it' = Ok p /\
     dpiGet (dpiReverse it') = Ok p /\ (exists n0, forall n, (n0 <= n)%nat -> drainDpi n (dpiReverse it') = Ok (rev (firstn (S j) ps)))).
Proof. exact (dart_points m d). Qed.
Print Assumptions C44_dart_points.

