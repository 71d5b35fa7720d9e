(** C26: moving a node. *)
From Coq Require Import Reals.
From Verif Require Import Base GeoMap_Model GeoMap_Spec GeoMap_Results2 GeoMap_Examples Polygon_Model Polygon_Spec Move_Results.
Local Open Scope Z_scope.

(** C26, the part that holds: end points follow the node, topology and all other points stay; areas not cached before are right. *)
Theorem C26_move_partial m l nd p : history anyCall m -> isNode m l nd -> (forall k e, isEdge m k e -> estart e = l \/ eend e = l -> epts e <> []) ->
  exists m', setPosition m l p = Ok m' /\
    (forall j, nodeP m' j = if Nat.eqb j l then Ok (Some (mkNode p (nanchor nd))) else nodeP m j) /\
    (forall d, nextSigma m' d = nextSigma m d /\ prevSigma m' d = prevSigma m d) /\ (forall j, faceP m' j = faceP m j) /\
    (nodeCount m' = nodeCount m /\ edgeCount m' = edgeCount m /\ faceCount m' = faceCount m) /\
    (forall k, match edgeP m k, edgeP m' k with
       | Ok (Some e), Ok (Some e') => estart e' = estart e /\ eend e' = eend e /\ elf e' = elf e /\ erf e' = erf e /\ eflags e' = eflags e /\
            forall i, nth_error (epts e') i = pointAfter l p e i
       | Ok None, Ok None => True
       | Exn, Exn => True
       | _, _ => False
       end) /\
    (forall k f v, isFace m' k f -> farea f = None -> enclosedArea m' f v -> reportedArea m' k v).
Proof. exact (move_keeps m l nd p). Qed.
Print Assumptions C26_move_partial.

Example C26_case : history anyCall square /\ isNode square 1 (mkNode (10, 10) (-1)) /\ allowed square (Call yes (OSetPosition 1 (20, 20))) /\
  setPosition square 1 (20, 20) = Ok squareMoved /\ exists e, isEdge squareMoved 2 e /\ epts e = [(20, 20); (0, 10); (0, 0)].
Proof.
  split; [exact square_any|]. split; [exact square_node|]. split; [exact (square_allowed yes _)|]. split; [exact square_moved|].
  eexists. split; reflexivity.
Qed.

(** C26: the map after a move still is one whose edges start and end at their nodes (C09_end_points applies to it). *)
Theorem C26_ends m hk l p m' : history geometric m -> allowed m (Call hk (OSetPosition l p)) -> setPosition m l p = Ok m' -> history geometric m'.
Proof. exact (move_ends m hk l p m'). Qed.
Print Assumptions C26_ends.

(** C26 is false for face areas: initializeMap caches them and setPosition does not invalidate them. *)
Theorem C26_area_refuted : exists m l nd p m' k f v, history geometricStraight m /\ isNode m l nd /\ allowed m (Call yes (OSetPosition l p)) /\
  setPosition m l p = Ok m' /\ isFace m' k f /\ enclosedArea m' f v /\ ~ reportedArea m' k v.
Proof. exact (move_area_refuted). Qed.
Print Assumptions C26_area_refuted.

(** C26: length(), partialArea() and boundingBox() of an edge after a write of one point: right if not asked before, otherwise the old value. *)
Theorem C26_caches_partial p pos x q : poke p pos x = Ok q ->
  ppts q = list_upd (ppts p) pos x /\
  (plenV p = false -> snd (qLength q) = trueLength (ppts q)) /\ (plenV p = true -> snd (qLength q) = snd (qLength p)) /\
  (pareaV p = false -> snd (qArea2 q) = trueArea2 (ppts q)) /\ (pareaV p = true -> snd (qArea2 q) = snd (qArea2 p)) /\
  (pbbV p = false -> isBox (ppts q) (snd (qBBox q))) /\ (pbbV p = true -> snd (qBBox q) = snd (qBBox p)).
Proof. exact (move_caches p pos x q). Qed.
Print Assumptions C26_caches_partial.

Example C26_caches_case : exists q, poke (ofPoints [(0, 0); (0, 2); (2, 2)]) 0 (-12, -3) = Ok q /\ ppts q = [(-12, -3); (0, 2); (2, 2)].
Proof. eexists. split; reflexivity. Qed.

