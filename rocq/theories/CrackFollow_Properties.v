(** C55: the edges made from a label image. *)
From Verif Require Import Base Image_Model Crack_Model Crack_Spec GeoMap_Model GeoMap_Spec CrackFollow_Model CrackFollow_Spec CrackFollow_Results Crack_Properties.
Local Open Scope Z_scope.

(** C55: following terminates without exception and without access out of range, and the map is made by addNode and
    addEdge calls with matching end points. *)
Theorem C55_runs : forall src eight, 1 <= iw src -> 1 <= ih src ->
  exists g, crackEdgeMap src eight = Ok g /\ history geometric (gmapOf g) /\ faces (gmapOf g) = [].
Proof. exact crackEdgeMap_runs. Qed.
Print Assumptions C55_runs.

(** C55: every segment of every edge separates two different labels, and every unit segment that does is drawn
    exactly once. *)
Theorem C55_segments : forall src eight, 1 <= iw src -> 1 <= ih src -> forall g, crackEdgeMap src eight = Ok g ->
  (forall a b, In (a, b) (mapSegments (gmapOf g)) -> crackSegment src a b \/ crackSegment src b a) /\
  (forall a b, crackSegment src a b -> timesDrawn (gmapOf g) a b = 1%nat).
Proof. exact crackEdgeMap_segments. Qed.
Print Assumptions C55_segments.

(** C55: there is a node where one is needed, other nodes only where a closed curve had to be started, no two nodes at
    the same place, and no edge passes a place where a node is needed. *)
Theorem C55_nodes : forall src eight, 1 <= iw src -> 1 <= ih src -> forall g, crackEdgeMap src eight = Ok g ->
  (forall x y, needsNode src eight x y = true -> exists l, posOf (gmapOf g) l = Some (cornerPoint x y)) /\
  (forall l v, posOf (gmapOf g) l = Some v -> exists x y, isCorner src x y /\ v = cornerPoint x y /\
      (needsNode src eight x y = true \/ mayStart src eight x y = true)) /\
  (forall l l' v, posOf (gmapOf g) l = Some v -> posOf (gmapOf g) l' = Some v -> l = l') /\
  (forall i e x y, isEdge (gmapOf g) i e -> In (cornerPoint x y) (innerPoints (epts e)) -> needsNode src eight x y = false).
Proof. exact crackEdgeMap_nodes. Qed.
Print Assumptions C55_nodes.

(** the 3x2 image of Crack_Properties: four nodes, six edges with 14 segments *)
Example C55_case : match crackEdgeMap labels32 true with
  | Ok g => length (nodes (gmapOf g)) = 4%nat /\ length (edges (gmapOf g)) = 7%nat /\ length (mapSegments (gmapOf g)) = 14%nat
  | _ => False end.
Proof. vm_compute. repeat split. Qed.
