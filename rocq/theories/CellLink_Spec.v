(** What C66 and C67 say: the two darts of an edge, and the darts of a node. *)
From Verif Require Import Base CellMap_Model CellMap_Spec CellSigma_Spec.
Local Open Scope Z_scope.

(** the label of the edge the dart belongs to, and of the node it starts at *)
Definition edgeOf (im : img) (d : dart) : Z := plabel (ipix im (dcx d + dirX (ddir d)) (dcy d + dirY (ddir d))).
Definition nodeOf (im : img) (d : dart) : Z := plabel (ipix im (dcx d) (dcy d)).
Definition dartOfEdge (im : img) (l : Z) (d : dart) : Prop := isDart im d /\ edgeOf im d = l.
Definition dartOfNode (im : img) (l : Z) (d : dart) : Prop := isDart im d /\ nodeOf im d = l.
Definition manyDarts (P : dart -> Prop) (n : Z) : Prop := exists ds : list dart, NoDup ds /\ (forall d, In d ds <-> P d) /\ Z.of_nat (length ds) = n.

(** the edge has two darts *)
Definition twoEnds (im : img) (l : Z) (a b : dart) : Prop := a <> b /\ forall d, dartOfEdge im l d <-> d = a \/ d = b.
(** the node has as many darts as its degree says, and if there are any its anchor is one of them; else the anchor points to no line pixel *)
Definition hub (im : img) (l : Z) (a : dart) (g : Z) : Prop :=
  0 <= g < 2 ^ 16 /\ manyDarts (dartOfNode im l) g /\ isPlace im a /\ nodeOf im a = l /\ (0 < g -> isDart im a) /\ (g = 0 -> typeAt im a 0 <> Line).

(** a node has no holes: one can walk around it *)
Definition ringed (im : img) : Prop :=
  forall a b, isPlace im a -> isPlace im b -> nodeOf im a = nodeOf im b -> exists k, places k im 1 a = b.
(** line pixels with a side in common belong to one edge *)
Definition separate (im : img) : Prop :=
  forall x y k l, In k [0; 2; 4; 6] -> owns im Line l x y -> 0 <= x + dirX k < iw im -> 0 <= y + dirY k < ih im ->
    ptype (ipix im (x + dirX k) (y + dirY k)) = Line -> plabel (ipix im (x + dirX k) (y + dirY k)) = l.

Definition wired (m : cmap) : Prop :=
  cinit m = true /\ tidy m /\ ringed (cim m) /\ separate (cim m) /\
  (forall l e, nth_error (cedges m) l = Some e -> initialized (einf e) = true -> twoEnds (cim m) (Z.of_nat l) (estart e) (eend e)) /\
  (forall l n, nth_error (cnodes m) l = Some n -> initialized (ninf n) = true -> hub (cim m) (Z.of_nat l) (nanchor n) (ndegree n)).

(** the calls are made with darts of the map; a node that is removed as isolated has none *)
Definition dartAllowed (m : cmap) (c : ccall) : Prop :=
  callAllowed m c /\
  match c with
  | CRemoveIsolatedNode d => forall e, isDart (cim m) e -> nodeOf (cim m) e <> nodeOf (cim m) d
  | CMergeFaces d | CRemoveBridge d | CMergeEdges d => isDart (cim m) d
  end.
Inductive dhistory : cmap -> Prop :=
| dh_start m : wired m -> dhistory m
| dh_call m c m' s : dhistory m -> dartAllowed m c -> cexec m c = Ok (m', s) -> dhistory m'.

(** the cells of the map, by label *)
Definition isNode (m : cmap) (l : nat) (n : ninfo) : Prop := nth_error (cnodes m) l = Some n /\ initialized (ninf n) = true.
Definition isEdge (m : cmap) (l : nat) (e : einfo) : Prop := nth_error (cedges m) l = Some e /\ initialized (einf e) = true.
