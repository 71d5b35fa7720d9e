(** Vocabulary of the GeoMap properties: what a user observes through the query
    functions, and histories of calls.  Nothing here refers to the proofs. *)
From Verif Require Import Base GeoMap_Model.
Local Open Scope Z_scope.

(** ** Queries *)

(** edge(), node(), face() return a cell for the label *)
Definition isEdge m l e : Prop := edgeP m l = Ok (Some e).
Definition isNode m n nd : Prop := nodeP m n = Ok (Some nd).
Definition isFace m l f : Prop := faceP m l = Ok (Some f).
Definition isDart m d : Prop := d <> 0 /\ exists e, isEdge m (elab d) e.

(** Dart::nextSigma(), prevSigma() *)
Definition nextSigma m d : res Z := getS m d.
Definition prevSigma m d : res Z := getSi m d.

(** repeated application of a query, and the darts met by it *)
Fixpoint walk (next : Z -> res Z) (n : nat) (d : Z) : res Z :=
  match n with O => Ok d | S k => d' <- next d ;; walk next k d' end.
Definition reaches (next : Z -> res Z) (a d : Z) : Prop := exists n, walk next n a = Ok d.

(** points of a dart, node positions *)
Definition ptsOf m d (ps : list point) : Prop := exists e, isEdge m (elab d) e /\ ps = if 0 <? d then epts e else rev (epts e).
Definition posOf m n : option point :=
  match nodeP m n with Ok (Some nd) => Some (npos nd) | _ => None end.

(** numbers of cells *)
Definition countSome {A} (p : A -> bool) (l : list (option A)) : Z :=
  Z.of_nat (length (filter (fun o => match o with Some a => p a | None => false end) l)).
Definition liveNodes m : Z := countSome (fun _ => true) (nodes m).
Definition liveEdges m : Z := countSome (fun _ => true) (edges m).
Definition liveFaces m : Z := countSome (fun _ => true) (faces m).
Definition nonIsolatedNodes m : Z := countSome (fun nd => negb (nanchor nd =? 0)) (nodes m).

(** Face::holeCount() of a face stored under label [l] (cppmap.hxx 1266-1269), as an
    integer, and its sum over all faces *)
Definition holeCount (l : nat) (f : face) : Z := Z.of_nat (length (fanchors f)) - (if Nat.eqb l 0 then 0 else 1).
Fixpoint sumHoles (l : nat) (fs : list (option face)) : Z :=
  match fs with
  | [] => 0
  | o :: t => (match o with Some f => holeCount l f | None => 0 end) + sumHoles (S l) t
  end.
Definition allHoles m : Z := sumHoles 0 (faces m).
Definition allContours m : Z := Z.of_nat (length (flat_map (fun o => match o with Some f => fanchors f | None => [] end) (faces m))).

(** ** Contours and areas *)

Definition sameContour m a b : Prop := reaches (nextPhi m) a b.
(** the darts of the contour through [a], each once *)
Definition contourDarts m a (L : list Z) : Prop := NoDup L /\ forall y, In y L <-> sameContour m a y.
(** twice the signed area swept by a chain of points, by the shoelace formula; the sign is that
    of the code, positive for a counter-clockwise chain drawn with the y axis pointing down *)
Definition shoelace (ps : list point) : Z :=
  fold_right Z.add 0 (map (fun s => fst (snd s) * snd (fst s) - fst (fst s) * snd (snd s)) (combine ps (tl ps))).
(** twice the signed area of the polygon walked by the darts [L] *)
Inductive sweptArea m : list Z -> Z -> Prop :=
| sw_nil : sweptArea m [] 0
| sw_cons d L ps v : ptsOf m d ps -> sweptArea m L v -> sweptArea m (d :: L) (shoelace ps + v).
Definition contourAreaIs m a v : Prop := exists L, contourDarts m a L /\ sweptArea m L v.
Definition enclosedArea m (f : face) v : Prop :=
  exists vs, Forall2 (contourAreaIs m) (fanchors f) vs /\ v = fold_right Z.add 0 vs.

(** ** Planar drawings *)

(** nodes joined by a path of edges *)
Inductive connected m : nat -> nat -> Prop :=
| cn_refl n : connected m n n
| cn_edge l e n : isEdge m l e -> connected m (eend e) n -> connected m (estart e) n
| cn_back l e n : isEdge m l e -> connected m (estart e) n -> connected m (eend e) n.

(** one dart per contour, one node per component having edges *)
Definition contourReps m (C : list Z) : Prop :=
  NoDup C /\ (forall a, In a C -> isDart m a) /\
  (forall a b, In a C -> In b C -> sameContour m a b -> a = b) /\
  (forall d, isDart m d -> exists a, In a C /\ sameContour m a d).
Definition componentReps m (K : list nat) : Prop :=
  NoDup K /\ (forall n, In n K -> exists d, isDart m d /\ startLabel m d = Ok n) /\
  (forall n n', In n K -> In n' K -> connected m n n' -> n = n') /\
  (forall d n, isDart m d -> startLabel m d = Ok n -> exists k, In k K /\ connected m k n).

(** The rotation system describes a drawing in the plane: Euler's formula
    V - E + C = 2 K, and at most one contour per component does not enclose a
    positive area (that is the exterior one). *)
Record planarDrawing m : Prop := {
  pd_euler : exists C K, contourReps m C /\ componentReps m K /\
     nonIsolatedNodes m - liveEdges m + Z.of_nat (length C) = 2 * Z.of_nat (length K);
  pd_exterior : forall a b n n' v w, isDart m a -> isDart m b -> startLabel m a = Ok n -> startLabel m b = Ok n' ->
     connected m n n' -> contourAreaIs m a v -> contourAreaIs m b w -> v <= 0 -> w <= 0 -> sameContour m a b }.

(** ** Histories *)

Inductive call := Call (hk : hooks) (o : op) | Init (ord : list nat) (par : gmap -> Z -> nat).

Definition exec m (c : call) : res gmap :=
  match c with
  | Call hk o => run_op hk m o
  | Init ord par => initializeMap ord par m
  end.

(** cells passed by reference exist *)
Definition anchorExists m (a : sigmaAnchor) : Prop :=
  match a with SAnode l => exists nd, isNode m l nd | SAdart _ => True end.

(** a rotation system for the existing darts: a permutation, one cycle per node *)
Definition isRotation m (f : Z -> Z) : Prop :=
  (forall d, isDart m d -> isDart m (f d)) /\
  (forall d d', isDart m d -> isDart m d' -> f d = f d' -> d = d') /\
  (forall d, isDart m d -> startLabel m (f d) = startLabel m d) /\
  (forall d d', isDart m d -> isDart m d' -> startLabel m d = startLabel m d' -> exists n, walk (fun x => Ok (f x)) n d = Ok d').

(** the map on which initializeMap builds the contours *)
Definition sortedMap m : res gmap := if sorted m then Ok m else sortEdgesDirectly m.

(** What std::sort guarantees about the order in which embedFaces visits the
    contours: [ord] lists the contour faces, and none is moved before one that must
    precede it (AbsAreaCompare, cppmap.cxx 1044-1055). *)
Definition sortedByArea m (ord : list nat) : Prop :=
  exists eps, 1 <= eps /\ Permutation ord (seq 1 (length (faces m) - 1)) /\
  forall A B, ord = A ++ B -> forall p e fp fe vp ve, In p A -> In e B ->
    isFace m p fp -> isFace m e fe -> enclosedArea m fp vp -> enclosedArea m fe ve -> absBefore eps ve vp = false.

(** Preconditions of the calls that the functions do not check themselves. *)
Definition allowed m (c : call) : Prop :=
  match c with
  | Call _ (OAddEdge s e _ _) => anchorExists m s /\ anchorExists m e
  | Call _ (OSplitEdge l _ _ _) => exists e, isEdge m l e /\ epts e <> []
  | Call _ (ORemoveIsolatedNode l) => exists nd, isNode m l nd /\ nanchor nd = 0
  | Call _ (ORemoveEdge d) => isDart m d
  | Call _ (OFaceArea l) => exists f, isFace m l f
  | Call _ (OSetFlag l _ _) => exists e, isEdge m l e
  | Call _ (OSetPosition l _) => (exists nd, isNode m l nd) /\ forall k e, isEdge m k e -> estart e = l \/ eend e = l -> epts e <> []
  | Call _ (OSetSigma f _ _) => isRotation m f
  | Call _ _ => True
  | Init ord par =>
      (forall ms, sortedMap m = Ok ms -> planarDrawing ms) /\
      (forall ms m1, sortedMap m = Ok ms -> initContours ms = Ok m1 -> sortedByArea m1 ord) /\
      (forall m1 a, (exists f, isFace m1 0 f) -> exists f, isFace m1 (par m1 a) f)
  end.

(** maps reachable by histories all of whose calls also satisfy [P]; a call that
    throws leaves the map unchanged (see DESIGN.md for the two exceptions) *)
Inductive history (P : gmap -> call -> Prop) : gmap -> Prop :=
| h_new : history P empty_map
| h_call m c m' : history P m -> allowed m c -> P m c -> exec m c = Ok m' -> history P m'.

(** later state of the same map *)
Inductive later : gmap -> gmap -> Prop :=
| lt_refl m : later m m
| lt_call m c m1 m2 : allowed m c -> exec m c = Ok m1 -> later m1 m2 -> later m m2.

Definition anyCall (m : gmap) (c : call) : Prop := True.

(** polygons passed to addEdge start and end at the nodes; splitEdge at an
    interior point *)
Definition geometric m (c : call) : Prop :=
  match c with
  | Call _ (OAddEdge s e pts _) => (2 <= length pts)%nat /\
      (forall r, resolveSA m s = Ok r -> hd_error pts = posOf m (sa_node r)) /\
      (forall r, resolveSA m e = Ok r -> hd_error (rev pts) = posOf m (sa_node r))
  | Call _ (OSplitEdge _ k _ ins) => ins = true \/ (0 < k)%nat
  | _ => True
  end.

(** a point inserted by splitEdge lies on the line through its neighbours; nodes are moved before initializeMap only *)
Definition collinear (a p b : point) : Prop :=
  (fst p - fst a) * (snd b - snd a) = (snd p - snd a) * (fst b - fst a).
Definition straight m (c : call) : Prop :=
  match c with
  | Call _ (OSplitEdge l k p true) => forall e a b, isEdge m l e ->
      nth_error (epts e) k = Some a -> nth_error (epts e) (S k) = Some b -> collinear a p b
  | Call _ (OSetPosition _ _) => faces m = []
  | _ => True
  end.
Definition geometricStraight m c : Prop := geometric m c /\ straight m c.

(** GeoMap::mapInitialized() (cppmap.hxx 328) *)
Definition initialised m : Prop := faces m <> [].

(** ** Observations *)

(** Everything a user can query is answered alike; only the dart by which a
    contour is represented may be another dart of the same contour. *)
Record sameObservations m m' : Prop := {
  so_sigma : forall d, nextSigma m' d = nextSigma m d;
  so_sigmaInv : forall d, prevSigma m' d = prevSigma m d;
  so_node : forall l, nodeP m' l = nodeP m l;
  so_edge : forall l, edgeP m' l = edgeP m l;
  so_counts : nodeCount m' = nodeCount m /\ edgeCount m' = edgeCount m /\ faceCount m' = faceCount m;
  so_sorted : sorted m' = sorted m;
  so_face : forall l, match faceP m l, faceP m' l with
     | Ok (Some f), Ok (Some f') => fflags f' = fflags f /\ Forall2 (sameContour m) (fanchors f) (fanchors f') /\
          (forall v, (exists m1, faceArea m' l = Ok (m1, v)) <-> (exists m1, faceArea m l = Ok (m1, v)))
     | Ok None, Ok None => True
     | Exn, Exn => True
     | _, _ => False
     end }.

(** hooks that refuse everything *)
Definition refusing (hk : hooks) : Prop :=
  (forall m l, hkNode hk m l = false) /\ (forall m d, hkMergeEdges hk m d = false) /\
  (forall m d, hkBridge hk m d = false) /\ (forall m d, hkMergeFaces hk m d = false).
Definition accepting (hk : hooks) : Prop :=
  (forall m l, hkNode hk m l = true) /\ (forall m d, hkMergeEdges hk m d = true) /\
  (forall m d, hkBridge hk m d = true) /\ (forall m d, hkMergeFaces hk m d = true).
