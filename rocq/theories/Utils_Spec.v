(** Vocabulary of the properties of EdgeProtection and the bulk operations. *)
From Verif Require Import Base GeoMap_Model GeoMap_Spec Utils_Model.
Local Open Scope Z_scope.

(** edge(l) returns null *)
Definition noEdge m l : Prop := edgeP m l = Ok None.
Definition noNode m n : Prop := nodeP m n = Ok None.
Definition noFace m l : Prop := faceP m l = Ok None.

(** an existing edge with the same face on both sides *)
Definition bridgeAt m l : Prop := exists e, isEdge m l e /\ elf e = erf e.
(** an existing edge carrying a bit of [which] *)
Definition flagAt m l (which : N) : Prop := exists e, isEdge m l e /\ N.land (eflags e) which <> 0%N.

(** everything about the edge except its flags *)
Definition sameButFlags (e e' : edge) : Prop :=
  estart e' = estart e /\ eend e' = eend e /\ elf e' = elf e /\ erf e' = erf e /\ epts e' = epts e.
(** flags agree in all bits outside [mask] *)
Definition flagsOutside (mask : N) (e e' : edge) : Prop := N.ldiff (eflags e') mask = N.ldiff (eflags e) mask.

(** calls that go through the hooks of EdgeProtection, on a map with faces *)
Definition eulerOp (o : op) : Prop :=
  match o with OMergeFaces _ | ORemoveBridge _ | OMergeEdges _ | ORemoveEdge _ | ORemoveIsolatedNode _ | OFaceArea _ => True | _ => False end.
(** as above, or setFlag() of flags that do not protect *)
Definition eulerOrMark (o : op) : Prop := match o with OSetFlag _ which _ => N.land which ALL_PROTECTION = 0%N | _ => eulerOp o end.
(** states reached from [m] by calls of the kind [P] while the protection is attached, whatever the other slots answer *)
Inductive guarded (P : op -> Prop) m : gmap -> Prop :=
| gd_refl : guarded P m m
| gd_call m1 hk o m2 : guarded P m m1 -> P o -> allowed m1 (Call (protect hk) o) -> run_op (protect hk) m1 o = Ok m2 -> guarded P m m2.

(** points on edges with exactly the flags [F] *)
Definition pointWith m (F : N) (p : point) : Prop := exists l e, isEdge m l e /\ eflags e = F /\ In p (epts e).
(** points on edges with exactly the protection flags [F] *)
Definition pointProtected m (F : N) (p : point) : Prop := exists l e, isEdge m l e /\ N.land (eflags e) ALL_PROTECTION = F /\ In p (epts e).
(** the chain of points [ps] is contained in [qs], in one direction or the other *)
Definition inside (ps qs : list point) : Prop := exists a b, qs = a ++ ps ++ b \/ qs = a ++ rev ps ++ b.

(** darts on the contour of [d] with the same face on the right as [d] *)
Definition commonDart m d x : Prop := sameContour m d x /\ rightLabel m x = rightLabel m d.

(** an existing node without edges (Node::isIsolated, cppmap.hxx 494-497) *)
Definition isolatedAt m n : Prop := exists nd, isNode m n nd /\ nanchor nd = 0.
(** a node in which exactly two different edges meet *)
Definition deg2At m n : Prop := exists d d', isDart m d /\ startLabel m d = Ok n /\ nextSigma m d = Ok d' /\ nextSigma m d' = Ok d /\ elab d <> elab d'.
(** an edge of the common boundary *)
Definition commonEdge m d l : Prop := exists x, commonDart m d x /\ elab x = l.
(** everything about the edge except the faces *)
Definition sameButFaces (e e' : edge) : Prop := estart e' = estart e /\ eend e' = eend e /\ epts e' = epts e /\ eflags e' = eflags e.
(** chains of points of the edges for which [P] holds are contained in edges of [m'], and no points are added *)
Definition pointsKept m (P : nat -> Prop) m' : Prop :=
  (forall l e, isEdge m l e -> P l -> exists l' e', isEdge m' l' e' /\ inside (epts e) (epts e')) /\
  (forall l' e' p, isEdge m' l' e' -> In p (epts e') -> exists l e, isEdge m l e /\ In p (epts e)).
