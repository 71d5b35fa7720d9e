(** Model of the GeoMap core (src/geomap/cppmap.hxx, src/geomap/cppmap.cxx).

    File names below are relative to /repo/src/geomap.

    Simplifications (also listed in DESIGN.md):
    - coordinates are integers (a scaled exact grid), [partialArea] is modelled as
      twice the area so that no division is needed; no floating point rounding;
    - the length / area / bounding box caches inside a polygon are the subject of
      Polygon_Model.v and are not repeated here: [area2] is a function of the
      points;
    - sigma tables are functions with a half size [cap]; an access outside
      [-cap, cap] is [UB].  SigmaArray.v relates this to the vectors;
    - hooks are arbitrary functions of the current map and the argument; they can
      veto but not modify the map;
    - label image, node position index and scanlines are modelled separately
      (LabelImage_*.v, Map2D_*.v, Scanlines_*.v);
    - UNINITIALIZED_CELL_LABEL is [None]; unsigned counters are integers. *)
From Coq Require Import QArith.
From Verif Require Import Base.
Local Open Scope Z_scope.

Definition point := (Z * Z)%type.

(** cppmap.hxx 440-519 (Node: position_, anchor_) *)
Record node := mkNode { npos : point; nanchor : Z }.

(** cppmap.hxx 530-585 (Edge: end nodes, left/right face, flags, points) *)
Record edge := mkEdge {
  estart : nat; eend : nat; elf : option nat; erf : option nat;
  epts : list point; eflags : N }.

(** cppmap.hxx 1069-1122 (Face: anchors_, cached area_ with AREA_VALID, user flags) *)
Record face := mkFace { fanchors : list Z; farea : option Z; fflags : N }.

(** cppmap.hxx 183-210 *)
Record gmap := mkMap {
  sg : Z -> Z; sgi : Z -> Z; cap : Z;
  nodes : list (option node); edges : list (option edge); faces : list (option face);
  nodeCount : Z; edgeCount : Z; faceCount : Z;
  sorted : bool }.

Definition set_sg m v := mkMap v (sgi m) (cap m) (nodes m) (edges m) (faces m)
                               (nodeCount m) (edgeCount m) (faceCount m) (sorted m).
Definition set_sgi m v := mkMap (sg m) v (cap m) (nodes m) (edges m) (faces m)
                               (nodeCount m) (edgeCount m) (faceCount m) (sorted m).
Definition set_cap m v := mkMap (sg m) (sgi m) v (nodes m) (edges m) (faces m)
                               (nodeCount m) (edgeCount m) (faceCount m) (sorted m).
Definition set_nodes m v := mkMap (sg m) (sgi m) (cap m) v (edges m) (faces m)
                               (nodeCount m) (edgeCount m) (faceCount m) (sorted m).
Definition set_edges m v := mkMap (sg m) (sgi m) (cap m) (nodes m) v (faces m)
                               (nodeCount m) (edgeCount m) (faceCount m) (sorted m).
Definition set_faces m v := mkMap (sg m) (sgi m) (cap m) (nodes m) (edges m) v
                               (nodeCount m) (edgeCount m) (faceCount m) (sorted m).
Definition set_nodeCount m v := mkMap (sg m) (sgi m) (cap m) (nodes m) (edges m) (faces m)
                               v (edgeCount m) (faceCount m) (sorted m).
Definition set_edgeCount m v := mkMap (sg m) (sgi m) (cap m) (nodes m) (edges m) (faces m)
                               (nodeCount m) v (faceCount m) (sorted m).
Definition set_faceCount m v := mkMap (sg m) (sgi m) (cap m) (nodes m) (edges m) (faces m)
                               (nodeCount m) (edgeCount m) v (sorted m).
Definition set_sorted m v := mkMap (sg m) (sgi m) (cap m) (nodes m) (edges m) (faces m)
                               (nodeCount m) (edgeCount m) (faceCount m) v.

(** cppmap.cxx 230-243: the empty map (edge label 0 is a null entry) *)
Definition empty_map : gmap :=
  mkMap (fun _ => 0) (fun _ => 0) 50 [] [None] [] 0 0 0 false.

Definition updZ (f : Z -> Z) (d v : Z) : Z -> Z := fun x => if x =? d then v else f x.

(** access to sigmaMapping_[d] / sigmaInverseMapping_[d] (cppmap.hxx 940-950) *)
Definition inCap m d : bool := Z.abs d <=? cap m.
Definition getS m d : res Z := if inCap m d then Ok (sg m d) else UB.
Definition getSi m d : res Z := if inCap m d then Ok (sgi m d) else UB.
Definition putS m d v : res gmap := if inCap m d then Ok (set_sg m (updZ (sg m) d v)) else UB.
Definition putSi m d v : res gmap := if inCap m d then Ok (set_sgi m (updZ (sgi m) d v)) else UB.

(** cppmap.hxx 819-822 *)
Definition elab (d : Z) : nat := Z.abs_nat d.

(** cppmap.hxx 222-226, 241-245, 262-266: node(), edge(), face(); the label is
    checked by a vigra_precondition, the entry may be null *)
Definition nodeP m l : res (option node) :=
  match nth_error (nodes m) l with Some o => Ok o | None => Exn end.
Definition edgeP m l : res (option edge) :=
  match nth_error (edges m) l with Some o => Ok o | None => Exn end.
Definition faceP m l : res (option face) :=
  match nth_error (faces m) l with Some o => Ok o | None => Exn end.

(** dereferencing the pointer: null is undefined behaviour *)
Definition deref {A} (r : res (option A)) : res A :=
  o <- r ;; match o with Some a => Ok a | None => UB end.
(** vigra_precondition(static_cast<bool>(ptr), ...) *)
Definition require {A} (r : res (option A)) : res A :=
  o <- r ;; match o with Some a => Ok a | None => Exn end.

(** cppmap.hxx 873-884 *)
Definition gEdge m d : res edge := require (edgeP m (elab d)).

(** cppmap.hxx 824-838 *)
Definition e_st (e : edge) (d : Z) : nat := if 0 <? d then estart e else eend e.
Definition e_lf (e : edge) (d : Z) : option nat := if 0 <? d then elf e else erf e.
Definition startLabel m d : res nat := e <- gEdge m d ;; Ok (e_st e d).
Definition endLabel m d : res nat := e <- gEdge m d ;; Ok (e_st e (- d)).

(** cppmap.hxx 852-866 *)
Definition leftLabel m d : res (option nat) := e <- gEdge m d ;; Ok (e_lf e d).
Definition rightLabel m d : res (option nat) := e <- gEdge m d ;; Ok (e_lf e (- d)).

(** face(label) for a label that may be UNINITIALIZED_CELL_LABEL *)
Definition faceO m (o : option nat) : res (option face) :=
  match o with Some l => faceP m l | None => Exn end.

(** cppmap.hxx 644-647 *)
Definition optnat_eqb (a b : option nat) : bool :=
  match a, b with
  | Some x, Some y => Nat.eqb x y
  | None, None => true
  | _, _ => false
  end.
Definition isBridge (e : edge) : bool := optnat_eqb (elf e) (erf e).

(** cppmap.hxx 952-960 *)
Definition nextPhi m d : res Z := getSi m (- d).
Definition prevPhi m d : res Z := s <- getS m d ;; Ok (- s).

(** polygon.hxx 732-740 (twice the value) *)
Definition cross (p q : point) : Z := fst q * snd p - snd q * fst p.
Fixpoint area2 (l : list point) : Z :=
  match l with
  | p :: ((q :: _) as t) => cross p q + area2 t
  | _ => 0
  end.
(** cppmap.hxx 906-912 *)
Definition dartArea (e : edge) (d : Z) : Z := if 0 <? d then area2 (epts e) else - area2 (epts e).

(** bound on the number of darts of any orbit: both darts of every edge slot *)
Definition fuel m : nat := S (2 * length (edges m)).

(** cppmap.cxx 69-80 *)
Fixpoint contourAreaLoop (n : nat) m (d0 d acc : Z) : res Z :=
  match n with
  | O => NoFuel
  | S k =>
      e <- gEdge m d ;;
      let acc' := if isBridge e then acc else acc + dartArea e d in
      d' <- nextPhi m d ;;
      if d' =? d0 then Ok acc' else contourAreaLoop k m d0 d' acc'
  end.
Definition contourArea m d : res Z := contourAreaLoop (fuel m) m d d 0.

Fixpoint sumAreas m (l : list Z) : res Z :=
  match l with
  | [] => Ok 0
  | a :: t => x <- contourArea m a ;; y <- sumAreas m t ;; Ok (x + y)
  end.

(** writing a table entry *)
Definition putN m l o : gmap := set_nodes m (list_upd (nodes m) l o).
Definition putE m l o : gmap := set_edges m (list_upd (edges m) l o).
Definition putF m l o : gmap := set_faces m (list_upd (faces m) l o).

(** cppmap.hxx 1194-1207: Face::area() computes once and caches *)
Definition faceArea m (l : nat) : res (gmap * Z) :=
  f <- deref (faceP m l) ;;
  match farea f with
  | Some a => Ok (m, a)
  | None =>
      a <- sumAreas m (fanchors f) ;;
      Ok (putF m l (Some (mkFace (fanchors f) (Some a) (fflags f))), a)
  end.

Definition set_anchor (n : node) a := mkNode (npos n) a.

(** cppmap.cxx 1292-1309 *)
Definition detachDart m d : res gmap :=
  nl <- startLabel m d ;;
  nd <- deref (nodeP m nl) ;;
  succ <- getS m d ;;
  pred <- getSi m d ;;
  m <- putS m pred succ ;;
  m <- putSi m succ pred ;;
  if nanchor nd =? d
  then Ok (putN m nl (Some (set_anchor nd (if succ =? d then 0 else succ))))
  else Ok m.

(** hooks: cppmap.hxx 387-431 (answers of the veto-able signals) *)
Record hooks := {
  hkNode : gmap -> nat -> bool;
  hkMergeEdges : gmap -> Z -> bool;
  hkBridge : gmap -> Z -> bool;
  hkMergeFaces : gmap -> Z -> bool }.

(** cppmap.hxx 1314-1339: uninitialize() *)
Definition uninitNode m l : gmap := set_nodeCount (putN m l None) (nodeCount m - 1).
Definition uninitEdge m l : gmap := set_edgeCount (putE m l None) (edgeCount m - 1).
Definition uninitFace m l : gmap := set_faceCount (putF m l None) (faceCount m - 1).

(** cppmap.cxx 1664-1671.  The node is passed by reference; a null node cannot
    be passed, an uninitialised one would be dereferenced ([UB]). *)
Definition removeIsolatedNode (hk : hooks) m l : res (gmap * bool) :=
  _ <- deref (nodeP m l) ;;
  if hkNode hk m l then Ok (uninitNode m l, true) else Ok (m, false).

(** cppmap.cxx 2223-2240: index of the anchor whose contour contains [d] *)
Fixpoint findEq (l : list Z) (d : Z) (i : nat) : option nat :=
  match l with
  | [] => None
  | a :: t => if a =? d then Some i else findEq t d (S i)
  end.
Fixpoint orbitHas (n : nat) m (a d cur : Z) : res bool :=
  match n with
  | O => NoFuel
  | S k =>
      c <- nextPhi m cur ;;
      if c =? a then Ok false else if c =? d then Ok true else orbitHas k m a d c
  end.
Fixpoint findOrbit m (l : list Z) (d : Z) (i : nat) : res nat :=
  match l with
  | [] => Exn
  | a :: t => b <- orbitHas (fuel m) m a d a ;;
              if (b : bool) then Ok i else findOrbit m t d (S i)
  end.
Definition findComponentAnchor m (l : list Z) (d : Z) : res nat :=
  match findEq l d 0 with
  | Some i => Ok i
  | None => findOrbit m l d 0
  end.

Definition remove_nth {A} (l : list A) (i : nat) : list A := firstn i l ++ skipn (S i) l.

Definition set_anchors (f : face) a := mkFace a (farea f) (fflags f).

(** cppmap.cxx 1960-2034 (without label image and pixel lists) *)
Definition removeBridge (hk : hooks) m (d : Z) : res (gmap * option nat) :=
  _ <- require (edgeP m (elab d)) ;;
  ll <- leftLabel m d ;;
  f <- deref (faceO m ll) ;;
  rl <- rightLabel m d ;;
  _ <- deref (faceO m rl) ;;
  if negb (optnat_eqb ll rl) then Exn else
  match ll with
  | None => UB
  | Some fl =>
  n1 <- startLabel m d ;; _ <- deref (nodeP m n1) ;;
  n2 <- endLabel m d ;; _ <- deref (nodeP m n2) ;;
  if Nat.eqb n1 n2 then Exn else
  if negb (hkBridge hk m d) then Ok (m, None) else
  a1 <- getSi m d ;;
  a2 <- getSi m (- d) ;;
  pos <- findComponentAnchor m (fanchors f) d ;;
  m <- detachDart m d ;;
  m <- detachDart m (- d) ;;
  m <- (if Nat.eqb (elab a1) (elab d) then
          s1 <- startLabel m a1 ;;
          r <- removeIsolatedNode hk m s1 ;;
          let m := fst r in
          if Nat.eqb (elab a2) (elab d) then
            s2 <- startLabel m a2 ;;
            r <- removeIsolatedNode hk m s2 ;;
            let m := fst r in
            Ok (putF m fl (Some (set_anchors f (remove_nth (fanchors f) pos))))
          else Ok (putF m fl (Some (set_anchors f (list_upd (fanchors f) pos a2))))
        else if Nat.eqb (elab a2) (elab d) then
          s2 <- startLabel m a2 ;;
          r <- removeIsolatedNode hk m s2 ;;
          let m := fst r in
          Ok (putF m fl (Some (set_anchors f (list_upd (fanchors f) pos a1))))
        else
          swap <- (if (Nat.eqb pos 0 && negb (Nat.eqb fl 0))%bool then
                     c1 <- contourArea m a1 ;; c2 <- contourArea m a2 ;; Ok (c1 <? c2)
                   else Ok false) ;;
          let b1 := if (swap : bool) then a2 else a1 in
          let b2 := if (swap : bool) then a1 else a2 in
          Ok (putF m fl (Some (set_anchors f (list_upd (fanchors f) pos b1 ++ [b2]))))) ;;
  Ok (uninitEdge m (elab d), Some fl)
  end.

(** Dart::internalLeftFaceLabel() = v (cppmap.hxx 787-793) *)
Definition set_lf (e : edge) (d : Z) (v : option nat) : edge :=
  if 0 <? d
  then mkEdge (estart e) (eend e) v (erf e) (epts e) (eflags e)
  else mkEdge (estart e) (eend e) (elf e) v (epts e) (eflags e).

(** cppmap.cxx 2070-2072: while(d.nextPhi().leftFaceLabel() != S) d.left = S *)
Fixpoint relabelLoop (n : nat) m (d : Z) (s : nat) : res gmap :=
  match n with
  | O => NoFuel
  | S k =>
      d' <- nextPhi m d ;;
      e <- gEdge m d' ;;
      if optnat_eqb (e_lf e d') (Some s) then Ok m
      else relabelLoop k (putE m (elab d') (Some (set_lf e d' (Some s)))) d' s
  end.
Fixpoint relabelAll m (l : list Z) (s : nat) : res gmap :=
  match l with
  | [] => Ok m
  | a :: t => m <- relabelLoop (fuel m) m a s ;; relabelAll m t s
  end.

(** cppmap.cxx 2080-2099: the anchor list of the survivor after re-using an
    anchor; [c1], [c2] are the positions found, [e] the label of the removed edge *)
Definition reuseAnchor m (s_anchors m_anchors : list Z) (c1 c2 : nat) (el : nat) : res (list Z) :=
  a1 <- vget s_anchors c1 ;;
  if negb (Nat.eqb (elab a1) el) then Ok s_anchors else
  a1 <- nextPhi m a1 ;;
  if negb (Nat.eqb (elab a1) el) then Ok (list_upd s_anchors c1 a1) else
  a2 <- vget m_anchors c2 ;;
  if negb (Nat.eqb (elab a2) el) then Ok (list_upd s_anchors c1 a2) else
  a2 <- nextPhi m a2 ;;
  if negb (Nat.eqb (elab a2) el) then Ok (list_upd s_anchors c1 a2) else
  Ok (remove_nth s_anchors c1).

(** cppmap.cxx 2043-2046 *)
Definition pickDart m (d : Z) : res (gmap * Z) :=
  ll <- leftLabel m d ;;
  rl <- rightLabel m d ;;
  match ll, rl with
  | Some l, Some r =>
      x <- faceArea m l ;;
      let (m, al) := x in
      x <- faceArea m r ;;
      let (m, ar) := x in
      let d1 := if al <? ar then - d else d in
      let r1 := if al <? ar then l else r in
      Ok (m, if Nat.eqb r1 0 then - d1 else d1)
  | _, _ => Exn
  end.

(** cppmap.cxx 2036-2162 (without label image, pixel counts, bounding boxes) *)
Definition mergeFaces (hk : hooks) m (d0 : Z) : res (gmap * option nat) :=
  _ <- require (edgeP m (elab d0)) ;;
  x <- pickDart m d0 ;;
  let (m, d) := x in
  sl <- leftLabel m d ;;
  _ <- deref (faceO m sl) ;;
  ml <- rightLabel m d ;;
  mf <- deref (faceO m ml) ;;
  n1 <- startLabel m d ;;
  _ <- deref (nodeP m n1) ;;
  match sl, ml with
  | Some s, Some mm =>
  if Nat.eqb s mm then Exn else
  if negb (hkMergeFaces hk m d) then Ok (m, None) else
  m <- relabelAll m (fanchors mf) s ;;
  sf <- deref (faceP m s) ;;
  c1 <- findComponentAnchor m (fanchors sf) d ;;
  c2 <- findComponentAnchor m (fanchors mf) (- d) ;;
  sa <- reuseAnchor m (fanchors sf) (fanchors mf) c1 c2 (elab d) ;;
  let sa := if (1 <? length (fanchors mf))%nat
            then sa ++ firstn c2 (fanchors mf) ++ skipn (S c2) (fanchors mf)
            else sa in
  let m := putF m s (Some (set_anchors sf sa)) in
  m <- detachDart m d ;;
  m <- detachDart m (- d) ;;
  nd <- deref (nodeP m n1) ;;
  m <- (if nanchor nd =? 0 then r <- removeIsolatedNode hk m n1 ;; Ok (fst r) else Ok m) ;;
  m <- (match farea sf with
        | Some a => x <- faceArea m mm ;;
                    let (m, b) := x in
                    Ok (putF m s (Some (mkFace sa (Some (a + b)) (fflags sf))))
        | None => Ok m
        end) ;;
  let m := uninitEdge m (elab d) in
  let m := uninitFace m mm in
  Ok (m, Some s)
  | _, _ => UB
  end.

(** cppmap.cxx 1799-1811: move the anchors of one face off the merged edge *)
Fixpoint moveAnchor m (l : list Z) (el : nat) : res (list Z) :=
  match l with
  | [] => Ok []
  | a :: t => if Nat.eqb (elab a) el then a' <- nextPhi m a ;; Ok (a' :: t)
              else t' <- moveAnchor m t el ;; Ok (a :: t')
  end.

(** cppmap.cxx 147-186: the point list after concatenate() *)
Definition concatPts (p q : list point) (atEnd reverse : bool) : list point :=
  if reverse
  then if atEnd then p ++ skipn 1 (rev q) else firstn (length q - 1) (rev q) ++ p
  else if atEnd then p ++ skipn 1 q else firstn (length q - 1) q ++ p.

(** cppmap.cxx 1769-1871 (without label image).  The debug-only vigra_assert in
    lines 1783-1785 is not modelled. *)
Definition mergeEdges (hk : hooks) m (d : Z) : res (gmap * option nat) :=
  _ <- require (edgeP m (elab d)) ;;
  x2 <- getS m d ;;
  if Nat.eqb (elab x2) (elab d) then Exn else
  x1 <- getS m x2 ;;
  if negb (x1 =? d) then Exn else
  let sw := ((0 <? x1) && (x2 <? 0))%bool in
  let d1 := if sw then x2 else x1 in
  let d2 := if sw then x1 else x2 in
  e1 <- deref (edgeP m (elab d1)) ;;
  mn <- startLabel m d2 ;;
  _ <- deref (nodeP m mn) ;;
  e2 <- deref (edgeP m (elab d2)) ;;
  m <- (if Nat.eqb (length (faces m)) 0 then Ok m else
        match e_lf e2 d2, e_lf e2 (- d2) with
        | Some l, Some r =>
            f <- deref (faceP m l) ;;
            _ <- deref (faceP m r) ;;
            a <- moveAnchor m (fanchors f) (elab d2) ;;
            let m := putF m l (Some (set_anchors f a)) in
            f <- deref (faceP m r) ;;
            a <- moveAnchor m (fanchors f) (elab d2) ;;
            Ok (putF m r (Some (set_anchors f a)))
        | _, _ => Exn
        end) ;;
  if negb (hkMergeEdges hk m d1) then Ok (m, None) else
  if negb (hkNode hk m mn) then Ok (m, None) else
  let en := e_st e2 (- d2) in
  let e1' :=
    if negb (Nat.eqb (estart e1) mn)
    then mkEdge (estart e1) en (elf e1) (erf e1)
           (concatPts (epts e1) (epts e2) true (negb (Nat.eqb (estart e2) mn))) (eflags e1)
    else mkEdge en (eend e1) (elf e1) (erf e1)
           (concatPts (epts e1) (epts e2) false (Nat.eqb (estart e2) mn)) (eflags e1) in
  let m := putE m (elab d1) (Some e1') in
  succ <- getS m (- d2) ;;
  m <- (if succ =? - d2 then
          m <- putS m d1 d1 ;; putSi m d1 d1
        else
          pred <- getSi m (- d2) ;;
          m <- putS m pred d1 ;;
          m <- putS m d1 succ ;;
          m <- putSi m succ d1 ;;
          putSi m d1 pred) ;;
  nd <- deref (nodeP m en) ;;
  let m := putN m en (Some (set_anchor nd d1)) in
  let m := uninitNode m mn in
  let m := uninitEdge m (elab d2) in
  Ok (m, Some (elab d1)).

(** cppmap.cxx 1255-1271: only called with 2*size-1, i.e. the half size doubles *)
Definition resizeSigma m : gmap :=
  mkMap (fun d => if inCap m d then sg m d else 0) (fun d => if inCap m d then sgi m d else 0)
        (2 * cap m) (nodes m) (edges m) (faces m)
        (nodeCount m) (edgeCount m) (faceCount m) (sorted m).

(** cppmap.cxx 1273-1290 *)
Fixpoint growSigma (n : nat) m (d : Z) : res gmap :=
  if inCap m d then Ok m
  else match n with O => NoFuel | S k => growSigma k (resizeSigma m) d end.

Definition insertSigmaPredecessor m (succ new : Z) : res gmap :=
  m <- growSigma (Z.abs_nat new) m new ;;
  if succ =? 0 then
    m <- putS m new new ;; putSi m new new
  else
    old <- getSi m succ ;;
    m <- putS m old new ;;
    m <- putS m new succ ;;
    m <- putSi m succ new ;;
    putSi m new old.

(** cppmap.hxx 453-462, cppmap.cxx 355-360 *)
Definition addNode m (p : point) : gmap * nat :=
  (set_nodeCount (set_nodes m (nodes m ++ [Some (mkNode p 0)])) (nodeCount m + 1),
   length (nodes m)).

(** cppmap.cxx 362-369: a label not larger than the table is ignored *)
Definition addNodeL m (p : point) (l : nat) : gmap * nat :=
  addNode (set_nodes m (nodes m ++ repeat None (l - length (nodes m)))) p.

(** cppmap.hxx 1408-1459 *)
Inductive sigmaAnchor := SAnode (l : nat) | SAdart (d : Z).
Record resolvedSA := { sa_sing : bool; sa_dart : Z; sa_node : nat }.
Definition resolveSA m (a : sigmaAnchor) : res resolvedSA :=
  match a with
  | SAnode l => nd <- deref (nodeP m l) ;;
                let sing := nanchor nd =? 0 in
                if negb sing && sorted m then Exn
                else Ok {| sa_sing := sing; sa_dart := nanchor nd; sa_node := l |}
  | SAdart d => n <- startLabel m d ;;
                Ok {| sa_sing := false; sa_dart := d; sa_node := n |}
  end.
Definition eqSA (a b : resolvedSA) : bool :=
  if Bool.eqb (sa_sing a) (sa_sing b)
  then if sa_sing a then Nat.eqb (sa_node a) (sa_node b) else sa_dart a =? sa_dart b
  else false.

(** cppmap.hxx 559-572: Edge constructor; the new label is returned *)
Definition newEdge m (sn en : nat) (lf rf : option nat) (pts : list point) (fl : N) : gmap * nat :=
  (set_edgeCount (set_edges m (edges m ++ [Some (mkEdge sn en lf rf pts fl)])) (edgeCount m + 1),
   length (edges m)).

Definition setNodeAnchor m l a : res gmap :=
  nd <- deref (nodeP m l) ;; Ok (putN m l (Some (set_anchor nd a))).

(** cppmap.cxx 371-405 *)
Definition addEdge m (sa ea : sigmaAnchor) (pts : list point) (label : nat) : res (gmap * nat) :=
  s <- resolveSA m sa ;;
  e <- resolveSA m ea ;;
  if negb (Nat.eqb (length (faces m)) 0) then Exn else
  let m := set_edges m (edges m ++ repeat None (label - length (edges m))) in
  let (m, l) := newEdge m (sa_node s) (sa_node e) None None pts 0 in
  let d := Z.of_nat l in
  m <- (if sa_sing s then
          nd <- deref (nodeP m (sa_node s)) ;;
          m <- insertSigmaPredecessor m (nanchor nd) d ;;
          setNodeAnchor m (sa_node s) d
        else insertSigmaPredecessor m (sa_dart s) d) ;;
  m <- (if (eqSA e s && (area2 pts <? 0))%bool then
          insertSigmaPredecessor m d (- d)
        else if sa_sing e then
          nd <- deref (nodeP m (sa_node e)) ;;
          m <- insertSigmaPredecessor m (nanchor nd) (- d) ;;
          setNodeAnchor m (sa_node e) (- d)
        else insertSigmaPredecessor m (sa_dart e) (- d)) ;;
  Ok (m, l).

(** polygon.hxx 443-471 (BBoxPolygon::split only adds cache handling) *)
Definition splitPts (l : list point) (k : nat) : list point * list point :=
  match k with
  | O => (firstn 1 l, l)
  | _ => (firstn (S k) l, skipn k l)
  end.

Definition insert_at {A} (l : list A) (i : nat) (x : A) : list A := firstn i l ++ x :: skipn i l.

(** cppmap.cxx 1873-1950 (without label image) *)
Definition splitEdge m (l : nat) (k : nat) (newPoint : point) (insertPoint : bool)
  : res (gmap * nat) :=
  e <- deref (edgeP m l) ;;
  if Nat.eqb (length (epts e)) 0 then UB else
  if negb (k <? length (epts e) - 1)%nat then Exn else
  p <- vget (epts e) k ;;
  let (m, nn) := addNode m (if insertPoint then newPoint else p) in
  let cn := eend e in
  _ <- deref (nodeP m cn) ;;
  let k := if insertPoint then S k else k in
  let pts := if insertPoint then insert_at (epts e) k newPoint else epts e in
  let (pa, pb) := splitPts pts k in
  let (m, r) := newEdge m nn cn (elf e) (erf e) pb (eflags e) in
  let dl := Z.of_nat l in
  let dr := Z.of_nat r in
  let m := if inCap m dr then m else resizeSigma m in
  succ <- getS m (- dl) ;;
  pred <- getSi m (- dl) ;;
  m <- putS m (- dl) dr ;;
  m <- putS m dr (- dl) ;;
  m <- putSi m dr (- dl) ;;
  m <- putSi m (- dl) dr ;;
  m <- setNodeAnchor m nn dr ;;
  let m := putE m l (Some (mkEdge (estart e) nn (elf e) (erf e) pa (eflags e))) in
  m <- (if succ =? - dl then
          m <- putS m (- dr) (- dr) ;;
          m <- putSi m (- dr) (- dr) ;;
          setNodeAnchor m cn (- dr)
        else
          m <- putS m pred (- dr) ;;
          m <- putS m (- dr) succ ;;
          m <- putSi m succ (- dr) ;;
          m <- putSi m (- dr) pred ;;
          cnd <- deref (nodeP m cn) ;;
          if nanchor cnd =? - dl then setNodeAnchor m cn (- dr) else Ok m) ;;
  Ok (m, r).

(** cppmap.cxx 407-426 *)
Definition removeEdge (hk : hooks) m (d : Z) : res (gmap * option nat) :=
  if negb (Nat.eqb (length (faces m)) 0) then
    e <- deref (edgeP m (elab d)) ;;
    if isBridge e then removeBridge hk m d else mergeFaces hk m d
  else
    m <- detachDart m d ;;
    m <- detachDart m (- d) ;;
    _ <- deref (edgeP m (elab d)) ;;
    Ok (uninitEdge m (elab d), None).

(** cppmap.cxx 54-67 in exact rational arithmetic *)
Definition angleTheta (dy dx : Z) : Q :=
  match (Z.abs dx + Z.abs dy)%Z with
  | Zpos den =>
      let r := (dy # den)%Q in
      if (dx <? 0)%Z then (if (dy <? 0)%Z then (2 - r - 4)%Q else (2 - r)%Q) else r
  | _ => 0%Q
  end.

(** cppmap.hxx 697-779: the points of a dart in walking order *)
Definition dartPts (e : edge) (d : Z) : list point := if 0 <? d then epts e else rev (epts e).

(** cppmap.cxx 443-454: the darts around a node with their angles *)
Definition dartAngle m d : res Q :=
  e <- gEdge m d ;;
  match dartPts e d with
  | p0 :: p1 :: _ => Ok (angleTheta (- snd p1 + snd p0) (fst p1 - fst p0))
  | _ => Exn
  end.
Fixpoint collectAngles (n : nat) m (a d : Z) : res (list (Q * Z)) :=
  match n with
  | O => NoFuel
  | S k => q <- dartAngle m d ;;
           s <- getS m d ;;
           if s =? a then Ok [(q, d)] else r <- collectAngles k m a s ;; Ok ((q, d) :: r)
  end.

(** std::sort on pair<double, int> (cppmap.cxx 456): the pairs are distinct, so the
    sorted sequence is determined; computed here by insertion *)
Definition pairLe (x y : Q * Z) : bool :=
  match Qcompare (fst x) (fst y) with Lt => true | Gt => false | Eq => snd x <=? snd y end.
Fixpoint insertPair (x : Q * Z) (l : list (Q * Z)) : list (Q * Z) :=
  match l with
  | [] => [x]
  | y :: t => if pairLe x y then x :: l else y :: insertPair x t
  end.
Definition sortPairs (l : list (Q * Z)) : list (Q * Z) := fold_right insertPair [] l.

(** cppmap.cxx 458-474 *)
Fixpoint writeOrder m (first : Z) (q : Q) (pred : Z) (l : list (Q * Z)) : res gmap :=
  match l with
  | [] => m <- putS m pred first ;; putSi m first pred
  | (q', d) :: t =>
      if Qeq_bool q q' then Exn
      else m <- putS m pred d ;; m <- putSi m d pred ;; writeOrder m first q' d t
  end.
Definition sortNode m (l : nat) : res gmap :=
  o <- nodeP m l ;;
  match o with
  | None => Ok m
  | Some nd =>
      if nanchor nd =? 0 then Ok m
      else
        c <- collectAngles (fuel m) m (nanchor nd) (nanchor nd) ;;
        match sortPairs c with
        | [] => UB
        | (q, d) :: t => writeOrder m d q d t
        end
  end.
Fixpoint sortNodes m (ls : list nat) : res gmap :=
  match ls with [] => Ok m | l :: t => m <- sortNode m l ;; sortNodes m t end.

(** cppmap.cxx 428-478 *)
Definition sortEdgesDirectly m : res gmap :=
  if negb (Nat.eqb (length (faces m)) 0) then Exn
  else m <- sortNodes m (seq 0 (length (nodes m))) ;; Ok (set_sorted m true).

(** cppmap.cxx 940-963: [f] is the given mapping with its centre at 0 and [hs] its
    half size; the table is grown so that every edge label has an entry *)
Fixpoint invertSigma m (ls : list nat) : res gmap :=
  match ls with
  | [] => Ok m
  | l :: t =>
      o <- edgeP m l ;;
      match o with
      | None => invertSigma m t
      | Some _ =>
          s <- getS m (Z.of_nat l) ;; m <- putSi m s (Z.of_nat l) ;;
          s <- getS m (- Z.of_nat l) ;; m <- putSi m s (- Z.of_nat l) ;;
          invertSigma m t
      end
  end.
Definition setSigmaMapping m (f : Z -> Z) (hs : Z) (srt : bool) : res gmap :=
  if negb (Nat.eqb (length (faces m)) 0) then Exn
  else if hs <? Z.of_nat (length (edges m)) - 1 then Exn
  else
    let n1 := Z.of_nat (length (edges m)) - 1 in
    let m := set_cap m (Z.max (cap m) n1) in
    let m := set_sg m (fun x => if Z.abs x <=? n1 then f x else sg m x) in
    m <- invertSigma m (seq 0 (length (edges m))) ;;
    Ok (set_sorted m srt).

(** for(; !stop(dart.leftFaceLabel()); dart.nextPhi()) dart.left = l — the loop of
    cppmap.hxx 1112-1119 and cppmap.cxx 2246-2248; returns the dart it stopped at *)
Fixpoint labelWhile (n : nat) (stop : option nat -> bool) m (d : Z) (l : nat) : res (gmap * Z) :=
  match n with
  | O => NoFuel
  | S k =>
      e <- gEdge m d ;;
      if stop (e_lf e d) then Ok (m, d)
      else let m := putE m (elab d) (Some (set_lf e d (Some l))) in
           d' <- nextPhi m d ;; labelWhile k stop m d' l
  end.

(** cppmap.hxx 1100-1122: Face constructor (non-infinite): label the contour *)
Definition claimLoop (n : nat) m (d : Z) (l : nat) : res gmap :=
  r <- labelWhile n (fun o => match o with None => false | Some _ => true end) m d l ;; Ok (fst r).
Definition newFace m (d : Z) : res gmap :=
  let l := length (faces m) in
  let m' := set_faceCount (set_faces m (faces m ++ [Some (mkFace (if Nat.eqb l 0 then [] else [d]) None 0)]))
                          (faceCount m + 1) in
  if Nat.eqb l 0 then Ok m' else claimLoop (fuel m') m' d l.

(** cppmap.cxx 1028-1042 *)
Fixpoint initContoursLoop m (ls : list nat) : res gmap :=
  match ls with
  | [] => Ok m
  | l :: t =>
      o <- edgeP m l ;;
      match o with
      | None => initContoursLoop m t
      | Some e =>
          m <- (match elf e with None => newFace m (Z.of_nat l) | Some _ => Ok m end) ;;
          e <- deref (edgeP m l) ;;
          m <- (match erf e with None => newFace m (- Z.of_nat l) | Some _ => Ok m end) ;;
          initContoursLoop m t
      end
  end.
Definition initContours m : res gmap :=
  m <- newFace m 0 ;; initContoursLoop m (seq 0 (length (edges m))).

(** cppmap.cxx 2242-2259 *)
Definition embedContour m (p : nat) (a : Z) : res gmap :=
  f <- deref (faceP m p) ;;
  let anchors := fanchors f ++ [a] in
  let m := putF m p (Some (set_anchors f anchors)) in
  r <- labelWhile (fuel m) (fun o => optnat_eqb o (Some p)) m a p ;;
  let (m, d) := r in
  m <- (match farea f with
        | Some v => c <- contourArea m d ;; Ok (putF m p (Some (mkFace anchors (Some (v + c)) (fflags f))))
        | None => Ok m
        end) ;;
  if d =? a then Ok m else Exn.

(** cppmap.cxx 1044-1055: AbsAreaCompare on (twice) the areas; [eps] stands for the
    constant 1e-2 in the units of the grid *)
Definition absBefore (eps a1 a2 : Z) : bool :=
  let ad := Z.abs a1 - Z.abs a2 in
  if ((Z.abs ad <? eps) && negb (Bool.eqb (a1 <? 0) (a2 <? 0)))%bool then a1 <? 0 else 0 <? ad.

(** cppmap.cxx 1086-1163 without label image: [cs] are the contours in sorted
    order, [par m a] the parent found by the geometric search (1098-1153), which
    only returns faces present in the map *)
Fixpoint embedLoop (par : gmap -> Z -> nat) m (cs : list (nat * face)) : res gmap :=
  match cs with
  | [] => Ok m
  | (l, f) :: t =>
      a <- vget (fanchors f) 0 ;;
      v <- (match farea f with Some v => Ok v | None => sumAreas m (fanchors f) end) ;;
      if 0 <? v then embedLoop par (putF m l (Some (mkFace (fanchors f) (Some v) (fflags f)))) t
      else
        m <- embedContour m (par m a) a ;;
        embedLoop par (uninitFace m l) t
  end.

(** the areas evaluated by the sort (1080) *)
Fixpoint cacheAreas m (ls : list nat) : res gmap :=
  match ls with
  | [] => Ok m
  | l :: t => r <- faceArea m l ;; cacheAreas (fst r) t
  end.
Fixpoint getFaces m (ls : list nat) : res (list (nat * face)) :=
  match ls with
  | [] => Ok []
  | l :: t => f <- deref (faceP m l) ;; r <- getFaces m t ;; Ok ((l, f) :: r)
  end.

(** cppmap.cxx 1078-1164: [ord] is the order std::sort produced *)
Definition embedFaces (ord : list nat) (par : gmap -> Z -> nat) m : res gmap :=
  m <- cacheAreas m (seq 1 (length (faces m) - 1)) ;;
  cs <- getFaces m ord ;;
  let m := set_faces m (firstn 1 (faces m) ++ repeat None (length (faces m) - 1)) in
  embedLoop par m cs.

(** cppmap.cxx 965-975 *)
Definition initializeMap (ord : list nat) (par : gmap -> Z -> nat) m : res gmap :=
  if negb (Nat.eqb (length (faces m)) 0) then Exn else
  m <- (if sorted m then Ok m else sortEdgesDirectly m) ;;
  m <- initContours m ;;
  embedFaces ord par m.

(** cppmap.hxx 1348-1399: degree queries *)
Fixpoint degreeLoop (n : nat) m (a d : Z) (acc : nat) : res nat :=
  match n with
  | O => NoFuel
  | S k => s <- getS m d ;; if s =? a then Ok (S acc) else degreeLoop k m a s (S acc)
  end.
Definition degree m (nd : node) : res nat :=
  if nanchor nd =? 0 then Ok 0%nat else degreeLoop (fuel m) m (nanchor nd) (nanchor nd) 0.

Fixpoint minDegreeLoop (n : nat) m (a d : Z) (k : nat) : res bool :=
  match n with
  | O => NoFuel
  | S n' => let k := (k - 1)%nat in
            if Nat.eqb k 0 then Ok true
            else s <- getS m d ;; if s =? a then Ok false else minDegreeLoop n' m a s k
  end.
Definition hasMinDegree m (nd : node) (k : nat) : res bool :=
  if nanchor nd =? 0 then Ok (Nat.eqb k 0)
  else if Nat.eqb k 0 then Ok true
  else minDegreeLoop (fuel m) m (nanchor nd) (nanchor nd) k.

Fixpoint hasDegreeLoop (n : nat) m (a d : Z) (k : nat) : res bool :=
  match n with
  | O => NoFuel
  | S n' => s <- getS m d ;;
            if s =? a then Ok (Nat.eqb k 1)
            else let k := (k - 1)%nat in
                 if Nat.eqb k 0 then Ok false else hasDegreeLoop n' m a s k
  end.
Definition hasDegree m (nd : node) (k : nat) : res bool :=
  if nanchor nd =? 0 then Ok (Nat.eqb k 0)
  else if Nat.eqb k 0 then Ok false
  else hasDegreeLoop (fuel m) m (nanchor nd) (nanchor nd) k.

(** cppmap.hxx 664-680: Edge::flags(), flag(), setFlag(); flags are 32-bit words *)
Definition set_flags (e : edge) (v : N) : edge := mkEdge (estart e) (eend e) (elf e) (erf e) (epts e) v.
Definition edgeFlag (e : edge) (which : N) : N := N.land (eflags e) which.
Definition withFlag (e : edge) (flag : N) (onoff : bool) : edge :=
  set_flags e (if onoff then N.lor (eflags e) flag else N.ldiff (eflags e) flag).
(** map.edge(l)->setFlag(flag, onoff): a null pointer is dereferenced if there is no such edge *)
Definition setFlag m (l : nat) (flag : N) (onoff : bool) : res gmap :=
  e <- deref (edgeP m l) ;; Ok (putE m l (Some (withFlag e flag onoff))).

(** cppmap.cxx 2173-2188: edge[0] = p or edge[edge.size()-1] = p, by which end the dart starts.  The polygon's caches are the
    subject of Polygon_Model.v; faces keep their cached area. *)
Definition set_pts (e : edge) (v : list point) : edge := mkEdge (estart e) (eend e) (elf e) (erf e) v (eflags e).
Definition moveEnd m (d : Z) (p : point) : res gmap :=
  e <- deref (edgeP m (elab d)) ;;
  if Nat.eqb (length (epts e)) 0 then UB
  else Ok (putE m (elab d) (Some (set_pts e (list_upd (epts e) (if (0 <? d)%Z then 0 else length (epts e) - 1)%nat p)))).
Fixpoint moveLoop (n : nat) m (a d : Z) (p : point) : res gmap :=
  match n with
  | O => NoFuel
  | S k => m <- moveEnd m d p ;; s <- getS m d ;; if s =? a then Ok m else moveLoop k m a s p
  end.
(** Node::setPosition, cppmap.cxx 2166-2193; nodeMap_ is the subject of Map2D_Model.v *)
Definition setPosition m (l : nat) (p : point) : res gmap :=
  nd <- deref (nodeP m l) ;;
  let m := putN m l (Some (mkNode p (nanchor nd))) in
  if nanchor nd =? 0 then Ok m else moveLoop (fuel m) m (nanchor nd) (nanchor nd) p.

(** The public operations as one step function (the history alphabet).  A vetoed
    or precondition-failing call leaves its outcome to the function itself; an
    exception leaves the map as it was at the throw, which for all operations here
    is before any modification (see the model functions), except the lazily
    computed face areas. *)
Inductive op :=
| OAddNode (p : point)
| OAddNodeL (p : point) (l : nat)
| OAddEdge (s e : sigmaAnchor) (pts : list point) (l : nat)
| ORemoveEdge (d : Z)
| OMergeEdges (d : Z)
| OSplitEdge (l k : nat) (p : point) (ins : bool)
| ORemoveBridge (d : Z)
| OMergeFaces (d : Z)
| ORemoveIsolatedNode (l : nat)
| OFaceArea (l : nat)
| OSetFlag (l : nat) (flag : N) (onoff : bool)
| OSetPosition (l : nat) (p : point)
| OSort
| OSetSigma (f : Z -> Z) (hs : Z) (srt : bool).

Definition run_op (hk : hooks) m (o : op) : res gmap :=
  match o with
  | OAddNode p => Ok (fst (addNode m p))
  | OAddNodeL p l => Ok (fst (addNodeL m p l))
  | OAddEdge s e pts l => r <- addEdge m s e pts l ;; Ok (fst r)
  | ORemoveEdge d => r <- removeEdge hk m d ;; Ok (fst r)
  | OMergeEdges d => r <- mergeEdges hk m d ;; Ok (fst r)
  | OSplitEdge l k p ins => r <- splitEdge m l k p ins ;; Ok (fst r)
  | ORemoveBridge d => r <- removeBridge hk m d ;; Ok (fst r)
  | OMergeFaces d => r <- mergeFaces hk m d ;; Ok (fst r)
  | ORemoveIsolatedNode l => r <- removeIsolatedNode hk m l ;; Ok (fst r)
  | OFaceArea l => r <- faceArea m l ;; Ok (fst r)
  | OSetFlag l flag onoff => setFlag m l flag onoff
  | OSetPosition l p => setPosition m l p
  | OSort => sortEdgesDirectly m
  | OSetSigma f hs srt => setSigmaMapping m f hs srt
  end.
