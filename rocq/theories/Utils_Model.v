(** Model of src/geomap/cppmap_utils.{hxx,cxx}: EdgeProtection and the bulk operations built on the Euler operations.
    Cell pointers are shared pointers (cppmap.hxx 54-57); with USE_INSECURE_CELL_PTRS mergeFacesCompletely would read a node it
    has just deleted. *)
From Verif Require Import Base GeoMap_Model.
Local Open Scope Z_scope.

(** cppmap.hxx 536-540 *)
Definition BORDER_PROTECTION : N := 1.
Definition ALL_PROTECTION : N := 255.
Definition REMOVE_BRIDGE : N := 2147483648.
(** cppmap_utils.cxx 118 *)
Definition UNREMOVABLE_BRIDGE : N := 524288.
(** flag(which) used as a condition *)
Definition hasFlag (e : edge) (which : N) : bool := negb (N.eqb (edgeFlag e which) 0).

(** ** EdgeProtection *)

(** cppmap_utils.hxx 82-85; the edge exists when the hook is called *)
Definition preRemoveEdge m (d : Z) : bool :=
  match edgeP m (elab d) with Ok (Some e) => negb (hasFlag e ALL_PROTECTION) | _ => false end.
(** cppmap_utils.hxx 88-92 *)
Definition preMergeEdges m (d : Z) : bool :=
  match edgeP m (elab d), (s <- getS m d ;; edgeP m (elab s)) with
  | Ok (Some e), Ok (Some e') => N.eqb (eflags e) (eflags e')
  | _, _ => false
  end.
(** cppmap_utils.hxx 57-70: attachHooks connects the two to a map whose other slots answer like [hk]; all slots have to agree *)
Definition protect (hk : hooks) : hooks :=
  {| hkNode := hkNode hk;
     hkMergeEdges := fun m d => hkMergeEdges hk m d && preMergeEdges m d;
     hkBridge := fun m d => hkBridge hk m d && preRemoveEdge m d;
     hkMergeFaces := fun m d => hkMergeFaces hk m d && preRemoveEdge m d |}.

(** ** mergeFacesCompletely (cppmap_utils.cxx 31-85) *)

(** cppmap_utils.cxx 39-51: the common darts, or [None] when one of them is protected *)
Fixpoint collectCommon (n : nat) m (d0 d : Z) (right : option nat) (acc : list Z) : res (option (list Z)) :=
  match n with
  | O => NoFuel
  | S k =>
      e <- gEdge m d ;;
      let common := optnat_eqb (e_lf e (- d)) right in
      if common && hasFlag e ALL_PROTECTION then Ok None else
      let acc := if common then acc ++ [d] else acc in
      d' <- nextPhi m d ;;
      if d' =? d0 then Ok (Some acc) else collectCommon k m d0 d' right acc
  end.

(** cppmap_utils.cxx 53-66: the map, the survivor and affectedNodes *)
Fixpoint mergeCommon hk m (ds : list Z) (surv : option nat) (ns : list nat) : res (gmap * option nat * list nat) :=
  match ds with
  | [] => Ok (m, surv, ns)
  | d :: t =>
      s <- startLabel m d ;;
      e <- endLabel m d ;;
      let ns := ns ++ [s; e] in
      match surv with
      | None => r <- mergeFaces hk m d ;; mergeCommon hk (fst r) t (snd r) ns
      | Some f => r <- removeBridge hk m d ;; mergeCommon hk (fst r) t (Some f) ns
      end
  end.

(** Node::anchor() (cppmap.hxx 1341-1346) of an existing node *)
Definition nodeAnchor (nd : node) : res Z := if nanchor nd =? 0 then Exn else Ok (nanchor nd).

(** cppmap_utils.cxx 68-82.  A node that has been removed keeps anchor_ = 0, so that hasDegree(2) is false for it. *)
Fixpoint tidyNodes hk (merge2 : bool) m (ns : list nat) : res gmap :=
  match ns with
  | [] => Ok m
  | n :: t =>
      o <- nodeP m n ;;
      match o with
      | None => tidyNodes hk merge2 m t
      | Some nd =>
          m <- (if nanchor nd =? 0 then r <- removeIsolatedNode hk m n ;; Ok (fst r) else Ok m) ;;
          two <- (if merge2 then hasDegree m nd 2 else Ok false) ;;
          m <- (if (two : bool) then
                  d <- nodeAnchor nd ;;
                  e <- endLabel m d ;;
                  if Nat.eqb e n then Ok m else r <- mergeEdges hk m d ;; Ok (fst r)
                else Ok m) ;;
          tidyNodes hk merge2 m t
      end
  end.

(** cppmap_utils.cxx 31-85 *)
Definition mergeFacesCompletely hk (merge2 : bool) m (d : Z) : res (gmap * option nat) :=
  e <- deref (edgeP m (elab d)) ;;
  if isBridge e then Exn else
  right <- rightLabel m d ;;
  o <- collectCommon (fuel m) m d d right [] ;;
  match o with
  | None => Ok (m, None)
  | Some ds =>
      r <- mergeCommon hk m ds None [] ;;
      let '(m, surv, ns) := r in
      m <- tidyNodes hk merge2 m ns ;;
      Ok (m, surv)
  end.

(** ** Bulk operations *)

(** cppmap_utils.cxx 89-96, the labels visited by the node iterator *)
Fixpoint isolatedLoop hk m (ns : list nat) (result : nat) : res (gmap * nat) :=
  match ns with
  | [] => Ok (m, result)
  | n :: t =>
      o <- nodeP m n ;;
      match o with
      | None => isolatedLoop hk m t result
      | Some nd =>
          if nanchor nd =? 0 then r <- removeIsolatedNode hk m n ;; isolatedLoop hk (fst r) t (if snd r then S result else result)
          else isolatedLoop hk m t result
      end
  end.
Definition removeIsolatedNodes hk m : res (gmap * nat) := isolatedLoop hk m (seq 0 (length (nodes m))) 0.

(** cppmap_utils.cxx 98-110 *)
Fixpoint degree2Loop hk m (ns : list nat) (result : nat) : res (gmap * nat) :=
  match ns with
  | [] => Ok (m, result)
  | n :: t =>
      o <- nodeP m n ;;
      match o with
      | None => degree2Loop hk m t result
      | Some nd =>
          two <- hasDegree m nd 2 ;;
          if (two : bool) then
            d <- nodeAnchor nd ;;
            e <- deref (edgeP m (elab d)) ;;
            if Nat.eqb (estart e) (eend e) then degree2Loop hk m t result
            else r <- mergeEdges hk m d ;; degree2Loop hk (fst r) t (match snd r with Some _ => S result | None => result end)
          else degree2Loop hk m t result
      end
  end.
Definition mergeDegree2Nodes hk m : res (gmap * nat) := degree2Loop hk m (seq 0 (length (nodes m))) 0.

(** ** removeBridges (cppmap_utils.cxx 112-196) *)

(** cppmap_utils.cxx 137-154: the chain of bridges removed from a node of degree 1 on *)
Fixpoint chain (n : nat) hk m (d : Z) (result : nat) : res (gmap * nat) :=
  match n with
  | O => NoFuel
  | S k =>
      next <- nextPhi m d ;;
      r <- removeBridge hk m d ;;
      s <- (match snd r with
            | Some _ => Ok (fst r, S result)
            | None => m' <- setFlag (fst r) (elab d) UNREMOVABLE_BRIDGE true ;; Ok (m', result)
            end) ;;
      if Nat.eqb (elab next) (elab d) then Ok s else
      sn <- getS (fst s) next ;;
      if negb (sn =? next) then Ok s else
      e <- deref (edgeP (fst s) (elab next)) ;;
      if hasFlag e REMOVE_BRIDGE then chain k hk (fst s) next (snd s) else Ok s
  end.
(** bound of the loop, reached by no call: C40_removeBridges *)
Definition chainFuel m : nat := S (length (edges m)).

(** cppmap_utils.cxx 125-155: the map, degree1Found and the number of edges removed *)
Fixpoint scan hk m (bs : list nat) (found : bool) (result : nat) : res (gmap * bool * nat) :=
  match bs with
  | [] => Ok (m, found, result)
  | b :: t =>
      let d := Z.of_nat b in
      o <- edgeP m b ;;
      match o with
      | None => scan hk m t found result
      | Some _ =>
          s1 <- getS m (- d) ;;
          s0 <- getS m d ;;
          if s1 =? - d then r <- chain (chainFuel m) hk m (- d) result ;; scan hk (fst r) t true (snd r)
          else if s0 =? d then r <- chain (chainFuel m) hk m d result ;; scan hk (fst r) t true (snd r)
          else scan hk m t found result
      end
  end.

(** cppmap_utils.cxx 157-171: the map and the labels kept.  The list is not empty when this is reached. *)
Fixpoint cleanup m (bs : list nat) : res (gmap * list nat) :=
  match bs with
  | [] => Ok (m, [])
  | b :: t =>
      o <- edgeP m b ;;
      match o with
      | None => cleanup m t
      | Some e =>
          if hasFlag e UNREMOVABLE_BRIDGE then m <- setFlag m b UNREMOVABLE_BRIDGE false ;; cleanup m t
          else r <- cleanup m t ;; Ok (fst r, b :: snd r)
      end
  end.

(** cppmap_utils.cxx 112-182; front() of an empty list is undefined *)
Fixpoint bridgesLoop (n : nat) hk m (bs : list nat) (result : nat) : res (gmap * nat) :=
  match bs with
  | [] => Ok (m, result)
  | _ =>
      match n with
      | O => NoFuel
      | S k =>
          r <- scan hk m bs false result ;;
          let '(m, found, result) := r in
          c <- cleanup m bs ;;
          let (m, bs) := (c : gmap * list nat) in
          if (found : bool) then bridgesLoop k hk m bs result else
          match bs with
          | [] => UB
          | b :: t =>
              r <- removeBridge hk m (Z.of_nat b) ;;
              bridgesLoop k hk (fst r) t (match snd r with Some _ => S result | None => result end)
          end
      end
  end.
Definition removeBridges hk m (bs : list nat) : res (gmap * nat) := bridgesLoop (S (length bs)) hk m bs 0.

(** cppmap_utils.cxx 186-193: the bridges found, marked *)
Fixpoint markBridges m (ls : list nat) : res (gmap * list nat) :=
  match ls with
  | [] => Ok (m, [])
  | l :: t =>
      o <- edgeP m l ;;
      match o with
      | None => markBridges m t
      | Some e =>
          if isBridge e then
            m <- setFlag m l REMOVE_BRIDGE true ;; r <- markBridges m t ;; Ok (fst r, l :: snd r)
          else markBridges m t
      end
  end.
(** cppmap_utils.cxx 184-196 *)
Definition removeAllBridges hk m : res (gmap * nat) :=
  r <- markBridges m (seq 0 (length (edges m))) ;; removeBridges hk (fst r) (snd r).

(** ** removeEdges (cppmap_utils.hxx 113-142) *)

(** cppmap_utils.hxx 122-136: the map, the bridges and the number of merges *)
Fixpoint mergeListed hk m (ls : list nat) (result : nat) : res (gmap * list nat * nat) :=
  match ls with
  | [] => Ok (m, [], result)
  | l :: t =>
      e <- require (edgeP m l) ;;
      if isBridge e then
        m <- setFlag m l REMOVE_BRIDGE true ;;
        r <- mergeListed hk m t result ;;
        let '(m, bs, result) := r in Ok (m, l :: bs, result)
      else
        r <- mergeFaces hk m (Z.of_nat l) ;;
        mergeListed hk (fst r) t (match snd r with Some _ => S result | None => result end)
  end.
(** cppmap_utils.hxx 113-142 *)
Definition removeEdges hk m (ls : list nat) : res (gmap * nat) :=
  r <- mergeListed hk m ls 0 ;;
  let '(m, bs, n1) := r in
  r <- removeBridges hk m bs ;; let (m, n2) := (r : gmap * nat) in
  r <- removeIsolatedNodes hk m ;; let (m, n3) := (r : gmap * nat) in
  r <- mergeDegree2Nodes hk m ;; let (m, n4) := (r : gmap * nat) in
  Ok (m, n1 + n2 + n3 + n4)%nat.
