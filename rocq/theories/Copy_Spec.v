(** Maps as objects, and two maps worked on side by side *)
From Verif Require Import Base GeoMap_Model Scanlines_Model LabelLUT_Model Map2D_Model Map2D_Spec SigmaArray LabelImage_Model LabelImage_Spec Copy_Model.
Local Open Scope Z_scope.

(** nothing lives at an address not handed out yet *)
Definition heapOK (h : heap) : Prop := forall l, (hnext h <= l)%nat -> hat h l = None.

(** [f i v x]: object [x] is cell [i] with contents [v] *)
Definition tableHolds {A} (h : heap) (f : nat -> A -> obj -> Prop) (tab : list (option loc)) (vs : list (option A)) : Prop :=
  length tab = length vs /\
  forall i, match nth_error tab i, nth_error vs i with
            | None, None | Some None, Some None => True
            | Some (Some p), Some (Some v) => exists x, hat h p = Some x /\ f i v x
            | _, _ => False
            end.
(** positions of the live nodes with their labels *)
Fixpoint livePos (i : nat) (vs : list (option node)) : list ((Z * Z) * nat) :=
  match vs with
  | [] => []
  | None :: t => livePos (S i) t
  | Some v :: t => (npos v, i) :: livePos (S i) t
  end.
Definition keysSorted (l : list (entry nat)) : Prop :=
  (forall e, In e l -> ekey e = fst (epos e)) /\
  (forall i j e1 e2, (i < j)%nat -> nth_error l i = Some e1 -> nth_error l j = Some e2 -> ekey e1 <= ekey e2).

(** the objects at [o] make up the map [st]: every cell lies in the table at its label and belongs to the map at [o], like the darts in the
    anchor lists; the iterators point into the middle of the sigma arrays *)
Record represents (h : heap) (o : loc) (st : lmap) : Prop := {
  rp_heap : heapOK h;
  rp_map : exists mo a ai, hat h o = Some (OMap mo) /\
    hat h (msArr mo) = Some (OArr a) /\ holds a (cap (lg st)) (sg (lg st)) /\ msIt mo = (msArr mo, (length a / 2)%nat) /\
    hat h (msiArr mo) = Some (OArr ai) /\ holds ai (cap (lg st)) (sgi (lg st)) /\ msiIt mo = (msiArr mo, (length ai / 2)%nat) /\
    tableHolds h (fun i v x => x = ONode o i v) (mnodes mo) (nodes (lg st)) /\
    tableHolds h (fun i v x => x = OEdge o i v (lsc st i)) (medges mo) (edges (lg st)) /\
    tableHolds h (fun i v x => x = OFace o i (map (pair o) (fanchors v)) (fflags v) (farea v) (larea st i)) (mfaces mo) (faces (lg st)) /\
    (mnc mo = nodeCount (lg st) /\ mec mo = edgeCount (lg st) /\ mfc mo = faceCount (lg st)) /\
    (Permutation (map (fun e => (epos e, epay e)) (midx mo)) (livePos 0 (nodes (lg st))) /\ keysSorted (midx mo)) /\
    msize mo = lsize st /\
    match mimg mo, lim st with Some p, Some i => hat h p = Some (OImage i) | None, None => True | _, _ => False end /\
    mlut mo = llut st /\ msorted mo = sorted (lg st) /\
    (forall l, In l (mextra mo) -> exists rs, hat h l = Some (OExtra rs) /\ forall r, In r rs -> r = o) }.

(** addresses that can be reached from [l] *)
Inductive reach (h : heap) (l : loc) : loc -> Prop :=
| re_here : reach h l l
| re_step p x q : reach h l p -> hat h p = Some x -> In q (refs x) -> reach h l q.

(** ** Two maps side by side *)

(** the heap and the addresses known to the programs working on either map *)
Record world := mkW { wh : heap; wk : bool -> list loc }.
(** the program on side [s] runs for a while *)
Definition turn (s : bool) (w w' : world) : Prop :=
  acts (wh w, wk w s) (wh w', wk w' s) /\ wk w' (negb s) = wk w (negb s).
Inductive turns : world -> world -> Prop :=
| tu_nil w : turns w w
| tu_cons s w w' w'' : turn s w w' -> turns w' w'' -> turns w w''.
(** after the copy, one program knows the original, the other one the copy *)
Definition bothMaps (h : heap) (o n : loc) : world := mkW h (fun s => if s then [o] else [n]).

Section Runs.
Variable srt : list seg -> list seg.
Variable unit : positive.
Variables o n : loc.
Definition rootOf (s : bool) : loc := if s then o else n.
(** Programs carrying out calls, in any order, on both maps; [f s] is the map of side [s].  Each program is only assumed to turn the objects
    of a map it is given into those of the map the call yields. *)
Definition putSide (f : bool -> lmap) (s : bool) (st : lmap) : bool -> lmap := fun b => if Bool.eqb b s then st else f b.
Inductive performsAll : (bool -> lmap) -> list (bool * lcall) -> world -> world -> Prop :=
| pa_nil f w : performsAll f [] w w
| pa_cons f s c st' cs w w' w'' : lexec srt unit (f s) c = Ok st' -> turn s w w' ->
    (represents (wh w) (rootOf s) (f s) -> represents (wh w') (rootOf s) st') ->
    performsAll (putSide f s st') cs w' w'' -> performsAll f ((s, c) :: cs) w w''.
(** the calls of one side *)
Definition callsOf (s : bool) (cs : list (bool * lcall)) : list lcall := map snd (filter (fun p => Bool.eqb (fst p) s) cs).
Fixpoint callAll (st : lmap) (cs : list lcall) : res lmap :=
  match cs with [] => Ok st | c :: t => st <- lexec srt unit st c ;; callAll st t end.
End Runs.
