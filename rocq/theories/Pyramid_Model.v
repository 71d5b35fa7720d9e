(** Model of CellPyramid (src/cellimage/cellpyramid.hxx 41-538).  The segmentation and the cell statistics are one abstract state [S]
    with an arbitrary effect of the four Euler operations on it, which may throw.  Left out: the messages on std::cerr, the memory
    management of Operation (copies are deep, 63-109), copying of whole pyramids (the levels' pyramid_ pointers), and unsigned overflow
    of indices. *)
From Verif Require Import Base.

(** cellpyramid.hxx 54-57, 189-223: the operations of the segmentation, each with its pre and post hook of the statistics *)
Inductive euler := RemoveIsolatedNode | MergeFaces | RemoveBridge | MergeEdges.
(** cellpyramid.hxx 54-61 *)
Inductive optype := Euler (e : euler) | RemoveEdge | RemoveEdgeWithEnds.
(** cellpyramid.hxx 63-109: an operation with its serialised dart, or a composite *)
Inductive op := Atom (t : optype) (param : Z) | Composite (l : list op).
(** How a call ended; [Undef] is undefined behaviour. *)
Inductive outcome := Done | Thrown | Undef.

Section Pyramid.
Variable S : Type.
(** pre hook, operation and post hook; false: one of them has thrown and left the state as given *)
Variable apply : euler -> Z -> S -> bool * S.
(** leftFaceLabel() == rightFaceLabel() *)
Variable sameFaces : Z -> S -> bool.
(** the labels of the start and end node of the dart's edge, the degree and the anchor of a node *)
Variable endNodes : Z -> S -> nat * nat.
Variable degree : nat -> S -> nat.
Variable anchor : nat -> S -> Z.
(** nodeCount() + edgeCount() + faceCount() *)
Variable cells : S -> nat.

(** cellpyramid.hxx 290-293: index_, subIndex_, segmentation_ and cellStatistics_ *)
Record level := mkLevel { index : nat; sub : nat; st : S }.
Definition bump (l : level) : level := mkLevel (index l + 1) (sub l) (st l).

(** cellpyramid.hxx 189-223: the Internal functions *)
Definition internal (e : euler) (d : Z) (l : level) : outcome * level :=
  let (ok, s) := apply e d (st l) in
  if ok then (Done, mkLevel (index l) (sub l + 1) s) else (Thrown, mkLevel (index l) (sub l) s).

(** run the second function only if the first one has returned *)
Definition andThen (r : outcome * level) (k : level -> outcome * level) : outcome * level :=
  match r with (Done, l) => k l | _ => r end.

(** cellpyramid.hxx 256-261, 268-270 *)
Definition removeEdgeInternal (d : Z) (l : level) : outcome * level :=
  if sameFaces d (st l) then internal RemoveBridge d l else internal MergeFaces d l.
(** cellpyramid.hxx 236-279: performOperation for an operation that is not composite *)
Definition performAtom (t : optype) (d : Z) (l : level) : outcome * level :=
  match t with
  | Euler e => internal e d l
  | RemoveEdge => removeEdgeInternal d l
  | RemoveEdgeWithEnds =>
      let (n1, n2) := endNodes d (st l) in
      andThen (removeEdgeInternal d l) (fun l =>
      andThen (if (degree n1 (st l) =? 0)%nat then internal RemoveIsolatedNode (anchor n1 (st l)) l else (Done, l)) (fun l =>
      if negb (n1 =? n2)%nat && (degree n2 (st l) =? 0)%nat then internal RemoveIsolatedNode (anchor n2 (st l)) l else (Done, l)))
  end.

(** cellpyramid.hxx 225-288: performOperation; an empty composite dereferences the null pointer [result] *)
Fixpoint perform (o : op) (l : level) : outcome * level :=
  match o with
  | Atom t d => performAtom t d l
  | Composite [] => (Undef, l)
  | Composite ops =>
      (fix go (ops : list op) (l : level) : outcome * level :=
         match ops with [] => (Done, l) | o :: rest => andThen (perform o l) (go rest) end) ops l
  end.
Definition performList : list op -> level -> outcome * level :=
  fix go (ops : list op) (l : level) : outcome * level :=
    match ops with [] => (Done, l) | o :: rest => andThen (perform o l) (go rest) end.

(** cellpyramid.hxx 304-308: checkpoints_ (a std::map, kept sorted), history_, topLevel_, nextCheckpointLevelIndex_, composing_ *)
Record pyramid := mkPyr { checkpoints : list (nat * level); history : list op; top : level; nextCp : nat; composing : Z }.

(** --upper_bound(k) of the map: the last entry with a key up to k *)
Fixpoint lastUpTo (k : nat) (cps : list (nat * level)) : option (nat * level) :=
  match cps with
  | [] => None
  | c :: rest => if (fst c <=? k)%nat then (match lastUpTo k rest with Some c' => Some c' | None => Some c end) else None
  end.
(** map::insert of a new key *)
Fixpoint insertCp (k : nat) (l : level) (cps : list (nat * level)) : list (nat * level) :=
  match cps with
  | [] => [(k, l)]
  | c :: rest => if (k <? fst c)%nat then (k, l) :: cps else if (k =? fst c)%nat then cps else c :: insertCp k l rest
  end.

(** cellpyramid.hxx 163-187: gotoLastCheckpointBefore; true: a checkpoint has been taken *)
Definition gotoCheckpoint (cps : list (nat * level)) (k : nat) (l : level) : option (bool * level) :=
  match lastUpTo k cps with
  | None => None
  | Some (ck, cl) => if (index l <=? k)%nat && (ck <=? index l)%nat then Some (false, l) else Some (true, cl)
  end.

(** cellpyramid.hxx 137-141, 150-154: n rounds of the loop *)
Fixpoint replay (hist : list op) (n : nat) (l : level) : outcome * level :=
  match n with
  | O => (Done, l)
  | Datatypes.S n' =>
      match nth_error hist (index l) with
      | None => (Undef, l)
      | Some o => andThen (perform o l) (fun l => replay hist n' (bump l))
      end
  end.
(** cellpyramid.hxx 146-155 *)
Definition gotoLevel (p : pyramid) (k : nat) (l : level) : outcome * level :=
  match gotoCheckpoint (checkpoints p) k l with
  | None => (Undef, l)
  | Some (_, l) => replay (history p) (k - index l) l
  end.
(** cellpyramid.hxx 132-144; the boolean returned *)
Definition approachLevel (p : pyramid) (k maxSteps : nat) (l : level) : outcome * level * bool :=
  match gotoCheckpoint (checkpoints p) k l with
  | None => (Undef, l, false)
  | Some (used, l) =>
      let steps := Nat.min (k - index l) (maxSteps - (if used then 1 else 0)) in
      let r := replay (history p) steps l in (r, (index (snd r) =? k)%nat)
  end.

Definition setTop (p : pyramid) (l : level) : pyramid := mkPyr (checkpoints p) (history p) l (nextCp p) (composing p).
Definition setHistory (p : pyramid) (h : list op) : pyramid := mkPyr (checkpoints p) h (top p) (nextCp p) (composing p).
Definition setComposing (p : pyramid) (c : Z) : pyramid := mkPyr (checkpoints p) (history p) (top p) (nextCp p) c.

(** cellpyramid.hxx 360-379 *)
Definition storeCheckpoint (p : pyramid) (l : level) : pyramid :=
  mkPyr (insertCp (index l) l (checkpoints p)) (history p) (top p) (sub l + Nat.max (cells (st l) / 4) 10) (composing p).
(** cellpyramid.hxx 381-388 *)
Definition newPyramid (s : S) : pyramid := storeCheckpoint (mkPyr [] [] (mkLevel 0 0 s) 0 0) (mkLevel 0 0 s).
(** cellpyramid.hxx 489-492 *)
Definition levelCount (p : pyramid) : nat := length (history p) + 1.

(** cellpyramid.hxx 350-357: cutApex; the last checkpoint exists, otherwise end() is decremented in an empty map *)
Definition cutApex (p : pyramid) : outcome * pyramid :=
  if (length (history p) <? index (top p))%nat then (Undef, p)
  else
    let cps := filter (fun c => (fst c <=? index (top p))%nat) (checkpoints p) in
    let p := mkPyr cps (firstn (index (top p)) (history p)) (top p) (nextCp p) (composing p) in
    match nth_error cps (length cps - 1) with
    | None => (Undef, p)
    | Some (_, l) => (Done, storeCheckpoint p l)
    end.
(** cellpyramid.hxx 523-537: cutAbove(levelIndex) *)
Definition cutAbove (p : pyramid) (k : nat) : outcome * pyramid :=
  if negb (index (top p) =? levelCount p - 1)%nat then (Thrown, p)
  else if (k <? index (top p))%nat then
    match gotoLevel p k (top p) with
    | (Done, l) => cutApex (setTop p l)
    | (o, l) => (o, setTop p l)
    end
  else (Done, p).
(** cellpyramid.hxx 507-521: cutAbove(level) *)
Definition cutAboveLevel (p : pyramid) (l : level) : outcome * pyramid :=
  if negb (index (top p) =? levelCount p - 1)%nat then (Thrown, p)
  else if negb (index (top p) =? index l)%nat then cutApex (setTop p l)
  else (Done, p).

(** the schedule of cellpyramid.hxx 323-324, 457-458 *)
Definition maybeStore (p : pyramid) : pyramid := if (nextCp p <=? sub (top p))%nat then storeCheckpoint p (top p) else p.

(** replace the last element *)
Definition setLast {A} (l : list A) (x : A) : list A := firstn (length l - 1) l ++ [x].
(** history_.back() *)
Definition back {A} (l : list A) : option A := nth_error l (length l - 1).

(** cellpyramid.hxx 310-347.  When the operation throws, cutAbove is called by the handler; if that throws as well, its exception
    replaces the other one.  While composing, history_.back() must be a composite, otherwise the union is misread. *)
Definition addAndPerform (p : pyramid) (t : optype) (d : Z) : outcome * pyramid :=
  if (composing p =? 0)%Z then
    let p := setHistory p (history p ++ [Atom t d]) in
    match perform (Atom t d) (top p) with
    | (Done, l) => (Done, maybeStore (setTop p (bump l)))
    | (Thrown, l) => let p := setTop p l in
        match cutAbove p (index l) with (Undef, p) => (Undef, p) | (_, p) => (Thrown, p) end
    | (Undef, l) => (Undef, setTop p l)
    end
  else
    match back (history p) with
    | Some (Composite ops) =>
        match perform (Atom t d) (top p) with
        | (Done, l) => (Done, setTop (setHistory p (setLast (history p) (Composite (ops ++ [Atom t d])))) l)
        | (o, l) => (o, setTop p l)
        end
    | _ => (Undef, p)
    end.

(** cellpyramid.hxx 426-431; composing_ is an unsigned int *)
Definition beginComposite (p : pyramid) : outcome * pyramid :=
  let p := if (composing p =? 0)%Z then setHistory p (history p ++ [Composite []]) else p in
  (Done, setComposing p ((composing p + 1) mod 2 ^ 32)).
(** cellpyramid.hxx 433-443 *)
Definition changeIntoComposite (p : pyramid) : outcome * pyramid :=
  if (composing p =? 0)%Z then
    match back (history p) with
    | None => (Undef, p)
    | Some last => (Done, setComposing (setHistory p (setLast (history p) (Composite [last]))) ((composing p + 1) mod 2 ^ 32))
    end
  else (Done, setComposing p ((composing p + 1) mod 2 ^ 32)).
(** cellpyramid.hxx 445-460 *)
Definition endComposite (p : pyramid) : outcome * pyramid :=
  let p := setComposing p ((composing p - 1) mod 2 ^ 32) in
  if (composing p =? 0)%Z then
    match back (history p) with
    | Some (Composite ops) =>
        let h := match ops with [o] => setLast (history p) o | _ => history p end in
        (Done, maybeStore (setTop (setHistory p h) (bump (top p))))
    | _ => (Undef, p)
    end
  else (Done, p).

(** cellpyramid.hxx 472-487: getLastCheckpointBefore and getLevel *)
Definition getLevel (p : pyramid) (k : nat) : option (outcome * level) :=
  if negb (k <? levelCount p)%nat then None
  else match lastUpTo k (checkpoints p) with
       | None => None
       | Some (_, l) => Some (gotoLevel p k l)
       end.
End Pyramid.
