(** What a user of CellPyramid relies on (C31-C33): the levels are the states that the top level has had. *)
From Verif Require Import Base Pyramid_Model.

Section Spec.
Variable S : Type.
Variable apply : euler -> Z -> S -> bool * S.
Variable sameFaces : Z -> S -> bool.
Variable endNodes : Z -> S -> nat * nat.
Variable degree : nat -> S -> nat.
Variable anchor : nat -> S -> Z.
Variable cells : S -> nat.
Notation level := (level S).
Notation pyramid := (pyramid S).
Notation add := (addAndPerform S apply sameFaces endNodes degree anchor cells).
Notation cut := (cutAbove S apply sameFaces endNodes degree anchor cells).
Notation cutLevel := (cutAboveLevel S cells).
Notation goto := (gotoLevel S apply sameFaces endNodes degree anchor).
Notation approach := (approachLevel S apply sameFaces endNodes degree anchor).

(** [orderly walk p seen]: [p] results from calls of a user who performs operations at the top only, does not turn finished levels into
    composites, gives each composite at least one operation, and passes levels of this pyramid as arguments; [seen] lists the top levels
    there have been, cuts taken into account.  Operations may fail inside of a composite if they leave the segmentation unchanged.
    [walk]: topLevel().gotoLevel and topLevel().approachLevel may have been called. *)
Inductive orderly (walk : bool) : pyramid -> list level -> Prop :=
| o_new s : orderly walk (newPyramid S cells s) [mkLevel S 0 0 s]
| o_op p seen t d p' : orderly walk p seen -> composing S p = 0%Z -> index S (top S p) = length (history S p) ->
    add p t d = (Done, p') -> orderly walk p' (seen ++ [top S p'])
| o_op_inside p seen t d p' : orderly walk p seen -> composing S p <> 0%Z -> add p t d = (Done, p') -> orderly walk p' seen
| o_op_fails p seen t d p' : orderly walk p seen -> composing S p <> 0%Z -> add p t d = (Thrown, p') -> top S p' = top S p ->
    orderly walk p' seen
| o_begin p seen p' : orderly walk p seen -> composing S p <> 0%Z \/ index S (top S p) = length (history S p) ->
    (composing S p < 2 ^ 32 - 1)%Z -> beginComposite S p = (Done, p') -> orderly walk p' seen
| o_change p seen p' : orderly walk p seen -> composing S p <> 0%Z -> (composing S p < 2 ^ 32 - 1)%Z ->
    changeIntoComposite S p = (Done, p') -> orderly walk p' seen
| o_end_inner p seen p' : orderly walk p seen -> (2 <= composing S p)%Z -> endComposite S cells p = (Done, p') -> orderly walk p' seen
| o_end p seen p' : orderly walk p seen -> composing S p = 1%Z -> back (history S p) <> Some (Composite []) ->
    endComposite S cells p = (Done, p') -> orderly walk p' (seen ++ [top S p'])
| o_cut p seen k p' : orderly walk p seen -> cut p k = (Done, p') -> orderly walk p' (firstn (k + 1) seen)
| o_cut_level p seen l p' : orderly walk p seen -> In l seen -> cutLevel p l = (Done, p') -> orderly walk p' (firstn (index S l + 1) seen)
| o_store p seen l : orderly walk p seen -> In l seen -> orderly walk (storeCheckpoint S cells p l) seen
| o_goto p seen k l : orderly walk p seen -> walk = true -> composing S p = 0%Z -> (k < length seen)%nat -> goto p k (top S p) = (Done, l) ->
    orderly walk (setTop S p l) seen
| o_approach p seen k n l b : orderly walk p seen -> walk = true -> composing S p = 0%Z -> (k < length seen)%nat ->
    approach p k n (top S p) = (Done, l, b) -> orderly walk (setTop S p l) seen.

(** the level that results from performing operations one after the other *)
Definition after (ops : list op) (l : level) : outcome * level :=
  fold_left (fun r o => andThen S r (fun l => andThen S (perform S apply sameFaces endNodes degree anchor o l) (fun l => (Done, bump S l)))) ops (Done, l).
End Spec.
