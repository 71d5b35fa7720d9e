(** Model of src/geomap/labellut.hxx (class LabelLUT).

    Labels are [unsigned int]; they only ever are indices of the two tables, so
    [nat] without wrap-around is used.  An access outside the tables is [UB]. *)
From Verif Require Import Base.

(** labellut.hxx 154-156: the two data members. *)
Record lut := mkLut { labelLUT : list nat; prevMerged : list nat }.

(** labellut.hxx 96-112: LabelLUT(size) / initIdentity(size). *)
Definition initIdentity (size : nat) : lut :=
  {| labelLUT := seq 0 size; prevMerged := seq 0 size |}.

(** labellut.hxx 114-118: appendOne(). *)
Definition appendOne (t : lut) : lut :=
  {| labelLUT := labelLUT t ++ [length (labelLUT t)];
     prevMerged := prevMerged t ++ [length (prevMerged t)] |}.

(** labellut.hxx 120-123: operator[]. *)
Definition lookup (t : lut) (i : nat) : res nat := vget (labelLUT t) i.

(** labellut.hxx 125-128: size(). *)
Definition size (t : lut) : nat := length (labelLUT t).

(** labellut.hxx 132-141: the loop of relabel(); returns the updated label
    table and the last value of [prev].  [fuel] bounds the iterations. *)
Fixpoint relabel_loop (fuel : nat) (lab prv : list nat) (fromIt to : nat)
  : res (list nat * nat) :=
  match fuel with
  | 0 => NoFuel
  | S f =>
      lab' <- vset lab fromIt to ;;
      prev <- vget prv fromIt ;;
      if Nat.eqb prev fromIt then Ok (lab', prev)
      else relabel_loop f lab' prv prev to
  end.

(** labellut.hxx 130-147: relabel(from, to). *)
Definition relabel (t : lut) (from to : nat) : res lut :=
  lp <- relabel_loop (S (length (prevMerged t))) (labelLUT t) (prevMerged t) from to ;;
  let '(lab, prev) := lp in
  pto <- vget (prevMerged t) to ;;
  prv1 <- (if Nat.eqb pto to then Ok (prevMerged t)
           else vset (prevMerged t) prev pto) ;;
  prv2 <- vset prv1 to from ;;
  Ok {| labelLUT := lab; prevMerged := prv2 |}.

(** labellut.hxx 42-91: MergedIterator: current label and end flag. *)
Record miter := mkMiter { cur : nat; atEnd : bool }.

(** labellut.hxx 149-152 / 53-58: mergedBegin(start). *)
Definition mergedBegin (start : nat) : miter := {| cur := start; atEnd := false |}.

(** labellut.hxx 65-73: operator++. *)
Definition mnext (t : lut) (it : miter) : res miter :=
  next <- vget (prevMerged t) (cur it) ;;
  if Nat.eqb next (cur it) then Ok {| cur := cur it; atEnd := true |}
  else Ok {| cur := next; atEnd := atEnd it |}.

(** The user's loop [for(it = mergedBegin(l); it.inRange(); ++it) out.push_back( *it)]. *)
Fixpoint enumerate (fuel : nat) (t : lut) (it : miter) : res (list nat) :=
  match fuel with
  | 0 => NoFuel
  | S f =>
      if atEnd it then Ok []
      else it' <- mnext t it ;; rest <- enumerate f t it' ;; Ok (cur it :: rest)
  end.

Definition merged (t : lut) (l : nat) : res (list nat) :=
  enumerate (S (S (size t))) t (mergedBegin l).

(** Histories of calls. *)
Inductive op := Relabel (from to : nat) | AppendOne.

Definition step (t : lut) (o : op) : res lut :=
  match o with Relabel f g => relabel t f g | AppendOne => Ok (appendOne t) end.

Fixpoint run (t : lut) (os : list op) : res lut :=
  match os with [] => Ok t | o :: os' => t' <- step t o ;; run t' os' end.
