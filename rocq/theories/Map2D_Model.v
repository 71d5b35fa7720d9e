(** Model of Map2D (src/geomap/vigra/map2d.hxx) and of the node position index of GeoMap
    (src/geomap/cppmap.hxx 199-201, 455-475, 1314-1323, src/geomap/cppmap.cxx 1311-1321, 2166-2193).

    Coordinates and squared distances are integers (a scaled exact grid).  The multimap is the list
    of its entries in iteration order; an iterator is the index of its entry, end() is the length. *)
From Verif Require Import Base.
Local Open Scope Z_scope.

Notation pos := (Z * Z)%type.

(** map2d.hxx 38-60 (PositionedObject) as the value, 68 (CoordMap) for the key *)
Record entry (A : Type) := mkEntry { ekey : Z; epos : pos; epay : A }.
Arguments mkEntry {A}. Arguments ekey {A}. Arguments epos {A}. Arguments epay {A}.

Section Map2D.
Context {A : Type}.
Implicit Types (l : list (entry A)) (v : pos).

(** squaredNorm of a difference *)
Definition sq (x : Z) : Z := x * x.
Definition dist2 v w : Z := sq (fst v - fst w) + sq (snd v - snd w).

(** std::multimap::insert puts a new entry behind the entries with the same key *)
Fixpoint mmInsert (e : entry A) l : list (entry A) :=
  match l with
  | [] => [e]
  | h :: t => if ekey e <? ekey h then e :: l else h :: mmInsert e t
  end.

(** map2d.hxx 73-77 *)
Definition insert l v (a : A) : list (entry A) := mmInsert (mkEntry (fst v) v a) l.

(** map2d.hxx 79-82; erasing end() is undefined *)
Fixpoint removeAt (i : nat) l : list (entry A) :=
  match l, i with
  | [], _ => []
  | _ :: t, O => t
  | h :: t, S j => h :: removeAt j t
  end.
Definition erase l (i : nat) : res (list (entry A)) :=
  if (i <? length l)%nat then Ok (removeAt i l) else UB.

(** map2d.hxx 92-99 *)
Fixpoint fillFrom l (vs : list (pos * A)) : list (entry A) :=
  match vs with
  | [] => l
  | (v, a) :: t => fillFrom (insert l v a) t
  end.

(** std::multimap::lower_bound *)
Fixpoint lowerBound l (x : Z) : nat :=
  match l with
  | [] => 0%nat
  | h :: t => if ekey h <? x then S (lowerBound t x) else 0%nat
  end.

(** map2d.hxx 147-158: from midPos to end *)
Fixpoint searchUp (n : nat) l (i : nat) v (best : nat) (maxd : Z) : res (nat * Z) :=
  if (i =? length l)%nat then Ok (best, maxd) else
  match n with
  | O => NoFuel
  | S k =>
      e <- vget l i ;;
      if sq (ekey e - fst v) >? maxd then Ok (best, maxd)
      else
        let d := dist2 (epos e) v in
        if d <? maxd then searchUp k l (S i) v i d else searchUp k l (S i) v best maxd
  end.

(** map2d.hxx 163-177: from i down to begin *)
Fixpoint searchDown l (i : nat) v (best : nat) (maxd : Z) : res (nat * Z) :=
  e <- vget l i ;;
  if sq (fst v - ekey e) >? maxd then Ok (best, maxd)
  else
    let d := dist2 (epos e) v in
    let best' := if d <? maxd then i else best in
    let maxd' := if d <? maxd then d else maxd in
    match i with
    | O => Ok (best', maxd')
    | S j => searchDown l j v best' maxd'
    end.

(** map2d.hxx 141-181 *)
Definition search l (mid : nat) v (maxd : Z) : res nat :=
  r <- searchUp (length l) l mid v (length l) maxd ;;
  match mid with
  | O => Ok (fst r)
  | S j => r' <- searchDown l j v (fst r) (snd r) ;; Ok (fst r')
  end.

(** map2d.hxx 126-138 *)
Definition nearest l v (maxd : Z) : res nat := search l (lowerBound l (fst v)) v maxd.

End Map2D.

(** The node table and the index over it; labels are positions in the table. *)
Record nstate := mkNS { ntab : list (option pos); nidx : list (entry nat) }.

Inductive nodeOp :=
| NNew (p : pos)           (* a Node is constructed *)
| NGone (l : nat)          (* a Node is uninitialised *)
| NMove (l : nat) (p : pos)  (* Node::setPosition *)
| NResize (k : nat).       (* addNode(position, label) enlarges the table first *)

(** cppmap.hxx 1319-1321, cppmap.cxx 2169-2171: erase what is found at the position of the node.
    [eps] is NumericTraits<double>::epsilon(). *)
Definition dropPos (eps : Z) (idx : list (entry nat)) (p : pos) : res (list (entry nat)) :=
  i <- nearest idx p eps ;; erase idx i.

Definition tabPos (t : list (option pos)) (l : nat) : res pos :=
  match nth_error t l with Some (Some p) => Ok p | _ => UB end.

Definition nodeStep (eps : Z) (s : nstate) (o : nodeOp) : res nstate :=
  match o with
  (* cppmap.hxx 455-473 *)
  | NNew p => Ok (mkNS (ntab s ++ [Some p]) (insert (nidx s) p (length (ntab s))))
  (* cppmap.hxx 1314-1323 *)
  | NGone l =>
      p <- tabPos (ntab s) l ;;
      idx <- dropPos eps (nidx s) p ;;
      Ok (mkNS (list_upd (ntab s) l None) idx)
  (* cppmap.cxx 2166-2193, the index part *)
  | NMove l p =>
      q <- tabPos (ntab s) l ;;
      idx <- dropPos eps (nidx s) q ;;
      Ok (mkNS (list_upd (ntab s) l (Some p)) (insert idx p l))
  (* cppmap.cxx 362-368 *)
  | NResize k =>
      Ok (mkNS (if (length (ntab s) <? k)%nat then ntab s ++ repeat None (k - length (ntab s)) else ntab s) (nidx s))
  end.

(** cppmap.cxx 1311-1321: None is the null pointer *)
Definition nearestNode (s : nstate) (p : pos) (maxd : Z) : res (option nat) :=
  i <- nearest (nidx s) p maxd ;;
  if (i =? length (nidx s))%nat then Ok None else e <- vget (nidx s) i ;; Ok (Some (epay e)).
