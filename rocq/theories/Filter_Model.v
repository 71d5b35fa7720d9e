(** Model of FilterIterator, SafeFilterIterator and ImageFilterIterator
    (src/geomap/filteriterator.hxx), of the cell iterators of GeoMap (src/geomap/cppmap.hxx 140-151,
    218-275) and of LabelScanIterator (src/cellimage/foureightsegmentation.hxx 53-155).

    An iterator into a vector is an index; moving or reading behind the end is [UB].  An image
    traverser is a coordinate; a read outside the image is [UB]. *)
From Verif Require Import Base.
Local Open Scope Z_scope.

Section Filter.
Context {A : Type} (pred : A -> bool).

(** filteriterator.hxx 33-37: iter_, end_ (the vector itself may change between the calls) *)
Record fiter := mkFiter { fi_pos : nat; fi_end : nat }.

(** filteriterator.hxx 127-131 *)
Fixpoint checkPredicate (n : nat) (v : list A) (it : fiter) : res fiter :=
  if (fi_pos it =? fi_end it)%nat then Ok it else
  match n with
  | O => NoFuel
  | S k => a <- vget v (fi_pos it) ;; if pred a then Ok it else checkPredicate k v (mkFiter (S (fi_pos it)) (fi_end it))
  end.
Definition check (v : list A) (it : fiter) : res fiter := checkPredicate (fi_end it - fi_pos it) v it.

(** filteriterator.hxx 58-64 *)
Definition fBegin (v : list A) (b e : nat) : res fiter := check v (mkFiter b e).

(** filteriterator.hxx 66-71, 165-169; incrementing the end iterator is undefined *)
Definition fNext (v : list A) (it : fiter) : res fiter :=
  if (fi_pos it <? fi_end it)%nat then check v (mkFiter (S (fi_pos it)) (fi_end it)) else UB.

(** filteriterator.hxx 117-120 *)
Definition fDeref (v : list A) (it : fiter) : res A := vget v (fi_pos it).
(** filteriterator.hxx 92-95 *)
Definition fInRange (it : fiter) : bool := negb (fi_pos it =? fi_end it)%nat.

(** filteriterator.hxx 153-157 (SafeFilterIterator::operator* ) *)
Definition sDeref (v : list A) (it : fiter) : res (fiter * A) :=
  it' <- check v it ;; a <- fDeref v it' ;; Ok (it', a).
(** filteriterator.hxx 178-188 (SafeFilterIterator::atEnd, inRange) *)
Definition sInRange (v : list A) (it : fiter) : res (fiter * bool) :=
  it' <- check v it ;; Ok (it', fInRange it').
End Filter.

(** NotNull (cppmap.hxx 64-71) on cell pointers *)
Definition notNull {A} (o : option A) : bool := match o with Some _ => true | None => false end.

(** cppmap.hxx 218-219, 237-238, 256-257: nodesBegin(), edgesBegin(), facesBegin() *)
Definition cellsBegin {A} (v : list (option A)) : res fiter := fBegin notNull v 0 (length v).
(** cppmap.hxx 258-259: finiteFacesBegin() *)
Definition finiteFacesBegin {A} (v : list (option A)) : res fiter := it <- cellsBegin v ;; fNext notNull v it.

(** [for(it = ...; it.inRange(); ++it) body( *it )] where the body sees the table and the cells
    visited so far, and leaves a new table.  The result is the list of positions dereferenced, in
    order, each with the cell found there. *)
Fixpoint forCells {A} (n : nat) (body : list (nat * A) -> list (option A) -> list (option A))
    (v : list (option A)) (it : fiter) (seen : list (nat * A)) : res (list (nat * A) * list (option A)) :=
  match n with
  | O => NoFuel
  | S k =>
      r <- sInRange notNull v it ;;
      if snd r then
        d <- sDeref notNull v (fst r) ;;
        match snd d with
        | None => UB
        | Some a =>
            let seen' := seen ++ [(fi_pos (fst d), a)] in
            let v' := body seen' v in
            it' <- fNext notNull v' (fst d) ;;
            forCells k body v' it' seen'
        end
      else Ok (seen, v)
  end.

(** ** images *)

Record rect := mkRect { r_ulx : Z; r_uly : Z; r_lrx : Z; r_lry : Z }.
Section Image.
Context {V : Type} (rd : Z -> Z -> res V).

(** foureightsegmentation.hxx 56-60: cellIter_ and imageIter_ *)
Record lscan := mkScan { sc_x : Z; sc_y : Z; im_x : Z; im_y : Z }.

(** foureightsegmentation.hxx 98-100: advance within the row *)
Fixpoint skipRow (n : nat) (ok : V -> bool) (lrx : Z) (s : lscan) : res lscan :=
  if sc_x s =? lrx then Ok s else
  match n with
  | O => NoFuel
  | S k => p <- rd (sc_x s) (sc_y s) ;;
           if ok p then Ok s else skipRow k ok lrx (mkScan (sc_x s + 1) (sc_y s) (im_x s + 1) (im_y s))
  end.

(** foureightsegmentation.hxx 96-116: LabelScanIterator::operator++; [w] is width_ *)
Fixpoint scanNext (n : nat) (ok : V -> bool) (r : rect) (w : Z) (s : lscan) : res lscan :=
  match n with
  | O => NoFuel
  | S k =>
      s <- skipRow (Z.to_nat w) ok (r_lrx r) (mkScan (sc_x s + 1) (sc_y s) (im_x s + 1) (im_y s)) ;;
      if sc_x s =? r_lrx r then
        let s := mkScan (sc_x s - w) (sc_y s + 1) (im_x s - w) (im_y s + 1) in
        if sc_y s =? r_lry r then Ok (mkScan (r_lrx r) (r_lry r) (im_x s) (im_y s))
        else p <- rd (sc_x s) (sc_y s) ;; if ok p then Ok s else scanNext k ok r w s
      else Ok s
  end.
Definition lsNext (ok : V -> bool) (r : rect) (s : lscan) : res lscan :=
  scanNext (S (Z.to_nat (r_lry r - r_uly r))) ok r (r_lrx r - r_ulx r) s.

(** foureightsegmentation.hxx 80-94 *)
Definition lsBegin (ok : V -> bool) (r : rect) (ix iy : Z) : res lscan :=
  if negb ((r_lrx r >? r_ulx r) && (r_lry r >? r_uly r)) then Ok (mkScan (r_lrx r) (r_lry r) ix iy)
  else
    let s := mkScan (r_ulx r) (r_uly r) ix iy in
    if (r_ulx r =? r_lrx r) && (r_uly r =? r_lry r) then Ok s
    else p <- rd (r_ulx r) (r_uly r) ;; if ok p then Ok s else lsNext ok r s.

(** foureightsegmentation.hxx 125-133 *)
Definition lsAtEnd (r : rect) (s : lscan) : bool := (sc_x s =? r_lrx r) && (sc_y s =? r_lry r).

(** [for(; it.inRange(); ++it)] collecting the coordinates of both iterators *)
Fixpoint lsDrain (n : nat) (ok : V -> bool) (r : rect) (s : lscan) : res (list ((Z * Z) * (Z * Z))) :=
  if lsAtEnd r s then Ok [] else
  match n with
  | O => NoFuel
  | S k => s' <- lsNext ok r s ;; t <- lsDrain k ok r s' ;; Ok (((sc_x s, sc_y s), (im_x s, im_y s)) :: t)
  end.

(** filteriterator.hxx 311-328: ImageFilterIterator::operator++ *)
Fixpoint ifSkip (n : nat) (ok : V -> bool) (lrx x y : Z) : res Z :=
  if x =? lrx then Ok x else
  match n with
  | O => NoFuel
  | S k => p <- rd x y ;; if ok p then Ok x else ifSkip k ok lrx (x + 1) y
  end.
Fixpoint ifNextLoop (n : nat) (ok : V -> bool) (r : rect) (w x y : Z) : res (Z * Z) :=
  match n with
  | O => NoFuel
  | S k =>
      x <- ifSkip (Z.to_nat w) ok (r_lrx r) (x + 1) y ;;
      if x =? r_lrx r then
        let x := x - (w + 1) in
        let y := y + 1 in
        if y =? r_lry r then Ok (r_lrx r, r_lry r) else ifNextLoop k ok r w x y
      else Ok (x, y)
  end.
Definition ifNext (ok : V -> bool) (r : rect) (s : Z * Z) : res (Z * Z) :=
  ifNextLoop (S (Z.to_nat (r_lry r - r_uly r))) ok r (r_lrx r - r_ulx r) (fst s) (snd s).
(** filteriterator.hxx 283-294 *)
Definition ifBegin (ok : V -> bool) (r : rect) : res (Z * Z) :=
  if (r_ulx r =? r_lrx r) && (r_uly r =? r_lry r) then Ok (r_ulx r, r_uly r)
  else p <- rd (r_ulx r) (r_uly r) ;; if ok p then Ok (r_ulx r, r_uly r) else ifNext ok r (r_ulx r, r_uly r).
(** filteriterator.hxx 344-347 *)
Definition ifAtEnd r (s : Z * Z) : bool := (fst s =? r_lrx r) && (snd s =? r_lry r).
Fixpoint ifDrain (n : nat) (ok : V -> bool) (r : rect) (s : Z * Z) : res (list (Z * Z)) :=
  if ifAtEnd r s then Ok [] else
  match n with
  | O => NoFuel
  | S k => s' <- ifNext ok r s ;; t <- ifDrain k ok r s' ;; Ok (s :: t)
  end.
End Image.
