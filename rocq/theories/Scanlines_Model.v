(** Model of Scanlines, ScanlinesIter, fillScannedPoly and drawScannedPoly
    (src/geomap/polygon.hxx 1705-2164).

    Simplifications: int does not overflow; the vectors are lists; the destination image is the list
    of the coordinates written, with [UB] for a write outside the row. *)
From Coq Require Import Sorted.
From Verif Require Import Base.
Local Open Scope Z_scope.

(** polygon.hxx 1705-1710 *)
Record seg := mkSeg { sbeg : Z; sdir : Z; send : Z }.

(** polygon.hxx 1724-1729 *)
Definition joinSuccessor (s other : seg) : seg :=
  mkSeg (sbeg s) (sdir s + sdir other) (if send other >? send s then send other else send s).

(** polygon.hxx 1746-1752 *)
Record scanlines := mkSL { sl_start : Z; sl_lines : list (list seg) }.
(** polygon.hxx 1754-1757 *)
Definition newScanlines (start : Z) (count : nat) : scanlines := mkSL start (repeat [] count).
(** polygon.hxx 1779-1782 *)
Definition endIndex (s : scanlines) : Z := sl_start s + Z.of_nat (length (sl_lines s)).

(** polygon.hxx 1759-1772 *)
Definition append (s : scanlines) (line : Z) (g : seg) : scanlines :=
  let index := line - sl_start s in
  if (index >=? 0) && (index <? Z.of_nat (length (sl_lines s)))
  then mkSL (sl_start s) (list_upd (sl_lines s) (Z.to_nat index) (nth (Z.to_nat index) (sl_lines s) [] ++ [g]))
  else s.

(** polygon.hxx 1784-1792: operator[]; no range check *)
Definition lineAt (s : scanlines) (y : Z) : res (list seg) :=
  if y - sl_start s <? 0 then UB else vget (sl_lines s) (Z.to_nat (y - sl_start s)).

(** polygon.hxx 1806-1814 *)
Definition reverseLines (s : scanlines) : scanlines :=
  mkSL (sl_start s) (map (map (fun g => mkSeg (sbeg g) (- sdir g) (send g))) (sl_lines s)).

(** polygon.hxx 1838-1844: the loop adding the other lines from [destLine] on *)
Fixpoint addLines (dest : list (list seg)) (k : nat) (src : list (list seg)) : res (list (list seg)) :=
  match src with
  | [] => Ok dest
  | l :: t => d <- vget dest k ;; dest' <- vset dest k (d ++ l) ;; addLines dest' (S k) t
  end.

(** polygon.hxx 1821-1845 *)
Definition merge (s other : scanlines) : res scanlines :=
  let missingAtStart := sl_start s - sl_start other in
  let s1 := if missingAtStart >? 0
            then mkSL (sl_start other) (repeat [] (Z.to_nat missingAtStart) ++ sl_lines s) else s in
  let missingAtEnd := endIndex other - endIndex s1 in
  let s2 := if missingAtEnd >? 0
            then mkSL (sl_start s1) (sl_lines s1 ++ repeat [] (Z.to_nat missingAtEnd)) else s1 in
  let off := sl_start other - sl_start s2 in
  if off <? 0 then UB else
  ls <- addLines (sl_lines s2) (Z.to_nat off) (sl_lines other) ;; Ok (mkSL (sl_start s2) ls).

(** polygon.hxx 1856-1865: the joining loop; [cur] is scanline[j-1], [t] the part from j on.
    Erasing element j keeps j, otherwise j is advanced. *)
Fixpoint joinRest (cur : seg) (t : list seg) : list seg :=
  match t with
  | [] => [cur]
  | s :: t' => if sbeg s <=? send cur then joinRest (joinSuccessor cur s) t' else cur :: joinRest s t'
  end.
Definition joinLine (l : list seg) : list seg := match l with [] => [] | s :: t => joinRest s t end.

(** std::sort with ScanlineSegmentCompare (polygon.hxx 1738-1744): any ascending rearrangement *)
Definition begLe (a b : seg) : Prop := sbeg a <= sbeg b.
Definition sorter (srt : list seg -> list seg) : Prop := forall l, Permutation l (srt l) /\ StronglySorted begLe (srt l).

Section Sort.
Variable srt : list seg -> list seg.
(** polygon.hxx 1847-1867 *)
Definition normalizeLine (l : list seg) : list seg := joinLine (srt l).
Definition normalize (s : scanlines) : scanlines := mkSL (sl_start s) (map normalizeLine (sl_lines s)).
(** polygon.hxx 1799-1804 *)
Definition plusAssign (s other : scanlines) : res scanlines := s' <- merge s other ;; Ok (normalize s').
End Sort.

(** ** ScanlinesIter, polygon.hxx 1870-1944 *)
Record sliter := mkSIt { si_x : Z; si_y : Z; si_i : nat }.

(** polygon.hxx 1887-1894: skip empty lines; [None] means the end was reached *)
Fixpoint skipLines (n : nat) (s : scanlines) (x y : Z) (i : nat) : res (sliter * bool) :=
  l <- lineAt s y ;;
  if (i <? length l)%nat then Ok (mkSIt x y i, true)
  else
    let y := y + 1 in
    if y >=? endIndex s then Ok (mkSIt x y i, false)
    else match n with O => NoFuel | S k => skipLines k s x y 0 end.

(** polygon.hxx 1879-1898; [vigra_assert] is only active in debug builds, without it the read below
    is out of range *)
Fixpoint validLoop (n : nat) (s : scanlines) (it : sliter) : res sliter :=
  match n with
  | O => NoFuel
  | S k =>
      l <- lineAt s (si_y it) ;;
      g <- vget l (si_i it) ;;
      if si_x it >=? send g then
        r <- skipLines (length (sl_lines s)) s (si_x it) (si_y it) (S (si_i it)) ;;
        if snd r then
          l' <- lineAt s (si_y (fst r)) ;;
          g' <- vget l' (si_i (fst r)) ;;
          validLoop k s (mkSIt (sbeg g') (si_y (fst r)) (si_i (fst r)))
        else Ok (fst r)
      else Ok it
  end.
Definition segCount (s : scanlines) : nat := length (concat (sl_lines s)).
Definition ensureValid (s : scanlines) (it : sliter) : res sliter := validLoop (S (segCount s)) s it.

(** polygon.hxx 1909-1912 *)
Fixpoint firstLine (n : nat) (s : scanlines) (y : Z) : res Z :=
  if y >=? endIndex s then Ok y else
  l <- lineAt s y ;;
  match l with
  | [] => match n with O => NoFuel | S k => firstLine k s (y + 1) end
  | _ => Ok y
  end.
(** polygon.hxx 1903-1915 *)
Definition slBegin (s : scanlines) : res sliter :=
  y <- firstLine (length (sl_lines s)) s (sl_start s) ;;
  if y <? endIndex s then l <- lineAt s y ;; g <- vget l 0 ;; ensureValid s (mkSIt (sbeg g) y 0)
  else ensureValid s (mkSIt 0 y 0).
(** polygon.hxx 1931-1934 *)
Definition slAtEnd (s : scanlines) (it : sliter) : bool := si_y it >=? endIndex s.
(** polygon.hxx 1917-1924 *)
Definition slNext (s : scanlines) (it : sliter) : res sliter :=
  if slAtEnd s it then Exn else ensureValid s (mkSIt (si_x it + 1) (si_y it) (si_i it)).
Fixpoint slDrain (n : nat) (s : scanlines) (it : sliter) : res (list (Z * Z)) :=
  if slAtEnd s it then Ok [] else
  match n with O => NoFuel | S k => it' <- slNext s it ;; t <- slDrain k s it' ;; Ok ((si_x it, si_y it) :: t) end.

(** ** drawing *)

(** [while(x < e) a.set(value, it), ++x]: columns written in a row of width [w] *)
Fixpoint setRun (n : nat) (w x e : Z) : res (list Z) :=
  if x <? e then
    match n with
    | O => NoFuel
    | S k => if (0 <=? x) && (x <? w) then t <- setRun k w (x + 1) e ;; Ok (x :: t) else UB
    end
  else Ok [].

(** polygon.hxx 2075-2103: one row; result columns and final [inside] *)
Fixpoint fillRow (w x inside : Z) (l : list seg) : res (list Z * Z) :=
  match l with
  | [] => Ok ([], inside)
  | g :: t =>
      let b0 := sbeg g in
      let e0 := send g in
      let b1 := if b0 <? 0 then 0 else b0 in
      let e1 := if b0 <? 0 then (if e0 <? 0 then 0 else e0) else e0 in
      let b2 := if e1 >? w then (if b1 >? w then w else b1) else b1 in
      let e2 := if e1 >? w then w else e1 in
      px <- (if inside >? 0 then setRun (Z.to_nat (b2 - x)) w x b2 else Ok []) ;;
      r <- fillRow w e2 (inside + sdir g) t ;;
      Ok (px ++ fst r, snd r)
  end.

(** polygon.hxx 2057-2113; pixels in writing order and the [clean] flag *)
Fixpoint fillRows (n : nat) (s : scanlines) (w y endY : Z) : res (list (Z * Z) * bool) :=
  if y <? endY then
    match n with
    | O => NoFuel
    | S k =>
        l <- lineAt s y ;;
        r <- fillRow w 0 0 l ;;
        t <- fillRows k s w (y + 1) endY ;;
        Ok (map (fun x => (x, y)) (fst r) ++ fst t, (snd r =? 0) && snd t)
    end
  else Ok ([], true).
Definition fillScannedPoly (s : scanlines) (w h : Z) : res (list (Z * Z) * Z) :=
  let y := Z.max 0 (sl_start s) in
  let endY := Z.min h (endIndex s) in
  r <- fillRows (Z.to_nat (endY - y)) s w y endY ;;
  if snd r then Ok (fst r, Z.of_nat (length (fst r))) else Exn.

(** polygon.hxx 2142-2160 *)
Fixpoint drawRow (w : Z) (l : list seg) : res (list Z) :=
  match l with
  | [] => Ok []
  | g :: t =>
      let b := if sbeg g <? 0 then 0 else sbeg g in
      let e := if send g >? w then w else send g in
      px <- setRun (Z.to_nat (e - b)) w b e ;;
      r <- drawRow w t ;; Ok (px ++ r)
  end.
(** polygon.hxx 2125-2164 *)
Fixpoint drawRows (n : nat) (s : scanlines) (w y endY : Z) : res (list (Z * Z)) :=
  if y <? endY then
    match n with
    | O => NoFuel
    | S k => l <- lineAt s y ;; r <- drawRow w l ;; t <- drawRows k s w (y + 1) endY ;; Ok (map (fun x => (x, y)) r ++ t)
    end
  else Ok [].
Definition drawScannedPoly (s : scanlines) (w h : Z) : res (list (Z * Z) * Z) :=
  let y := Z.max 0 (sl_start s) in
  let endY := Z.min h (endIndex s) in
  r <- drawRows (Z.to_nat (endY - y)) s w y endY ;; Ok (r, Z.of_nat (length r)).
