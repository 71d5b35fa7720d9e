(** Model of scanPoly (src/geomap/polygon.hxx 1946-2055).

    Simplifications: coordinates are exact rationals instead of floating point numbers and int does not
    overflow.  The calls [result->append(line, segment)] are collected in order and executed at the end
    of the point loop; nothing reads [result] before. *)
From Coq Require Import QArith Qround.
From Verif Require Import Base Scanlines_Model.
Local Open Scope Z_scope.

(** polygon.hxx 1715-1717 *)
Definition qSeg (b : Q) (d : Z) (e : Q) : seg := mkSeg (Qfloor (b + (1#2))) d (Qceiling (e + (1#2))).

(** polygon.hxx 1969-1986: local variables *)
Record spst := mkSp { sp_px : Q; sp_py : Q; sp_s : Q; sp_e : Q; sp_step : Z; sp_line : Z; sp_k : Z }.

(** polygon.hxx 1977-1985 and 1994-1997 *)
Definition lineOfY (y : Q) : Z := Qfloor (y + (1#2)).
Definition kLineOfY (y : Q) : Z :=
  let line := lineOfY y in if Qeq_bool (y + (1#2)) (inject_Z line) then 2 * line - 1 else 2 * line.

Definition qmin (a b : Q) : Q := if Qle_bool a b then a else b.
Definition qmax (a b : Q) : Q := if Qle_bool a b then b else a.

(** polygon.hxx 2012-2014 *)
Definition intersectX (px py x y : Q) (line step : Z) : Q :=
  (px + (x - px) * ((inject_Z line + (1#2) * inject_Z step) - py) / (y - py))%Q.

(** polygon.hxx 2008-2037: the loop runs |kLine - prevKLine| times because step has the sign of the
    difference.  [px py] is the previous point, [x y] the current one. *)
Fixpoint crossLoop (n : nat) (px py x y : Q) (step : Z) (s e : Q) (pstep line k : Z) : list (Z * seg) * (Q * Q * Z * Z) :=
  match n with
  | O => ([], (s, e, pstep, k))
  | S n' =>
      let ix := intersectX px py x y line step in
      if Z.even k then
        let s := qmin s ix in
        let e := qmax e ix in
        let r := crossLoop n' px py x y step s e step line (k + step) in
        ((k / 2, qSeg s (step + pstep) e) :: fst r, snd r)
      else crossLoop n' px py x y step ix ix step (line + step) (k + step)
  end.

(** polygon.hxx 1988-2049: one pass of the point loop *)
Definition scanPoint (st : spst) (p : Q * Q) : list (Z * seg) * spst :=
  let (x, y) := p in
  let line := lineOfY y in
  let kLine := kLineOfY y in
  if kLine =? sp_k st then
    ([], mkSp x y (qmin (sp_s st) x) (qmax (sp_e st) x) (sp_step st) (sp_line st) (sp_k st))
  else
    let step := if kLine >? sp_k st then 1 else -1 in
    let pl := if Z.odd (sp_k st) then Z.quot (sp_k st - step) 2 else sp_line st in
    let r := crossLoop (Z.abs_nat (kLine - sp_k st)) (sp_px st) (sp_py st) x y step (sp_s st) (sp_e st) (sp_step st) pl (sp_k st) in
    match snd r with
    | (s, e, pstep, k) => (fst r, mkSp x y (qmin s x) (qmax e x) pstep line k)
    end.

(** polygon.hxx 1988-2053: all remaining points and the final append *)
Fixpoint scanRest (st : spst) (pts : list (Q * Q)) : list (Z * seg) :=
  match pts with
  | [] => if Z.odd (sp_k st) then [] else [(sp_k st / 2, qSeg (sp_s st) (sp_step st) (sp_e st))]
  | p :: t => let r := scanPoint st p in fst r ++ scanRest (snd r) t
  end.

(** polygon.hxx 1966-1986 *)
Definition scanInit (p : Q * Q) : spst := mkSp (fst p) (snd p) (fst p) (fst p) 0 (lineOfY (snd p)) (kLineOfY (snd p)).
Definition scanCalls (pts : list (Q * Q)) : list (Z * seg) :=
  match pts with [] => [] | p :: t => scanRest (scanInit p) t end.

Section Sort.
Variable srt : list seg -> list seg.
(** polygon.hxx 1955-2055 *)
Definition scanPoly (pts : list (Q * Q)) (scanLineCount : nat) (startIndex : Z) : scanlines :=
  match pts with
  | [] => newScanlines startIndex scanLineCount
  | _ => normalize srt (fold_left (fun r c => append r (fst c) (snd c)) (scanCalls pts) (newScanlines startIndex scanLineCount))
  end.
(** polygon.hxx 1946-1953; [ylo yhi] are the y bounds of the bounding box *)
Definition scanPolyBBox (pts : list (Q * Q)) (ylo yhi : Q) : scanlines :=
  let startIndex := Qfloor (ylo + (1#2)) in
  let endIdx := Qfloor (yhi + (1#2)) in
  scanPoly pts (Z.to_nat (endIdx - startIndex + 1)) startIndex.
End Sort.
