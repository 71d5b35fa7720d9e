(** Model of DigitalStraightLine and tangentDSL (src/geomap/vigra/dsl.hxx 46-327).  Integers do not overflow. *)
From Verif Require Import Base.
Local Open Scope Z_scope.

(** dsl.hxx 59-62, 200: a_, b_, pos_; the template argument EIGHT_CONNECTED is an argument of the functions *)
Record dsl := mkDsl { da : Z; db : Z; dp : Z }.

(** dsl.hxx 194-197: operator() *)
Definition dslAt (d : dsl) (x y : Z) : Z := da d * x - db d * y.
(** dsl.hxx 89-95 *)
Definition width (eight : bool) (d : dsl) : Z :=
  if eight then Z.max (Z.abs (da d)) (Z.abs (db d)) else Z.abs (da d) + Z.abs (db d).
(** dsl.hxx 83-87 *)
Definition dslContains (eight : bool) (d : dsl) (x y : Z) : bool :=
  let v := dslAt d x y - dp d in (0 <=? v) && (v <? width eight d).

(** dsl.hxx 176-179, 187-190, 181-185 *)
Definition mirrorX (d : dsl) : dsl := mkDsl (- da d) (db d) (dp d).
Definition mirrorXY (eight : bool) (d : dsl) : dsl := mkDsl (da d) (db d) (1 - width eight d - dp d).
Definition mirrorY (eight : bool) (d : dsl) : dsl := mirrorXY eight (mirrorX d).
(** dsl.hxx 165-174 *)
Definition convertToFourConnected (eight : bool) (d : dsl) : dsl :=
  if eight then mkDsl (da d) (db d - da d) (dp d) else d.

(** The outcome of a member function that may throw or divide by zero, together with the object's state. *)
Inductive outcome := Returned (b : bool) | Thrown | Undefined.

(** dsl.hxx 141-146: the loop over k, [n] being the number of values left *)
Fixpoint findK (n : nat) (a b divPos k : Z) : Z :=
  match n with
  | O => k
  | S n' => if Z.rem (a * k - divPos) b =? 0 then k else findK n' a b divPos (k + 1)
  end.

(** dsl.hxx 112-163 *)
Definition addPoint (eight : bool) (d : dsl) (x y : Z) : outcome * dsl :=
  if negb (eight && (da d <=? db d) && (0 <=? da d)) then (Thrown, d)
  else
    let v := dslAt d x y - dp d in
    if (0 <=? v) && (v <? db d) then (Returned true, d)
    else
      if negb (v =? -1) && negb (v =? db d) then (Returned false, d)
      else
        let above := v =? -1 in
        if negb (Bool.eqb (x <? 0) (y <? 0)) then (Thrown, d)
        else
          let increaseSlope := if x <? 0 then negb above else above in
          let pos := if x <? 0 then 1 - db d - dp d else dp d in
          let divPos := if increaseSlope then pos else pos + db d - 1 in
          if db d =? 0 then (Undefined, d)
          else
            let k := findK (Z.to_nat (db d)) (da d) (db d) divPos 0 in
            let l := Z.quot (da d * k - divPos) (db d) in
            let a' := Z.abs y - l in
            let b' := Z.abs x - k in
            let at' := a' * x - b' * y in
            let d' := mkDsl a' b' (if above then at' else at' - b' + 1) in
            if dslContains eight d' x y then (Returned true, d') else (Thrown, d').

(** dsl.hxx 204-327: tangentDSL.  An iterator is the index it points at; reading at the end is undefined behaviour.  [asserts]:
    vigra_assert is compiled in (no NDEBUG).  Both loops can run forever, so they carry fuel. *)
Section Tangent.
Variables (asserts closed : bool) (codes : list Z).
Let n := length codes.

(** dsl.hxx 234-241, 307-314: advance forwardIter; None: the end of an open polygon *)
Definition fwdNext (i : nat) : option nat :=
  if (S i =? n)%nat then (if closed then Some 0%nat else None) else Some (S i).
(** dsl.hxx 246-253, 316-323: move backwardIter *)
Definition bwdNext (i : nat) : option nat :=
  if (i =? 0)%nat then (if closed then Some (n - 1)%nat else None) else Some (i - 1)%nat.

(** dsl.hxx 231-266: None is "return 0" *)
Fixpoint codesLoop (fuel : nat) (start fwd bwd : nat) (fc1 fc2 : Z) : res (option Z) :=
  if fc2 =? fc1 then
    match fuel with
    | O => NoFuel
    | S fuel' =>
        match fwdNext fwd with
        | None => Ok None
        | Some fwd =>
            if asserts && (fwd =? start)%nat then Exn
            else
              match bwdNext bwd with
              | None => Ok None
              | Some bwd =>
                  if asserts && negb (bwd =? start)%nat then Exn
                  else
                    f <- vget codes fwd ;; b <- vget codes bwd ;;
                    if negb (f =? fc2) then
                      (if negb (b =? fc1) && negb (b =? f) then Ok None else codesLoop fuel' start fwd bwd fc1 f)
                    else codesLoop fuel' start fwd bwd fc1 b
              end
        end
    end
  else Ok (Some fc2).

(** dsl.hxx 291, 297 and 294, 300: the line in coordinates relative to [o], and back *)
Definition shiftTo (d : dsl) (o : Z * Z) : dsl := mkDsl (da d) (db d) (dp d - dslAt d (fst o) (snd o)).
Definition shiftBack (d : dsl) (o : Z * Z) : dsl := mkDsl (da d) (db d) (dp d + dslAt d (fst o) (snd o)).

(** dsl.hxx 277-324 *)
Fixpoint tangentLoop (fuel : nat) (fwd bwd : nat) (fc1 fc2 : Z) (tangent : dsl) (origin point1 point2 : Z * Z) (dist : nat) (out : dsl) :
  res (nat * dsl) :=
  match fuel with
  | O => NoFuel
  | S fuel' =>
      f <- vget codes fwd ;;
      if negb (f =? fc1) && negb (f =? fc2) then Ok (dist, out)
      else
        let point1 := (fst point1 + 1, snd point1 + Z.land f 1) in
        b <- vget codes bwd ;;
        if negb (b =? fc1) && negb (b =? fc2) then Ok (dist, out)
        else
          let point2 := (fst point2 - 1, snd point2 - Z.land b 1) in
          match addPoint true (shiftTo tangent origin) (fst point1 - fst origin) (snd point1 - snd origin) with
          | (Thrown, _) => Exn
          | (Undefined, _) => UB
          | (Returned false, _) => Ok (dist, out)
          | (Returned true, t1) =>
              let t1 := shiftBack t1 origin in
              match addPoint true (shiftTo t1 point1) (fst point2 - fst point1) (snd point2 - snd point1) with
              | (Thrown, _) => Exn
              | (Undefined, _) => UB
              | (Returned false, _) => Ok (dist, out)
              | (Returned true, t2) =>
                  let t2 := shiftBack t2 point1 in
                  match fwdNext fwd with
                  | None => Ok (S dist, t2)
                  | Some fwd =>
                      match bwdNext bwd with
                      | None => Ok (S dist, t2)
                      | Some bwd => tangentLoop fuel' fwd bwd fc1 fc2 t2 point2 point1 point2 (S dist) t2
                      end
                  end
              end
          end
  end.

(** dsl.hxx 204-327; [out] is the content of the argument dsl before the call *)
Definition tangentDSL (fuel : nat) (pointIndex : nat) (out : dsl) : res (nat * dsl) :=
  if negb (closed || ((0 <? pointIndex)%nat && (pointIndex <? n)%nat)) then Exn
  else if closed && (n =? 0)%nat then UB
  else
    let start := if closed then (pointIndex mod n)%nat else pointIndex in
    let bwd := if (start =? 0)%nat then (n - 1)%nat else (start - 1)%nat in
    fc1 <- vget codes start ;; fc2 <- vget codes bwd ;;
    o <- codesLoop fuel start start bwd fc1 fc2 ;;
    match o with
    | None => Ok (0%nat, out)
    | Some fc2 =>
        tangentLoop fuel start bwd fc1 fc2 (mkDsl (Z.land fc1 1) 1 0) (0, 0) (0, 0) (0, 0) 0 out
    end.
End Tangent.
