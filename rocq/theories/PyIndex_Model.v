(** Model of how the Python module indexes arrays, polygons and darts (src/python_bindings/exporthelpers.hxx 46-109, src/python_bindings/polygon.cxx 167-200,
    src/geomap/cppmap.hxx 921-932).

    int has 32 bits, size_t 64.  [Exn] is Python's IndexError; converting Python's integers to int is left to Boost (which refuses those that do not fit). *)
From Verif Require Import Base GeoMap_Model Polygon_Model.
Local Open Scope Z_scope.

(** conversions to unsigned int and to int *)
Definition toUnsigned (z : Z) : Z := z mod 2 ^ 32.
Definition toInt (z : Z) : Z := let u := z mod 2 ^ 32 in if u <? 2 ^ 31 then u else u - 2 ^ 32.
(** exporthelpers.hxx 46-56: checkPythonIndex; [size] is an unsigned int *)
Definition checkPythonIndex (i size : Z) : res Z :=
  let j := if i <? 0 then toInt (toUnsigned i + size) else i in
  if size <=? toUnsigned j then Exn else Ok j.
(** a.size() as an unsigned int *)
Definition usize {A} (a : list A) : Z := toUnsigned (Z.of_nat (length a)).
(** a[j], p.begin() + j: a negative int is not a position *)
Definition position (j : Z) : res nat := if j <? 0 then UB else Ok (Z.to_nat j).

(** exporthelpers.hxx 58-64, 95-101: Array__getitem__, Array__getitem__byref *)
Definition pyGet {A} (a : list A) (i : Z) : res A := j <- checkPythonIndex i (usize a) ;; k <- position j ;; vget a k.
(** exporthelpers.hxx 103-109: Array__setitem__ *)
Definition pySet {A} (a : list A) (i : Z) (v : A) : res (list A) := j <- checkPythonIndex i (usize a) ;; k <- position j ;; vset a k v.
(** polygon.cxx 167-174: Polygon__setitem__ *)
Definition polySet (p : poly) (i : Z) (v : point) : res poly := j <- checkPythonIndex i (usize (ppts p)) ;; k <- position j ;; setPoint p k v.
(** polygon.cxx 176-187: insert *)
Definition polyInsert (p : poly) (i : Z) (x : point) : res poly :=
  j <- checkPythonIndex i (toUnsigned (Z.of_nat (length (ppts p)) + 1)) ;; k <- position j ;; insertPt p k x.
(** polygon.cxx 189-194: erase, which is Polygon.__delitem__ *)
Definition polyErase (p : poly) (i : Z) : res poly :=
  j <- checkPythonIndex i (toUnsigned (Z.of_nat (length (ppts p)) + 1)) ;; k <- position j ;; erasePt p k.
(** polygon.cxx 196-201: split; what remains, and the result *)
Definition polySplit (p : poly) (i : Z) : res (poly * poly) := j <- checkPythonIndex i (usize (ppts p)) ;; k <- position j ;; splitPoly p k.
(** Array__getitem__<GeoMap::Dart> (cppmapmodule.cxx 1282) with cppmap.hxx 921-932; [pts] are the points of the edge, [forward]: label_ > 0 *)
Definition dartGet {A} (pts : list A) (forward : bool) (i : Z) : res A :=
  j <- checkPythonIndex i (usize pts) ;; k <- position (if forward then j else Z.of_nat (length pts) - 1 - j) ;; vget pts k.
