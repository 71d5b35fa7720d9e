(** Model of the automatic protection of edges of the pixel based map (src/cellimage/cellstatistics.hxx 131-138, 230-248, 619-629).

    Simplifications: those of CellStats_Model.v; autoProtectionThreshold is a rational number and its product with the size is exact; a count of edgels does not overflow; edgels_ (never read) is left out. *)
From Coq Require Import QArith.
From Verif Require Import Base CellMap_Model CellMap_Init CellStats_Model.
Local Open Scope Z_scope.

Section Data.
(** segmentationData->edgelImage, segmentationData->autoProtectionThreshold *)
Variable edgels : vimg.
Variable threshold : Q.

(** cellstatistics.hxx 85 *)
Definition EPCanny : Z := 2.
(** cellstatistics.hxx 131-138: CountEdgels *)
Definition countEdgel (n v : Z) : Z := if v =? 0 then n else n + 1.
(** cellstatistics.hxx 237-243; the same at 621-628, at the end of postMergeEdges *)
Definition autoEdge (m : cmap) (s : cstats) (e : einfo) : res (cstats * bool) :=
  ps <- scanCell m Line (clabel (einf e)) true ;; n <- inspect countEdgel edgels ps 0 ;;
  protectEdge s (clabel (einf e)) EPCanny (negb (Qle_bool (inject_Z n) (inject_Z (csize (einf e)) * threshold))).
(** cellstatistics.hxx 244 *)
Definition autoStep (m : cmap) (st : cstats * rect) (e : einfo) : res (cstats * rect) :=
  r <- autoEdge m (fst st) e ;; Ok (fst r, if snd r then rectOr (snd st) (cbounds (einf e)) else snd st).
(** cellstatistics.hxx 230-248: initAutoProtection; vigra's Rect2D() is empty *)
Definition initAutoProtection (m : cmap) (s : cstats) : res (cstats * rect) :=
  forEach (autoStep m) (filter (fun e => initialized (einf e)) (cedges m)) (s, Rect 0 0 0 0).
End Data.
