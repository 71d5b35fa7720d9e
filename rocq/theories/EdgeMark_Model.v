(** Model of markEdgeInLabelImage and removeEdgeFromLabelImage (src/python_bindings/polygon.cxx 1670-1740), exported as functions on scanlines and label images.

    Simplifications: the pixels are float in the code and integers here, so counts above 2^24 are left out; NaN and labels that are not whole numbers, too.  The Python list of points is a list. *)
From Verif Require Import Base Scanlines_Model Image_Model.
Local Open Scope Z_scope.

(** for(j = 0; j < scanline.size(); ++j), polygon.cxx 1681, 1716 *)
Fixpoint forSegs {S : Type} (l : list seg) (body : seg -> S -> res S) (s : S) : res S :=
  match l with
  | [] => Ok s
  | g :: t => s' <- body g s ;; forSegs t body s'
  end.
(** polygon.cxx 1684-1689, 1719-1724: X range checking *)
Definition clipBegin (g : seg) : Z := if sbeg g <? 0 then 0 else sbeg g.
Definition clipEnd (w : Z) (g : seg) : Z := if send g >? w then w else send g.
(** polygon.cxx 1674-1691, 1709-1726: the three loops; [body] is what is done at each pixel of the scanlines that lies in the image *)
Definition forPixels {S : Type} (s : scanlines) (w h : Z) (body : Z -> Z -> S -> res S) : S -> res S :=
  forZ (Z.max 0 (sl_start s)) (Z.min h (endIndex s)) (fun y st =>
    l <- lineAt s y ;; forSegs l (fun g => forZ (clipBegin g) (clipEnd w g) (fun x => body x y)) st).
(** polygon.cxx 1670-1699 *)
Definition markEdge (s : scanlines) (im : image) : res image :=
  forPixels s (iw im) (ih im) (fun x y im => old <- getPx im x y ;; putPx im x y (if old <? 0 then old - 1 else -1)) im.
(** polygon.cxx 1701-1740 *)
Definition removeEdge (s : scanlines) (im : image) (substitute : Z) : res (image * list (Z * Z)) :=
  forPixels s (iw im) (ih im) (fun x y r => old <- getPx (fst r) x y ;;
    if negb (old =? -1) then im' <- putPx (fst r) x y (old + 1) ;; Ok (im', snd r)
    else im' <- putPx (fst r) x y substitute ;; Ok (im', snd r ++ [(x, y)])) (im, []).
(** polygon.cxx 105-117: Scanlines.__getitem__ *)
Definition scanlineAt (s : scanlines) (i : Z) : res (list seg) := if (i <? sl_start s) || (i >=? endIndex s) then Exn else lineAt s i.
(** [for l in scanlines]: there is no __iter__ (polygon.cxx 1929-1936), so Python calls __getitem__ with 0, 1, ... until IndexError is raised; this protocol is taken from Python *)
Fixpoint iterateRows (fuel : nat) (s : scanlines) (i : Z) : res (list (list seg)) :=
  match fuel with
  | O => NoFuel
  | Datatypes.S k => match scanlineAt s i with Ok l => r <- iterateRows k s (i + 1) ;; Ok (l :: r) | Exn => Ok [] | UB => UB | NoFuel => NoFuel end
  end.
