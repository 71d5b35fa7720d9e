(** Model of Polygon::contains and BBoxPolygon::contains (src/geomap/polygon.hxx 306-345, 602-619), and of Face::contains and
    GeoMap::faceAt without a label image (src/geomap/cppmap.hxx 1146-1192, src/geomap/cppmap.cxx 309-330).

    Coordinates are rational numbers (no rounding).  The bounding boxes are computed afresh: their caches are the subject of
    Polygon_Model.v.  Reading the first or last point of an empty polygon is undefined behaviour. *)
From Coq Require Import QArith.
From Verif Require Import Base GeoMap_Model GeoMap_IterModel.
Local Open Scope Q_scope.

Notation qpt := (Q * Q)%type.
Definition Qltb (a b : Q) : bool := negb (Qle_bool b a).

(** operator==(Vector2, Vector2) *)
Definition samePt (a b : qpt) : bool := Qeq_bool (fst a) (fst b) && Qeq_bool (snd a) (snd b).

(** polygon.hxx 307-310 *)
Definition closed (l : list qpt) : res bool :=
  a <- vget l 0 ;; b <- vget l (length l - 1) ;; Ok (samePt b a).

(** polygon.hxx 333-337 *)
Definition intersectX (a b p : qpt) : Q := fst a + (fst b - fst a) * (snd p - snd a) / (snd b - snd a).

(** polygon.hxx 328-343 *)
Fixpoint containsLoop (prev : qpt) (above : bool) (l : list qpt) (p : qpt) (result : nat) : nat :=
  match l with
  | [] => result
  | q :: t =>
      let now := Qltb (snd q) (snd p) in
      if negb (Bool.eqb now above) then
        containsLoop q now t p (if Qltb (intersectX prev q p) (fst p) then S result else result)
      else containsLoop q above t p result
  end.
(** polygon.hxx 322-345 *)
Definition contains (l : list qpt) (p : qpt) : res bool :=
  c <- closed l ;;
  if c then a <- vget l 0 ;; Ok (Nat.odd (containsLoop a (Qltb (snd a) (snd p)) (tl l) p 0)) else Exn.

(** vigra::Box<double, 2>: None is the empty box, the others are closed; operator|=(Vector), operator|=(Box), contains *)
Record qbox := mkQbox { qx0 : Q; qy0 : Q; qx1 : Q; qy1 : Q }.
Definition Qmin2 (a b : Q) : Q := if Qle_bool a b then a else b.
Definition Qmax2 (a b : Q) : Q := if Qle_bool a b then b else a.
Definition qboxAdd (o : option qbox) (p : qpt) : option qbox :=
  match o with
  | None => Some (mkQbox (fst p) (snd p) (fst p) (snd p))
  | Some b => Some (mkQbox (Qmin2 (qx0 b) (fst p)) (Qmin2 (qy0 b) (snd p)) (Qmax2 (qx1 b) (fst p)) (Qmax2 (qy1 b) (snd p)))
  end.
Definition qboxJoin (o o' : option qbox) : option qbox :=
  match o, o' with
  | o, None => o
  | None, o' => o'
  | Some a, Some b => Some (mkQbox (Qmin2 (qx0 a) (qx0 b)) (Qmin2 (qy0 a) (qy0 b)) (Qmax2 (qx1 a) (qx1 b)) (Qmax2 (qy1 a) (qy1 b)))
  end.
Definition qboxContains (o : option qbox) (p : qpt) : bool :=
  match o with
  | None => false
  | Some b => Qle_bool (qx0 b) (fst p) && Qle_bool (fst p) (qx1 b) && Qle_bool (qy0 b) (snd p) && Qle_bool (snd p) (qy1 b)
  end.
(** polygon.hxx 609-619 *)
Definition bbox (l : list qpt) : option qbox := fold_left qboxAdd l None.
(** polygon.hxx 602-607 *)
Definition bboxContains (l : list qpt) (p : qpt) : res bool :=
  if qboxContains (bbox l) p then contains l p else Ok false.

(** the points of the map's edges as rational points *)
Definition toQ (p : point) : qpt := (inject_Z (fst p), inject_Z (snd p)).

(** cppmap.hxx 1152-1161: the box of the contour through [d0] *)
Fixpoint contourBoxLoop (n : nat) m (d0 d : Z) (o : option qbox) : res (option qbox) :=
  match n with
  | O => NoFuel
  | S k =>
      e <- deref (edgeP m (elab d)) ;;
      let o := qboxJoin o (bbox (map toQ (epts e))) in
      d' <- nextPhi m d ;;
      if (d' =? d0)%Z then Ok o else contourBoxLoop k m d0 d' o
  end.
Definition contourBox m d : res (option qbox) := contourBoxLoop (fuel m) m d d None.

(** cppmap.hxx 1186-1190: no hole contains the point *)
Fixpoint outsideHoles m (anchors : list Z) (p : qpt) : res bool :=
  match anchors with
  | [] => Ok true
  | a :: t => l <- contourPoly m a ;; c <- contains (map toQ l) p ;; if c then Ok false else outsideHoles m t p
  end.
(** cppmap.hxx 1166-1192 for labelImage_ = NULL; the first anchor of a face without contours does not exist *)
Definition faceContains m (l : nat) (f : face) (p : qpt) : res bool :=
  match l, fanchors f with
  | O, holes => outsideHoles m holes p
  | S _, [] => UB
  | S _, a :: holes =>
      b <- contourBox m a ;;
      if qboxContains b p then
        poly <- contourPoly m a ;; c <- contains (map toQ poly) p ;;
        if c then outsideHoles m holes p else Ok false
      else Ok false
  end.
(** cppmap.cxx 326-330: the finite faces from label [l] on *)
Fixpoint faceAtLoop m (l : nat) (fs : list (option face)) (p : qpt) : res nat :=
  match fs with
  | [] => Ok 0%nat
  | None :: t => faceAtLoop m (S l) t p
  | Some f :: t => c <- faceContains m l f p ;; if c then Ok l else faceAtLoop m (S l) t p
  end.
(** cppmap.cxx 309-330 for labelImage_ = NULL *)
Definition faceAt m (p : qpt) : res nat :=
  match faces m with
  | [] => Exn
  | _ :: t => faceAtLoop m 1 t p
  end.
