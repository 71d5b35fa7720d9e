(** What C86, C87 and C88 say about the rethinning of edges. *)
From Verif Require Import Base CellMap_Model CellMap_Spec.
Local Open Scope Z_scope.

(** the rectangle stored with each cell is the bounding rectangle of its pixels *)
Definition boundsRight (m : cmap) : Prop := forall t l c, isCell m t l c -> exactRect (owns (cim m) t (Z.of_nat l)) (cbounds c).
(** every pixel of the image belongs to a cell of the map *)
Definition isLive (m : cmap) (p : pix) : Prop := 0 <= plabel p /\ exists c, isCell m (ptype p) (Z.to_nat (plabel p)) c.
Definition pixelsLive (m : cmap) : Prop := forall x y, 0 <= x < iw (cim m) -> 0 <= y < ih (cim m) -> isLive m (ipix (cim m) x y).

(** the images differ in the pixel (x, y) only, which is now [v] *)
Definition onePixel (im im' : img) (x y : Z) (v : pix) : Prop :=
  iw im' = iw im /\ ih im' = ih im /\ ipix im' x y = v /\ forall a b, (a, b) <> (x, y) -> ipix im' a b = ipix im a b.
(** labels, sizes, anchors, contours and counters are as before: the maps differ in the image and in the rectangles at most *)
Definition sameButBounds (m m' : cmap) : Prop :=
  map (fun n => (clabel (ninf n), csize (ninf n), nanchor n, ndegree n)) (cnodes m') = map (fun n => (clabel (ninf n), csize (ninf n), nanchor n, ndegree n)) (cnodes m) /\
  map (fun e => (clabel (einf e), csize (einf e), estart e, eend e)) (cedges m') = map (fun e => (clabel (einf e), csize (einf e), estart e, eend e)) (cedges m) /\
  map (fun f => (clabel (finf f), csize (finf f), fcontours f)) (cfaces m') = map (fun f => (clabel (finf f), csize (finf f), fcontours f)) (cfaces m) /\
  nodeCount m' = nodeCount m /\ edgeCount m' = edgeCount m /\ faceCount m' = faceCount m /\ cinit m' = cinit m.

(** one of the eight pixels around (x, y) belongs to the same cell *)
Definition hasContact (im : img) (x y : Z) : Prop :=
  exists a b, (a, b) <> (x, y) /\ x - 1 <= a <= x + 1 /\ y - 1 <= b <= y + 1 /\ owns im (ptype (ipix im x y)) (plabel (ipix im x y)) a b.

(** the rectangle lies in the image *)
Definition throughout (im : img) (r : rect) : Prop := 0 <= rx0 r /\ rx1 r <= iw im /\ 0 <= ry0 r /\ ry1 r <= ih im.
(** a pixel of the edge is given to the face whose label has grown over it, or stays; no other pixel changes *)
Definition thinned (im im' : img) (e : Z) (grown : Z -> Z -> Z) : Prop :=
  iw im' = iw im /\ ih im' = ih im /\
  (forall x y, owns im Line e x y -> grown x y = 0 -> ipix im' x y = Pix Line e) /\
  (forall x y, owns im Line e x y -> grown x y <> 0 -> ipix im' x y = Pix Region (grown x y)) /\
  (forall x y, ~ owns im Line e x y -> ipix im' x y = ipix im x y).
(** darts, contours and labels are as before, and so is all that is known of the other cells *)
Definition restKept (m m' : cmap) (e f1 f2 : Z) : Prop :=
  cnodes m' = cnodes m /\
  map (fun i => (clabel (einf i), estart i, eend i)) (cedges m') = map (fun i => (clabel (einf i), estart i, eend i)) (cedges m) /\
  map (fun i => (clabel (finf i), fcontours i)) (cfaces m') = map (fun i => (clabel (finf i), fcontours i)) (cfaces m) /\
  (forall l, l <> Z.to_nat e -> nth_error (cedges m') l = nth_error (cedges m) l) /\
  (forall l, l <> Z.to_nat f1 -> l <> Z.to_nat f2 -> nth_error (cfaces m') l = nth_error (cfaces m) l) /\
  nodeCount m' = nodeCount m /\ edgeCount m' = edgeCount m /\ faceCount m' = faceCount m /\ cinit m' = cinit m.

(** the centre (x, y) and the pixel (a, b) next to it change hands: (a, b) goes to the cell of the centre, the centre to the cell of the pixel opposite of (a, b) *)
Definition relocated (im im' : img) (x y a b : Z) : Prop :=
  x - 1 <= a <= x + 1 /\ y - 1 <= b <= y + 1 /\ (a, b) <> (x, y) /\
  iw im' = iw im /\ ih im' = ih im /\ ipix im' a b = ipix im x y /\ ipix im' x y = ipix im (2 * x - a) (2 * y - b) /\
  forall u v, (u, v) <> (x, y) -> (u, v) <> (a, b) -> ipix im' u v = ipix im u v.

(** the pixel in direction [k] of (x, y) belongs to the same cell *)
Definition goesOn (im : img) (x y k : Z) : Prop := ipix im (x + dirX (k mod 8)) (y + dirY (k mod 8)) = ipix im x y.
Definition inDirection (x y k a b : Z) : Prop := a = x + dirX (k mod 8) /\ b = y + dirY (k mod 8).
Definition place (x y k : Z) : Z * Z := (x + dirX (k mod 8), y + dirY (k mod 8)).
(** the three pixels beyond the one in direction [k], seen from (x, y), belong to the same cell as that one *)
Definition agreeBeyond (im : img) (x y k : Z) : Prop :=
  forall i, In i [-1; 0; 1] -> ipix im (x + dirX (k mod 8) + dirX ((k + i) mod 8)) (y + dirY (k mod 8) + dirY ((k + i) mod 8)) = ipix im (x + dirX (k mod 8)) (y + dirY (k mod 8)).
Definition gradTo (grad : Z -> Z -> Z) (x y k : Z) : Z := grad (x + dirX (k mod 8)) (y + dirY (k mod 8)).

(** the configurations of the comment at cellstatistics.hxx 489-509: the cell goes on in the diagonal direction [k] and two or three directions further, and the gradient in between is higher *)
Definition mayTurn (im : img) (grad : Z -> Z -> Z) (x y k : Z) : Prop :=
  goesOn im x y k /\ (goesOn im x y (k + 2) \/ goesOn im x y (k + 3)) /\ grad x y < gradTo grad x y (k + 1).
(** ... or, reflected, three directions back; here it is the gradient there, and not in between, that has to be higher *)
Definition mayTurnBack (im : img) (grad : Z -> Z -> Z) (x y k : Z) : Prop :=
  goesOn im x y k /\ ~ mayTurn im grad x y k /\ goesOn im x y (k - 3) /\ grad x y < gradTo grad x y (k - 3).
(** (x, y) moves to (a, b), and [ps] are the points to be looked at later: the pixels on which the cell goes on *)
Definition configured (im : img) (grad : Z -> Z -> Z) (x y a b : Z) (ps : list (Z * Z)) : Prop :=
  exists k, In k [1; 3; 5; 7] /\
    ((mayTurn im grad x y k /\ agreeBeyond im x y (k + 1) /\ inDirection x y (k + 1) a b /\
      (ipix im (x + dirX ((k + 2) mod 8)) (y + dirY ((k + 2) mod 8)) = ipix im a b -> ps = [place x y k; place x y (k + 3)]) /\
      (ipix im (x + dirX ((k + 2) mod 8)) (y + dirY ((k + 2) mod 8)) <> ipix im a b -> ps = [place x y k; place x y (k + 2)])) \/
     (mayTurnBack im grad x y k /\ agreeBeyond im x y (k - 1) /\ inDirection x y (k - 1) a b /\ ps = [place x y k; place x y (k - 3)])).
(** (x, y) stays: the pixels beyond do not agree wherever it could move *)
Definition stuck (im : img) (grad : Z -> Z -> Z) (x y k : Z) : Prop :=
  (mayTurn im grad x y k -> ~ agreeBeyond im x y (k + 1)) /\ (mayTurnBack im grad x y k -> ~ agreeBeyond im x y (k - 1)).
(** what becomes of the map at one point: nothing, because it is no pixel of an edge or cannot move, or a move *)
Definition pointDone (m : cmap) (grad : Z -> Z -> Z) (x y : Z) (m' : cmap) (ps : list (Z * Z)) : Prop :=
  (m' = m /\ ps = [] /\ (ptype (ipix (cim m) x y) = Line -> forall k, In k [1; 3; 5; 7] -> stuck (cim m) grad x y k)) \/
  (ptype (ipix (cim m) x y) = Line /\ exists a b, relocated (cim m) (cim m') x y a b /\ configured (cim m) grad x y a b ps).
(** the points are taken from the front of the list one after the other, and new ones are put at its end *)
Inductive allDone (grad : Z -> Z -> Z) : cmap -> list (Z * Z) -> cmap -> Prop :=
| done_none m : allDone grad m [] m
| done_next m x y rest m1 ps m' : pointDone m grad x y m1 ps -> allDone grad m1 (rest ++ ps) m' -> allDone grad m ((x, y) :: rest) m'.
(** 1 if the pixel is one of the cell, otherwise 0 *)
Definition oneIf (p : pix) (t : ctype) (l : Z) : Z := if pixEqb p (Pix t l) then 1 else 0.
