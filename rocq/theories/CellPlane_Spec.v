(** What C78 says, and the invariant: the lines of a map in the plane. *)
From Verif Require Import Base CellMap_Model CellMap_Spec CellMap_Init CellSigma_Spec CellLink_Spec CellFace_Spec CellStart_Spec CellContour_Spec CellThresh_Spec CellTotal_Spec CellJordan_Spec.
Local Open Scope Z_scope.

(** ** Histories *)
(** a map as a constructor leaves it, of an image whose faces hang together, and after calls with darts *)
Inductive phistory : cmap -> Prop :=
| ph_start crack outer comps im m : wfImg im -> framed im -> clean im -> rightAreas crack im -> exactParts comps im -> ruled im -> whole im -> import crack outer comps im = Ok m -> phistory m
| ph_call m c m' s : phistory m -> faceAllowed (cim m) c -> cexec m c = Ok (m', s) -> phistory m'.

(** calls with darts of the map, one after the other; one that is refused leaves the map *)
Fixpoint dartCalls (m : cmap) (cs : list ccall) : Prop :=
  match cs with [] => True | c :: t => faceAllowed (cim m) c /\ match cexec m c with Ok r => dartCalls (fst r) t | _ => dartCalls m t end end.

(** ** The invariant *)
Definition near (im : img) (x y k : Z) : ctype := ptype (ipix im (x + dirX (k mod 8)) (y + dirY (k mod 8))).
(** a side of a line pixel towards a region *)
Definition lineSide (im : img) (x y j : Z) : Prop := In j [0; 2; 4; 6] /\ lineAt im x y /\ near im x y j = Region.
(** [L z x y j]: the side (x, y, j) lies on the left of the dart [z] on its way along its edge.  Counter-clockwise around the contour, the next side belongs to the same dart until its node is met. *)
Definition steps (im : img) (L : dart -> Z -> Z -> Z -> Prop) (z : dart) (x y j : Z) : Prop :=
  let q := near im x y (j + 2) in let qx := x + dirX ((j + 2) mod 8) in let qy := y + dirY ((j + 2) mod 8) in
  let s := near im x y (j + 1) in let sx := x + dirX ((j + 1) mod 8) in let sy := y + dirY ((j + 1) mod 8) in
  (s = Region -> q = Region -> L z x y ((j + 2) mod 8)) /\
  (q = Vertex -> z = Dart qx qy ((j + 6) mod 8)) /\
  (q = Line -> s = Region -> L z qx qy j) /\
  (q = Line -> s = Line -> L z sx sy ((j + 6) mod 8)) /\
  (q = Line -> s = Vertex -> z = Dart sx sy ((j + 4) mod 8)) /\
  (q = Region -> s = Line -> L z sx sy ((j + 6) mod 8)) /\
  (q = Region -> s = Vertex -> z = Dart sx sy ((j + 5) mod 8)).
(** the first side on the right of a dart belongs to the opposite dart *)
Definition starts (im : img) (L : dart -> Z -> Z -> Z -> Prop) (x y k : Z) (b : dart) : Prop :=
  (Z.odd k = true -> L b (x + dirX k) (y + dirY k) ((k + 5) mod 8)) /\
  (Z.odd k = false -> near im x y (k + 7) = Region -> L b (x + dirX k) (y + dirY k) ((k + 6) mod 8)) /\
  (Z.odd k = false -> near im x y (k + 7) = Line -> near im x y (k + 6) = Region -> L b (x + dirX ((k + 7) mod 8)) (y + dirY ((k + 7) mod 8)) ((k + 4) mod 8)).
Definition tracked (m : cmap) (L : dart -> Z -> Z -> Z -> Prop) : Prop :=
  (forall x y j, lineSide (cim m) x y j -> exists z, L z x y j) /\
  (forall z x y j, lineSide (cim m) x y j -> L z x y j -> isDart (cim m) z /\ edgeOf (cim m) z = plabel (ipix (cim m) x y)) /\
  (forall z w x y j, lineSide (cim m) x y j -> L z x y j -> L w x y j -> z = w) /\
  (forall z x y j, lineSide (cim m) x y j -> L z x y j -> steps (cim m) L z x y j) /\
  (forall x y k b, isDart (cim m) (Dart x y k) -> nextAlpha m (Dart x y k) = Ok b -> starts (cim m) L x y k b).
(** the pixels of an edge hang together, and from each of them one gets out of the edge *)
Definition strung (im : img) : Prop := forall l x y u v, owns im Line l x y -> owns im Line l u v -> reach ways8 (owns im Line l) x y u v.
Definition opened (im : img) : Prop := forall l x y, owns im Line l x y -> exists u v k, reach ways4 (owns im Line l) x y u v /\ In k ways4 /\ regionAt im (u + dirX k) (v + dirY k).
Definition planar (m : cmap) : Prop := faced m /\ whole (cim m) /\ strung (cim m) /\ opened (cim m) /\ exists L, tracked m L.
