(** What C46, C62 and C63 say about the pixel based map. *)
From Verif Require Import Base CellMap_Model.
Local Open Scope Z_scope.

(** the pixel (x, y) is one of the image and carries the type and the label *)
Definition owns (im : img) (t : ctype) (l x y : Z) : Prop := 0 <= x < iw im /\ 0 <= y < ih im /\ ipix im x y = Pix t l.

(** an image as it can exist: sizes are ints, labels have 30 bits *)
Definition wfImg (im : img) : Prop :=
  0 < iw im /\ 0 < ih im /\ iw im * ih im < 2 ^ 31 /\ forall x y, 0 <= x < iw im -> 0 <= y < ih im -> 0 <= plabel (ipix im x y) < 2 ^ 30.

Definition inRect (r : rect) (x y : Z) : Prop := rx0 r <= x < rx1 r /\ ry0 r <= y < ry1 r.

(** [P] holds of exactly [n] pixels *)
Definition manyPixels (P : Z -> Z -> Prop) (n : Z) : Prop :=
  exists ps : list (Z * Z), NoDup ps /\ (forall x y, In (x, y) ps <-> P x y) /\ Z.of_nat (length ps) = n.

(** [r] is the bounding rectangle of the pixels of [P]: it has them all, and each of its four sides is touched by one *)
Definition exactRect (P : Z -> Z -> Prop) (r : rect) : Prop :=
  (forall x y, P x y -> inRect r x y) /\
  (exists y, P (rx0 r) y) /\ (exists y, P (rx1 r - 1) y) /\ (exists x, P x (ry0 r)) /\ (exists x, P x (ry1 r - 1)).

(** the information stored about the cells of a type, by label *)
Definition cellsOf (m : cmap) (t : ctype) : list cinfo :=
  match t with Region => map finf (cfaces m) | Line => map einf (cedges m) | Vertex => map ninf (cnodes m) | ErrorType => [] end.
Definition countOf (m : cmap) (t : ctype) : Z :=
  match t with Region => faceCount m | Line => edgeCount m | Vertex => nodeCount m | ErrorType => 0 end.
Definition isCell (m : cmap) (t : ctype) (l : nat) (c : cinfo) : Prop := nth_error (cellsOf m t) l = Some c /\ initialized c = true.

(** the book-keeping is that of a recount *)
Definition recountOf (im : img) (cells : ctype -> list cinfo) (counts : ctype -> Z) : Prop :=
  (forall t l c, nth_error (cells t) l = Some c -> initialized c = true ->
     clabel c = Z.of_nat l /\ exactRect (owns im t (Z.of_nat l)) (cbounds c) /\
     (~ (t = Region /\ l = 0%nat) -> manyPixels (owns im t (Z.of_nat l)) (csize c))) /\
  (forall t l x y, owns im t l x y -> t <> ErrorType -> exists c, nth_error (cells t) (Z.to_nat l) = Some c /\ initialized c = true) /\
  (forall t, t <> ErrorType -> counts t = Z.of_nat (length (filter initialized (cells t)))).
Definition recount (m : cmap) : Prop := recountOf (cim m) (cellsOf m) (countOf m).

(** what the arrays can hold *)
Definition wfMap (m : cmap) : Prop := wfImg (cim m) /\ forall t, Z.of_nat (length (cellsOf m t)) <= 2 ^ 30.

(** the frame the constructors put around the image belongs to the infinite face *)
Definition framed (im : img) : Prop :=
  forall x y, 0 <= x < iw im -> 0 <= y < ih im -> x = 0 \/ x = iw im - 1 \/ y = 0 \/ y = ih im - 1 -> ipix im x y = Pix Region 0.

Definition sound (m : cmap) : Prop := wfMap m /\ framed (cim m) /\ recount m.

(** ** What the calls need *)

(** the pixels of the node have only pixels of the node and of the face around them *)
Definition isolatedIn (im : img) (n f : Z) : Prop :=
  forall x y, owns im Vertex n x y -> forall k, In k [0; 2; 4; 6] ->
    owns im Vertex n (x + dirX k) (y + dirY k) \/ owns im Region f (x + dirX k) (y + dirY k).
(** the labels left and right of the dart are those of faces of the map; the opposite dart has the same edge and the faces the other way round *)
Definition sidesLive (m : cmap) (d : dart) : Prop :=
  (forall l, leftFaceLabel (cim m) d = Ok l -> exists c, isCell m Region (Z.to_nat l) c) /\
  (forall l, rightFaceLabel (cim m) d = Ok l -> exists c, isCell m Region (Z.to_nat l) c).
Definition sidesSwapped (m : cmap) (d : dart) : Prop :=
  forall d', nextAlpha m d = Ok d' ->
    edgeLabel (cim m) d' = edgeLabel (cim m) d /\
    leftFaceLabel (cim m) d' = rightFaceLabel (cim m) d /\ rightFaceLabel (cim m) d' = leftFaceLabel (cim m) d.

Definition callAllowed (m : cmap) (c : ccall) : Prop :=
  match c with
  | CRemoveIsolatedNode d =>
      exists n f, owns (cim m) Vertex n (dcx d) (dcy d) /\ leftFaceLabel (cim m) d = Ok f /\ isolatedIn (cim m) n f
  | CMergeFaces d => sidesLive m d /\ sidesSwapped m d
  | CRemoveBridge _ => True
  | CMergeEdges _ => True
  end.

Inductive chistory (P : cmap -> Prop) : cmap -> Prop :=
| ch_start m : P m -> chistory P m
| ch_call m c m' s : chistory P m -> callAllowed m c -> cexec m c = Ok (m', s) -> chistory P m'.

(** the pixels of the cells in [gone] now belong to the cell (t, l) and these cells are cells no more; all other pixels and all other cells are as before *)
Definition takenOverOf (im : img) (cells : ctype -> list cinfo) (im' : img) (cells' : ctype -> list cinfo) (t : ctype) (l : Z) (gone : list (ctype * Z)) : Prop :=
  iw im' = iw im /\ ih im' = ih im /\
  (forall x y, 0 <= x < iw im -> 0 <= y < ih im ->
    (In (ptype (ipix im x y), plabel (ipix im x y)) gone -> ipix im' x y = Pix t l) /\
    (~ In (ptype (ipix im x y), plabel (ipix im x y)) gone -> ipix im' x y = ipix im x y)) /\
  (forall u k, (exists c, nth_error (cells' u) k = Some c /\ initialized c = true) <->
               (exists c, nth_error (cells u) k = Some c /\ initialized c = true) /\ ~ In (u, Z.of_nat k) gone) /\
  (forall u k, ~ In (u, Z.of_nat k) ((t, l) :: gone) -> nth_error (cells' u) k = nth_error (cells u) k).
Definition takenOver (m m' : cmap) (t : ctype) (l : Z) (gone : list (ctype * Z)) : Prop :=
  takenOverOf (cim m) (cellsOf m) (cim m') (cellsOf m') t l gone.

(** what the four operations do; [s] is the label of the cell returned *)
Definition callEffect (m m' : cmap) (c : ccall) (s : Z) : Prop :=
  match c with
  | CRemoveIsolatedNode d => exists n, startNodeLabel (cim m) d = Ok n /\ leftFaceLabel (cim m) d = Ok s /\ takenOver m m' Region s [(Vertex, n)]
  | CMergeFaces d =>
      exists e f l r, edgeLabel (cim m) d = Ok e /\ leftFaceLabel (cim m) d = Ok l /\ rightFaceLabel (cim m) d = Ok r /\
        ((s = l /\ f = r) \/ (s = r /\ f = l)) /\ takenOver m m' Region s [(Line, e); (Region, f)]
  | CRemoveBridge d =>
      exists e, edgeLabel (cim m) d = Ok e /\ leftFaceLabel (cim m) d = Ok s /\ rightFaceLabel (cim m) d = Ok s /\ takenOver m m' Region s [(Line, e)]
  | CMergeEdges d =>
      exists n e d1, nextSigma (cim m) d = Ok d1 /\ (startNodeLabel (cim m) d = Ok n \/ startNodeLabel (cim m) d1 = Ok n) /\
        ((edgeLabel (cim m) d = Ok s /\ edgeLabel (cim m) d1 = Ok e) \/ (edgeLabel (cim m) d = Ok e /\ edgeLabel (cim m) d1 = Ok s)) /\
        takenOver m m' Line s [(Vertex, n); (Line, e)]
  end.
