(** What a label image has to show, and the histories considered.  Nothing here refers to the proofs. *)
From Coq Require Import QArith.
From Verif Require Import Base GeoMap_Model GeoMap_Spec Scanlines_Model ScanPoly_Spec LabelLUT_Model LabelImage_Model.
Local Open Scope Z_scope.

(** inside the image *)
Definition within st (x y : Z) : Prop := exists img, lim st = Some img /\ 0 <= x < iw img /\ 0 <= y < ih img.
(** the number stored in the label image *)
Definition pixel st (x y v : Z) : Prop := exists img, lim st = Some img /\ 0 <= x < iw img /\ 0 <= y < ih img /\ ipx img x y = v.

Section Spec.
Variable unit : positive.

(** the polygon passes through the open unit square around pixel ([x], [y]) *)
Definition crosses (pts : list point) (x y : Z) : Prop := chainMeets (inPixel x y) (map (toQ unit) pts).
(** edge [l] of the map does *)
Definition crossedBy m (l : nat) (x y : Z) : Prop := exists e, isEdge m l e /\ crosses (epts e) x y.

(** the edges crossing a pixel: [L] lists their labels, each once *)
Definition edgesAcross m (x y : Z) (L : list nat) : Prop := NoDup L /\ forall l, In l L <-> crossedBy m l x y.
End Spec.

(** the pixel reads as face [f] through labelAccessor() *)
Definition showsFace st (x y : Z) (f : nat) : Prop := within st x y /\ labelAt st x y = Ok (Z.of_nat f).
(** [ps] lists the pixels reading as face [f], each once *)
Definition pixelsOf st (f : nat) (ps : list (Z * Z)) : Prop := NoDup ps /\ forall x y, In (x, y) ps <-> showsFace st x y f.

(** ** Faces around a pixel *)

(** the darts met by nextPhi() from [a] until it returns *)
Definition roundTrip m (a : Z) (L : list Z) : Prop :=
  L <> [] /\ NoDup L /\ (forall i d, nth_error L i = Some d -> walk (nextPhi m) i a = Ok d) /\ walk (nextPhi m) (length L) a = Ok a.
Definition outerContour m (l : nat) (L : list Z) : Prop :=
  l <> 0%nat /\ exists f a t, isFace m l f /\ fanchors f = a :: t /\ roundTrip m a L.
Section Around.
Variable unit : positive.
(** the winding numbers of the darts add up to [w] *)
Inductive windings m (x y : Z) : list Z -> Z -> Prop :=
| wi_nil : windings m x y [] 0
| wi_cons d L ps w : ptsOf m d ps -> windings m x y L w -> windings m x y (d :: L) (winding x y (map (toQ unit) ps) + w).
(** the outer contour of face [l] touches the pixel *)
Definition rim m (l : nat) (x y : Z) : Prop := exists L d, outerContour m l L /\ In d L /\ crossedBy unit m (elab d) x y.
(** the outer contour of face [l] goes round the pixel without touching it *)
Definition around m (l : nat) (x y : Z) : Prop := exists L w, outerContour m l L /\ windings m x y L w /\ 0 < w /\ ~ rim m l x y.
End Around.

(** ** Histories *)

(** [p] lies on the segment from [a] to [b] *)
Definition onSegment (a p b : point) : Prop :=
  (fst p - fst a) * (snd b - snd a) = (snd p - snd a) * (fst b - fst a) /\
  Z.min (fst a) (fst b) <= fst p <= Z.max (fst a) (fst b) /\ Z.min (snd a) (snd b) <= snd p <= Z.max (snd a) (snd b).

(** preconditions of the calls that the functions do not check themselves, and polygons given to addEdge that
    connect the nodes *)
Definition lallowed st (c : lcall) : Prop :=
  match c with
  | LCall hk o => allowed (lg st) (Call hk o) /\ geometric (lg st) (Call hk o)
  | LInit ord par _ => allowed (lg st) (Init ord par)
  | LSetImage _ => True
  | LRelabel new _ => nth_error new 0 = Some 0%nat
  | LScan l => exists e, isEdge (lg st) l e
  | LCopy => True
  end.

(** calls that keep the cached scanlines up to date: a point inserted by splitEdge lies on the segment it splits; splitEdge without
    label image meets an edge whose scanlines have not been asked for; nodes are moved without label image and before the scanlines of
    their edges are asked for *)
Definition tracked st (c : lcall) : Prop :=
  match c with
  | LCall _ (OSplitEdge l k p ins) =>
      (lim st = None -> lsc st l = None) /\
      (lim st <> None -> ins = true -> forall e a b, isEdge (lg st) l e ->
         nth_error (epts e) k = Some a -> nth_error (epts e) (S k) = Some b -> onSegment a p b)
  | LCall _ (OSetPosition n _) =>
      lim st = None /\ forall l e, isEdge (lg st) l e -> estart e = n \/ eend e = n -> lsc st l = None
  | _ => True
  end.

(** The areas counted while the image is drawn by initializeMap: every pixel crossed by an edge is covered by a bridge or by the outer
    contour of a face drawn after all faces around the pixel. *)
Definition wellDrawn (unit : positive) m (ord : list nat) (x y : Z) : Prop :=
  (exists l e, isEdge m l e /\ isBridge e = true /\ crosses unit (epts e) x y) \/
  (exists i l, nth_error ord i = Some l /\ rim unit m l x y /\ forall j k, (i < j)%nat -> nth_error ord j = Some k -> ~ around unit m k x y).
Definition counted (unit : positive) st (c : lcall) : Prop :=
  tracked st c /\
  match c with
  | LInit ord par true => forall m', exec (lg st) (Init ord par) = Ok m' -> forall x y l, crossedBy unit m' l x y -> wellDrawn unit m' ord x y
  | LSetImage true => lim st = None -> larea st 0%nat = 0
  | _ => True
  end.

(** the calls that may be undefined: mergeEdges without label image while scanlines are cached, and switching the label image on before initializeMap *)
Definition hazard st (c : lcall) : Prop :=
  match c with
  | LCall _ (OMergeEdges _) => lim st = None /\ exists l s, lsc st l = Some s
  | LSetImage true => lim st = None /\ faces (lg st) = []
  | _ => False
  end.
(** the map without its image does what the model without image does *)
Definition mapPart st (c : lcall) st' : Prop :=
  match c with
  | LCall hk o => exec (lg st) (Call hk o) = Ok (lg st')
  | LInit ord par _ => exec (lg st) (Init ord par) = Ok (lg st')
  | LRelabel _ _ => True
  | _ => lg st' = lg st
  end.
(** calls that remove no edge and change no face label *)
Definition keepsFaces (c : lcall) : Prop :=
  match c with
  | LCall _ (ORemoveEdge _) | LCall _ (ORemoveBridge _) | LCall _ (OMergeFaces _) => False
  | LCall _ _ | LScan _ | LCopy => True
  | _ => False
  end.

(** face(l)->label() for every old label [l] when changeFaceLabels returns or throws *)
Definition heldLabels st (new : list nat) (mx : nat) : list nat :=
  snd (relabelFaces (faces (lg st)) new mx (seq 0 (length new)) (repeat None mx) (seq 0 (length new))).

Section Histories.
Variable srt : list seg -> list seg.
Variable unit : positive.
(** maps reachable from a new one by calls that satisfy [P] and return *)
Inductive lhistory (P : lmap -> lcall -> Prop) : lmap -> Prop :=
| lh_new w h : 0 <= w -> 0 <= h -> lhistory P (newMap w h)
| lh_call st c st' : lhistory P st -> lallowed st c -> P st c -> lexec srt unit st c = Ok st' -> lhistory P st'.
End Histories.
Definition anyLCall (st : lmap) (c : lcall) : Prop := True.
