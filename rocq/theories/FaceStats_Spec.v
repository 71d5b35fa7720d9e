(** What face statistics have to show, and the histories considered.  Nothing here refers to the proofs. *)
From Coq Require Import Permutation.
From Verif Require Import Base GeoMap_Model GeoMap_Spec Scanlines_Model LabelImage_Model LabelImage_Spec FaceStats_Model.
Local Open Scope Z_scope.

Definition inBox (b : box) (p : point) : Prop := bx0 b <= fst p <= bx1 b /\ by0 b <= snd p <= by1 b.
(** the polygons of all edges beside face [l] run inside [b] *)
Definition edgesInside m (l : nat) (b : box) : Prop :=
  forall d ps p, leftLabel m d = Ok (Some l) -> ptsOf m d ps -> In p ps -> inBox b p.
(** the boxes of all finite faces are known and contain the edges beside the face *)
Definition boxesCover m (bx : boxes) : Prop := forall l f, isFace m l f -> l <> 0%nat -> exists b, bx l = Some b /\ edgesInside m l b.
(** [b] is the smallest box around the polygons of the outer contour of face [l] *)
Definition smallestBox m (l : nat) (b : box) : Prop := exists L, outerContour m l L /\
  (forall d ps p, In d L -> ptsOf m d ps -> In p ps -> inBox b p) /\
  forall c, (forall d ps p, In d L -> ptsOf m d ps -> In p ps -> inBox c p) -> forall q, inBox b q -> inBox c q.

Section Spec.
Variable V : Type.

(** functors_[l], read by operator[], pixelCount(), average() and variance() *)
Definition samples (s : stats V) (l : nat) (xs : list V) : Prop := nth_error (sFun s) l = Some (Some xs).
(** the level stored in superSampled_, 0 if there is no table *)
Definition level (s : stats V) (l : nat) : nat := match sTab s with Some t => nth l t 0%nat | None => 0%nat end.
Definition superSampled (s : stats V) (l : nat) : Prop := level s l <> 0%nat.

(** the values of the image at the pixels reading as face [l] *)
Definition valuesOf st (o : orig V) (l : nat) (xs : list V) : Prop :=
  exists ps, pixelsOf st l ps /\ Permutation xs (map (fun p => oval o (fst p) (snd p)) ps).
(** [L] lists the supersampled faces of the map, each once *)
Definition superSampledFaces m (s : stats V) (L : list nat) : Prop :=
  NoDup L /\ forall l, In l L <-> superSampled s l /\ exists f, isFace m l f.

(** ** Histories *)

Definition fallowed (fs : fstate V) (c : fcall V) : Prop :=
  match c with
  | FMap _ c => lallowed (fm fs) c
  | FBox l => exists f, isFace (lg (fm fs)) l f
  | FStats _ _ _ => fsl fs = SNone
  | FDetach | FDrop => True
  end.

(** the areas of the faces are kept right (see counted); the image given to the statistics has the size of the label image; while
    statistics are attached only Euler operations are called; when a label image is drawn the edges beside a face lie in
    the bounding box of its outer contour and boxes asked for earlier are still right *)
Definition fcounted (unit : positive) (fs : fstate V) (c : fcall V) : Prop :=
  match c with
  | FMap _ c =>
      counted unit (fm fs) c /\
      match c with
      | LInit ord par true => forall m', exec (lg (fm fs)) (Init ord par) = Ok m' -> boxesCover m' (allBoxes m' (fun _ => None))
      | LSetImage true => lim (fm fs) = None -> boxesCover (lg (fm fs)) (allBoxes (lg (fm fs)) (fbx fs))
      | _ => True
      end /\
      ((exists s, fsl fs = SOn s) -> match c with LCall _ _ | LScan _ => True | _ => False end)
  | FStats o _ _ => (ow o, oh o) = lsize (fm fs)
  | _ => True
  end.

(** the call would merge the only supersampled face, as survivor, with a face that is not supersampled *)
Definition losesTable (fs : fstate V) (c : fcall V) : Prop :=
  exists s seen hk d d' x mm g, fsl fs = SOn s /\ (c = FMap seen (LCall hk (OMergeFaces d)) \/ c = FMap seen (LCall hk (ORemoveEdge d))) /\
    pickDart (lg (fm fs)) d = Ok (g, d') /\ leftLabel (lg (fm fs)) d' = Ok (Some x) /\ rightLabel (lg (fm fs)) d' = Ok (Some mm) /\ x <> mm /\
    hkMergeFaces hk g d' = true /\ superSampled s x /\ ~ superSampled s mm /\ superSampledFaces (lg (fm fs)) s [x].

Section Histories.
Variable srt : list seg -> list seg.
Variable unit : positive.
Variable debug : bool.
(** maps with statistics reachable from a new map by calls that satisfy [P] and return *)
Inductive fhistory (P : fstate V -> fcall V -> Prop) : fstate V -> Prop :=
| fh_new w h : 0 <= w -> 0 <= h -> fhistory P (newState w h)
| fh_call fs c fs' : fhistory P fs -> fallowed fs c -> P fs c -> fexec srt unit debug fs c = Ok fs' -> fhistory P fs'.
End Histories.
Definition anyFCall (fs : fstate V) (c : fcall V) : Prop := True.
End Spec.
Arguments samples {V}. Arguments level {V}. Arguments superSampled {V}. Arguments valuesOf {V}. Arguments superSampledFaces {V}.
Arguments fallowed {V}. Arguments fcounted {V}. Arguments losesTable {V}. Arguments fhistory {V}. Arguments anyFCall {V}.
