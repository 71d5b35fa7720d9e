(** What copying the pixel based map is to achieve: the copy is equal as a value (a [cmap] of CellMap_Model) and shares nothing with the original. *)
From Verif Require Import Base CellMap_Model CellCopy_Model.
Local Open Scope Z_scope.

(** the map at an address, as a value *)
Definition dartView (d : pdart) : dart := Dart (ppx (pcen d)) (ppy (pcen d)) (pdir d).
Definition nodeView (n : pnode) : ninfo := NInfo (pninf n) (dartView (panchor n)) (pdegree n).
Definition edgeView (e : pedge) : einfo := EInfo (peinf e) (dartView (pstart e)) (dartView (pend e)).
Definition faceView (f : pface) : finfo := FInfo (pfinf f) (map dartView (pcontours f)).
Definition view (h : heap) (a : nat) : option cmap :=
  match hobj h a with
  | None => None
  | Some o => match hbuf h (gbuf o) with None => None | Some i => Some (CMap i (map nodeView (gnodes o)) (map edgeView (gedges o)) (map faceView (gfaces o)) (gnc o) (gec o) (gfc o) (ginit o)) end
  end.

(** every map has a buffer of its own *)
Definition separate (h : heap) : Prop :=
  (forall a o, hobj h a = Some o -> (gbuf o < hnext h)%nat /\ exists i, hbuf h (gbuf o) = Some i) /\
  (forall a b o p, hobj h a = Some o -> hobj h b = Some p -> a <> b -> gbuf o <> gbuf p).
(** the darts a map holds *)
Definition liveDart (o : gmo) (d : pdart) : Prop :=
  (exists n, In n (gnodes o) /\ initialized (pninf n) = true /\ d = panchor n) \/
  (exists e, In e (gedges o) /\ initialized (peinf e) = true /\ (d = pstart e \/ d = pend e)) \/
  (exists f, In f (gfaces o) /\ initialized (pfinf f) = true /\ In d (pcontours f)).
Definition anyDart (o : gmo) (d : pdart) : Prop :=
  (exists n, In n (gnodes o) /\ d = panchor n) \/ (exists e, In e (gedges o) /\ (d = pstart e \/ d = pend e)) \/ (exists f, In f (gfaces o) /\ In d (pcontours f)).
(** all darts of the cells of the map point into its own image and name it as their map *)
Definition parented (h : heap) (a : nat) : Prop :=
  exists o, hobj h a = Some o /\ gcells o = Ptr (gbuf o) 2 2 /\ forall d, liveDart o d -> pbuf (pcen d) = gbuf o /\ pseg d = Some a.

(** two heaps agree on the map at an address *)
Definition sameMap (h h' : heap) (a : nat) : Prop := hobj h' a = hobj h a /\ forall o, hobj h a = Some o -> hbuf h' (gbuf o) = hbuf h (gbuf o).
