(** Copying the pixel based map: GeoMap::deepCopy (foureightsegmentation.cxx 453-491), the copy constructor and the assignment (foureightsegmentation.hxx 729-735, 786-790).

    CellMap_Model treats a map as one value.  Here a map is an object with an address and an image that lies in a buffer of its own; the darts
    are pointers into such a buffer and carry the address of a map, so they can refer to another map than the one that holds them.

    Simplifications: an image of size zero has a buffer as well; a buffer that is given back and allocated again has a new address, so pointers to
    the old one stay recognisable; coordinates count from the corner of cellImage, as in CellMap_Model; std::vector members lie inside their object. *)
From Verif Require Import Base CellMap_Model.
Local Open Scope Z_scope.

(** CellImage::traverser: a buffer and a position *)
Record ptr := Ptr { pbuf : nat; ppx : Z; ppy : Z }.
(** foureightsegmentation.hxx 364-366: neighborCirc_ (center and direction) and segmentation_, [None] for the null pointer *)
Record pdart := PDart { pcen : ptr; pdir : Z; pseg : option nat }.
(** foureightsegmentation.hxx 683-705: NodeInfo, EdgeInfo, FaceInfo *)
Record pnode := PNode { pninf : cinfo; panchor : pdart; pdegree : Z }.
Record pedge := PEdge { peinf : cinfo; pstart : pdart; pend : pdart }.
Record pface := PFace { pfinf : cinfo; pcontours : list pdart }.
(** foureightsegmentation.hxx 851-852, 919-925: cellImage (its buffer), cells, lists, counters, initialized_ *)
Record gmo := Gmo { gbuf : nat; gcells : ptr; gnodes : list pnode; gedges : list pedge; gfaces : list pface; gnc : Z; gec : Z; gfc : Z; ginit : bool }.
(** maps, buffers, and the first address never used for a buffer *)
Record heap := Heap { hobj : nat -> option gmo; hbuf : nat -> option img; hnext : nat }.

Definition objAt (h : heap) (a : nat) : res gmo := match hobj h a with Some o => Ok o | None => UB end.
Definition bufAt (h : heap) (b : nat) : res img := match hbuf h b with Some i => Ok i | None => UB end.
Definition setObj (h : heap) (a : nat) (o : gmo) : heap := Heap (fun x => if Nat.eqb x a then Some o else hobj h x) (hbuf h) (hnext h).
Definition setBuf (h : heap) (b : nat) (i : option img) : heap := Heap (hobj h) (fun x => if Nat.eqb x b then i else hbuf h x) (hnext h).

(** operator* and assignment through an iterator *)
Definition readPtr (h : heap) (p : ptr) : res pix := i <- bufAt h (pbuf p) ;; readPix i (ppx p) (ppy p).
Definition writePtr (h : heap) (p : ptr) (v : pix) : res heap := i <- bufAt h (pbuf p) ;; i' <- writePix i (ppx p) (ppy p) v ;; Ok (setBuf h (pbuf p) (Some i')).

(** vigra's BasicImage::operator= (line 456): nothing for the same image; pixels are copied if the sizes agree, otherwise into new memory, and the old is given back *)
Definition assignImage (h : heap) (this other : nat) : res (heap * nat) :=
  t <- objAt h this ;; o <- objAt h other ;;
  if Nat.eqb this other then Ok (h, gbuf t) else
  it <- bufAt h (gbuf t) ;; io <- bufAt h (gbuf o) ;;
  if (iw it =? iw io) && (ih it =? ih io) then Ok (setBuf h (gbuf t) (Some io), gbuf t)
  else let h1 := setBuf (setBuf h (gbuf t) None) (hnext h) (Some io) in Ok (Heap (hobj h1) (hbuf h1) (Datatypes.S (hnext h)), hnext h).

(** foureightsegmentation.hxx 593-600: the difference of two iterators is undefined unless they belong to the same image *)
Definition reparent (h : heap) (this : nat) (d : pdart) : res pdart :=
  match pseg d with
  | None => UB
  | Some s =>
      o <- objAt h s ;; t <- objAt h this ;;
      if negb (Nat.eqb (pbuf (pcen d)) (pbuf (gcells o))) then UB else
      Ok (PDart (Ptr (pbuf (gcells t)) (ppx (gcells t) + (ppx (pcen d) - ppx (gcells o))) (ppy (gcells t) + (ppy (pcen d) - ppy (gcells o)))) (pdir d) (Some this))
  end.
Fixpoint mapRes {A B} (f : A -> res B) (l : list A) : res (list B) :=
  match l with [] => Ok [] | x :: t => y <- f x ;; ys <- mapRes f t ;; Ok (y :: ys) end.
(** foureightsegmentation.cxx 466-469; the iterators skip what is not initialized() (foureightsegmentation.hxx 711-717) *)
Definition reparentNode (h : heap) (this : nat) (n : pnode) : res pnode :=
  if initialized (pninf n) then d <- reparent h this (panchor n) ;; Ok (PNode (pninf n) d (pdegree n)) else Ok n.
(** foureightsegmentation.cxx 471-475 *)
Definition reparentEdge (h : heap) (this : nat) (e : pedge) : res pedge :=
  if initialized (peinf e) then s <- reparent h this (pstart e) ;; t <- reparent h this (pend e) ;; Ok (PEdge (peinf e) s t) else Ok e.
(** foureightsegmentation.cxx 477-484 *)
Definition reparentFace (h : heap) (this : nat) (f : pface) : res pface :=
  if initialized (pfinf f) then ds <- mapRes (reparent h this) (pcontours f) ;; Ok (PFace (pfinf f) ds) else Ok f.

(** foureightsegmentation.cxx 453-491 *)
Definition deepCopy (h : heap) (this other : nat) : res heap :=
  r <- assignImage h this other ;;
  let h1 := fst r in let b := snd r in
  t <- objAt h1 this ;;
  let h2 := setObj h1 this (Gmo b (Ptr b 2 2) (gnodes t) (gedges t) (gfaces t) (gnc t) (gec t) (gfc t) (ginit t)) in
  o <- objAt h2 other ;;
  ns <- mapRes (reparentNode h2 this) (gnodes o) ;; es <- mapRes (reparentEdge h2 this) (gedges o) ;; fs <- mapRes (reparentFace h2 this) (gfaces o) ;;
  Ok (setObj h2 this (Gmo b (Ptr b 2 2) ns es fs (gnc o) (gec o) (gfc o) (ginit o))).

(** foureightsegmentation.hxx 730-735: the copy constructor; members start out empty ([this] is the address the object is made at), the counters are not initialised, here 0 *)
Definition copyConstruct (h : heap) (this other : nat) : res heap :=
  match hobj h this with
  | Some _ => UB
  | None =>
      let h1 := setBuf h (hnext h) (Some (Img 0 0 (fun _ _ => Pix Region 0))) in
      deepCopy (setObj (Heap (hobj h1) (hbuf h1) (Datatypes.S (hnext h))) this (Gmo (hnext h) (Ptr (hnext h) 0 0) [] [] [] 0 0 0 false)) this other
  end.
(** the destructor: the object and its buffer are gone *)
Definition destroy (h : heap) (a : nat) : res heap :=
  o <- objAt h a ;; let h1 := setBuf h (gbuf o) None in Ok (Heap (fun x => if Nat.eqb x a then None else hobj h1 x) (hbuf h1) (hnext h1)).
