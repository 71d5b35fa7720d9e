(** Model of GeoMap's copy constructor (src/geomap/cppmap.cxx 245-296) with the copy constructors of the cells
    (cppmap.hxx 464-472, 574-585, 1124-1135), on a heap of objects that refer to each other.

    GeoMap_Model.v and LabelImage_Model.v treat a map as one value; here its parts are objects with addresses, so
    that two maps may share some of them.

    Simplifications (also listed in DESIGN.md): a std::vector member lies inside its object, except the sigma arrays, into
    which iterators point; the scanlines of an edge (an auto_ptr) lie inside the edge, bounding boxes are left out; the
    signals, splitInfo_ and edgePreferences_ are objects with unknown contents; the tables of the new map are
    written when a loop is finished. *)
From Verif Require Import Base GeoMap_Model Scanlines_Model LabelLUT_Model Map2D_Model SigmaArray LabelImage_Model.
Local Open Scope Z_scope.

Definition loc := nat.

(** cppmap.hxx 183-210, 387-431 *)
Record mapobj := mkMO {
  msArr : loc; msiArr : loc;                 (* sigmaMappingArray_, sigmaInverseMappingArray_ *)
  msIt : loc * nat; msiIt : loc * nat;       (* sigmaMapping_, sigmaInverseMapping_: iterators *)
  mnodes : list (option loc); medges : list (option loc); mfaces : list (option loc);
  mnc : Z; mec : Z; mfc : Z;
  midx : list (entry nat);                   (* nodeMap_ *)
  msize : Z * Z; mimg : option loc; mlut : lut;
  msorted : bool;
  mextra : list loc }.                       (* splitInfo_, edgePreferences_, connected slots *)

(** cppmap.hxx 440-447 (Node), 530-549 (Edge), 1069-1087 (Face), 780-785 (Dart: map_, label_), 147 (SigmaMapping), 206 (LabelImage) *)
Inductive obj :=
| OMap (mo : mapobj)
| ONode (map : loc) (label : nat) (v : node)
| OEdge (map : loc) (label : nat) (v : edge) (sl : option scanlines)
| OFace (map : loc) (label : nat) (anchors : list (loc * Z)) (flags : N) (area : option Z) (px : Z)
| OArr (a : list Z)
| OImage (i : image)
| OExtra (rs : list loc).

Record heap := mkHeap { hat : loc -> option obj; hnext : loc }.

Definition deref (h : heap) (l : loc) : res obj := match hat h l with Some x => Ok x | None => UB end.
Definition store (h : heap) (l : loc) (x : obj) : heap := mkHeap (fun k => if Nat.eqb k l then Some x else hat h k) (hnext h).
(** operator new *)
Definition alloc (h : heap) (x : obj) : heap * loc :=
  (mkHeap (fun k => if Nat.eqb k (hnext h) then Some x else hat h k) (S (hnext h)), hnext h).

(** cppmap.hxx 464-472 *)
Definition dupNode (this : loc) (x : obj) : option (nat * obj) :=
  match x with ONode _ lb v => Some (lb, ONode this lb v) | _ => None end.
(** cppmap.hxx 574-585: scanLines_ is not in the initialiser list *)
Definition dupEdge (this : loc) (x : obj) : option (nat * obj) :=
  match x with OEdge _ lb v _ => Some (lb, OEdge this lb v None) | _ => None end.
(** cppmap.hxx 1124-1135: the anchors become darts of the new map *)
Definition dupFace (this : loc) (x : obj) : option (nat * obj) :=
  match x with OFace _ lb an fl ar px => Some (lb, OFace this lb (map (fun d => (this, snd d)) an) fl ar px) | _ => None end.
(** cppmap.hxx 471 *)
Definition noteNode (x : obj) (idx : list (entry nat)) : list (entry nat) :=
  match x with ONode _ lb v => insert idx (npos v) lb | _ => idx end.

(** the loops of cppmap.cxx 259-264, 267-272, 286-291: the iterator skips empty entries *)
Fixpoint copyCells {A} (dup : obj -> option (nat * obj)) (note : obj -> A -> A) (h : heap) (src tab : list (option loc)) (acc : A)
  : res (heap * list (option loc) * A) :=
  match src with
  | [] => Ok (h, tab, acc)
  | None :: t => copyCells dup note h t tab acc
  | Some p :: t =>
      x <- deref h p ;;
      match dup x with
      | None => UB
      | Some (lb, y) =>
          let r := alloc h y in
          tab <- vset tab lb (Some (snd r)) ;;
          copyCells dup note (fst r) t tab (note y acc)
      end
  end.

(** std::copy into an array *)
Definition copyInto (src dst : list Z) : res (list Z) :=
  if (length src <=? length dst)%nat then Ok (src ++ skipn (length src) dst) else UB.

Definition asArr (x : obj) : res (list Z) := match x with OArr a => Ok a | _ => UB end.
Definition asMap (x : obj) : res mapobj := match x with OMap mo => Ok mo | _ => UB end.

(** cppmap.cxx 284-297 *)
Definition copyFaces (h : heap) (mo : mapobj) (n : loc) : res (heap * list (option loc) * option loc * lut) :=
  match mfaces mo with
  | [] => Ok (h, [], None, initIdentity 0)
  | _ :: _ =>
      r <- copyCells (dupFace n) (fun _ u => u) h (mfaces mo) (repeat None (length (mfaces mo))) tt ;;
      let h := fst (fst r) in
      match mimg mo with
      | None => Ok (h, snd (fst r), None, initIdentity 0)
      | Some p =>
          x <- deref h p ;;
          match x with
          | OImage i => let r' := alloc h (OImage i) in Ok (fst r', snd (fst r), Some (snd r'), mlut mo)
          | _ => UB
          end
      end
  end.

(** cppmap.cxx 245-298 *)
Definition copyMap (h : heap) (o : loc) : res (heap * loc) :=
  x <- deref h o ;;
  mo <- asMap x ;;
  a <- bind (deref h (msArr mo)) asArr ;;
  ai <- bind (deref h (msiArr mo)) asArr ;;
  let r1 := alloc h (OArr (repeat 0 (length a))) in
  let r2 := alloc (fst r1) (OArr (repeat 0 (length ai))) in
  let s1 := snd r1 in let s2 := snd r2 in
  let mo1 := mkMO s1 s2 (s1, (length a / 2)%nat) (s2, (length ai / 2)%nat) [] [] [] (mnc mo) (mec mo) (mfc mo)
               [] (msize mo) None (initIdentity 0) false [] in
  let r3 := alloc (fst r2) (OMap mo1) in
  let n := snd r3 in
  rn <- copyCells (dupNode n) noteNode (fst r3) (mnodes mo) (repeat None (length (mnodes mo))) [] ;;
  re <- copyCells (dupEdge n) (fun _ u => u) (fst (fst rn)) (medges mo) (repeat None (length (medges mo))) tt ;;
  b <- copyInto a (repeat 0 (length a)) ;;
  bi <- copyInto ai (repeat 0 (length ai)) ;;
  let h := store (store (fst (fst re)) s1 (OArr b)) s2 (OArr bi) in
  rf <- copyFaces h mo n ;;
  let mo2 := mkMO s1 s2 (msIt mo1) (msiIt mo1) (snd (fst rn)) (snd (fst re)) (snd (fst (fst rf))) (mnc mo) (mec mo) (mfc mo)
               (snd rn) (msize mo) (snd (fst rf)) (snd rf) (msorted mo) [] in
  Ok (store (fst (fst (fst rf))) n (OMap mo2), n).

(** ** Queries: what the public accessors read from the objects of the map at [o] *)

Inductive query :=
| QNode (l : nat) | QEdge (l : nat) | QFace (l : nat)       (* node(l), edge(l), face(l) and the accessors of the cell *)
| QSigma (d : Z) | QSigmaInv (d : Z)                         (* nextSigma, prevSigma *)
| QCounts                                                    (* nodeCount, edgeCount, faceCount, maxNodeLabel, maxEdgeLabel, maxFaceLabel *)
| QSorted | QImageSize | QHasImage
| QPixel (x y : Z)                                           (* labelAccessor *)
| QNearest (p : point) (b : Z).                              (* nearestNode *)

(** what a cell tells: its label, whether map() is the asked map, and its contents *)
Inductive answer :=
| ANull
| ANode (label : nat) (mine : bool) (v : node)
| AEdge (label : nat) (mine : bool) (v : edge)
| AFace (label : nat) (mine : bool) (anchors : list (bool * Z)) (flags : N) (area : option Z) (px : Z)
| ADart (d : Z)
| ACounts (a b c : Z) (i j k : nat)
| ABool (b : bool)
| ASize (s : Z * Z)
| ALabel (v : Z)
| ANearest (r : option nat).

Definition cellAt (h : heap) (o : loc) (tab : list (option loc)) (l : nat) (f : obj -> res answer) : res answer :=
  p <- vget tab l ;;
  match p with None => Ok ANull | Some p => x <- deref h p ;; f x end.
(** sigmaMapping_[d] *)
Definition iterGet (h : heap) (it : loc * nat) (d : Z) : res Z :=
  a <- bind (deref h (fst it)) asArr ;;
  if d + Z.of_nat (snd it) <? 0 then UB else vget a (Z.to_nat (d + Z.of_nat (snd it))).

Definition ask (h : heap) (o : loc) (q : query) : res answer :=
  x <- deref h o ;;
  mo <- asMap x ;;
  match q with
  | QNode l => cellAt h o (mnodes mo) l (fun x => match x with ONode m lb v => Ok (ANode lb (Nat.eqb m o) v) | _ => UB end)
  | QEdge l => cellAt h o (medges mo) l (fun x => match x with OEdge m lb v _ => Ok (AEdge lb (Nat.eqb m o) v) | _ => UB end)
  | QFace l => cellAt h o (mfaces mo) l (fun x => match x with OFace m lb an fl ar px =>
                 Ok (AFace lb (Nat.eqb m o) (map (fun d => (Nat.eqb (fst d) o, snd d)) an) fl ar px) | _ => UB end)
  | QSigma d => v <- iterGet h (msIt mo) d ;; Ok (ADart v)
  | QSigmaInv d => v <- iterGet h (msiIt mo) d ;; Ok (ADart v)
  | QCounts => Ok (ACounts (mnc mo) (mec mo) (mfc mo) (length (mnodes mo)) (length (medges mo)) (length (mfaces mo)))
  | QSorted => Ok (ABool (msorted mo))
  | QImageSize => Ok (ASize (msize mo))
  | QHasImage => Ok (ABool (isLive (mimg mo)))
  | QPixel px py =>
      match mimg mo with
      | None => UB
      | Some p =>
          x <- deref h p ;;
          match x with
          | OImage i =>
              v <- pixGet i px py ;;
              if v <? 0 then Ok (ALabel v) else l <- lookup (mlut mo) (Z.to_nat v) ;; Ok (ALabel (Z.of_nat l))
          | _ => UB
          end
      end
  | QNearest p b =>
      i <- nearest (midx mo) p b ;;
      Ok (ANearest (match nth_error (midx mo) i with Some e => Some (epay e) | None => None end))
  end.

(** ** Programs working on objects they can reach *)

(** the addresses stored in an object *)
Definition refs (x : obj) : list loc :=
  match x with
  | OMap mo => msArr mo :: msiArr mo :: fst (msIt mo) :: fst (msiIt mo) :: concat (map (fun p => match p with Some l => [l] | None => [] end)
                 (mnodes mo ++ medges mo ++ mfaces mo ++ [mimg mo])) ++ mextra mo
  | ONode m _ _ | OEdge m _ _ _ => [m]
  | OFace m _ an _ _ _ => m :: map fst an
  | OArr _ | OImage _ => []
  | OExtra rs => rs
  end.

(** One step of a program that knows the addresses [K]: it may follow an address found in a known object, change a known
    object in any way, destroy it, or create an object, storing only addresses it knows. *)
Inductive act : heap * list loc -> heap * list loc -> Prop :=
| act_load h K l x p : In l K -> hat h l = Some x -> In p (refs x) -> act (h, K) (h, p :: K)
| act_store h K l x y : In l K -> hat h l = Some x -> incl (refs y) K -> act (h, K) (store h l y, K)
| act_free h K l : In l K -> act (h, K) (mkHeap (fun k => if Nat.eqb k l then None else hat h k) (hnext h), K)
| act_new h K y : incl (refs y) K -> act (h, K) (fst (alloc h y), snd (alloc h y) :: K).
Inductive acts : heap * list loc -> heap * list loc -> Prop :=
| acts_nil s : acts s s
| acts_cons s t u : act s t -> acts t u -> acts s u.
