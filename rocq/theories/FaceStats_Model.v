(** Model of src/geomap/facestatistics.hxx (FaceColorStatistics) attached to a GeoMap with label image, and of the bounding
    boxes kept by the faces (cppmap.hxx 1146-1164, cppmap.cxx 2060-2063, 2148-2149), which rescanFace uses.

    Simplifications (also listed in DESIGN.md): a Functor (vigra::FindAverageAndVariance) is the list of the samples given
    to it, the latest first; the samples taken between the pixels (a spline view at the places of a grid which Face::contains
    accepts) are given by [extra]; bounding boxes of edges are computed afresh; a face without points has no box; the hooks are called
    after the operation of LabelImage_Model.v has been computed, with the data they would see (they read nothing that is changed in
    between); one object is attached at a time; unsigned int and unsigned char are numbers. *)
From Coq Require Import QArith.
From Verif Require Import Base GeoMap_Model LabelLUT_Model Scanlines_Model LabelImage_Model.
Local Open Scope Z_scope.

(** ** Bounding boxes of faces *)

(** vigra::Box<double, 2>, not empty; coordinates are multiples of 1/[unit] *)
Record box := mkBox { bx0 : Z; by0 : Z; bx1 : Z; by1 : Z }.
Definition boxAdd (b : box) (p : point) : box :=
  mkBox (Z.min (bx0 b) (fst p)) (Z.min (by0 b) (snd p)) (Z.max (bx1 b) (fst p)) (Z.max (by1 b) (snd p)).
Definition boxOf (p : point) (t : list point) : box := fold_left boxAdd t (mkBox (fst p) (snd p) (fst p) (snd p)).
Definition boxJoin (a b : box) : box :=
  mkBox (Z.min (bx0 a) (bx0 b)) (Z.min (by0 a) (by0 b)) (Z.max (bx1 a) (bx1 b)) (Z.max (by1 a) (by1 b)).

Fixpoint contourPoints m (ds : list Z) : res (list point) :=
  match ds with
  | [] => Ok []
  | d :: t => e <- deref (edgeP m (elab d)) ;; ps <- contourPoints m t ;; Ok (epts e ++ ps)
  end.
(** boundingBox_ and BOUNDING_BOX_VALID of every face *)
Definition boxes := nat -> option box.
(** cppmap.hxx 1152-1162 *)
Definition freshBox m (l : nat) : res box :=
  f <- deref (faceP m l) ;;
  a <- vget (fanchors f) 0 ;;
  ds <- orbitLoop (fuel m) m a a ;;
  ps <- contourPoints m ds ;;
  match ps with [] => UB | p :: t => Ok (boxOf p t) end.
(** cppmap.hxx 1146-1164: Face::boundingBox() *)
Definition getBox m (bx : boxes) (l : nat) : res (boxes * box) :=
  _ <- deref (faceP m l) ;;
  if Nat.eqb l 0 then Exn else
  match bx l with
  | Some b => Ok (bx, b)
  | None => b <- freshBox m l ;; Ok (updN bx l (Some b), b)
  end.
(** the boxes cached when all faces are scanned (cppmap.hxx 1211 in cppmap.cxx 995-1002 and 1094-1109) *)
Definition allBoxes m (bx : boxes) : boxes := fun l =>
  match nth l (faces m) None with
  | None => bx l
  | Some _ => match getBox m bx l with Ok r => Some (snd r) | _ => bx l end
  end.
(** cppmap.cxx 2060-2063 and 2148-2149 *)
Definition mergeBoxes m (bx : boxes) (s mm : nat) : res boxes :=
  match bx s with
  | None => Ok bx
  | Some b => r <- getBox m bx mm ;; Ok (updN (fst r) s (Some (boxJoin b (snd r))))
  end.

Section Stats.
Variable V : Type.                              (* OriginalImage::value_type *)

(** the image the statistics are about *)
Record orig := mkOrig { ow : Z; oh : Z; oval : Z -> Z -> V }.
Definition oInside (o : orig) (x y : Z) : bool := (0 <=? x) && (x <? ow o) && (0 <=? y) && (y <? oh o).
Definition oget (o : orig) (x y : Z) : res V := if oInside o x y then Ok (oval o x y) else UB.

(** facestatistics.hxx 461-475 *)
Record stats := mkStats {
  sOrig : orig;                                 (* originalImage_ *)
  sFun : list (option (list V));                (* functors_ *)
  sMin : nat;                                   (* minSampleCount_ *)
  sTab : option (list nat);                     (* superSampled_ *)
  sCount : Z;                                   (* superSampledCount_ *)
  sMerged : list V; sMergedSS : nat;            (* merged_, mergedSS_ *)
  sL1 : nat; sL2 : nat }.                       (* label1_, label2_ *)
Definition setF s v := mkStats (sOrig s) v (sMin s) (sTab s) (sCount s) (sMerged s) (sMergedSS s) (sL1 s) (sL2 s).
Definition setT s t c := mkStats (sOrig s) (sFun s) (sMin s) t c (sMerged s) (sMergedSS s) (sL1 s) (sL2 s).
Definition setM s m ss := mkStats (sOrig s) (sFun s) (sMin s) (sTab s) (sCount s) m ss (sL1 s) (sL2 s).
Definition setL s a b := mkStats (sOrig s) (sFun s) (sMin s) (sTab s) (sCount s) (sMerged s) (sMergedSS s) a b.

(** the object functors_[l] points to *)
Definition functor s (l : nat) : res (list V) := p <- vget (sFun s) l ;; match p with Some xs => Ok xs | None => UB end.

Section Model.
Variable srt : list seg -> list seg.
Variable unit : positive.
Variable debug : bool.                          (* NDEBUG is not defined *)

(** facestatistics.hxx 92-101 (detail::intPos) *)
Definition intPos (v : Z) : Z := Qround.Qfloor ((v # unit) + (1#2)).
Definition rectPx (xl yl xh yh : Z) : list (Z * Z) :=
  flat_map (fun y => map (fun x => (xl + Z.of_nat x, yl + Z.of_nat y)) (seq 0 (Z.to_nat (xh - xl)))) (seq 0 (Z.to_nat (yh - yl))).
Fixpoint rescanPx st (o : orig) (l : nat) (ps : list (Z * Z)) (f : list V) : res (list V) :=
  match ps with
  | [] => Ok f
  | (x, y) :: t =>
      v <- labelAt st x y ;;
      if v =? Z.of_nat l then w <- oget o x y ;; rescanPx st o l t (w :: f) else rescanPx st o l t f
  end.
(** facestatistics.hxx 439-459 *)
Definition rescanFace st (bx : boxes) (o : orig) (l : nat) (f : list V) : res (boxes * list V) :=
  r <- getBox (lg st) bx l ;;
  let b := snd r in
  f <- rescanPx st o l (rectPx (Z.max 0 (intPos (bx0 b))) (Z.max 0 (intPos (by0 b))) (Z.min (ow o) (intPos (bx1 b) + 1)) (Z.min (oh o) (intPos (by1 b) + 1))) f ;;
  Ok (fst r, f).

(** facestatistics.hxx 162-218; the assertion on the labels fails with an exception or an invalid access *)
Definition preMergeFaces st (bx : boxes) s (d : Z) : res (boxes * stats) :=
  ll <- leftLabel (lg st) d ;; rl <- rightLabel (lg st) d ;;
  match ll, rl with
  | Some l, Some r =>
      fl <- functor s l ;; fr <- functor s r ;;
      let s := setL s l r in
      match sTab s with
      | Some t =>
          a <- vget t l ;; b <- vget t r ;;
          if negb (Nat.eqb a b) then
            if (a <? b)%nat then
              if larea st r =? 0 then Ok (bx, setM s fl a)
              else q <- rescanFace st bx (sOrig s) r fl ;; Ok (fst q, setM s (snd q) a)
            else
              if larea st l =? 0 then Ok (bx, setM s fr b)
              else q <- rescanFace st bx (sOrig s) l fr ;; Ok (fst q, setM s (snd q) b)
          else if negb (Nat.eqb a 0) then
            if larea st l + larea st r >=? Z.of_nat (sMin s) then
              q1 <- rescanFace st bx (sOrig s) l [] ;;
              q2 <- rescanFace st (fst q1) (sOrig s) r (snd q1) ;;
              Ok (fst q2, setM s (snd q2) 0)
            else Ok (bx, setM s (fr ++ fl) a)
          else Ok (bx, setM s (fr ++ fl) 0)
      | None => Ok (bx, setM s (fr ++ fl) (sMergedSS s))
      end
  | _, _ => UB
  end.

(** facestatistics.hxx 247-249, 289-292: the postconditions *)
Definition checkPixelCount s (l : nat) (area : Z) : res stats :=
  if negb debug then Ok s else
  xs <- functor s l ;;
  ss <- match sTab s with None => Ok 0%nat | Some t => vget t l end ;;
  if Nat.eqb ss 0 then (if area =? Z.of_nat (length xs) then Ok s else Exn) else Ok s.

(** if(!--superSampledCount_) superSampled_.reset(); *)
Definition dropOne s : stats := setT s (if sCount s - 1 =? 0 then None else sTab s) (sCount s - 1).
(** dereferencing superSampled_ *)
Definition table s : res (list nat) := match sTab s with Some t => Ok t | None => UB end.

(** facestatistics.hxx 220-251; [area] is the pixelArea() of the survivor *)
Definition postMergeFaces s (l : nat) (area : Z) : res stats :=
  _ <- functor s l ;;
  let mm := if Nat.eqb l (sL1 s) then sL2 s else sL1 s in
  fs <- vset (sFun s) l (Some (sMerged s)) ;;
  let s := setF s fs in
  s <- (match sTab s with
        | None => Ok s
        | Some t =>
            v <- vget t l ;;
            let s := if negb (Nat.eqb v 0) && Nat.eqb (sMergedSS s) 0 then dropOne s else s in
            t <- table s ;;
            t <- vset t l (sMergedSS s) ;;
            let s := setT s (Some t) (sCount s) in
            w <- vget t mm ;;
            Ok (if negb (Nat.eqb w 0) then dropOne s else s)
        end) ;;
  fs <- vset (sFun s) mm None ;;
  checkPixelCount (setF s fs) l area.

(** facestatistics.hxx 275-287 *)
Fixpoint feed (o : orig) (ps : list (Z * Z)) (f : list V) : res (list V) :=
  match ps with
  | [] => Ok f
  | (x, y) :: t => if debug && negb (oInside o x y) then feed o t f else w <- oget o x y ;; feed o t (w :: f)
  end.
Definition feedAll s (l : nat) (ps : list (Z * Z)) (area : Z) : res stats :=
  f <- functor s l ;;
  f <- feed (sOrig s) ps f ;;
  fs <- vset (sFun s) l (Some f) ;;
  checkPixelCount (setF s fs) l area.
(** facestatistics.hxx 253-293; [st] is the map with its new image *)
Definition associatePixels st (bx : boxes) s (l : nat) (ps : list (Z * Z)) : res (boxes * stats) :=
  _ <- functor s l ;;
  ss <- match sTab s with None => Ok 0%nat | Some t => vget t l end ;;
  if negb (Nat.eqb ss 0) && (larea st l >=? Z.of_nat (sMin s)) then
    t <- table s ;;
    t <- vset t l 0%nat ;;
    fs <- vset (sFun s) l (Some []) ;;
    let s := setF (setT s (Some t) (sCount s - 1)) fs in
    if negb (larea st l =? Z.of_nat (length ps)) then
      q <- rescanFace st bx (sOrig s) l [] ;;
      fs <- vset (sFun s) l (Some (snd q)) ;;
      Ok (fst q, setF s fs)
    else s <- feedAll s l ps (larea st l) ;; Ok (bx, s)
  else s <- feedAll s l ps (larea st l) ;; Ok (bx, s).

(** ** The constructor, facestatistics.hxx 478-501 *)

(** detail::InitFaceFunctors (48-68) over all pixels *)
Fixpoint initFunctors st (o : orig) (ps : list (Z * Z)) (fs : list (option (list V))) : res (list (option (list V))) :=
  match ps with
  | [] => Ok fs
  | (x, y) :: t =>
      v <- labelAt st x y ;;
      w <- oget o x y ;;
      if v >=? 0 then
        p <- vget fs (Z.to_nat v) ;;
        match p with
        | None => UB
        | Some xs => fs <- vset fs (Z.to_nat v) (Some (w :: xs)) ;; initFunctors st o t fs
        end
      else initFunctors st o t fs
  end.

(** facestatistics.hxx 541-560: the loop with levels 1, 2, ...; [n] levels are left *)
Fixpoint superSample (n : nat) (ss : nat) (min : nat) (extra : nat -> list V) (xs : list V) : nat * list V :=
  match n with
  | O => (S ss, xs)
  | S k =>
      let xs := extra (S ss) ++ xs in
      if (length xs <? min)%nat then superSample k (S ss) min extra xs else (S ss, xs)
  end.
(** facestatistics.hxx 519-569 (ensureMinSampleCount) *)
Fixpoint ensure m (bx : boxes) (min : nat) (extra : nat -> nat -> list V) (ls : list nat) (fs : list (option (list V))) (tab : option (list nat)) (count : Z)
  : res (boxes * list (option (list V)) * option (list nat) * Z) :=
  match ls with
  | [] => Ok (bx, fs, tab, count)
  | l :: t =>
      p <- vget fs l ;;
      match p with
      | None => UB
      | Some xs =>
          if (length xs <? min)%nat then
            r <- getBox m bx l ;;
            let tb := match tab with Some tb => tb | None => repeat 0%nat (length (faces m)) end in
            let q := superSample 16 0 min (extra l) xs in
            fs <- vset fs l (Some (snd q)) ;;
            tb <- vset tb l (fst q) ;;
            ensure m (fst r) min extra t fs (Some tb) (count + 1)
          else ensure m bx min extra t fs tab count
      end
  end.

Definition newStats st (bx : boxes) (o : orig) (min : nat) (extra : nat -> nat -> list V) : res (boxes * stats) :=
  match lim st with
  | None => Exn
  | Some img =>
      let m := lg st in
      fs <- initFunctors st o (allPx (iw img) (ih img)) (map (fun p => match p with Some _ => Some [] | None => None end) (faces m)) ;;
      r <- (if Nat.eqb min 0 then Ok (bx, fs, None, 0) else ensure m bx min extra (liveFrom 1 (faces m)) fs None 0) ;;
      let '(bx, fs, tab, count) := r in
      Ok (bx, mkStats o fs min tab count [] 0 0 0)
  end.

(** facestatistics.hxx 434-447: the loop of checkConsistency(); [n] is realSuperSampledCount *)
Fixpoint checkFaces st s (t : list nat) (ls : list nat) (n : Z) (ok : bool) : res (Z * bool) :=
  match ls with
  | [] => Ok (n, ok)
  | l :: r =>
      v <- vget t l ;;
      if negb (Nat.eqb v 0) then checkFaces st s t r (n + 1) ok
      else xs <- functor s l ;; checkFaces st s t r n (if Z.of_nat (length xs) =? larea st l then ok else false)
  end.
(** facestatistics.hxx 420-460, of an attached object *)
Definition checkConsistency st s : res bool :=
  match sTab s with
  | None => Ok true
  | Some t => r <- checkFaces st s t (liveFrom 0 (faces (lg st))) 0 true ;; Ok (snd r && (fst r =? sCount s))
  end.

(** ** A map with its statistics *)

Inductive slot :=
| SNone
| SOn (s : stats)                               (* attached *)
| SOff (s : stats)                              (* after detachHooks(), 376-382 *)
| SDangling.                                    (* destroyed (572-576) without detachHooks(): the slots stay connected *)
Record fstate := mkFS { fm : lmap; fbx : boxes; fsl : slot }.
Definition newState (w h : Z) : fstate := mkFS (newMap w h) (fun _ => None) SNone.

(** the slots connected by attachHooks (361-374) *)
Definition onPreMerge st bx (sl : slot) (d : Z) : res (boxes * slot) :=
  match sl with SOn s => r <- preMergeFaces st bx s d ;; Ok (fst r, SOn (snd r)) | SDangling => UB | _ => Ok (bx, sl) end.
Definition onPostMerge (sl : slot) (l : nat) (area : Z) : res slot :=
  match sl with SOn s => s <- postMergeFaces s l area ;; Ok (SOn s) | SDangling => UB | _ => Ok sl end.
(** cppmap.cxx 2029-2031, 2157-2159 *)
Definition onAssociate st bx (sl : slot) (l : nat) (ps : list (Z * Z)) : res (boxes * slot) :=
  match ps with
  | [] => Ok (bx, sl)
  | _ :: _ => match sl with SOn s => r <- associatePixels st bx s l ps ;; Ok (fst r, SOn (snd r)) | SDangling => UB | _ => Ok (bx, sl) end
  end.

(** cppmap.cxx 2036-2162.  If another slot forbids the merge, [seen] tells whether preMergeFaces had been called before. *)
Definition fmergeFaces (fs : fstate) hk (seen : bool) (d : Z) : res fstate :=
  let st := fm fs in
  r <- lmergeFaces srt unit hk st d ;;
  let '(st', o, out) := r in
  x <- pickDart (lg st) d ;;
  match o with
  | None =>
      if seen then q <- onPreMerge st (fbx fs) (fsl fs) (snd x) ;; Ok (mkFS st' (fst q) (snd q))
      else Ok (mkFS st' (fbx fs) (fsl fs))
  | Some s =>
      mo <- rightLabel (lg st) (snd x) ;;
      match mo with
      | None => UB
      | Some mm =>
          q <- onPreMerge st (fbx fs) (fsl fs) (snd x) ;;
          bx <- mergeBoxes (lg st) (fst q) s mm ;;
          sl <- onPostMerge (snd q) s (larea st s + larea st mm) ;;
          q <- onAssociate st' bx sl s out ;;
          Ok (mkFS st' (fst q) (snd q))
      end
  end.
(** cppmap.cxx 1960-2034 *)
Definition fremoveBridge (fs : fstate) hk (d : Z) : res fstate :=
  r <- lremoveBridge srt unit hk (fm fs) d ;;
  let '(st', o, out) := r in
  match o with
  | None => Ok (mkFS st' (fbx fs) (fsl fs))
  | Some f => q <- onAssociate st' (fbx fs) (fsl fs) f out ;; Ok (mkFS st' (fst q) (snd q))
  end.
(** cppmap.cxx 407-426 *)
Definition fremoveEdge (fs : fstate) hk (seen : bool) (d : Z) : res fstate :=
  let st := fm fs in
  if negb (Nat.eqb (length (faces (lg st))) 0) then
    e <- deref (edgeP (lg st) (elab d)) ;;
    if isBridge e then fremoveBridge fs hk d else fmergeFaces fs hk seen d
  else r <- lremoveEdge srt unit hk st d ;; Ok (mkFS (fst (fst r)) (fbx fs) (fsl fs)).

Inductive fcall :=
| FMap (seen : bool) (c : lcall)
| FBox (l : nat)                                (* face(l)->boundingBox() *)
| FStats (o : orig) (min : nat) (extra : nat -> nat -> list V)
| FDetach
| FDrop.

Definition fexec (fs : fstate) (c : fcall) : res fstate :=
  let st := fm fs in
  match c with
  | FMap seen (LCall hk (OMergeFaces d)) => fmergeFaces fs hk seen d
  | FMap seen (LCall hk (ORemoveBridge d)) => fremoveBridge fs hk d
  | FMap seen (LCall hk (ORemoveEdge d)) => fremoveEdge fs hk seen d
  | FMap _ c =>
      st' <- lexec srt unit st c ;;
      Ok (match c with
          | LInit _ _ true => mkFS st' (allBoxes (lg st') (fun _ => None)) (fsl fs)
          | LInit _ _ false => mkFS st' (fun _ => None) (fsl fs)
          | LSetImage true => mkFS st' (if isLive (lim st) then fbx fs else allBoxes (lg st) (fbx fs)) (fsl fs)
          | LRelabel new _ => mkFS st' (fun k => match oldPlace (faces (lg st)) new k with Some l => fbx fs l | None => None end) (fsl fs)
          | LCopy => mkFS st' (fbx fs) SNone
          | _ => mkFS st' (fbx fs) (fsl fs)
          end)
  | FBox l => r <- getBox (lg st) (fbx fs) l ;; Ok (mkFS st (fst r) (fsl fs))
  | FStats o min extra => r <- newStats st (fbx fs) o min extra ;; Ok (mkFS st (fst r) (SOn (snd r)))
  | FDetach => Ok (mkFS st (fbx fs) (match fsl fs with SOn s => SOff s | x => x end))
  | FDrop => Ok (mkFS st (fbx fs) (match fsl fs with SOn _ => SDangling | SOff _ => SNone | x => x end))
  end.
End Model.
End Stats.
Arguments mkOrig {V}. Arguments ow {V}. Arguments oh {V}. Arguments oval {V}. Arguments oInside {V}. Arguments oget {V}.
Arguments mkStats {V}. Arguments sOrig {V}. Arguments sFun {V}. Arguments sMin {V}. Arguments sTab {V}. Arguments sCount {V}. Arguments sMerged {V}. Arguments sMergedSS {V}. Arguments sL1 {V}. Arguments sL2 {V}.
Arguments setF {V}. Arguments setT {V}. Arguments setM {V}. Arguments setL {V}. Arguments functor {V}. Arguments rescanPx {V}. Arguments rescanFace {V}. Arguments preMergeFaces {V}.
Arguments checkPixelCount {V}. Arguments dropOne {V}. Arguments table {V}. Arguments postMergeFaces {V}. Arguments feed {V}. Arguments feedAll {V}. Arguments associatePixels {V}.
Arguments initFunctors {V}. Arguments superSample {V}. Arguments ensure {V}. Arguments newStats {V}. Arguments checkFaces {V}. Arguments checkConsistency {V}.
Arguments SNone {V}. Arguments SOn {V}. Arguments SOff {V}. Arguments SDangling {V}. Arguments mkFS {V}. Arguments fm {V}. Arguments fbx {V}. Arguments fsl {V}. Arguments newState {V}.
Arguments onPreMerge {V}. Arguments onPostMerge {V}. Arguments onAssociate {V}. Arguments fmergeFaces {V}. Arguments fremoveBridge {V}. Arguments fremoveEdge {V}.
Arguments FMap {V}. Arguments FBox {V}. Arguments FStats {V}. Arguments FDetach {V}. Arguments FDrop {V}. Arguments fexec {V}.
