(** Model of crackConnectionImage (src/geomap/vigra/crackconnections.hxx 46-118) and of
    makeCCSymmetric, markEightConnectedRegions and markNodes of CrackEdgeMapGenerator
    (src/geomap/crackedgemap.hxx 70-147, src/geomap/crackedgemap.cxx 32-81). *)
From Verif Require Import Base Image_Model.
Local Open Scope Z_scope.

(** crackedgemap.hxx 70-84 *)
Definition CONN_RIGHT := 1.
Definition CONN_DOWN := 2.
Definition CONN_LEFT := 4.
Definition CONN_UP := 8.
Definition CONN_ALL4 := 15.
Definition CONN_DIAG_UPLEFT := 16.
Definition CONN_DIAG_UPRIGHT := 32.
Definition CONN_DIAG := 48.
Definition CONN_NODE := 64.
Definition CONN_MAYBE_NODE := 128.

(** crackconnections.hxx 58-78: the first row *)
Definition ccFirstRow (src dest : image) : res image :=
  dest <- putPx dest 0 0 (Z.lor CONN_RIGHT CONN_DOWN) ;;
  dest <- forZ 1 (iw src) (fun x dest =>
            l <- getPx src (x - 1) 0 ;;
            s <- getPx src x 0 ;;
            putPx dest x 0 (if l =? s then CONN_RIGHT else Z.lor CONN_RIGHT CONN_DOWN)) dest ;;
  putPx dest (iw src) 0 CONN_DOWN.

(** crackconnections.hxx 82-111: one of the middle rows *)
Definition ccMiddleRow (src : image) (y : Z) (dest : image) : res image :=
  u <- getPx src 0 (y - 1) ;;
  s <- getPx src 0 y ;;
  dest <- putPx dest 0 y (if u =? s then CONN_DOWN else Z.lor CONN_DOWN CONN_RIGHT) ;;
  dest <- forZ 1 (iw src) (fun x dest =>
            u <- getPx src x (y - 1) ;;
            s <- getPx src x y ;;
            l <- getPx src (x - 1) y ;;
            let conn := if u =? s then 0 else CONN_RIGHT in
            putPx dest x y (if l =? s then conn else Z.lor conn CONN_DOWN)) dest ;;
  putPx dest (iw src) y CONN_DOWN.

(** crackconnections.hxx 46-118; the loops compare with [!=], so an empty source image runs away *)
Definition crackConnectionImage (src dest : image) : res image :=
  if (iw src <? 1) || (ih src <? 1) then UB else
  dest <- ccFirstRow src dest ;;
  dest <- forZ 1 (ih src) (fun y dest => ccMiddleRow src y dest) dest ;;
  forZ 0 (iw src) (fun x dest => putPx dest x (ih src) CONN_RIGHT) dest.

(** [*it & flag] and [it[...] |= flag] *)
Definition hasBit (v flag : Z) : bool := negb (Z.land v flag =? 0).
Definition orPx (im : image) (x y flag : Z) : res image := v <- getPx im x y ;; putPx im x y (Z.lor v flag).

(** crackedgemap.cxx 42-45: one corner *)
Definition symCorner (x y : Z) (im : image) : res image :=
  v <- getPx im x y ;;
  im <- (if hasBit v CONN_RIGHT then orPx im (x + 1) y CONN_LEFT else Ok im) ;;
  v <- getPx im x y ;;
  if hasBit v CONN_DOWN then orPx im x (y + 1) CONN_UP else Ok im.

(** crackedgemap.cxx 32-54 *)
Definition makeCCSymmetric (im : image) : res image :=
  let ex := iw im - 1 in
  let ey := ih im - 1 in
  im <- forZ 0 ey (fun y im =>
          im <- forZ 0 ex (fun x im => symCorner x y im) im ;;
          v <- getPx im ex y ;;
          if hasBit v CONN_DOWN then orPx im ex (y + 1) CONN_UP else Ok im) im ;;
  forZ 0 ex (fun x im => v <- getPx im x ey ;; if hasBit v CONN_RIGHT then orPx im (x + 1) ey CONN_LEFT else Ok im) im.

(** crackedgemap.hxx 124-144: one corner *)
Definition eightCorner (src : image) (x y : Z) (im : image) : res image :=
  conn <- getPx im x y ;;
  if negb (conn =? CONN_ALL4) then Ok im else
  a <- getPx src x y ;;
  b <- getPx src (x - 1) (y - 1) ;;
  im <- (if a =? b then orPx im x y CONN_DIAG_UPLEFT else Ok im) ;;
  c <- getPx src (x - 1) y ;;
  d <- getPx src x (y - 1) ;;
  im <- (if c =? d then orPx im x y CONN_DIAG_UPRIGHT else Ok im) ;;
  v <- getPx im x y ;;
  if v =? Z.lor CONN_ALL4 (Z.lor CONN_DIAG_UPLEFT CONN_DIAG_UPRIGHT) then
    putPx im x y (if d >? b then v - CONN_DIAG_UPLEFT else v - CONN_DIAG_UPRIGHT)
  else Ok im.

(** crackedgemap.hxx 110-147 *)
Definition markEightConnectedRegions (src im : image) : res image :=
  let ex := iw im - 1 in
  forZ 1 (ih im - 1) (fun y im => forZ 1 ex (fun x im => eightCorner src x y im) im) im.

(** crackedgemap.cxx 58-61 *)
Definition conn2degree : list Z :=
  [0; 1; 1; 2; 1; 2; 2; 3; 1; 2; 2; 3; 2; 3; 3; 4;
   0; 1; 1; 2; 1; 2; 2; 3; 1; 2; 2; 3; 2; 3; 3; 2;
   0; 1; 1; 2; 1; 2; 2; 3; 1; 2; 2; 3; 2; 3; 3; 2].

(** crackedgemap.cxx 71-78 *)
Definition nodeCorner (x y : Z) (im : image) : res image :=
  conn <- getPx im x y ;;
  deg <- (if conn <? 0 then UB else vget conn2degree (Z.to_nat conn)) ;;
  if deg >? 2 then putPx im x y (Z.lor conn CONN_NODE)
  else if (Z.land conn CONN_ALL4 =? Z.lor CONN_RIGHT CONN_DOWN) || hasBit conn CONN_DIAG
  then putPx im x y (Z.lor conn CONN_MAYBE_NODE)
  else Ok im.

(** crackedgemap.cxx 56-81 *)
Definition markNodes (im : image) : res image :=
  let ex := iw im in
  forZ 0 (ih im) (fun y im => forZ 0 ex (fun x im => nodeCorner x y im) im) im.

(** crackedgemap.hxx 40-53 up to markNodes *)
Definition crackImage (src : image) (eightConnected : bool) : res image :=
  im <- crackConnectionImage src (newImg (iw src + 1) (ih src + 1) 0) ;;
  im <- makeCCSymmetric im ;;
  im <- (if eightConnected then markEightConnectedRegions src im else Ok im) ;;
  markNodes im.
