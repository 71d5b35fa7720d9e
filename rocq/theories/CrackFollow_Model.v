(** Model of CrackEdgeMapGenerator::followEdge and followAllEdgesStartingWith (src/geomap/crackedgemap.cxx 83-229) and
    of the constructor (src/geomap/crackedgemap.hxx 41-56).  Coordinates of the map are doubled, so that the point
    (x - 0.5, y - 0.5) of corner (x, y) is (2x - 1, 2y - 1). *)
From Verif Require Import Base Image_Model Crack_Model GeoMap_Model.
Local Open Scope Z_scope.

(** vigra::FourNeighborCode::Direction, in the order of the circulator *)
Inductive dir4 := East | North | West | South.
Definition turnLeft d := match d with East => North | North => West | West => South | South => East end.
Definition turnRight d := match d with East => South | North => East | West => North | South => West end.
Definition opposite d := match d with East => West | North => South | West => East | South => North end.
Definition dirDiff d : Z * Z := match d with East => (1, 0) | North => (0, -1) | West => (-1, 0) | South => (0, 1) end.
(** crackedgemap.cxx 101-102 and 182-183 *)
Definition connOf d := match d with East => CONN_RIGHT | North => CONN_UP | West => CONN_LEFT | South => CONN_DOWN end.
(** crackedgemap.cxx 95-99 *)
Definition dirVector d : point := match d with East => (1, 0) | North => (0, -1) | West => (-1, 0) | South => (0, 1) end.

(** crackedgemap.cxx 147-148; at most four turns unless there is no connection at all *)
Fixpoint turnWhile (n : nat) (connection : Z) (d : dir4) : res dir4 :=
  if Z.land connection (connOf d) =? 0 then
    match n with O => NoFuel | S k => turnWhile k connection (turnLeft d) end
  else Ok d.

(** crackedgemap.cxx 104-149; the points are collected in [acc] *)
Fixpoint followLoop (n : nat) (cc : image) (sx sy x y : Z) (v : point) (d : dir4) (acc : list point)
  : res (image * (Z * Z) * dir4 * list point) :=
  match n with
  | O => NoFuel
  | S k =>
      let v := (fst v + 2 * fst (dirVector d), snd v + 2 * snd (dirVector d)) in
      let acc := acc ++ [v] in
      let x := x + fst (dirDiff d) in
      let y := y + snd (dirDiff d) in
      if (x =? sx) && (y =? sy) then Ok (cc, (x, y), opposite d, acc) else
      connection <- getPx cc x y ;;
      if hasBit connection CONN_DIAG then
        let left := if hasBit connection CONN_DIAG_UPLEFT
                    then match d with North | South => true | _ => false end
                    else match d with East | West => true | _ => false end in
        let connection := Z.land connection (Z.lnot (connOf (opposite d))) in
        let d := if left then turnLeft d else turnRight d in
        let connection := Z.land connection (Z.lnot (connOf d)) in
        let connection := if Z.land connection CONN_ALL4 =? 0
                          then Z.land connection (Z.lnot CONN_MAYBE_NODE) else connection in
        cc <- putPx cc x y connection ;;
        followLoop k cc sx sy x y v d acc
      else if hasBit connection CONN_NODE then Ok (cc, (x, y), opposite d, acc)
      else
        cc <- (if hasBit connection CONN_MAYBE_NODE
               then putPx cc x y (Z.land connection (Z.lnot CONN_MAYBE_NODE)) else Ok cc) ;;
        d <- turnWhile 4 connection (turnRight d) ;;
        followLoop k cc sx sy x y v d acc
  end.

(** number of directed cracks *)
Definition followFuel (cc : image) : nat := S (Z.to_nat (4 * (iw cc * ih cc))).

(** crackedgemap.cxx 83-153 *)
Definition followEdge (cc : image) (x y : Z) (d : dir4) : res (image * (Z * Z) * dir4 * list point) :=
  let v := (2 * x - 1, 2 * y - 1) in
  followLoop (followFuel cc) cc x y x y v d [v].

(** crackConnections, nodeImage, result *)
Record gen := mkGen { gcc : image; gni : image; gmapOf : gmap }.

(** label + 1 in the upper bits of a node image entry *)
Definition nodeOfInfo (info : Z) : nat := Z.to_nat (Z.shiftr info 4 - 1).
Definition infoOfNode (l : nat) : Z := Z.shiftl (Z.of_nat l + 1) 4.

(** crackedgemap.cxx 189-224: one direction of the do-while loop; [info] is startNodeInfo *)
Definition startDir (x y : Z) (startNode : nat) (st : gen * Z) (d : dir4) : res (gen * Z) :=
  let (g, info) := st in
  conn <- getPx (gcc g) x y ;;
  let startConn := connOf d in
  if hasBit conn startConn && negb (hasBit info startConn) then
    r <- followEdge (gcc g) x y d ;;
    match r with
    | (cc, (ex, ey), endDir, points) =>
        let endConn := connOf endDir in
        endInfo <- getPx (gni g) ex ey ;;
        let '(m, endNode, endInfo) :=
          if endInfo =? 0 then
            let (m, l) := addNode (gmapOf g) (2 * ex - 1, 2 * ey - 1) in (m, l, infoOfNode l)
          else (gmapOf g, nodeOfInfo endInfo, endInfo) in
        me <- addEdge m (SAnode startNode) (SAnode endNode) points 0 ;;
        let m := fst me in
        let info := Z.lor info startConn in
        if Nat.eqb startNode endNode then
          let info := Z.lor info endConn in
          ni <- putPx (gni g) x y info ;;
          Ok (mkGen cc ni m, info)
        else
          ni <- putPx (gni g) x y info ;;
          ni <- putPx ni ex ey (Z.lor endInfo endConn) ;;
          Ok (mkGen cc ni m, info)
    end
  else Ok (g, info).

Fixpoint startDirs (x y : Z) (startNode : nat) (st : gen * Z) (ds : list dir4) : res (gen * Z) :=
  match ds with
  | [] => Ok st
  | d :: ds => st <- startDir x y startNode st d ;; startDirs x y startNode st ds
  end.

(** crackedgemap.cxx 165-226: one corner *)
Definition startCorner (connMask x y : Z) (g : gen) : res gen :=
  conn <- getPx (gcc g) x y ;;
  if Z.land conn connMask =? 0 then Ok g else
  info <- getPx (gni g) x y ;;
  let '(g, startNode, info) :=
    if info =? 0 then
      let (m, l) := addNode (gmapOf g) (2 * x - 1, 2 * y - 1) in
      (mkGen (gcc g) (setPx (gni g) x y (infoOfNode l)) m, l, infoOfNode l)
    else (g, nodeOfInfo info, info) in
  r <- startDirs x y startNode (g, info) [East; North; West; South] ;;
  Ok (fst r).

(** crackedgemap.cxx 155-229 *)
Definition followAllEdgesStartingWith (connMask : Z) (g : gen) : res gen :=
  let ex := iw (gcc g) in
  forZ 0 (ih (gcc g)) (fun y g => forZ 0 ex (fun x g => startCorner connMask x y g) g) g.

(** crackedgemap.hxx 41-56 *)
Definition crackEdgeMap (src : image) (eightConnected : bool) : res gen :=
  cc <- crackImage src eightConnected ;;
  let g := mkGen cc (newImg (iw src + 1) (ih src + 1) 0) empty_map in
  g <- followAllEdgesStartingWith CONN_NODE g ;;
  followAllEdgesStartingWith CONN_MAYBE_NODE g.
