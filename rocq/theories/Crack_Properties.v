(** C22, C23: crack connections of a label image. *)
From Verif Require Import Base Image_Model Crack_Model Crack_Spec Crack_Proofs.
Local Open Scope Z_scope.

(** a 3x2 label image: 1 1 2 / 3 1 1 *)
Definition labels32 : image :=
  mkImg 3 2 (fun x y => match y with 0 => if x =? 2 then 2 else 1 | _ => if x =? 0 then 3 else 1 end).

(** C22: the right bit says that the pixels above and below the crack differ, the down bit that the pixels left and
    right of it do; pixels outside are [None].  Every image of every positive size, every corner but the last one,
    which is not written. *)
Theorem C22_crack_bits : forall src dest, 1 <= iw src -> 1 <= ih src -> iw dest = iw src + 1 -> ih dest = ih src + 1 ->
  exists im, crackConnectionImage src dest = Ok im /\ iw im = iw src + 1 /\ ih im = ih src + 1 /\
    (forall x y, 0 <= x <= iw src -> 0 <= y <= ih src -> ~ (x = iw src /\ y = ih src) ->
       0 <= ipx im x y < 4 /\
       (Z.testbit (ipx im x y) 0 = true <-> labelAt src x (y - 1) <> labelAt src x y) /\
       (Z.testbit (ipx im x y) 1 = true <-> labelAt src (x - 1) y <> labelAt src x y)) /\
    ipx im (iw src) (ih src) = ipx dest (iw src) (ih src).
Proof. exact crackConnectionImage_bits. Qed.
Print Assumptions C22_crack_bits.

Example C22_case : match crackConnectionImage labels32 (newImg 4 3 0) with
  | Ok im => map (fun p => ipx im (fst p) (snd p)) [(0,0); (1,0); (2,0); (3,0); (0,1); (1,1); (2,1); (3,1); (0,2); (1,2); (2,2); (3,2)]
             = [3; 1; 3; 2; 3; 2; 1; 2; 1; 1; 1; 0]
  | _ => False end.
Proof. reflexivity. Qed.

(** C22: an image without pixels makes the loops run beyond its end. *)
Theorem C22_empty_refuted : exists src dest, iw src = 0 /\ ih src = 0 /\ iw dest = 1 /\ ih dest = 1 /\ crackConnectionImage src dest = UB.
Proof. exists (newImg 0 0 0), (newImg 1 1 0). repeat split; reflexivity. Qed.
Print Assumptions C22_empty_refuted.

(** C23: all eight bits of every corner, in particular: no access (to images or to the degree table) is out of range,
    NODE (bit 6) is set exactly where a node is needed, MAYBE_NODE (bit 7) exactly where following may start. *)
Theorem C23_corner_bits : forall src eight, 1 <= iw src -> 1 <= ih src ->
  exists im, crackImage src eight = Ok im /\ iw im = iw src + 1 /\ ih im = ih src + 1 /\
    forall x y, isCorner src x y -> 0 <= ipx im x y < 256 /\
      Z.testbit (ipx im x y) 0 = crackEast src x y /\ Z.testbit (ipx im x y) 1 = crackSouth src x y /\
      Z.testbit (ipx im x y) 2 = crackWest src x y /\ Z.testbit (ipx im x y) 3 = crackNorth src x y /\
      Z.testbit (ipx im x y) 4 = joinsUpLeft src eight x y /\ Z.testbit (ipx im x y) 5 = joinsUpRight src eight x y /\
      Z.testbit (ipx im x y) 6 = needsNode src eight x y /\ Z.testbit (ipx im x y) 7 = mayStart src eight x y.
Proof. exact crackImage_bits. Qed.
Print Assumptions C23_corner_bits.

Example C23_case : match crackImage labels32 true with
  | Ok im => map (fun p => ipx im (fst p) (snd p)) [(0,0); (1,0); (2,0); (3,0); (0,1); (1,1); (2,1); (3,1); (0,2); (1,2); (2,2); (3,2)]
             = [131; 5; 71; 6; 75; 6; 9; 78; 9; 77; 5; 12]
  | _ => False end.
Proof. vm_compute. reflexivity. Qed.

(** the checkerboard 1 2 / 2 1: with 8-connected regions the corner is passed diagonally, else it needs a node *)
Example C23_case_diagonal :
  let src := mkImg 2 2 (fun x y => if x =? y then 1 else 2) in
  (match crackImage src true with Ok im => ipx im 1 1 = 15 + 32 + 128 | _ => False end) /\
  (match crackImage src false with Ok im => ipx im 1 1 = 15 + 64 | _ => False end).
Proof. vm_compute. split; reflexivity. Qed.

(** C23: neighbouring corners agree about the crack between them. *)
Theorem C23_symmetric : forall src x y,
  crackEast src x y = crackWest src (x + 1) y /\ crackSouth src x y = crackNorth src x (y + 1).
Proof. exact crack_shared. Qed.
Print Assumptions C23_symmetric.

(** C23: no corner has exactly one crack. *)
Theorem C23_degree : forall src x y, In (cracksAt src x y) [0; 2; 3; 4].
Proof. exact cracksAt_cases. Qed.
Print Assumptions C23_degree.

(** C23: at most one diagonal is joined, and one is joined exactly where diagonal neighbours have equal labels. *)
Theorem C23_diagonals : forall src eight x y,
  joinsUpLeft src eight x y || joinsUpRight src eight x y = eight && diagonalAt src x y /\
  joinsUpLeft src eight x y && joinsUpRight src eight x y = false.
Proof. exact joins_diagonal. Qed.
Print Assumptions C23_diagonals.
