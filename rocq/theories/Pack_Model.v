(** Model of the bit packings of src/cellimage: CellPixel (cellimage.hxx 40-108) and the serialised DartTraverser
    (foureightsegmentation.hxx 610-628).  unsigned int and int have 32 bits. *)
From Verif Require Import Base.
Local Open Scope Z_scope.

(** unsigned arithmetic is modulo 2^32 *)
Definition u32 (z : Z) : Z := z mod 2 ^ 32.
(** conversion to int: modulo 2^32 into [-2^31, 2^31) (all compilers in use) *)
Definition s32 (z : Z) : Z := if u32 z <? 2 ^ 31 then u32 z else u32 z - 2 ^ 32.

(** cellimage.hxx 40-45: the values of CellType *)
Definition cellTypeRegion := 0.
Definition cellTypeLine := 1.
Definition cellTypeVertex := 2.
Definition cellTypeError := 3.
Definition cellTypeVertexOrLine := 4.
Definition cellTypeErrorOrLine := 5.

(** cellimage.hxx 52-55: a CellPixel is its member typeLabel_ *)
Notation pixel := Z (only parsing).
(** cellimage.hxx 62-64 (constructor), 68-71 (setType with two arguments), 77-78 (setLabel with two arguments) *)
Definition mkPixel (type label : Z) : pixel := Z.lor (u32 (Z.shiftl label 2)) type.
(** cellimage.hxx 66-67 *)
Definition pixType (p : pixel) : Z := Z.land p 3.
(** cellimage.hxx 73-74 *)
Definition pixLabel (p : pixel) : Z := Z.shiftr p 2.
(** cellimage.hxx 68-69 *)
Definition setType (p : pixel) (type : Z) : pixel := Z.lor (u32 (Z.shiftl (pixLabel p) 2)) type.
(** cellimage.hxx 75-76 *)
Definition setLabel (p : pixel) (label : Z) : pixel := Z.lor (u32 (Z.shiftl label 2)) (pixType p).
(** cellimage.hxx 95-107: CellPixelSerializer *)
Definition pixToInt (p : pixel) : Z := s32 p.
Definition pixOfInt (i : Z) : pixel := u32 i.

(** foureightsegmentation.hxx 610-617: serialize(); center coordinates relative to cellImage.upperLeft().  The shifts are done on ints;
    a result that does not fit is undefined behaviour *)
Definition shlInt (z n : Z) : res Z := let r := Z.shiftl z n in if (0 <=? z) && (r <? 2 ^ 31) then Ok r else UB.
Definition serialize (dir x y : Z) : res Z :=
  d <- shlInt dir 28 ;; xs <- shlInt x 14 ;; Ok (u32 (Z.lor (Z.lor d xs) y)).
(** foureightsegmentation.hxx 619-628: the direction and the center of the DartTraverser constructed *)
Definition deserialize (s : Z) : Z * Z * Z :=
  (Z.shiftr s 28, Z.land (Z.shiftr s 14) 16383, Z.land s 16383).
