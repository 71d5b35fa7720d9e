(** C34, C35: packing of darts and cell pixels into integers. *)
From Verif Require Import Base Pack_Model Pack_Proofs.
Local Open Scope Z_scope.

(** C34: a serialised dart is read back, for all directions and all centers below 2^14. *)
Theorem C34_roundtrip dir x y : 0 <= dir < 8 -> 0 <= x < 2 ^ 14 -> 0 <= y < 2 ^ 14 ->
  exists s, serialize dir x y = Ok s /\ 0 <= s < 2 ^ 31 /\ deserialize s = (dir, x, y).
Proof. exact (serialize_roundtrip dir x y). Qed.
Print Assumptions C34_roundtrip.

(** C34: there different darts have different codes. *)
Theorem C34_injective dir x y dir' x' y' s : 0 <= dir < 8 -> 0 <= x < 2 ^ 14 -> 0 <= y < 2 ^ 14 ->
  0 <= dir' < 8 -> 0 <= x' < 2 ^ 14 -> 0 <= y' < 2 ^ 14 ->
  serialize dir x y = Ok s -> serialize dir' x' y' = Ok s -> (dir, x, y) = (dir', x', y').
Proof. exact (serialize_injective dir x y dir' x' y' s). Qed.
Print Assumptions C34_injective.

(** C34: beyond, up to the limit where the shift overflows, every dart has the code of a different dart, which is the one read back. *)
Theorem C34_collides dir x y : 0 <= dir < 8 -> 0 <= x < 2 ^ 17 -> 0 <= y < 2 ^ 17 -> 2 ^ 14 <= x \/ 2 ^ 14 <= y ->
  exists s dir' x' y', serialize dir x y = Ok s /\ serialize dir' x' y' = Ok s /\ deserialize s = (dir', x', y') /\
    0 <= dir' < 8 /\ 0 <= x' < 2 ^ 14 /\ 0 <= y' < 2 ^ 14 /\ (dir', x', y') <> (dir, x, y).
Proof. exact (serialize_collides dir x y). Qed.
Print Assumptions C34_collides.

(** C34: with larger x the shift overflows. *)
Theorem C34_overflow dir x y : 0 <= dir < 8 -> 2 ^ 17 <= x -> serialize dir x y = UB.
Proof. exact (serialize_overflow dir x y). Qed.
Print Assumptions C34_overflow.

Example C34_case : serialize 5 1000 16383 = Ok 1358577663 /\ deserialize 1358577663 = (5, 1000, 16383) /\
  serialize 5 1000 16384 = Ok 1358577664 /\ deserialize 1358577664 = (5, 1001, 0) /\ serialize 5 16384 7 = Ok 1342177287 /\
  deserialize 1342177287 = (5, 0, 7).
Proof. repeat split. Qed.

(** C35: label and type are read back, for all labels below 2^30 and the four storable types. *)
Theorem C35_lossless type label : 0 <= type < 4 -> 0 <= label < 2 ^ 30 ->
  pixType (mkPixel type label) = type /\ pixLabel (mkPixel type label) = label /\ 0 <= mkPixel type label < 2 ^ 32.
Proof. exact (pixel_lossless type label). Qed.
Print Assumptions C35_lossless.

(** C35: setting one leaves the other alone, whatever the pixel contained. *)
Theorem C35_set_type p type : 0 <= p < 2 ^ 32 -> 0 <= type < 4 ->
  pixType (setType p type) = type /\ pixLabel (setType p type) = pixLabel p /\ 0 <= setType p type < 2 ^ 32.
Proof. exact (setType_ok p type). Qed.
Print Assumptions C35_set_type.
Theorem C35_set_label p label : 0 <= p < 2 ^ 32 -> 0 <= label < 2 ^ 30 ->
  pixLabel (setLabel p label) = label /\ pixType (setLabel p label) = pixType p /\ 0 <= setLabel p label < 2 ^ 32.
Proof. exact (setLabel_ok p label). Qed.
Print Assumptions C35_set_label.

(** C35: two pixels are equal iff their types and labels are. *)
Theorem C35_equal p q : p = q <-> pixType p = pixType q /\ pixLabel p = pixLabel q.
Proof. exact (pixel_equal p q). Qed.
Print Assumptions C35_equal.

(** C35: the conversion to int and back is lossless, for every pixel. *)
Theorem C35_serializer p : 0 <= p < 2 ^ 32 -> - 2 ^ 31 <= pixToInt p < 2 ^ 31 /\ pixOfInt (pixToInt p) = p.
Proof. exact (pixInt_roundtrip p). Qed.
Print Assumptions C35_serializer.

(** C35: the two top bits of larger labels are lost ... *)
Theorem C35_truncated type label : 0 <= type < 4 -> 0 <= label < 2 ^ 32 ->
  pixLabel (mkPixel type label) = label mod 2 ^ 30 /\ pixType (mkPixel type label) = type.
Proof. exact (pixel_truncated type label). Qed.
Print Assumptions C35_truncated.

(** C35: ... and the two search types cannot be stored: they set the lowest bit of the label instead. *)
Theorem C35_search_types_refuted : exists label, 0 <= label < 2 ^ 30 /\
  pixType (mkPixel cellTypeVertexOrLine label) <> cellTypeVertexOrLine /\ pixLabel (mkPixel cellTypeVertexOrLine label) <> label /\
  pixType (mkPixel cellTypeErrorOrLine label) <> cellTypeErrorOrLine /\ pixLabel (mkPixel cellTypeErrorOrLine label) <> label.
Proof. exact search_types. Qed.
Print Assumptions C35_search_types_refuted.

Example C35_case : mkPixel cellTypeLine 5 = 21 /\ pixLabel 21 = 5 /\ setType 21 cellTypeVertex = 22 /\ setLabel 21 1000000 = 4000001 /\
  mkPixel cellTypeError (2 ^ 30 - 1) = 2 ^ 32 - 1 /\ pixToInt (2 ^ 32 - 1) = -1.
Proof. repeat split. Qed.
