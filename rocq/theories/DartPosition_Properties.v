(** C27: moving along a dart. *)
From Coq Require Import Reals Lra.
From Verif Require Import Base DartPosition_Model DartPosition_Spec DartPosition_Proofs.

(** C27: a step forward followed by a step backward does not restore the position, on any dart with at least three points whose
    first two differ: the reported segment becomes the pair (second point, second point) and the arc length stays at the
    second point although segmentIndex() is 0 again. *)
Theorem C27_back_refuted : forall pts fwd, (3 <= length pts)%nat ->
  forall a b, nth_error (dartPts pts fwd) 0 = Some a -> nth_error (dartPts pts fwd) 1 = Some b ->
  exists d0 d1 d2, dpStart pts fwd = Ok d0 /\ gotoNextSegment d0 = Ok (d1, true) /\ gotoPrevSegment d1 = Ok (d2, true) /\
    dSeg d2 = 0%nat /\ dP1 d2 = b /\ dP2 d2 = b /\ dAt d2 = b /\ dpArcLength d2 = dist a b.
Proof. exact next_prev. Qed.
Print Assumptions C27_back_refuted.

(** C27 (moves forward only): after any number of moves forward the reported segment is the pair of consecutive dart points
    at the current index, the reported position lies on it and the reported arc length is the one of this position; behind
    the last segment, position and arc length are those of the dart's end. *)
Theorem C27_forward_partial : forall pts fwd d, (2 <= length pts)%nat -> forward pts fwd d ->
  if dpAtEnd d then nth_error (dartPts pts fwd) (length pts - 1) = Some (dAt d) /\ dpArcLength d = arcAll (dartPts pts fwd)
  else nth_error (dartPts pts fwd) (dSeg d) = Some (dP1 d) /\ nth_error (dartPts pts fwd) (S (dSeg d)) = Some (dP2 d) /\
       onSegment (dartPts pts fwd) (dSeg d) (dpArcLength d) (dAt d).
Proof. exact forward_reports. Qed.
Print Assumptions C27_forward_partial.

(** C27 (moves forward only): gotoArcLength succeeds exactly for arc lengths less than the length of the dart, and then
    reaches them; gotoNextSegment succeeds exactly if there is another segment, and goes to its start. *)
Theorem C27_goto_partial : forall pts fwd d s, (2 <= length pts)%nat -> forward pts fwd d -> (dpArcLength d <= s)%R ->
  exists d' b, gotoArcLength d s = Ok (d', b) /\ (b = true <-> (s < arcAll (dartPts pts fwd))%R) /\
    (b = true -> dpArcLength d' = s /\ dpAtEnd d' = false) /\ (b = false -> dpAtEnd d' = true).
Proof. exact forward_goto. Qed.
Print Assumptions C27_goto_partial.
Theorem C27_next_partial : forall pts fwd d, (2 <= length pts)%nat -> forward pts fwd d ->
  exists d' b, gotoNextSegment d = Ok (d', b) /\ (b = true <-> dpAtEnd d = false /\ (S (S (dSeg d)) < length pts)%nat) /\
    (b = true -> dSeg d' = S (dSeg d) /\ dAt d' = dP2 d /\ dpArcLength d' = arcTo (dartPts pts fwd) (dSeg d')).
Proof. exact forward_next. Qed.
Print Assumptions C27_next_partial.

(** a dart with three points, walked in both directions *)
Definition threePts : list vec := [(0, 0)%R; (3, 4)%R; (3, 10)%R].
Example C27_case : forall fwd, (3 <= length threePts)%nat /\
  exists d0 d1 d2 b, dpStart threePts fwd = Ok d0 /\ forward threePts fwd d0 /\
    gotoNextSegment d0 = Ok (d1, true) /\ forward threePts fwd d1 /\ gotoNextSegment d1 = Ok (d2, b) /\ forward threePts fwd d2.
Proof.
  intro fwd. split; [cbn; lia|]. destruct fwd.
  - do 4 eexists. split; [reflexivity|]. split; [apply f_start; reflexivity|]. split; [reflexivity|].
    split; [eapply f_next; [apply f_start|]; reflexivity|]. split; [reflexivity|].
    eapply f_next; [eapply f_next; [apply f_start|]|]; reflexivity.
  - do 4 eexists. split; [reflexivity|]. split; [apply f_start; reflexivity|]. split; [reflexivity|].
    split; [eapply f_next; [apply f_start|]; reflexivity|]. split; [reflexivity|].
    eapply f_next; [eapply f_next; [apply f_start|]|]; reflexivity.
Qed.
