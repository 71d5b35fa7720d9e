(** C91: saddles of an image. *)
From Verif Require Import Base Image_Model Image_Proofs Saddle_Model Saddle_Spec Saddle_Proofs.
Local Open Scope Z_scope.

(** C91: exactly the inner pixels around which the neighbours are higher, not higher, higher and not higher again are marked; nothing is read or written outside, for images of any size. *)
Theorem C91_marks src dest marker : iw src <= iw dest -> ih src <= ih dest ->
  exists d, findSaddles src dest marker = Ok d /\ iw d = iw dest /\ ih d = ih dest /\
    (forall x y, 1 <= x < iw src - 1 -> 1 <= y < ih src - 1 -> saddle (ipx src) x y -> ipx d x y = marker) /\
    (forall x y, ~ (1 <= x < iw src - 1 /\ 1 <= y < ih src - 1 /\ saddle (ipx src) x y) -> ipx d x y = ipx dest x y).
Proof.
  intros W H. destruct (findSaddles_ok src dest marker W H) as (d & E & A & B & C & D). exists d. split; [exact E|]. split; [exact A|]. split; [exact B|].
  split; [intros x y X Y; apply C; split; assumption|]. intros x y N. apply D. intros [[X Y] S]. auto.
Qed.
Print Assumptions C91_marks.

(** C91: a strictly increasing change of the grey values does not change the saddles. *)
Theorem C91_monotone f g x y : (forall a b, a < b <-> g a < g b) -> saddle (fun x y => g (f x y)) x y <-> saddle f x y.
Proof. exact (saddle_monotone f g x y). Qed.
Print Assumptions C91_monotone.

(** C91: nor does turning the image upside down, where no neighbour has the value of the pixel. *)
Theorem C91_negated f x y : (forall i, 0 <= i < 8 -> neighbour f x y i <> f x y) -> saddle (fun x y => - f x y) x y <-> saddle f x y.
Proof. exact (saddle_negated f x y). Qed.
Print Assumptions C91_negated.

(** C91: with equal values it may. *)
Theorem C91_negated_refuted : exists f x y, saddle f x y /\ ~ saddle (fun x y => - f x y) x y.
Proof.
  exists (fun x y => if (y =? 0) && negb (x =? 0) then 1 else 0), 0, 0. split.
  - exists 0, 2, 4, 6. split; [lia|]. split; [lia|]. split; [lia|]. left. vm_compute. repeat split; discriminate.
  - intros (i & j & k & l & A & B & C & [(D & _)|(_ & D & _)]); unfold higherAt, neighbour in D; cbn [Z.eqb andb negb] in D;
      match type of D with _ < - (if ?c then _ else _) => destruct c end; lia.
Qed.
Print Assumptions C91_negated_refuted.

(** the saddle of x * y is found, and nothing else is marked *)
Example C91_case : saddle (fun x y => (x - 2) * (y - 2)) 2 2 /\
  match findSaddles (mkImg 5 5 (fun x y => (x - 2) * (y - 2))) (newImg 5 5 0) 255 with
  | Ok d => ipx d 2 2 = 255 /\ ipx d 1 1 = 0 /\ ipx d 0 2 = 0
  | _ => False
  end.
Proof.
  split; [exists 1, 3, 5, 7; split; [lia|]; split; [lia|]; split; [lia|]; right; vm_compute; repeat split; discriminate|]. vm_compute. repeat split.
Qed.
(** hypotheses of the other theorems *)
Example C91_case_monotone : forall a b : Z, a < b <-> 3 * a + 7 < 3 * b + 7.
Proof. lia. Qed.
Example C91_case_negated : let f := fun x y => 2 * x * x + x * y - 2 * y * y in (forall i, 0 <= i < 8 -> neighbour f 0 0 i <> f 0 0) /\ saddle f 0 0.
Proof.
  split.
  - intros i I. assert (i = 0 \/ i = 1 \/ i = 2 \/ i = 3 \/ i = 4 \/ i = 5 \/ i = 6 \/ i = 7) as H by lia. repeat destruct H as [->|H]; [..|subst i]; vm_compute; discriminate.
  - exists 0, 2, 4, 6. split; [lia|]. split; [lia|]. split; [lia|]. left. vm_compute. repeat split; discriminate.
Qed.
