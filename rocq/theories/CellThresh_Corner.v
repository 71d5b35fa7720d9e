(** C73: corners that are too thick for a node. *)
From Coq Require Import Lia.
From Verif Require Import Base CellMap_Model CellMap_Spec CellMap_Init CellMap_InitProofs CellSigma_Spec CellLink_Spec CellFace_Spec CellStart_Spec CellStart_Walk
  CellThresh_Model CellThresh_Spec CellThresh_Comps CellThresh_Types CellThresh_Draw CellThresh_Examples.
Local Open Scope Z_scope.

Lemma corner_error nb : lineLike nb -> rightAngle nb = true -> (4 <= count8 nb)%nat -> typeOf true nb = ErrorType.
Proof.
  intros (G & C) R N.
  assert (H : forallb (fun l => negb (Nat.eqb (groups (ofList l)) 2 && Nat.eqb (count8 (goesOn (ofList l))) 2 && rightAngle (ofList l) && Nat.leb 4 (count8 (ofList l))) || ctypeEqb (typeOf true (ofList l)) ErrorType) (rings 8) = true) by (vm_compute; reflexivity).
  apply (all_rings _) with (nb := nb) in H. apply ctypeEqb_iff. change (typeOf true (ofList (seven nb))) with (typeOf true nb) in H. change (groups (ofList (seven nb))) with (groups nb) in H.
  change (count8 (ofList (seven nb))) with (count8 nb) in H. change (count8 (goesOn (ofList (seven nb)))) with (count8 (goesOn nb)) in H. change (rightAngle (ofList (seven nb))) with (rightAngle nb) in H.
  rewrite G, C, R in H. apply Nat.leb_le in N. rewrite N in H. exact H.
Qed.
Lemma corner_refused w h boundary x y nb : 0 <= w -> 0 <= h -> isContour w h boundary x y -> seenAs w h boundary x y nb -> lineLike nb -> rightAngle nb = true -> (4 <= count8 nb)%nat -> initCellImage true w h boundary = Exn.
Proof.
  intros Hw Hh C S L R N. destruct (init_outcome true w h boundary Hw Hh) as [(im & Q & _ & _ & A)|(Q & _)]; [|exact Q]. exfalso.
  apply (contour_spec true) in C. pose proof (contour_inner true w h boundary x y C) as B.
  destruct (A x y) as [_ K]; [lia|lia|]. apply K. rewrite C. change (fun k => contourAt w h boundary (x + dirX k) (y + dirY k)) with (ringAt w h boundary x y). rewrite (seen_type true w h boundary x y nb S). apply corner_error; assumption.
Qed.

(** a contour that turns by a right angle at the pixel in the middle, with a diagonal step beside each of its arms *)
Definition bend : Z -> Z -> bool := drawing [[0; 0; 0; 0; 0]; [0; 0; 1; 1; 0]; [0; 1; 1; 0; 0]; [0; 1; 0; 0; 0]; [0; 0; 0; 0; 0]].
Lemma bend_corner : exists nb, isContour 5 5 bend 4 4 /\ seenAs 5 5 bend 4 4 nb /\ lineLike nb /\ rightAngle nb = true /\ (4 <= count8 nb)%nat.
Proof.
  exists (fun k => contourAt 5 5 bend (4 + dirX k) (4 + dirY k)). split; [apply (contour_spec true); vm_compute; reflexivity|]. split; [intros k _; apply (contour_spec true)|].
  split; [split; vm_compute; reflexivity|]. split; [vm_compute; reflexivity|vm_compute; lia].
Qed.
Lemma bend_line : isOk (initCellImage false 5 5 bend) = true.
Proof. vm_compute. reflexivity. Qed.
