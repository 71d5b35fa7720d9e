(** C30: simplifyPolygon. *)
From Coq Require Import Reals Lra.
From Verif Require Import Base DartPosition_Model DartPosition_Spec Simplify_Model Simplify_Spec Simplify_Proofs.
Local Open Scope R_scope.

(** C30: simplifyPolygon terminates; the result consists of input points at increasing indices, from the first to the last one;
    every dropped point is within epsilon of the line through the kept points around it; consecutive kept points which are
    not neighbours in the input are at most maxStep apart. *)
Theorem C30_simplify : forall eps maxStep P, (2 <= length P)%nat ->
  exists K idx, simplifyPolygon P eps maxStep = Ok K /\ simplified P K eps maxStep idx.
Proof. exact simplify_spec. Qed.
Print Assumptions C30_simplify.

(** C30: the result for a single point has it twice. *)
Theorem C30_single_refuted : forall p eps maxStep, simplifyPolygon [p] eps maxStep = Ok [p; p].
Proof. exact simplify_single. Qed.
Print Assumptions C30_single_refuted.

(** the middle point is kept or dropped depending on epsilon *)
Example C30_case : simplifyPolygon [(0, 0); (1, 3); (2, 0)] 1 None = Ok [(0, 0); (1, 3); (2, 0)] /\
  simplifyPolygon [(0, 0); (1, 3); (2, 0)] 3 None = Ok [(0, 0); (2, 0)] /\
  simplifyPolygon [(0, 0); (1, 3); (2, 0)] 3 (Some 1) = Ok [(0, 0); (1, 3); (2, 0)].
Proof.
  assert (Q : sqrt ((2 - 0) * (2 - 0) + (0 - 0) * (0 - 0)) = 2) by (replace ((2 - 0) * (2 - 0) + (0 - 0) * (0 - 0)) with (2 * 2) by lra; apply sqrt_square; lra).
  assert (T : tiny < (2 - 0) * (2 - 0) + (0 - 0) * (0 - 0)).
  { apply Rlt_trans with 1; [|lra]. unfold tiny. rewrite <- Rinv_1. apply Rinv_lt_contravar; [|apply IZR_lt; reflexivity]. rewrite Rmult_1_l. apply IZR_lt. reflexivity. }
  assert (D : Rabs ((1 - 0) * ((0 - 0) * / 2) + (3 - 0) * (- (2 - 0) * / 2)) = 3).
  { rewrite Rabs_left; lra. }
  unfold simplifyPolygon. unfold vget. cbn [nth_error bind length Nat.sub option_map].
  unfold simplifyHelper. cbn [length Nat.leb vget nth_error bind Nat.sub tl removelast]. cbn zeta.
  unfold distSplit, sqMag, vsub, vscale, vdot. cbn zeta. cbn [fst snd]. rewrite Q.
  destruct (Rlt_dec tiny ((2 - 0) * (2 - 0) + (0 - 0) * (0 - 0))) as [_|C]; [|contradiction].
  cbn [farthest fst snd]. rewrite D.
  destruct (Rlt_dec 1 3) as [_|C]; [|lra]. destruct (Rlt_dec 3 3) as [C|_]; [lra|].
  destruct (Rlt_dec (1 * 1) ((2 - 0) * (2 - 0) + (0 - 0) * (0 - 0))) as [_|C]; [|lra].
  repeat split.
Qed.
