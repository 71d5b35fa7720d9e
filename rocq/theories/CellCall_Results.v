(** C72: the calls answer. *)
From Coq Require Import Lia.
From Verif Require Import Base CellMap_Model CellMap_Spec CellSigma_Spec CellSigma_Proofs CellLink_Spec CellLink_Proofs CellFace_Spec CellFace_Walk CellContour_Spec CellContour_Leave CellCall_Main.
Local Open Scope Z_scope.

(** several calls; a call that is refused leaves the map as it is: the preconditions (foureightsegmentation.cxx 204, 251, 323, 329, 404-407) are checked before anything is changed *)
Fixpoint runCalls (m : cmap) (cs : list ccall) : res cmap :=
  match cs with
  | [] => Ok m
  | c :: t => match cexec m c with Ok r => runCalls (fst r) t | Exn => runCalls m t | UB => UB | NoFuel => NoFuel end
  end.
(** each is made with a dart of the map it is made for *)
Fixpoint callsAllowed (m : cmap) (cs : list ccall) : Prop :=
  match cs with
  | [] => True
  | c :: t => contourAllowed m c /\ match cexec m c with Ok r => callsAllowed (fst r) t | _ => callsAllowed m t end
  end.

Section Map.
Variable m : cmap.
Hypothesis Hm : khistory m.
Let Con : contoured m := khistory_contoured m Hm.
Let Fr : framed (cim m). Proof. apply Con. Qed.

Theorem isolated_returns d : isPlace (cim m) d -> beside (cim m) d -> (forall e, isDart (cim m) e -> nodeOf (cim m) e <> nodeOf (cim m) d) -> exists m' s, removeIsolatedNode m d = Ok (m', s).
Proof. intros P B N. destruct (isolated_total m d Con) as ((m' & s) & E); [split; auto|]. eauto. Qed.
Theorem faces_return d : isDart (cim m) d ->
  (leftFaceLabel (cim m) d <> rightFaceLabel (cim m) d -> exists m' s, mergeFaces m d = Ok (m', s)) /\ (leftFaceLabel (cim m) d = rightFaceLabel (cim m) d -> mergeFaces m d = Exn).
Proof.
  intros D. rewrite (leftFace_is (cim m) Fr d (proj1 D)), (rightFace_is (cim m) Fr d (proj1 D)). split.
  - intros N. destruct (merge_total m d Con D) as ((m' & s) & E); [congruence|]. eauto.
  - intros E. apply merge_exn; auto. congruence.
Qed.
Theorem bridge_returns d : isDart (cim m) d ->
  (leftFaceLabel (cim m) d = rightFaceLabel (cim m) d -> exists m' s, removeBridge m d = Ok (m', s)) /\ (leftFaceLabel (cim m) d <> rightFaceLabel (cim m) d -> removeBridge m d = Exn).
Proof.
  intros D. rewrite (leftFace_is (cim m) Fr d (proj1 D)), (rightFace_is (cim m) Fr d (proj1 D)). split.
  - intros E. destruct (bridge_total m d Con D) as ((m' & s) & X); [congruence|]. eauto.
  - intros N. apply bridge_exn; auto. congruence.
Qed.
Theorem edges_return d : isDart (cim m) d -> exists d1 d2, nextSigma (cim m) d = Ok d1 /\ nextSigma (cim m) d1 = Ok d2 /\
  (d2 = d -> edgeLabel (cim m) d1 <> edgeLabel (cim m) d -> exists m' s, mergeEdges m d = Ok (m', s)) /\ (d2 <> d \/ edgeLabel (cim m) d1 = edgeLabel (cim m) d -> mergeEdges m d = Exn).
Proof.
  intros D. assert (Wi : wired m) by apply Con. destruct (sigma_at m d Wi D) as (d1 & E1 & D1 & _). destruct (sigma_at m d1 Wi D1) as (d2 & E2 & _). exists d1, d2. split; [exact E1|]. split; [exact E2|].
  rewrite (edgeLabel_dart (cim m) Fr d (proj1 D)) by apply D. rewrite (edgeLabel_dart (cim m) Fr d1 (proj1 D1)) by apply D1.
  destruct (edges_answer m d d1 d2 Con D E1 E2) as [(A & B & (m' & s) & C)|(A & B)]; split.
  - eauto.
  - intros [X|X]; [contradiction|exfalso; apply B; congruence].
  - intros X Y. exfalso. apply A. split; auto. congruence.
  - intros _. exact B.
Qed.
Theorem calls_return c : faceAllowed (cim m) c -> (exists m' s, cexec m c = Ok (m', s)) \/ cexec m c = Exn.
Proof.
  destruct c as [d|d|d|d]; cbn [faceAllowed cexec].
  - intros (P & B & N). left. apply isolated_returns; auto.
  - intros D. destruct (faces_return d D) as (A & B). rewrite (leftFace_is (cim m) Fr d (proj1 D)), (rightFace_is (cim m) Fr d (proj1 D)) in A, B.
    destruct (Z.eq_dec (sideOf (cim m) 1 d) (sideOf (cim m) (-1) d)) as [E|E]; [right; apply B; congruence|left; apply A; congruence].
  - intros D. destruct (bridge_returns d D) as (A & B). rewrite (leftFace_is (cim m) Fr d (proj1 D)), (rightFace_is (cim m) Fr d (proj1 D)) in A, B.
    destruct (Z.eq_dec (sideOf (cim m) 1 d) (sideOf (cim m) (-1) d)) as [E|E]; [left; apply A; congruence|right; apply B; congruence].
  - intros D. assert (Wi : wired m) by apply Con. destruct (sigma_at m d Wi D) as (d1 & E1 & D1 & _). destruct (sigma_at m d1 Wi D1) as (d2 & E2 & _).
    destruct (edges_answer m d d1 d2 Con D E1 E2) as [(_ & _ & (m' & s) & C)|(_ & B)]; [left; eauto|right; exact B].
Qed.
End Map.

Theorem runs_return cs : forall m, khistory m -> callsAllowed m cs -> exists m', runCalls m cs = Ok m' /\ khistory m'.
Proof.
  induction cs as [|c t IH]; intros m H A; cbn [runCalls callsAllowed] in *; [eauto|]. destruct A as (A & B).
  destruct (calls_return m H c (proj1 A)) as [(m' & s & E)|E]; rewrite E in *; [|apply IH; auto]. cbn [fst] in *. apply IH; auto. apply (kh_call m c m' s); auto.
Qed.
