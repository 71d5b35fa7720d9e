(** C79: counting the parts of a contour, and a map whose faces do not hang together. *)
From Coq Require Import Lia.
From Verif Require Import Base CellMap_Model CellMap_Spec CellMap_Scan CellMap_Init CellMap_InitProofs CellMap_Check CellMap_Examples CellSigma_Spec CellSigma_Proofs CellLink_Spec CellStart_Spec CellStart_Results CellThresh_Model CellThresh_Spec CellThresh_Examples CellTotal_Spec CellTotal_Init CellTotal_Results CellJordan_Spec CellJordan_Image CellJordan_Examples
  CellPlane_Spec CellPlane_Cut CellPlane_Examples CellEuler_Spec.
Local Open Scope Z_scope.

Fixpoint distinctB (v : list Z) : bool := match v with [] => true | a :: t => negb (existsb (Z.eqb a) t) && distinctB t end.
Lemma distinct_nth v : distinctB v = true -> forall i j a, nth_error v i = Some a -> nth_error v j = Some a -> i = j.
Proof.
  induction v as [|b t IH]; intros H i j a I J; [destruct i; discriminate I|]. cbn [distinctB] in H. apply Bool.andb_true_iff in H. destruct H as (H & K). apply Bool.negb_true_iff in H.
  assert (N : forall k, nth_error t k <> Some b). { intros k E. apply nth_error_In in E. assert (X : existsb (Z.eqb b) t = true) by (apply existsb_exists; exists b; split; [exact E|apply Z.eqb_refl]). congruence. }
  destruct i as [|i], j as [|j]; cbn in I, J; [reflexivity| | |f_equal; apply (IH K i j a); assumption].
  - injection I as <-. exfalso. apply (N j J).
  - injection J as <-. exfalso. apply (N i I).
Qed.
Definition drawnB (im : img) (x y : Z) : bool := (0 <=? x) && (x <? iw im) && (0 <=? y) && (y <? ih im) && negb (ctypeEqb (ptype (ipix im x y)) Region).
Lemma drawnB_is im x y : drawnB im x y = true <-> contour im x y.
Proof. unfold drawnB, contour. rewrite !Bool.andb_true_iff, Bool.negb_true_iff, CellSigma_Proofs.ctypeEqb_ne, !Z.leb_le, !Z.ltb_lt. tauto. Qed.
(** the chosen pixels are contour pixels with different numbers, and every contour pixel has one of these *)
Definition partsB (im : img) (ps : list (Z * Z)) : bool :=
  let part := fst (contourParts im) in
  let ns := map (fun p => part (fst p) (snd p)) ps in
  distinctB ns && forallb (fun p => drawnB im (fst p) (snd p)) ps &&
  forallb (fun y => forallb (fun x => negb (drawnB im x y) || existsb (Z.eqb (part x y)) ns) (upFrom 0 (iw im))) (upFrom 0 (ih im)).
Lemma partsB_holds im ps : partsB im ps = true -> manyParts (contour im) (Z.of_nat (length ps)).
Proof.
  unfold partsB. cbv zeta. intros H. apply Bool.andb_true_iff in H. destruct H as (H & C). apply Bool.andb_true_iff in H. destruct H as (A & B). rewrite forallb_forall in B, C. destruct (parts_exact im) as ((_ & _ & Rp) & Ep).
  set (part := fst (contourParts im)) in *. exists ps. split; [reflexivity|]. split; [intros u v I; apply drawnB_is, (B (u, v) I)|]. intros x y D.
  assert (Sm : forall u v, reach ways8 (contour im) u v x y -> part u v = part x y).
  { intros u v R. clear D. induction R as [P|a b k R IH K P]; [reflexivity|]. rewrite IH. symmetry. apply (Rp a b k); [cbn in K; lia|exact (walk_end _ _ _ _ _ _ R)|exact P]. }
  pose proof D as (X & Y & _). assert (Iy : In y (upFrom 0 (ih im))) by (apply upFrom_in; lia). specialize (C y Iy). rewrite forallb_forall in C. assert (Ix : In x (upFrom 0 (iw im))) by (apply upFrom_in; lia). specialize (C x Ix).
  apply drawnB_is in D. rewrite D in C. cbn [negb orb] in C. apply drawnB_is in D. apply existsb_exists in C. destruct C as (n & I & E). apply Z.eqb_eq in E. apply In_nth_error in I. destruct I as (i & I). rewrite nth_error_map in I. destruct (nth_error ps i) as [(u, v)|] eqn:Ei; [|discriminate I]. injection I as I. cbn [fst snd] in I.
  exists i, u, v. split; [exact Ei|]. split; [apply Ep; [apply drawnB_is, (B (u, v)), (nth_error_In _ _ Ei)|exact D|fold part; congruence]|].
  intros j u' v' J R. apply (distinct_nth _ A j i (part x y)); rewrite nth_error_map; [rewrite J|rewrite Ei]; cbn [option_map fst snd]; f_equal; [apply Sm, R|congruence].
Qed.

(** two rooms with one label: six nodes, seven edges, two faces, and one part *)
Lemma twins_euler : exists crack outer comps im m n, wfImg im /\ framed im /\ clean im /\ rightAreas crack im /\ exactParts comps im /\ ruled im /\ import crack outer comps im = Ok m /\
  manyParts (contour (cim m)) n /\ nodeCount m - edgeCount m + faceCount m <> 1 + n.
Proof.
  destruct twins_clean as (A & B & C). exists pixelArea, (fun _ _ _ => []), contourParts, twins, twinMap, 1. split; [exact A|]. split; [exact B|]. split; [exact C|]. split; [apply area_right|]. split; [apply parts_exact|]. split; [exact twins_ruled|].
  split; [exact twins_imported|]. split; [apply (partsB_holds (cim twinMap) [(1, 1)]); vm_compute; reflexivity|vm_compute; discriminate].
Qed.
