(** Each part of a border of a face has a side of a contour pixel towards the face. *)
From Coq Require Import Lia.
From Verif Require Import Base CellMap_Model CellMap_Spec CellMap_Main CellSigma_Spec CellSigma_Proofs CellSigma_Results CellLink_Spec CellLink_Proofs CellLink_Main CellLink_Results CellLink_Check
  CellFace_Spec CellFace_Walk CellStart_Spec CellStart_Walk CellStart_Ends CellContour_Orbit CellContour_Spec CellContour_Phi CellContour_Find CellJordan_Parity CellJordan_Owner CellJordan_Class.
Local Open Scope Z_scope.

Section Border.
Variable m : cmap.
Let im := cim m.
Hypothesis Fa : faced m.
Hypothesis Sl : slim im.
Hypothesis Sm : smooth im.
Hypothesis Dr : drawn im.
Let Wi : wired m. Proof. apply Fa. Qed.
Let Fr : framed im. Proof. apply Wi. Qed.
Let Ne : neat im. Proof. apply Wi. Qed.
Let Jo : joined im. Proof. apply Wi. Qed.
Let Ri : ringed im. Proof. apply Wi. Qed.
Let Pl : plain im. Proof. apply Fa. Qed.
Let Ai : airy im. Proof. apply Fa. Qed.
Let Fi : filled im. Proof. apply Fa. Qed.
Let W1 : way 1. Proof. left. reflexivity. Qed.

(** the pixel of the place, or the one its dart points to *)
Definition pixelOf (a : dart) (x y : Z) : Prop := (x = dcx a /\ y = dcy a) \/ (isDart im a /\ x = dcx a + dirX (ddir a) /\ y = dcy a + dirY (ddir a)).
Lemma even_dir j : 0 <= j < 8 -> Z.odd j = false -> In j [0; 2; 4; 6].
Proof. intros J O. destruct (even_dirs j J O) as [->|[->|[->| ->]]]; cbn; tauto. Qed.
Lemma border_side l a : onBorder im l a -> exists x y j, side m x y j /\ owner m a x y j /\ plabel (ipix im (x + dirX j) (y + dirY j)) = l /\ pixelOf a x y.
Proof.
  intros [(D & S)|(L & S)].
  - destruct a as [x y k]. pose proof D as (V & K & T & C). cbn [dcx dcy ddir] in V, K. assert (Cp : isContour m x y = true) by (apply (contour_is m Fa); left; exact V).
    destruct (line_ends im Fr Sl Sm Pl _ D) as (n & Ln & _). destruct (Z.odd k) eqn:O.
    + destruct (C O) as (T1 & T2). exists x, y, ((k + 1) mod 8). split; [|split; [|split]].
      * split; [destruct (odd_dirs k K O) as [->|[->|[->| ->]]]; cbn; tauto|]. split; [exact Cp|]. unfold nb. rewrite Z.mod_mod by lia. exact T1.
      * apply (left_out m Fa Sl Sm _ n 0%nat); auto; lia.
      * unfold sideOf in S. rewrite T1 in S. exact S.
      * left. auto.
    + destruct (ctypeEqb (typeAt im (Dart x y k) 1) Region) eqn:E1.
      * pose proof S as S'. unfold sideOf in S'. rewrite E1 in S'. apply CellSigma_Proofs.ctypeEqb_eq in E1. unfold typeAt in E1, T. unfold labelAt in S'. cbn [dcx dcy ddir] in E1, T, S'. rewrite Z.add_0_r, Z.mod_small in T by exact K.
        assert (Lq : lineAt im (x + dirX k) (y + dirY k)) by (pose proof (vertex_inner im Fr _ _ V); pose proof (dirX_bound k); pose proof (dirY_bound k); split; [lia|]; split; [lia|exact T]).
        exists (x + dirX k), (y + dirY k), ((k + 2) mod 8).
        assert (Px : x + dirX k + dirX ((k + 2) mod 8) = x + dirX ((k + 1) mod 8)) by (destruct (even_dirs k K O) as [->|[->|[->| ->]]]; cbn; lia).
        assert (Py : y + dirY k + dirY ((k + 2) mod 8) = y + dirY ((k + 1) mod 8)) by (destruct (even_dirs k K O) as [->|[->|[->| ->]]]; cbn; lia).
        split; [|split; [|split]].
        -- split; [destruct (even_dirs k K O) as [->|[->|[->| ->]]]; cbn; tauto|]. split; [apply (contour_is m Fa); right; exact Lq|]. unfold nb. rewrite Z.mod_mod by lia. fold im. rewrite Px, Py. exact E1.
        -- right. split; [exact Lq|]. split; [exact D|]. exists n, 0%nat, 2. split; [exact Ln|]. split; [apply Ln|]. split; [reflexivity|]. split; [reflexivity|]. split; [lia|]. cbn [forths back ddir]. split; [destruct (even_dirs k K O) as [->|[->|[->| ->]]]; reflexivity|].
           intros u U. assert (u = 1) as -> by lia. rewrite Z.add_mod_idemp_l by lia. apply (link_blocked m); [destruct (even_dirs k K O) as [->|[->|[->| ->]]]; reflexivity|]. left. unfold nb. fold im.
           replace (x + dirX k + dirX ((k + 2 + 1 + 1) mod 8)) with x by (destruct (even_dirs k K O) as [->|[->|[->| ->]]]; cbn; lia).
           replace (y + dirY k + dirY ((k + 2 + 1 + 1) mod 8)) with y by (destruct (even_dirs k K O) as [->|[->|[->| ->]]]; cbn; lia). destruct V as (_ & _ & V). rewrite V. discriminate.
        -- rewrite Px, Py. exact S'.
        -- right. cbn [dcx dcy ddir]. auto.
      * pose proof S as S'. unfold sideOf in S'. rewrite E1 in S'. change (2 * 1) with 2 in S'. apply CellSigma_Proofs.ctypeEqb_ne in E1.
        assert (T2 : typeAt im (Dart x y k) 2 = Region) by (destruct (Ai (Dart x y k) 1 V (even_dir k K O) (or_introl eq_refl) T) as [Q|Q]; [contradiction|exact Q]).
        exists x, y, ((k + 2) mod 8). split; [|split; [|split]].
        -- split; [destruct (even_dirs k K O) as [->|[->|[->| ->]]]; cbn; tauto|]. split; [exact Cp|]. unfold nb. rewrite Z.mod_mod by lia. exact T2.
        -- apply (left_out m Fa Sl Sm _ n 0%nat); auto; [lia|]. right. split; [exact O|]. split; [reflexivity|]. split.
           ++ apply (link_blocked m); [destruct (even_dirs k K O) as [->|[->|[->| ->]]]; reflexivity|]. right. replace (k + 1 - 1) with (k + 0) by lia. change (typeAt im (Dart x y k) 0 <> Region). rewrite T. discriminate.
           ++ intros Q. apply (neat_side im Fr Ne 1 (Dart x y k)); auto. split; [exact V|exact K].
        -- exact S'.
        -- left. auto.
  - destruct a as [x y k]. pose proof L as (P & No). pose proof P as (V & K & T & C). cbn [dcx dcy ddir] in V, K. assert (Cp : isContour m x y = true) by (apply (contour_is m Fa); left; exact V).
    destruct (side_alone im Fr Pl Fi Jo Ri _ _ P P eq_refl No) as (T0 & _). destruct (Z.odd k) eqn:O.
    + destruct (C O) as (_ & C2). set (d := Dart x y ((k - 1) mod 8)).
      assert (Pd : isPlace im d).
      { split; [exact V|]. split; [apply Z.mod_pos_bound; lia|]. split; [unfold typeAt, d; cbn [dcx dcy ddir]; rewrite Z.add_0_r, Z.mod_mod by lia; exact C2|]. cbn [d ddir]. intros Q. exfalso. destruct (odd_dirs k K O) as [->|[->|[->| ->]]]; discriminate Q. }
      assert (En : nodeOf im (Dart x y k) = nodeOf im d) by reflexivity. assert (Ld : lonely im d) by (split; [exact Pd|exact No]).
      destruct (side_alone im Fr Pl Fi Jo Ri d d Pd Pd eq_refl No) as (Td & _). destruct (side_alone im Fr Pl Fi Jo Ri d _ Pd P (eq_sym En) No) as (_ & Lq).
      exists x, y, ((k - 1) mod 8). split; [|split; [|split]].
      * split; [destruct (odd_dirs k K O) as [->|[->|[->| ->]]]; cbn; tauto|]. split; [exact Cp|]. unfold typeAt in Td. cbn [d dcx dcy ddir] in Td. rewrite Z.add_0_r in Td. exact Td.
      * left. split; [exact V|]. right. auto.
      * rewrite S in Lq. unfold labelAt in Lq. cbn [d dcx dcy ddir] in Lq. rewrite Z.add_0_r, Z.mod_mod in Lq by lia. symmetry. exact Lq.
      * left. auto.
    + exists x, y, k. split; [|split; [|split]].
      * split; [apply even_dir; assumption|]. split; [exact Cp|]. unfold typeAt in T0. cbn [dcx dcy ddir] in T0. rewrite Z.add_0_r in T0. exact T0.
      * left. split; [exact V|]. right. auto.
      * unfold labelAt in S. cbn [dcx dcy ddir] in S. rewrite Z.add_0_r, Z.mod_small in S by exact K. exact S.
      * left. auto.
Qed.
End Border.
