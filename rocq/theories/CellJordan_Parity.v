(** The sides between contour pixels and regions form closed curves: a parity argument. *)
From Coq Require Import Bool.
From Verif Require Import Base CellMap_Model CellMap_Spec.
Local Open Scope Z_scope.

Section Parity.
(** which pixels belong to contours; there are none at the left side *)
Variable C : Z -> Z -> bool.
Hypothesis Left : forall x y, C x y = true -> 0 < x.
(** a set of sides, each given by a contour pixel and a direction towards a region, that contains with a side the next one around the corner *)
Variable b : Z -> Z -> Z -> bool.
Let at_ x y k := C (x + dirX (k mod 8)) (y + dirY (k mod 8)).
Hypothesis Turn : forall x y j, In j [0; 2; 4; 6] -> C x y = true -> at_ x y j = false -> at_ x y (j + 1) = true ->
  b x y j = b (x + dirX ((j + 1) mod 8)) (y + dirY ((j + 1) mod 8)) ((j + 6) mod 8).
Hypothesis On : forall x y j, In j [0; 2; 4; 6] -> C x y = true -> at_ x y j = false -> at_ x y (j + 1) = false -> at_ x y (j + 2) = true ->
  b x y j = b (x + dirX ((j + 2) mod 8)) (y + dirY ((j + 2) mod 8)) j.
Hypothesis Round : forall x y j, In j [0; 2; 4; 6] -> C x y = true -> at_ x y j = false -> at_ x y (j + 1) = false -> at_ x y (j + 2) = false ->
  b x y j = b x y ((j + 2) mod 8).

(** whether the side between a pixel and that to its left, or above it, belongs to the set *)
Definition sideV (x y : Z) : bool := if C (x - 1) y then if C x y then false else b (x - 1) y 0 else if C x y then b x y 4 else false.
Definition sideH (x y : Z) : bool := if C x (y - 1) then if C x y then false else b x (y - 1) 6 else if C x y then b x y 2 else false.

Lemma even_corner x y : xorb (xorb (sideV x (y - 1)) (sideV x y)) (xorb (sideH (x - 1) y) (sideH x y)) = false.
Proof.
  pose proof (Turn (x - 1) (y - 1)) as T1. pose proof (Turn x (y - 1)) as T2. pose proof (Turn (x - 1) y) as T3. pose proof (Turn x y) as T4.
  pose proof (On (x - 1) (y - 1)) as O1. pose proof (On x (y - 1)) as O2. pose proof (On (x - 1) y) as O3. pose proof (On x y) as O4.
  pose proof (Round (x - 1) (y - 1)) as R1. pose proof (Round x (y - 1)) as R2. pose proof (Round (x - 1) y) as R3. pose proof (Round x y) as R4.
  unfold at_ in *.
  (* the corner is at the lower right of the first, the lower left of the second, the upper right of the third, the upper left of the fourth *)
  assert (t1 := T1 6 ltac:(cbn; tauto)). assert (t2 := T2 4 ltac:(cbn; tauto)). assert (t3 := T3 0 ltac:(cbn; tauto)). assert (t4 := T4 2 ltac:(cbn; tauto)).
  assert (o1 := O1 6 ltac:(cbn; tauto)). assert (o2 := O2 4 ltac:(cbn; tauto)). assert (o3 := O3 0 ltac:(cbn; tauto)). assert (o4 := O4 2 ltac:(cbn; tauto)).
  assert (r1 := R1 6 ltac:(cbn; tauto)). assert (r2 := R2 4 ltac:(cbn; tauto)). assert (r3 := R3 0 ltac:(cbn; tauto)). assert (r4 := R4 2 ltac:(cbn; tauto)).
  clear T1 T2 T3 T4 O1 O2 O3 O4 R1 R2 R3 R4.
  cbn in t1, t2, t3, t4, o1, o2, o3, o4, r1, r2, r3, r4.
  unfold sideV, sideH.
  replace (x - 1 + 0) with (x - 1) in * by lia. replace (x - 1 + 1) with x in * by lia. replace (x + -1) with (x - 1) in * by lia. replace (x + 0) with x in * by lia.
  replace (y - 1 + 0) with (y - 1) in * by lia. replace (y - 1 + 1) with y in * by lia. replace (y + -1) with (y - 1) in * by lia. replace (y + 0) with y in * by lia.
  destruct (C (x - 1) (y - 1)), (C x (y - 1)), (C (x - 1) y), (C x y); cbn [xorb];
    repeat match goal with H : ?a = ?a -> _ |- _ => specialize (H eq_refl) | H : true = false -> _ |- _ => clear H | H : false = true -> _ |- _ => clear H end;
    repeat match goal with H : b _ _ _ = b _ _ _ |- _ => rewrite H in *; clear H end;
    repeat match goal with |- context [b ?u ?v ?k] => destruct (b u v k) end; try reflexivity; try discriminate.
Qed.

(** the parity of the number of such sides to the left of a pixel *)
Fixpoint par (n : nat) (y : Z) : bool := match n with O => false | S k => xorb (par k y) (sideV (Z.of_nat (S k)) y) end.
Definition parity (x y : Z) : bool := par (Z.to_nat x) y.
Lemma parity_side x y : 0 < x -> parity x y = xorb (parity (x - 1) y) (sideV x y).
Proof.
  intros X. unfold parity. replace (Z.to_nat x) with (S (Z.to_nat (x - 1))) by lia. cbn [par]. replace (Z.of_nat (S (Z.to_nat (x - 1)))) with x by lia. reflexivity.
Qed.
Lemma parity_up x y : 0 <= x -> parity x y = xorb (parity x (y - 1)) (sideH x y).
Proof.
  intros X. rewrite <- (Z2Nat.id x X). generalize (Z.to_nat x) as n. clear x X. induction n as [|n IH].
  - unfold parity, sideH. cbn. destruct (C 0 (y - 1)) eqn:E; [apply Left in E; lia|]. destruct (C 0 y) eqn:E'; [apply Left in E'; lia|]. reflexivity.
  - rewrite (parity_side (Z.of_nat (S n)) y), (parity_side (Z.of_nat (S n)) (y - 1)) by lia. replace (Z.of_nat (S n) - 1) with (Z.of_nat n) by lia. rewrite IH.
    pose proof (even_corner (Z.of_nat (S n)) y) as E. replace (Z.of_nat (S n) - 1) with (Z.of_nat n) in E by lia.
    destruct (parity (Z.of_nat n) (y - 1)), (sideH (Z.of_nat n) y), (sideH (Z.of_nat (S n)) y), (sideV (Z.of_nat (S n)) (y - 1)), (sideV (Z.of_nat (S n)) y); cbn in E |- *; congruence.
Qed.

(** it changes across the sides of the set, and only there *)
Lemma parity_across x y j : In j [0; 2; 4; 6] -> C x y = true -> C (x + dirX j) (y + dirY j) = false -> parity (x + dirX j) (y + dirY j) = xorb (parity x y) (b x y j).
Proof.
  intros J Cp Cr. pose proof (Left _ _ Cp) as L.
  assert (forall a c e, a = xorb c e -> c = xorb a e) as Sw by (intros [] [] []; cbn; congruence).
  cbn in J. destruct J as [<-|[<-|[<-|[<-|[]]]]]; cbn [dirX dirY] in *; cbn in Cr |- *; rewrite ?Z.add_0_r in *.
  - rewrite parity_side by lia. unfold sideV. replace (x + 1 - 1) with x by lia. rewrite Cp, Cr. reflexivity.
  - replace (y + -1) with (y - 1) in * by lia. apply Sw. rewrite (parity_up x y) by lia. unfold sideH. rewrite Cp, Cr. reflexivity.
  - replace (x + -1) with (x - 1) in * by lia. apply Sw. rewrite (parity_side x y) by lia. unfold sideV. rewrite Cp, Cr. reflexivity.
  - rewrite parity_up by lia. unfold sideH. replace (y + 1 - 1) with y by lia. rewrite Cp, Cr. reflexivity.
Qed.
Lemma parity_straight x y j : In j [0; 2; 4; 6] -> 0 <= x -> 0 <= x + dirX j -> C (x + dirX j) (y + dirY j) = C x y -> parity (x + dirX j) (y + dirY j) = parity x y.
Proof.
  intros J X X' E. assert (forall a c, a = xorb c false -> c = a) as Sw by (intros [] []; cbn; congruence).
  cbn in J. destruct J as [<-|[<-|[<-|[<-|[]]]]]; cbn in E, X' |- *; rewrite ?Z.add_0_r in *.
  - rewrite parity_side by lia. unfold sideV. replace (x + 1 - 1) with x by lia. rewrite E. destruct (C x y); apply xorb_false_r.
  - replace (y + -1) with (y - 1) in * by lia. apply Sw. rewrite (parity_up x y) by lia. unfold sideH. rewrite E. destruct (C x y); reflexivity.
  - replace (x + -1) with (x - 1) in * by lia. apply Sw. rewrite (parity_side x y) by lia. unfold sideV. rewrite E. destruct (C x y); reflexivity.
  - rewrite parity_up by lia. unfold sideH. replace (y + 1 - 1) with y by lia. rewrite E. destruct (C x y); apply xorb_false_r.
Qed.
Lemma parity_contour x y k : 0 <= k < 8 -> C x y = true -> C (x + dirX k) (y + dirY k) = true -> parity (x + dirX k) (y + dirY k) = parity x y.
Proof.
  intros K Cp Cq. pose proof (Left _ _ Cp) as L. pose proof (Left _ _ Cq) as L'.
  assert (D : forall j, In j [0; 2; 4; 6] -> dirX k = dirX j + dirX ((j + 2) mod 8) -> dirY k = dirY j + dirY ((j + 2) mod 8) -> k = j + 1 -> 0 <= x + dirX j ->
    parity (x + dirX k) (y + dirY k) = parity x y).
  { intros j J EX EY EK Xj. rewrite EX, EY, !Z.add_assoc in *.
    assert (J2 : In ((j + 2) mod 8) [0; 2; 4; 6]) by (cbn in J; destruct J as [<-|[<-|[<-|[<-|[]]]]]; cbn; tauto).
    destruct (C (x + dirX j) (y + dirY j)) eqn:Cm.
    - rewrite (parity_straight (x + dirX j) (y + dirY j) ((j + 2) mod 8)) by (auto; congruence). apply parity_straight; auto; [lia|congruence].
    - assert (B : b x y j = b (x + dirX j + dirX ((j + 2) mod 8)) (y + dirY j + dirY ((j + 2) mod 8)) ((j + 6) mod 8)).
      { rewrite (Turn x y j J Cp); unfold at_.
        - replace ((j + 1) mod 8) with k by (cbn in J; destruct J as [<-|[<-|[<-|[<-|[]]]]]; subst k; reflexivity). rewrite EX, EY, !Z.add_assoc. reflexivity.
        - rewrite Z.mod_small by (cbn in J; lia). exact Cm.
        - rewrite Z.mod_small by (cbn in J; lia). rewrite <- EK. rewrite EX, EY, !Z.add_assoc. exact Cq. }
      pose proof (parity_across x y j J Cp Cm) as E1.
      assert (J6 : In ((j + 6) mod 8) [0; 2; 4; 6]) by (cbn in J; destruct J as [<-|[<-|[<-|[<-|[]]]]]; cbn; tauto).
      pose proof (parity_across _ _ ((j + 6) mod 8) J6 Cq) as E2.
      assert (BX : x + dirX j + dirX ((j + 2) mod 8) + dirX ((j + 6) mod 8) = x + dirX j) by (cbn in J; destruct J as [<-|[<-|[<-|[<-|[]]]]]; cbn; lia).
      assert (BY : y + dirY j + dirY ((j + 2) mod 8) + dirY ((j + 6) mod 8) = y + dirY j) by (cbn in J; destruct J as [<-|[<-|[<-|[<-|[]]]]]; cbn; lia).
      rewrite BX, BY in E2. specialize (E2 Cm). rewrite E1, <- B in E2. revert E2. destruct (parity x y), (b x y j), (parity (x + dirX j + _) _); cbn; congruence. }
  assert (k = 0 \/ k = 2 \/ k = 4 \/ k = 6 \/ k = 1 \/ k = 3 \/ k = 5 \/ k = 7) as Q by lia. destruct Q as [->|[->|[->|[->|[->|[->|[->| ->]]]]]]].
  1-4: apply parity_straight; [cbn; tauto|lia|lia|congruence].
  - apply (D 0); cbn; try tauto; lia.
  - apply (D 2); cbn; try tauto; lia.
  - apply (D 4); cbn in *; try tauto; lia.
  - apply (D 6); cbn; try tauto; lia.
Qed.
End Parity.
