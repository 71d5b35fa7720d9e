(** The sides that belong to one contour separate the image, for lines of any shape. *)
From Coq Require Import Bool Lia.
From Verif Require Import Base CellMap_Model CellMap_Spec CellMap_Main CellSigma_Spec CellSigma_Proofs CellSigma_Results CellLink_Spec CellLink_Proofs CellLink_Main CellLink_Results CellLink_Check
  CellFace_Spec CellFace_Walk CellFace_Main CellFace_Step CellStart_Spec CellStart_Walk CellStart_Ends CellContour_Orbit CellContour_Spec CellContour_Phi CellContour_Find CellThresh_Spec CellTotal_Anchor CellTotal_Init CellJordan_Spec
  CellJordan_Parity CellJordan_Owner CellJordan_Class CellJordan_Border CellJordan_Results CellPlane_Spec CellPlane_Owner.
Local Open Scope Z_scope.

Section Class.
Variable m : cmap.
Let im := cim m.
Hypothesis Fa : faced m.
Variable L : dart -> Z -> Z -> Z -> Prop.
Hypothesis Tr : tracked m L.
Let Wi : wired m. Proof. apply Fa. Qed.
Let Fr : framed im. Proof. apply Wi. Qed.
Let Ne : neat im. Proof. apply Wi. Qed.
Let Jo : joined im. Proof. apply Wi. Qed.
Let Ri : ringed im. Proof. apply Wi. Qed.
Let Pl : plain im. Proof. apply Fa. Qed.
Let Ai : airy im. Proof. apply Fa. Qed.
Let Fi : filled im. Proof. apply Fa. Qed.
Let W1 : way 1. Proof. left. reflexivity. Qed.
Let W2 : way (-1). Proof. right. reflexivity. Qed.
Let nb := nb m.
Let own := own m L.
Let side := side m.
Let isContour := CellJordan_Class.isContour m.

Lemma own_exists x y j : side x y j -> exists z, own z x y j.
Proof.
  intros (J & H & Rg). apply (contour_is m Fa) in H. destruct H as [V|La].
  - destruct (p_place m x y j J Rg V) as (Pp & Np).
    destruct (node_or m (Dart x y j)) as [(e & De & En)|No].
    + destruct (Ri e (Dart x y j) (dart_place im e De) Pp En) as (k' & K').
      assert (E' : places k' im (-1) (Dart x y j) = e) by (rewrite <- K'; apply (places_inv im Fr k' 1 e W1 (dart_place im e De))).
      assert (0 < k')%nat by (destruct k'; [cbn in E'; exfalso; apply Np; rewrite E'; exact De|lia]).
      destruct (least (fun i => isDart im (places i im (-1) (Dart x y j))) (fun i => isDart_dec im _) k' H) as (i & I & Di & Li); [rewrite E'; exact De|].
      exists (places i im (-1) (Dart x y j)). left. split; [exact V|]. left. split; [exact Di|]. split; [exact Di|]. exists i. split; [lia|]. split; [reflexivity|exact Li].
    + exists (Dart x y j). left. split; [exact V|]. right. assert (lonely im (Dart x y j)) by (split; assumption). auto.
  - destruct Tr as (T1 & _). destruct (T1 x y j) as (z & Lz); [split; [exact J|split; assumption]|]. exists z. right. auto.
Qed.
Lemma own_kind z x y j : side x y j -> own z x y j -> isDart im z \/ lonely im z.
Proof. intros (J & _ & Rg). apply (side_kind m L Tr); assumption. Qed.
Lemma own_unique z w x y j : side x y j -> own z x y j -> own w x y j -> contour m z w.
Proof.
  intros (J & _ & Rg) [(V & Oz)|(La & Lz)] Ow.
  - destruct Ow as [(_ & Ow)|((_ & _ & La) & _)]; [|exfalso; destruct V as (_ & _ & V); congruence].
    assert (Far : forall a b, nextDart im (-1) (Dart x y j) a -> lonely im b -> lonely im (Dart x y j) -> nodeOf im b = nodeOf im (Dart x y j) -> False).
    { intros a b (Da & k & _ & <- & _) _ Lp _. apply (proj2 Lp _ Da). apply (places_label im Fr Jo k (-1)); [exact W2|apply Lp]. }
    destruct Oz as [(Dz & Nz)|(Lz & Lp & Ez)], Ow as [(Dw & Nw)|(Lw & Lp' & Ew)].
    + rewrite (next_unique im (-1) (Dart x y j) z w Nz Nw). apply (contour_refl m Wi). left. exact Dw.
    + exfalso. exact (Far z w Nz Lw Lp' Ew).
    + exfalso. exact (Far w z Nw Lz Lp Ez).
    + right. split; [exact Lz|]. split; [exact Lw|]. exact (eq_trans Ez (eq_sym Ew)).
  - destruct Ow as [((_ & _ & V) & _)|(_ & Lw)]; [exfalso; destruct La as (_ & _ & La); congruence|].
    destruct Tr as (_ & T2 & T3 & _). assert (Sd : lineSide (cim m) x y j) by (split; [exact J|split; assumption]). rewrite (T3 z w x y j Sd Lz Lw). apply (contour_refl m Wi). left. apply (T2 w x y j Sd Lw).
Qed.

(** ** All sides of one contour *)
Definition inClass (a : dart) (x y j : Z) : Prop := exists z, own z x y j /\ contour m a z.
Lemma class_owner a z x y j : side x y j -> own z x y j -> (inClass a x y j <-> contour m a z).
Proof.
  intros Sd Oz. split; [|intros C; exists z; auto]. intros (w & Ow & C). apply (contour_trans m Wi a w z C). apply (own_unique w z x y j); assumption.
Qed.
Lemma class_move a x y j x' y' j' : side x y j -> side x' y' j' -> (forall z, own z x y j -> exists z', own z' x' y' j' /\ contour m z z') -> (inClass a x y j <-> inClass a x' y' j').
Proof.
  intros Sd Sd' H. destruct (own_exists x y j Sd) as (z & Oz). destruct (H z Oz) as (z' & Oz' & C). rewrite (class_owner a z x y j Sd Oz), (class_owner a z' x' y' j' Sd' Oz'). split; intros Q.
  - apply (contour_trans m Wi a z z' Q C).
  - apply (contour_trans m Wi a z' z Q). apply (contour_sym m Wi), C.
Qed.
Lemma class_turn a x y j : side x y j -> side (x + dirX ((j + 1) mod 8)) (y + dirY ((j + 1) mod 8)) ((j + 6) mod 8) -> nb x y (j + 1) <> Region -> (inClass a x y j <-> inClass a (x + dirX ((j + 1) mod 8)) (y + dirY ((j + 1) mod 8)) ((j + 6) mod 8)).
Proof.
  intros Sd Sd' C1. apply class_move; [exact Sd|exact Sd'|]. intros z Oz. destruct Sd as (J & Cp & Rg). destruct Oz as [Vz|(La & Lz)].
  - destruct (place_turn m Fa L Tr x y j J Rg (proj1 Vz) z Vz C1) as (z' & O & C & _). exists z'. auto.
  - destruct (step_turn m Fa L Tr x y j J Rg La z Lz C1) as (z' & O & C & _). exists z'. auto.
Qed.
Lemma class_on a x y j : side x y j -> side (x + dirX ((j + 2) mod 8)) (y + dirY ((j + 2) mod 8)) j -> nb x y (j + 1) = Region -> nb x y (j + 2) <> Region -> (inClass a x y j <-> inClass a (x + dirX ((j + 2) mod 8)) (y + dirY ((j + 2) mod 8)) j).
Proof.
  intros Sd Sd' R1 C2. apply class_move; [exact Sd|exact Sd'|]. intros z Oz. pose proof (own_kind z x y j Sd Oz) as Kz. destruct Sd as (J & Cp & Rg). destruct Oz as [Vz|(La & Lz)].
  - destruct (place_on m Fa L Tr x y j J Rg (proj1 Vz) z Vz R1 C2) as (z' & O & C & _). exists z'. auto.
  - exists z. split; [exact (step_on m Fa L Tr x y j J Rg La z Lz R1 C2)|]. apply (contour_refl m Wi), Kz.
Qed.
Lemma class_round a x y j : side x y j -> side x y ((j + 2) mod 8) -> nb x y (j + 1) = Region -> nb x y (j + 2) = Region -> (inClass a x y j <-> inClass a x y ((j + 2) mod 8)).
Proof.
  intros Sd Sd' R1 R2. apply class_move; [exact Sd|exact Sd'|]. intros z Oz. exists z. split; [|apply (contour_refl m Wi), (own_kind z x y j Sd Oz)]. destruct Sd as (J & Cp & Rg). destruct Oz as [Vz|(La & Lz)].
  - exact (place_round m Fa L x y j J Rg (proj1 Vz) z Vz R1 R2).
  - exact (step_round m L Tr x y j J Rg La z Lz R1 R2).
Qed.

(** ** The two parts of the image they separate *)
Theorem jordan a : isDart im a \/ lonely im a -> exists w : Z -> Z -> bool,
  (forall x y k, In k [0; 2; 4; 6] -> 0 <= x < iw im -> 0 <= y < ih im -> 0 <= x + dirX k < iw im -> 0 <= y + dirY k < ih im ->
     ptype (ipix im x y) = Region -> ptype (ipix im (x + dirX k) (y + dirY k)) = Region -> w (x + dirX k) (y + dirY k) = w x y) /\
  (forall x y k, 0 <= k < 8 -> isContour x y = true -> isContour (x + dirX k) (y + dirY k) = true -> w (x + dirX k) (y + dirY k) = w x y) /\
  (forall x y j, side x y j -> (inClass a x y j <-> w (x + dirX j) (y + dirY j) <> w x y)).
Proof.
  intros Ka.
  assert (dec : forall x y j, side x y j -> inClass a x y j \/ ~ inClass a x y j).
  { intros x y j Sd. destruct (own_exists x y j Sd) as (z & Oz). rewrite (class_owner a z x y j Sd Oz). apply (contour_or m Wi); [exact Ka|apply (own_kind z x y j Sd Oz)]. }
  destruct (choose side (inClass a) dec (side_dec m) (allSides m)) as (b & Hb0).
  assert (Hb : forall x y j, side x y j -> (b x y j = true <-> inClass a x y j)) by (intros x y j Sd; apply Hb0; [apply (sides_in m Fa), Sd|exact Sd]). clear Hb0.
  assert (Same : forall x y j x' y' j', side x y j -> side x' y' j' -> (inClass a x y j <-> inClass a x' y' j') -> b x y j = b x' y' j').
  { intros x y j x' y' j' S1 S2 E. apply eq_iff_eq_true. rewrite (Hb _ _ _ S1), (Hb _ _ _ S2). exact E. }
  assert (Left : forall x y, isContour x y = true -> 0 < x) by (intros x y H; apply (CellJordan_Class.contour_inner m Fa) in H; fold im in H; lia).
  assert (Ev : forall j n, In j [0; 2; 4; 6] -> n = 2 \/ n = 6 -> In ((j + n) mod 8) [0; 2; 4; 6]).
  { intros j n J [->| ->]; cbn in J; destruct J as [<-|[<-|[<-|[<-|[]]]]]; cbn; tauto. }
  assert (Turn : forall x y j, In j [0; 2; 4; 6] -> isContour x y = true -> isContour (x + dirX (j mod 8)) (y + dirY (j mod 8)) = false -> isContour (x + dirX ((j + 1) mod 8)) (y + dirY ((j + 1) mod 8)) = true ->
    b x y j = b (x + dirX ((j + 1) mod 8)) (y + dirY ((j + 1) mod 8)) ((j + 6) mod 8)).
  { intros x y j J Cp R C1. apply (near_region m Fa) in R; [|exact Cp]. assert (Sd' : side (x + dirX ((j + 1) mod 8)) (y + dirY ((j + 1) mod 8)) ((j + 6) mod 8)); [|apply Same; [repeat split; assumption|exact Sd'|]].
    - split; [apply Ev; auto|]. split; [exact C1|]. unfold nb. rewrite nb_mod. rewrite (nb_s6 m x y j J). exact R.
    - apply class_turn; [repeat split; assumption|exact Sd'|]. apply (near_contour m Fa); assumption. }
  assert (On : forall x y j, In j [0; 2; 4; 6] -> isContour x y = true -> isContour (x + dirX (j mod 8)) (y + dirY (j mod 8)) = false -> isContour (x + dirX ((j + 1) mod 8)) (y + dirY ((j + 1) mod 8)) = false ->
    isContour (x + dirX ((j + 2) mod 8)) (y + dirY ((j + 2) mod 8)) = true -> b x y j = b (x + dirX ((j + 2) mod 8)) (y + dirY ((j + 2) mod 8)) j).
  { intros x y j J Cp R R1 C2. apply (near_region m Fa) in R, R1; try exact Cp. assert (Sd' : side (x + dirX ((j + 2) mod 8)) (y + dirY ((j + 2) mod 8)) j); [|apply Same; [repeat split; assumption|exact Sd'|]].
    - split; [exact J|]. split; [exact C2|]. unfold nb. rewrite (nb_q0 m x y j J). exact R1.
    - apply class_on; [repeat split; assumption|exact Sd'|exact R1|]. apply (near_contour m Fa); assumption. }
  assert (Round : forall x y j, In j [0; 2; 4; 6] -> isContour x y = true -> isContour (x + dirX (j mod 8)) (y + dirY (j mod 8)) = false -> isContour (x + dirX ((j + 1) mod 8)) (y + dirY ((j + 1) mod 8)) = false ->
    isContour (x + dirX ((j + 2) mod 8)) (y + dirY ((j + 2) mod 8)) = false -> b x y j = b x y ((j + 2) mod 8)).
  { intros x y j J Cp R R1 R2. apply (near_region m Fa) in R, R1, R2; try exact Cp. assert (Sd' : side x y ((j + 2) mod 8)); [|apply Same; [repeat split; assumption|exact Sd'|]].
    - split; [apply Ev; auto|]. split; [exact Cp|]. unfold nb. rewrite nb_mod. exact R2.
    - apply class_round; [repeat split; assumption|exact Sd'|exact R1|exact R2]. }
  exists (parity isContour b). split; [|split].
  - intros x y k K X Y X' Y' R R'. apply (parity_straight isContour Left b Turn On Round x y k K); [lia|lia|].
    assert (forall u v, ptype (ipix im u v) = Region -> isContour u v = false) as Q.
    { intros u v E. destruct (isContour u v) eqn:F; [|reflexivity]. apply (contour_is m Fa) in F. destruct F as [(_ & _ & F)|(_ & _ & F)]; fold im in F; congruence. }
    rewrite !Q by assumption. reflexivity.
  - intros x y k K Cp Cq. apply (parity_contour isContour Left b Turn On Round); assumption.
  - intros x y j Sd. pose proof Sd as (J & Cp & R). rewrite <- (Hb x y j Sd). rewrite (parity_across isContour Left b Turn On Round x y j J Cp).
    + destruct (parity isContour b x y), (b x y j); cbn; intuition congruence.
    + rewrite <- (Z.mod_small j 8) by (cbn in J; lia). apply (near_region m Fa); assumption.
Qed.
Lemma border_side l a : onBorder im l a -> exists x y j, side x y j /\ own a x y j /\ plabel (ipix im (x + dirX j) (y + dirY j)) = l /\ pixelOf m a x y.
Proof.
  intros [(D & S)|(Lo & S)].
  - destruct a as [x y k]. pose proof D as (V & K & T & C). cbn [dcx dcy ddir] in V, K. assert (Cp : isContour x y = true) by (apply (contour_is m Fa); left; exact V).
    destruct (Z.odd k) eqn:O.
    + destruct (C O) as (T1 & T2). exists x, y, ((k + 1) mod 8). split; [|split; [|split]].
      * split; [destruct (odd_dirs k K O) as [->|[->|[->| ->]]]; cbn; tauto|]. split; [exact Cp|]. unfold nb, CellJordan_Owner.nb. rewrite Z.mod_mod by lia. exact T1.
      * left. apply (vown_turn1 m); assumption.
      * unfold sideOf in S. rewrite T1 in S. exact S.
      * left. auto.
    + destruct (ctypeEqb (typeAt im (Dart x y k) 1) Region) eqn:E1.
      * pose proof S as S'. unfold sideOf in S'. rewrite E1 in S'. apply CellSigma_Proofs.ctypeEqb_eq in E1. unfold typeAt in E1, T. unfold labelAt in S'. cbn [dcx dcy ddir] in E1, T, S'. rewrite Z.add_0_r, Z.mod_small in T by exact K.
        assert (Lq : lineAt im (x + dirX k) (y + dirY k)) by (pose proof (vertex_inner im Fr _ _ V); pose proof (dirX_bound k); pose proof (dirY_bound k); split; [lia|]; split; [lia|exact T]).
        exists (x + dirX k), (y + dirY k), ((k + 2) mod 8).
        assert (Px : x + dirX k + dirX ((k + 2) mod 8) = x + dirX ((k + 1) mod 8)) by (destruct (even_dirs k K O) as [->|[->|[->| ->]]]; cbn; lia).
        assert (Py : y + dirY k + dirY ((k + 2) mod 8) = y + dirY ((k + 1) mod 8)) by (destruct (even_dirs k K O) as [->|[->|[->| ->]]]; cbn; lia).
        split; [|split; [|split]].
        -- split; [destruct (even_dirs k K O) as [->|[->|[->| ->]]]; cbn; tauto|]. split; [apply (contour_is m Fa); right; exact Lq|]. unfold nb, CellJordan_Owner.nb. rewrite Z.mod_mod by lia. fold im. rewrite Px, Py. exact E1.
        -- right. split; [exact Lq|]. assert (Sd : lineSide (cim m) (x + dirX k) (y + dirY k) ((k + 2) mod 8)).
           { split; [destruct (even_dirs k K O) as [->|[->|[->| ->]]]; cbn; tauto|]. split; [exact Lq|]. unfold near. rewrite Z.mod_mod by lia. fold im. rewrite Px, Py. exact E1. }
           destruct Tr as (T1 & _ & _ & T4 & _). destruct (T1 _ _ _ Sd) as (z & Lz). destruct (T4 z _ _ _ Sd Lz) as (_ & S2 & _).
           assert (Bx : x + dirX k + dirX (((k + 2) mod 8 + 2) mod 8) = x) by (destruct (even_dirs k K O) as [->|[->|[->| ->]]]; cbn; lia).
           assert (By : y + dirY k + dirY (((k + 2) mod 8 + 2) mod 8) = y) by (destruct (even_dirs k K O) as [->|[->|[->| ->]]]; cbn; lia).
           unfold near in S2. rewrite Bx, By in S2. specialize (S2 (proj2 (proj2 V))). replace (((k + 2) mod 8 + 6) mod 8) with k in S2 by (destruct (even_dirs k K O) as [->|[->|[->| ->]]]; reflexivity). rewrite S2 in Lz. exact Lz.
        -- rewrite Px, Py. exact S'.
        -- right. cbn [dcx dcy ddir]. auto.
      * pose proof S as S'. unfold sideOf in S'. rewrite E1 in S'. change (2 * 1) with 2 in S'. apply CellSigma_Proofs.ctypeEqb_ne in E1.
        assert (T2 : typeAt im (Dart x y k) 2 = Region) by (destruct (Ai (Dart x y k) 1 V (even_dir k K O) (or_introl eq_refl) T) as [Q|Q]; [contradiction|exact Q]).
        exists x, y, ((k + 2) mod 8). split; [|split; [|split]].
        -- split; [destruct (even_dirs k K O) as [->|[->|[->| ->]]]; cbn; tauto|]. split; [exact Cp|]. unfold nb, CellJordan_Owner.nb. rewrite Z.mod_mod by lia. exact T2.
        -- left. apply (vown_turn2 m); [exact D|exact O| |].
           ++ intros (_ & _ & _ & Q). cbn [ddir] in Q. destruct (Q ltac:(destruct (even_dirs k K O) as [->|[->|[->| ->]]]; reflexivity)) as (_ & Q2). unfold typeAt in Q2, T. cbn [dcx dcy ddir] in Q2, T. rewrite Z.add_mod_idemp_l in Q2 by lia. replace (k + 1 + -1) with (k + 0) in Q2 by lia. fold im in Q2. congruence.
           ++ intros Q. apply (neat_side im Fr Ne 1 (Dart x y k)); auto. split; [exact V|exact K].
        -- exact S'.
        -- left. auto.
  - destruct a as [x y k]. pose proof Lo as (P & No). pose proof P as (V & K & T & C). cbn [dcx dcy ddir] in V, K. assert (Cp : isContour x y = true) by (apply (contour_is m Fa); left; exact V).
    destruct (side_alone im Fr Pl Fi Jo Ri _ _ P P eq_refl No) as (T0 & _). destruct (Z.odd k) eqn:O.
    + destruct (C O) as (_ & C2). set (d := Dart x y ((k - 1) mod 8)).
      assert (Pd : isPlace im d).
      { split; [exact V|]. split; [apply Z.mod_pos_bound; lia|]. split; [unfold typeAt, d; cbn [dcx dcy ddir]; rewrite Z.add_0_r, Z.mod_mod by lia; exact C2|]. cbn [d ddir]. intros Q. exfalso. destruct (odd_dirs k K O) as [->|[->|[->| ->]]]; discriminate Q. }
      assert (En : nodeOf im (Dart x y k) = nodeOf im d) by reflexivity. assert (Ld : lonely im d) by (split; [exact Pd|exact No]).
      destruct (side_alone im Fr Pl Fi Jo Ri d d Pd Pd eq_refl No) as (Td & _). destruct (side_alone im Fr Pl Fi Jo Ri d _ Pd P (eq_sym En) No) as (_ & Lq).
      exists x, y, ((k - 1) mod 8). split; [|split; [|split]].
      * split; [destruct (odd_dirs k K O) as [->|[->|[->| ->]]]; cbn; tauto|]. split; [exact Cp|]. unfold typeAt in Td. cbn [d dcx dcy ddir] in Td. rewrite Z.add_0_r in Td. exact Td.
      * left. split; [exact V|]. right. auto.
      * rewrite S in Lq. unfold labelAt in Lq. cbn [d dcx dcy ddir] in Lq. rewrite Z.add_0_r, Z.mod_mod in Lq by lia. symmetry. exact Lq.
      * left. auto.
    + exists x, y, k. split; [|split; [|split]].
      * split; [apply (even_dir); assumption|]. split; [exact Cp|]. unfold typeAt in T0. cbn [dcx dcy ddir] in T0. rewrite Z.add_0_r in T0. exact T0.
      * left. split; [exact V|]. right. auto.
      * unfold labelAt in S. cbn [dcx dcy ddir] in S. rewrite Z.add_0_r, Z.mod_small in S by exact K. exact S.
      * left. auto.
Qed.
Hypothesis Wh : whole im.
Hypothesis Sg : strung im.
Theorem one_contour l a b : onBorder im l a -> onBorder im l b -> reach ways8 (CellTotal_Spec.contour im) (dcx a) (dcy a) (dcx b) (dcy b) -> contour m a b.
Proof.
  intros Ba Bb Re. destruct (jordan a (on_kind m l a Ba)) as (w & J1 & J2 & J3). fold im in J1.
  assert (T1 : forall k x y u v, owns im Region k x y -> owns im Region k u v -> w x y = w u v).
  { intros k x0 y0 u v O1 O2. pose proof (Wh k x0 y0 u v O1 O2) as Q. assert (G : regionAt im u v /\ w x0 y0 = w u v); [|apply G]. clear O1 O2. induction Q as [R|u v j Q (R & IH) Hj R']; [auto|]. split; [exact R'|].
    rewrite IH. symmetry. destruct R as (RX & RY & RT), R' as (RX' & RY' & RT'). apply J1; auto. }
  assert (T2 : forall x y u v, reach ways8 (CellTotal_Spec.contour im) x y u v -> CellTotal_Spec.contour im u v /\ w x y = w u v).
  { intros x0 y0 u v Q. induction Q as [R|u v j Q (R & IH) Hj R']; [auto|]. split; [exact R'|]. rewrite IH. symmetry. apply J2; [cbn in Hj; lia|apply (pixel_contour m), R|apply (pixel_contour m), R']. }
  assert (Px : forall c p q, isPlace im c -> pixelOf m c p q -> w p q = w (dcx c) (dcy c)).
  { intros c p q P [(-> & ->)|(D & -> & ->)]; [reflexivity|]. apply J2; [apply D|apply (pixel_contour m), (place_contour im c P)|apply (pixel_contour m), (dart_target m Fa), D]. }
  destruct (border_side l a Ba) as (p & q & j & Sd & Ow & Lb & Pp). destruct (border_side l b Bb) as (p' & q' & j' & Sd' & Ow' & Lb' & Pp'). fold im in Lb, Lb'.
  assert (D : w (p + dirX j) (q + dirY j) <> w p q) by (apply (J3 p q j Sd), (class_owner a a p q j Sd Ow), (contour_refl m Wi), (on_kind m l a Ba)).
  apply (class_owner a b p' q' j' Sd' Ow'), (J3 p' q' j' Sd'). rewrite (T1 l _ _ (p + dirX j) (q + dirY j)) by (apply (region_side m Fa); assumption).
  rewrite (Px b p' q' (on_place m l b Bb) Pp'), <- (proj2 (T2 _ _ _ _ Re)), <- (Px a p q (on_place m l a Ba) Pp). exact D.
Qed.
(** a line with one face on both sides is passed twice on one contour *)
Theorem bridge_contour d b : isDart im d -> nextAlpha m d = Ok b -> sideOf im 1 d = sideOf im (-1) d -> exists k, phis m k d = Ok b.
Proof.
  intros D A E. assert (D' : isDart (cim m) d) by exact D. destruct (alpha_opposite m d (dh_start m Wi) D') as (b' & A' & Db & _ & _ & Lb). assert (b' = b) by congruence. subst b'. fold im in Db.
  destruct (faced_edge m d b Fa D' A) as ((F1 & F2) & _). fold im in F1, F2.
  assert (B1 : onBorder im (sideOf im 1 d) d) by (left; auto). assert (B2 : onBorder im (sideOf im 1 d) b) by (left; split; [exact Db|congruence]).
  apply (phis_orb m Wi d b D'). apply (contour_dart m Wi d b D'). apply (one_contour (sideOf im 1 d)); auto.
  assert (Eb : edgeOf im b = edgeOf im d). { assert (Q : edgeLabel (cim m) b = edgeLabel (cim m) d) by (apply Lb; auto). fold im in Q. rewrite !(edgeLabel_dart im Fr) in Q by (apply Db || apply D). congruence. }
  assert (Ow : forall e, isDart im e -> owns im Line (edgeOf im e) (dcx e + dirX (ddir e)) (dcy e + dirY (ddir e))).
  { intros e De. pose proof De as (V & K & T & _). pose proof (vertex_inner im Fr _ _ V). pose proof (dirX_bound (ddir e)). pose proof (dirY_bound (ddir e)). unfold typeAt in T. unfold edgeOf, labelAt. rewrite Z.add_0_r, Z.mod_small in * by exact K.
    split; [lia|]. split; [lia|]. destruct (ipix im _ _). cbn in *. congruence. }
  pose proof (Ow b Db) as Ob. rewrite Eb in Ob. pose proof (Sg _ _ _ _ _ (Ow d D) Ob) as Re.
  assert (G : forall u v, reach ways8 (owns im Line (edgeOf im d)) (dcx d + dirX (ddir d)) (dcy d + dirY (ddir d)) u v -> reach ways8 (CellTotal_Spec.contour im) (dcx d) (dcy d) u v).
  { intros u v Q. induction Q as [Q|u v k Q IH Hk O].
    - apply re_step; [apply re_here, (place_contour im d), dart_place, D|cbn; destruct D as (_ & K & _); lia|apply (dart_target m Fa), D].
    - apply re_step; [exact IH|exact Hk|]. destruct O as (X & Y & O). split; [exact X|]. split; [exact Y|]. rewrite O. discriminate. }
  apply G in Re. pose proof Db as (_ & K & _).
  pose proof (re_step ways8 (CellTotal_Spec.contour im) _ _ _ _ ((ddir b + 4) mod 8) Re ltac:(pose proof (Z.mod_pos_bound (ddir b + 4) 8 ltac:(lia)); cbn; lia)) as Q.
  assert (Bx : dcx b + dirX (ddir b) + dirX ((ddir b + 4) mod 8) = dcx b /\ dcy b + dirY (ddir b) + dirY ((ddir b + 4) mod 8) = dcy b).
  { clear -K. assert (ddir b = 0 \/ ddir b = 1 \/ ddir b = 2 \/ ddir b = 3 \/ ddir b = 4 \/ ddir b = 5 \/ ddir b = 6 \/ ddir b = 7) as H by lia. destruct H as [->|[->|[->|[->|[->|[->|[->| ->]]]]]]]; cbn; lia. }
  destruct Bx as (Bx & By). rewrite Bx, By in Q. apply Q, (place_contour im b), dart_place, Db.
Qed.
End Class.
