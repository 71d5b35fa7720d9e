(** The sides that belong to one contour separate the image. *)
From Coq Require Import Bool Lia.
From Verif Require Import Base CellMap_Model CellMap_Spec CellMap_Main CellSigma_Spec CellSigma_Proofs CellSigma_Results CellLink_Spec CellLink_Proofs CellLink_Main CellLink_Results CellLink_Check
  CellFace_Spec CellFace_Walk CellStart_Spec CellStart_Walk CellStart_Ends CellContour_Orbit CellContour_Spec CellContour_Phi CellContour_Find CellJordan_Parity CellJordan_Owner.
Local Open Scope Z_scope.

Section Class.
Variable m : cmap.
Let im := cim m.
Hypothesis Fa : faced m.
Hypothesis Sl : slim im.
Hypothesis Sm : smooth im.
Hypothesis Dr : drawn im.
Let Wi : wired m. Proof. apply Fa. Qed.
Let Fr : framed im. Proof. apply Wi. Qed.
Let Ne : neat im. Proof. apply Wi. Qed.
Let Jo : joined im. Proof. apply Wi. Qed.
Let Ri : ringed im. Proof. apply Wi. Qed.
Let Pl : plain im. Proof. apply Fa. Qed.
Let Ai : airy im. Proof. apply Fa. Qed.
Let Fi : filled im. Proof. apply Fa. Qed.
Let W1 : way 1. Proof. left. reflexivity. Qed.
Let W2 : way (-1). Proof. right. reflexivity. Qed.
Let owner := owner m.
Let nb := nb m.

Definition isContour (x y : Z) : bool := (0 <=? x) && (x <? iw im) && (0 <=? y) && (y <? ih im) && negb (ctypeEqb (ptype (ipix im x y)) Region).
Lemma contour_is x y : isContour x y = true <-> vertexAt im x y \/ lineAt im x y.
Proof.
  unfold isContour, vertexAt, lineAt. rewrite !andb_true_iff, !Z.leb_le, !Z.ltb_lt, negb_true_iff, CellSigma_Proofs.ctypeEqb_ne. split; [|intuition congruence].
  intros ((((A & B) & C) & D) & E). pose proof (Pl x y ltac:(lia) ltac:(lia)) as Q. destruct (ptype (ipix im x y)); try contradiction; [right|left]; auto.
Qed.
Lemma contour_inner x y : isContour x y = true -> 0 < x < iw im - 1 /\ 0 < y < ih im - 1.
Proof. intros H. apply contour_is in H. destruct H as [H|H]; [apply (vertex_inner im Fr), H|apply (line_is_inner im Fr), H]. Qed.
Lemma contour_near x y k : isContour x y = true -> isContour (x + dirX (k mod 8)) (y + dirY (k mod 8)) = negb (ctypeEqb (nb x y k) Region).
Proof.
  intros H. apply contour_inner in H. pose proof (dirX_bound (k mod 8)). pose proof (dirY_bound (k mod 8)). unfold isContour, nb, CellJordan_Owner.nb. fold im.
  destruct (Z.leb_spec 0 (x + dirX (k mod 8))); [|lia]. destruct (Z.ltb_spec (x + dirX (k mod 8)) (iw im)); [|lia].
  destruct (Z.leb_spec 0 (y + dirY (k mod 8))); [|lia]. destruct (Z.ltb_spec (y + dirY (k mod 8)) (ih im)); [|lia]. reflexivity.
Qed.
Lemma near_region x y k : isContour x y = true -> (isContour (x + dirX (k mod 8)) (y + dirY (k mod 8)) = false <-> nb x y k = Region).
Proof. intros H. rewrite contour_near by exact H. rewrite negb_false_iff. apply CellSigma_Proofs.ctypeEqb_eq. Qed.
Lemma near_contour x y k : isContour x y = true -> (isContour (x + dirX (k mod 8)) (y + dirY (k mod 8)) = true <-> nb x y k <> Region).
Proof. intros H. rewrite contour_near by exact H. rewrite negb_true_iff. apply CellSigma_Proofs.ctypeEqb_ne. Qed.

(** a side of a contour pixel towards a region *)
Definition side (x y j : Z) : Prop := In j [0; 2; 4; 6] /\ isContour x y = true /\ nb x y j = Region.

Lemma node_or d : (exists e, isDart im e /\ nodeOf im e = nodeOf im d) \/ (forall e, isDart im e -> nodeOf im e <> nodeOf im d).
Proof.
  destruct (Exists_dec (fun e => isDart im e /\ nodeOf im e = nodeOf im d) (allStates im)) as [H|H].
  - intros e. destruct (isDart_dec im e) as [A|A]; [|right; tauto]. destruct (Z.eq_dec (nodeOf im e) (nodeOf im d)); [left; auto|right; tauto].
  - left. apply Exists_exists in H. destruct H as (e & _ & H). exists e. exact H.
  - right. intros e De En. apply H, Exists_exists. exists e. split; [apply (states_in im), place_state, dart_place, De|auto].
Qed.
Lemma own_exists x y j : side x y j -> exists z, owner z x y j.
Proof.
  intros (J & H & Rg). apply contour_is in H. destruct H as [V|L].
  - destruct (p_place m x y j J Rg V) as (Pp & Np).
    destruct (node_or (Dart x y j)) as [(e & De & En)|No].
    + destruct (Ri (Dart x y j) e Pp (dart_place im e De) (eq_sym En)) as (k & K).
      destruct (places_return im Fr (-1) (Dart x y j) W2 Pp) as (r & R0 & R).
      (* the same place is reached the other way round *)
      destruct (Ri e (Dart x y j) (dart_place im e De) Pp En) as (k' & K').
      assert (E' : places k' im (-1) (Dart x y j) = e) by (rewrite <- K'; apply (places_inv im Fr k' 1 e W1 (dart_place im e De))).
      assert (0 < k')%nat by (destruct k'; [cbn in E'; exfalso; apply Np; rewrite E'; exact De|lia]).
      destruct (least (fun i => isDart im (places i im (-1) (Dart x y j))) (fun i => isDart_dec im _) k' H) as (i & I & Di & Li); [rewrite E'; exact De|].
      exists (places i im (-1) (Dart x y j)). left. split; [exact V|]. left. split; [exact Di|]. split; [exact Di|]. exists i. split; [lia|]. split; [reflexivity|exact Li].
    + exists (Dart x y j). left. split; [exact V|]. right. assert (lonely im (Dart x y j)) by (split; assumption). auto.
  - destruct Dr as (Dr1 & Dr2 & Dr3). set (l := plabel (ipix im x y)). assert (O1 : owns im Line l x y) by (destruct L as (A & B & C); split; [exact A|split; [exact B|]]; destruct (ipix im x y) as [t c] eqn:E; cbn in *; subst; unfold l; rewrite ?E; reflexivity).
    destruct (Dr3 l x y O1) as (d & Dd & Ed). destruct (line_ends im Fr Sl Sm Pl d Dd) as (n & Ln & _). pose proof Ln as (N & Rn & Ve).
    destruct (CellStart_Ends.covers im Fr Sl Sm d n x y Dd Ln) as (i & I & X & Y).
    { apply (Dr2 l); [|exact O1]. rewrite <- Ed. apply (dart_owns im Fr); auto. }
    assert (H : half im (forths im i d)) by (apply Rn, I). destruct (forth_spec im Fr Sl Sm (forths im i d) H) as (k & E & K & Nk & _ & _ & Jl). rewrite X, Y in *.
    set (b := ddir (back (forths im i d))) in *. assert (B : 0 <= b < 8) by apply back_range.
    assert (Jr : 0 <= j < 8) by (cbn in J; lia).
    assert (Nj : j <> b /\ j <> k).
    { assert (~ link im (Dart x y j)) as Q by (rewrite <- (Z.mod_small j 8) by exact Jr; apply (link_region m), Rg). split; intros ->; apply Q, Jl; auto. }
    destruct Nj as (Nb & Nk').
    set (tb := (b - j) mod 8). set (tk := (k - j) mod 8).
    assert (Hm : forall c, 0 <= c < 8 -> j <> c -> 0 < (c - j) mod 8 < 8 /\ (j + (c - j) mod 8) mod 8 = c) by (clear -Jr; intros c C Nc; Z.div_mod_to_equations; lia).
    assert (Hb : 0 < tb < 8 /\ (j + tb) mod 8 = b) by (apply Hm; assumption).
    assert (Hk : 0 < tk < 8 /\ (j + tk) mod 8 = k) by (apply Hm; assumption).
    assert (Ht : tb <> tk) by (intros Q; apply Nk; destruct Hb as (_ & Hb), Hk as (_ & Hk); rewrite Q in Hb; congruence).
    destruct (Z_lt_ge_dec tb tk) as [Lt|Ge].
    + exists d. right. split; [exact L|]. split; [exact Dd|]. exists n, i, tb. split; [exact Ln|]. split; [exact I|]. split; [exact X|]. split; [exact Y|]. split; [apply Hb|]. split; [apply Hb|].
      intros u U Lk. apply Jl in Lk. clear Hm. clearbody tb tk. clear -Lk U Lt Hb Hk Jr. destruct Hb as (Hb1 & Hb2), Hk as (Hk1 & Hk2). rewrite <- Hb2, <- Hk2 in Lk. Z.div_mod_to_equations. lia.
    + exists (far im n d). right. split; [exact L|]. pose proof (line_far m Fa Sl Sm d n Dd Ln) as Lf. split; [apply (far_dart im Fr Sl Sm); assumption|].
      exists n, (n - Datatypes.S i)%nat, tk. split; [exact Lf|]. split; [lia|].
      assert (Ef : forths im (n - Datatypes.S i) (far im n d) = back (Dart x y k)).
      { rewrite (reversed im Fr Sl Sm d n Dd Ln) by lia. replace (n - (n - Datatypes.S i))%nat with (Datatypes.S i) by lia. cbn [forths]. rewrite E. reflexivity. }
      fold im. rewrite Ef. destruct (back_target (Dart x y k) K) as [-> ->]. rewrite back_back by exact K. cbn [dcx dcy ddir]. split; [reflexivity|]. split; [reflexivity|]. split; [apply Hk|]. split; [apply Hk|].
      intros u U Lk. apply Jl in Lk. clear Hm. clearbody tb tk. clear -Lk U Ge Ht Hb Hk Jr. destruct Hb as (Hb1 & Hb2), Hk as (Hk1 & Hk2). rewrite <- Hb2, <- Hk2 in Lk. Z.div_mod_to_equations. lia.
Qed.

Lemma own_kind z x y j : owner z x y j -> isDart im z \/ lonely im z.
Proof. intros [(_ & [(D & _)|(L & _)])|(_ & D & _)]; auto. Qed.
Lemma runs_same : forall i k z w, isDart im z -> isDart im w -> runs im i z -> runs im k w -> forths im i z = forths im k w -> z = w.
Proof.
  induction i as [|i IH]; intros k z w Dz Dw Rz Rw E.
  - destruct k as [|k]; [exact E|]. exfalso. pose proof (runs_center im Fr Sl Sm (Datatypes.S k) w Dw Rw ltac:(lia)) as Q. rewrite <- E in Q. cbn in Q. destruct Dz as ((_ & _ & V) & _). congruence.
  - destruct k as [|k].
    + exfalso. pose proof (runs_center im Fr Sl Sm (Datatypes.S i) z Dz Rz ltac:(lia)) as Q. rewrite E in Q. cbn in Q. destruct Dw as ((_ & _ & V) & _). congruence.
    + apply (IH k); auto; [intros q Hq; apply Rz; lia|intros q Hq; apply Rw; lia|]. cbn [forths] in E. apply (forth_inj im Fr Sl Sm); [apply Rz; lia|apply Rw; lia|exact E].
Qed.
Lemma own_unique z w x y j : owner z x y j -> owner w x y j -> contour m z w.
Proof.
  intros Oz Ow. unfold owner, CellJordan_Owner.owner in Oz, Ow. fold im in Oz, Ow. destruct Oz as [(V & Oz)|(L & Dz & n & i & t & Ln & I & X & Y & T & B & N)].
  - destruct Ow as [(_ & Ow)|((_ & _ & L) & _)]; [|exfalso; destruct V as (_ & _ & V); rewrite V in L; discriminate L].
    assert (Far : forall a b, nextDart im (-1) (Dart x y j) a -> lonely im b -> lonely im (Dart x y j) -> nodeOf im b = nodeOf im (Dart x y j) -> False).
    { intros a b (Da & k & _ & <- & _) _ Lp _. apply (proj2 Lp _ Da). apply (places_label im Fr Jo k (-1)); [exact W2|apply Lp]. }
    destruct Oz as [(Dz & Nz)|(Lz & Lp & Ez)], Ow as [(Dw & Nw)|(Lw & Lp' & Ew)].
    + rewrite (next_unique im (-1) (Dart x y j) z w Nz Nw). apply (contour_refl m Wi). left. exact Dw.
    + exfalso. exact (Far z w Nz Lw Lp' Ew).
    + exfalso. exact (Far w z Nw Lz Lp Ez).
    + right. split; [exact Lz|]. split; [exact Lw|]. exact (eq_trans Ez (eq_sym Ew)).
  - destruct Ow as [((_ & _ & V) & _)|(_ & Dw & n' & i' & t' & Ln' & I' & X' & Y' & T' & B' & N')]; [exfalso; destruct L as (_ & _ & L); rewrite L in V; discriminate V|].
    assert (Hz : half im (forths im i z)) by (apply Ln, I). assert (Hw : half im (forths im i' w)) by (apply Ln', I').
    assert (Lz : link im (Dart x y ((j + t) mod 8))) by (rewrite B, <- X, <- Y; apply link_back; apply Hz).
    assert (Lw : link im (Dart x y ((j + t') mod 8))) by (rewrite B', <- X', <- Y'; apply link_back; apply Hw).
    assert (t = t') as <-. { destruct (Z.lt_trichotomy t t') as [Q|[Q|Q]]; [exfalso; apply (N' t ltac:(lia) Lz)|exact Q|exfalso; apply (N t' ltac:(lia) Lw)]. }
    assert (forths im i z = forths im i' w) as E by (apply back_range_eq; [congruence|congruence|congruence|apply Hz|apply Hw]).
    assert (z = w) as <-. { apply (runs_same i i' z w); auto; intros q Hq; [apply Ln|apply Ln']; lia. }
    apply (contour_refl m Wi). left. exact Dz.
Qed.

(** ** All sides of one contour *)
Definition inClass (a : dart) (x y j : Z) : Prop := exists z, owner z x y j /\ contour m a z.
Lemma class_owner a z x y j : owner z x y j -> (inClass a x y j <-> contour m a z).
Proof.
  intros Oz. split; [|intros C; exists z; auto]. intros (w & Ow & C). apply (contour_trans m Wi a w z C). apply (own_unique w z x y j); assumption.
Qed.
Lemma class_move a x y j x' y' j' : side x y j -> (forall z, owner z x y j -> exists z', owner z' x' y' j' /\ contour m z z') -> (inClass a x y j <-> inClass a x' y' j').
Proof.
  intros Sd H. destruct (own_exists x y j Sd) as (z & Oz). destruct (H z Oz) as (z' & Oz' & C). rewrite (class_owner a z x y j Oz), (class_owner a z' x' y' j' Oz'). split; intros Q.
  - apply (contour_trans m Wi a z z' Q C).
  - apply (contour_trans m Wi a z' z Q). apply (contour_sym m Wi), C.
Qed.
Lemma class_turn a x y j : side x y j -> nb x y (j + 1) <> Region -> (inClass a x y j <-> inClass a (x + dirX ((j + 1) mod 8)) (y + dirY ((j + 1) mod 8)) ((j + 6) mod 8)).
Proof.
  intros Sd C1. apply class_move; [exact Sd|]. intros z Oz. destruct Sd as (J & Cp & Rg). apply contour_is in Cp. destruct Cp as [V|L].
  - apply (node_turn m Fa Sl Sm Dr); assumption.
  - destruct (ctypeEqb (nb x y (j + 2)) Region) eqn:Q.
    + apply CellSigma_Proofs.ctypeEqb_eq in Q. exists z. split; [apply (line_turn1 m Fa Sl Sm); assumption|]. apply (contour_refl m Wi), (own_kind z x y j Oz).
    + apply CellSigma_Proofs.ctypeEqb_ne in Q. apply (line_both m Fa Sl Sm Dr); assumption.
Qed.
Lemma class_on a x y j : side x y j -> nb x y (j + 1) = Region -> nb x y (j + 2) <> Region -> (inClass a x y j <-> inClass a (x + dirX ((j + 2) mod 8)) (y + dirY ((j + 2) mod 8)) j).
Proof.
  intros Sd R1 C2. apply class_move; [exact Sd|]. intros z Oz. destruct Sd as (J & Cp & Rg). apply contour_is in Cp. destruct Cp as [V|L].
  - apply (node_on m Fa Sl Sm Dr); assumption.
  - exists z. split; [apply (line_on m Fa Sl Sm); assumption|]. apply (contour_refl m Wi), (own_kind z x y j Oz).
Qed.
Lemma class_round a x y j : side x y j -> nb x y (j + 1) = Region -> nb x y (j + 2) = Region -> (inClass a x y j <-> inClass a x y ((j + 2) mod 8)).
Proof.
  intros Sd R1 R2. apply class_move; [exact Sd|]. intros z Oz. destruct Sd as (J & Cp & Rg). exists z. split; [|apply (contour_refl m Wi), (own_kind z x y j Oz)]. apply contour_is in Cp. destruct Cp as [V|L].
  - apply (node_round m Fa); assumption.
  - apply (line_round m); assumption.
Qed.

(** ** The two parts of the image they separate *)
Lemma choose (P Q : Z -> Z -> Z -> Prop) (dec : forall x y j, P x y j -> Q x y j \/ ~ Q x y j) (decP : forall x y j, {P x y j} + {~ P x y j}) (l : list (Z * Z * Z)) :
  exists b : Z -> Z -> Z -> bool, forall x y j, In (x, y, j) l -> P x y j -> (b x y j = true <-> Q x y j).
Proof.
  induction l as [|[[u v] k] l (b & IH)]; [exists (fun _ _ _ => false); intros x y j []|].
  assert (exists c : bool, P u v k -> (c = true <-> Q u v k)) as (c & Hc).
  { destruct (decP u v k) as [Y|N]; [|exists true; intros Y; contradiction]. destruct (dec u v k Y) as [H|H]; [exists true; intros _; split; auto|exists false; intros _; split; [discriminate|contradiction]]. }
  exists (fun x y j => if (x =? u) && (y =? v) && (j =? k) then c else b x y j). intros x y j I Pj. destruct ((x =? u) && (y =? v) && (j =? k)) eqn:E.
  - apply andb_true_iff in E. destruct E as [E E3]. apply andb_true_iff in E. destruct E as [E1 E2]. apply Z.eqb_eq in E1, E2, E3. subst. apply Hc, Pj.
  - destruct I as [I|I]; [|apply IH; assumption]. injection I as -> -> ->. rewrite !Z.eqb_refl in E. discriminate E.
Qed.
Definition allSides : list (Z * Z * Z) := map (fun d => (dcx d, dcy d, ddir d)) (allStates im).
Lemma sides_in x y j : side x y j -> In (x, y, j) allSides.
Proof.
  intros (J & Cp & _). apply contour_inner in Cp. unfold allSides. change (x, y, j) with ((fun d => (dcx d, dcy d, ddir d)) (Dart x y j)). apply in_map.
  unfold allStates. apply in_flat_map. exists (Z.to_nat x). split; [apply in_seq; lia|]. apply in_flat_map. exists (Z.to_nat y). split; [apply in_seq; lia|].
  apply in_map_iff. exists (Z.to_nat j). rewrite !Z2Nat.id by (cbn in J; lia). split; [reflexivity|]. apply in_seq. cbn in J. lia.
Qed.
Lemma side_dec x y j : {side x y j} + {~ side x y j}.
Proof.
  unfold side. destruct (in_dec Z.eq_dec j [0; 2; 4; 6]) as [a|a]; [|right; tauto]. destruct (isContour x y) eqn:E; [|right; intros (_ & Q & _); discriminate Q].
  destruct (ctypeEqb (nb x y j) Region) eqn:F; [left; apply CellSigma_Proofs.ctypeEqb_eq in F; auto|right; apply CellSigma_Proofs.ctypeEqb_ne in F; tauto].
Qed.

Theorem jordan a : isDart im a \/ lonely im a -> exists w : Z -> Z -> bool,
  (forall x y k, In k [0; 2; 4; 6] -> 0 <= x < iw im -> 0 <= y < ih im -> 0 <= x + dirX k < iw im -> 0 <= y + dirY k < ih im ->
     ptype (ipix im x y) = Region -> ptype (ipix im (x + dirX k) (y + dirY k)) = Region -> w (x + dirX k) (y + dirY k) = w x y) /\
  (forall x y k, 0 <= k < 8 -> isContour x y = true -> isContour (x + dirX k) (y + dirY k) = true -> w (x + dirX k) (y + dirY k) = w x y) /\
  (forall x y j, side x y j -> (inClass a x y j <-> w (x + dirX j) (y + dirY j) <> w x y)).
Proof.
  intros Ka.
  assert (dec : forall x y j, side x y j -> inClass a x y j \/ ~ inClass a x y j).
  { intros x y j Sd. destruct (own_exists x y j Sd) as (z & Oz). rewrite (class_owner a z x y j Oz). apply (contour_or m Wi); [exact Ka|apply (own_kind z x y j Oz)]. }
  destruct (choose side (inClass a) dec side_dec allSides) as (b & Hb0).
  assert (Hb : forall x y j, side x y j -> (b x y j = true <-> inClass a x y j)) by (intros x y j Sd; apply Hb0; [apply sides_in, Sd|exact Sd]). clear Hb0.
  assert (Same : forall x y j x' y' j', side x y j -> side x' y' j' -> (inClass a x y j <-> inClass a x' y' j') -> b x y j = b x' y' j').
  { intros x y j x' y' j' S1 S2 E. apply eq_iff_eq_true. rewrite (Hb _ _ _ S1), (Hb _ _ _ S2). exact E. }
  assert (Left : forall x y, isContour x y = true -> 0 < x) by (intros x y H; apply contour_inner in H; lia).
  assert (Ev : forall j n, In j [0; 2; 4; 6] -> n = 2 \/ n = 6 -> In ((j + n) mod 8) [0; 2; 4; 6]).
  { intros j n J [->| ->]; cbn in J; destruct J as [<-|[<-|[<-|[<-|[]]]]]; cbn; tauto. }
  assert (Turn : forall x y j, In j [0; 2; 4; 6] -> isContour x y = true -> isContour (x + dirX (j mod 8)) (y + dirY (j mod 8)) = false -> isContour (x + dirX ((j + 1) mod 8)) (y + dirY ((j + 1) mod 8)) = true ->
    b x y j = b (x + dirX ((j + 1) mod 8)) (y + dirY ((j + 1) mod 8)) ((j + 6) mod 8)).
  { intros x y j J Cp R C1. apply near_region in R; [|exact Cp]. apply Same; [repeat split; assumption| |].
    - split; [apply Ev; auto|]. split; [exact C1|]. unfold nb. rewrite nb_mod. rewrite (nb_s6 m x y j J). exact R.
    - apply class_turn; [repeat split; assumption|]. apply near_contour; assumption. }
  assert (On : forall x y j, In j [0; 2; 4; 6] -> isContour x y = true -> isContour (x + dirX (j mod 8)) (y + dirY (j mod 8)) = false -> isContour (x + dirX ((j + 1) mod 8)) (y + dirY ((j + 1) mod 8)) = false ->
    isContour (x + dirX ((j + 2) mod 8)) (y + dirY ((j + 2) mod 8)) = true -> b x y j = b (x + dirX ((j + 2) mod 8)) (y + dirY ((j + 2) mod 8)) j).
  { intros x y j J Cp R R1 C2. apply near_region in R, R1; try exact Cp. apply Same; [repeat split; assumption| |].
    - split; [exact J|]. split; [exact C2|]. unfold nb. rewrite (nb_q0 m x y j J). exact R1.
    - apply class_on; [repeat split; assumption|exact R1|]. apply near_contour; assumption. }
  assert (Round : forall x y j, In j [0; 2; 4; 6] -> isContour x y = true -> isContour (x + dirX (j mod 8)) (y + dirY (j mod 8)) = false -> isContour (x + dirX ((j + 1) mod 8)) (y + dirY ((j + 1) mod 8)) = false ->
    isContour (x + dirX ((j + 2) mod 8)) (y + dirY ((j + 2) mod 8)) = false -> b x y j = b x y ((j + 2) mod 8)).
  { intros x y j J Cp R R1 R2. apply near_region in R, R1, R2; try exact Cp. apply Same; [repeat split; assumption| |].
    - split; [apply Ev; auto|]. split; [exact Cp|]. unfold nb. rewrite nb_mod. exact R2.
    - apply class_round; [repeat split; assumption|exact R1|exact R2]. }
  exists (parity isContour b). split; [|split].
  - intros x y k K X Y X' Y' R R'. apply (parity_straight isContour Left b Turn On Round x y k K); [lia|lia|].
    assert (forall u v, ptype (ipix im u v) = Region -> isContour u v = false) as Q.
    { intros u v E. destruct (isContour u v) eqn:F; [|reflexivity]. apply contour_is in F. destruct F as [(_ & _ & F)|(_ & _ & F)]; congruence. }
    rewrite !Q by assumption. reflexivity.
  - intros x y k K Cp Cq. apply (parity_contour isContour Left b Turn On Round); assumption.
  - intros x y j Sd. pose proof Sd as (J & Cp & R). rewrite <- (Hb x y j Sd). rewrite (parity_across isContour Left b Turn On Round x y j J Cp).
    + destruct (parity isContour b x y), (b x y j); cbn; intuition congruence.
    + rewrite <- (Z.mod_small j 8) by (cbn in J; lia). apply near_region; assumption.
Qed.
End Class.
