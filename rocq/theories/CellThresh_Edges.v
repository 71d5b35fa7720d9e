(** labelEdges() gives the pixels of a line one label. *)
From Verif Require Import Base CellMap_Model CellMap_Spec CellMap_Scan CellMap_Init CellMap_InitProofs CellMap_Main CellSigma_Spec CellSigma_Proofs CellSigma_Results CellLink_Spec CellLink_Proofs
  CellLink_Main CellLink_Check CellFace_Spec CellStart_Spec CellStart_Walk CellStart_Ends CellStart_Init CellCall_Careful CellThresh_Model CellThresh_Spec CellThresh_Paint.
From Coq Require Import Sorting.Sorted.
Local Open Scope Z_scope.

Lemma forEach_total {A S} (f : S -> A -> res S) (I : list A -> S -> Prop) (l : list A) :
  (forall done a rest s, l = done ++ a :: rest -> I done s -> exists s', f s a = Ok s' /\ I (done ++ [a]) s') ->
  forall s, I [] s -> exists s', forEach f l s = Ok s' /\ I l s'.
Proof.
  intros Hs. assert (K : forall t done s, l = done ++ t -> I done s -> exists s', forEach f t s = Ok s' /\ I l s').
  { induction t as [|a t IH]; intros done s E Hi; cbn [forEach].
    - rewrite app_nil_r in E. subst done. exists s. auto.
    - destruct (Hs done a t s E Hi) as (s1 & -> & H1). cbn [bind]. apply (IH (done ++ [a])); [rewrite <- app_assoc; exact E|exact H1]. }
  intros s Hi. apply (K l [] s eq_refl Hi).
Qed.
Lemma row_first r done x y rest u v : rectPoints r = done ++ (x, y) :: rest -> inRect r u v -> before (u, v) (x, y) -> In (u, v) done.
Proof.
  intros E I B. apply rectPoints_in in I. rewrite E in I. apply in_app_or in I. unfold before in B. cbn in B. destruct I as [I|[I|I]]; [exact I|injection I as I; lia|]. exfalso.
  assert (S : StronglySorted before (done ++ (x, y) :: rest)) by (rewrite <- E; apply rows_sorted; apply upFrom_sorted).
  destruct (sorted_split _ _ _ _ S _ I) as [H|[H1 H]]; cbn in *; lia.
Qed.

(** ** Going along a line *)
Section Along.
Variable im : img.
Lemma along_line x y u v : lineAt im x y -> along im x y u v -> lineAt im u v.
Proof. intros L A. destruct A; assumption. Qed.
Lemma along_trans x y u v : forall a b, along im x y u v -> along im u v a b -> along im x y a b.
Proof. intros a b A B. induction B as [|a b k B IH L P]; [exact A|]. apply al_on; assumption. Qed.
Lemma line_no_region x y : lineAt im x y -> ptype (ipix im x y) <> Region. Proof. intros (_ & _ & T) E. congruence. Qed.
Lemma along_sym x y u v : lineAt im x y -> along im x y u v -> along im u v x y.
Proof.
  intros L A. induction A as [|u v k A IH Lk P]; [constructor|]. apply (along_trans _ _ u v); [|exact IH].
  pose proof (along_line x y u v L A) as Lu. pose proof (proj1 Lk) as R. cbn in R. pose proof (link_back im (Dart u v k) Lk (line_no_region u v Lu)) as B.
  destruct (back_target (Dart u v k) R) as [T1 T2]. unfold tx in T1. unfold ty in T2. cbn [dcx dcy ddir back] in T1, T2. unfold back, tx, ty in *. cbn [dcx dcy ddir] in *.
  pose proof (al_on im (u + dirX k) (v + dirY k) _ _ ((k + 4) mod 8) (al_here _ _ _) B) as Q. rewrite T1, T2 in Q. apply Q. exact Lu.
Qed.
End Along.

(** only the labels of the lines differ *)
Definition relined (im cur : img) : Prop := sameTypes im cur /\ forall x y, ptype (ipix im x y) <> Line -> ipix cur x y = ipix im x y.
Lemma relined_refl im : relined im im. Proof. split; [apply same_refl|reflexivity]. Qed.
Section Relined.
Variables im cur : img.
Hypothesis Re : relined im cur.
Let S : sameTypes im cur. Proof. apply Re. Qed.
Lemma relined_framed : framed im -> framed cur.
Proof.
  intros F x y X Y B. rewrite (same_w im cur S) in *. rewrite (same_h im cur S) in *. specialize (F x y X Y B). rewrite (proj2 Re); [exact F|]. rewrite F. discriminate.
Qed.
Lemma relined_vertex x y : vertexAt im x y -> ipix cur x y = ipix im x y.
Proof. intros (_ & _ & T). apply Re. rewrite T. discriminate. Qed.
Lemma relined_owns t l x y : t <> Line -> owns cur t l x y <-> owns im t l x y.
Proof.
  intros N. unfold owns. rewrite (same_w im cur S), (same_h im cur S). split; intros (X & Y & P); (split; [exact X|]; split; [exact Y|]).
  - rewrite <- P. symmetry. apply Re. rewrite <- (same_t im cur S), P. exact N.
  - rewrite <- P. apply Re. rewrite P. exact N.
Qed.
Lemma relined_joined : joined im -> joined cur.
Proof.
  intros J x y k l K Ow V. assert (N : Vertex <> Line) by discriminate. apply (relined_owns Vertex l _ _ N). apply (relined_owns Vertex l _ _ N) in Ow. apply (same_vertexAt im cur S) in V. apply (J x y k l); assumption.
Qed.
Lemma relined_node d : vertexAt im (dcx d) (dcy d) -> nodeOf cur d = nodeOf im d.
Proof. intros V. unfold nodeOf. rewrite relined_vertex by exact V. reflexivity. Qed.
Lemma relined_ringed : ringed im -> ringed cur.
Proof.
  intros R a b A B N. apply (same_isPlace im cur S) in A. apply (same_isPlace im cur S) in B. rewrite !relined_node in N by (apply A || apply B).
  destruct (R a b A B N) as (k & K). exists k. rewrite (same_places im cur S). exact K.
Qed.
End Relined.

Section Edges.
Variable im : img.
Hypothesis Fr : framed im.
Hypothesis Sl : slim im.
Hypothesis Sm : smooth im.
Hypothesis Pl : plain im.
Hypothesis Ne : neat im.
Hypothesis Jo : joined im.
Hypothesis Ri : ringed im.
Hypothesis Fresh : forall x y, lineAt im x y -> plabel (ipix im x y) = 0.
Hypothesis W0 : 0 <= iw im.
Hypothesis H0 : 0 <= ih im.
Hypothesis Small : iw im * ih im < 2 ^ 30.
Let W1 : way 1. Proof. left. reflexivity. Qed.

Definition labelOf (cur : img) (x y : Z) : Z := plabel (ipix cur x y).
Definition numbered (cur : img) (max : Z) : Prop := exists reps : list (Z * Z), NoDup reps /\ max <= Z.of_nat (length reps) /\ forall x y, In (x, y) reps -> lineAt im x y /\ labelOf cur x y <> 0.
Definition painted (cur : img) (max : Z) : Prop :=
  relined im cur /\ 0 <= max /\
  (forall x y u v, lineAt im x y -> along im x y u v -> labelOf cur u v = labelOf cur x y) /\
  (forall x y u v, lineAt im x y -> lineAt im u v -> labelOf cur x y = labelOf cur u v -> labelOf cur x y <> 0 -> along im x y u v) /\
  (forall x y, lineAt im x y -> labelOf cur x y <> 0 -> exists d, isDart im d /\ labelOf cur (tx d) (ty d) = labelOf cur x y) /\
  (forall x y, lineAt im x y -> 0 <= labelOf cur x y <= max) /\
  (forall l, 1 <= l <= max -> exists x y, lineAt im x y /\ labelOf cur x y = l) /\
  numbered cur max.
(** no label gets lost *)
Definition grows (cur cur' : img) : Prop := forall x y, lineAt im x y -> labelOf cur x y <> 0 -> labelOf cur' x y = labelOf cur x y.
Lemma grows_trans a b c : grows a b -> grows b c -> grows a c.
Proof. intros A B x y L N. pose proof (A x y L N) as E. rewrite <- E. apply B; [exact L|]. rewrite E. exact N. Qed.

Lemma points_count l : NoDup l -> (forall x y, In (x, y) l -> 0 <= x < iw im /\ 0 <= y < ih im) -> Z.of_nat (length l) <= iw im * ih im.
Proof.
  intros N I. assert (Q : (length l <= length (rectPoints (Rect 0 0 (iw im) (ih im))))%nat).
  { apply NoDup_incl_length; [exact N|]. intros [x y] P. apply rectPoints_in. unfold inRect. cbn. apply I, P. }
  assert (C : length (rectPoints (Rect 0 0 (iw im) (ih im))) = (Z.to_nat (ih im) * Z.to_nat (iw im))%nat).
  { unfold rectPoints, upFrom. cbn [rx0 ry0 rx1 ry1]. rewrite !Z.sub_0_r. assert (G : forall (xs ys : list Z), length (flat_map (fun y => map (fun x => (x, y)) xs) ys) = (length ys * length xs)%nat).
    { intros xs ys. induction ys as [|a ys IH]; cbn [flat_map length]; [reflexivity|]. rewrite app_length, map_length, IH. lia. }
    rewrite G, !map_length, !seq_length. reflexivity. }
  rewrite C in Q. nia.
Qed.
Lemma first_free cur max x y : numbered cur max -> lineAt im x y -> labelOf cur x y = 0 -> max + 1 < 2 ^ 30.
Proof.
  intros (reps & N & L & I) Ln Z0. assert (Q : Z.of_nat (length ((x, y) :: reps)) <= iw im * ih im).
  { apply points_count; [constructor; [intros P; apply (I x y P); exact Z0|exact N]|]. intros u v [P|P]; [injection P as <- <-; split; apply Ln|split; apply (I u v P)]. }
  cbn [length] in Q. lia.
Qed.
Lemma label_small l : 0 <= l < 2 ^ 30 -> cellPixel Line l = Pix Line l.
Proof. intros H. unfold cellPixel. rewrite Z.mod_small by lia. reflexivity. Qed.

(** ** The line of one dart *)
Lemma path_along d n x y : isDart im d -> lineTo im d n -> onPath im d n x y <-> along im (tx d) (ty d) x y.
Proof.
  intros D T. split.
  - intros (i & I & <- & <-). apply (line_along im Fr Sl Sm d n D T i I).
  - intros A. destruct (covers im Fr Sl Sm d n x y D T A) as (i & I & X & Y). exists i. auto.
Qed.
Lemma paint_dart cur max d : painted cur max -> isDart im d -> labelOf cur (tx d) (ty d) = 0 ->
  exists cur', labelEdge (walkFuel cur) cur d ((max + 1) mod 2 ^ 32) = Ok cur' /\ (max + 1) mod 2 ^ 32 = max + 1 /\ painted cur' (max + 1) /\ grows cur cur' /\ labelOf cur' (tx d) (ty d) <> 0.
Proof.
  intros (Re & M0 & B & C & D & F & G & Nu) Dd Z0. pose proof (dart_pixel im Fr d Dd) as Ld. pose proof (first_free cur max _ _ Nu Ld Z0) as Lt.
  assert (Mm : (max + 1) mod 2 ^ 32 = max + 1) by (apply Z.mod_small; lia). rewrite Mm.
  destruct (line_ends im Fr Sl Sm Pl d Dd) as (n & T & Bn). pose proof Re as (Sc & _).
  assert (Bf : (n <= walkFuel cur)%nat). { rewrite (same_fuel im cur Sc). pose proof (states_fuel im d (place_state im d (dart_place im d Dd))). lia. }
  destruct (label_path im Fr Sl Sm (max + 1) (walkFuel cur) n cur d Sc T Bf) as (cur' & E & S' & On & Off). exists cur'. split; [exact E|]. split; [reflexivity|].
  assert (On' : forall x y, along im (tx d) (ty d) x y -> labelOf cur' x y = max + 1).
  { intros x y A. unfold labelOf. rewrite On by (apply (path_along d n x y Dd T), A). rewrite label_small by lia. reflexivity. }
  assert (Off' : forall x y, ~ along im (tx d) (ty d) x y -> ipix cur' x y = ipix cur x y) by (intros x y A; apply Off; intros P; apply A; apply (path_along d n x y Dd T), P).
  assert (Zero : forall x y, along im (tx d) (ty d) x y -> labelOf cur x y = 0) by (intros x y A; rewrite (B (tx d) (ty d) x y Ld A); exact Z0).
  assert (Dec : forall x y, lineAt im x y -> along im (tx d) (ty d) x y \/ ~ along im (tx d) (ty d) x y).
  { intros x y L. destruct (Z.eq_dec (labelOf cur' x y) (max + 1)) as [Q|Q]; [|right; intros A; apply Q, On', A].
    left. destruct (path_dec im d n x y) as [X|X]; [apply (path_along d n x y Dd T), X|]. exfalso. unfold labelOf in Q. rewrite Off in Q by exact X. pose proof (F x y L). unfold labelOf in *. lia. }
  assert (OffL : forall x y, ~ along im (tx d) (ty d) x y -> labelOf cur' x y = labelOf cur x y) by (intros x y A; unfold labelOf; rewrite Off' by exact A; reflexivity).
  split.
  2: { split; [|rewrite On' by constructor; lia]. intros x y L N. apply OffL. intros A. apply N, Zero, A. }
  split.
  { split; [exact S'|]. intros x y Nl. rewrite Off'; [apply Re, Nl|]. intros A. apply Nl. apply (along_line im _ _ x y Ld A). }
  split; [lia|]. split.
  { intros x y u v L A. destruct (Dec x y L) as [P|P].
    - rewrite !On'; [reflexivity|exact P|exact (along_trans im _ _ _ _ _ _ P A)].
    - rewrite !OffL; [apply (B x y u v L A)|exact P|]. intros Q. apply P. apply (along_trans im _ _ u v); [exact Q|apply (along_sym im _ _ _ _ L A)]. }
  split.
  { intros x y u v L L' E1 N. destruct (Dec x y L) as [P|P], (Dec u v L') as [Q|Q].
    - apply (along_trans im _ _ (tx d) (ty d)); [apply (along_sym im _ _ _ _ Ld P)|exact Q].
    - exfalso. rewrite On' in E1 by exact P. rewrite OffL in E1 by exact Q. pose proof (F u v L'). lia.
    - exfalso. rewrite OffL in E1 by exact P. rewrite On' in E1 by exact Q. pose proof (F x y L). lia.
    - rewrite !OffL in E1 by assumption. rewrite OffL in N by exact P. apply (C x y u v L L' E1 N). }
  split.
  { intros x y L N. destruct (Dec x y L) as [P|P].
    - exists d. split; [exact Dd|]. rewrite !On'; [reflexivity|exact P|constructor].
    - rewrite OffL in N |- * by exact P. destruct (D x y L N) as (e & De & Ee). exists e. split; [exact De|]. rewrite OffL; [exact Ee|]. intros A. rewrite (Zero _ _ A) in Ee. congruence. }
  split. { intros x y L. destruct (Dec x y L) as [P|P]; [rewrite On' by exact P; lia|]. rewrite OffL by exact P. pose proof (F x y L). lia. }
  split.
  { intros l Hl. destruct (Z.eq_dec l (max + 1)) as [->|Nl]; [exists (tx d), (ty d); split; [exact Ld|apply On'; constructor]|].
    destruct (G l ltac:(lia)) as (x & y & L & E1). exists x, y. split; [exact L|]. rewrite OffL; [exact E1|]. intros A. rewrite (Zero _ _ A) in E1. lia. }
  destruct Nu as (reps & N & Ln & I). exists ((tx d, ty d) :: reps). split; [constructor; [intros P; apply (I _ _ P); exact Z0|exact N]|]. split; [cbn [length]; lia|].
  intros x y [P|P]; [injection P as <- <-; split; [exact Ld|rewrite On' by constructor; lia]|]. destruct (I x y P) as [L N1]. split; [exact L|]. rewrite OffL; [exact N1|]. intros A. apply N1, Zero, A.
Qed.

(** ** The darts of one node *)
Definition marked (cur : img) (d : dart) : Prop := labelOf cur (tx d) (ty d) <> 0.
Lemma marked_grows cur cur' d : isDart im d -> grows cur cur' -> marked cur d -> marked cur' d.
Proof. intros D Gr M. unfold marked. rewrite Gr; [exact M|apply (dart_pixel im Fr d D)|exact M]. Qed.
Lemma paint_around a r : isDart im a -> (0 < r)%nat -> sigmas im r a = Ok a -> (forall j, (0 < j < r)%nat -> sigmas im j a <> Ok a) ->
  forall k f i d cur max, (k + i = r)%nat -> (0 < k)%nat -> (k < f)%nat -> sigmas im i a = Ok d -> painted cur max ->
  exists cur' max', labelAround f cur a d max = Ok (cur', max') /\ painted cur' max' /\ grows cur cur' /\ forall j x, (i <= j < r)%nat -> sigmas im j a = Ok x -> marked cur' x.
Proof.
  intros A Pr Er Lr. induction k as [|k IH]; intros f i d cur max K Kp Hf Sd Pa; [lia|]. destruct f as [|f]; [lia|]. cbn [labelAround].
  destruct (sigmas_ok im Fr Ne Jo i a A) as (d0 & S0 & D0 & _). assert (d0 = d) by congruence. subst d0.
  pose proof Pa as (Re & _). pose proof (relined_framed im cur Re Fr) as Frc.
  assert (Dc : isDart cur d) by (apply (same_isDart im cur (proj1 Re)), D0).
  rewrite (edgeLabel_dart cur Frc) by apply Dc. cbn [bind]. change (edgeOf cur d) with (labelOf cur (tx d) (ty d)).
  assert (G : exists st, (if negb (labelOf cur (tx d) (ty d) =? 0) then Ok (cur, max) else im' <- labelEdge (walkFuel cur) cur d ((max + 1) mod 2 ^ 32) ;; Ok (im', (max + 1) mod 2 ^ 32)) = Ok st /\
    painted (fst st) (snd st) /\ grows cur (fst st) /\ marked (fst st) d).
  { destruct (Z.eqb_spec (labelOf cur (tx d) (ty d)) 0) as [Z0|Nz]; cbn [negb].
    - destruct (paint_dart cur max d Pa D0 Z0) as (c' & E & Em & P' & Gr & Mk). cbv zeta. rewrite E. cbn [bind]. exists (c', (max + 1) mod 2 ^ 32). cbn [fst snd]. rewrite Em. auto.
    - exists (cur, max). cbn [fst snd]. split; [reflexivity|]. split; [exact Pa|]. split; [intros x y _ _; reflexivity|exact Nz]. }
  destruct G as (st & -> & P1 & G1 & M1). cbn [bind]. pose proof P1 as (Re1 & _). pose proof (relined_framed im _ Re1 Fr) as Fr1.
  destruct (sigma_defined im Fr Ne 1 d W1 D0) as (x & U & V & _). unfold nextSigma. rewrite (same_sigma im _ (proj1 Re1)), U. cbn [bind].
  assert (Dx : isDart im x) by apply V. assert (Dx1 : isDart (fst st) x) by (apply (same_isDart im _ (proj1 Re1)), Dx).
  unfold dartEq. rewrite (singular_dart _ Fr1 x Dx1). cbn [bind negb].
  assert (Sx : sigmas im (Datatypes.S i) a = Ok x).
  { replace (Datatypes.S i) with (i + 1)%nat by lia. rewrite (sigmas_add im i 1 a d Sd). cbn [sigmas]. unfold nextSigma. rewrite U. reflexivity. }
  destruct (Nat.eq_dec k 0) as [->|Kz].
  - replace (Datatypes.S i) with r in * by lia. assert (x = a) by congruence. subst x. unfold dartEqb. rewrite !Z.eqb_refl. cbn [andb]. exists (fst st), (snd st). split; [destruct st; reflexivity|].
    split; [exact P1|]. split; [exact G1|]. intros j y J Sy. replace j with i in Sy by lia. assert (y = d) by congruence. subst y. exact M1.
  - destruct (dartEqb x a) eqn:Q.
    + apply dart_ext in Q; [|apply Dx|apply A]. subst x. exfalso. apply (Lr (Datatypes.S i)); auto. lia.
    + destruct (IH f (Datatypes.S i) x (fst st) (snd st) ltac:(lia) ltac:(lia) ltac:(lia) Sx P1) as (c' & m' & E & P' & G' & M').
      exists c', m'. split; [exact E|]. split; [exact P'|]. split; [exact (grows_trans _ _ _ G1 G')|]. intros j y J Sy. destruct (Nat.eq_dec j i) as [->|Nj].
      * assert (y = d) by congruence. subst y. apply (marked_grows (fst st)); assumption.
      * apply (M' j y); [lia|exact Sy].
Qed.
Lemma orbit_short' a e : isDart im a -> isDart im e -> nodeOf im e = nodeOf im a -> exists j, sigmas im j a = Ok e /\ forall i, (0 < i <= j)%nat -> sigmas im i a <> Ok a.
Proof.
  intros A Ed N. destruct (Ri a e (dart_place im a A) (dart_place im e Ed) (eq_sym N)) as (k & K). assert (Dk : isDart im (places k im 1 a)) by (rewrite K; exact Ed).
  destruct (sigmas_reach im Fr Ne k a A Dk) as (i & _ & _ & R). rewrite K in R. clear k K Dk. induction i as [i IH] using lt_wf_ind.
  destruct (Forall_dec (fun q => sigmas im q a <> Ok a) (fun q => match res_dec (sigmas im q a) (Ok a) with left H => right (fun N => N H) | right H => left H end) (seq 1 i)) as [F|F].
  - exists i. split; [exact R|]. intros q Hq. rewrite Forall_forall in F. apply F, in_seq. lia.
  - apply neg_Forall_Exists_neg in F; [|intros q; destruct (res_dec (sigmas im q a) (Ok a)); [right|left]; tauto]. apply Exists_exists in F. destruct F as (q & Hq & Eqq). apply in_seq in Hq.
    assert (Eqq' : sigmas im q a = Ok a) by (destruct (res_dec (sigmas im q a) (Ok a)); [assumption|contradiction]).
    apply (IH (i - q)%nat); [lia|]. rewrite <- R. replace i with (q + (i - q))%nat at 2 by lia. symmetry. apply sigmas_add, Eqq'.
Qed.
Lemma paint_node cur max a : painted cur max -> isDart im a ->
  exists cur' max', labelAround (walkFuel cur) cur a a max = Ok (cur', max') /\ painted cur' max' /\ grows cur cur' /\ forall e, isDart im e -> nodeOf im e = nodeOf im a -> marked cur' e.
Proof.
  intros Pa A. destruct (sigma_turn im Fr Ne Jo Ri a A) as (r & ds & Pr & Er & Lr & Ld & Nd & Id).
  assert (Fu : (r < walkFuel cur)%nat).
  { rewrite (same_fuel im cur (proj1 (proj1 Pa))). rewrite <- Ld. apply (turn_fuel im); auto; [intros e Ie; apply Id in Ie; apply Ie|]. intros ->. cbn in Ld. lia. }
  destruct (paint_around a r A Pr Er Lr r (walkFuel cur) O a cur max ltac:(lia) Pr Fu eq_refl Pa) as (c' & m' & E & P' & G' & M').
  exists c', m'. split; [exact E|]. split; [exact P'|]. split; [exact G'|]. intros e De N. destruct (orbit_short' a e A De N) as (j & Sj & Bj). apply (M' j e); [|exact Sj].
  destruct (Nat.lt_ge_cases j r) as [Q|Q]; [lia|]. exfalso. apply (Bj r); [lia|exact Er].
Qed.

(** ** All nodes *)
Variable maxNode : Z.
Hypothesis Mn : 0 <= maxNode.
Hypothesis Nodes : forall x y, vertexAt im x y -> 0 <= plabel (ipix im x y) <= maxNode.
Definition seen (done : list bool) (ps : list (Z * Z)) : Prop := forall x y, vertexAt im x y -> In (x, y) ps -> nth_error done (Z.to_nat (plabel (ipix im x y))) = Some true.
Definition edgesDone (cur : img) (done : list bool) : Prop :=
  forall x y e, vertexAt im x y -> nth_error done (Z.to_nat (plabel (ipix im x y))) = Some true -> isDart im e -> nodeOf im e = plabel (ipix im x y) -> marked cur e.
Definition atWork (ps : list (Z * Z)) (st : img * list bool * Z) : Prop :=
  painted (fst (fst st)) (snd st) /\ length (snd (fst st)) = Z.to_nat (maxNode + 1) /\ seen (snd (fst st)) ps /\ edgesDone (fst (fst st)) (snd (fst st)).
Lemma read_in c x y : 0 <= x < iw c -> 0 <= y < ih c -> readPix c x y = Ok (ipix c x y).
Proof. intros X Y. unfold readPix. assert (insideImg c x y = true) as -> by (apply insideImg_iff; auto). reflexivity. Qed.
Lemma at_ok {A} (v : list A) l : 0 <= l < Z.of_nat (length v) -> exists a, at_ v l = Ok a /\ nth_error v (Z.to_nat l) = Some a.
Proof.
  intros L. unfold at_, vget. assert ((0 <=? l) && (l <? Z.of_nat (length v)) = true) as -> by (apply andb_true_iff; split; [apply Z.leb_le|apply Z.ltb_lt]; lia).
  destruct (nth_error v (Z.to_nat l)) as [a|] eqn:E; [exists a; auto|]. apply nth_error_None in E. lia.
Qed.
Lemma put_ok {A} (v : list A) l a : 0 <= l < Z.of_nat (length v) -> put v l a = Ok (list_upd v (Z.to_nat l) a).
Proof.
  intros L. unfold put, vset. assert ((0 <=? l) && (l <? Z.of_nat (length v)) = true) as -> by (apply andb_true_iff; split; [apply Z.leb_le|apply Z.ltb_lt]; lia).
  assert ((Z.to_nat l <? length v)%nat = true) as -> by (apply Nat.ltb_lt; lia). reflexivity.
Qed.
Lemma edges_pixel done x y rest st : innerPoints im = done ++ (x, y) :: rest -> atWork done st -> exists st', labelEdgesPix st (x, y) = Ok st' /\ atWork (done ++ [(x, y)]) st'.
Proof.
  intros E (Pa & Le & Se & Ed). destruct st as [[cur dn] max]. cbn [fst snd] in *. unfold labelEdgesPix. cbn [fst snd]. pose proof Pa as (Re & _). pose proof (proj1 Re) as Sc.
  assert (Ixy : inRect (Rect 1 1 (iw im - 1) (ih im - 1)) x y) by (apply rectPoints_in; change (rectPoints (Rect 1 1 (iw im - 1) (ih im - 1))) with (innerPoints im); rewrite E; apply in_or_app; right; left; reflexivity).
  unfold inRect in Ixy. cbn in Ixy. rewrite read_in by (rewrite ?(same_w im cur Sc), ?(same_h im cur Sc); lia). cbn [bind].
  destruct (ctypeEqb (ptype (ipix cur x y)) Vertex) eqn:Et; cbn [negb].
  2: { exists (cur, dn, max). split; [reflexivity|]. split; [exact Pa|]. split; [exact Le|]. split; [|exact Ed]. cbn [fst snd]. intros u v V I. apply in_app_or in I. destruct I as [I|[I|[]]]; [apply Se; assumption|].
       injection I as <- <-. apply CellSigma_Proofs.ctypeEqb_ne in Et. rewrite (same_t im cur Sc) in Et. destruct V as (_ & _ & V). contradiction. }
  apply CellSigma_Proofs.ctypeEqb_eq in Et. rewrite (same_t im cur Sc) in Et. assert (V : vertexAt im x y) by (split; [lia|]; split; [lia|exact Et]).
  rewrite (relined_vertex im cur Re x y V). set (l := plabel (ipix im x y)). pose proof (Nodes x y V) as Rl. fold l in Rl.
  assert (Ll : 0 <= l < Z.of_nat (length dn)) by (rewrite Le; lia). destruct (at_ok dn l Ll) as (b & -> & Hb). cbn [bind].
  destruct b.
  { exists (cur, dn, max). split; [reflexivity|]. split; [exact Pa|]. split; [exact Le|]. split; [|exact Ed]. cbn [fst snd]. intros u v Vu I. apply in_app_or in I. destruct I as [I|[I|[]]]; [apply Se; assumption|].
    injection I as <- <-. exact Hb. }
  rewrite (put_ok dn l true Ll). cbn [bind].
  assert (Fst : forall u v, before (u, v) (x, y) -> 0 < u < iw im - 1 -> 0 < v < ih im - 1 -> vertexAt im u v -> plabel (ipix im u v) <> l).
  { intros u v Bf U1 U2 Vu Q. assert (In (u, v) done) as Id by (apply (row_first _ _ _ _ _ u v E); [unfold inRect; cbn; lia|exact Bf]). pose proof (Se u v Vu Id) as Hs. rewrite Q in Hs. congruence. }
  assert (Nb : forall k, 0 <= k < 8 -> before (x + dirX k, y + dirY k) (x, y) -> typeAt im (Dart x y k) 0 <> Vertex).
  { intros k Hk Bf T. rewrite type0 in T by exact Hk. cbn [dcx dcy ddir] in T. pose proof (neighbor_in im Fr x y k V) as [X Y].
    assert (V' : vertexAt im (x + dirX k) (y + dirY k)) by (split; [exact X|]; split; [exact Y|exact T]). pose proof (vertex_inner im Fr _ _ V') as [VX VY].
    apply (Fst _ _ Bf VX VY V'). destruct (Jo x y k l Hk (vertex_owns im x y V) V') as (_ & _ & O). rewrite O. reflexivity. }
  assert (P : isPlace im (Dart x y 4)).
  { split; [exact V|]. split; [cbn; lia|]. split; [|discriminate]. apply (Nb 4); [lia|]. unfold before. cbn. lia. }
  assert (No : noticed im (Dart x y 4)).
  { split; [apply even_not_bad; reflexivity|]. intros _ T. apply (Nb 3); [lia|unfold before; cbn; lia|exact T]. }
  pose proof (relined_framed im cur Re Fr) as Frc. assert (Nec : neat cur) by (apply (same_neat im cur Sc), Ne). pose proof (relined_joined im cur Re Jo) as Joc. pose proof (relined_ringed im cur Re Ri) as Ric.
  assert (Pc : isPlace cur (Dart x y 4)) by (apply (same_isPlace im cur Sc), P).
  assert (Noc : noticed cur (Dart x y 4)). { split; [apply even_not_bad; reflexivity|]. rewrite (same_typeAt im cur Sc). apply No. }
  assert (Mk : exists a, makeDart cur (Dart x y 4) = Ok a).
  { pose proof Pc as (Vc & _ & Tc & _). unfold makeDart, centerPix. cbn [dcx dcy] in *. rewrite read_in by (apply Vc). cbn [bind]. pose proof (proj2 (proj2 Vc)) as Vt. rewrite Vt. cbn [ctypeEqb negb].
    rewrite neighbor_read by auto. cbn [bind]. fold (typeAt cur (Dart x y 4) 0). pose proof Tc as Tc'. apply CellSigma_Proofs.ctypeEqb_ne in Tc'.
    rewrite Tc'. unfold walkFuel at 1. cbn [diagonalLoop]. unfold badDiagonalConfig, isDiagonal. change (Z.odd (ddir (Dart x y 4))) with false. cbn [bind]. rewrite neighbor_read by auto. cbn [bind].
    fold (typeAt cur (Dart x y 4) 0). destruct (ctypeEqb (typeAt cur (Dart x y 4) 0) Line) eqn:El; [eauto|]. apply CellSigma_Proofs.ctypeEqb_ne in El. apply (careful_total cur Frc _ Pc Noc El). }
  destruct Mk as (a & Ea). rewrite Ea. cbn [bind].
  destruct (make_fair cur (Dart x y 4) a Frc Nec Joc Ric Pc eq_refl Ea) as (Fa & Xa).
  assert (Nd : nodeOf cur (Dart x y 4) = l) by (rewrite (relined_node im cur Re) by exact V; reflexivity). rewrite Nd in *.
  rewrite (fair_single cur Frc _ _ Fa). cbn [bind]. pose proof Fa as (Pa' & Na & Qa).
  assert (Seen : seen (list_upd dn (Z.to_nat l) true) (done ++ [(x, y)])).
  { intros u v Vu I. rewrite nth_error_upd. destruct (Nat.eqb_spec (Z.to_nat l) (Z.to_nat (plabel (ipix im u v)))) as [Q|Q].
    - assert ((Z.to_nat l <? length dn)%nat = true) as -> by (apply Nat.ltb_lt; lia). reflexivity.
    - apply in_app_or in I. destruct I as [I|[I|[]]]; [apply Se; assumption|]. injection I as <- <-. contradiction. }
  assert (Len : length (list_upd dn (Z.to_nat l) true) = Z.to_nat (maxNode + 1)) by (rewrite list_upd_length; exact Le).
  assert (Fin : forall c' m', painted c' m' -> grows cur c' -> (forall e, isDart im e -> nodeOf im e = l -> marked c' e) -> atWork (done ++ [(x, y)]) (c', list_upd dn (Z.to_nat l) true, m')).
  { intros c' m' P' G' M'. split; [exact P'|]. split; [exact Len|]. split; [exact Seen|]. cbn [fst snd]. intros u v e Vu Hu De Ne'. destruct (Z.eq_dec (plabel (ipix im u v)) l) as [Q|Q]; [apply M'; [exact De|congruence]|].
    rewrite nth_error_upd_neq in Hu; [apply (marked_grows cur); [exact De|exact G'|apply (Ed u v e Vu Hu De Ne')]|]. pose proof (Nodes u v Vu). intros Q'. apply Q. lia. }
  destruct (ctypeEqb (typeAt cur a 0) Line) eqn:El; cbn [negb].
  - apply CellSigma_Proofs.ctypeEqb_eq in El. pose proof (Qa El) as Dac. assert (Da : isDart im a) by (apply (same_isDart im cur Sc), Dac).
    assert (Nai : nodeOf im a = l) by (rewrite <- (relined_node im cur Re) by apply Da; exact Na).
    destruct (paint_node cur max a Pa Da) as (c' & m' & Ep & P' & G' & M'). rewrite Ep. cbn [bind fst snd]. eexists. split; [reflexivity|]. apply Fin; [exact P'|exact G'|]. intros e De Qe. apply M'; [exact De|congruence].
  - apply CellSigma_Proofs.ctypeEqb_ne in El. eexists. split; [reflexivity|]. apply Fin; [exact Pa|intros u v _ _; reflexivity|]. intros e De Qe. exfalso. apply El. apply Xa. exists e.
    split; [apply (same_isDart im cur Sc), De|]. rewrite (relined_node im cur Re) by apply De. exact Qe.
Qed.
Lemma fresh_painted : painted im 0.
Proof.
  split; [apply relined_refl|]. split; [lia|]. split; [|split; [|split; [|split; [|split]]]].
  - intros x y u v L A. unfold labelOf. rewrite !Fresh; [reflexivity|exact L|exact (along_line im x y u v L A)].
  - intros x y u v L _ _ N. exfalso. apply N, Fresh, L.
  - intros x y L N. exfalso. apply N, Fresh, L.
  - intros x y L. unfold labelOf. rewrite Fresh by exact L. lia.
  - intros l Hl. lia.
  - exists []. split; [constructor|]. split; [cbn; lia|intros x y []].
Qed.
Theorem edges_painted : exists cur max, labelEdges im maxNode = Ok (cur, max) /\ painted cur max /\ forall d, isDart im d -> marked cur d.
Proof.
  unfold labelEdges. destruct (forEach_total labelEdgesPix atWork (innerPoints im)) with (s := (im, repeat false (Z.to_nat (maxNode + 1)), 0)) as (st & Es & Ws).
  - intros done [x y] rest s El Hs. exact (edges_pixel done x y rest s El Hs).
  - split; [exact fresh_painted|]. cbn [fst snd]. split; [apply repeat_length|]. split; [intros x y _ []|]. intros x y e V Hn. exfalso. apply nth_error_In in Hn. apply repeat_spec in Hn. discriminate Hn.
  - rewrite Es. cbn [bind]. destruct st as [[cur dn] max]. destruct Ws as (Pa & Le & Se & Ed). cbn [fst snd] in *. exists cur, max. split; [reflexivity|]. split; [exact Pa|].
    intros d D. pose proof D as (V & _). pose proof (vertex_inner im Fr _ _ V) as [X Y]. apply (Ed (dcx d) (dcy d) d V); [|exact D|reflexivity]. apply (Se _ _ V). apply rectPoints_in. unfold inRect. cbn. lia.
Qed.
End Edges.
