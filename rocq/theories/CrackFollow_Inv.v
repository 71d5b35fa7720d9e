(** The state of the generator while edges are followed. *)
From Verif Require Import Base Image_Model Image_Proofs Crack_Model Crack_Spec Crack_Proofs GeoMap_Model GeoMap_Spec CrackFollow_Model CrackFollow_Spec CrackFollow_Static CrackFollow_Loop CrackFollow_Map.
Local Open Scope Z_scope.

(** ** First and last cracks *)
Definition ends (w : list dart) (x : dart) : Prop := hd_error w = Some x \/ hd_error (rev w) = Some (rv x).
Definition Ends (L : list (list dart)) x := exists w, In w L /\ ends w x.
Definition Passed (L : list (list dart)) x := exists w, In w L /\ passes w x.
Definition Used (L : list (list dart)) x := exists w, In w L /\ (In x w \/ In (rv x) w).

Lemma in_removelast_or {A} (w : list A) x : In x w <-> In x (removelast w) \/ hd_error (rev w) = Some x.
Proof.
  induction w as [|a w IH]; [cbn; split; [tauto|intros [[]|H]; discriminate]|].
  destruct w as [|b w].
  - cbn. split; [intros [->|[]]; auto|intros [[]|H]; injection H; auto].
  - change (removelast (a :: b :: w)) with (a :: removelast (b :: w)).
    assert (R : hd_error (rev (a :: b :: w)) = hd_error (rev (b :: w))).
    { cbn [rev]. destruct (rev w ++ [b]) eqn:E; [destruct (rev w); discriminate|reflexivity]. }
    rewrite R. cbn [In] in *. rewrite IH. tauto.
Qed.
Lemma used_split w x : (In x w \/ In (rv x) w) <-> passes w x \/ ends w x.
Proof.
  unfold passes, ends. rewrite (in_removelast_or w (rv x)). destruct w as [|a w]; cbn [hd_error tl]; [cbn; intuition discriminate|].
  cbn [In]. assert (a = x <-> Some a = Some x) by (split; congruence). tauto.
Qed.
Lemma Used_split L x : Used L x <-> Passed L x \/ Ends L x.
Proof.
  unfold Used, Passed, Ends. split.
  - intros (w & H & K). apply used_split in K as [K|K]; [left|right]; eauto.
  - intros [(w & H & K)|(w & H & K)]; exists w; split; auto; apply used_split; auto.
Qed.
Lemma Used_rv L x : Used L (rv x) <-> Used L x.
Proof. unfold Used. rewrite rv_rv. split; intros (w & H & K); exists w; tauto. Qed.
Lemma Used_app L w x : Used (L ++ [w]) x <-> Used L x \/ In x w \/ In (rv x) w.
Proof.
  unfold Used. split.
  - intros (v & H & K). apply in_app_or in H as [H|[<-|[]]]; [left; eauto|auto].
  - intros [(v & H & K)|K]; [exists v|exists w]; (split; [apply in_or_app; cbn; auto|exact K]).
Qed.
Lemma Passed_app L w x : Passed (L ++ [w]) x <-> Passed L x \/ passes w x.
Proof.
  unfold Passed. split.
  - intros (v & H & K). apply in_app_or in H as [H|[<-|[]]]; [left; eauto|auto].
  - intros [(v & H & K)|K]; [exists v|exists w]; (split; [apply in_or_app; cbn; auto|exact K]).
Qed.
Lemma Ends_app L w x : Ends (L ++ [w]) x <-> Ends L x \/ ends w x.
Proof.
  unfold Ends. split.
  - intros (v & H & K). apply in_app_or in H as [H|[<-|[]]]; [left; eauto|auto].
  - intros [(v & H & K)|K]; [exists v|exists w]; (split; [apply in_or_app; cbn; auto|exact K]).
Qed.
Lemma Used_concat L x : Used L x <-> In x (concat L) \/ In (rv x) (concat L).
Proof.
  unfold Used. rewrite !in_concat. split.
  - intros (w & H & [K|K]); [left|right]; eauto.
  - intros [(w & H & K)|(w & H & K)]; eauto.
Qed.

Lemma last_rev {A} (w : list A) d : w <> [] -> hd_error (rev w) = Some (last w d).
Proof.
  intros H. rewrite (app_removelast_last d H) at 1. rewrite rev_app_distr. reflexivity.
Qed.

Lemma pt_inj p q : pt p = pt q -> p = q.
Proof. destruct p, q; unfold pt; cbn [fst snd]. intros H. pose proof (f_equal fst H) as A. pose proof (f_equal snd H) as B. cbn [fst snd] in A, B. f_equal; lia. Qed.
Lemma mv_inj p a b : mv p a = mv p b -> a = b.
Proof. destruct p; unfold mv; cbn [fst snd]; intros H. pose proof (f_equal fst H) as A. pose proof (f_equal snd H) as B. destruct a, b; cbn [dirDiff fst snd] in A, B; try reflexivity; lia. Qed.

(** ** Node image entries *)
Lemma info_shift l : Z.shiftr (infoOfNode l) 4 = Z.of_nat l + 1.
Proof. unfold infoOfNode. rewrite Z.shiftr_shiftl_l by lia. cbn. reflexivity. Qed.
Lemma info_bits l d : Z.testbit (infoOfNode l) (bitOf d) = false.
Proof. pose proof (bitOf_range d). unfold infoOfNode. apply Z.shiftl_spec_low. lia. Qed.
Lemma lor_shift i d : Z.shiftr (Z.lor i (connOf d)) 4 = Z.shiftr i 4.
Proof. rewrite Z.shiftr_lor. replace (Z.shiftr (connOf d) 4) with 0 by (destruct d; reflexivity). apply Z.lor_0_r. Qed.
Lemma lor_bits i d e : Z.testbit (Z.lor i (connOf d)) (bitOf e) = true <-> Z.testbit i (bitOf e) = true \/ e = d.
Proof.
  rewrite Z.lor_spec, connOf_pow, Z.pow2_bits_eqb by apply bitOf_range. rewrite orb_true_iff, Z.eqb_eq.
  split; (intros [H|H]; [left; exact H|right]); [apply bitOf_inj; auto|subst; reflexivity].
Qed.
Lemma nodeOfInfo_shift i l : Z.shiftr i 4 = Z.of_nat l + 1 -> nodeOfInfo i = l.
Proof. intros H. unfold nodeOfInfo. rewrite H. lia. Qed.
Lemma shift_nonzero i l : Z.shiftr i 4 = Z.of_nat l + 1 -> i <> 0.
Proof. intros H ->. cbn in H. lia. Qed.

Section Inv.
Variables (src : image) (eight : bool).
Hypothesis Hw : 0 <= iw src.
Hypothesis Hh : 0 <= ih src.
Notation crk := (crk src). Notation crkD := (crkD src). Notation isN := (isN src eight). Notation isD := (isD src eight).
Notation isM := (isM src eight). Notation mate := (mate src eight). Notation nxt := (nxt src eight). Notation corner := (corner src).

Definition dummy : dart := ((0, 0), East).
Record walkOK (w : list dart) : Prop := {
  wk_ne : w <> [];
  wk_chain : chain src eight (fst (hd dummy w)) w;
  wk_crk : forall x, In x w -> crkD x = true;
  wk_end : tgt (last w dummy) = fst (hd dummy w) \/ isN (tgt (last w dummy)) = true;
  wk_start : isN (fst (hd dummy w)) = true \/ isM (fst (hd dummy w)) = true }.

Lemma walk_simple w : walkOK w -> NoDup w /\ forall a b, In a w -> In b w -> a <> rv b.
Proof.
  intros [A B C D E]. apply (chain_simple src eight (fst (hd dummy w)) w); auto.
  intros x H. destruct w; [discriminate|]. injection H as ->. reflexivity.
Qed.

Lemma chain_pass s w : chain src eight s w -> (forall x, In x w -> crkD x = true) -> forall x, passes w x ->
  isN (fst x) = false /\ fst x <> s /\ passes w (fst x, mate (fst x) (snd x)).
Proof.
  intros C K x H.
  assert (Two : exists a b, x = b /\ In b (tl w) /\ In a (removelast w) /\ link src eight s a b \/ x = rv a /\ In b (tl w) /\ In a (removelast w) /\ link src eight s a b).
  { destruct H as [H|H].
    - assert (X : exists a, In a (removelast w) /\ link src eight s a x).
      { clear K. revert H C. induction w as [|a w IH]; cbn [tl]; [intros []|]. intros H C. destruct w as [|b w]; [destruct H|].
        destruct H as [<-|H].
        - exists a. split; [left; reflexivity|apply C].
        - destruct (IH H (proj2 C)) as (c & E & F). exists c. split; [right; exact E|exact F]. }
      destruct X as (a & X1 & X2). exists a, x. left. auto.
    - assert (X : exists b, In b (tl w) /\ link src eight s (rv x) b).
      { clear K. revert H C. induction w as [|a w IH]; [intros []|]. intros H C. destruct w as [|b w]; [destruct H|].
        change (removelast (a :: b :: w)) with (a :: removelast (b :: w)) in H. destruct H as [<-|H].
        - exists b. split; [left; reflexivity|apply C].
        - destruct (IH H (proj2 C)) as (c & E & F). exists c. split; [right; exact E|exact F]. }
      destruct X as (b & X1 & X2). exists (rv x), b. right. rewrite rv_rv. auto. }
  destruct Two as (a & b & Two).
  assert (T : In b (tl w) /\ In a (removelast w) /\ link src eight s a b) by tauto. destruct T as (Tb & Ta & (N & S & E)).
  assert (Ka : crkD a = true) by (apply K, in_removelast_or; auto).
  assert (Kr : crk (tgt a) (opposite (snd a)) = true) by (rewrite <- crkD_rv in Ka; exact Ka).
  destruct (mate_spec src eight (tgt a) _ N Kr) as (_ & _ & M & _).
  destruct Two as [[-> _]|[-> _]].
  - rewrite E. cbn [CrackFollow_Static.nxt fst snd]. split; [exact N|]. split; [exact S|]. rewrite M. right.
    change (tgt a, opposite (snd a)) with (rv a). rewrite rv_rv. exact Ta.
  - cbn [rv fst snd]. split; [exact N|]. split; [exact S|]. left. change (tgt a, mate (tgt a) (opposite (snd a))) with (nxt a). rewrite <- E. exact Tb.
Qed.

Definition walkEdge (o : option edge) (w : list dart) : Prop :=
  exists a b, o = Some (mkEdge a b None None (map (fun y => pt (fst y)) w ++ [pt (tgt (last w dummy))]) 0).

(** [open]: the corner whose cracks are being followed *)
Record G (open : Z * Z -> Prop) (cc ni : image) (m : gmap) (L : list (list dart)) : Prop := {
  g_cc : ccInv src eight cc (Passed L);
  g_niw : iw ni = iw src + 1;
  g_nih : ih ni = ih src + 1;
  g_walk : forall w, In w L -> walkOK w;
  g_nodup : NoDup (concat L);
  g_once : forall a b, In a (concat L) -> In b (concat L) -> a <> rv b;
  g_start : forall q, ~ open q -> isN q = false -> (exists d, Ends L (q, d)) -> forall d, crk q d = true -> Used L (q, d);
  g_info : forall p, corner p -> (px ni p = 0 /\ forall d, ~ Ends L (p, d)) \/
    (exists l, Z.shiftr (px ni p) 4 = Z.of_nat l + 1 /\ posOf m l = Some (pt p) /\ (isN p = true \/ isM p = true) /\
       forall d, Z.testbit (px ni p) (bitOf d) = true <-> Ends L (p, d));
  g_nodes : forall l v, posOf m l = Some v -> exists p, corner p /\ v = pt p /\ Z.shiftr (px ni p) 4 = Z.of_nat l + 1;
  g_edges : exists es, edges m = None :: es /\ Forall2 walkEdge es L;
  g_hist : history geometric m;
  g_sorted : sorted m = false;
  g_faces : faces m = [] }.

Lemma G_pass o cc ni m L : G o cc ni m L -> forall q d, Passed L (q, d) -> isN q = false /\ Passed L (q, mate q d).
Proof.
  intros I q d (w & H & K). destruct (g_walk _ _ _ _ _ I w H) as [W1 W2 W3 W4 W5].
  destruct (chain_pass _ _ W2 W3 _ K) as (A & B & C). cbn [fst snd] in *. split; [exact A|]. exists w. auto.
Qed.

Lemma G_open (o o' : Z * Z -> Prop) cc ni m L : (forall q, o q -> o' q) -> G o cc ni m L -> G o' cc ni m L.
Proof. intros H [A1 A2 A3 A4 A5 A6 A7 A8 A9 A10 A11 A12 A13]. constructor; auto. Qed.

Lemma G_close s cc ni m L : G (eq s) cc ni m L -> (forall d, crk s d = true -> Used L (s, d)) -> G (fun _ => False) cc ni m L.
Proof.
  intros [A1 A2 A3 A4 A5 A6 A7 A8 A9 A10 A11 A12 A13] H. constructor; auto.
  intros q _ N E d K. assert (Q : {s = q} + {s <> q}) by (decide equality; apply Z.eq_dec).
  destruct Q as [<-|Q]; [apply H, K|]. apply A7; auto.
Qed.

Lemma G_ni_ext o cc ni ni' m L : iw ni' = iw ni -> ih ni' = ih ni -> (forall p, corner p -> px ni' p = px ni p) ->
  G o cc ni m L -> G o cc ni' m L.
Proof.
  intros E1 E2 E3 [A1 A2 A3 A4 A5 A6 A7 A8 A9 A10 A11 A12 A13]. constructor; auto; try congruence.
  - intros p C. rewrite (E3 p C). auto.
  - intros l v H. destruct (A9 l v H) as (p & C & K). exists p. rewrite (E3 p C). auto.
Qed.

(** a node at a corner that has none yet *)
Lemma G_addNode o cc ni m L p : G o cc ni m L -> corner p -> px ni p = 0 -> isN p = true \/ isM p = true ->
  G o cc (setPx ni (fst p) (snd p) (infoOfNode (length (nodes m)))) (fst (addNode m (pt p))) L.
Proof.
  intros I C E0 T. pose proof I as [A1 A2 A3 A4 A5 A6 A7 A8 A9 A10 A11 A12 A13].
  destruct (addNode_step m (pt p) A11) as (B1 & B2 & B3).
  constructor; auto.
  - intros q Cq. rewrite px_set. destruct (_ && _) eqn:E.
    + apply same_corner in E. subst q. right. exists (length (nodes m)). rewrite B3, Nat.eqb_refl. repeat split; auto.
      * apply info_shift.
      * rewrite info_bits. discriminate.
      * intros H. destruct (A8 p C) as [[_ N]|(l & N & _)]; [exfalso; exact (N d H)|]. apply shift_nonzero in N. contradiction.
    + destruct (A8 q Cq) as [H|(l & H1 & H2 & H3 & H4)]; [left; exact H|]. right. exists l. repeat split; auto; try apply H4.
      rewrite B3. destruct (Nat.eqb_spec l (length (nodes m))) as [->|]; [|exact H2].
      exfalso. unfold posOf, nodeP in H2. replace (nth_error (nodes m) (length (nodes m))) with (@None (option node)) in H2; [discriminate|].
      symmetry. apply nth_error_None. lia.
  - intros l v. rewrite B3. destruct (Nat.eqb_spec l (length (nodes m))) as [->|N].
    + intros H. injection H as <-. exists p. split; [exact C|]. split; [reflexivity|]. rewrite px_set.
      rewrite (proj2 (same_corner p p) eq_refl). apply info_shift.
    + intros H. destruct (A9 l v H) as (q & Cq & Ev & Ei). exists q. split; [exact Cq|]. split; [exact Ev|]. rewrite px_set.
      destruct (_ && _) eqn:E; [|exact Ei]. apply same_corner in E. subst q. apply shift_nonzero in Ei. contradiction.
Qed.

(** a followed edge *)
Lemma G_addEdge s d w2 cc cc' ni ni' m m' L a b : let W := (s, d) :: w2 in let l := last W (s, d) in
  G (eq s) cc ni m L -> isN s = true \/ isM s = true -> 
  chain src eight s W -> (tgt l = s \/ isN (tgt l) = true) -> (forall y, In y W -> crkD y = true /\ ~ Used L y) ->
  ccInv src eight cc' (fun y => Passed L y \/ passes W y) ->
  Z.shiftr (px ni s) 4 = Z.of_nat a + 1 -> Z.shiftr (px ni (tgt l)) 4 = Z.of_nat b + 1 ->
  iw ni' = iw ni -> ih ni' = ih ni ->
  (forall p, corner p -> (p <> s /\ p <> tgt l -> px ni' p = px ni p) /\ Z.shiftr (px ni' p) 4 = Z.shiftr (px ni p) 4 /\
     forall e, Z.testbit (px ni' p) (bitOf e) = true <-> Z.testbit (px ni p) (bitOf e) = true \/ (p, e) = (s, d) \/ (p, e) = rv l) ->
  history geometric m' -> appended m (mkEdge a b None None (map (fun y => pt (fst y)) W ++ [pt (tgt l)]) 0) m' ->
  (forall c, posOf m' c = posOf m c) ->
  G (eq s) cc' ni' m' (L ++ [W]).
Proof.
  intros W l I Ts C T K Icc Sa Sb N1 N2 N3 H (M1 & M2 & M3 & M4) M5.
  pose proof I as [A1 A2 A3 A4 A5 A6 A7 A8 A9 A10 A11 A12 A13].
  assert (El : last W dummy = l).
  { unfold l, W. clear. revert s d. induction w2 as [|x w IH]; intros s d; [reflexivity|].
    change (last (x :: w) dummy = last (x :: w) (s, d)). destruct x as [s1 d1]. rewrite (IH s1 d1). 
    clear IH. revert s1 d1. induction w as [|y w IH]; intros; [reflexivity|]. 
    change (last (y :: w) (s1, d1) = last (y :: w) (s, d)). destruct w; [reflexivity|]. apply (IH s1 d1). }
  assert (Lr : hd_error (rev W) = Some l) by (rewrite <- El; apply last_rev; discriminate).
  assert (Inl : In l W) by (apply in_removelast_or; auto).
  assert (WOK : walkOK W).
  { constructor; auto; [discriminate| |].
    - intros x Hx. apply K, Hx.
    - rewrite El. exact T. }
  destruct (walk_simple W WOK) as [ND1 ND2].
  assert (Enew : forall p e, ends W (p, e) <-> (p, e) = (s, d) \/ (p, e) = rv l).
  { intros p e. unfold ends. rewrite Lr. cbn [hd_error W].
    split; (intros [X|X]; [left|right]).
    - injection X; intros; subst; reflexivity.
    - injection X as X. rewrite X, rv_rv. reflexivity.
    - rewrite X. reflexivity.
    - rewrite X, rv_rv. reflexivity. }
  constructor; auto; try congruence.
  - eapply ccInv_ext; [|exact Icc]. intros x. rewrite Passed_app. reflexivity.
  - intros w Hin. apply in_app_or in Hin as [Hin|[<-|[]]]; auto.
  - rewrite concat_app. cbn [concat]. rewrite app_nil_r. 
    assert (App : forall (u v : list dart), NoDup u -> NoDup v -> (forall x, In x u -> In x v -> False) -> NoDup (u ++ v)).
    { clear. intros u v Hu Hv D. induction u as [|x u IH]; [exact Hv|]. cbn. inversion Hu; subst. constructor.
      - intros X. apply in_app_or in X as [X|X]; [contradiction|]. apply (D x); cbn; auto.
      - apply IH; auto. intros y Y1 Y2. apply (D y); cbn; auto. }
    apply App; auto. intros x Hx Hy. apply (K x Hy). apply Used_concat. auto.
  - intros x y. rewrite concat_app. cbn [concat]. rewrite app_nil_r. intros Hx Hy E.
    apply in_app_or in Hx as [Hx|Hx]; apply in_app_or in Hy as [Hy|Hy].
    + exact (A6 x y Hx Hy E).
    + apply (K y Hy). apply Used_concat. right. rewrite <- E. exact Hx.
    + apply (K x Hx). apply Used_concat. right. rewrite E, rv_rv. exact Hy.
    + exact (ND2 x y Hx Hy E).
  - intros q Oq Nq (e & He) e' Ke. rewrite Used_app. rewrite Ends_app in He. destruct He as [He|He].
    + left. apply A7; eauto.
    + exfalso. apply Enew in He as [He|He].
      * injection He as -> _. apply Oq. reflexivity.
      * assert (Q : q = tgt l) by (change (fst (q, e) = tgt l); rewrite He; reflexivity).
        rewrite <- Q in T. destruct T as [T|T]; [apply Oq; auto|congruence].
  - intros p Cp. destruct (N3 p Cp) as (P1 & P2 & P3).
    destruct (A8 p Cp) as [[Z0 NE]|(c & B1 & B2 & B3 & B4)].
    + left. assert (Ns : p <> s) by (intros ->; apply shift_nonzero in Sa; contradiction).
      assert (Nt : p <> tgt l) by (intros ->; apply shift_nonzero in Sb; contradiction).
      split; [rewrite P1; auto|]. intros e. rewrite Ends_app, Enew. intros [X|[X|X]].
      * exact (NE e X).
      * injection X as X _. contradiction.
      * apply Nt. change (fst (p, e) = tgt l). rewrite X. reflexivity.
    + right. exists c. rewrite P2, M5. repeat split; auto.
      * intros X. apply P3 in X. rewrite Ends_app, Enew. destruct X as [X|X]; [left; apply B4, X|right; exact X].
      * intros X. apply P3. rewrite Ends_app, Enew in X. destruct X as [X|X]; [left; apply B4, X|right; exact X].
  - intros c v. rewrite M5. intros X. destruct (A9 c v X) as (p & Cp & Ev & Ei). exists p. split; [exact Cp|]. split; [exact Ev|].
    rewrite (proj1 (proj2 (N3 p Cp))). exact Ei.
  - destruct A10 as (es & Ee & F2). eexists. split; [rewrite M2, Ee; reflexivity|]. apply Forall2_app; [exact F2|].
    constructor; [|constructor]. exists a, b. rewrite El. reflexivity.
Qed.
End Inv.
