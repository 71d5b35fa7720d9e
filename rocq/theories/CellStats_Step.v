(** C80 to C83: sums over pixels, and what a call does to the pixels. *)
From Coq Require Import Lia Permutation.
From Verif Require Import Base CellMap_Model CellMap_Spec CellMap_Scan CellMap_Proofs CellMap_Main CellSigma_Spec CellSigma_Proofs CellSigma_Results CellLink_Spec CellLink_Proofs CellLink_Check CellFace_Spec CellFace_Walk CellFace_Step CellFace_Results CellMap_Init CellStats_Model CellStats_Spec.
Local Open Scope Z_scope.

(** ** Sums *)
Definition total (v : vimg) (g : Z -> Z) (ps : list (Z * Z)) : Z := fold_right Z.add 0 (map (fun p => g (vpix v (fst p - 2) (snd p - 2))) ps).
Lemma total_app v g a b : total v g (a ++ b) = total v g a + total v g b.
Proof. unfold total. rewrite map_app. induction (map _ a) as [|x t IH]; cbn [app fold_right]; lia. Qed.
Lemma amount_ext v g (P Q : Z -> Z -> Prop) n : (forall x y, P x y <-> Q x y) -> amount v g P n -> amount v g Q n.
Proof. intros H (ps & A & B & C). exists ps. split; [exact A|]. split; [intros x y; rewrite B; apply H|exact C]. Qed.
Lemma amount_or v g (P Q : Z -> Z -> Prop) a b : (forall x y, P x y -> ~ Q x y) -> amount v g P a -> amount v g Q b -> amount v g (fun x y => P x y \/ Q x y) (a + b).
Proof.
  intros H (ps & A & B & C) (qs & A' & B' & C'). exists (ps ++ qs). split; [|split].
  - apply NoDup_app_intro; auto. intros (x, y) I J. apply B in I. apply B' in J. apply (H x y I J).
  - intros x y. rewrite in_app_iff, B, B'. tauto.
  - subst. symmetry. apply total_app.
Qed.
Lemma amount_unique v g (P : Z -> Z -> Prop) a b : amount v g P a -> amount v g P b -> a = b.
Proof.
  intros (ps & A & B & C) (qs & A' & B' & C'). subst. assert (E : Permutation ps qs).
  { apply NoDup_Permutation; auto. intros (x, y). rewrite B, B'. tauto. }
  clear -E. assert (forall f : Z * Z -> Z, fold_right Z.add 0 (map f ps) = fold_right Z.add 0 (map f qs)) as G; [|apply G]. intros f. induction E; cbn [map fold_right]; lia.
Qed.
Lemma stat_ext v (P Q : Z -> Z -> Prop) s : (forall x y, P x y <-> Q x y) -> statOf v P s -> statOf v Q s.
Proof. intros H (A & B & C). split; [|split]; eapply amount_ext; eauto. Qed.
Lemma stat_or v (P Q : Z -> Z -> Prop) a b : (forall x y, P x y -> ~ Q x y) -> statOf v P a -> statOf v Q b -> statOf v (fun x y => P x y \/ Q x y) (statMerge a b).
Proof. intros H (A & B & C) (D & E & F). split; [|split]; cbn [statMerge scount ssum ssq]; apply amount_or; auto. Qed.
Lemma avg_ext v (P Q : Z -> Z -> Prop) s : (forall x y, P x y <-> Q x y) -> avgOf v P s -> avgOf v Q s.
Proof. intros H (A & B). split; eapply amount_ext; eauto. Qed.
Lemma avg_or v (P Q : Z -> Z -> Prop) a b : (forall x y, P x y -> ~ Q x y) -> avgOf v P a -> avgOf v Q b -> avgOf v (fun x y => P x y \/ Q x y) (avgMerge a b).
Proof. intros H (A & B) (D & E). split; cbn [avgMerge acount asum]; apply amount_or; auto. Qed.

(** looking at the pixels of [P] adds their statistics *)
Definition within (v : vimg) (ps : list (Z * Z)) : Prop := forall x y, In (x, y) ps -> 0 <= x - 2 < vw v /\ 0 <= y - 2 < vh v.
Lemma readVal_ok v x y : 0 <= x < vw v -> 0 <= y < vh v -> readVal v x y = Ok (vpix v x y).
Proof. intros X Y. unfold readVal. replace (_ && _) with true; [reflexivity|]. symmetry. rewrite !andb_true_iff, !Z.leb_le, !Z.ltb_lt. lia. Qed.
Lemma inspect_stat v ps : within v ps -> forall s, inspect statAdd v ps s = Ok (statMerge s (Stat (total v (fun _ => 1) ps) (total v (fun a => a) ps) (total v (fun a => a * a) ps))).
Proof.
  induction ps as [|(x, y) t IH]; intros W s; cbn [inspect].
  - unfold total, statMerge. cbn. destruct s; cbn. f_equal. f_equal; lia.
  - destruct (W x y (or_introl eq_refl)) as (X & Y). rewrite readVal_ok by assumption. cbn [bind]. rewrite IH; [|intros a b I; apply W; right; exact I].
    f_equal. unfold statMerge, statAdd, total. cbn [scount ssum ssq map fold_right fst snd]. f_equal; lia.
Qed.
Lemma inspect_avg v ps : within v ps -> forall s, inspect avgAdd v ps s = Ok (avgMerge s (Avg (total v (fun _ => 1) ps) (total v (fun a => a) ps))).
Proof.
  induction ps as [|(x, y) t IH]; intros W s; cbn [inspect].
  - unfold total, avgMerge. cbn. destruct s; cbn. f_equal. f_equal; lia.
  - destruct (W x y (or_introl eq_refl)) as (X & Y). rewrite readVal_ok by assumption. cbn [bind]. rewrite IH; [|intros a b I; apply W; right; exact I].
    f_equal. unfold avgMerge, avgAdd, total. cbn [acount asum map fold_right fst snd]. f_equal; lia.
Qed.

(** a scan of a cell, cropped to the image *)
Lemma scan_here m t l c : sound m -> isCell m t l c -> exists ps, scanCell m t (Z.of_nat l) true = Ok ps /\ NoDup ps /\ forall x y, In (x, y) ps <-> owns (cim m) t (Z.of_nat l) x y /\ inBase (cim m) x y.
Proof.
  intros So C. destruct (scan_exact m t l c true (ch_start sound m So) C) as (ps & A & B & D). exists ps. split; [exact A|]. split; [apply sorted_NoDup, B|].
  intros x y. rewrite D. unfold inBase. tauto.
Qed.
Lemma scan_stat m t l c v : sound m -> isCell m t l c -> bigEnough v (cim m) -> exists ps o, scanCell m t (Z.of_nat l) true = Ok ps /\ (forall s, inspect statAdd v ps s = Ok (statMerge s o)) /\
  statOf v (fun x y => owns (cim m) t (Z.of_nat l) x y /\ inBase (cim m) x y) o.
Proof.
  intros So C (B1 & B2). destruct (scan_here m t l c So C) as (ps & A & N & I). exists ps. eexists. split; [exact A|]. split; [intros s; apply inspect_stat|].
  - intros x y J. apply I in J. destruct J as (_ & J & K). lia.
  - split; [|split]; exists ps; auto.
Qed.
Lemma scan_avg m t l c v : sound m -> isCell m t l c -> bigEnough v (cim m) -> exists ps o, scanCell m t (Z.of_nat l) true = Ok ps /\ (forall s, inspect avgAdd v ps s = Ok (avgMerge s o)) /\
  avgOf v (fun x y => owns (cim m) t (Z.of_nat l) x y /\ inBase (cim m) x y) o.
Proof.
  intros So C (B1 & B2). destruct (scan_here m t l c So C) as (ps & A & N & I). exists ps. eexists. split; [exact A|]. split; [intros s; apply inspect_avg|].
  - intros x y J. apply I in J. destruct J as (_ & J & K). lia.
  - split; exists ps; auto.
Qed.

(** ** What a call does to the pixels *)
Lemma faced_sound m : faced m -> sound m. Proof. intros F. apply F. Qed.
Lemma call_facts m c m' k : faced m -> faceAllowed (cim m) c -> cexec m c = Ok (m', k) -> faced m' /\ callEffect m m' c k.
Proof.
  intros F A E. split; [exact (faced_step m c m' k F A E)|]. pose proof (faced_allows m c F A) as (Al & _). apply (cexec_sound m c m' k (faced_sound m F) Al E).
Qed.
(** a taken pixel shows that the cell is one of the map *)
Lemma taken_pixel m m' t k gone x y : takenOver m m' t k gone -> 0 <= x < iw (cim m) -> 0 <= y < ih (cim m) -> In (ptype (ipix (cim m) x y), plabel (ipix (cim m) x y)) gone -> owns (cim m') t k x y.
Proof. intros (W & H & P & _) X Y I. destruct (P x y X Y) as (Q & _). split; [lia|]. split; [lia|]. apply Q, I. Qed.
Lemma pix_mk t l p : ptype p = t -> plabel p = l -> p = Pix t l. Proof. destruct p; cbn; congruence. Qed.
Lemma taken_owns m m' t k gone u l x y : takenOver m m' t k gone -> ~ In (u, l) gone -> owns (cim m') u l x y <-> owns (cim m) u l x y \/ ((u, l) = (t, k) /\ exists v j, In (v, j) gone /\ owns (cim m) v j x y).
Proof.
  intros (W & H & P & _) N. unfold owns. rewrite W, H. split.
  - intros (X & Y & E). destruct (P x y X Y) as (P1 & P2). destruct (in_dec (fun a b : ctype * Z => ltac:(decide equality; [apply Z.eq_dec|apply ctype_dec])) (ptype (ipix (cim m) x y), plabel (ipix (cim m) x y)) gone) as [I|I].
    + right. rewrite (P1 I) in E. injection E as <- <-. split; [reflexivity|]. eexists _, _. split; [exact I|]. split; [exact X|]. split; [exact Y|]. apply pix_mk; reflexivity.
    + left. rewrite (P2 I) in E. auto.
  - intros [(X & Y & E)|(Eq & v & j & I & X & Y & E)].
    + split; [exact X|]. split; [exact Y|]. destruct (P x y X Y) as (_ & P2). rewrite P2; [exact E|]. rewrite E. exact N.
    + injection Eq as -> ->. split; [exact X|]. split; [exact Y|]. destruct (P x y X Y) as (P1 & _). apply P1. rewrite E. exact I.
Qed.
Lemma taken_gone m m' t k gone u l : takenOver m m' t k gone -> sound m' -> In (u, l) gone -> u <> ErrorType -> forall x y, ~ owns (cim m') u l x y.
Proof.
  intros (_ & _ & _ & L & _) So I N x y O. destruct (pixel_live m' x y u l So O N) as (R & c & (C & Ic)). assert (E : exists c, nth_error (cellsOf m' u) (Z.to_nat l) = Some c /\ initialized c = true) by (exists c; auto).
  apply L in E. destruct E as (_ & E). apply E. rewrite Z2Nat.id by lia. exact I.
Qed.
(** the infinite face is not taken *)
Lemma zero_stays m m' t k gone : takenOver m m' t k gone -> sound m -> sound m' -> ~ In (Region, 0) gone.
Proof.
  intros Ta So So' I. apply (taken_gone m m' t k gone Region 0 Ta So' I ltac:(discriminate) 0 0). destruct So' as ((W & _) & Fr & _). destruct W as (W1 & W2 & _). split; [lia|]. split; [lia|]. apply Fr; lia.
Qed.
Lemma taken_live m m' t k gone u l c : takenOver m m' t k gone -> isCell m' u l c -> ~ In (u, Z.of_nat l) gone /\ exists c', isCell m u l c'.
Proof. intros (_ & _ & _ & L & _) (C & I). assert (E : exists c, nth_error (cellsOf m' u) l = Some c /\ initialized c = true) by (exists c; auto). apply L in E. destruct E as (E & N). split; [exact N|exact E]. Qed.
(** the entry of the cell that has taken the pixels *)
Lemma taker m' t k x y : sound m' -> t <> ErrorType -> owns (cim m') t k x y -> exists c, isCell m' t (Z.to_nat k) c /\ clabel c = k /\ exactRect (owns (cim m') t k) (cbounds c) /\ 0 <= k.
Proof.
  intros So N O. destruct (pixel_live m' x y t k So O N) as (R & c & C). exists c. destruct (live_facts m' t _ c So C) as (A & _ & B). rewrite Z2Nat.id in A, B by lia. split; [exact C|]. split; [exact A|]. split; [exact B|lia].
Qed.
Lemma face_entry m' k f x y : sound m' -> owns (cim m') Region k x y -> at_ (cfaces m') k = Ok f -> clabel (finf f) = k /\ exactRect (owns (cim m') Region k) (cbounds (finf f)).
Proof.
  intros So O E. destruct (taker m' Region k x y So ltac:(discriminate) O) as (c & (C & _) & A & B & _). apply cells_face in E. destruct E as (_ & E). assert (c = finf f) by congruence. subst c. auto.
Qed.
Lemma edge_entry m' k e x y : sound m' -> owns (cim m') Line k x y -> at_ (cedges m') k = Ok e -> clabel (einf e) = k /\ exactRect (owns (cim m') Line k) (cbounds (einf e)).
Proof.
  intros So O E. destruct (taker m' Line k x y So ltac:(discriminate) O) as (c & (C & _) & A & B & _). apply cells_edge in E. destruct E as (_ & E). assert (c = einf e) by congruence. subst c. auto.
Qed.

(** the pixel of the edge of a dart, and of its node *)
Lemma dart_line m d : framed (cim m) -> isDart (cim m) d -> owns (cim m) Line (edgeOf (cim m) d) (dcx d + dirX (ddir d)) (dcy d + dirY (ddir d)).
Proof.
  intros Fr D. pose proof D as (V & K & T & _). unfold typeAt in T. rewrite Z.add_0_r, Z.mod_small in T by lia.
  destruct (vertex_inner (cim m) Fr _ _ V) as (X & Y). assert (-1 <= dirX (ddir d) <= 1 /\ -1 <= dirY (ddir d) <= 1).
  { assert (ddir d = 0 \/ ddir d = 1 \/ ddir d = 2 \/ ddir d = 3 \/ ddir d = 4 \/ ddir d = 5 \/ ddir d = 6 \/ ddir d = 7) as Q by lia. destruct Q as [Q|[Q|[Q|[Q|[Q|[Q|[Q|Q]]]]]]]; rewrite Q; cbn; lia. }
  split; [lia|]. split; [lia|]. apply pix_mk; [exact T|reflexivity].
Qed.
Lemma dart_node m d : isDart (cim m) d -> owns (cim m) Vertex (nodeOf (cim m) d) (dcx d) (dcy d).
Proof. intros ((X & Y & V) & _). split; [exact X|]. split; [exact Y|]. apply pix_mk; [exact V|reflexivity]. Qed.
