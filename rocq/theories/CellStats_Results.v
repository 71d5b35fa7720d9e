(** C80 to C83: the statistics, the protection of edges and the changes. *)
From Coq Require Import Lia.
From Verif Require Import Base CellMap_Model CellMap_Spec CellMap_Scan CellMap_Proofs CellMap_Main CellSigma_Spec CellSigma_Proofs CellSigma_Results CellLink_Spec CellLink_Proofs CellLink_Check CellFace_Spec CellFace_Walk CellFace_Step CellFace_Results CellMap_Init CellEuler_Clear CellStats_Model CellStats_Spec CellStats_Step CellStats_Main CellStats_Chain CellStats_Inv CellStats_Start.
Local Open Scope Z_scope.

Section Data.
Variables original gradient : vimg.
Variable maxValue : Z.
Notation hist := (shistory original gradient maxValue).
Notation exec := (statExec original gradient maxValue).

Lemma edge_cell m l e : isEdge m l e -> isCell m Line l (einf e). Proof. intros (E & I). split; [cbn [cellsOf]; rewrite nth_error_map, E; reflexivity|exact I]. Qed.
Lemma cell_edge m l c : isCell m Line l c -> exists e, isEdge m l e /\ einf e = c.
Proof. intros (C & I). cbn [cellsOf] in C. rewrite nth_error_map in C. destruct (nth_error (cedges m) l) as [e|] eqn:E; [|discriminate C]. injection C as <-. exists e. split; [split; assumption|reflexivity]. Qed.

(** ** Faces *)
Theorem face_stats m0 since lost m s l c : hist m0 since lost m s -> isCell m Region l c -> (l = O -> zeroOut (cim m0)) ->
  exists a, nth_error (faceStats s) l = Some a /\ statOf original (fun x y => owns (cim m) Region (Z.of_nat l) x y /\ inBase (cim m) x y /\ ~ lost x y) a.
Proof. intros H C L. destruct (hist_kept _ _ _ _ _ _ _ _ H) as ((_ & _ & _ & Fk & _) & _). destruct (Fk l c C) as (a & N & A). exists a. split; [exact N|apply A, L]. Qed.
Theorem face_exact m0 since lost m s l c : hist m0 since lost m s -> isCell m Region l c -> (l = O -> zeroOut (cim m0)) -> (forall x y, owns (cim m) Region (Z.of_nat l) x y -> ~ lost x y) ->
  exists a, nth_error (faceStats s) l = Some a /\ forall b, statOf original (fun x y => owns (cim m) Region (Z.of_nat l) x y /\ inBase (cim m) x y) b <-> b = a.
Proof.
  intros H C L N. destruct (face_stats _ _ _ _ _ _ _ H C L) as (a & Na & A). assert (A' : statOf original (fun x y => owns (cim m) Region (Z.of_nat l) x y /\ inBase (cim m) x y) a).
  { refine (stat_ext _ _ _ _ _ A). intros x y. specialize (N x y). tauto. }
  exists a. split; [exact Na|]. intros b. split; [|intros ->; exact A']. intros (B1 & B2 & B3). destruct A' as (A1 & A2 & A3). destruct a, b; cbn in *. f_equal; eapply amount_unique; eassumption.
Qed.

(** ** Edges *)
Theorem edge_stats m0 since lost m s l e : hist m0 since lost m s -> isEdge m l e ->
  exists a, nth_error (edgeStats s) l = Some a /\ (avgOf gradient (fun x y => owns (cim m) Line (Z.of_nat l) x y /\ inBase (cim m) x y) a \/ (a = Avg 1 maxValue /\ outerEdge (cim m) (Z.of_nat l))).
Proof. intros H C. destruct (hist_kept _ _ _ _ _ _ _ _ H) as ((_ & _ & _ & _ & Ek & _) & _). apply (Ek l _ (edge_cell m l e C)). Qed.
Theorem edge_exact m0 since lost m s l e : hist m0 since lost m s -> isEdge m l e -> ~ outerEdge (cim m) (Z.of_nat l) ->
  exists a, nth_error (edgeStats s) l = Some a /\ forall b, avgOf gradient (fun x y => owns (cim m) Line (Z.of_nat l) x y /\ inBase (cim m) x y) b <-> b = a.
Proof.
  intros H C N. destruct (edge_stats _ _ _ _ _ _ _ H C) as (a & Na & [A|(_ & O)]); [|contradiction]. exists a. split; [exact Na|]. intros b. split; [|intros ->; exact A].
  intros (B1 & B2). destruct A as (A1 & A2). destruct a, b; cbn in *. f_equal; eapply amount_unique; eassumption.
Qed.
Lemma edge_start m l e : faced m -> isEdge m l e -> isDart (cim m) (estart e) /\ isDart (cim m) (eend e) /\ edgeOf (cim m) (estart e) = Z.of_nat l.
Proof.
  intros Fa (E & I). assert (Wi : wired m) by apply Fa. destruct Wi as (_ & _ & _ & _ & Te & _). destruct (Te l e E I) as (_ & T).
  assert (D : dartOfEdge (cim m) (Z.of_nat l) (estart e)) by (apply T; left; reflexivity). assert (D' : dartOfEdge (cim m) (Z.of_nat l) (eend e)) by (apply T; right; reflexivity). split; [apply D|]. split; [apply D'|apply D].
Qed.
Lemma outer_dec m l e : faced m -> isEdge m l e -> outerEdge (cim m) (Z.of_nat l) \/ ~ outerEdge (cim m) (Z.of_nat l).
Proof.
  intros Fa He. destruct (edge_start m l e Fa He) as (D & _ & De). rewrite <- De, <- (outer_sides m _ Fa D). destruct (Z.eq_dec (sideOf (cim m) 1 (estart e)) 0), (Z.eq_dec (sideOf (cim m) (-1) (estart e)) 0); tauto.
Qed.
Theorem start_stats m p : faced m -> bigEnough original (cim m) -> bigEnough gradient (cim m) -> (length (cedges m) <= length p)%nat ->
  exists s, newStats original gradient maxValue m p = Ok s /\ length (flags s) = length p /\
    (forall l e, isEdge m l e -> outerEdge (cim m) (Z.of_nat l) -> nth_error (edgeStats s) l = Some (Avg 1 maxValue)) /\
    (forall l f, nth_error p l = Some f -> exists f', nth_error (flags s) l = Some f' /\
       forall b, 0 <= b -> (Z.testbit f' b = true <-> Z.testbit f b = true \/ (b = 0 /\ (exists e, isEdge m l e) /\ outerEdge (cim m) (Z.of_nat l)))).
Proof.
  intros Fa Bo Bg Lp. destruct (new_facts original gradient maxValue m p Fa Bo Bg Lp) as (s & E & _ & Lf & A & B). exists s. split; [exact E|]. split; [exact Lf|]. split; [intros l e He O; apply (A l e He O)|].
  intros l f Nf. assert (D : (exists e, isEdge m l e /\ outerEdge (cim m) (Z.of_nat l)) \/ ~ (exists e, isEdge m l e /\ outerEdge (cim m) (Z.of_nat l))).
  { destruct (nth_error (cedges m) l) as [e|] eqn:Ee; [|right; intros (e & (X & _) & _); congruence]. destruct (initialized (einf e)) eqn:I; [|right; intros (e' & (X & Y) & _); congruence].
    assert (He : isEdge m l e) by (split; assumption). destruct (outer_dec m l e Fa He) as [O|O]; [left; eauto|right]. intros (_ & _ & O'). contradiction. }
  destruct D as [(e & He & O)|D].
  - destruct (A l e He O) as (_ & f1 & N1 & N2). assert (f1 = f) by congruence. subst f1. eexists. split; [exact N2|]. intros b Hb. change EPBorder with (2 ^ 0). rewrite (flag_to f 0 true b) by lia. destruct (b =? 0) eqn:Q.
    + apply Z.eqb_eq in Q. subst b. split; [intros _; right; eauto|reflexivity].
    + apply Z.eqb_neq in Q. tauto.
  - exists f. split; [rewrite (B l D); exact Nf|]. intros b _. split; [auto|]. intros [Q|(_ & (e & He) & O)]; [exact Q|]. exfalso. apply D. eauto.
Qed.

(** ** Protection *)
Lemma hist_chain m0 since lost m s l e : hist m0 since lost m s -> isEdge m l e -> exists ch, chain (mergedEdges s) (Z.of_nat l) ch /\ NoDup ch /\ (forall a, In a ch <-> partOf m0 m a (Z.of_nat l)) /\
  (length ch <= Datatypes.S (length (mergedEdges s)))%nat /\ (forall x, In x ch -> (Z.to_nat x < length (flags s))%nat) /\ (forall x, In x ch -> 0 <= x).
Proof.
  intros H C. destruct (hist_kept _ _ _ _ _ _ _ _ H) as ((_ & _ & _ & _ & _ & Mk & Fl & _) & _). destruct (Mk l _ (edge_cell m l e C)) as (ch & A & B & D). exists ch. split; [exact A|]. split; [exact B|]. split; [exact D|].
  split; [pose proof (chain_length _ _ _ A B); lia|]. split; [intros x I; apply D in I; destruct I as (u & v & O & _); apply (Fl x u v O)|]. intros x I. apply (chain_bound _ _ _ x A I).
Qed.
Theorem protect m0 since lost m s l e b on : hist m0 since lost m s -> isEdge m l e -> 0 <= b ->
  exists s' r, protectEdge s (Z.of_nat l) (2 ^ b) on = Ok (s', r) /\
    (forall a f, nth_error (flags s) a = Some f -> exists f', nth_error (flags s') a = Some f' /\
       forall n, 0 <= n -> (partOf m0 m (Z.of_nat a) (Z.of_nat l) /\ n = b -> Z.testbit f' n = on) /\ (~ (partOf m0 m (Z.of_nat a) (Z.of_nat l) /\ n = b) -> Z.testbit f' n = Z.testbit f n)) /\
    (r = true <-> exists a f, partOf m0 m (Z.of_nat a) (Z.of_nat l) /\ nth_error (flags s) a = Some f /\ Z.testbit f b <> on) /\ setFlags s' (flags s) = s.
Proof.
  intros H C Hb. destruct (hist_chain _ _ _ _ _ _ _ H C) as (ch & A & B & D & F & L & P0). unfold protectEdge.
  destruct (protectLoop_is _ _ _ (2 ^ b) on A B _ _ F L) as (p' & r & E & Le & P1 & P2 & P3). rewrite E. cbn [bind fst snd]. eexists _, r. split; [reflexivity|]. cbn [flags setFlags]. split; [|split].
  - intros a f Na. destruct (in_dec Z.eq_dec (Z.of_nat a) ch) as [I|I].
    + pose proof (P1 (Z.of_nat a) f I) as Q. rewrite Nat2Z.id in Q. eexists. split; [apply Q, Na|]. intros n Hn. rewrite (flag_to f b on n Hb Hn). apply D in I. destruct (n =? b) eqn:X; [apply Z.eqb_eq in X|apply Z.eqb_neq in X]; split; tauto.
    + exists f. split; [rewrite P2; [exact Na|]|]. { intros J. apply in_map_iff in J. destruct J as (z & Z1 & J). apply I. specialize (P0 z J). replace (Z.of_nat a) with z by lia. exact J. }
      intros n Hn. split; [intros (Q & _); apply D in Q; contradiction|reflexivity].
  - rewrite P3. split.
    + intros (x & f & I & Nf & Q). exists (Z.to_nat x), f. rewrite Z2Nat.id by (apply P0, I). split; [apply D, I|]. split; [exact Nf|]. rewrite <- flag_on by exact Hb. exact Q.
    + intros (a & f & I & Nf & Q). exists (Z.of_nat a), f. rewrite Nat2Z.id. split; [apply D, I|]. split; [exact Nf|]. rewrite flag_on by exact Hb. exact Q.
  - destruct s. reflexivity.
Qed.
Theorem protected m0 since lost m s l e : hist m0 since lost m s -> isEdge m l e ->
  exists r, edgeProtected s (Z.of_nat l) = Ok r /\ (r = true <-> exists a f, partOf m0 m (Z.of_nat a) (Z.of_nat l) /\ nth_error (flags s) a = Some f /\ f <> 0).
Proof.
  intros H C. destruct (hist_chain _ _ _ _ _ _ _ H C) as (ch & A & B & D & F & L & P0). unfold edgeProtected. destruct (protectedLoop_is _ _ _ (flags s) A _ F L) as (r & E & P). exists r. split; [exact E|]. rewrite P. split.
  - intros (x & f & I & Nf & Q). exists (Z.to_nat x), f. rewrite Z2Nat.id by (apply P0, I). split; [apply D, I|auto].
  - intros (a & f & I & Nf & Q). exists (Z.of_nat a), f. rewrite Nat2Z.id. split; [apply D, I|auto].
Qed.
(** the edges of the first map that an edge consists of have an entry each, and there is one at least *)
Theorem parts m0 since lost m s l e : hist m0 since lost m s -> isEdge m l e -> partOf m0 m (Z.of_nat l) (Z.of_nat l) /\ forall a, partOf m0 m a (Z.of_nat l) -> exists n f, a = Z.of_nat n /\ nth_error (flags s) n = Some f /\ forall l', partOf m0 m a l' -> l' = Z.of_nat l.
Proof.
  intros H C. destruct (hist_chain _ _ _ _ _ _ _ H C) as (ch & A & B & D & F & L & P0). split; [apply D, (chain_head _ _ _ A)|]. intros a I. pose proof (proj2 (D a) I) as J. destruct (nth_error (flags s) (Z.to_nat a)) as [f|] eqn:E; [|apply nth_error_None in E; specialize (L a J); lia].
  exists (Z.to_nat a), f. split; [specialize (P0 a J); lia|]. split; [exact E|]. intros l' I'. destruct (hist_kept _ _ _ _ _ _ _ _ H) as ((_ & Wh & _) & _). apply (part_one m0 m a _ _ Wh I' I).
Qed.

(** ** Changes *)
Theorem changes m0 since lost m s : hist m0 since lost m s -> forall x y, 0 <= x < iw (cim m) -> 0 <= y < ih (cim m) -> ipix (cim m) x y <> ipix (cim since) x y -> inRect (lastChanges s) x y.
Proof. intros H. destruct (hist_kept _ _ _ _ _ _ _ _ H) as ((_ & _ & _ & _ & _ & _ & _ & No) & _). exact No. Qed.

(** ** The calls return when those of the map do *)
Lemma stat_at {A} (v : list A) l a : 0 <= l -> nth_error v (Z.to_nat l) = Some a -> at_ v l = Ok a. Proof. intros P E. apply at_Ok. auto. Qed.
Lemma pre_remove_returns m0 since lost m s d : kept original gradient maxValue m0 since lost m s -> bigEnough original (cim m) -> isDart (cim m) d -> exists t, preRemoveEdge original m s d = Ok t.
Proof.
  intros (Fa & _ & _ & Fk & _) B D. assert (Fr : framed (cim m)) by apply Fa. assert (So : sound m) by apply Fa. unfold preRemoveEdge. rewrite leftFace_is by (auto; apply D). rewrite edgeLabel_dart by (auto; apply D). cbn [bind].
  destruct (faced_allows m (CMergeFaces d) Fa D) as (((Sl & _) & _) & _). specialize (Sl _ (leftFace_is (cim m) Fr d (proj1 D))). pose proof (leftLabel_small' m d _ Fa (leftFace_is (cim m) Fr d (proj1 D))) as R0. destruct Sl as (c0 & C0).
  destruct (Fk _ _ C0) as (a & Na & _). rewrite (stat_at _ _ _ (proj1 R0) Na). cbn [bind].
  destruct (pixel_live m _ _ _ _ So (dart_line m d Fr D) ltac:(discriminate)) as (R & c & C). destruct (scan_stat m Line _ c original So C B) as (ps & o & Sc & Is & _). rewrite Z2Nat.id in Sc by lia. rewrite Sc. cbn [bind]. rewrite Is. cbn [bind].
  destruct (cell_edge m _ _ C) as (e & He & _). rewrite (stat_at _ _ _ (proj1 R) (proj1 He)). cbn [bind]. destruct (edge_start m _ _ Fa He) as (D1 & D2 & _). rewrite !nodeLabel_dart by (apply D1 || apply D2). cbn [bind]. eauto.
Qed.
Lemma post_remove_returns m s t k f m' x y v0 : sound m' -> takenOver m m' Region k v0 -> owns (cim m') Region k x y -> at_ (cfaces m') k = Ok f -> (forall l c, isCell m Region l c -> exists a, nth_error (faceStats s) l = Some a) -> exists s', postRemoveEdge s t f = Ok s'.
Proof.
  intros So' Ta O E Fk. destruct (face_entry m' k f _ _ So' O E) as (Lb & _). unfold postRemoveEdge. rewrite Lb. destruct (taker m' Region k x y So' ltac:(discriminate) O) as (c & C & _ & _ & K0).
  destruct (taken_live m m' _ _ _ _ _ _ Ta C) as (_ & c' & C'). destruct (Fk _ _ C') as (a & Na). rewrite put_total; [cbn [bind]; eauto|exact K0|apply nth_error_Some; congruence].
Qed.
Lemma face_at m' k x y : sound m' -> owns (cim m') Region k x y -> exists f, at_ (cfaces m') k = Ok f.
Proof. intros So' O. destruct (taker m' Region k x y So' ltac:(discriminate) O) as (c & (C & _) & _ & _ & K0). cbn [cellsOf] in C. rewrite nth_error_map in C. destruct (nth_error (cfaces m') (Z.to_nat k)) as [f|] eqn:E; [|discriminate C]. exists f. apply stat_at; auto. Qed.
Lemma edge_at m' k x y : sound m' -> owns (cim m') Line k x y -> exists f, at_ (cedges m') k = Ok f.
Proof. intros So' O. destruct (taker m' Line k x y So' ltac:(discriminate) O) as (c & (C & _) & _ & _ & K0). cbn [cellsOf] in C. rewrite nth_error_map in C. destruct (nth_error (cedges m') (Z.to_nat k)) as [f|] eqn:E; [|discriminate C]. exists f. apply stat_at; auto. Qed.

Lemma pre_merge_returns m0 since lost m s d : kept original gradient maxValue m0 since lost m s -> bigEnough gradient (cim m) -> isDart (cim m) d ->
  exists t d1, preMergeEdges gradient maxValue m s d = Ok t /\ nextSigma (cim m) d = Ok d1 /\ isDart (cim m) d1 /\ fst (fst t) = edgeOf (cim m) d /\ snd (fst t) = edgeOf (cim m) d1.
Proof.
  intros (Fa & _ & _ & _ & Ek & _) B D. assert (Fr : framed (cim m)) by apply Fa. assert (So : sound m) by apply Fa. unfold preMergeEdges. assert (Wi : wired m) by apply Fa. destruct Wi as (_ & (_ & Ne & Jo) & _). assert (W1 : way 1) by (left; auto).
  destruct (sigma_defined (cim m) Fr Ne 1 d W1 D) as (d1 & U & Nx & _). assert (D1 : isDart (cim m) d1) by apply Nx. change (nextSigma (cim m) d = Ok d1) in U. rewrite U. cbn [bind].
  rewrite (edgeLabel_dart (cim m) Fr d) by (auto; apply D). rewrite (edgeLabel_dart (cim m) Fr d1) by (auto; apply D1). cbn [bind]. rewrite leftFace_is by (auto; apply D). cbn [bind].
  assert (Rr : exists w, (if sideOf (cim m) 1 d =? 0 then Ok 0 else rightFaceLabel (cim m) d) = Ok w) by (destruct (_ =? _); [eauto|rewrite rightFace_is by (auto; apply D); eauto]). destruct Rr as (w & ->). cbn [bind].
  destruct (_ || _); [eexists _, d1; split; [reflexivity|]; auto|].
  destruct (pixel_live m _ _ _ _ So (dart_line m d Fr D) ltac:(discriminate)) as (R & c & C). destruct (pixel_live m _ _ _ _ So (dart_line m d1 Fr D1) ltac:(discriminate)) as (R1 & c1 & C1).
  destruct (Ek _ _ C) as (a & Na & _). destruct (Ek _ _ C1) as (a1 & Na1 & _). rewrite (stat_at _ _ _ (proj1 R) Na), (stat_at _ _ _ (proj1 R1) Na1). cbn [bind]. rewrite nodeLabel_dart by apply D1. cbn [bind].
  destruct (pixel_live m _ _ _ _ So (dart_node m d1 D1) ltac:(discriminate)) as (Rn & cn & Cn). destruct (scan_avg m Vertex _ cn gradient So Cn B) as (ps & o & Sc & Is & _). rewrite Z2Nat.id in Sc by lia. rewrite Sc. cbn [bind]. rewrite Is. cbn [bind].
  eexists _, d1. split; [reflexivity|]. auto.
Qed.

Theorem calls_same m0 since lost m s c : hist m0 since lost m s -> faceAllowed (cim m) c ->
  (forall m' k, cexec m c = Ok (m', k) -> exists s', exec m s c = Ok (m', s')) /\ (cexec m c = Exn -> exec m s c = Exn).
Proof.
  intros H A. destruct (hist_kept _ _ _ _ _ _ _ _ H) as (K & Bo0 & Bg0). pose proof K as (Fa & Wh & _ & Fk & Ek & Mk & _). pose proof (whole_base m0 m original Wh Bo0) as Bo. pose proof (whole_base m0 m gradient Wh Bg0) as Bg.
  assert (Fk' : forall l c, isCell m Region l c -> exists a, nth_error (faceStats s) l = Some a) by (intros l c0 C0; destruct (Fk l c0 C0) as (a & Na & _); eauto). assert (Fr : framed (cim m)) by apply Fa. assert (So : sound m) by apply Fa.
  destruct c as [d|d|d|d]; cbn [cexec].
  - split; [|intros E; cbn [statExec]; rewrite E; reflexivity]. intros m' k E. destruct (call_facts m _ m' k Fa A E) as (Fa' & Eff). cbn [callEffect] in Eff. destruct Eff as (n & En & _ & Ta). cbn [faceAllowed] in A. destruct A as ((V & _) & _). rewrite nodeLabel_dart in En by exact V. injection En as En.
    assert (O : owns (cim m') Region k (dcx d) (dcy d)) by (destruct V as (X & Y & V); apply (taken_pixel m m' _ _ _ _ _ Ta X Y); left; rewrite V, <- En; reflexivity).
    destruct (face_at m' k _ _ (faced_sound _ Fa') O) as (f & Ef). cbn [statExec]. rewrite E. cbn [bind fst snd]. rewrite Ef. cbn [bind]. eauto.
  - destruct (pre_remove_returns m0 since lost m s d K Bo A) as (t & Et). pose proof (dart_line m d Fr A) as Ol.
    assert (Pm : exists t', preMergeFaces original m s d = Ok t').
    { unfold preMergeFaces. rewrite Et. cbn [bind]. destruct (faced_allows m (CMergeFaces d) Fa A) as (((_ & Sr) & _) & _). specialize (Sr _ (rightFace_is (cim m) Fr d (proj1 A))).
      assert (R0 : 0 <= sideOf (cim m) (-1) d < 2 ^ 30) by (apply (rightLabel_small m d); [apply Fa|apply rightFace_is; auto; apply A]). destruct Sr as (c0 & C0). destruct (Fk' _ _ C0) as (a & Na). rewrite rightFace_is by (auto; apply A). cbn [bind]. rewrite (stat_at _ _ _ (proj1 R0) Na). cbn [bind]. eauto. }
    destruct Pm as (t' & Et'). cbn [statExec]. rewrite Et'. cbn [bind]. split; [|intros E; rewrite E; reflexivity]. intros m' k E. destruct (call_facts m (CMergeFaces d) m' k Fa A E) as (Fa' & Eff). cbn [callEffect] in Eff. destruct Eff as (e & g & l & r & Ee & _ & _ & _ & Ta).
    rewrite edgeLabel_dart in Ee by (auto; apply A). injection Ee as Ee. assert (O : owns (cim m') Region k (dcx d + dirX (ddir d)) (dcy d + dirY (ddir d))) by (destruct Ol as (X & Y & P); apply (taken_pixel m m' _ _ _ _ _ Ta X Y); left; rewrite P, <- Ee; reflexivity).
    destruct (face_at m' k _ _ (faced_sound _ Fa') O) as (f & Ef). rewrite E. cbn [bind fst snd]. rewrite Ef. cbn [bind]. destruct (post_remove_returns m s t' k f m' _ _ _ (faced_sound _ Fa') Ta O Ef Fk') as (s' & Es). rewrite Es. cbn [bind]. eauto.
  - destruct (pre_remove_returns m0 since lost m s d K Bo A) as (t & Et). pose proof (dart_line m d Fr A) as Ol. cbn [statExec]. rewrite Et. cbn [bind]. split; [|intros E; rewrite E; reflexivity].
    intros m' k E. destruct (call_facts m (CRemoveBridge d) m' k Fa A E) as (Fa' & Eff). cbn [callEffect] in Eff. destruct Eff as (e & Ee & _ & _ & Ta).
    rewrite edgeLabel_dart in Ee by (auto; apply A). injection Ee as Ee. assert (O : owns (cim m') Region k (dcx d + dirX (ddir d)) (dcy d + dirY (ddir d))) by (destruct Ol as (X & Y & P); apply (taken_pixel m m' _ _ _ _ _ Ta X Y); left; rewrite P, <- Ee; reflexivity).
    destruct (face_at m' k _ _ (faced_sound _ Fa') O) as (f & Ef). rewrite E. cbn [bind fst snd]. rewrite Ef. cbn [bind]. destruct (post_remove_returns m s t k f m' _ _ _ (faced_sound _ Fa') Ta O Ef Fk') as (s' & Es). rewrite Es. cbn [bind]. eauto.
  - destruct (pre_merge_returns m0 since lost m s d K Bg A) as (t & d1 & Et & _). cbn [statExec]. rewrite Et. cbn [bind]. split; [|intros E; rewrite E; reflexivity].
    intros m' k E. destruct (call_facts m (CMergeEdges d) m' k Fa A E) as (Fa' & Eff). assert (Wi : wired m) by apply Fa.
    destruct (join_facts m d m' k Wi A E Eff) as (n & e & d2 & d3 & a1 & a2 & Ta & _ & _ & _ & D2 & D3 & _ & _ & _ & _ & L2 & L3 & _ & _ & _ & _ & Nd).
    pose proof (dart_node m d A) as (X & Y & P). assert (O : owns (cim m') Line k (dcx d) (dcy d)) by (apply (taken_pixel m m' _ _ _ _ _ Ta X Y); left; rewrite P, <- Nd; reflexivity).
    destruct (edge_at m' k _ _ (faced_sound _ Fa') O) as (f & Ef). rewrite E. cbn [bind fst snd]. rewrite Ef. cbn [bind]. destruct (edge_entry m' k f _ _ (faced_sound _ Fa') O Ef) as (Lb & _). unfold postMergeEdges. rewrite Lb.
    pose proof (dart_line m d3 Fr D3) as O3. rewrite L3 in O3. destruct (pixel_live m _ _ _ _ So O3 ltac:(discriminate)) as (Rk & ck & Ck). destruct (Ek _ _ Ck) as (a & Na & _). rewrite put_total; [|apply Rk|apply nth_error_Some; congruence]. cbn [bind].
    destruct (Mk _ _ Ck) as (ch & Hc & Nc & _). rewrite Z2Nat.id in Hc by apply Rk. destruct (chain_last _ _ _ (Datatypes.S (length (mergedEdges s))) Hc) as (r & b & Er & Eb & Ar); [pose proof (chain_length _ _ _ Hc Nc); lia|]. rewrite Er. cbn [bind].
    apply at_Ok in Ar. rewrite put_total; [|apply Ar|apply nth_error_Some; destruct Ar as (_ & Ar); congruence]. cbn [bind]. eauto.
Qed.

(** ** Calls keep the protection *)
Lemma flags_same m s c m' s' : exec m s c = Ok (m', s') -> flags s' = flags s.
Proof.
  destruct c as [d|d|d|d]; cbn [statExec]; intros H.
  - bnd H r Er. bnd H f Ef. injection H as _ <-. reflexivity.
  - bnd H t Et. bnd H r Er. bnd H f Ef. bnd H q Eqq. injection H as _ <-. unfold postRemoveEdge in Eqq. bnd Eqq v Ev. injection Eqq as <-. reflexivity.
  - bnd H t Et. bnd H r Er. bnd H f Ef. bnd H q Eqq. injection H as _ <-. unfold postRemoveEdge in Eqq. bnd Eqq v Ev. injection Eqq as <-. reflexivity.
  - bnd H t Et. bnd H r Er. bnd H f Ef. bnd H q Eqq. injection H as _ <-. unfold postMergeEdges in Eqq. bnd Eqq v Ev. bnd Eqq w Ew. bnd Eqq u Eu. injection Eqq as <-. reflexivity.
Qed.
Lemma call_taken m c m' k : callEffect m m' c k -> exists t g gone, takenOver m m' t g gone /\ ((t = Region) \/ (t = Line /\ forall l, ~ In (Region, l) gone)).
Proof.
  destruct c as [d|d|d|d]; cbn [callEffect].
  - intros (n & _ & _ & Ta). eauto 6.
  - intros (e & f & l & r & _ & _ & _ & _ & Ta). eauto 6.
  - intros (e & _ & _ & _ & Ta). eauto 6.
  - intros Q. decompose [ex and] Q. eexists _, _, _. split; [eassumption|]. right. split; [reflexivity|]. intros j [I|[I|[]]]; discriminate I.
Qed.
Theorem protection_kept m0 since lost m s c m' s' l e : hist m0 since lost m s -> faceAllowed (cim m) c -> exec m s c = Ok (m', s') -> isEdge m' l e ->
  (edgeProtected s' (Z.of_nat l) = Ok true <-> exists j f x y, isEdge m j f /\ edgeProtected s (Z.of_nat j) = Ok true /\ owns (cim m) Line (Z.of_nat j) x y /\ owns (cim m') Line (Z.of_nat l) x y).
Proof.
  intros H A E He. pose proof (sh_call original gradient maxValue m0 since lost m s c m' s' H A E) as H'. destruct (protected _ _ _ _ _ _ _ H' He) as (r & Er & R). rewrite Er. rewrite (flags_same _ _ _ _ _ E) in R.
  destruct (hist_kept _ _ _ _ _ _ _ _ H) as ((Fa & Wh & _) & _). destruct (exec_call _ _ _ _ _ _ _ _ E) as (k & Ek). destruct (call_facts m c m' k Fa A Ek) as (Fa' & Eff). destruct (call_taken m c m' k Eff) as (t & g & gone & Ta & T). pose proof Ta as (W & Hh & _). destruct Wh as (W0 & H0 & Wp & Wv). assert (So : sound m) by apply Fa.
  split.
  - intros Q. assert (Rt : r = true) by congruence. apply R in Rt. destruct Rt as (a & f & (x & y & P & O) & Nf & Z0). assert (Ol : exists j, owns (cim m) Line j x y).
    { pose proof (Wv _ _ _ P) as V. destruct P as (X & Y & P). destruct O as (_ & _ & O). rewrite (taken_at m m' t g gone x y Ta) in O by lia. exists (plabel (ipix (cim m) x y)). split; [lia|]. split; [lia|]. apply pix_mk; [|reflexivity].
      destruct (ptype (ipix (cim m) x y)) eqn:Tp; auto; [exfalso|contradiction|exfalso].
      - destruct (in_dec _ _ _) as [I|I]; [|rewrite O in Tp; discriminate Tp]. destruct T as [-> |(-> & T)]; [discriminate O|apply (T _ I)].
      - destruct Fa as (_ & Pl & _). apply (Pl x y); [lia|lia|exact Tp]. }
    destruct Ol as (j & Oj). destruct (pixel_live m _ _ _ _ So Oj ltac:(discriminate)) as (Rj & cj & Cj). destruct (cell_edge m _ _ Cj) as (ej & Hj & _). exists (Z.to_nat j), ej, x, y. split; [exact Hj|]. rewrite Z2Nat.id by lia. split; [|split; assumption].
    destruct (protected _ _ _ _ _ _ _ H Hj) as (r' & Er' & R'). rewrite Z2Nat.id in Er', R' by lia. rewrite Er'. f_equal. apply R'. exists a, f. split; [exists x, y; auto|auto].
  - intros (j & f & x & y & Hj & Pj & Oj & Ol). destruct (protected _ _ _ _ _ _ _ H Hj) as (r' & Er' & R'). assert (Rt : r' = true) by congruence. apply R' in Rt. destruct Rt as (a & fl & (u & v & P & O) & Nf & Z0). f_equal. apply R. exists a, fl. split; [|auto]. exists u, v. split; [exact P|].
    destruct O as (U & V & O). destruct Oj as (X & Y & Oj). destruct Ol as (_ & _ & Ol). split; [lia|]. split; [lia|]. rewrite (taken_at m m' t g gone u v Ta U V), O. rewrite (taken_at m m' t g gone x y Ta X Y), Oj in Ol. exact Ol.
Qed.

(** ** After clearLastChanges() *)
Definition resultType (c : ccall) : ctype := match c with CMergeEdges _ => Line | _ => Region end.
Lemma exec_last m s c m' s' k : exec m s c = Ok (m', s') -> cexec m c = Ok (m', k) -> exists b, lastChanges s' = rectOr (lastChanges s) b /\
  match c with CMergeEdges _ => exists f, at_ (cedges m') k = Ok f /\ b = cbounds (einf f) | _ => exists f, at_ (cfaces m') k = Ok f /\ b = cbounds (finf f) end.
Proof.
  destruct c as [d|d|d|d]; cbn [statExec cexec]; intros H E.
  - rewrite E in H. cbn [bind fst snd] in H. bnd H f Ef. injection H as <-. eexists. split; [reflexivity|]. eauto.
  - bnd H t Et. rewrite E in H. cbn [bind fst snd] in H. bnd H f Ef. bnd H q Eqq. injection H as <-. unfold postRemoveEdge in Eqq. bnd Eqq v Ev. injection Eqq as <-. eexists. split; [reflexivity|]. eauto.
  - bnd H t Et. rewrite E in H. cbn [bind fst snd] in H. bnd H f Ef. bnd H q Eqq. injection H as <-. unfold postRemoveEdge in Eqq. bnd Eqq v Ev. injection Eqq as <-. eexists. split; [reflexivity|]. eauto.
  - bnd H t Et. rewrite E in H. cbn [bind fst snd] in H. bnd H f Ef. bnd H q Eqq. injection H as <-. unfold postMergeEdges in Eqq. bnd Eqq v Ev. bnd Eqq w Ew. bnd Eqq u Eu. injection Eqq as <-. eexists. split; [reflexivity|]. eauto.
Qed.
Lemma result_pixel m c m' k : faced m -> faceAllowed (cim m) c -> cexec m c = Ok (m', k) -> exists x y, owns (cim m') (resultType c) k x y.
Proof.
  intros Fa A E. assert (Fr : framed (cim m)) by apply Fa. destruct (call_facts m c m' k Fa A E) as (Fa' & Eff). destruct c as [d|d|d|d]; cbn [callEffect resultType faceAllowed] in *.
  - destruct Eff as (n & En & _ & Ta). destruct A as ((V & _) & _). rewrite nodeLabel_dart in En by exact V. injection En as En. exists (dcx d), (dcy d). destruct V as (X & Y & V). apply (taken_pixel m m' _ _ _ _ _ Ta X Y). left. rewrite V, <- En. reflexivity.
  - destruct Eff as (e & g & l & r & Ee & _ & _ & _ & Ta). rewrite edgeLabel_dart in Ee by (auto; apply A). injection Ee as Ee. pose proof (dart_line m d Fr A) as (X & Y & P). eexists _, _. apply (taken_pixel m m' _ _ _ _ _ Ta X Y). left. rewrite P, <- Ee. reflexivity.
  - destruct Eff as (e & Ee & _ & _ & Ta). rewrite edgeLabel_dart in Ee by (auto; apply A). injection Ee as Ee. pose proof (dart_line m d Fr A) as (X & Y & P). eexists _, _. apply (taken_pixel m m' _ _ _ _ _ Ta X Y). left. rewrite P, <- Ee. reflexivity.
  - assert (Wi : wired m) by apply Fa. destruct (join_facts m d m' k Wi A E Eff) as (n & e & d2 & d3 & a1 & a2 & Ta & _ & _ & _ & D2 & D3 & _ & _ & _ & _ & L2 & L3 & _ & _ & _ & _ & Nd).
    pose proof (dart_node m d A) as (X & Y & P). exists (dcx d), (dcy d). apply (taken_pixel m m' _ _ _ _ _ Ta X Y). left. rewrite P, <- Nd. reflexivity.
Qed.
Theorem cleared_call m0 since lost m s c m' s' : hist m0 since lost m s -> faceAllowed (cim m) c -> exec m (fst (clearLastChanges s)) c = Ok (m', s') ->
  exists k, cexec m c = Ok (m', k) /\ exactRect (owns (cim m') (resultType c) k) (lastChanges s').
Proof.
  intros H A E. destruct (hist_kept _ _ _ _ _ _ _ _ H) as ((Fa & _) & _). destruct (exec_call _ _ _ _ _ _ _ _ E) as (k & Ek). exists k. split; [exact Ek|]. pose proof (exec_faced _ _ _ _ _ _ _ _ Fa A E) as Fa'. assert (So' : sound m') by apply Fa'.
  destruct (result_pixel m c m' k Fa A Ek) as (x & y & O). destruct (exec_last _ _ _ _ _ _ E Ek) as (b & Eb & F).
  assert (Ex : exactRect (owns (cim m') (resultType c) k) b) by (destruct c as [d|d|d|d]; cbn [resultType] in *; destruct F as (f & Ef & ->); (apply (face_entry m' k f x y So' O Ef) || apply (edge_entry m' k f x y So' O Ef))).
  replace (lastChanges s') with b; [exact Ex|]. rewrite Eb. cbn [clearLastChanges fst setLast lastChanges]. unfold rectOr. assert (Ne : rectEmpty b = false).
  { destruct Ex as (Ex & _). specialize (Ex x y O). unfold inRect in Ex. unfold rectEmpty. apply orb_false_iff. rewrite !Z.leb_gt. lia. }
  rewrite Ne. replace (rectEmpty _) with true; [reflexivity|]. unfold rectEmpty. cbn. rewrite Z.leb_refl. reflexivity.
Qed.
End Data.
