(** Every crack is drawn by exactly one edge. *)
From Verif Require Import Base Image_Model Image_Proofs Crack_Model Crack_Spec Crack_Proofs GeoMap_Model GeoMap_Spec CrackFollow_Model CrackFollow_Spec CrackFollow_Static CrackFollow_Loop CrackFollow_Map CrackFollow_Inv.
Local Open Scope Z_scope.

Section Run.
Variables (src : image) (eight : bool).
Hypothesis Hw : 1 <= iw src.
Hypothesis Hh : 1 <= ih src.
Notation crk := (crk src). Notation crkD := (crkD src). Notation isN := (isN src eight). Notation isD := (isD src eight).
Notation isM := (isM src eight). Notation mate := (mate src eight). Notation nxt := (nxt src eight). Notation corner := (corner src).
Notation G := (G src eight).

Definition freeAt s L : Prop := isD s = false -> forall e, ~ Passed L (s, e).

Lemma G_label o cc ni m L : G o cc ni m L -> forall p l, corner p -> Z.shiftr (px ni p) 4 = Z.of_nat l + 1 -> posOf m l = Some (pt p).
Proof.
  intros I p l C E. destruct (g_info _ _ _ _ _ _ _ I p C) as [[Z0 _]|(l' & B1 & B2 & _)]; [rewrite Z0 in E; cbn in E; lia|].
  replace l with l' by lia. exact B2.
Qed.
Lemma posOf_lt m l v : posOf m l = Some v -> (l < length (nodes m))%nat.
Proof. unfold posOf, nodeP. intros H. apply nth_error_Some. destruct (nth_error (nodes m) l); discriminate. Qed.

Lemma startDir_ok s a cc ni m L d : G (eq s) cc ni m L -> corner s -> Z.shiftr (px ni s) 4 = Z.of_nat a + 1 ->
  (isN s = true \/ isM s = true) -> freeAt s L ->
  exists cc' ni' m' L', startDir (fst s) (snd s) a (mkGen cc ni m, px ni s) d = Ok (mkGen cc' ni' m', px ni' s) /\
    G (eq s) cc' ni' m' L' /\ Z.shiftr (px ni' s) 4 = Z.of_nat a + 1 /\ freeAt s L' /\
    (forall x, Used L x -> Used L' x) /\ (crk s d = true -> Used L' (s, d)).
Proof.
  intros I C Sa Ts Fr. pose proof (g_cc _ _ _ _ _ _ _ I) as Icc.
  assert (InC : forall p im, corner p -> iw im = iw src + 1 -> ih im = ih src + 1 -> 0 <= fst p < iw im /\ 0 <= snd p < ih im).
  { intros p im [X Y] -> ->. lia. }
  assert (Bits : Ends L (s, d) <-> Z.testbit (px ni s) (bitOf d) = true).
  { destruct (g_info _ _ _ _ _ _ _ I s C) as [[Z0 _]|(l & _ & _ & _ & B4)]; [rewrite Z0 in Sa; cbn in Sa; lia|]. symmetry. apply B4. }
  unfold startDir. cbn [gcc gni gmapOf].
  rewrite getPx_Ok by (apply (InC s cc C (ci_w _ _ _ _ Icc) (ci_h _ _ _ _ Icc))). cbn [bind].
  change (ipx cc (fst s) (snd s)) with (px cc s). rewrite !hasBit_conn.
  destruct (Z.testbit (px cc s) (bitOf d) && negb (Z.testbit (px ni s) (bitOf d))) eqn:Go.
  2:{ exists cc, ni, m, L. split; [reflexivity|]. split; [exact I|]. split; [exact Sa|]. split; [exact Fr|]. split; [auto|]. intros K. rewrite Used_split. apply andb_false_iff in Go as [Go|Go].
      - destruct (isD s) eqn:D.
        + left. exact (ci_diag0 _ _ _ _ Icc s C D d Go).
        + exfalso. pose proof (ci_plain _ _ _ _ Icc s C D d) as B. congruence.
      - right. apply Bits. apply negb_false_iff, Go. }
  apply andb_true_iff in Go as [G1 G2]. apply negb_true_iff in G2.
  assert (K : crk s d = true).
  { destruct (isD s) eqn:D; [|pose proof (ci_plain _ _ _ _ Icc s C D d); congruence].
    destruct (isD_four src eight s D) as (? & ? & ? & ? & _). destruct d; assumption. }
  assert (Us : ~ Used L (s, d)).
  { rewrite Used_split, Bits. intros [X|X]; [|congruence]. destruct (isD s) eqn:D.
    - exact (ci_diag1 _ _ _ _ Icc s C D d G1 X).
    - exact (Fr D d X). }
  assert (Free : forall y, crkD y = true -> ~ Used L y -> isN (tgt y) = false -> tgt y <> s -> ~ Used L (nxt y)).
  { intros y Ky Uy Ny Ty X. apply Uy. apply Used_rv. unfold rv. rewrite Used_split in X.
    assert (Kr : crk (tgt y) (opposite (snd y)) = true) by (rewrite <- crkD_rv in Ky; exact Ky).
    destruct X as [X|X].
    - apply (G_pass _ _ _ _ _ _ _ I) in X as [_ X].
      rewrite (proj1 (proj2 (proj2 (mate_spec src eight _ _ Ny Kr)))) in X. rewrite Used_split. left. exact X.
    - apply (g_start _ _ _ _ _ _ _ I (tgt y)); auto. eexists; exact X. }
  destruct (followEdge_spec src eight s d (Used L) cc (Passed L) ltac:(lia) ltac:(lia) Icc K Us Free) as (w2 & cc' & Ef & Ch & Te & Kw & Icc').
  rewrite Ef. cbn [bind]. clear Ef. set (W := (s, d) :: w2) in *. set (l := last W (s, d)) in *. set (e := tgt l) in *.
  assert (Inl : In l W).
  { apply in_removelast_or. right. apply last_rev. discriminate. }
  assert (Ce : corner e) by (apply tgt_corner, Kw, Inl).
  destruct e as [ex ey] eqn:Ee. rewrite <- Ee in *.
  replace ex with (fst e) by (rewrite Ee; reflexivity). replace ey with (snd e) by (rewrite Ee; reflexivity).
  rewrite getPx_Ok by (apply (InC e ni Ce (g_niw _ _ _ _ _ _ _ I) (g_nih _ _ _ _ _ _ _ I))). cbn [bind].
  change (ipx ni (fst e) (snd e)) with (px ni e).
  set (pts := map (fun y => pt (fst y)) W ++ [pt e]).
  assert (L2 : (2 <= length pts)%nat) by (unfold pts; rewrite app_length; cbn; lia).
  assert (H1 : hd_error pts = Some (pt s)) by reflexivity.
  assert (H2 : hd_error (rev pts) = Some (pt e)) by (unfold pts; rewrite rev_app_distr; reflexivity).
  (* used cracks afterwards *)
  assert (Fin : freeAt s (L ++ [W]) /\ (forall x, Used L x -> Used (L ++ [W]) x) /\ (crk s d = true -> Used (L ++ [W]) (s, d))).
  { split; [|split].
    - intros D f. rewrite Passed_app. intros [X|X]; [exact (Fr D f X)|].
      destruct (chain_pass src eight s W Ch (fun x Hx => proj1 (Kw x Hx)) _ X) as (_ & X2 & _). apply X2. reflexivity.
    - intros x X. rewrite Used_app. auto.
    - intros _. rewrite Used_app. right. left. left. reflexivity. }
  (* the node at the end *)
  assert (Node : exists ni1 m1 b, (if px ni e =? 0
        then let (m0, l0) := addNode m (2 * fst e - 1, 2 * snd e - 1) in (m0, l0, infoOfNode l0)
        else (m, nodeOfInfo (px ni e), px ni e)) = (m1, b, px ni1 e) /\ G (eq s) cc ni1 m1 L /\
      Z.shiftr (px ni1 s) 4 = Z.of_nat a + 1 /\ Z.shiftr (px ni1 e) 4 = Z.of_nat b + 1 /\ (b = a -> e = s) /\ (e = s -> b = a) /\
      (forall p, p <> e -> px ni1 p = px ni p) /\ px ni1 s = px ni s /\ iw ni1 = iw ni /\ ih ni1 = ih ni).
  { destruct (Z.eqb_spec (px ni e) 0) as [Z0|NZ].
    - assert (Ne : e <> s) by (intros Q; rewrite <- Q, Z0 in Sa; cbn in Sa; lia).
      assert (Te' : isN e = true \/ isM e = true) by (destruct Te as [Te|Te]; [contradiction|left; exact Te]).
      pose proof (G_addNode src eight _ _ _ _ _ e I Ce Z0 Te') as I1.
      eexists (setPx ni (fst e) (snd e) (infoOfNode (length (nodes m)))), (fst (addNode m (pt e))), (length (nodes m)).
      assert (P1 : px (setPx ni (fst e) (snd e) (infoOfNode (length (nodes m)))) e = infoOfNode (length (nodes m))).
      { rewrite px_set, (proj2 (same_corner e e) eq_refl). reflexivity. }
      assert (P2 : forall p, p <> e -> px (setPx ni (fst e) (snd e) (infoOfNode (length (nodes m)))) p = px ni p).
      { intros p N. rewrite px_set. destruct (_ && _) eqn:Q; [apply same_corner in Q; contradiction|reflexivity]. }
      split; [rewrite P1; reflexivity|]. split; [exact I1|]. split; [rewrite P2 by auto; exact Sa|]. split; [rewrite P1; apply info_shift|].
      split; [|split; [intros; contradiction|split; [exact P2|split; [apply P2; auto|split; reflexivity]]]].
      intros Q. pose proof (posOf_lt _ _ _ (G_label _ _ _ _ _ I s a C Sa)). lia.
    - destruct (g_info _ _ _ _ _ _ _ I e Ce) as [[Z0 _]|(b & B1 & B2 & _)]; [contradiction|].
      exists ni, m, b. rewrite (nodeOfInfo_shift _ _ B1). split; [reflexivity|]. split; [exact I|]. split; [exact Sa|]. split; [exact B1|].
      split; [|split; [|split; [reflexivity|split; [reflexivity|split; reflexivity]]]].
      + intros ->. rewrite (G_label _ _ _ _ _ I s a C Sa) in B2. symmetry. apply pt_inj. congruence.
      + intros Q. rewrite Q in B1. lia. }
  destruct Node as (ni1 & m1 & b & En & I1 & Sa1 & Sb1 & Q1 & Q2 & P1 & P2 & W1 & W2). rewrite En. clear En.
  pose proof (g_sorted _ _ _ _ _ _ _ I1) as So. pose proof (g_faces _ _ _ _ _ _ _ I1) as Fa. pose proof (g_hist _ _ _ _ _ _ _ I1) as Hi.
  destruct (addEdge_step m1 a b pts (pt s) (pt e) Hi So Fa (G_label _ _ _ _ _ I1 s a C Sa1) (G_label _ _ _ _ _ I1 e b Ce Sb1) L2 H1 H2)
    as (m' & Ea & Hi' & Ap & Po).
  rewrite Ea. cbn [bind fst snd].
  destruct (InC s ni C (g_niw _ _ _ _ _ _ _ I) (g_nih _ _ _ _ _ _ _ I)) as [Is1 Is2].
  destruct (InC e ni Ce (g_niw _ _ _ _ _ _ _ I) (g_nih _ _ _ _ _ _ _ I)) as [Ie1 Ie2].
  assert (Done : forall ni2, iw ni2 = iw ni -> ih ni2 = ih ni ->
    (forall p, (p <> s /\ p <> e -> px ni2 p = px ni p) /\ Z.shiftr (px ni2 p) 4 = Z.shiftr (px ni1 p) 4 /\
      forall f, Z.testbit (px ni2 p) (bitOf f) = true <-> Z.testbit (px ni1 p) (bitOf f) = true \/ (p, f) = (s, d) \/ (p, f) = rv l) ->
    exists cc'0 ni' m'0 L', Ok (mkGen cc' ni2 m', px ni2 s) = Ok (mkGen cc'0 ni' m'0, px ni' s) /\
    G (eq s) cc'0 ni' m'0 L' /\ Z.shiftr (px ni' s) 4 = Z.of_nat a + 1 /\ freeAt s L' /\
    (forall x, Used L x -> Used L' x) /\ (crk s d = true -> Used L' (s, d))).
  { intros ni2 V1 V2 V3. exists cc', ni2, m', (L ++ [W]). split; [reflexivity|]. split; [|split; [|exact Fin]].
    - apply (G_addEdge src eight s d w2 cc cc' ni1 ni2 m1 m' L a b); auto; try congruence.
      intros p Cp. destruct (V3 p) as (X1 & X2 & X3). split; [|split; assumption]. intros [Y1 Y2]. rewrite P1 by exact Y2. apply X1; auto.
    - rewrite (proj1 (proj2 (V3 s))). exact Sa1. }
  assert (Rl : rv l = (e, opposite (snd l))) by reflexivity.
  destruct (Nat.eqb_spec a b) as [Eab|Nab].
  - rewrite putPx_Ok by assumption. cbn [bind].
    assert (Ees : e = s) by (apply Q1; auto).
    set (v := Z.lor (Z.lor (px ni s) (connOf d)) (connOf (opposite (snd l)))).
    assert (E0 : px (setPx ni (fst s) (snd s) v) s = v) by (rewrite px_set, (proj2 (same_corner s s) eq_refl); reflexivity).
    specialize (Done (setPx ni (fst s) (snd s) v)). rewrite E0 in Done. apply Done; [reflexivity|reflexivity|]. intros p. rewrite px_set. destruct (_ && _) eqn:Q.
    + apply same_corner in Q. subst p. split; [intros [X _]; contradiction|]. rewrite P2. unfold v. split; [rewrite !lor_shift; reflexivity|].
      intros f. rewrite !lor_bits, Rl, Ees. split.
      * intros [[X|X]|X]; auto; [right; left|right; right]; f_equal; exact X.
      * intros [X|[X|X]]; auto; [left; right|right]; injection X; auto.
    + assert (Np : p <> s) by (intros X; apply same_corner in X; congruence).
      rewrite P1 by congruence. split; [reflexivity|]. split; [reflexivity|]. intros f. rewrite Rl, Ees. split; [auto|].
      intros [X|[X|X]]; auto; injection X; intros; contradiction.
  - assert (Nes : e <> s) by (intros X; apply Q2 in X; congruence).
    rewrite !putPx_Ok by assumption. cbn [bind]. rewrite putPx_Ok by assumption. cbn [bind].
    set (v := Z.lor (px ni s) (connOf d)). set (v' := Z.lor (px ni1 e) (connOf (opposite (snd l)))).
    set (ni2 := setPx (setPx ni (fst s) (snd s) v) (fst e) (snd e) v').
    assert (Px : forall p, px ni2 p = if (fst p =? fst e) && (snd p =? snd e) then v' else if (fst p =? fst s) && (snd p =? snd s) then v else px ni p).
    { intros p. unfold ni2. rewrite !px_set. reflexivity. }
    assert (Fse : (fst s =? fst e) && (snd s =? snd e) = false).
    { destruct (_ && _) eqn:Q; [|reflexivity]. apply same_corner in Q. congruence. }
    assert (E0 : px ni2 s = v) by (rewrite Px, Fse, (proj2 (same_corner s s) eq_refl); reflexivity).
    specialize (Done ni2). rewrite E0 in Done. apply Done; [reflexivity|reflexivity|]. intros p. rewrite Px.
    destruct ((fst p =? fst e) && (snd p =? snd e)) eqn:Qe.
    + apply same_corner in Qe. subst p. split; [intros [_ X]; contradiction|]. unfold v'. split; [apply lor_shift|].
      intros f. rewrite lor_bits, Rl. split.
      * intros [X|X]; auto. right; right. f_equal; exact X.
      * intros [X|[X|X]]; auto; [injection X; intros; contradiction|right; injection X; auto].
    + assert (Npe : p <> e) by (intros X; apply same_corner in X; congruence).
      destruct ((fst p =? fst s) && (snd p =? snd s)) eqn:Qs.
      * apply same_corner in Qs. subst p. split; [intros [X _]; contradiction|]. rewrite P2. unfold v. split; [apply lor_shift|].
        intros f. rewrite lor_bits, Rl. split.
        -- intros [X|X]; auto. right; left. f_equal; exact X.
        -- intros [X|[X|X]]; auto; [right; injection X; auto|injection X; intros; contradiction].
      * assert (Nps : p <> s) by (intros X; apply same_corner in X; congruence).
        rewrite P1 by exact Npe. split; [reflexivity|]. split; [reflexivity|]. intros f. rewrite Rl. split; [auto|].
        intros [X|[X|X]]; auto; injection X; intros; contradiction.
Qed.

Lemma startDirs_ok s a ds : forall cc ni m L, G (eq s) cc ni m L -> corner s -> Z.shiftr (px ni s) 4 = Z.of_nat a + 1 ->
  (isN s = true \/ isM s = true) -> freeAt s L ->
  exists cc' ni' m' L', startDirs (fst s) (snd s) a (mkGen cc ni m, px ni s) ds = Ok (mkGen cc' ni' m', px ni' s) /\
    G (eq s) cc' ni' m' L' /\ (forall x, Used L x -> Used L' x) /\ (forall d, In d ds -> crk s d = true -> Used L' (s, d)).
Proof.
  induction ds as [|d ds IH]; intros cc ni m L I C Sa Ts Fr.
  - exists cc, ni, m, L. split; [reflexivity|]. split; [exact I|]. split; [auto|]. intros d [].
  - destruct (startDir_ok s a cc ni m L d I C Sa Ts Fr) as (cc1 & ni1 & m1 & L1 & E1 & I1 & S1 & F1 & U1 & D1).
    destruct (IH cc1 ni1 m1 L1 I1 C S1 Ts F1) as (cc2 & ni2 & m2 & L2 & E2 & I2 & U2 & D2).
    exists cc2, ni2, m2, L2. cbn [startDirs]. rewrite E1. cbn [bind]. split; [exact E2|]. split; [exact I2|]. split; [auto|].
    intros d' [<-|Hd] K; auto.
Qed.

(** one corner; afterwards all its cracks are used if the mask selects it *)
Lemma startCorner_ok mask s cc ni m L : (mask = CONN_NODE \/ mask = CONN_MAYBE_NODE) ->
  G (fun _ => False) cc ni m L -> corner s ->
  exists cc' ni' m' L', startCorner mask (fst s) (snd s) (mkGen cc ni m) = Ok (mkGen cc' ni' m') /\
    G (fun _ => False) cc' ni' m' L' /\ (forall x, Used L x -> Used L' x) /\
    ((mask = CONN_NODE /\ isN s = true) \/ (mask = CONN_MAYBE_NODE /\ isM s = true) -> forall d, crk s d = true -> Used L' (s, d)).
Proof.
  intros Hm I C. pose proof (g_cc _ _ _ _ _ _ _ I) as Icc.
  assert (Ic : 0 <= fst s < iw cc /\ 0 <= snd s < ih cc) by (rewrite (ci_w _ _ _ _ Icc), (ci_h _ _ _ _ Icc); destruct C; lia).
  assert (In' : 0 <= fst s < iw ni /\ 0 <= snd s < ih ni) by (rewrite (g_niw _ _ _ _ _ _ _ I), (g_nih _ _ _ _ _ _ _ I); destruct C; lia).
  unfold startCorner. cbn [gcc gni gmapOf]. rewrite getPx_Ok by apply Ic. cbn [bind].
  change (ipx cc (fst s) (snd s)) with (px cc s).
  assert (Sel : (Z.land (px cc s) mask =? 0) = negb (Z.testbit (px cc s) (if mask =? 64 then 6 else 7))).
  { destruct Hm as [->| ->].
    - change (64 =? 64) with true. rewrite <- hasBit_node. unfold hasBit. rewrite negb_involutive. reflexivity.
    - change (CONN_MAYBE_NODE =? 64) with false. rewrite <- hasBit_may. unfold hasBit. rewrite negb_involutive. reflexivity. }
  rewrite Sel. destruct (Z.testbit (px cc s) (if mask =? 64 then 6 else 7)) eqn:B; cbn [negb].
  2:{ exists cc, ni, m, L. split; [reflexivity|]. split; [exact I|]. split; [auto|]. intros [[-> X]|[-> X]] d K.
      - change (Z.testbit (px cc s) 6 = false) in B. rewrite (ci_n _ _ _ _ Icc s C) in B. congruence.
      - change (Z.testbit (px cc s) 7 = false) in B. rewrite Used_split. left. exact (ci_gone _ _ _ _ Icc s C X B d K). }
  assert (Ts : isN s = true \/ isM s = true).
  { destruct Hm as [->| ->].
    - left. rewrite <- (ci_n _ _ _ _ Icc s C). exact B.
    - right. apply (ci_may _ _ _ _ Icc s C B). }
  assert (Fr : freeAt s L).
  { intros D e X. destruct Hm as [->| ->].
    - apply (G_pass _ _ _ _ _ _ _ I) in X as [X _]. change (Z.testbit (px cc s) 6 = true) in B. rewrite (ci_n _ _ _ _ Icc s C) in B. congruence.
    - exact (proj2 (ci_may _ _ _ _ Icc s C B) D e X). }
  assert (I' : G (eq s) cc ni m L) by (eapply G_open; [|exact I]; intros q []).
  rewrite getPx_Ok by apply In'. cbn [bind]. change (ipx ni (fst s) (snd s)) with (px ni s).
  assert (Node : exists ni1 m1 a, (if px ni s =? 0
        then let (m0, l) := addNode m (2 * fst s - 1, 2 * snd s - 1) in (mkGen cc (setPx ni (fst s) (snd s) (infoOfNode l)) m0, l, infoOfNode l)
        else (mkGen cc ni m, nodeOfInfo (px ni s), px ni s)) = (mkGen cc ni1 m1, a, px ni1 s) /\ G (eq s) cc ni1 m1 L /\
      Z.shiftr (px ni1 s) 4 = Z.of_nat a + 1).
  { destruct (Z.eqb_spec (px ni s) 0) as [Z0|NZ].
    - exists (setPx ni (fst s) (snd s) (infoOfNode (length (nodes m)))), (fst (addNode m (pt s))), (length (nodes m)).
      assert (P1 : px (setPx ni (fst s) (snd s) (infoOfNode (length (nodes m)))) s = infoOfNode (length (nodes m))).
      { rewrite px_set, (proj2 (same_corner s s) eq_refl). reflexivity. }
      rewrite P1. split; [reflexivity|]. split; [apply (G_addNode src eight); auto|apply info_shift].
    - destruct (g_info _ _ _ _ _ _ _ I s C) as [[Z0 _]|(b & B1 & _)]; [contradiction|].
      exists ni, m, b. rewrite (nodeOfInfo_shift _ _ B1). auto. }
  destruct Node as (ni1 & m1 & a & En & I1 & Sa). rewrite En.
  destruct (startDirs_ok s a [East; North; West; South] cc ni1 m1 L I1 C Sa Ts Fr) as (cc2 & ni2 & m2 & L2 & E2 & I2 & U2 & D2).
  rewrite E2. cbn [bind fst]. exists cc2, ni2, m2, L2. split; [reflexivity|].
  assert (All : forall d, crk s d = true -> Used L2 (s, d)) by (intros d; apply D2; destruct d; cbn; auto).
  split; [apply (G_close src eight s); auto|]. split; [exact U2|]. intros _. exact All.
Qed.

(** all corners in scan order *)
Definition selects mask p := (mask = CONN_NODE /\ isN p = true) \/ (mask = CONN_MAYBE_NODE /\ isM p = true).
Lemma followAll_ok mask cc ni m L : (mask = CONN_NODE \/ mask = CONN_MAYBE_NODE) -> G (fun _ => False) cc ni m L ->
  exists cc' ni' m' L', followAllEdgesStartingWith mask (mkGen cc ni m) = Ok (mkGen cc' ni' m') /\
    G (fun _ => False) cc' ni' m' L' /\ (forall x, Used L x -> Used L' x) /\
    (forall p, corner p -> selects mask p -> forall d, crk p d = true -> Used L' (p, d)).
Proof.
  intros Hm I. unfold followAllEdgesStartingWith. cbn [gcc].
  pose proof (g_cc _ _ _ _ _ _ _ I) as Icc. rewrite (ci_w _ _ _ _ Icc), (ci_h _ _ _ _ Icc).
  pose (J := fun (b : Z * Z -> Prop) (g : gen) => exists L', G (fun _ => False) (gcc g) (gni g) (gmapOf g) L' /\ (forall x, Used L x -> Used L' x) /\
    (forall p, corner p -> b p -> selects mask p -> forall d, crk p d = true -> Used L' (p, d))).
  destruct (forZ_inv gen (fun y g => J (fun p => snd p < y) g)
    (fun y g => forZ 0 (iw src + 1) (fun x g => startCorner mask x y g) g) 0 (ih src + 1) (mkGen cc ni m) ltac:(lia)) as (g & E & L' & I' & U' & D').
  - exists L. split; [exact I|]. split; [auto|]. intros p [_ P] Hp. lia.
  - intros y g Hy Hg.
    destruct (forZ_inv gen (fun x g => J (fun p => snd p < y \/ (snd p = y /\ fst p < x)) g)
      (fun x g => startCorner mask x y g) 0 (iw src + 1) g ltac:(lia)) as (g2 & E2 & L2 & I2 & U2 & D2).
    + destruct Hg as (L1 & I1 & U1 & D1). exists L1. split; [exact I1|]. split; [exact U1|]. intros p C [Hp|[_ Hp]]; [auto|]. destruct C; lia.
    + intros x g1 Hx (L1 & I1 & U1 & D1). destruct g1 as [cc1 ni1 m1]. cbn [gcc gni gmapOf] in I1.
      destruct (startCorner_ok mask (x, y) cc1 ni1 m1 L1 Hm I1) as (cc2 & ni2 & m2 & L2 & E2 & I2 & U2 & D2); [split; cbn; lia|].
      cbn [fst snd] in E2. exists (mkGen cc2 ni2 m2). split; [exact E2|]. exists L2. cbn [gcc gni gmapOf]. split; [exact I2|].
      split; [auto|]. intros p C Hp Sp d K.
      assert (Q : p = (x, y) \/ (snd p < y \/ snd p = y /\ fst p < x)).
      { destruct p as [u v]; cbn [fst snd] in *. destruct (Z.eq_dec v y) as [->|]; [|lia]. destruct (Z.eq_dec u x) as [->|]; [auto|lia]. }
      destruct Q as [->|Q]; [apply D2; assumption|]. apply U2, (D1 p); auto.
    + exists g2. split; [exact E2|]. exists L2. split; [exact I2|]. split; [exact U2|]. intros p C Hp. apply (D2 p C).
      destruct C as [C1 C2]. unfold isCorner in *. lia.
  - destruct g as [cc' ni' m']. exists cc', ni', m', L'. split; [exact E|]. split; [exact I'|]. split; [exact U'|].
    intros p C. apply (D' p C). destruct C; lia.
Qed.

(** ** No crack is missed *)
Lemma coverage cc ni m L : G (fun _ => False) cc ni m L ->
  (forall p, corner p -> isN p = true \/ isM p = true -> forall d, crk p d = true -> Used L (p, d)) ->
  forall x, crkD x = true -> Used L x.
Proof.
  intros I Done.
  assert (P : forall n p, snd p * (iw src + 2) + fst p < Z.of_nat n -> forall d, crk p d = true -> Used L (p, d)).
  { induction n as [|n IH]; intros p Hn d K.
    - pose proof (crk_corner src p d K) as [C1 C2]. exfalso. nia.
    - pose proof (crk_corner src p d K) as C.
      destruct (isN p) eqn:N; [apply Done; auto|]. destruct (isM p) eqn:M; [apply Done; auto|].
      assert (D : isD p = false) by (destruct (isD p) eqn:D; [destruct (isD_four src eight p D) as (_ & _ & _ & _ & _ & X); congruence|reflexivity]).
      assert (Up : forall e, e = North \/ e = West -> crk p e = true -> Used L (p, e)).
      { intros e He Ke. apply Used_rv. change (Used L (tgt (p, e), opposite e)). apply IH.
        - unfold tgt, mv; cbn [fst snd]. destruct C as [C1 C2]. destruct He as [->| ->]; cbn [dirDiff fst snd]; nia.
        - pose proof (crkD_rv src (p, e)) as R. unfold crkD in R. cbn [rv fst snd] in R. rewrite R. exact Ke. }
      assert (Both : forall e, crk p e = true -> Used L (p, e) -> Used L (p, d)).
      { intros e Ke Ue. rewrite Used_split in Ue. destruct Ue as [Ue|Ue].
        - destruct (mate_spec src eight p e N Ke) as (_ & _ & _ & M4). destruct (M4 D d K) as [->| ->].
          + rewrite Used_split. auto.
          + apply (G_pass _ _ _ _ _ _ _ I) in Ue as [_ Ue]. rewrite Used_split. auto.
        - apply (g_start _ _ _ _ _ _ _ I p); auto. exists e. exact Ue. }
      destruct (crk p North) eqn:KN; [apply (Both North); auto|].
      destruct (crk p West) eqn:KW; [apply (Both West); auto|]. exfalso.
      pose proof (notN_two src eight p N D) as C2'. pose proof (cracksAt_cases src (fst p) (snd p)) as C4.
      unfold CrackFollow_Static.isM, mayStart in M. unfold CrackFollow_Static.isN in N. rewrite N in M. cbn [negb andb] in M.
      unfold CrackFollow_Static.crk in *. rewrite KN, KW in M. unfold cracksAt in C4. rewrite KN, KW in C4.
      apply orb_false_iff in M as [M _].
      destruct d; try congruence; rewrite K in *; destruct (crackEast src (fst p) (snd p)), (crackSouth src (fst p) (snd p)); cbn in *; try discriminate; intuition lia. }
  intros [p d] K. assert (Hp := crk_corner src p d K). destruct Hp as [P1 P2].
  apply (P (Z.to_nat (snd p * (iw src + 2) + fst p + 1)) p); [nia|exact K].
Qed.

(** ** The generated map *)
Lemma crackEdgeMap_G : exists cc ni m L, crackEdgeMap src eight = Ok (mkGen cc ni m) /\ G (fun _ => False) cc ni m L /\
  forall x, crkD x = true -> Used L x.
Proof.
  destruct (crackImage_spec src eight Hw Hh) as (cc & E & W & H & P). unfold crackEdgeMap. rewrite E. cbn [bind].
  assert (I0 : G (fun _ => False) cc (newImg (iw src + 1) (ih src + 1) 0) empty_map []).
  { constructor; try reflexivity.
    - eapply ccInv_ext; [|apply (ccInv_start src eight cc W H P)]. intros x. split; [intros []|intros (w & [] & _)].
    - intros w [].
    - constructor.
    - intros a b [].
    - intros q _ _ (d & w & [] & _).
    - intros p C. left. split; [reflexivity|]. intros d (w & [] & _).
    - intros l v Hv. unfold posOf, nodeP in Hv. cbn in Hv. destruct l; discriminate.
    - exists []. split; [reflexivity|constructor].
    - constructor. }
  destruct (followAll_ok CONN_NODE cc _ _ _ (or_introl eq_refl) I0) as (cc1 & ni1 & m1 & L1 & E1 & I1 & U1 & D1). rewrite E1. cbn [bind].
  destruct (followAll_ok CONN_MAYBE_NODE cc1 ni1 m1 L1 (or_intror eq_refl) I1) as (cc2 & ni2 & m2 & L2 & E2 & I2 & U2 & D2). rewrite E2.
  exists cc2, ni2, m2, L2. split; [reflexivity|]. split; [exact I2|]. apply (coverage cc2 ni2 m2 L2 I2).
  intros p C [T|T] d K; [apply U2, (D1 p C); auto; left; auto|apply (D2 p C); auto; right; auto].
Qed.
End Run.
