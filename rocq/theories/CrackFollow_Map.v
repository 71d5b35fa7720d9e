(** addNode and addEdge before initializeMap: never refused, and the edge is appended to the table. *)
From Verif Require Import Base GeoMap_Model GeoMap_Spec GeoMap_Views GeoMap_SInv GeoMap_History GeoMap_Results GeoMap_Examples.
Local Open Scope Z_scope.

Definition quiet {A} (P : A -> Prop) (r : res A) : Prop := match r with Ok a => P a | Exn => False | _ => True end.
Definition fr m m' : Prop := sorted m' = sorted m /\ edges m' = edges m /\ faces m' = faces m /\ length (nodes m') = length (nodes m).
Lemma fr_refl m : fr m m. Proof. repeat split. Qed.
Lemma fr_trans a b c : fr a b -> fr b c -> fr a c.
Proof. intros (A1 & A2 & A3 & A4) (B1 & B2 & B3 & B4). unfold fr. repeat split; congruence. Qed.
Lemma quiet_bind {A B} (P : A -> Prop) (Q : B -> Prop) r k : quiet P r -> (forall a, P a -> quiet Q (k a)) -> quiet Q (bind r k).
Proof. destruct r; cbn; auto. Qed.
Lemma quiet_mono {A} (P Q : A -> Prop) r : (forall a, P a -> Q a) -> quiet P r -> quiet Q r.
Proof. destruct r; cbn; auto. Qed.

Lemma putS_fr m a b : quiet (fr m) (putS m a b). Proof. unfold putS. destruct (inCap m a); cbn; [repeat split|exact I]. Qed.
Lemma putSi_fr m a b : quiet (fr m) (putSi m a b). Proof. unfold putSi. destruct (inCap m a); cbn; [repeat split|exact I]. Qed.
Lemma grow_fr d n : forall m, quiet (fr m) (growSigma n m d).
Proof.
  induction n as [|n IH]; intros m; cbn [growSigma]; destruct (inCap m d); cbn; try apply fr_refl; auto.
  eapply quiet_mono; [|apply IH]. intros a H. eapply fr_trans; [|exact H]. repeat split.
Qed.
Ltac qstep L := eapply quiet_bind; [apply L|]; let m1 := fresh "m" in let H := fresh "F" in intros m1 H.
Lemma isp_fr m s n : quiet (fr m) (insertSigmaPredecessor m s n).
Proof.
  unfold insertSigmaPredecessor. qstep grow_fr. destruct (s =? 0).
  - qstep putS_fr. eapply quiet_mono; [|apply putSi_fr]. intros a H. eauto using fr_trans.
  - unfold getSi. destruct (inCap m0 s); cbn [bind]; [|exact I].
    qstep putS_fr. qstep putS_fr. qstep putSi_fr. eapply quiet_mono; [|apply putSi_fr]. intros a H. eauto using fr_trans.
Qed.
Lemma sna_fr m l a : (l < length (nodes m))%nat -> quiet (fr m) (setNodeAnchor m l a).
Proof.
  intros H. unfold setNodeAnchor, nodeP. destruct (nth_error (nodes m) l) as [[nd|]|] eqn:E; cbn; auto.
  - repeat split. unfold putN; cbn. apply list_upd_length.
  - apply nth_error_None in E. lia.
Qed.
Lemma deref_quiet m l : (l < length (nodes m))%nat -> quiet (fun _ => True) (deref (nodeP m l)).
Proof.
  intros H. unfold nodeP. destruct (nth_error (nodes m) l) as [[nd|]|] eqn:E; cbn; auto. apply nth_error_None in E. lia.
Qed.

Definition appended m (e : edge) m' := sorted m' = sorted m /\ edges m' = edges m ++ [Some e] /\ faces m' = faces m /\ length (nodes m') = length (nodes m).

Lemma addEdge_quiet m a b pts : sorted m = false -> faces m = [] -> (a < length (nodes m))%nat -> (b < length (nodes m))%nat ->
  quiet (fun r => snd r = length (edges m) /\ appended m (mkEdge a b None None pts 0) (fst r)) (addEdge m (SAnode a) (SAnode b) pts 0).
Proof.
  intros So Fa Ha Hb. unfold addEdge.
  assert (R : forall c, (c < length (nodes m))%nat -> quiet (fun r => sa_node r = c) (resolveSA m (SAnode c))).
  { intros c Hc. unfold resolveSA. eapply quiet_bind; [apply deref_quiet, Hc|]. intros nd _. rewrite So, andb_false_r. reflexivity. }
  eapply quiet_bind; [apply R, Ha|]. intros s Es. eapply quiet_bind; [apply R, Hb|]. intros e Ee.
  rewrite Fa. cbn [length Nat.eqb negb Nat.sub repeat]. rewrite app_nil_r.
  unfold newEdge. cbn [fst snd]. set (m1 := set_edgeCount _ _).
  assert (A1 : appended m (mkEdge a b None None pts 0) m1) by (unfold m1; repeat split; cbn; rewrite Es, Ee; reflexivity).
  change (edges (set_edges m (edges m))) with (edges m).
  clearbody m1. set (d := Z.of_nat (length (edges m))). clearbody d.
  assert (App : forall m2 m3, appended m (mkEdge a b None None pts 0) m2 -> fr m2 m3 -> appended m (mkEdge a b None None pts 0) m3).
  { intros m2 m3 (B1 & B2 & B3 & B4) (C1 & C2 & C3 & C4). unfold appended. rewrite C1, C2, C3, C4. auto. }
  eapply quiet_bind with (P := fun m2 => appended m (mkEdge a b None None pts 0) m2).
  - destruct (sa_sing s).
    + eapply quiet_bind; [apply deref_quiet; rewrite Es; destruct A1 as (_ & _ & _ & ->); exact Ha|]. intros nd _.
      qstep isp_fr. pose proof (App _ _ A1 F) as A2.
      eapply quiet_mono; [intros x Hx; exact (App _ _ A2 Hx)|]. apply sna_fr. rewrite Es. destruct A2 as (_ & _ & _ & ->). exact Ha.
    + eapply quiet_mono; [intros x Hx; exact (App _ _ A1 Hx)|]. apply isp_fr.
  - intros m2 A2.
    eapply quiet_bind with (P := fun m3 => appended m (mkEdge a b None None pts 0) m3); [|intros m3 A3; cbn; auto].
    destruct (_ && _); [eapply quiet_mono; [intros x Hx; exact (App _ _ A2 Hx)|]; apply isp_fr|].
    destruct (sa_sing e).
    + eapply quiet_bind; [apply deref_quiet; rewrite Ee; destruct A2 as (_ & _ & _ & ->); exact Hb|]. intros nd _.
      qstep isp_fr. pose proof (App _ _ A2 F) as A3.
      eapply quiet_mono; [intros x Hx; exact (App _ _ A3 Hx)|]. apply sna_fr. rewrite Ee. destruct A3 as (_ & _ & _ & ->). exact Hb.
    + eapply quiet_mono; [intros x Hx; exact (App _ _ A2 Hx)|]. apply isp_fr.
Qed.

Lemma posOf_nAt m l : posOf m l = option_map npos (nAt m l).
Proof. unfold posOf, nodeP, nAt, tget. destruct (nth_error (nodes m) l) as [[nd|]|]; reflexivity. Qed.

Lemma addNode_step m p : history geometric m ->
  history geometric (fst (addNode m p)) /\ snd (addNode m p) = length (nodes m) /\
  (forall l, posOf (fst (addNode m p)) l = if Nat.eqb l (length (nodes m)) then Some p else posOf m l).
Proof.
  intros H. split; [|split; [reflexivity|]].
  - apply (h_call geometric m (Call yes (OAddNode p))); [exact H|exact I|exact I|reflexivity].
  - intros l. unfold posOf, nodeP, addNode; cbn.
    destruct (Nat.eqb_spec l (length (nodes m))) as [->|N].
    + rewrite nth_error_app2, Nat.sub_diag by lia. reflexivity.
    + destruct (Nat.lt_ge_cases l (length (nodes m))).
      * rewrite nth_error_app1 by lia. reflexivity.
      * rewrite nth_error_app2 by lia. destruct (l - length (nodes m))%nat eqn:E; [lia|]. cbn.
        replace (nth_error (nodes m) l) with (@None (option node)) by (symmetry; apply nth_error_None; lia). destruct n; reflexivity.
Qed.

Lemma addEdge_step m a b pts pa pb : history geometric m -> sorted m = false -> faces m = [] ->
  posOf m a = Some pa -> posOf m b = Some pb -> (2 <= length pts)%nat -> hd_error pts = Some pa -> hd_error (rev pts) = Some pb ->
  exists m', addEdge m (SAnode a) (SAnode b) pts 0 = Ok (m', length (edges m)) /\
    history geometric m' /\ appended m (mkEdge a b None None pts 0) m' /\ forall l, posOf m' l = posOf m l.
Proof.
  intros H So Fa Pa Pb L E1 E2.
  assert (N : forall c p, posOf m c = Some p -> (c < length (nodes m))%nat /\ exists nd, nAt m c = Some nd /\ isNode m c nd).
  { intros c p Hc. unfold posOf, nodeP, isNode, nAt, tget in *. unfold nodeP. destruct (nth_error (nodes m) c) as [[nd|]|] eqn:E; try discriminate.
    split; [apply nth_error_Some; congruence|]. exists nd. auto. }
  destruct (N a pa Pa) as (La & na & Na & Ia). destruct (N b pb Pb) as (Lb & nb & Nb & Ib).
  pose proof (addEdge_quiet m a b pts So Fa La Lb) as Q.
  pose proof (addEdge_inv m (SAnode a) (SAnode b) pts 0 (Inv_SInv _ (history_Inv _ _ H))) as G.
  destruct (addEdge m (SAnode a) (SAnode b) pts 0) as [[m' l]| | |] eqn:E; cbn in Q; try contradiction.
  - destruct Q as [-> A]. exists m'. split; [reflexivity|]. split; [|split; [exact A|]].
    + apply (h_call geometric m (Call yes (OAddEdge (SAnode a) (SAnode b) pts 0))); [exact H| | |].
      * split; [exists na; exact Ia|exists nb; exact Ib].
      * split; [exact L|]. split; intros r Hr; unfold resolveSA in Hr.
        -- rewrite (deref_node m a na Na) in Hr. cbn [bind] in Hr. rewrite So, andb_false_r in Hr. injection Hr as <-. cbn [sa_node]. congruence.
        -- rewrite (deref_node m b nb Nb) in Hr. cbn [bind] in Hr. rewrite So, andb_false_r in Hr. injection Hr as <-. cbn [sa_node]. congruence.
      * cbn [exec run_op]. rewrite E. reflexivity.
    + assert (G' := G). cbn in G'. destruct G' as (_ & _ & _ & _ & _ & _ & _ & _ & P & _).
      * congruence.
      * congruence.
      * intros c. rewrite !posOf_nAt. apply P.
  - exfalso. apply G; cbn; congruence.
  - exfalso. apply G; cbn; congruence.
Qed.
