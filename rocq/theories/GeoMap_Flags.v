(** Flags of edges: nothing else depends on them. *)
From Verif Require Import Base Orbit GraphRank Euler Links FaceInv Conj
  GeoMap_Model GeoMap_Views GeoMap_SInv GeoMap_Remove GeoMap_MergeEdges GeoMap_Loops
  GeoMap_MInv GeoMap_Gone GeoMap_Bridge GeoMap_MergeFaces GeoMap_Area.
Local Open Scope Z_scope.

(** [m'] is [m] with other edge flags *)
Record flagged m m' : Prop := {
  fg_eq : m' = set_edges m (edges m');
  fg_len : length (edges m') = length (edges m);
  fg_edge : forall j, match eAt m j, eAt m' j with
      | None, None => True
      | Some e, Some e' => e' = set_flags e (eflags e')
      | _, _ => False
      end }.

Lemma flagged_refl m : flagged m m.
Proof. constructor; auto; [destruct m; reflexivity|]. intros j; destruct (eAt m j) as [[]|]; auto. Qed.
Lemma flagged_trans a b c : flagged a b -> flagged b c -> flagged a c.
Proof.
  intros X Y. constructor.
  - rewrite (fg_eq _ _ Y), (fg_eq _ _ X); reflexivity.
  - rewrite (fg_len _ _ Y); apply X.
  - intros j. pose proof (fg_edge _ _ X j) as A. pose proof (fg_edge _ _ Y j) as B.
    destruct (eAt a j), (eAt b j), (eAt c j); try contradiction; auto. rewrite B, A. reflexivity.
Qed.
Lemma flagged_sym m m' : flagged m m' -> flagged m' m.
Proof.
  intros X. constructor.
  - rewrite (fg_eq _ _ X). destruct m; reflexivity.
  - symmetry; apply X.
  - intros j. pose proof (fg_edge _ _ X j) as A. destruct (eAt m j) as [[]|], (eAt m' j) as [[]|]; try contradiction; auto.
    cbn in *. injection A as -> -> -> -> ->. reflexivity.
Qed.

Lemma flagged_put m l e v : eAt m l = Some e -> flagged m (putE m l (Some (set_flags e v))).
Proof.
  intros He. pose proof (tget_lt _ _ _ He) as L. constructor.
  - reflexivity.
  - unfold putE; cbn [edges set_edges]. apply list_upd_length.
  - intros j. unfold eAt, putE; cbn [edges set_edges]. rewrite tget_upd. apply Nat.ltb_lt in L; rewrite L.
    destruct (Nat.eqb_spec l j) as [<-|]; [|fold (eAt m j); destruct (eAt m j) as [[]|]; auto].
    fold (eAt m l). rewrite He. reflexivity.
Qed.

Lemma setFlag_Ok m l flag onoff e : eAt m l = Some e ->
  setFlag m l flag onoff = Ok (putE m l (Some (withFlag e flag onoff))).
Proof. intros He. unfold setFlag. rewrite (deref_edge _ _ _ He). reflexivity. Qed.
Lemma setFlag_flagged m l flag onoff e : eAt m l = Some e -> exists m', setFlag m l flag onoff = Ok m' /\ flagged m m'.
Proof.
  intros He. rewrite (setFlag_Ok _ _ _ _ _ He). eexists. split; [reflexivity|]. apply flagged_put; assumption.
Qed.

Lemma flagged_views m m' : flagged m m' -> darts m' = darts m /\ elabs m' = elabs m /\
  (forall x, stt m' x = stt m x) /\ (forall x, lft m' x = lft m x) /\ nodes m' = nodes m /\ faces m' = faces m /\
  sg m' = sg m /\ sgi m' = sgi m /\ cap m' = cap m /\ nodeCount m' = nodeCount m /\ edgeCount m' = edgeCount m /\
  faceCount m' = faceCount m.
Proof.
  intros F.
  assert (H : forall l, isLive m' l = isLive m l).
  { intros l. unfold isLive. pose proof (fg_edge _ _ F l) as K. destruct (eAt m l), (eAt m' l); try reflexivity; contradiction. }
  assert (EL : elabs m' = elabs m) by (unfold elabs; rewrite (fg_len _ _ F), (filter_ext _ _ H); reflexivity).
  split; [unfold darts; rewrite EL; reflexivity|]. split; [assumption|]. split; [|split].
  - intros x. unfold stt. pose proof (fg_edge _ _ F (elab x)) as K. destruct (eAt m (elab x)), (eAt m' (elab x)); try contradiction; auto.
    rewrite K. reflexivity.
  - intros x. unfold lft. pose proof (fg_edge _ _ F (elab x)) as K. destruct (eAt m (elab x)), (eAt m' (elab x)); try contradiction; auto.
    rewrite K. reflexivity.
  - rewrite (fg_eq _ _ F). repeat split.
Qed.

Lemma flagged_alive m m' : flagged m m' -> sumf alive (edges m') = sumf alive (edges m).
Proof.
  intros F. apply sumf_tgets; [reflexivity | apply F|]. intros j. pose proof (fg_edge _ _ F j) as K. unfold eAt in K.
  destruct (tget (edges m) j), (tget (edges m') j); try contradiction; reflexivity.
Qed.

Lemma flagged_SInv m m' : flagged m m' -> SInv m -> SInv m'.
Proof.
  intros F V. destruct (flagged_views m m' F) as (ED & EL & Es & El & En & Ef & Eg & Egi & Ec & Enc & Eec & Efc).
  pose proof (sv_si _ V) as S. constructor.
  - rewrite ED. constructor.
    + rewrite Eg, Egi. apply S.
    + intros d Hd. pose proof (si_live _ _ S d Hd) as K. pose proof (fg_edge _ _ F (elab d)) as K'.
      destruct (eAt m (elab d)), (eAt m' (elab d)); try contradiction; congruence.
    + apply S.
    + rewrite Ec. apply S.
    + intros d Hd. rewrite Eg, !Es. apply S; assumption.
    + intros d Hd. unfold nAt. rewrite En, Es. apply S; assumption.
    + intros l n Hn. unfold nAt in Hn. rewrite En in Hn. rewrite Eg. destruct (si_anchor _ _ S l n Hn) as [(A & B)|(A & B & C)].
      * left. split; [assumption|]. intros d Hd. rewrite Es. auto.
      * right. split; [assumption|]. rewrite Es. split; [assumption|]. intros d Hd. rewrite Es. auto.
  - pose proof (fg_edge _ _ F 0%nat) as K. rewrite (sv_e0 _ V) in K. destruct (eAt m' 0); [contradiction | reflexivity].
  - rewrite Ec; apply V.
  - rewrite (fg_len _ _ F), Ec; apply V.
  - rewrite Enc, En; apply V.
  - rewrite Eec, (flagged_alive m m' F); apply V.
  - rewrite Efc, Ef; apply V.
Qed.

Lemma flagged_FI m m' : flagged m m' -> FIm m -> FIm m'.
Proof.
  intros X F. destruct (flagged_views m m' X) as (ED & _ & _ & El & _ & Ef & _ & Egi & _). unfold FIm. rewrite ED.
  assert (Ep : forall x, phi m' x = phi m x) by (intros; unfold phi; rewrite Egi; reflexivity).
  assert (EA : forall l, fanch m' l = fanch m l) by (intros; unfold fanch, fAt; rewrite Ef; reflexivity).
  assert (ER : forall x y, reach (phi m') x y <-> reach (phi m) x y).
  { intros x y. split; apply (reach_ext _ _ (fun _ => True)); auto. }
  constructor.
  - intros d Hd. destruct (fi_cover _ _ _ _ F d Hd) as (l & A & a & H1 & H2 & H3 & H4).
    exists l, A, a. rewrite El, EA, ER. auto.
  - intros l A a HA Ha. rewrite El. rewrite EA in HA. apply (fi_anchor _ _ _ _ F l A a HA Ha).
  - intros d Hd. rewrite !El, Ep. apply (fi_phi _ _ _ _ F d Hd).
  - intros l A HA. rewrite EA in HA. apply (fi_nodup _ _ _ _ F l A HA).
  - intros l A a b HA Ha Hb Hr. rewrite EA in HA. apply ER in Hr.
    apply (fi_sep _ _ _ _ F l A a b HA Ha Hb Hr).
Qed.

Lemma flagged_MInv m m' : flagged m m' -> MInv m -> MInv m'.
Proof.
  intros X M. destruct (flagged_views m m' X) as (ED & EL & Es & El & En & Ef & _).
  assert (EG : Gm m' = Gm m) by (unfold Gm, pairs; rewrite EL; apply map_ext; intros; rewrite !Es; reflexivity).
  pose proof (flagged_alive m m' X) as EA.
  constructor.
  - apply (flagged_SInv m); [assumption | apply M].
  - apply (flagged_FI m); [assumption | apply M].
  - unfold fAt. rewrite Ef. apply M.
  - rewrite EG, Ef, En, EA. apply M.
  - rewrite EG. replace (links m') with (links m); [apply (mi_in _ M)|].
    unfold links. rewrite Ef. unfold tmap. apply flat_map_ext. intros [f|]; [|reflexivity]. f_equal. apply map_ext. intros; symmetry; apply Es.
  - rewrite EG, EA, Ef. apply M.
Qed.

Lemma flagged_faceSum m m' l : flagged m m' -> faceSum m' l = faceSum m l.
Proof.
  intros X. destruct (flagged_views m m' X) as (ED & _ & _ & El & _). unfold faceSum. rewrite ED.
  rewrite (filter_ext (onFace m' l) (onFace m l)) by (intros x; unfold onFace; rewrite El; reflexivity).
  induction (filter (onFace m l) (darts m)) as [|x t IH]; [reflexivity|]. cbn [sumZ]. rewrite IH. f_equal.
  unfold raw. pose proof (fg_edge _ _ X (elab x)) as K. destruct (eAt m (elab x)), (eAt m' (elab x)); try contradiction; auto. rewrite K. reflexivity.
Qed.
