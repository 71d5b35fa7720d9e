(** mergeFaces: what it does, and that it preserves the map invariant. *)
From Verif Require Import Base Orbit GraphRank Euler Links FaceInv Conj
  GeoMap_Model GeoMap_Views GeoMap_SInv GeoMap_Remove GeoMap_MergeEdges GeoMap_Loops
  GeoMap_MInv GeoMap_Gone GeoMap_Bridge.
Local Open Scope Z_scope.

(** ** Area caches *)

Record cached m m' : Prop := {
  ca_eq : m' = set_faces m (faces m');
  ca_len : length (faces m') = length (faces m);
  ca_face : forall j, match fAt m j, fAt m' j with
     | Some f, Some f' => fanchors f' = fanchors f /\ fflags f' = fflags f /\
           (farea f' = farea f \/ (farea f = None /\ exists v, farea f' = Some v /\ sumAreas m (fanchors f) = Ok v))
     | None, None => True
     | _, _ => False
     end }.

Lemma cached_refl m : cached m m.
Proof. constructor; auto; [destruct m; reflexivity|]. intros j; destruct (fAt m j); auto. Qed.

Lemma sumAreas_ext m m' l : edges m' = edges m -> sg m' = sg m -> sgi m' = sgi m -> cap m' = cap m ->
  sumAreas m' l = sumAreas m l.
Proof.
  intros E1 E2 E3 E4.
  assert (HL : forall n a d acc, contourAreaLoop n m' a d acc = contourAreaLoop n m a d acc).
  { induction n as [|n IH]; intros a d acc; [reflexivity|]. cbn [contourAreaLoop].
    unfold gEdge, edgeP, nextPhi, getSi, inCap. rewrite E1, E3, E4.
    destruct (require _); cbn [bind]; auto. destruct (_ <=? _); cbn [bind]; auto.
    destruct (_ =? _); auto. }
  induction l as [|a t IH]; [reflexivity|]. cbn [sumAreas]. unfold contourArea, fuel.
  rewrite E1, HL, IH. reflexivity.
Qed.

Lemma cached_trans a b c : cached a b -> cached b c -> cached a c.
Proof.
  intros X Y. constructor.
  - rewrite (ca_eq _ _ Y), (ca_eq _ _ X); reflexivity.
  - rewrite (ca_len _ _ Y); apply X.
  - intros j. pose proof (ca_face _ _ X j) as A. pose proof (ca_face _ _ Y j) as B.
    destruct (fAt a j) as [f|], (fAt b j) as [g|], (fAt c j) as [h|]; try contradiction; auto.
    destruct A as (A1 & A2 & A3), B as (B1 & B2 & B3). split; [congruence|]. split; [congruence|].
    assert (ES : sumAreas b (fanchors g) = sumAreas a (fanchors f)).
    { rewrite A1. apply sumAreas_ext; rewrite (ca_eq _ _ X); reflexivity. }
    destruct A3 as [A3|(A3 & v & A4 & A5)], B3 as [B3|(B3 & w & B4 & B5)].
    + left; congruence.
    + right. split; [congruence|]. exists w. split; congruence.
    + right. split; auto. exists v. split; congruence.
    + congruence.
Qed.

Lemma cached_same m m' : cached m m' ->
  edges m' = edges m /\ nodes m' = nodes m /\ sg m' = sg m /\ sgi m' = sgi m /\ cap m' = cap m /\
  nodeCount m' = nodeCount m /\ edgeCount m' = edgeCount m /\ faceCount m' = faceCount m /\ sorted m' = sorted m.
Proof. intros C. rewrite (ca_eq _ _ C). cbn. repeat split. Qed.

Lemma cached_fanch m m' l : cached m m' -> fanch m' l = fanch m l.
Proof.
  intros C. pose proof (ca_face _ _ C l) as K. unfold fanch.
  destruct (fAt m l), (fAt m' l); try contradiction; auto. destruct K as (K & _). cbn. congruence.
Qed.

Lemma sumf_tgets {A} (f : option A -> Z) (l l' : list (option A)) : f None = 0 -> length l = length l' ->
  (forall j, f (tget l j) = f (tget l' j)) -> sumf f l = sumf f l'.
Proof.
  intros H0. revert l'. induction l as [|a l IH]; intros [|b l'] Hl Hj; try discriminate; [reflexivity|].
  simpl. rewrite (IH l'); [f_equal; apply (Hj 0%nat) | simpl in Hl; lia|]. intros j; apply (Hj (S j)).
Qed.

Lemma tmap_tgets {A B} (g h : A -> list B) (l l' : list (option A)) : length l = length l' ->
  (forall j, match tget l j with Some a => g a | None => [] end = match tget l' j with Some a => h a | None => [] end) ->
  tmap g l = tmap h l'.
Proof.
  revert l'. induction l as [|a l IH]; intros [|b l'] Hl Hj; try discriminate; [reflexivity|].
  unfold tmap in *. cbn [flat_map]. f_equal; [apply (Hj 0%nat)|]. apply IH; [simpl in Hl; lia|].
  intros j; apply (Hj (S j)).
Qed.

Lemma cached_SInv m m' : cached m m' -> SInv m -> SInv m'.
Proof.
  intros C V. destruct (cached_same m m' C) as (E1 & E2 & E3 & E4 & E5 & E6 & E7 & E8 & E9).
  assert (ED : darts m' = darts m) by (apply tables_darts; assumption).
  constructor.
  - rewrite ED. apply (SI_sg_ext m); auto; [lia | | apply V]. intros; rewrite E3, E4; auto.
  - unfold eAt; rewrite E1; apply (sv_e0 _ V).
  - rewrite E5; apply V.
  - rewrite E1, E5; apply V.
  - rewrite E6, E2; apply V.
  - rewrite E7, E1; apply V.
  - rewrite E8, (sv_fc _ V). apply sumf_tgets; [reflexivity | symmetry; apply C|].
    intros j. pose proof (ca_face _ _ C j) as K. unfold fAt in K.
    destruct (tget (faces m) j), (tget (faces m') j); try contradiction; reflexivity.
Qed.

Lemma cached_views m m' : cached m m' -> darts m' = darts m /\ elabs m' = elabs m /\
  (forall x, stt m' x = stt m x) /\ (forall x, lft m' x = lft m x) /\ (forall x, phi m' x = phi m x).
Proof.
  intros C. destruct (cached_same m m' C) as (E1 & E2 & E3 & E4 & _).
  split; [apply tables_darts; assumption|]. split; [unfold elabs, isLive, eAt; rewrite E1; reflexivity|].
  unfold stt, lft, phi, eAt. rewrite E1, E4. auto.
Qed.

Lemma cached_FI m m' : cached m m' -> FIm m -> FIm m'.
Proof.
  intros C F. destruct (cached_views m m' C) as (ED & _ & _ & El & Ep). unfold FIm. rewrite ED.
  assert (ER : forall x y, reach (phi m') x y <-> reach (phi m) x y).
  { intros x y. split; apply (reach_ext _ _ (fun _ => True)); auto. }
  constructor.
  - intros d Hd. destruct (fi_cover _ _ _ _ F d Hd) as (l & A & a & H1 & H2 & H3 & H4).
    exists l, A, a. rewrite El, (cached_fanch m m' l C), ER. auto.
  - intros l A a HA Ha. rewrite El. rewrite (cached_fanch m m' l C) in HA. apply (fi_anchor _ _ _ _ F l A a HA Ha).
  - intros d Hd. rewrite !El, Ep. apply (fi_phi _ _ _ _ F d Hd).
  - intros l A HA. rewrite (cached_fanch m m' l C) in HA. apply (fi_nodup _ _ _ _ F l A HA).
  - intros l A a b HA Ha Hb Hr. rewrite (cached_fanch m m' l C) in HA. apply ER in Hr.
    apply (fi_sep _ _ _ _ F l A a b HA Ha Hb Hr).
Qed.

Lemma cached_MInv m m' : cached m m' -> MInv m -> MInv m'.
Proof.
  intros C M. destruct (cached_views m m' C) as (ED & EL & Es & El & Ep).
  destruct (cached_same m m' C) as (E1 & E2 & _).
  assert (EG : Gm m' = Gm m) by (unfold Gm, pairs; rewrite EL; apply map_ext; intros; rewrite !Es; reflexivity).
  constructor.
  - apply (cached_SInv m); [assumption | apply M].
  - apply (cached_FI m); [assumption | apply M].
  - pose proof (ca_face _ _ C 0%nat) as K. pose proof (mi_0 _ M). destruct (fAt m 0), (fAt m' 0); congruence || contradiction.
  - rewrite EG, E1, E2, <- (mi_pl _ M). f_equal. symmetry. apply sumf_tgets; [reflexivity | symmetry; apply C|].
    intros j. pose proof (ca_face _ _ C j) as K. unfold fAt in K.
    destruct (tget (faces m) j), (tget (faces m') j); try contradiction; auto.
    destruct K as (K & _). cbn [ncont]. rewrite K; reflexivity.
  - rewrite EG. replace (links m') with (links m); [apply (mi_in _ M)|].
    unfold links. apply tmap_tgets; [symmetry; apply C|].
    intros j. pose proof (ca_face _ _ C j) as K. unfold fAt in K.
    destruct (tget (faces m) j), (tget (faces m') j); try contradiction; auto.
    destruct K as (-> & _). f_equal. apply map_ext. intros; symmetry; apply Es.
  - rewrite EG, E1, <- (mi_eu _ M). f_equal. symmetry. apply sumf_tgets; [reflexivity | symmetry; apply C|].
    intros j. pose proof (ca_face _ _ C j) as K. unfold fAt in K.
    destruct (tget (faces m) j), (tget (faces m') j); try contradiction; auto.
Qed.

Lemma faceArea_spec m l f : SInv m -> FIm m -> fAt m l = Some f ->
  exists m' v, faceArea m l = Ok (m', v) /\ cached m m' /\
    (exists f', fAt m' l = Some f' /\ farea f' = Some v) /\
    (farea f = None -> sumAreas m (fanchors f) = Ok v).
Proof.
  intros V F Hf. unfold faceArea. rewrite (deref_face _ _ _ Hf). cbn [bind].
  destruct (farea f) as [v|] eqn:Ea.
  - exists m, v. split; [reflexivity|]. split; [apply cached_refl|]. split; [exists f; auto | discriminate].
  - destruct (sumAreas_spec m (fanchors f) (sv_si _ V)) as (v & Hv).
    { intros a Ha. apply (fi_anchor _ _ _ _ F l (fanchors f) a); auto. unfold fanch; rewrite Hf; reflexivity. }
    rewrite Hv. cbn [bind].
    pose proof (tget_lt _ _ _ Hf) as Hlt.
    exists (putF m l (Some (mkFace (fanchors f) (Some v) (fflags f)))), v. split; [reflexivity|].
    assert (HA : forall j, fAt (putF m l (Some (mkFace (fanchors f) (Some v) (fflags f)))) j =
       if Nat.eqb l j then Some (mkFace (fanchors f) (Some v) (fflags f)) else fAt m j).
    { intros j. unfold fAt, putF; cbn [faces set_faces]. rewrite tget_upd. apply Nat.ltb_lt in Hlt. rewrite Hlt; reflexivity. }
    split; [|split; auto].
    + constructor; [reflexivity | cbn; apply list_upd_length|]. intros j. rewrite HA.
      destruct (Nat.eqb_spec l j) as [<-|].
      * rewrite Hf. cbn. repeat split; auto. right. split; auto. exists v; auto.
      * destruct (fAt m j); auto.
    + eexists. rewrite HA, Nat.eqb_refl. split; reflexivity.
Qed.

(** ** Independence *)

Lemma tmap_upd2 {A B} (g : A -> list B) l i j a b : i <> j -> tget l i = Some a -> tget l j = Some b ->
  exists K, Permutation (tmap g l) (g a ++ g b ++ K) /\
    forall o, Permutation (tmap g (list_upd (list_upd l i o) j None)) ((match o with Some b => g b | None => [] end) ++ K).
Proof.
  intros Hij Hi Hj.
  destruct (tmap_upd g l j b Hj) as (K1 & P1 & Q1).
  assert (Hi' : tget (list_upd l j None) i = Some a) by (rewrite tget_upd_neq; auto).
  destruct (tmap_upd g _ i a Hi') as (K2 & P2 & Q2).
  exists K2. split.
  - rewrite P1. specialize (Q1 None). cbn [app] in Q1. rewrite <- Q1, P2.
    rewrite !app_assoc. apply Permutation_app_tail, Permutation_app_comm.
  - intros o. replace (list_upd (list_upd l i o) j None) with (list_upd (list_upd l j None) i o); [apply Q2|].
    clear -Hij. revert i j Hij. induction l as [|c l IH]; intros [|i] [|j] H; try reflexivity; try contradiction.
    cbn [list_upd]. f_equal. apply IH. auto.
Qed.

Lemma merge_indep A1 A2 x1 x2 R1 R2 K G B bb :
  indep (star A1 ++ star A2 ++ K) G -> Permutation A1 (x1 :: R1) -> Permutation A2 (x2 :: R2) ->
  conn G x1 x2 -> Permutation B (bb ++ R1 ++ R2) ->
  (bb = [] \/ exists y, bb = [y] /\ conn G x1 y) -> indep (star B ++ K) G.
Proof.
  intros H H1 H2 Hc HB Hb.
  apply (star_perm_indep (bb ++ R1 ++ R2)); [symmetry; assumption|].
  apply (star_perm_indep A1 (x1 :: R1)) in H; auto.
  assert (H' : indep (star A2 ++ star (x1 :: R1) ++ K) G).
  { apply (indep_perm (star (x1 :: R1) ++ star A2 ++ K)); auto.
    rewrite !app_assoc. apply Permutation_app_tail, Permutation_app_comm. }
  apply (star_perm_indep A2 (x2 :: R2)) in H'; auto.
  assert (H3 : indep (star (x1 :: R1 ++ R2) ++ K) G).
  { apply (indep_geq (star (x2 :: R2) ++ star (x1 :: R1) ++ K)); auto.
    - rewrite !app_length, !star_length. cbn [length]. rewrite app_length. lia.
    - rewrite <- !app_assoc.
      transitivity (star (x1 :: R1) ++ star (x2 :: R2) ++ K ++ G).
      + apply geq_perm. rewrite !app_assoc. do 2 apply Permutation_app_tail. apply Permutation_app_comm.
      + apply geq_star_merge. apply conn_app_r; assumption. }
  destruct Hb as [->|(y & -> & Hy)].
  - apply (indep_spokes_star x1). exact H3.
  - cbn [app star]. apply (indep_geq (spokes x1 (R1 ++ R2) ++ K)); auto.
    + rewrite !app_length, !spokes_length; reflexivity.
    + rewrite <- !app_assoc. apply geq_spokes. apply conn_app_r; assumption.
Qed.

(** ** The anchor that is re-used *)

Lemma orbit_one D f g x y : perm_on D f g -> In y D -> In x D -> f x = x -> reach f y x -> y = x.
Proof. intros HP Hy Hx E Hr. apply (reach_fix f); auto. apply (reach_sym D f g HP); auto. Qed.

Definition U m d x : Prop := reach (phi m) x d \/ reach (phi m) x (- d).

Lemma list_upd_same {A} (l : list A) i a : nth_error l i = Some a -> list_upd l i a = l.
Proof.
  revert i. induction l as [|b l IH]; intros [|i] H; try discriminate; simpl in *; [congruence|].
  f_equal; auto.
Qed.

Lemma vget_Ok {A} (l : list A) i a : nth_error l i = Some a -> vget l i = Ok a.
Proof. unfold vget. intros ->; reflexivity. Qed.

Lemma reuseAnchor_spec m d s mm A1 A2 c1 c2 a1 a2 :
  MInv m -> In d (darts m) -> lft m d = Some s -> lft m (- d) = Some mm -> s <> mm ->
  nth_error A1 c1 = Some a1 -> nth_error A2 c2 = Some a2 -> In a1 (darts m) -> In a2 (darts m) ->
  reach (phi m) a1 d -> reach (phi m) a2 (- d) ->
  forall mC, sgi mC = sgi m -> cap mC = cap m ->
  exists sa, reuseAnchor mC A1 A2 c1 c2 (elab d) = Ok sa /\
    ((sa = remove_nth A1 c1 /\ sg m d = - d /\ sg m (- d) = d) \/
     (exists x, sa = list_upd A1 c1 x /\ In x (rest m d) /\ U m d x /\ (In a1 (rest m d) -> x = a1))).
Proof.
  intros M Hd Hl Hl' Hne H1 H2 HD1 HD2 Hr1 Hr2 mC Esi Ecap.
  pose proof (mi_v _ M) as V. pose proof (sv_si _ V) as HS. pose proof (mi_f _ M) as F.
  pose proof (phi_perm m HS) as HP.
  assert (Hd' : In (- d) (darts m)) by (apply darts_opp; assumption).
  assert (Hd0 : d <> 0) by (apply (si_nz _ _ HS); assumption).
  assert (Hnext : forall x, In x (darts m) -> nextPhi mC x = Ok (phi m x)).
  { intros x Hx. unfold nextPhi, getSi, inCap. rewrite Esi, Ecap.
    pose proof (si_cap _ _ HS x Hx). rewrite Z.abs_opp. destruct (Z.leb_spec (Z.abs x) (cap m)); [reflexivity | lia]. }
  assert (Hlf : forall x y, In x (darts m) -> reach (phi m) x y -> lft m y = lft m x).
  { intros x y Hx Hr. apply (fi_reach (darts m) (phi m) _ (lft m) (fanch m) x y HP F Hx Hr). }
  assert (Hrest : forall x, In x (darts m) -> elab x <> elab d -> In x (rest m d)).
  { intros x Hx E. apply in_rest. split; auto. split; intros ->; apply E; [reflexivity | apply elab_opp]. }
  unfold reuseAnchor. rewrite (vget_Ok _ _ _ H1). cbn [bind].
  destruct (Nat.eqb_spec (elab a1) (elab d)) as [E1|E1]; cbn [negb].
  2:{ exists A1. split; [reflexivity|]. right. exists a1. split; [symmetry; apply list_upd_same; assumption|].
      split; [apply Hrest; assumption|]. split; [left; assumption | auto]. }
  assert (a1 = d).
  { apply elab_eq in E1 as [E1|E1]; auto. exfalso. pose proof (Hlf a1 d HD1 Hr1). rewrite E1 in *. congruence. }
  subst a1. rewrite (Hnext d Hd). cbn [bind].
  assert (Hpd : In (phi m d) (darts m)) by (apply HP; assumption).
  assert (Hpd' : In (phi m (- d)) (darts m)) by (apply HP; assumption).
  assert (Hnr : ~ In d (rest m d)) by (rewrite in_rest; tauto).
  destruct (Nat.eqb_spec (elab (phi m d)) (elab d)) as [E2|E2]; cbn [negb].
  2:{ eexists. split; [reflexivity|]. right. exists (phi m d). split; [reflexivity|].
      split; [apply Hrest; assumption|]. split; [|tauto].
      left. apply (reach_sym _ _ _ HP); auto. apply reach_step. }
  assert (Ep : phi m d = d).
  { apply elab_eq in E2 as [E2|E2]; auto. exfalso. pose proof (Hlf d (phi m d) Hd (reach_step _ _)). rewrite E2 in *. congruence. }
  rewrite (vget_Ok _ _ _ H2). cbn [bind].
  destruct (Nat.eqb_spec (elab a2) (elab d)) as [E3|E3]; cbn [negb].
  2:{ eexists. split; [reflexivity|]. right. exists a2. split; [reflexivity|].
      split; [apply Hrest; assumption|]. split; [|tauto]. right; assumption. }
  assert (a2 = - d).
  { apply elab_eq in E3 as [E3|E3]; auto. exfalso. pose proof (Hlf a2 (- d) HD2 Hr2). rewrite E3 in *. congruence. }
  subst a2. rewrite (Hnext (- d) Hd'). cbn [bind].
  destruct (Nat.eqb_spec (elab (phi m (- d))) (elab d)) as [E4|E4]; cbn [negb].
  2:{ eexists. split; [reflexivity|]. right. exists (phi m (- d)). split; [reflexivity|].
      split; [apply Hrest; assumption|]. split; [|tauto].
      right. apply (reach_sym _ _ _ HP); auto. apply reach_step. }
  assert (Ep' : phi m (- d) = - d).
  { apply elab_eq in E4 as [E4|E4]; auto. exfalso. pose proof (Hlf (- d) (phi m (- d)) Hd' (reach_step _ _)). rewrite E4 in *. congruence. }
  eexists. split; [reflexivity|]. left. split; [reflexivity|].
  unfold phi in Ep, Ep'. rewrite Z.opp_involutive in Ep'.
  destruct (si_perm _ _ HS d Hd) as (_ & _ & _ & X1). destruct (si_perm _ _ HS (- d) Hd') as (_ & _ & _ & X2).
  rewrite Ep in X2. rewrite Ep' in X1. auto.
Qed.

(** ** What mergeFaces does *)

Record FMerged m d s mm m' : Prop := {
  mf_gone : EdgeGone m d m';
  mf_lft : forall x, In x (darts m') -> lft m' x = match lft m x with
      | Some l => Some (if Nat.eqb l mm then s else l) | None => None end;
  mf_fc : faceCount m' = faceCount m - 1;
  mf_f : exists sf f2 c1 c2 a1 a2 sa ar,
     fAt m s = Some sf /\ fAt m mm = Some f2 /\
     nth_error (fanchors sf) c1 = Some a1 /\ nth_error (fanchors f2) c2 = Some a2 /\
     reach (phi m) a1 d /\ reach (phi m) a2 (- d) /\
     ((sa = remove_nth (fanchors sf) c1 /\ sg m d = - d /\ sg m (- d) = d) \/
      (exists x, sa = list_upd (fanchors sf) c1 x /\ In x (rest m d) /\ U m d x /\ (In a1 (rest m d) -> x = a1))) /\
     faces m' = list_upd (list_upd (faces m) s (Some (mkFace (sa ++ remove_nth (fanchors f2) c2) ar (fflags sf)))) mm None /\
     (forall va, farea sf = Some va -> exists vb, farea f2 = Some vb /\ ar = Some (va + vb)) }.

Lemma relab_putF m P s mC l f : relab m P s mC -> relab (putF m l f) P s (putF mC l f).
Proof.
  intros R. pose proof (rl_eq _ _ _ _ R) as E. constructor.
  - rewrite E. reflexivity.
  - exact (rl_len _ _ _ _ R).
  - exact (rl_edge _ _ _ _ R).
  - exact (rl_in _ _ _ _ R).
  - exact (rl_out _ _ _ _ R).
Qed.

Lemma relab_SI m P s mC : relab m P s mC -> SI m (darts m) -> SI mC (darts mC).
Proof.
  intros R HS. rewrite (rl_darts _ _ _ _ R).
  assert (E : sg mC = sg m /\ sgi mC = sgi m /\ nodes mC = nodes m /\ cap mC = cap m) by (rewrite (rl_eq _ _ _ _ R); repeat split).
  destruct E as (E1 & E2 & E3 & E4).
  apply (SI_frame m); auto; try lia.
  - intros; rewrite E1, E2; auto.
  - intros; apply (rl_stt _ _ _ _ _ R).
  - intros x Hx. pose proof (rl_edge _ _ _ _ R (elab x)) as K. destruct (live_edge m x Hx) as (e & He). rewrite He in K.
    destruct (eAt mC (elab x)); [discriminate | contradiction].
  - intros x Hx. unfold nAt; rewrite E3. apply (si_node _ _ HS x Hx).
  - intros l n Hn. unfold nAt in Hn; rewrite E3 in Hn. exists n; auto.
Qed.

Definition mergeBody (hk : hooks) m d n1 s mm mf : res (gmap * option nat) :=
  m <- relabelAll m (fanchors mf) s ;;
  sf <- deref (faceP m s) ;;
  c1 <- findComponentAnchor m (fanchors sf) d ;;
  c2 <- findComponentAnchor m (fanchors mf) (- d) ;;
  sa <- reuseAnchor m (fanchors sf) (fanchors mf) c1 c2 (elab d) ;;
  let sa := if (1 <? length (fanchors mf))%nat
            then sa ++ firstn c2 (fanchors mf) ++ skipn (S c2) (fanchors mf)
            else sa in
  let m := putF m s (Some (set_anchors sf sa)) in
  m <- detachDart m d ;;
  m <- detachDart m (- d) ;;
  nd <- deref (nodeP m n1) ;;
  m <- (if nanchor nd =? 0 then r <- removeIsolatedNode hk m n1 ;; Ok (fst r) else Ok m) ;;
  m <- (match farea sf with
        | Some a => x <- faceArea m mm ;;
                    let (m, b) := x in
                    Ok (putF m s (Some (mkFace sa (Some (a + b)) (fflags sf))))
        | None => Ok m
        end) ;;
  let m := uninitEdge m (elab d) in
  let m := uninitFace m mm in
  Ok (m, Some s).

Lemma mergeBody_spec hk m d s mm f2 v2 :
  MInv m -> In d (darts m) -> lft m d = Some s -> lft m (- d) = Some mm -> s <> mm ->
  fAt m mm = Some f2 -> farea f2 = Some v2 ->
  exists m', mergeBody hk m d (stt m d) s mm f2 = Ok (m', Some s) /\ FMerged m d s mm m'.
Proof.
  intros M Hd Hl Hl' Hne Hf2 Hv2.
  pose proof (mi_v _ M) as V. pose proof (sv_si _ V) as HS. pose proof (mi_f _ M) as F.
  pose proof (phi_perm m HS) as HP.
  assert (Hd' : In (- d) (darts m)) by (apply darts_opp; assumption).
  assert (Hd0 : d <> 0) by (apply (si_nz _ _ HS); assumption).
  assert (Hlf : forall x y, In x (darts m) -> reach (phi m) x y -> lft m y = lft m x).
  { intros x y Hx Hr. apply (fi_reach (darts m) (phi m) _ (lft m) (fanch m) x y HP F Hx Hr). }
  assert (HA2 : fanch m mm = Some (fanchors f2)) by (unfold fanch; rewrite Hf2; reflexivity).
  destruct (relabelAll_spec m s (fanchors f2) HS) as (mC & RC & HC).
  { apply (fi_nodup _ _ _ _ F mm); assumption. }
  { intros a Ha. apply (fi_anchor _ _ _ _ F mm _ a HA2 Ha). }
  { intros a b Ha Hb Hr. apply (fi_sep _ _ _ _ F mm _ a b HA2 Ha Hb Hr). }
  { intros a y Ha Hr. destruct (fi_anchor _ _ _ _ F mm _ a HA2 Ha) as [HaD Hal].
    rewrite (Hlf a y HaD Hr). congruence. }
  set (P := fun x => exists a, In a (fanchors f2) /\ reach (phi m) a x) in *.
  assert (HPl : forall x, In x (darts m) -> (P x <-> lft m x = Some mm)).
  { intros x Hx. split.
    - intros (a & Ha & Hr). destruct (fi_anchor _ _ _ _ F mm _ a HA2 Ha) as [HaD Hal]. rewrite (Hlf a x HaD Hr); assumption.
    - intros E. destruct (fi_cover _ _ _ _ F x Hx) as (l & A & a & E' & HA & Ha & Hr).
      assert (l = mm) by congruence. subst l. assert (A = fanchors f2) by congruence. subst A. exists a; auto. }
  unfold mergeBody. rewrite RC. cbn [bind].
  pose proof (rl_eq _ _ _ _ HC) as EqC.
  assert (EfC : faces mC = faces m) by (rewrite EqC; reflexivity).
  assert (EDC : darts mC = darts m) by (apply (rl_darts _ _ _ _ HC)).
  assert (EsiC : sgi mC = sgi m) by (rewrite EqC; reflexivity).
  assert (EcC : cap mC = cap m) by (rewrite EqC; reflexivity).
  assert (EpC : phi mC = phi m) by (unfold phi; rewrite EsiC; reflexivity).
  destruct (fi_cover _ _ _ _ F d Hd) as (l & A1 & a0 & El & HA1 & Ha0 & Hr0).
  assert (l = s) by congruence; subst l. unfold fanch in HA1.
  destruct (fAt m s) as [sf|] eqn:Hsf; [|discriminate]. injection HA1 as <-.
  assert (HA1 : fanch m s = Some (fanchors sf)) by (unfold fanch; rewrite Hsf; reflexivity).
  assert (HsfC : fAt mC s = Some sf) by (unfold fAt; rewrite EfC; exact Hsf).
  rewrite (deref_face _ _ _ HsfC). cbn [bind].
  pose proof (relab_SI _ _ _ _ HC HS) as HSC.
  destruct (findComponentAnchor_spec mC (fanchors sf) d HSC) as (c1 & a1 & -> & Hc1 & Hr1).
  { intros x Hx. rewrite EDC. apply (fi_anchor _ _ _ _ F s _ x HA1 Hx). }
  { exists a0. rewrite EpC; auto. }
  cbn [bind].
  destruct (fi_cover _ _ _ _ F (- d) Hd') as (l & A2' & a0' & El' & HA2' & Ha0' & Hr0').
  assert (l = mm) by congruence; subst l. assert (A2' = fanchors f2) by congruence. subst A2'.
  destruct (findComponentAnchor_spec mC (fanchors f2) (- d) HSC) as (c2 & a2 & -> & Hc2 & Hr2).
  { intros x Hx. rewrite EDC. apply (fi_anchor _ _ _ _ F mm _ x HA2 Hx). }
  { exists a0'. rewrite EpC; auto. }
  cbn [bind]. rewrite EpC in Hr1, Hr2.
  assert (HaD1 : In a1 (darts m)) by (apply (fi_anchor _ _ _ _ F s _ a1 HA1); eapply nth_error_In; exact Hc1).
  assert (HaD2 : In a2 (darts m)) by (apply (fi_anchor _ _ _ _ F mm _ a2 HA2); eapply nth_error_In; exact Hc2).
  destruct (reuseAnchor_spec m d s mm (fanchors sf) (fanchors f2) c1 c2 a1 a2 M Hd Hl Hl' Hne Hc1 Hc2 HaD1 HaD2 Hr1 Hr2
              mC EsiC EcC) as (sa & -> & Hsa).
  cbn [bind].
  set (sa' := if (1 <? length (fanchors f2))%nat then sa ++ firstn c2 (fanchors f2) ++ skipn (S c2) (fanchors f2) else sa).
  assert (Esa : sa' = sa ++ remove_nth (fanchors f2) c2).
  { unfold sa', remove_nth. destruct (Nat.ltb_spec 1 (length (fanchors f2))) as [|Hlen]; [reflexivity|].
    assert (Hlt : (c2 < length (fanchors f2))%nat) by (apply nth_error_Some; rewrite Hc2; discriminate).
    assert (c2 = 0%nat) by lia. subst c2. destruct (fanchors f2) as [|z [|z' t]]; simpl in *; try lia. rewrite app_nil_r; reflexivity. }
  clearbody sa'. subst sa'. set (sa' := sa ++ remove_nth (fanchors f2) c2).
  set (X := Some (set_anchors sf sa')).
  pose proof (tget_lt _ _ _ Hsf) as Hslt. pose proof (tget_lt _ _ _ Hf2) as Hmlt.
  (* detach *)
  set (mP := putF mC s X).
  assert (HSP : SI mP (darts mP)) by (destruct HSC; constructor; assumption).
  assert (HdP : In d (darts mP)) by (change (In d (darts mC)); rewrite EDC; assumption).
  destruct (detach2_spec mP d HSP HdP) as (m1 & mD & R1 & R2 & T). rewrite R1. cbn [bind]. rewrite R2. cbn [bind].
  (* the start node *)
  assert (EnC : nodes mC = nodes m) by (rewrite EqC; reflexivity).
  pose proof (si_node _ _ HS d Hd) as Hn. pose proof (d2_pos _ _ _ T (stt m d)) as Hp.
  assert (Hnp : nAt mP (stt m d) = nAt m (stt m d)) by (unfold nAt, mP; cbn; rewrite EnC; reflexivity).
  rewrite Hnp in Hp.
  destruct (nAt mD (stt m d)) as [nd|] eqn:End; [|destruct (nAt m (stt m d)); [discriminate | congruence]].
  rewrite (deref_node _ _ _ End). cbn [bind].
  assert (HE : exists mE, (if nanchor nd =? 0 then r <- removeIsolatedNode hk mD (stt m d) ;; Ok (fst r) else Ok mD) = Ok mE /\ nless mD mE).
  { destruct (Z.eqb_spec (nanchor nd) 0) as [E0|E0]; [|exists mD; split; [reflexivity | apply nless_refl]].
    destruct (removeIsolatedNode_nless hk mD _ nd End E0) as (mE & b & -> & N & _). exists mE. split; [reflexivity | assumption]. }
  destruct HE as (mE & -> & N). cbn [bind].
  pose proof (nl_eq _ _ N) as EqE.
  assert (EfE : faces mE = list_upd (faces m) s X).
  { rewrite EqE. cbn. rewrite (d2_faces _ _ _ T). unfold mP; cbn. rewrite EfC. reflexivity. }
  assert (HmE : fAt mE mm = Some f2) by (unfold fAt; rewrite EfE, tget_upd_neq by auto; exact Hf2).
  (* the area update *)
  assert (HG : exists mG ar, match farea sf with
        | Some a => x <- faceArea mE mm ;; let (m, b) := x in Ok (putF m s (Some (mkFace sa' (Some (a + b)) (fflags sf))))
        | None => Ok mE end = Ok mG /\
      mG = set_faces mE (faces mG) /\
      faces mG = list_upd (faces m) s (Some (mkFace sa' ar (fflags sf))) /\
      (forall va, farea sf = Some va -> exists vb, farea f2 = Some vb /\ ar = Some (va + vb))).
  { destruct (farea sf) as [va|] eqn:Eva.
    - unfold faceArea. rewrite (deref_face _ _ _ HmE). cbn [bind]. rewrite Hv2. cbn [bind].
      eexists. exists (Some (va + v2)). split; [reflexivity|]. split; [reflexivity|]. split.
      + unfold putF; cbn [faces set_faces]. rewrite EfE. apply list_upd_upd.
      + intros w [= <-]. exists v2; auto.
    - exists mE, None. split; [reflexivity|]. split; [destruct mE; reflexivity|]. split; [|discriminate].
      rewrite EfE. unfold X, set_anchors. rewrite Eva. reflexivity. }
  destruct HG as (mG & ar & -> & EqG & EfG & Har). cbn [bind].
  eexists. split; [reflexivity|].
  set (m' := uninitFace (uninitEdge mG (elab d)) mm).
  assert (Ef' : faces m' = list_upd (list_upd (faces m) s (Some (mkFace sa' ar (fflags sf)))) mm None) by (cbn; rewrite EfG; reflexivity).
  assert (VP : SInv (putF m s X)).
  { constructor; try exact (sv_e0 _ V) || exact (sv_cap _ V) || exact (sv_len _ V) || exact (sv_nc _ V) || exact (sv_ec _ V).
    - destruct HS; constructor; assumption.
    - cbn. unfold fAt in Hsf. rewrite (sumf_tget alive _ _ _ _ Hsf), (sv_fc _ V). unfold X; simpl; lia. }
  assert (Hm2 : tget (list_upd (faces m) s (Some (mkFace sa' ar (fflags sf)))) mm = Some f2) by (rewrite tget_upd_neq by auto; exact Hf2).
  assert (EfcE : faceCount mE = faceCount m) by (rewrite EqE; cbn; rewrite (d2_fc _ _ _ T); cbn; rewrite EqC; reflexivity).
  assert (EfcG : faceCount mG = faceCount m) by (rewrite EqG; exact EfcE).
  assert (Gn : EdgeGone (putF m s X) d m').
  { apply (gone_build (putF m s X) P s mP mD mE m' d VP).
    - exact Hd.
    - apply relab_putF; assumption.
    - exact T.
    - exact N.
    - cbn. rewrite EqG. reflexivity.
    - cbn. rewrite EqG. reflexivity.
    - cbn. rewrite EqG. reflexivity.
    - cbn. rewrite EqG. reflexivity.
    - cbn. rewrite EqG. reflexivity.
    - cbn. rewrite EqG. reflexivity.
    - cbn. rewrite EqG. reflexivity.
    - cbn. rewrite EqG. reflexivity.
    - rewrite Ef', (sumf_tget alive _ _ _ _ Hm2). unfold fAt in Hsf. rewrite (sumf_tget alive _ _ _ _ Hsf).
      cbn [m' faceCount uninitFace set_faceCount putF set_faces uninitEdge set_edgeCount putE set_edges].
      rewrite EfcG, (sv_fc _ V). simpl; lia. }
  assert (G : EdgeGone m d m') by (destruct Gn; constructor; assumption).
  assert (Eem : forall x, In x (rest m d) -> eAt m' (elab x) = eAt mC (elab x)).
  { intros x Hx. unfold eAt. cbn. rewrite EqG. cbn. rewrite EqE. cbn. rewrite (d2_edges _ _ _ T). cbn.
    rewrite tget_upd_None. apply in_rest in Hx as (B1 & B2 & B3).
    destruct (Nat.eqb_spec (elab d) (elab x)) as [E|]; [|reflexivity]. symmetry in E; apply elab_eq in E; tauto. }
  constructor.
  - exact G.
  - intros x Hx. assert (HxR : In x (rest m d)) by (apply (eg_darts _ _ _ G); assumption).
    assert (HxD : In x (darts m)) by (apply in_rest in HxR; tauto).
    assert (EC : lft m' x = lft mC x) by (unfold lft; rewrite Eem by assumption; reflexivity). rewrite EC.
    destruct (faceO_deref m x F HxD) as (l & f & Elx & _). rewrite Elx.
    destruct (Nat.eqb_spec l mm) as [->|Hlm].
    + apply (rl_in _ _ _ _ HC); auto. apply HPl; assumption.
    + rewrite (rl_out _ _ _ _ HC); auto. rewrite HPl by assumption. congruence.
  - cbn [m' faceCount uninitFace set_faceCount putF set_faces uninitEdge set_edgeCount putE set_edges]. rewrite EfcG; reflexivity.
  - exists sf, f2, c1, c2, a1, a2, sa, ar. do 7 (split; [assumption|]). split; [exact Ef' | exact Har].
Qed.

(** How the surviving side is chosen. *)
Definition survives m mc d0 d s mm : Prop :=
  exists l r fl fr vl vr, lft m d0 = Some l /\ lft m (- d0) = Some r /\
    fAt mc l = Some fl /\ fAt mc r = Some fr /\ farea fl = Some vl /\ farea fr = Some vr /\
    (d = d0 /\ s = l /\ mm = r \/ d = - d0 /\ s = r /\ mm = l) /\
    (s <> mm -> mm <> 0%nat /\ (d = d0 -> vr <= vl \/ l = 0%nat) /\ (d = - d0 -> vl < vr \/ r = 0%nat)).

Lemma pickDart_spec m d0 : MInv m -> In d0 (darts m) ->
  exists mc d s mm, pickDart m d0 = Ok (mc, d) /\ cached m mc /\ survives m mc d0 d s mm /\
    lft m d = Some s /\ lft m (- d) = Some mm.
Proof.
  intros M Hd. pose proof (mi_v _ M) as V. pose proof (mi_f _ M) as F.
  assert (Hd' : In (- d0) (darts m)) by (apply darts_opp; assumption).
  unfold pickDart. rewrite (leftLabel_Ok m d0 Hd), (rightLabel_Ok m d0 Hd). cbn [bind].
  destruct (faceO_deref m d0 F Hd) as (l & f & El & Hf). destruct (faceO_deref m (- d0) F Hd') as (r & g & Er & Hg).
  rewrite El, Er.
  destruct (faceArea_spec m l f V F Hf) as (m1 & v1 & -> & C1 & (f1 & Hf1 & Hv1) & _). cbn [bind].
  pose proof (ca_face _ _ C1 r) as K. rewrite Hg in K. destruct (fAt m1 r) as [g1|] eqn:Hg1; [|contradiction].
  destruct (faceArea_spec m1 r g1 (cached_SInv _ _ C1 V) (cached_FI _ _ C1 F) Hg1) as (m2 & v2 & -> & C2 & (g2 & Hg2 & Hv2) & _).
  cbn [bind].
  pose proof (cached_trans _ _ _ C1 C2) as C.
  pose proof (ca_face _ _ C2 l) as K2. rewrite Hf1 in K2. destruct (fAt m2 l) as [f2|] eqn:Hf2; [|contradiction].
  destruct K2 as (_ & _ & K2). assert (Hv1' : farea f2 = Some v1) by (destruct K2 as [K2|(K2 & _)]; congruence).
  exists m2. destruct (Z.ltb_spec v1 v2) as [Hlt|Hge].
  - destruct (Nat.eqb_spec l 0) as [E0|E0].
    + exists (- - d0), l, r. split; [reflexivity|]. split; [assumption|]. rewrite Z.opp_involutive. split; [|auto].
      exists l, r, f2, g2, v1, v2. repeat (split; [assumption|]). split; [left; auto|].
      intros Hne. split; [congruence|]. split; [right; assumption|].
      intros E. exfalso. apply in_darts in Hd. lia.
    + exists (- d0), r, l. split; [reflexivity|]. split; [assumption|]. rewrite Z.opp_involutive. split; [|auto].
      exists l, r, f2, g2, v1, v2. repeat (split; [assumption|]). split; [right; auto|].
      intros Hne. split; [assumption|]. split; [intros E; exfalso; apply in_darts in Hd; lia | left; lia].
  - destruct (Nat.eqb_spec r 0) as [E0|E0].
    + exists (- d0), r, l. split; [reflexivity|]. split; [assumption|]. rewrite Z.opp_involutive. split; [|auto].
      exists l, r, f2, g2, v1, v2. repeat (split; [assumption|]). split; [right; auto|].
      intros Hne. split; [congruence|]. split; [intros E; exfalso; apply in_darts in Hd; lia | right; assumption].
    + exists d0, l, r. split; [reflexivity|]. split; [assumption|]. split; [|auto].
      exists l, r, f2, g2, v1, v2. repeat (split; [assumption|]). split; [left; auto|].
      intros Hne. split; [assumption|]. split; [left; lia | intros E; exfalso; apply in_darts in Hd; lia].
Qed.

Lemma mergeFaces_full hk m d0 : MInv m ->
  goodE (~ In d0 (darts m) \/ lft m d0 = lft m (- d0)) (fun r => In d0 (darts m) /\ exists mc d s mm, cached m mc /\ survives m mc d0 d s mm /\
          lft m d = Some s /\ lft m (- d) = Some mm /\ s <> mm /\
          ((hkMergeFaces hk mc d = false /\ snd r = None /\ fst r = mc) \/
           (hkMergeFaces hk mc d = true /\ snd r = Some s /\ FMerged mc d s mm (fst r)))) (mergeFaces hk m d0).
Proof.
  intros M. unfold mergeFaces.
  destruct (eAt m (elab d0)) as [e|] eqn:He.
  2:{ rewrite (require_edge_None _ _ He). left; intros K; apply in_darts in K; tauto. }
  rewrite (require_edge _ _ _ He). cbn [bind].
  assert (Hd0 : In d0 (darts m)) by (apply eAt_zero; [apply M | congruence]).
  destruct (pickDart_spec m d0 M Hd0) as (mc & d & s & mm & -> & C & Sv & Hl & Hl'). cbn [bind].
  pose proof (cached_MInv _ _ C M) as Mc. destruct (cached_views _ _ C) as (ED & _ & Est & Elf & _).
  assert (Hd : In d (darts mc)).
  { rewrite ED. destruct Sv as (l & r & _ & _ & _ & _ & _ & _ & _ & _ & _ & _ & [(-> & _)|(-> & _)] & _); [|apply darts_opp]; assumption. }
  assert (Hd' : In (- d) (darts mc)) by (apply darts_opp; assumption).
  rewrite (leftLabel_Ok mc d Hd), (rightLabel_Ok mc d Hd), (startLabel_Ok mc d Hd). cbn [bind].
  rewrite !Elf, Hl, Hl'. cbn [faceO].
  assert (Hfc : exists f1 f2 v2, fAt mc s = Some f1 /\ fAt mc mm = Some f2 /\ farea f2 = Some v2).
  { destruct Sv as (l & r & fl & fr & vl & vr & H1 & H2 & H3 & H4 & H5 & H6 & [(-> & -> & ->)|(-> & -> & ->)] & _).
    - exists fl, fr, vr; auto.
    - exists fr, fl, vl; auto. }
  destruct Hfc as (f1 & f2 & v2 & Hf1 & Hf2 & Hv2).
  rewrite (deref_face _ _ _ Hf1), (deref_face _ _ _ Hf2). cbn [bind].
  destruct (nAt mc (stt mc d)) as [n1|] eqn:En1; [|exfalso; apply (si_node _ _ (sv_si _ (mi_v _ Mc)) d Hd); assumption].
  rewrite (deref_node _ _ _ En1). cbn [bind].
  destruct (Nat.eqb_spec s mm) as [Hne|Hne]; [right; destruct Sv as (? & ? & _ & _ & _ & _ & _ & _ & _ & _ & _ & _ & [(-> & _)|(-> & _)] & _); rewrite ?Z.opp_involutive in *; congruence|].
  destruct (hkMergeFaces hk mc d) eqn:Hh; cbn [negb].
  2:{ cbn [goodE fst snd]. split; [assumption|]. exists mc, d, s, mm. rewrite Hh. repeat (split; [assumption|]). left; auto. }
  fold (mergeBody hk mc d (stt mc d) s mm f2).
  destruct (mergeBody_spec hk mc d s mm f2 v2 Mc Hd) as (m' & -> & FM); auto; try (rewrite Elf; assumption).
  cbn [goodE fst snd]. split; [assumption|]. exists mc, d, s, mm. rewrite Hh. repeat (split; [assumption|]). right; auto.
Qed.

Lemma mergeFaces_spec hk m d0 : MInv m ->
  good (fun r => In d0 (darts m) /\ exists mc d s mm, cached m mc /\ survives m mc d0 d s mm /\
          lft m d = Some s /\ lft m (- d) = Some mm /\ s <> mm /\
          ((hkMergeFaces hk mc d = false /\ snd r = None /\ fst r = mc) \/
           (hkMergeFaces hk mc d = true /\ snd r = Some s /\ FMerged mc d s mm (fst r)))) (mergeFaces hk m d0).
Proof. intros M. exact (goodE_good _ _ _ (mergeFaces_full hk m d0 M)). Qed.

(** ** Preservation *)
Section MergeFaces.
  Variables (m m' : gmap) (d : Z) (s mm : nat).
  Hypothesis M : MInv m.
  Hypothesis Hd : In d (darts m).
  Hypothesis Hl : lft m d = Some s.
  Hypothesis Hl' : lft m (- d) = Some mm.
  Hypothesis Hsm : s <> mm.
  Hypothesis Hm0 : mm <> 0%nat.
  Hypothesis FM : FMerged m d s mm m'.

  Let V := mi_v _ M.
  Let F := mi_f _ M.
  Let HS := sv_si _ V.
  Let G := mf_gone _ _ _ _ _ FM.
  Let HP := phi_perm m HS.
  Let Hd' : In (- d) (darts m).
  Proof. apply darts_opp; assumption. Qed.
  Let Hd0 : d <> 0.
  Proof. apply (si_nz _ _ HS); assumption. Qed.

  Lemma mf_nr : ~ reach (phi m) d (- d).
  Proof.
    intros Hr. pose proof (fi_reach (darts m) (phi m) _ (lft m) (fanch m) d (- d) HP F Hd Hr). congruence.
  Qed.

  Let sgd : sg m d <> d.
  Proof.
    intros E. apply sgi_fix in E; auto. apply Hsm.
    pose proof (fi_phi _ _ _ _ F (- d) Hd') as K. unfold phi in K. rewrite Z.opp_involutive, E in K. congruence.
  Qed.
  Let sgd' : sg m (- d) <> - d.
  Proof.
    intros E. apply sgi_fix in E; auto. apply Hsm.
    pose proof (fi_phi _ _ _ _ F d Hd) as K. unfold phi in K. rewrite E in K. congruence.
  Qed.

  Let alone_no x : sg m d = - d -> sg m (- d) = d -> In x (darts m) -> U m d x -> x = d \/ x = - d.
  Proof.
    intros E1 E2 Hx HU.
    assert (P1 : phi m d = d). { unfold phi. rewrite <- E1. apply (si_perm _ _ HS d Hd). }
    assert (P2 : phi m (- d) = - d). { unfold phi. rewrite Z.opp_involutive. rewrite <- E2 at 1. apply (si_perm _ _ HS (- d) Hd'). }
    destruct HU as [H|H]; [left|right]; apply (orbit_one (darts m) (phi m) _ _ _ HP); auto.
  Qed.

  (* facts about the new anchor list *)
  Let Hdata : exists sf f2 c1 c2 a1 a2 b B ar,
     fAt m s = Some sf /\ fAt m mm = Some f2 /\
     nth_error (fanchors sf) c1 = Some a1 /\ nth_error (fanchors f2) c2 = Some a2 /\
     reach (phi m) a1 d /\ reach (phi m) a2 (- d) /\
     ((b = [] /\ sg m d = - d /\ sg m (- d) = d) \/ (exists x, b = [x] /\ In x (rest m d) /\ U m d x)) /\
     faces m' = list_upd (list_upd (faces m) s (Some (mkFace B ar (fflags sf)))) mm None /\
     Permutation B (b ++ remove_nth (fanchors sf) c1 ++ remove_nth (fanchors f2) c2).
  Proof.
    destruct (mf_f _ _ _ _ _ FM) as (sf & f2 & c1 & c2 & a1 & a2 & sa & ar & H1 & H2 & H3 & H4 & H5 & H6 & H7 & H8 & _).
    exists sf, f2, c1, c2, a1, a2. destruct H7 as [(-> & E1 & E2)|(x & -> & Hx & HU & _)].
    - exists [], (remove_nth (fanchors sf) c1 ++ remove_nth (fanchors f2) c2), ar. repeat (split; [assumption|]).
      split; [left; auto|]. split; [assumption | reflexivity].
    - exists [x], (list_upd (fanchors sf) c1 x ++ remove_nth (fanchors f2) c2), ar. repeat (split; [assumption|]).
      split; [right; exists x; auto|]. split; [assumption|].
      rewrite app_assoc. apply Permutation_app_tail. apply (perm_list_upd _ _ a1); assumption.
  Qed.

  Lemma mf_FI : FIm m'.
  Proof.
    destruct Hdata as (sf & f2 & c1 & c2 & a1 & a2 & b & B & ar & H1 & H2 & H3 & H4 & H5 & H6 & H7 & H8 & HB).
    pose proof (tget_lt _ _ _ H1) as Ls. pose proof (tget_lt _ _ _ H2) as Lm.
    apply (FI_merge (darts m) (darts m') (phi m) (fun x => - sg m x) (phi m') (lft m) (lft m') (fanch m) (fanch m')
             d (- d) s mm (fanchors sf) (fanchors f2) (remove_nth (fanchors sf) c1) (remove_nth (fanchors f2) c2) B b a1 a2).
    - exact HP.
    - exact F.
    - exact Hl.
    - exact Hl'.
    - unfold fanch. rewrite H1. reflexivity.
    - unfold fanch. rewrite H2. reflexivity.
    - apply perm_remove_nth; assumption.
    - apply perm_remove_nth; assumption.
    - exact H5.
    - exact H6.
    - intros x. rewrite (eg_darts _ _ _ G), in_rest. reflexivity.
    - intros x y Hx Hy. rewrite (eg_phi_reach m m' d V Hd G x y Hx Hy).
      destruct (eg_in _ _ _ G x Hx) as (Hx1 & _). destruct (eg_in _ _ _ G y Hy) as (Hy1 & _).
      apply (swp_join (darts m) (phi m) _ HP d (- d) Hd Hd' mf_nr x y Hx1 Hy1).
    - intros x Hx. apply (eg_phi_in m m' d G x Hx).
    - exact (mf_lft _ _ _ _ _ FM).
    - unfold fanch, fAt. rewrite H8, tget_upd_neq by auto. rewrite tget_upd_eq by assumption. reflexivity.
    - unfold fanch, fAt. rewrite H8, tget_upd_None, Nat.eqb_refl. reflexivity.
    - intros l Hls Hlm. unfold fanch, fAt. rewrite H8, !tget_upd_neq by auto. reflexivity.
    - exact HB.
    - destruct H7 as [(-> & E1 & E2)|(x & -> & Hx & HU)]; [left|right].
      + split; [reflexivity|]. intros x Hx HU. destruct (eg_in _ _ _ G x Hx) as (Hx1 & Hx2 & Hx3).
        destruct (alone_no x E1 E2 Hx1 HU); contradiction.
      + exists x. split; [reflexivity|]. split; [apply (eg_darts _ _ _ G); assumption | exact HU].
  Qed.

  Lemma mf_rank : rank (Gm m) = rank (Gm m').
  Proof.
    rewrite (eg_Gm m m' d G). apply (gone_rank_split m d (elabs m') M Hd); [|apply mf_nr].
    apply (eg_elabs m m' d Hd G).
  Qed.

  Lemma mf_conn : conn (Gm m') (stt m d) (stt m (- d)).
  Proof.
    rewrite (eg_Gm m m' d G). apply (gone_conn_split m d (elabs m') M Hd); [|apply mf_nr].
    apply (eg_elabs m m' d Hd G).
  Qed.

  Lemma mf_geq : geq (Gm m) (Gm m').
  Proof.
    transitivity ((stt m d, stt m (- d)) :: Gm m').
    - rewrite (eg_Gm m m' d G). apply Gm_edge. apply (eg_elabs m m' d Hd G).
    - split; [apply rank_dep, mf_conn|]. intros x y. split; intros Hc.
      + apply conn_cons in Hc as [Hc|[[Hc1 Hc2]|[Hc1 Hc2]]]; auto.
        * apply (conn_trans _ _ (stt m d)); auto. apply (conn_trans _ _ (stt m (- d))); auto using mf_conn.
        * apply (conn_trans _ _ (stt m (- d))); auto. apply (conn_trans _ _ (stt m d)); auto using conn_sym, mf_conn.
      + apply conn_cons; auto.
  Qed.

  Lemma mf_counts : exists i,
    sumf busy (nodes m') = sumf busy (nodes m) - i /\
    sumf ncont (faces m') = sumf ncont (faces m) - 1 - i.
  Proof.
    destruct Hdata as (sf & f2 & c1 & c2 & a1 & a2 & b & B & ar & H1 & H2 & H3 & H4 & H5 & H6 & H7 & H8 & HB).
    exists (1 - Z.of_nat (length b)). split.
    - rewrite (eg_busy _ _ _ G). apply Z.eqb_neq in sgd. rewrite sgd. unfold skp.
      destruct H7 as [(-> & E1 & E2)|(x & -> & Hx & HU)].
      + rewrite E2, Z.eqb_refl, E1, Z.eqb_refl. simpl; lia.
      + cbn [length]. destruct (Z.eqb_spec (sg m (- d)) d) as [E|E].
        * destruct (Z.eqb_spec (sg m d) (- d)) as [E'|E']; [|lia].
          exfalso. apply in_rest in Hx as (Hx1 & Hx2 & Hx3). destruct (alone_no x E' E Hx1 HU); contradiction.
        * destruct (Z.eqb_spec (sg m (- d)) (- d)) as [E'|E']; [contradiction | lia].
    - rewrite H8. assert (H2' : tget (list_upd (faces m) s (Some (mkFace B ar (fflags sf)))) mm = Some f2) by (rewrite tget_upd_neq by auto; exact H2).
      rewrite (sumf_tget ncont _ _ _ _ H2'). unfold fAt in H1. rewrite (sumf_tget ncont _ _ _ _ H1). cbn [ncont fanchors].
      rewrite (Permutation_length HB), !app_length, (Permutation_length (perm_remove_nth _ _ _ H3)), (Permutation_length (perm_remove_nth _ _ _ H4)).
      cbn [length]. lia.
  Qed.

  Theorem mf_MInv : MInv m'.
  Proof.
    constructor.
    - apply G.
    - apply mf_FI.
    - destruct Hdata as (sf & f2 & c1 & c2 & a1 & a2 & b & B & ar & H1 & H2 & H3 & H4 & H5 & H6 & H7 & H8 & HB).
      unfold fAt. rewrite H8, tget_upd_neq by auto. rewrite tget_upd. pose proof (tget_lt _ _ _ H1) as Ls. apply Nat.ltb_lt in Ls.
      rewrite Ls. destruct (Nat.eqb s 0); [discriminate | apply (mi_0 _ M)].
    - destruct mf_counts as (i & Hb & Hn). pose proof (mi_pl _ M). pose proof mf_rank.
      rewrite Hb, Hn, (eg_alive m m' d V Hd G). lia.
    - destruct Hdata as (sf & f2 & c1 & c2 & a1 & a2 & b & B & ar & H1 & H2 & H3 & H4 & H5 & H6 & H7 & H8 & HB).
      assert (EL : links m' = tmap (fun f => star (map (stt m) (fanchors f))) (faces m')).
      { unfold links. apply tmap_ext. intros i g Hg. f_equal. apply map_ext_in. intros x Hx.
        apply (eg_stt m m' d G). apply (fi_anchor _ _ _ _ mf_FI i (fanchors g) x); auto.
        unfold fanch, fAt. rewrite Hg. reflexivity. }
      destruct (tmap_upd2 (fun f => star (map (stt m) (fanchors f))) (faces m) s mm sf f2 Hsm H1 H2) as (K & HK & HK').
      rewrite EL, H8. apply (indep_perm _ _ _ (Permutation_sym (HK' _))). cbn [fanchors].
      pose proof (indep_perm _ _ _ HK (mi_in _ M)) as Hind.
      assert (HaD1 : In a1 (darts m)).
      { apply (fi_anchor _ _ _ _ F s (fanchors sf) a1); [unfold fanch; rewrite H1; reflexivity | eapply nth_error_In; exact H3]. }
      assert (HaD2 : In a2 (darts m)).
      { apply (fi_anchor _ _ _ _ F mm (fanchors f2) a2); [unfold fanch; rewrite H2; reflexivity | eapply nth_error_In; exact H4]. }
      assert (C1 : conn (Gm m') (stt m a1) (stt m d)) by (apply mf_geq, phi_conn_m; assumption).
      assert (C2 : conn (Gm m') (stt m a2) (stt m (- d))) by (apply mf_geq, phi_conn_m; assumption).
      apply (merge_indep (map (stt m) (fanchors sf)) (map (stt m) (fanchors f2)) (stt m a1) (stt m a2)
               (map (stt m) (remove_nth (fanchors sf) c1)) (map (stt m) (remove_nth (fanchors f2) c2)) K (Gm m') _ (map (stt m) b)).
      + apply (indep_geq_base _ (Gm m)); [apply mf_geq | assumption].
      + change (stt m a1 :: map (stt m) (remove_nth (fanchors sf) c1)) with (map (stt m) (a1 :: remove_nth (fanchors sf) c1)).
        apply Permutation_map, perm_remove_nth; assumption.
      + change (stt m a2 :: map (stt m) (remove_nth (fanchors f2) c2)) with (map (stt m) (a2 :: remove_nth (fanchors f2) c2)).
        apply Permutation_map, perm_remove_nth; assumption.
      + apply (conn_trans _ _ (stt m d)); auto. apply (conn_trans _ _ (stt m (- d))); auto using mf_conn, conn_sym.
      + rewrite <- !map_app. apply Permutation_map; assumption.
      + destruct H7 as [(-> & E1 & E2)|(x & -> & Hx & HU)]; [left; reflexivity|right].
        exists (stt m x). split; [reflexivity|]. apply in_rest in Hx as (Hx1 & _).
        apply (conn_trans _ _ (stt m d)); auto. destruct HU as [HU|HU].
        * apply conn_sym, mf_geq, phi_conn_m; assumption.
        * apply (conn_trans _ _ (stt m (- d))); [apply mf_conn|]. apply conn_sym, mf_geq, phi_conn_m; assumption.
    - destruct Hdata as (sf & f2 & c1 & c2 & a1 & a2 & b & B & ar & H1 & H2 & H3 & H4 & H5 & H6 & H7 & H8 & HB).
      pose proof (mi_eu _ M). pose proof mf_rank. rewrite (eg_alive m m' d V Hd G), H8.
      assert (H2' : tget (list_upd (faces m) s (Some (mkFace B ar (fflags sf)))) mm = Some f2) by (rewrite tget_upd_neq by auto; exact H2).
      rewrite (sumf_tget alive _ _ _ _ H2'). unfold fAt in H1. rewrite (sumf_tget alive _ _ _ _ H1). cbn [alive]. lia.
  Qed.
End MergeFaces.
