(** The calls without statements about the label image *)
From Coq Require Import QArith.
From Verif Require Import Base Orbit GeoMap_Model GeoMap_Views GeoMap_SInv GeoMap_Remove GeoMap_MergeEdges GeoMap_SplitEdge GeoMap_MInv GeoMap_Gone GeoMap_Bridge GeoMap_MergeFaces
  GeoMap_Init GeoMap_Area GeoMap_Embed GeoMap_Flags GeoMap_Move GeoMap_Sort GeoMap_History GeoMap_Geometry GeoMap_Spec GeoMap_Facts GeoMap_Results
  Scanlines_Model Scanlines_Spec ScanPoly_Model ScanPoly_Spec LabelLUT_Model LabelLUT_Spec LabelLUT_Proofs
  LabelImage_Model LabelImage_Spec LabelImage_Loops LabelImage_Cover LabelImage_Cache LabelImage_Inv LabelImage_Steps LabelImage_Remove.
Local Open Scope Z_scope.

Section Pass.
Variable srt : list seg -> list seg.
Hypothesis Hsrt : sorter srt.
Variable unit : positive.
Notation LInv := (LInv srt unit).

Definition plain (o : GeoMap_Model.op) : Prop :=
  match o with OMergeEdges _ | OSplitEdge _ _ _ _ | ORemoveBridge _ | OMergeFaces _ | ORemoveEdge _ => False | _ => True end.

Definition sameFaces m m' : Prop := length (faces m') = length (faces m) /\ forall f, fAt m' f <> None <-> fAt m f <> None.
Lemma sameFaces_eq m m' : faces m' = faces m -> sameFaces m m'.
Proof. intros E. unfold sameFaces, fAt. rewrite E. split; [reflexivity | tauto]. Qed.

Theorem pass_spec hk st o : LInv st -> lallowed st (LCall hk o) -> tracked st (LCall hk o) -> plain o ->
  good (fun m' => LInv (set_lg st m') /\ (lim st <> None -> samePts (lg st) m' /\ sameFaces (lg st) m')) (run_op hk (lg st) o).
Proof.
  intros L [Al Ge] Tr Po. set (m := lg st) in *. pose proof (Inv_SInv m (li_inv _ _ _ L)) as V. pose proof (allowed_op_ok m hk o V Al) as Ok_.
  assert (Hstep : forall m', run_op hk m o = Ok m' -> Inv m' /\ geo m' /\ (MInv m -> MInv m')).
  { intros m' E. apply (step_base srt unit st (Call hk o) m' L Al Ge). exact E. }
  assert (Same : forall m', run_op hk m o = Ok m' -> edges m' = edges m -> sameFaces m m' -> LInv (set_lg st m') /\ (lim st <> None -> samePts m m' /\ sameFaces m m')).
  { intros m' E Ee [F1 F2]. destruct (Hstep m' E) as (I' & G' & M'). split; [apply samePts_keep; auto | intros _; split; [apply samePts_edges, Ee | split; assumption]]. }
  assert (Off : faces m = [] -> lim st = None).
  { intros Ef. destruct (lim st) as [img|] eqn:Hi; [|reflexivity]. exfalso. apply (mi_0 _ (ii_m _ _ _ _ (li_img _ _ _ L img Hi))). unfold fAt. fold m. rewrite Ef. reflexivity. }
  destruct o; cbn [plain] in Po; try contradiction.
  - apply Same; auto. apply sameFaces_eq. reflexivity.
  - apply Same; auto. apply sameFaces_eq. reflexivity.
  - cbn [run_op op_ok] in *. destruct Ok_ as [O1 O2]. pose proof (addEdge_inv m s e pts l V O1 O2) as G. destruct (addEdge m s e pts l) as [[m' r]| | |] eqn:E; cbn [good bind fst snd] in *; auto.
    destruct G as (_ & Ef' & Ef & Hl & _ & (sa & ea & _ & _ & He) & _ & _ & _ & Hle). destruct (Hstep m' eq_refl) as (I' & G' & M'). specialize (Off Ef). split; [|congruence].
    apply keep_LInv; auto; fold m; try lia; [|congruence].
    intros j sc e' Hs. rewrite He. destruct (Nat.eqb_spec j r) as [Q|Q]; [|intros He'; exists e'; auto].
    rewrite (li_new _ _ _ L) in Hs by (fold m; lia). discriminate.
  - pose proof Same as Sm. cbn [run_op op_ok] in *. destruct Ok_ as (n & Hn & H0). unfold removeIsolatedNode in *. rewrite (deref_node _ _ _ Hn) in *. cbn [bind] in *.
    destruct (hkNode hk m l); cbn [bind good fst] in *; apply Sm; auto; apply sameFaces_eq; reflexivity.
  - pose proof Same as Sm. cbn [run_op op_ok] in *. destruct (li_inv _ _ _ L) as [G|M].
    { exfalso. apply Ok_. unfold fAt. unfold m. rewrite (gp_f _ G). destruct l; reflexivity. }
    destruct (fAt m l) as [f|] eqn:Ef; [|contradiction]. destruct (faceArea_spec m l f V (mi_f _ M) Ef) as (m' & v & E & C & _). rewrite E in *. cbn [good bind fst] in *.
    apply Sm; auto; [apply (cached_same _ _ C)|]. split; [apply C|]. intros g. pose proof (ca_face _ _ C g) as K. destruct (fAt m g), (fAt m' g); split; intros; try congruence; contradiction.
  - cbn [run_op op_ok] in *. destruct Ok_ as (e & He). destruct (setFlag_flagged m l flag onoff e He) as (m' & E & F). rewrite E in *. cbn [good].
    destruct (Hstep m' eq_refl) as (I' & G' & M'). assert (Sp : samePts m m').
    { split; [apply F|]. intros j. pose proof (fg_edge _ _ F j) as K. destruct (eAt m j) as [e0|], (eAt m' j) as [e1|]; try contradiction; [|reflexivity]. cbn. rewrite K. reflexivity. }
    assert (Sf : sameFaces m m') by (apply sameFaces_eq; rewrite (fg_eq _ _ F); reflexivity).
    split; [|auto]. apply keep_LInv; auto.
    + intros j sc e' _ He'. destruct Sp as [_ Sp]. specialize (Sp j). rewrite He' in Sp. fold m. destruct (eAt m j) as [e0|]; [|discriminate]. exists e0. cbn in Sp. split; [reflexivity | congruence].
    + fold m. destruct Sp as [-> _]. lia.
  - cbn [run_op op_ok tracked] in *. destruct Ok_ as ((nd & Hn) & Hp). destruct Tr as [Ti Tc]. destruct (setPosition_spec m l p nd V Hn Hp) as (m' & E & R). rewrite E in *. cbn [good].
    destruct (Hstep m' eq_refl) as (I' & G' & M'). split; [|congruence]. apply keep_LInv; auto.
    + intros j sc e' Hs. rewrite (rp_edge _ _ _ _ R j). destruct (eAt m j) as [e0|] eqn:E0; cbn; [|discriminate]. intros Q. injection Q as <-. exists e0. split; [exact E0|].
      assert (N : estart e0 <> l /\ eend e0 <> l).
      { split; intros C; rewrite (Tc j e0) in Hs; try discriminate; auto; apply isEdge_iff; exact E0. }
      destruct N as [N1 N2]. apply Nat.eqb_neq in N1, N2. rewrite N1, N2. reflexivity.
    + fold m. rewrite (rp_elen _ _ _ _ R). lia.
    + congruence.
  - cbn [run_op] in *. destruct (Nat.eqb_spec (length (faces m)) 0) as [Ef|N].
    + destruct (sortEdgesDirectly_spec m V (faces_len_nil m Ef)) as [(m' & E & R)|(E & _)]; rewrite E in *; [|exact I]. cbn [good]. apply Same; auto; rewrite (rs_eq _ _ R); [reflexivity | apply sameFaces_eq; reflexivity].
    + unfold sortEdgesDirectly. destruct (Nat.eqb_spec (length (faces m)) 0); [contradiction|]. exact I.
  - cbn [run_op] in *. destruct (Nat.eqb_spec (length (faces m)) 0) as [Ef|N].
    + destruct (setSigmaMapping_spec m f hs srt0 V (faces_len_nil m Ef) Ok_) as [E|(m' & E & _ & R & _)]; rewrite E in *; [exact I|]. cbn [good]. apply Same; auto; rewrite R; [reflexivity | apply sameFaces_eq; reflexivity].
    + unfold setSigmaMapping. destruct (Nat.eqb_spec (length (faces m)) 0); [contradiction|]. exact I.
Qed.
End Pass.
