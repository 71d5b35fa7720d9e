(** C26: what Node::setPosition keeps in sync and what it leaves behind. *)
From Coq Require Import Reals.
From Verif Require Import Base Orbit FaceInv GeoMap_Model GeoMap_Views GeoMap_SInv GeoMap_Loops GeoMap_MInv GeoMap_Area GeoMap_AreaInv GeoMap_Move GeoMap_Spec GeoMap_History
  GeoMap_Geometry GeoMap_Facts GeoMap_Results GeoMap_Results2 GeoMap_Examples Polygon_Model Polygon_Spec Polygon_Proofs Polygon_Results.
Local Open Scope Z_scope.

(** point [i] of an edge after node [l] has been moved to [p] *)
Definition pointAfter (l : nat) (p : point) (e : edge) (i : nat) : option point :=
  if (Nat.eqb i 0 && Nat.eqb (estart e) l || Nat.eqb (S i) (length (epts e)) && Nat.eqb (eend e) l) && (i <? length (epts e))%nat then Some p
  else nth_error (epts e) i.

Lemma movedPts_nth a b p l i : nth_error (movedPts a b p l) i =
  if (Nat.eqb i 0 && a || Nat.eqb (S i) (length l) && b) && (i <? length l)%nat then Some p else nth_error l i.
Proof.
  unfold movedPts. destruct (Nat.ltb_spec i (length l)) as [L|L].
  - rewrite andb_true_r. destruct a, b; rewrite ?andb_true_r, ?andb_false_r, ?orb_false_r; cbn [orb]; rewrite ?list_upd_length, ?nth_error_upd, ?list_upd_length.
    + destruct (Nat.eqb_spec (length l - 1) i), (Nat.eqb_spec (S i) (length l)), (Nat.eqb_spec i 0), (Nat.eqb_spec 0 i), (Nat.ltb_spec (length l - 1) (length l)), (Nat.ltb_spec 0 (length l)); cbn; try lia; reflexivity.
    + destruct (Nat.eqb_spec 0 i), (Nat.eqb_spec i 0), (Nat.ltb_spec 0 (length l)); cbn; try lia; reflexivity.
    + destruct (Nat.eqb_spec (length l - 1) i), (Nat.eqb_spec (S i) (length l)), (Nat.ltb_spec (length l - 1) (length l)); cbn; try lia; reflexivity.
    + reflexivity.
  - rewrite andb_false_r. rewrite (proj2 (nth_error_None l i) L). apply nth_error_None. destruct a, b; rewrite ?list_upd_length; lia.
Qed.

Theorem move_keeps m l nd p : history anyCall m -> isNode m l nd -> (forall k e, isEdge m k e -> estart e = l \/ eend e = l -> epts e <> []) ->
  exists m', setPosition m l p = Ok m' /\
    (forall j, nodeP m' j = if Nat.eqb j l then Ok (Some (mkNode p (nanchor nd))) else nodeP m j) /\
    (forall d, nextSigma m' d = nextSigma m d /\ prevSigma m' d = prevSigma m d) /\ (forall j, faceP m' j = faceP m j) /\
    (nodeCount m' = nodeCount m /\ edgeCount m' = edgeCount m /\ faceCount m' = faceCount m) /\
    (forall k, match edgeP m k, edgeP m' k with
       | Ok (Some e), Ok (Some e') => estart e' = estart e /\ eend e' = eend e /\ elf e' = elf e /\ erf e' = erf e /\ eflags e' = eflags e /\
            forall i, nth_error (epts e') i = pointAfter l p e i
       | Ok None, Ok None => True
       | Exn, Exn => True
       | _, _ => False
       end) /\
    (forall k f v, isFace m' k f -> farea f = None -> enclosedArea m' f v -> reportedArea m' k v).
Proof.
  intros H Hn Hp. pose proof (history_Inv _ m H) as HI. pose proof (Inv_SInv m HI) as V. apply isNode_iff in Hn.
  destruct (setPosition_spec m l p nd V Hn) as (m' & E & R). { intros k e He. apply (Hp k). apply isEdge_iff; assumption. }
  exists m'. split; [exact E|]. destruct (repos_views m l p m' R) as (ED & EL & Es & El & Ef & Eg & Egi & Ec & Enc & Eec & Efc & _).
  split; [|split; [|split; [|split; [|split]]]].
  - intros j. destruct (rp_node _ _ _ _ R) as (nd' & Hn' & K). rewrite Hn in Hn'. injection Hn' as <-. specialize (K j). rewrite (Nat.eqb_sym l j) in K.
    unfold nodeP. unfold nAt, tget in *. destruct (Nat.eqb_spec j l) as [Ejl|N].
    + rewrite Ejl in *. destruct (nth_error (nodes m') l) as [o|]; [congruence | discriminate].
    + pose proof (rp_nlen _ _ _ _ R) as L. destruct (nth_error (nodes m) j) as [o|] eqn:E1, (nth_error (nodes m') j) as [o'|] eqn:E2.
      * congruence.
      * apply nth_error_None in E2. assert (nth_error (nodes m) j <> None) by congruence. apply nth_error_Some in H0. lia.
      * apply nth_error_None in E1. assert (nth_error (nodes m') j <> None) by congruence. apply nth_error_Some in H0. lia.
      * reflexivity.
  - intros d. unfold nextSigma, prevSigma, getS, getSi, inCap. rewrite Eg, Egi, Ec. auto.
  - intros j. unfold faceP. rewrite Ef. reflexivity.
  - auto.
  - intros k. pose proof (rp_edge _ _ _ _ R k) as K. pose proof (rp_elen _ _ _ _ R) as L. unfold edgeP. unfold eAt, tget in K.
    destruct (nth_error (edges m) k) as [o|] eqn:E1, (nth_error (edges m') k) as [o'|] eqn:E2.
    + rewrite K. destruct o as [e|]; [|exact I]. cbn. repeat split. intros i. unfold pointAfter. apply movedPts_nth.
    + apply nth_error_None in E2. assert (nth_error (edges m) k <> None) by congruence. apply nth_error_Some in H0. lia.
    + apply nth_error_None in E1. assert (nth_error (edges m') k <> None) by congruence. apply nth_error_Some in H0. lia.
    + exact I.
  - intros k f v Hf Ha Hv. apply isFace_iff in Hf.
    destruct HI as [G|M]; [unfold fAt in Hf; rewrite Ef, (gp_f _ G) in Hf; destruct k; discriminate|].
    pose proof (repos_MInv m l p m' R M) as M'. apply (enclosed_iff m' k f v (sv_si _ (mi_v _ M')) (mi_f _ M') Hf) in Hv. subst v.
    unfold reportedArea. rewrite (faceArea_val m' k f _ Hf), Ha. apply sumAreas_faceSum; assumption.
Qed.

(** edges keep starting and ending at their nodes *)
Theorem move_ends m hk l p m' : history geometric m -> allowed m (Call hk (OSetPosition l p)) -> setPosition m l p = Ok m' -> history geometric m'.
Proof. intros H A E. apply (h_call _ m (Call hk (OSetPosition l p)) m'); [assumption | assumption | exact I | exact E]. Qed.

(** a square; initializeMap has cached its area before one corner is moved *)
Definition squareCalls : list xcall :=
  [XCall (OAddNode (0,0)); XCall (OAddNode (10,10));
   XCall (OAddEdge (SAnode 0) (SAnode 1) [(0,0);(10,0);(10,10)] 0);
   XCall (OAddEdge (SAnode 1) (SAnode 0) [(10,10);(0,10);(0,0)] 0);
   XInit [1;2]%nat []].
Definition square : gmap := Eval vm_compute in replay true squareCalls.
Lemma square_history : history geometricStraight square.
Proof. apply (replay_history true squareCalls). vm_compute. reflexivity. Qed.
Lemma square_any : history anyCall square.
Proof. apply (history_weaken geometricStraight); [intros; exact I | apply square_history]. Qed.
Lemma square_node : isNode square 1 (mkNode (10, 10) (-1)).
Proof. reflexivity. Qed.
Definition squareMoved : gmap := Eval vm_compute in match setPosition square 1 (20, 20) with Ok m => m | _ => square end.
Lemma square_moved : setPosition square 1 (20, 20) = Ok squareMoved.
Proof. vm_compute. reflexivity. Qed.
Lemma square_allowed hk p : allowed square (Call hk (OSetPosition 1 p)).
Proof.
  split; [exists (mkNode (10, 10) (-1)); apply square_node|]. intros k e He _. unfold isEdge, edgeP in He.
  destruct k as [|[|[|k]]]; cbn in He; try discriminate; [injection He as <-..|destruct k; discriminate]; discriminate.
Qed.

Theorem move_area_refuted : exists m l nd p m' k f v, history geometricStraight m /\ isNode m l nd /\ allowed m (Call yes (OSetPosition l p)) /\
  setPosition m l p = Ok m' /\ isFace m' k f /\ enclosedArea m' f v /\ ~ reportedArea m' k v.
Proof.
  exists square, 1%nat, (mkNode (10, 10) (-1)), (20, 20), squareMoved, 2%nat. do 2 eexists.
  split; [apply square_history|]. split; [apply square_node|]. split; [apply square_allowed|]. split; [apply square_moved|].
  split; [vm_compute; reflexivity|]. split.
  - pose proof (h_call anyCall square (Call yes (OSetPosition 1 (20, 20))) squareMoved square_any (square_allowed _ _) I square_moved) as Hm.
    destruct (history_Inv _ _ Hm) as [G|M]; [pose proof (gp_f _ G); discriminate|].
    apply (enclosed_iff squareMoved 2 _ (faceSum squareMoved 2) (sv_si _ (mi_v _ M)) (mi_f _ M)); [vm_compute; reflexivity | reflexivity].
  - intros (m1 & K). vm_compute in K. discriminate.
Qed.

(** ** The caches of the edges *)

(** one end point written through operator[] (cppmap.cxx 2177-2184): queries answered before are answered as before, the others
    from the new points *)
Theorem move_caches p pos x q : poke p pos x = Ok q ->
  ppts q = list_upd (ppts p) pos x /\
  (plenV p = false -> snd (qLength q) = trueLength (ppts q)) /\ (plenV p = true -> snd (qLength q) = snd (qLength p)) /\
  (pareaV p = false -> snd (qArea2 q) = trueArea2 (ppts q)) /\ (pareaV p = true -> snd (qArea2 q) = snd (qArea2 p)) /\
  (pbbV p = false -> isBox (ppts q) (snd (qBBox q))) /\ (pbbV p = true -> snd (qBBox q) = snd (qBBox p)).
Proof.
  unfold poke. intros H. apply bind_Ok in H as (l & Hl & H). injection H as <-. apply vset_Ok in Hl as (_ & ->).
  unfold qLength, qArea2, qBBox. cbn [plenV pareaV pbbV ppts plen parea2 pbb]. split; [reflexivity|].
  split; [intros ->; apply computeLength_ok|]. split; [intros ->; reflexivity|]. split; [intros ->; apply computeArea2_ok|].
  split; [intros ->; reflexivity|]. split; [intros ->; apply isBox_computed | intros ->; reflexivity].
Qed.
