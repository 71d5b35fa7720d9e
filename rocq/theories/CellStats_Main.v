(** C80 to C83: the invariant of the statistics. *)
From Coq Require Import Lia.
From Verif Require Import Base CellMap_Model CellMap_Spec CellMap_Scan CellMap_Proofs CellMap_Main CellSigma_Spec CellSigma_Proofs CellSigma_Results CellLink_Spec CellLink_Proofs CellLink_Check CellFace_Spec CellFace_Walk CellFace_Step CellFace_Results CellMap_Init CellStats_Model CellStats_Spec CellStats_Step.
Local Open Scope Z_scope.

(** ** Edges along the infinite face *)
Lemma owns_at im t l x y x' y' : owns im t l x y -> x = x' -> y = y' -> owns im t l x' y'. Proof. intros H -> ->. exact H. Qed.
Lemma side_outer m n d : faced m -> n = 1 \/ n = -1 -> isDart (cim m) d -> sideOf (cim m) n d = 0 -> outerEdge (cim m) (edgeOf (cim m) d).
Proof.
  intros Fa N D S0. pose proof Fa as (Wi & Pl & Ai & Fi & _). assert (Fr : framed (cim m)) by apply Wi. pose proof Wi as (_ & (So & Ne & Jo) & _ & Se & _).
  pose proof (dart_line m d Fr D) as L. pose proof D as (V & K & T & Od). pose proof (vertex_inner (cim m) Fr _ _ V) as (VX & VY). set (im := cim m) in *. set (e := edgeOf im d) in *.
  assert (Vt : forall j, 0 <= j < 8 -> 0 <= dcx d + dirX j < iw im /\ 0 <= dcy d + dirY j < ih im).
  { intros j J. pose proof (dirX_bound j). pose proof (dirY_bound j). lia. }
  assert (Mo : 0 <= (ddir d + n) mod 8 < 8) by (apply Z.mod_pos_bound; lia). assert (Mo2 : 0 <= (ddir d + 2 * n) mod 8 < 8) by (apply Z.mod_pos_bound; lia).
  destruct (ctype_dec (typeAt im d n) Region) as [R|R].
  - (* a region beside both *)
    unfold sideOf in S0. rewrite (proj2 (CellMap_Scan.ctypeEqb_eq _ _) R) in S0. unfold labelAt in S0. unfold typeAt in R.
    assert (Ro : owns im Region 0 (dcx d + dirX ((ddir d + n) mod 8)) (dcy d + dirY ((ddir d + n) mod 8))) by (destruct (Vt _ Mo) as (A & B); split; [exact A|]; split; [exact B|]; apply pix_mk; [exact R|exact S0]).
    assert (J : exists j, In j [0; 2; 4; 6] /\ dirX (ddir d) + dirX j = dirX ((ddir d + n) mod 8) /\ dirY (ddir d) + dirY j = dirY ((ddir d + n) mod 8)).
    { clear -K N. assert (ddir d = 0 \/ ddir d = 1 \/ ddir d = 2 \/ ddir d = 3 \/ ddir d = 4 \/ ddir d = 5 \/ ddir d = 6 \/ ddir d = 7) as Q by lia.
      destruct N as [-> | ->]; destruct Q as [Q|[Q|[Q|[Q|[Q|[Q|[Q|Q]]]]]]]; rewrite Q.
      all: match goal with |- exists j, In j _ /\ dirX ?k + _ = dirX ((_ + ?n) mod 8) /\ _ => let r := eval vm_compute in ((k + (if Z.odd k then 3 * n else 2 * n)) mod 8) in exists r end; (split; [cbn; tauto|split; reflexivity]). }
    destruct J as (j & Ij & Jx & Jy). exists (dcx d + dirX (ddir d)), (dcy d + dirY (ddir d)), j. split; [exact Ij|]. split; [exact L|]. apply (owns_at _ _ _ _ _ _ _ Ro); lia.
  - assert (Ev : Z.odd (ddir d) = false). { destruct (Z.odd (ddir d)) eqn:O; [|reflexivity]. exfalso. destruct (Od eq_refl) as (O1 & O2). apply R. destruct N as [-> | ->]; assumption. }
    assert (Ik : In (ddir d) [0; 2; 4; 6]) by (assert (ddir d = 0 \/ ddir d = 1 \/ ddir d = 2 \/ ddir d = 3 \/ ddir d = 4 \/ ddir d = 5 \/ ddir d = 6 \/ ddir d = 7) as Q by lia; destruct Q as [Q|[Q|[Q|[Q|[Q|[Q|[Q|Q]]]]]]]; rewrite Q in *; cbn in *; try discriminate; tauto).
    destruct (Ai d n V Ik N T) as [A|A]; [contradiction|].
    unfold sideOf in S0. rewrite (proj2 (CellSigma_Proofs.ctypeEqb_ne _ _) R) in S0. unfold labelAt in S0. unfold typeAt in R, A.
    destruct (Vt _ Mo) as (M1 & M2). destruct (Vt _ Mo2) as (M3 & M4).
    assert (Ro : owns im Region 0 (dcx d + dirX ((ddir d + 2 * n) mod 8)) (dcy d + dirY ((ddir d + 2 * n) mod 8))) by (split; [exact M3|]; split; [exact M4|]; apply pix_mk; [exact A|exact S0]).
    set (mx := dcx d + dirX ((ddir d + n) mod 8)) in *. set (my := dcy d + dirY ((ddir d + n) mod 8)) in *.
    assert (J : exists j i b, In j [0; 2; 4; 6] /\ In i [0; 2; 4; 6] /\ In b [0; 2; 4; 6] /\ dirX (ddir d) + dirX j = dirX ((ddir d + n) mod 8) /\ dirY (ddir d) + dirY j = dirY ((ddir d + n) mod 8) /\
      dirX ((ddir d + n) mod 8) + dirX i = dirX ((ddir d + 2 * n) mod 8) /\ dirY ((ddir d + n) mod 8) + dirY i = dirY ((ddir d + 2 * n) mod 8) /\
      dirX (ddir d) + dirX b = 0 /\ dirY (ddir d) + dirY b = 0 /\ ((j + 2) mod 8 = b \/ (b + 2) mod 8 = j)).
    { clear -Ik N. cbn in Ik. destruct N as [-> | ->]; destruct Ik as [Q|[Q|[Q|[Q|[]]]]]; rewrite <- Q.
      all: match goal with |- exists j i b, _ /\ _ /\ _ /\ dirX ?k + _ = dirX ((_ + ?n) mod 8) /\ _ => let r := eval vm_compute in ((k + 2 * n) mod 8) in let q := eval vm_compute in ((k + 4) mod 8) in exists r, q, q end.
      all: split; [cbn; tauto|]; split; [cbn; tauto|]; split; [cbn; tauto|]; split; [reflexivity|]; split; [reflexivity|]; split; [reflexivity|]; split; [reflexivity|]; split; [reflexivity|]; split; [reflexivity|]; (left; reflexivity) || (right; reflexivity). }
    destruct J as (j & i & b & Ij & Ii & Ib & Jx & Jy & Ix & Iy & Bx & By & Jb).
    assert (Ml : ptype (ipix im mx my) = Line).
    { destruct (ptype (ipix im mx my)) eqn:Tm; auto.
      - contradiction.
      - exfalso. destruct L as (LX & LY & LP).
        assert (Li : 0 < dcx d + dirX (ddir d) < iw im - 1 /\ 0 < dcy d + dirY (ddir d) < ih im - 1).
        { assert (G : ~ (dcx d + dirX (ddir d) = 0 \/ dcx d + dirX (ddir d) = iw im - 1 \/ dcy d + dirY (ddir d) = 0 \/ dcy d + dirY (ddir d) = ih im - 1)); [|lia].
          intros G. rewrite (Fr _ _ LX LY G) in LP. discriminate LP. }
        assert (TL : ptype (ipix im (dcx d + dirX (ddir d)) (dcy d + dirY (ddir d))) = Line) by (rewrite LP; reflexivity).
        assert (Tc : ptype (ipix im (dcx d) (dcy d)) = Vertex) by apply V.
        assert (Pb : ptype (ipix im (dcx d + dirX (ddir d) + dirX b) (dcy d + dirY (ddir d) + dirY b)) = Vertex).
        { replace (dcx d + dirX (ddir d) + dirX b) with (dcx d) by lia. replace (dcy d + dirY (ddir d) + dirY b) with (dcy d) by lia. exact Tc. }
        assert (Pj : ptype (ipix im (dcx d + dirX (ddir d) + dirX j) (dcy d + dirY (ddir d) + dirY j)) = Vertex).
        { replace (dcx d + dirX (ddir d) + dirX j) with mx by (unfold mx; lia). replace (dcy d + dirY (ddir d) + dirY j) with my by (unfold my; lia). exact Tm. }
        destruct Li as (Li1 & Li2). destruct Jb as [Jb|Jb]; [apply (Ne _ _ j Li1 Li2 Ij TL Pj); rewrite Jb; exact Pb|apply (Ne _ _ b Li1 Li2 Ib TL Pb); rewrite Jb; exact Pj].
      - exfalso. apply (Pl mx my M1 M2 Tm). }
    assert (Mo' : owns im Line e mx my).
    { split; [exact M1|]. split; [exact M2|]. apply pix_mk; [exact Ml|].
      pose proof (Se (dcx d + dirX (ddir d)) (dcy d + dirY (ddir d)) j e Ij L) as Q. replace (dcx d + dirX (ddir d) + dirX j) with mx in Q by (unfold mx; lia). replace (dcy d + dirY (ddir d) + dirY j) with my in Q by (unfold my; lia). apply Q; assumption. }
    exists mx, my, i. split; [exact Ii|]. split; [exact Mo'|]. apply (owns_at _ _ _ _ _ _ _ Ro); unfold mx, my; lia.
Qed.

(** ** The calls with their hooks *)
Lemma next_unique' im a b c : nextDart im 1 a b -> nextDart im 1 a c -> b = c.
Proof.
  intros (Db & k & K & Pk & Nk) (Dc & j & J & Pj & Nj). destruct (Nat.lt_trichotomy k j) as [L|[L|L]].
  - exfalso. apply (Nj k); [lia|]. rewrite Pk. exact Db.
  - subst j. congruence.
  - exfalso. apply (Nk j); [lia|]. rewrite Pj. exact Dc.
Qed.
Lemma leftLabel_small' m d l : faced m -> leftFaceLabel (cim m) d = Ok l -> 0 <= l < 2 ^ 30.
Proof.
  intros F H. assert (W : wfImg (cim m)) by apply F. unfold leftFaceLabel in H. bnd H p Ep. destruct (ctypeEqb (ptype p) Region); [injection H as <-; apply (plabel_small m d 1 p W Ep)|].
  bnd H q Eqq. injection H as <-. apply (plabel_small m d 2 q W Eqq).
Qed.
Section Data.
Variables original gradient : vimg.
Variable maxValue : Z.
Notation exec := (statExec original gradient maxValue).

Lemma exec_call m s c m' s' : exec m s c = Ok (m', s') -> exists k, cexec m c = Ok (m', k).
Proof.
  destruct c as [d|d|d|d]; cbn [statExec cexec]; intros H.
  - bnd H r Er. bnd H f Ef. injection H as <- _. exists (snd r). destruct r; exact Er.
  - bnd H t Et. bnd H r Er. bnd H f Ef. bnd H q Eqq. injection H as <- _. exists (snd r). destruct r; exact Er.
  - bnd H t Et. bnd H r Er. bnd H f Ef. bnd H q Eqq. injection H as <- _. exists (snd r). destruct r; exact Er.
  - bnd H t Et. bnd H r Er. bnd H f Ef. bnd H q Eqq. injection H as <- _. exists (snd r). destruct r; exact Er.
Qed.
Lemma exec_faced m s c m' s' : faced m -> faceAllowed (cim m) c -> exec m s c = Ok (m', s') -> faced m'.
Proof. intros F A E. destruct (exec_call _ _ _ _ _ E) as (k & H). apply (call_facts m c m' k F A H). Qed.

Lemma isolated_case m s d m' s' : faced m -> faceAllowed (cim m) (CRemoveIsolatedNode d) -> exec m s (CRemoveIsolatedNode d) = Ok (m', s') ->
  exists n k b x y, takenOver m m' Region k [(Vertex, n)] /\ owns (cim m') Region k x y /\ exactRect (owns (cim m') Region k) b /\ s' = touch s b.
Proof.
  intros F A H. cbn [statExec] in H. bnd H r Er. bnd H f Ef. injection H as H <-. destruct r as (m1, k). cbn [fst snd] in *. subst m1.
  destruct (call_facts m (CRemoveIsolatedNode d) m' k F A Er) as (F' & Eff). cbn [callEffect] in Eff. destruct Eff as (n & En & _ & Ta). destruct A as ((V & _) & _).
  rewrite nodeLabel_dart in En by exact V. injection En as En. exists n, k, (cbounds (finf f)), (dcx d), (dcy d). split; [exact Ta|].
  assert (O : owns (cim m') Region k (dcx d) (dcy d)). { destruct V as (X & Y & V). apply (taken_pixel m m' _ _ _ _ _ Ta X Y). left. rewrite V, <- En. reflexivity. }
  split; [exact O|]. split; [|reflexivity]. apply (face_entry m' k f _ _ (faced_sound _ F') O Ef).
Qed.

Lemma pre_remove m s d t : faced m -> isDart (cim m) d -> bigEnough original (cim m) -> preRemoveEdge original m s d = Ok t ->
  exists a o, nth_error (faceStats s) (Z.to_nat (sideOf (cim m) 1 d)) = Some a /\ statOf original (fun x y => owns (cim m) Line (edgeOf (cim m) d) x y /\ inBase (cim m) x y) o /\ t = statMerge a o.
Proof.
  intros F D B H. assert (Fr : framed (cim m)) by apply F. unfold preRemoveEdge in H. rewrite leftFace_is in H by (auto; apply D). rewrite edgeLabel_dart in H by (auto; apply D). cbn [bind] in H.
  bnd H a Ea. destruct (pixel_live m _ _ _ _ (faced_sound m F) (dart_line m d Fr D) ltac:(discriminate)) as (R & c & C).
  destruct (scan_stat m Line _ c original (faced_sound m F) C B) as (ps & o & Sc & In & St). rewrite Z2Nat.id in Sc, St by lia. rewrite Sc in H. cbn [bind] in H. rewrite In in H. cbn [bind] in H.
  bnd H e Ee. bnd H n1 E1. bnd H n2 E2. injection H as <-. exists a, o. split; [|split; [exact St|reflexivity]]. apply at_Ok in Ea. apply Ea.
Qed.
Lemma put_is {A} (v w : list A) l a : put v l a = Ok w -> w = list_upd v (Z.to_nat l) a /\ 0 <= l /\ (Z.to_nat l < length v)%nat.
Proof.
  intros H. split; [apply put_Ok, H|]. unfold put in H. destruct ((0 <=? l) && (l <? Z.of_nat (length v))) eqn:E; [|discriminate H]. apply andb_true_iff in E. rewrite Z.leb_le, Z.ltb_lt in E. lia.
Qed.

Lemma bridge_case m s d m' s' : faced m -> bigEnough original (cim m) -> isDart (cim m) d -> exec m s (CRemoveBridge d) = Ok (m', s') ->
  exists e k b x y a o, takenOver m m' Region k [(Line, e)] /\ owns (cim m') Region k x y /\ exactRect (owns (cim m') Region k) b /\
    nth_error (faceStats s) (Z.to_nat k) = Some a /\ statOf original (fun x y => owns (cim m) Line e x y /\ inBase (cim m) x y) o /\
    s' = touch (setFaceStats s (list_upd (faceStats s) (Z.to_nat k) (statMerge a o))) b.
Proof.
  intros F B D H. assert (Fr : framed (cim m)) by apply F. cbn [statExec] in H. bnd H t Et. bnd H r Er. bnd H f Ef. bnd H q Eqq. injection H as H <-. destruct r as (m1, k). cbn [fst snd] in *. subst m1.
  destruct (call_facts m (CRemoveBridge d) m' k F D Er) as (F' & Eff). cbn [callEffect] in Eff. destruct Eff as (e & Ee & El & _ & Ta).
  rewrite edgeLabel_dart in Ee by (auto; apply D). injection Ee as Ee. rewrite leftFace_is in El by (auto; apply D). injection El as El.
  destruct (pre_remove m s d t F D B Et) as (a & o & Na & St & Et'). subst e.
  pose proof (dart_line m d Fr D) as (X & Y & P). assert (O : owns (cim m') Region k (dcx d + dirX (ddir d)) (dcy d + dirY (ddir d))) by (apply (taken_pixel m m' _ _ _ _ _ Ta X Y); left; rewrite P; reflexivity).
  destruct (face_entry m' k f _ _ (faced_sound _ F') O Ef) as (Lb & Ex). unfold postRemoveEdge in Eqq. bnd Eqq v Ev. injection Eqq as <-. apply put_is in Ev. destruct Ev as (Ev & _). rewrite Lb in Ev.
  exists (edgeOf (cim m) d), k, (cbounds (finf f)). eexists _, _, a, o. split; [exact Ta|]. split; [exact O|]. split; [exact Ex|]. rewrite <- El. split; [exact Na|]. split; [exact St|]. rewrite El. subst v t. reflexivity.
Qed.

Lemma faces_case m s d m' s' : faced m -> bigEnough original (cim m) -> isDart (cim m) d -> exec m s (CMergeFaces d) = Ok (m', s') ->
  exists e l r k f b x y al ar o, takenOver m m' Region k [(Line, e); (Region, f)] /\ owns (cim m') Region k x y /\ exactRect (owns (cim m') Region k) b /\ ((k = l /\ f = r) \/ (k = r /\ f = l)) /\
    0 <= l /\ 0 <= r /\ nth_error (faceStats s) (Z.to_nat l) = Some al /\ nth_error (faceStats s) (Z.to_nat r) = Some ar /\
    (exists c, isCell m Region (Z.to_nat l) c) /\ (exists c, isCell m Region (Z.to_nat r) c) /\
    statOf original (fun x y => owns (cim m) Line e x y /\ inBase (cim m) x y) o /\
    s' = touch (setFaceStats s (list_upd (faceStats s) (Z.to_nat k) (statMerge (statMerge al o) ar))) b.
Proof.
  intros F B D H. assert (Fr : framed (cim m)) by apply F. cbn [statExec] in H. bnd H t Et. bnd H q0 Er. bnd H f Ef. bnd H q Eqq. injection H as H <-. destruct q0 as (m1, k). cbn [fst snd] in *. subst m1.
  destruct (call_facts m (CMergeFaces d) m' k F D Er) as (F' & Eff). cbn [callEffect] in Eff. destruct Eff as (e & g & l & r & Ee & El & Ew & Kf & Ta).
  destruct (faced_allows m (CMergeFaces d) F D) as (((Sl & Sr) & _) & _). specialize (Sl l El). specialize (Sr r Ew).
  assert (Rl : 0 <= l < 2 ^ 30) by (apply (leftLabel_small' m d l F El)). assert (Rr : 0 <= r < 2 ^ 30) by (apply (rightLabel_small m d r); [apply F|exact Ew]).
  rewrite edgeLabel_dart in Ee by (auto; apply D). injection Ee as Ee. unfold preMergeFaces in Et. bnd Et t0 Et0. rewrite Ew in Et. cbn [bind] in Et. bnd Et ar Ear. injection Et as <-. apply at_Ok in Ear. destruct Ear as (_ & Ear).
  rewrite leftFace_is in El by (auto; apply D). injection El as El.
  destruct (pre_remove m s d t0 F D B Et0) as (a & o & Na & St & Et'). subst e. rewrite El in Na.
  pose proof (dart_line m d Fr D) as (X & Y & P). assert (O : owns (cim m') Region k (dcx d + dirX (ddir d)) (dcy d + dirY (ddir d))) by (apply (taken_pixel m m' _ _ _ _ _ Ta X Y); left; rewrite P; reflexivity).
  destruct (face_entry m' k f _ _ (faced_sound _ F') O Ef) as (Lb & Ex). unfold postRemoveEdge in Eqq. bnd Eqq v Ev. injection Eqq as <-. apply put_is in Ev. destruct Ev as (Ev & _). rewrite Lb in Ev.
  exists (edgeOf (cim m) d), l, r, k, g, (cbounds (finf f)). eexists _, _, a, ar, o. split; [exact Ta|]. split; [exact O|]. split; [exact Ex|]. split; [exact Kf|]. split; [lia|]. split; [lia|]. split; [exact Na|]. split; [exact Ear|].
  split; [exact Sl|]. split; [exact Sr|]. split; [exact St|]. subst v t0. reflexivity.
Qed.

Lemma edges_case m s d m' s' : faced m -> bigEnough gradient (cim m) -> isDart (cim m) d -> exec m s (CMergeEdges d) = Ok (m', s') ->
  exists n e k r b x y t, takenOver m m' Line k [(Vertex, n); (Line, e)] /\ owns (cim m') Line k x y /\ exactRect (owns (cim m') Line k) b /\ k <> e /\
    0 <= e /\ 0 <= k /\ (exists c, isCell m Line (Z.to_nat k) c) /\ (exists c, isCell m Line (Z.to_nat e) c) /\
    lastMerged (Datatypes.S (length (mergedEdges s))) (mergedEdges s) k = Ok r /\
    s' = touch (setMerged (setEdgeStats s (list_upd (edgeStats s) (Z.to_nat k) t)) (list_upd (mergedEdges s) (Z.to_nat r) e)) b /\ (Z.to_nat k < length (edgeStats s))%nat /\
    ((t = Avg 1 maxValue /\ (outerEdge (cim m) k \/ outerEdge (cim m) e)) \/
     (~ outerEdge (cim m) k /\ ~ outerEdge (cim m) e /\ exists ak ae o, nth_error (edgeStats s) (Z.to_nat k) = Some ak /\ nth_error (edgeStats s) (Z.to_nat e) = Some ae /\
        avgOf gradient (fun x y => owns (cim m) Vertex n x y /\ inBase (cim m) x y) o /\ t = avgMerge (avgMerge ak ae) o)).
Proof.
  intros F B D H. assert (Fr : framed (cim m)) by apply F. assert (Wi : wired m) by apply F. assert (So : sound m) by apply F. cbn [statExec] in H. bnd H t Et. bnd H q0 Er. bnd H f Ef. bnd H q Eqq. injection H as H <-. destruct q0 as (m1, k). cbn [fst snd] in *. subst m1.
  destruct (call_facts m (CMergeEdges d) m' k F D Er) as (F' & Eff). assert (So' : sound m') by apply F'.
  destruct (join_facts m d m' k Wi D Er Eff) as (n & e & d2 & d3 & a1 & a2 & Ta & _ & _ & _ & D2 & D3 & N23 & N32 & No2 & No3 & L2 & L3 & Ke & _ & _ & On & Nd).
  pose proof (dart_node m d D) as (X & Y & P). assert (O : owns (cim m') Line k (dcx d) (dcy d)) by (apply (taken_pixel m m' _ _ _ _ _ Ta X Y); left; rewrite P, <- Nd; reflexivity).
  destruct (edge_entry m' k f _ _ So' O Ef) as (Lb & Ex). unfold postMergeEdges in Eqq. rewrite Lb in Eqq. bnd Eqq v Ev. bnd Eqq r Er'. bnd Eqq w Ew. injection Eqq as <-. apply put_is in Ev. destruct Ev as (Ev & Ev1 & Ev2).
  pose proof (dart_line m d2 Fr D2) as O2. rewrite L2 in O2. pose proof (dart_line m d3 Fr D3) as O3. rewrite L3 in O3.
  destruct (pixel_live m _ _ _ _ So O2 ltac:(discriminate)) as (Re & Ce). destruct (pixel_live m _ _ _ _ So O3 ltac:(discriminate)) as (Rk & Ck).
  (* the two darts at the node *)
  unfold preMergeEdges in Et. bnd Et d1 Ed1. rewrite (edgeLabel_dart (cim m) Fr d) in Et by (auto; apply D). cbn [bind] in Et.
  destruct Wi as (_ & (_ & Ne & Jo) & _). assert (W1 : way 1) by (left; auto).
  destruct (sigma_defined (cim m) Fr Ne 1 d W1 D) as (d1' & U & Nx & _). unfold nextSigma in Ed1. assert (d1' = d1) by congruence. subst d1'.
  assert (D1 : isDart (cim m) d1) by apply Nx. assert (Nd1 : nodeOf (cim m) d1 = n). { pose proof (next_node (cim m) Fr Jo 1 d d1 W1 D Nx) as Q. rewrite !nodeLabel_dart in Q by (apply D || apply D1). congruence. }
  assert (Two : (d = d2 /\ d1 = d3) \/ (d = d3 /\ d1 = d2)).
  { assert (G : forall a b c, nextDart (cim m) 1 a b -> nextDart (cim m) 1 a c -> isDart (cim m) a -> b = c).
    { intros a b c Na Nb Da. destruct (sigma_defined (cim m) Fr Ne 1 a W1 Da) as (z & _ & Nz & _). apply (next_unique' (cim m) a b c Na Nb). }
    destruct (On d D Nd) as [E|E]; [left|right]; (split; [exact E|]); subst d; [apply (G d2 d1 d3 Nx N23 D2)|apply (G d3 d1 d2 Nx N32 D3)]. }
  rewrite (edgeLabel_dart (cim m) Fr d1) in Et by (auto; apply D1). cbn [bind] in Et.
  assert (Ot : (if k =? edgeOf (cim m) d then edgeOf (cim m) d1 else edgeOf (cim m) d) = e).
  { destruct Two as [(-> & ->)|(-> & ->)]; rewrite ?L2, ?L3; [rewrite (proj2 (Z.eqb_neq k e)) by exact Ke; reflexivity|rewrite Z.eqb_refl; reflexivity]. }
  rewrite leftFace_is in Et by (auto; apply D). cbn [bind] in Et. bnd Et r0 Er0.
  assert (Sides : forall x, isDart (cim m) x -> outerEdge (cim m) (edgeOf (cim m) x) -> sideOf (cim m) 1 x = 0 \/ sideOf (cim m) (-1) x = 0).
  { intros x Dx (u & v0 & j & Ij & Ol & Or). destruct (border_faces m x (edgeOf (cim m) x) u v0 j 0 (fh_start m F) Dx (edgeLabel_dart (cim m) Fr x (proj1 Dx) (proj1 (proj2 Dx))) Ol Ij Or) as [Q|Q];
    [rewrite leftFace_is in Q by (auto; apply Dx); injection Q; auto|rewrite rightFace_is in Q by (auto; apply Dx); injection Q; auto]. }
  exists n, e, k, r, (cbounds (einf f)), (dcx d), (dcy d), (snd t). split; [exact Ta|]. split; [exact O|]. split; [exact Ex|]. split; [exact Ke|]. split; [lia|]. split; [lia|]. split; [exact Ck|]. split; [exact Ce|]. split; [exact Er'|].
  destruct ((sideOf (cim m) 1 d =? 0) || (r0 =? 0)) eqn:Z0.
  - injection Et as <-. cbn [fst snd] in *. rewrite Ot in Ew. apply put_Ok in Ew. subst v w. split; [reflexivity|]. split; [exact Ev2|]. left. split; [reflexivity|].
    assert (Od : outerEdge (cim m) (edgeOf (cim m) d)).
    { apply orb_true_iff in Z0. rewrite !Z.eqb_eq in Z0. destruct (sideOf (cim m) 1 d =? 0) eqn:Z1.
      - apply Z.eqb_eq in Z1. apply (side_outer m 1 d F (or_introl eq_refl) D Z1).
      - apply Z.eqb_neq in Z1. destruct Z0 as [Z0|Z0]; [contradiction|]. rewrite rightFace_is in Er0 by (auto; apply D). injection Er0 as Er0. apply (side_outer m (-1) d F (or_intror eq_refl) D). congruence. }
    destruct Two as [(-> & _)|(-> & _)]; [right; rewrite L2 in Od; exact Od|left; rewrite L3 in Od; exact Od].
  - apply orb_false_iff in Z0. destruct Z0 as (Z0 & Z1). rewrite Z0 in Er0. apply Z.eqb_neq in Z0, Z1. rewrite rightFace_is in Er0 by (auto; apply D). injection Er0 as <-.
    bnd Et t1 Et1. bnd Et t2 Et2. rewrite nodeLabel_dart in Et by apply D1. cbn [bind] in Et. rewrite Nd1 in Et.
    pose proof (dart_node m d D) as On'. rewrite Nd in On'. destruct (pixel_live m _ _ _ _ So On' ltac:(discriminate)) as (Rn & cn & Cn).
    destruct (scan_avg m Vertex _ cn gradient So Cn B) as (ps & o & Sc & Is & Av). rewrite Z2Nat.id in Sc, Av by lia. rewrite Sc in Et. cbn [bind] in Et. rewrite Is in Et. cbn [bind] in Et. injection Et as <-. cbn [fst snd] in *.
    rewrite Ot in Ew. apply put_Ok in Ew. subst v w. split; [reflexivity|]. split; [exact Ev2|]. right.
    (* the other edge has the same faces *)
    assert (Sg : forall a b, isDart (cim m) a -> nextDart (cim m) 1 a b -> sideOf (cim m) (-1) b = sideOf (cim m) 1 a).
    { intros a b Da Nb. destruct (face_sigma m a (fh_start m F) Da) as (z & Sz & Dz & Rz). destruct (sigma_defined (cim m) Fr Ne 1 a W1 Da) as (z' & Uz & Nz & _). unfold nextSigma in Sz. assert (z' = z) by congruence. subst z'.
      assert (z = b) by apply (next_unique' (cim m) a z b Nz Nb). subst z. rewrite rightFace_is in Rz by (auto; apply Dz). rewrite leftFace_is in Rz by (auto; apply Da). congruence. }
    assert (Sd : sideOf (cim m) 1 d2 <> 0 /\ sideOf (cim m) (-1) d2 <> 0 /\ sideOf (cim m) 1 d3 <> 0 /\ sideOf (cim m) (-1) d3 <> 0).
    { pose proof (Sg d2 d3 D2 N23) as Q1. pose proof (Sg d3 d2 D3 N32) as Q2. destruct Two as [(-> & _)|(-> & _)]; [rewrite Q1, <- Q2|rewrite Q2, <- Q1]; auto. }
    split; [|split].
    + intros Oe. rewrite <- L3 in Oe. destruct (Sides d3 D3 Oe) as [Q|Q]; tauto.
    + intros Oe. rewrite <- L2 in Oe. destruct (Sides d2 D2 Oe) as [Q|Q]; tauto.
    + apply at_Ok in Et1, Et2. destruct Et1 as (_ & Et1). destruct Et2 as (_ & Et2). destruct Two as [(Ed & Ed')|(Ed & Ed')]; rewrite Ed in Et1; rewrite Ed' in Et2; rewrite ?L2, ?L3 in Et1; rewrite ?L2, ?L3 in Et2.
      * exists t2, t1, o. split; [exact Et2|]. split; [exact Et1|]. split; [exact Av|]. unfold avgMerge. cbn. f_equal; lia.
      * exists t1, t2, o. split; [exact Et1|]. split; [exact Et2|]. split; [exact Av|reflexivity].
Qed.
End Data.
