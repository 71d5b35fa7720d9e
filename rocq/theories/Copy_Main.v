(** C48 for every map reached by a history, with concrete maps *)
From Verif Require Import Base GeoMap_Model GeoMap_SInv GeoMap_MInv GeoMap_History GeoMap_Spec GeoMap_Examples Scanlines_Model Scanlines_Spec Scanlines_Proofs LabelLUT_Model Map2D_Model Map2D_Spec SigmaArray
  LabelImage_Model LabelImage_Spec LabelImage_Inv LabelImage_Results LabelImage_Main LabelImage_Examples Copy_Model Copy_Spec Copy_Proofs Copy_Results.
Local Open Scope Z_scope.

Section Main.
Variable srt : list seg -> list seg.
Hypothesis Hsrt : sorter srt.
Variable unit : positive.

Lemma hist_same st : lhistory srt unit tracked st -> lim (copyOf st) = lim st.
Proof. intros H. apply (copy_same srt unit). apply (hist_inv srt Hsrt unit st H). Qed.
Lemma hist_cap st : lhistory srt unit tracked st -> 0 <= cap (lg st).
Proof. intros H. destruct (hist_inv srt Hsrt unit st H) as (L & _). pose proof (sv_cap _ (Inv_SInv _ (li_inv _ _ _ L))). lia. Qed.

Theorem copied h o st : lhistory srt unit tracked st -> represents h o st ->
  exists h' n, copyMap h o = Ok (h', n) /\ n <> o /\ represents h' o st /\ represents h' n (copyOf st) /\ lhistory srt unit tracked (copyOf st) /\
  (forall q, (forall p b, q <> QNearest p b) -> ask h' n q = ask h o q /\ ask h' o q = ask h o q) /\
  (forall p b, exists r r', ask h' n (QNearest p b) = Ok (ANearest r) /\ ask h o (QNearest p b) = Ok (ANearest r') /\
     nearestLive (posTable st) p b r /\ nearestLive (posTable st) p b r').
Proof.
  intros H R. destruct (copy_works h o st R) as (h' & n & E & _). exists h', n. split; [exact E|]. destruct (both h o st h' n R E) as (Ro & Rn & Nn & _). split; [exact Nn|]. split; [exact Ro|]. split; [exact Rn|].
  split; [apply (lh_call srt unit tracked st LCopy (copyOf st) H I I eq_refl)|]. split.
  - intros q Nq. destruct (answerOf st q) as [r|] eqn:Eq; [|destruct q; try discriminate; elim (Nq p b); reflexivity].
    destruct (copy_answers h o st h' n R E q r Eq (hist_same st H)) as (A1 & A2 & A3). rewrite A1, A2, A3. auto.
  - intros p b. destruct (answers_nearest h' n (copyOf st) p b Rn) as (r & A1 & B1). destruct (answers_nearest h o st p b R) as (r' & A2 & B2). exists r, r'. auto.
Qed.

Theorem same_map st : lhistory srt unit tracked st ->
  lg (copyOf st) = lg st /\ lsize (copyOf st) = lsize st /\ lim (copyOf st) = lim st /\ larea (copyOf st) = larea st /\ (forall x y, labelAt (copyOf st) x y = labelAt st x y) /\
  (forall x y f, showsFace (copyOf st) x y f <-> showsFace st x y f).
Proof.
  intros H. pose proof (hist_same st H) as E. split; [reflexivity|]. split; [reflexivity|]. split; [exact E|]. split; [reflexivity|].
  assert (A : forall x y, labelAt (copyOf st) x y = labelAt st x y).
  { intros x y. unfold labelAt. rewrite E. destruct (lim st) as [img|] eqn:Hi; [|reflexivity]. unfold copyOf in *. cbn [lim llut] in *. rewrite E. reflexivity. }
  split; [exact A|]. intros x y f. unfold showsFace, within. rewrite E, A. tauto.
Qed.

Theorem not_affected h o st h' n w w' s : represents h o st -> copyMap h o = Ok (h', n) -> turns (bothMaps h' o n) w -> turn s w w' ->
  (forall l, reach (wh w) (rootOf o n (negb s)) l -> hat (wh w') l = hat (wh w) l) /\ forall q, ask (wh w') (rootOf o n (negb s)) q = ask (wh w) (rootOf o n (negb s)) q.
Proof. intros R E. apply (independent h o st h' n R E). Qed.

Theorem no_common_objects h o st h' n l : represents h o st -> copyMap h o = Ok (h', n) -> reach h' o l -> reach h' n l -> False.
Proof.
  intros R E H1 H2. destruct (both h o st h' n R E) as (Ro & Rn & _ & A). apply (ap_apart _ _ _ A l); [apply (reach_owned h' o st l Ro H1) | apply (reach_owned h' n (copyOf st) l Rn H2)].
Qed.

Theorem own_histories h o st h' n cs w : represents h o st -> copyMap h o = Ok (h', n) ->
  performsAll srt unit o n (fun s => if s then st else copyOf st) cs (bothMaps h' o n) w ->
  exists st1 st2, callAll srt unit st (callsOf true cs) = Ok st1 /\ callAll srt unit (copyOf st) (callsOf false cs) = Ok st2 /\ represents (wh w) o st1 /\ represents (wh w) n st2.
Proof. intros R E. apply (calls_apart h o st h' n R E). Qed.

(** the hypotheses of the theorems above can always be met *)
Theorem programs_exist st : lhistory srt unit tracked st ->
  (exists h o, represents h o st) /\
  (forall h K o st0, represents h o st0 -> In o K -> exists h' K', acts (h, K) (h', K') /\ represents h' o st).
Proof.
  intros H. pose proof (hist_cap st H) as C. split; [apply representable, C|]. intros h K o st0 R Ho. pose proof (rp_map _ _ _ R) as (mo & a & ai & Hm & _). apply (programmable h K o (OMap mo)); [apply R | exact Hm | exact Ho | exact C].
Qed.
Lemma performable o n : forall cs f w, (forall s, In (rootOf o n s) (wk w s)) -> (forall s, represents (wh w) (rootOf o n s) (f s)) -> (forall s, lhistory srt unit tracked (f s)) -> (exists P, apart (wh w) (wk w) P) ->
  (forall s k st c, nth_error (callsOf s cs) k = Some c -> callAll srt unit (f s) (firstn k (callsOf s cs)) = Ok st -> lallowed st c /\ tracked st c) ->
  (forall s, exists st, callAll srt unit (f s) (callsOf s cs) = Ok st) -> exists w', performsAll srt unit o n f cs w w'.
Proof.
  induction cs as [|[s c] cs IH]; intros f w Hk R H (P & A) Al E; [exists w; constructor|].
  assert (Ec : callsOf s ((s, c) :: cs) = c :: callsOf s cs) by (unfold callsOf; cbn [filter fst]; rewrite Bool.eqb_reflx; reflexivity).
  assert (En : forall b, b <> s -> callsOf b ((s, c) :: cs) = callsOf b cs) by (intros b Nb; unfold callsOf; cbn [filter fst]; destruct (Bool.eqb_spec s b); [congruence | reflexivity]).
  destruct (E s) as (stn & Es). rewrite Ec in Es. cbn [callAll] in Es. apply bind_Ok in Es. destruct Es as (st' & Ex & Es).
  destruct (Al s 0%nat (f s) c) as [Al0 Tr0]; [rewrite Ec; reflexivity | reflexivity|].
  assert (H' : lhistory srt unit tracked st') by (apply (lh_call srt unit tracked (f s) c st' (H s) Al0 Tr0 Ex)).
  destruct (programs_exist st' H') as (_ & G). destruct (G (wh w) (wk w s) (rootOf o n s) (f s) (R s) (Hk s)) as (h' & K' & Ac & R').
  set (w1 := mkW h' (fun b => if Bool.eqb b s then K' else wk w b)).
  assert (T : turn s w w1).
  { split; [cbn [wk wh w1]; rewrite Bool.eqb_reflx; exact Ac|]. cbn [wk w1]. destruct s; reflexivity. }
  destruct (turn_apart s w w1 P A T) as (P1 & A1 & F & I1).
  destruct (IH (putSide f s st') w1) as (w' & Hw).
  - intros b. apply I1, Hk.
  - intros b. unfold putSide. destruct (Bool.eqb_spec b s) as [->|N]; [exact R'|]. assert (b = negb s) by (destruct b, s; auto; contradiction). subst b.
    apply (represents_frame (wh w)); [apply R | apply A1|]. intros l Hl. apply F. apply (reach_in (wh w) (wk w) P (negb s) _ l A (Hk _) Hl).
  - intros b. unfold putSide. destruct (Bool.eqb b s); [exact H' | apply H].
  - exists P1. exact A1.
  - intros b k st0 c0 Hc H0. unfold putSide in H0. destruct (Bool.eqb_spec b s) as [->|N].
    + apply (Al s (S k) st0 c0); rewrite Ec; [exact Hc|]. cbn [firstn callAll]. rewrite Ex. exact H0.
    + apply (Al b k st0 c0); rewrite (En b N); assumption.
  - intros b. unfold putSide. destruct (Bool.eqb_spec b s) as [->|N]; [exists stn; exact Es|]. rewrite <- (En b N). apply E.
  - exists w'. apply (pa_cons srt unit o n f s c st' cs w w1 w'); auto.
Qed.
End Main.

(** ** Two rectangles with an image *)
Lemma Ok_inj {A} (a b : A) : Ok a = Ok b -> a = b.
Proof. congruence. Qed.
Lemma callAll_one srt unit st c : callAll srt unit st [c] = lexec srt unit st c.
Proof. cbn [callAll]. destruct (lexec srt unit st c); reflexivity. Qed.
Lemma side_hist : forall s : bool, lhistory isort 1%positive tracked (if s then windowsMap else copyOf windowsMap).
Proof. intros [|]; [exact windows_hist | apply (lh_call isort 1%positive tracked windowsMap LCopy (copyOf windowsMap) windows_hist I I eq_refl)]. Qed.
(** the faces beside edge 2 are merged in the copy, edge 4 is removed from the original *)
Definition twoCalls : list (bool * lcall) := [(false, LCall yes (OMergeFaces 2)); (true, LCall yes (ORemoveBridge 4))].
Definition resultOf (s : bool) : lmap :=
  match callAll isort 1%positive (if s then windowsMap else copyOf windowsMap) (callsOf s twoCalls) with Ok st => st | _ => newMap 0 0 end.
Lemma twoCalls_run (s : bool) : callAll isort 1%positive (if s then windowsMap else copyOf windowsMap) (callsOf s twoCalls) = Ok (resultOf s).
Proof.
  unfold resultOf. assert (E : match callAll isort 1%positive (if s then windowsMap else copyOf windowsMap) (callsOf s twoCalls) with Ok _ => true | _ => false end = true) by (destruct s; vm_compute; reflexivity).
  destruct (callAll isort 1%positive (if s then windowsMap else copyOf windowsMap) (callsOf s twoCalls)); try discriminate. reflexivity.
Qed.
Lemma two_maps : exists h o h' n w, represents h o windowsMap /\ copyMap h o = Ok (h', n) /\
  performsAll isort 1%positive o n (fun s => if s then windowsMap else copyOf windowsMap) twoCalls (bothMaps h' o n) w.
Proof.
  destruct (programs_exist isort isort_sorter 1%positive windowsMap windows_hist) as ((h & o & R) & _). destruct (copy_works h o windowsMap R) as (h' & n & E & _). exists h, o, h', n.
  destruct (both h o windowsMap h' n R E) as (Ro & Rn & _ & A).
  destruct (performable isort isort_sorter 1%positive o n twoCalls (fun s => if s then windowsMap else copyOf windowsMap) (bothMaps h' o n)) as (w & Hw).
  - intros [|]; left; reflexivity.
  - intros [|]; assumption.
  - exact side_hist.
  - eexists. exact A.
  - intros [|] [|[|k]] st c Hc _; try discriminate Hc; cbn in Hc; injection Hc as <-; (split; [split|]; exact I).
  - intros s. exists (resultOf s). apply twoCalls_run.
  - exists w. auto.
Qed.
Theorem two_maps_case : exists h o h' n w, represents h o windowsMap /\ copyMap h o = Ok (h', n) /\
  performsAll isort 1%positive o n (fun s => if s then windowsMap else copyOf windowsMap) twoCalls (bothMaps h' o n) w /\
  (* before *) ask h' n (QPixel 5 1) = Ok (ALabel (-4)) /\ ask h' n (QFace 1) = Ok (AFace 1 true [(true, 1)] 0 (Some 64) 21) /\
  ask h' n (QEdge 4) = Ok (AEdge 4 true (mkEdge 0 2 (Some 3%nat) (Some 3%nat) [(5,1); (8,4)] 0)) /\
  (* after *) ask (wh w) n (QFace 1) = Ok ANull /\ ask (wh w) n (QEdge 2) = Ok ANull /\ ask (wh w) n (QPixel 5 5) = Ok (ALabel 3) /\ ask (wh w) n (QPixel 7 3) = Ok (ALabel (-1)) /\
  ask (wh w) o (QFace 1) = Ok (AFace 1 true [(true, 1)] 0 (Some 64) 21) /\ ask (wh w) o (QEdge 4) = Ok ANull /\ ask (wh w) o (QPixel 5 5) = Ok (ALabel (-1)) /\ ask (wh w) o (QPixel 7 3) = Ok (ALabel 3).
Proof.
  destruct two_maps as (h & o & h' & n & w & R & E & P). exists h, o, h', n, w. split; [exact R|]. split; [exact E|]. split; [exact P|].
  destruct (both h o windowsMap h' n R E) as (_ & Rn & _). destruct (own_histories isort 1%positive h o windowsMap h' n twoCalls w R E P) as (st1 & st2 & E1 & E2 & R1 & R2).
  pose proof (Ok_inj _ _ (eq_trans (eq_sym (twoCalls_run true)) E1)) as Q1. pose proof (Ok_inj _ _ (eq_trans (eq_sym (twoCalls_run false)) E2)) as Q2. subst st1 st2.
  do 3 (split; [apply (answers h' n (copyOf windowsMap) _ _ Rn); vm_compute; reflexivity|]). do 4 (split; [apply (answers (wh w) n (resultOf false) _ _ R2); vm_compute; reflexivity|]).
  do 3 (split; [apply (answers (wh w) o (resultOf true) _ _ R1); vm_compute; reflexivity|]). apply (answers (wh w) o (resultOf true) _ _ R1). vm_compute. reflexivity.
Qed.

Theorem turns_case : exists h o h' n w w', represents h o windowsMap /\ copyMap h o = Ok (h', n) /\ turns (bothMaps h' o n) w /\ turn true w w' /\
  ask (wh w) o (QEdge 4) <> ask (wh w') o (QEdge 4) /\ ask (wh w) n (QEdge 4) = Ok (AEdge 4 true (mkEdge 0 2 (Some 3%nat) (Some 3%nat) [(5,1); (8,4)] 0)).
Proof.
  destruct two_maps as (h & o & h' & n & w & R & E & P). exists h, o, h', n. destruct (both h o windowsMap h' n R E) as (Ro & Rn & _).
  assert (Hr : lhistory isort 1%positive tracked (resultOf true)).
  { assert (Ex : lexec isort 1%positive windowsMap (LCall yes (ORemoveBridge 4)) = Ok (resultOf true)).
    { pose proof (twoCalls_run true) as Q. assert (Ec : callsOf true twoCalls = [LCall yes (ORemoveBridge 4)]) by reflexivity. rewrite Ec in Q. cbv beta iota in Q. rewrite <- Q. symmetry. apply callAll_one. }
    apply (lh_call isort 1%positive tracked windowsMap (LCall yes (ORemoveBridge 4)) (resultOf true) windows_hist); [split; exact I | exact I | exact Ex]. }
  destruct (programs_exist isort isort_sorter 1%positive (resultOf true) Hr) as (_ & G).
  destruct (G h' [o] o windowsMap Ro (or_introl eq_refl)) as (h2 & K2 & A & R2).
  exists (bothMaps h' o n), (mkW h2 (fun s => if s then K2 else [n])). split; [exact R|]. split; [exact E|]. split; [constructor|]. split; [split; [exact A | reflexivity]|]. cbn [wh bothMaps].
  assert (A1 : ask h' o (QEdge 4) = Ok (AEdge 4 true (mkEdge 0 2 (Some 3%nat) (Some 3%nat) [(5,1); (8,4)] 0))) by (apply (answers h' o windowsMap _ _ Ro); vm_compute; reflexivity).
  assert (A2 : ask h2 o (QEdge 4) = Ok ANull) by (apply (answers h2 o (resultOf true) _ _ R2); vm_compute; reflexivity). rewrite A1, A2. split; [discriminate|].
  apply (answers h' n (copyOf windowsMap) _ _ Rn). vm_compute. reflexivity.
Qed.

(** ** What does not hold *)

(** the objects of a map; the faces carry the labels [lb] *)
Definition lay (st : lmap) (lb : list nat) (extra : list loc) : heap :=
  let g := lg st in
  let arr := fun f : Z -> Z => OArr (map (fun i => f (Z.of_nat i - cap g)) (seq 0 (Z.to_nat (2 * cap g + 1)))) in
  let nn := length (nodes g) in let ne := length (edges g) in let nf := length (faces g) in
  let tab := fun A (first : nat) (vs : list (option A)) => map (fun p => match snd p with Some _ => Some (first + fst p)%nat | None => None end) (combine (seq 0 (length vs)) vs) in
  let mo := mkMO 1%nat 2%nat (1%nat, Z.to_nat (cap g)) (2%nat, Z.to_nat (cap g)) (tab node 4%nat (nodes g)) (tab edge (4 + nn)%nat (edges g)) (tab face (4 + nn + ne)%nat (faces g))
              (nodeCount g) (edgeCount g) (faceCount g) (fillFrom [] (livePos 0 (nodes g))) (lsize st) (if isLive (lim st) then Some 3%nat else None) (llut st) (sorted g) extra in
  mkHeap (fun l =>
    if (l =? 0)%nat then Some (OMap mo) else if (l =? 1)%nat then Some (arr (sg g)) else if (l =? 2)%nat then Some (arr (sgi g))
    else if (l =? 3)%nat then match lim st with Some i => Some (OImage i) | None => None end
    else if (l <? 4 + nn)%nat then match nth (l - 4)%nat (nodes g) None with Some v => Some (ONode 0%nat (l - 4)%nat v) | None => None end
    else if (l <? 4 + nn + ne)%nat then match nth (l - 4 - nn)%nat (edges g) None with Some v => Some (OEdge 0%nat (l - 4 - nn)%nat v (lsc st (l - 4 - nn)%nat)) | None => None end
    else if (l <? 4 + nn + ne + nf)%nat then
      let i := (l - 4 - nn - ne)%nat in match nth i (faces g) None with Some v => Some (OFace 0%nat (nth i lb i) (map (pair 0%nat) (fanchors v)) (fflags v) (farea v) (larea st i)) | None => None end
    else if existsb (Nat.eqb l) extra then Some (OExtra [0%nat]) else None) (100 + nn + ne + nf)%nat.

(** after a rejected changeFaceLabels, faces carry labels other than their places; the copy constructor goes by the labels and loses a face *)
Theorem mislabelled_refuted : exists st new mx h' n, lhistory isort 1%positive tracked st /\ changeFaceLabels st new mx = Exn /\
  let h := lay st (heldLabels st new mx) [] in
  copyMap h 0%nat = Ok (h', n) /\ ask h 0%nat (QFace 1) <> Ok ANull /\ ask h' n (QFace 1) = Ok ANull /\ ask h' n QCounts = ask h 0%nat QCounts.
Proof.
  set (new := [0; 2; 0; 2; 0]%nat). set (h := lay nestedMap (heldLabels nestedMap new 5) []).
  assert (E : match copyMap h 0%nat with Ok _ => true | _ => false end = true) by (vm_compute; reflexivity).
  destruct (copyMap h 0%nat) as [[h' n]| | |] eqn:Ec; [|discriminate E ..]. exists nestedMap, new, 5%nat, h', n. split; [exact nested_hist|]. split; [vm_compute; reflexivity|]. fold h. cbv zeta. split; [exact Ec|].
  split; [vm_compute; discriminate|].
  assert (Q : (let r := copyMap h 0%nat in match r with Ok (h1, n1) => (ask h1 n1 (QFace 1), ask h1 n1 QCounts) | _ => (UB, UB) end) = (Ok ANull, ask h 0%nat QCounts)) by (vm_compute; reflexivity).
  rewrite Ec in Q. cbv zeta in Q. pose proof (f_equal fst Q) as Q1. pose proof (f_equal snd Q) as Q2. cbn [fst snd] in Q1, Q2. split; [exact Q1 | exact Q2].
Qed.
(** connected slots (such as an edge protection), planned splits and edge preferences do not go into the copy *)
Theorem hooks_refuted : exists st h o h' n mo mo', lhistory isort 1%positive tracked st /\ represents h o st /\ copyMap h o = Ok (h', n) /\ hat h o = Some (OMap mo) /\ mextra mo <> [] /\ hat h' n = Some (OMap mo') /\ mextra mo' = [].
Proof.
  set (h := mkHeap (fun l => match l with 0 => Some (OMap (mkMO 1 2 (1, 50) (2, 50) [] [None] [] 0%Z 0%Z 0%Z [] (3%Z, 3%Z) None (initIdentity 0) false [3])) | 1 | 2 => Some (OArr (repeat 0%Z 101)) | 3 => Some (OExtra [0]) | _ => None end)%nat 4%nat).
  assert (R : represents h 0%nat (newMap 3 3)).
  { constructor; [intros l Hl; cbn in *; do 4 (destruct l as [|l]; [lia|]); reflexivity|].
    assert (V : holds (repeat 0 101) 50 (fun _ => 0)).
    { constructor; [lia | reflexivity|]. intros d Hd. unfold arrGet, arrIndex. rewrite repeat_length. change (Z.of_nat (101 / 2)) with 50. destruct (Z.ltb_spec (d + 50) 0); [lia|]. apply vget_Ok. rewrite (nth_error_nth' _ 0) by (rewrite repeat_length; lia). rewrite nth_repeat. reflexivity. }
    eexists. exists (repeat 0 101), (repeat 0 101). split; [reflexivity|]. cbn [msArr msiArr msIt msiIt mnodes medges mfaces mnc mec mfc midx msize mimg mlut msorted mextra newMap lg lsize lim llut larea lsc empty_map nodes edges faces cap sg sgi nodeCount edgeCount faceCount sorted].
    repeat (split; [first [reflexivity | exact V]|]). split; [split; [reflexivity | intros [|i]; exact I]|]. split; [split; [reflexivity | intros [|[|i]]; exact I]|]. split; [split; [reflexivity | intros [|i]; exact I]|].
    split; [auto|]. split; [split; [constructor | split; [intros e [] | intros [|i] j e1 e2 _ He; discriminate]]|]. split; [reflexivity|]. split; [exact I|]. split; [reflexivity|]. split; [reflexivity|].
    intros l [<-|[]]. exists [0%nat]. split; [reflexivity|]. intros r [<-|[]]. reflexivity. }
  destruct (copy_works h 0%nat (newMap 3 3) R) as (h' & n & E & _). 
  assert (Q : (match copyMap h 0%nat with Ok (h1, n1) => match hat h1 n1 with Some (OMap m) => mextra m | _ => [0%nat] end | _ => [0%nat] end) = []) by (vm_compute; reflexivity).
  rewrite E in Q. destruct (hat h' n) as [x|] eqn:Hn; [|discriminate]. destruct x as [mo'| | | | | |]; try discriminate.
  exists (newMap 3 3), h, 0%nat, h', n. eexists. exists mo'. split; [apply lh_new; lia|]. split; [exact R|]. split; [exact E|]. split; [reflexivity|]. split; [discriminate|]. split; [exact Hn | exact Q].
Qed.
