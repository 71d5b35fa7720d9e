(** Pixel based maps to try the statements on. *)
From Verif Require Import Base CellMap_Model CellMap_Spec CellMap_Scan CellMap_Proofs CellMap_Main CellMap_Init CellMap_InitProofs CellMap_Check.
Local Open Scope Z_scope.

Ltac computes := repeat match goal with |- _ /\ _ => split end; vm_compute; reflexivity.

(** ** Tests *)

Definition everyPixel (im : img) (f : Z -> Z -> bool) : bool := forallb (fun p => f (fst p) (snd p)) (allPoints im).
Lemma everyPixel_holds im f : everyPixel im f = true -> forall x y, 0 <= x < iw im -> 0 <= y < ih im -> f x y = true.
Proof.
  intros H x y Hx Hy. unfold everyPixel in H. rewrite forallb_forall in H. apply (H (x, y)). apply rectPoints_in. unfold inRect; cbn. lia.
Qed.
Definition wfImgB (im : img) : bool :=
  (0 <? iw im) && (0 <? ih im) && (iw im * ih im <? 2 ^ 31) && everyPixel im (fun x y => (0 <=? plabel (ipix im x y)) && (plabel (ipix im x y) <? 2 ^ 30)).
Lemma wfImgB_holds im : wfImgB im = true -> wfImg im.
Proof.
  unfold wfImgB. rewrite !andb_true_iff, !Z.ltb_lt. intros [[[A B] C] D]. split; [exact A|]. split; [exact B|]. split; [exact C|].
  intros x y Hx Hy. apply (everyPixel_holds _ _ D x y Hx) in Hy. apply andb_true_iff in Hy. lia.
Qed.
Definition framedB (im : img) : bool :=
  everyPixel im (fun x y => negb ((x =? 0) || (x =? iw im - 1) || (y =? 0) || (y =? ih im - 1)) || pixEqb (ipix im x y) (Pix Region 0)).
Lemma framedB_holds im : framedB im = true -> framed im.
Proof.
  intros H x y Hx Hy K. apply (everyPixel_holds _ _ H x y Hx) in Hy. apply orb_true_iff in Hy. destruct Hy as [Hy|Hy]; [|apply pixEqb_eq; exact Hy].
  exfalso. apply negb_true_iff in Hy. rewrite !orb_false_iff, !Z.eqb_neq in Hy. lia.
Qed.
Definition liveB (m : cmap) (t : ctype) (l : Z) : bool := match nth_error (cellsOf m t) (Z.to_nat l) with Some c => initialized c | None => false end.
Lemma liveB_holds m t l : liveB m t l = true -> exists c, isCell m t (Z.to_nat l) c.
Proof. unfold liveB. destruct (nth_error _ _) as [c|] eqn:E; [|discriminate]. intros H. exists c. split; assumption. Qed.
Definition linesLiveB (m : cmap) : bool := everyPixel (cim m) (fun x y => negb (ctypeEqb (ptype (ipix (cim m) x y)) Line) || liveB m Line (plabel (ipix (cim m) x y))).
Lemma linesLiveB_holds m : linesLiveB m = true -> forall l x y, owns (cim m) Line l x y -> exists c, isCell m Line (Z.to_nat l) c.
Proof. intros H l x y (A & B & C). apply (everyPixel_holds _ _ H x y A) in B. rewrite C in B. cbn in B. apply liveB_holds. exact B. Qed.

Definition resEqb (a b : res Z) : bool := match a, b with Ok x, Ok y => x =? y | _, _ => false end.
Lemma resEqb_eq a b : resEqb a b = true -> a = b.
Proof. destruct a, b; cbn; try discriminate. intros H. f_equal. apply Z.eqb_eq. exact H. Qed.
Definition allowedB (m : cmap) (c : ccall) : bool :=
  let im := cim m in
  match c with
  | CRemoveIsolatedNode d =>
      match leftFaceLabel im d with
      | Ok f =>
          let n := plabel (ipix im (dcx d) (dcy d)) in
          insideImg im (dcx d) (dcy d) && ctypeEqb (ptype (ipix im (dcx d) (dcy d))) Vertex &&
          everyPixel im (fun x y => negb (pixEqb (ipix im x y) (Pix Vertex n)) ||
            forallb (fun k => insideImg im (x + dirX k) (y + dirY k) &&
                              (pixEqb (ipix im (x + dirX k) (y + dirY k)) (Pix Vertex n) || pixEqb (ipix im (x + dirX k) (y + dirY k)) (Pix Region f))) [0; 2; 4; 6])
      | _ => false
      end
  | CMergeFaces d =>
      match leftFaceLabel im d, rightFaceLabel im d with
      | Ok l, Ok r =>
          liveB m Region l && liveB m Region r &&
          match nextAlpha m d with
          | Ok d' => resEqb (edgeLabel im d') (edgeLabel im d) && resEqb (leftFaceLabel im d') (rightFaceLabel im d) && resEqb (rightFaceLabel im d') (leftFaceLabel im d)
          | _ => false
          end
      | _, _ => false
      end
  | _ => true
  end.
Lemma allowedB_holds m c : allowedB m c = true -> callAllowed m c.
Proof.
  destruct c as [d|d|d|d]; cbn [allowedB callAllowed]; intros H; auto.
  - destruct (leftFaceLabel (cim m) d) as [f| | |] eqn:El; try discriminate. rewrite !andb_true_iff in H. destruct H as [[A B] C].
    apply insideImg_iff in A. apply ctypeEqb_eq in B. exists (plabel (ipix (cim m) (dcx d) (dcy d))), f.
    split; [split; [apply A|]; split; [apply A|]; rewrite <- B; destruct (ipix _ _ _); reflexivity|]. split; [reflexivity|].
    intros x y (Ox & Oy & Op) k Hk. apply (everyPixel_holds _ _ C x y Ox) in Oy. rewrite Op in Oy. apply orb_true_iff in Oy. destruct Oy as [Oy|Oy].
    + apply negb_true_iff in Oy. assert (pixEqb (Pix Vertex (plabel (ipix (cim m) (dcx d) (dcy d)))) (Pix Vertex (plabel (ipix (cim m) (dcx d) (dcy d)))) = true) by (apply pixEqb_eq; reflexivity). congruence.
    + rewrite forallb_forall in Oy. specialize (Oy k Hk). apply andb_true_iff in Oy. destruct Oy as [I Oy]. apply insideImg_iff in I.
      apply orb_true_iff in Oy. destruct Oy as [Oy|Oy]; apply pixEqb_eq in Oy; [left | right]; (split; [apply I|]; split; [apply I | exact Oy]).
  - destruct (leftFaceLabel (cim m) d) as [l| | |] eqn:El; try discriminate. destruct (rightFaceLabel (cim m) d) as [r| | |] eqn:Er; try discriminate.
    rewrite !andb_true_iff in H. destruct H as [[A B] C]. split.
    + split; intros k Hk; rewrite ?El, ?Er in Hk; injection Hk as <-; apply liveB_holds; assumption.
    + intros d' Hd. rewrite Hd in C. rewrite !andb_true_iff in C. destruct C as [[C1 C2] C3]. apply resEqb_eq in C1, C2, C3. rewrite El, Er in *. auto.
Qed.

(** calls one after the other, each allowed; the map at the end and what the calls returned *)
Fixpoint creplay (m : cmap) (cs : list ccall) : option (cmap * list Z) :=
  match cs with
  | [] => Some (m, [])
  | c :: t =>
      if allowedB m c then
        match cexec m c with
        | Ok (m', s) => match creplay m' t with Some (m'', ss) => Some (m'', s :: ss) | None => None end
        | _ => None
        end
      else None
  end.
Lemma creplay_history P cs : forall m r, chistory P m -> creplay m cs = Some r -> chistory P (fst r).
Proof.
  induction cs as [|c t IH]; intros m r Hm H; cbn [creplay] in H; [injection H as <-; exact Hm|].
  destruct (allowedB m c) eqn:Ea; [|discriminate]. destruct (cexec m c) as [[m' s]| | |] eqn:E; try discriminate.
  destruct (creplay m' t) as [[m'' ss]|] eqn:Er; [|discriminate]. injection H as <-. apply (IH m' (m'', ss)); [|exact Er].
  exact (ch_call P m c m' s Hm (allowedB_holds _ _ Ea) E).
Qed.

(** ** Two regions in a frame; in the right one an isolated node and a bridge *)

Definition picture (rows : list (list pix)) (w h : Z) : img := Img w h (fun x y => nth (Z.to_nat x) (nth (Z.to_nat y) rows []) (Pix Region 0)).
Notation V := (Pix Vertex). Notation L := (Pix Line). Notation R := (Pix Region).
Definition rooms : img := picture [
  [R 0; R 0; R 0; R 0; R 0; R 0; R 0; R 0; R 0; R 0; R 0; R 0; R 0];
  [R 0; V 0; L 0; L 0; V 1; L 1; L 1; L 1; L 1; L 1; L 1; L 1; R 0];
  [R 0; L 2; R 1; R 1; L 3; R 2; R 2; R 2; R 2; R 2; R 2; L 1; R 0];
  [R 0; L 2; R 1; R 1; L 3; R 2; R 2; R 2; V 3; R 2; R 2; L 1; R 0];
  [R 0; L 2; R 1; R 1; L 3; R 2; R 2; R 2; R 2; R 2; R 2; L 1; R 0];
  [R 0; L 2; R 1; R 1; L 3; R 2; R 2; V 4; L 4; V 5; R 2; L 1; R 0];
  [R 0; L 2; R 1; R 1; L 3; R 2; R 2; R 2; R 2; R 2; R 2; L 1; R 0];
  [R 0; L 2; L 2; L 2; V 2; L 1; L 1; L 1; L 1; L 1; L 1; L 1; R 0];
  [R 0; R 0; R 0; R 0; R 0; R 0; R 0; R 0; R 0; R 0; R 0; R 0; R 0]] 13 9.
(** the contours: 1 is the frame with the wall, 2 the isolated node, 3 the bridge *)
Definition roomsComponents (im : img) : (Z -> Z -> Z) * nat :=
  (fun x y => if ctypeEqb (ptype (ipix im x y)) Region then 0 else if (x =? 8) && (y =? 3) then 2 else if (y =? 5) && (7 <=? x) && (x <=? 9) then 3 else 1, 3%nat).
Definition roomsMap : res cmap := import (fun _ _ _ => 1) (fun _ _ _ => []) roomsComponents rooms.
Definition mapOf (r : res cmap) : cmap := match r with Ok m => m | _ => blank rooms 0 0 0 end.
Definition r0 : cmap := Eval vm_compute in mapOf roomsMap.

Lemma r0_sound : sound r0.
Proof.
  apply (import_sound (fun _ _ _ => 1) (fun _ _ _ => []) roomsComponents rooms).
  - apply wfImgB_holds. vm_compute. reflexivity.
  - apply framedB_holds. vm_compute. reflexivity.
  - vm_compute. reflexivity.
  - apply linesLiveB_holds. vm_compute. reflexivity.
Qed.

(** the isolated node goes; the bridge goes; its two nodes go; the wall goes; the ends of the wall go *)
Definition tidying : list ccall :=
  [CRemoveIsolatedNode (Dart 8 3 3); CRemoveBridge (Dart 7 5 0); CRemoveIsolatedNode (Dart 7 5 0); CRemoveIsolatedNode (Dart 9 5 4);
   CMergeFaces (Dart 4 1 6); CMergeEdges (Dart 4 1 0); CMergeEdges (Dart 4 7 4)].

(** after the first [n] calls *)
Definition tidied (n : nat) : cmap := match creplay r0 (firstn n tidying) with Some (m, _) => m | None => r0 end.
Lemma tidied_history n : chistory sound (tidied n).
Proof.
  unfold tidied. destruct (creplay r0 (firstn n tidying)) as [[m s]|] eqn:E; [|apply ch_start; exact r0_sound].
  exact (creplay_history sound _ r0 (m, s) (ch_start sound r0 r0_sound) E).
Qed.
(** the n-th call is allowed and returns *)
Definition tidyCall (n : nat) : ccall := nth n tidying (CMergeEdges (Dart 0 0 0)).
Lemma tidy_step n : allowedB (tidied n) (tidyCall n) = true -> callAllowed (tidied n) (tidyCall n).
Proof. apply allowedB_holds. Qed.
Definition sizes (m : cmap) (t : ctype) : list (option Z) := map (fun c => if initialized c then Some (csize c) else None) (cellsOf m t).
Definition boundsAt (m : cmap) (t : ctype) (l : nat) : option rect := option_map cbounds (nth_error (cellsOf m t) l).

(** ** A node of eight pixels around a hole *)
Definition ring : img := picture [
  [R 0; R 0; R 0; R 0; R 0; R 0; R 0; R 0; R 0];
  [R 0; V 0; L 0; L 0; L 0; L 0; L 0; L 0; R 0];
  [R 0; L 0; R 1; R 1; R 1; R 1; R 1; L 0; R 0];
  [R 0; L 0; R 1; V 1; V 1; V 1; R 1; L 0; R 0];
  [R 0; L 0; R 1; V 1; R 2; V 1; R 1; L 0; R 0];
  [R 0; L 0; R 1; V 1; V 1; V 1; R 1; L 0; R 0];
  [R 0; L 0; R 1; R 1; R 1; R 1; R 1; L 0; R 0];
  [R 0; L 0; L 0; L 0; L 0; L 0; L 0; L 0; R 0];
  [R 0; R 0; R 0; R 0; R 0; R 0; R 0; R 0; R 0]] 9 9.
Definition ringArea (_ : img) (x y : Z) : Z := if x =? 1 then 1 else 9.
Definition ringOuter (_ : img) (_ _ : Z) : list Z := [1].
Definition ringComponents (im : img) : (Z -> Z -> Z) * nat :=
  (fun x y => if ctypeEqb (ptype (ipix im x y)) Region then 0 else if (3 <=? x) && (x <=? 5) && (3 <=? y) && (y <=? 5) then 2 else 1, 2%nat).
Definition r1 : cmap := Eval vm_compute in mapOf (import ringArea ringOuter ringComponents ring).

(** ** A line that ends at a line: no node there *)
Definition tee : img := picture [
  [R 0; R 0; R 0; R 0; R 0; R 0; R 0];
  [R 0; V 0; L 0; L 0; L 0; L 0; R 0];
  [R 0; L 0; R 1; L 1; R 1; L 0; R 0];
  [R 0; L 0; R 1; R 1; R 1; L 0; R 0];
  [R 0; L 0; R 1; R 1; R 1; L 0; R 0];
  [R 0; L 0; L 0; L 0; L 0; L 0; R 0];
  [R 0; R 0; R 0; R 0; R 0; R 0; R 0]] 7 7.
Definition teeComponents (im : img) : (Z -> Z -> Z) * nat := (fun x y => if ctypeEqb (ptype (ipix im x y)) Region then 0 else 1, 1%nat).
Definition r2 : res cmap := import (fun _ _ _ => 1) (fun _ _ _ => []) teeComponents tee.

(** ** Statements that do not hold *)

(** a dart that has lost its edge looks isolated: the node is removed although two edges end there, and the face gets a pixel outside of its bounds *)
Definition staleCall : ccall := CRemoveIsolatedNode (Dart 4 1 6).
Definition staleMap : cmap := match cexec (tidied 5) staleCall with Ok (m, _) => m | _ => r0 end.
Lemma stale_refuted : exists m c m' s, chistory sound m /\ cexec m c = Ok (m', s) /\ ~ recount m' /\ checkBounds m' = Ok true.
Proof.
  exists (tidied 5), staleCall, staleMap, 2. split; [apply tidied_history|]. split; [vm_compute; reflexivity|]. split; [|vm_compute; reflexivity].
  intros (A & _). assert (nth_error (cellsOf staleMap Region) 2 = Some (CInfo 2 (Rect 2 2 11 7) 46)) as E by (vm_compute; reflexivity).
  destruct (A Region 2%nat _ E eq_refl) as (_ & (X & _) & _).
  assert (owns (cim staleMap) Region 2 4 1) as O by (split; [vm_compute; split; [discriminate | reflexivity]|]; split; [vm_compute; split; [discriminate | reflexivity]|]; vm_compute; reflexivity).
  apply X in O. unfold inRect in O. cbn in O. lia.
Qed.
Lemma tee_refuted : exists crack outer comps im m, wfImg im /\ framed im /\ import crack outer comps im = Ok m /\ ~ recount m.
Proof.
  exists (fun _ _ _ => 1), (fun _ _ _ => []), teeComponents, tee, (mapOf r2). split; [apply wfImgB_holds; vm_compute; reflexivity|]. split; [apply framedB_holds; vm_compute; reflexivity|].
  split; [vm_compute; reflexivity|]. intros (_ & B & _). assert (owns (cim (mapOf r2)) Line 1 3 2) as O.
  { split; [vm_compute; split; [discriminate | reflexivity]|]. split; [vm_compute; split; [discriminate | reflexivity]|]. vm_compute. reflexivity. }
  destruct (B Line 1 3 2 O ltac:(discriminate)) as (c & Hc & Ic). assert (nth_error (cellsOf (mapOf r2) Line) 1 = Some (CInfo maxLabel (Rect 3 2 4 3) 1)) as E by (vm_compute; reflexivity).
  cbn [Z.to_nat Pos.to_nat Pos.iter_op Nat.add] in Hc. change (Pos.to_nat 1) with 1%nat in Hc. rewrite E in Hc. injection Hc as <-. discriminate Ic.
Qed.
