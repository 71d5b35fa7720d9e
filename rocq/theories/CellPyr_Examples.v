(** A pyramid over the rooms of CellMap_Examples.v to try the statements on. *)
From Coq Require Import Lia.
From Verif Require Import Base CellMap_Model CellMap_Spec CellMap_Init CellMap_Examples CellSigma_Spec CellSigma_Examples CellLink_Spec CellLink_Check CellFace_Spec CellFace_Examples CellPlane_Spec CellPlane_Results CellPlane_Examples CellSigma_Results CellJordan_Examples Pack_Model Pyramid_Model
  CellStats_Model CellStats_Spec CellStats_Examples CellPyr_Model CellPyr_Spec.
Local Open Scope Z_scope.

Definition q0 : cstats := Eval vm_compute in newOf grey steep rm [0; 0; 4; 0; 0].
Lemma q0_history since : shistory grey steep 255 rm since (fun _ _ => False) rm q0.
Proof. apply (new_history grey steep rm [0; 0; 4; 0; 0]); [apply (phistory_planar _ rm_history)|vm_compute; reflexivity|vm_compute; reflexivity]. Qed.

Inductive step := SOp (t : optype) (d : dart) | SBegin | SEnd.
Notation add := (addAndPerform lstate (lapply grey steep 255) lsame lends ldegree lanchor lcells).
Definition fitsB (t : optype) (z : Z) (st : lstate) : bool :=
  match st with Some (m, _) => match t with Euler e => faceAllowedB (cim m) (callOf e (unpack z)) | _ => isDartB (cim m) (unpack z) end | None => false end.
Lemma fitsB_holds t z st : fitsB t z st = true -> fits t z st.
Proof. destruct st as [(m, s)|]; [|discriminate]. destruct t as [e| |]; [destruct e|..]; cbn [fitsB fits pcallOf callOf pAllowed]; first [apply faceAllowedB_holds|apply isDartB_holds]. Qed.
Fixpoint climb (ss : list step) (p : pyramid lstate) (seen : list (level lstate)) : option (pyramid lstate * list (level lstate)) :=
  match ss with
  | [] => Some (p, seen)
  | SOp t d :: r =>
      if fitsB t (pack d) (st lstate (top lstate p)) then
        match add p t (pack d) with
        | (Done, p') => if composing lstate p =? 0 then (if (index lstate (top lstate p) =? length (history lstate p))%nat then climb r p' (seen ++ [top lstate p']) else None) else climb r p' seen
        | _ => None
        end
      else None
  | SBegin :: r => if (composing lstate p =? 0) && (index lstate (top lstate p) =? length (history lstate p))%nat then climb r (snd (beginComposite lstate p)) seen else None
  | SEnd :: r =>
      if composing lstate p =? 1 then
        match back (history lstate p), endComposite lstate lcells p with
        | Some (Composite (_ :: _)), (Done, p') => climb r p' (seen ++ [top lstate p'])
        | _, _ => None
        end
      else None
  end.
Lemma climb_built m s ss : forall p seen p' seen', built grey steep 255 false m s p seen -> climb ss p seen = Some (p', seen') -> built grey steep 255 false m s p' seen'.
Proof.
  induction ss as [|[t d| |] r IH]; intros p seen p' seen' B E; cbn [climb] in E.
  - injection E as <- <-. exact B.
  - destruct (fitsB t (pack d) (st lstate (top lstate p))) eqn:F; [|discriminate E]. apply fitsB_holds in F. destruct (add p t (pack d)) as [[| |] p1] eqn:A; try discriminate E. destruct (Z.eqb_spec (composing lstate p) 0) as [C|C].
    + destruct (Nat.eqb_spec (index lstate (top lstate p)) (length (history lstate p))) as [I|I]; [|discriminate E]. refine (IH _ _ _ _ _ E). eapply b_op; eassumption.
    + refine (IH _ _ _ _ _ E). eapply b_op_inside; eassumption.
  - destruct (Z.eqb_spec (composing lstate p) 0) as [C|C]; [|discriminate E]. destruct (Nat.eqb_spec (index lstate (top lstate p)) (length (history lstate p))) as [I|I]; [|discriminate E]. cbn [andb] in E.
    refine (IH _ _ _ _ _ E). eapply b_begin; [exact B|right; exact I|rewrite C; lia|]. destruct (beginComposite lstate p) as [o q] eqn:Q. unfold beginComposite in Q. injection Q as <- <-. reflexivity.
  - destruct (Z.eqb_spec (composing lstate p) 1) as [C|C]; [|discriminate E]. destruct (back (history lstate p)) as [[? ?|[|a ops]]|] eqn:Bk; try discriminate E. destruct (endComposite lstate lcells p) as [[| |] p1] eqn:A; try discriminate E.
    refine (IH _ _ _ _ _ E). eapply b_end; [exact B|exact C|rewrite Bk; discriminate|exact A].
Qed.
Definition ground : pyramid lstate := newPyramid lstate lcells (Some (rm, hide q0)).
Definition climbed (ss : list step) : option (pyramid lstate * list (level lstate)) := climb ss ground [mkLevel lstate 0 0 (Some (rm, hide q0))].
Lemma climbed_built ss p seen : climbed ss = Some (p, seen) -> built grey steep 255 false rm q0 p seen.
Proof. apply climb_built, b_new. Qed.
(** the bridge goes with both its ends; then the wall between the rooms goes and the edges along the frame are joined, in one step *)
Definition stairs : list step := [SOp RemoveEdgeWithEnds (Dart 7 5 0); SBegin; SOp (Euler MergeFaces) (Dart 4 1 6); SOp (Euler MergeEdges) (Dart 4 1 0); SOp (Euler MergeEdges) (Dart 4 7 4); SEnd].
Definition countsOf (l : level lstate) : option (Z * Z * Z) := match st lstate l with Some (m, _) => Some (nodeCount m, edgeCount m, faceCount m) | None => None end.
Example stairs_counts : option_map (fun r => map (fun l => (index lstate l, sub lstate l, countsOf l)) (snd r)) (climbed stairs) = Some [(0%nat, 0%nat, Some (6, 5, 3)); (1%nat, 3%nat, Some (4, 4, 3)); (2%nat, 6%nat, Some (2, 1, 2))].
Proof. vm_compute. reflexivity. Qed.
Example stairs_back : option_map (fun r => match getLevel lstate (lapply grey steep 255) lsame lends ldegree lanchor (fst r) 1 with Some (Done, l) => countsOf l | _ => None end) (climbed stairs) = Some (Some (4, 4, 3)).
Proof. vm_compute. reflexivity. Qed.
