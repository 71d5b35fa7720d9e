(** Concrete maps.  [replay] runs a list of calls and checks every precondition by
    computation; [replay_history] turns a successful run into a [history]. *)
From Coq Require Import QArith.
From Verif Require Import Base Orbit GraphRank Euler Links FaceInv Conj
  GeoMap_Model GeoMap_Views GeoMap_SInv GeoMap_Remove GeoMap_MergeEdges GeoMap_SplitEdge GeoMap_Loops GeoMap_MInv
  GeoMap_Gone GeoMap_Bridge GeoMap_MergeFaces GeoMap_Subdiv GeoMap_Init GeoMap_Area GeoMap_Embed GeoMap_Initialize GeoMap_Sort
  GeoMap_History GeoMap_Geometry GeoMap_AreaInv GeoMap_Spec GeoMap_Facts GeoMap_Results.
Local Open Scope Z_scope.

(** ** Checking that a map is drawn in the plane *)

Definition inb (x : Z) (l : list Z) : bool := existsb (Z.eqb x) l.
Lemma inb_spec x l : inb x l = true <-> In x l.
Proof. unfold inb. rewrite existsb_exists. split; [intros (y & H & E); apply Z.eqb_eq in E; congruence | intros H; exists x; split; [assumption | apply Z.eqb_refl]]. Qed.
Fixpoint nodupb (l : list Z) : bool := match l with [] => true | x :: t => negb (inb x t) && nodupb t end.
Lemma nodupb_spec l : nodupb l = true -> NoDup l.
Proof. induction l as [|x t IH]; cbn; intros H; constructor; apply andb_true_iff in H as [A B]; [|auto]. intros K. apply inb_spec in K. rewrite K in A. discriminate. Qed.

(** one dart per contour *)
Fixpoint repsOf m (l acc : list Z) : list Z :=
  match l with
  | [] => acc
  | x :: t => repsOf m t (if existsb (fun r => reachb (darts m) (phi m) r x) acc then acc else x :: acc)
  end.

Definition drawnb m : bool :=
  let D := darts m in let R := repsOf m D [] in
  nodupb R && forallb (fun r => inb r D) R &&
  forallb (fun x => existsb (fun r => reachb D (phi m) r x) R) D &&
  forallb (fun r => forallb (fun s => negb (reachb D (phi m) r s) || (r =? s)) R) R &&
  (Z.of_nat (length R) + 2 * Z.of_nat (rank (Gm m)) =? sumf busy (nodes m) + sumf alive (edges m)) &&
  forallb (fun a => forallb (fun b => (0 <? carea m a) || (0 <? carea m b) ||
     negb (Nat.eqb (uf (Gm m) (stt m a)) (uf (Gm m) (stt m b))) || reachb D (phi m) a b) D) D.

Lemma drawnb_spec m : SInv m -> drawnb m = true -> drawn m.
Proof.
  intros V H. unfold drawnb in H. repeat (apply andb_true_iff in H as [H ?]).
  assert (HR : forall a x, In a (darts m) -> reachb (darts m) (phi m) a x = true <-> reach (phi m) a x).
  { intros a x Ha. apply (reachb_spec (darts m) (phi m) (fun x => - sg m x)); [apply phi_perm, V | assumption]. }
  rewrite forallb_forall in H0, H2, H3, H4. apply Z.eqb_eq in H1.
  assert (Hi : forall r, In r (repsOf m (darts m) []) -> In r (darts m)) by (intros r Hr; apply inb_spec, H4; assumption).
  constructor.
  - exists (repsOf m (darts m) []). split; [|assumption]. constructor.
    + apply nodupb_spec; assumption.
    + assumption.
    + intros x Hx. apply H3, existsb_exists in Hx as (r & Hr & E). exists r. split; [assumption|]. apply HR; auto.
    + intros r s Hr Hs E. specialize (H2 r Hr). rewrite forallb_forall in H2. specialize (H2 s Hs). apply orb_true_iff in H2 as [H2|H2]; [|apply Z.eqb_eq; assumption].
      apply HR in E; auto. rewrite E in H2. discriminate.
  - intros a b Ha Hb Ca Cb Hc. specialize (H0 a Ha). rewrite forallb_forall in H0. specialize (H0 b Hb).
    apply orb_true_iff in H0 as [H0|H0]; [|apply HR; auto]. exfalso. apply orb_true_iff in H0 as [H0|H0].
    + apply orb_true_iff in H0 as [H0|H0]; apply Z.ltb_lt in H0; lia.
    + apply negb_true_iff, Nat.eqb_neq in H0. apply H0, uf_spec; assumption.
Qed.

(** ** Checking the order of the contours *)

Fixpoint removeNat (x : nat) (l : list nat) : option (list nat) :=
  match l with
  | [] => None
  | y :: t => if Nat.eqb x y then Some t else match removeNat x t with Some t' => Some (y :: t') | None => None end
  end.
Fixpoint permb (l1 l2 : list nat) : bool :=
  match l1 with
  | [] => match l2 with [] => true | _ => false end
  | x :: t => match removeNat x l2 with Some l2' => permb t l2' | None => false end
  end.
Lemma removeNat_spec x l l' : removeNat x l = Some l' -> Permutation (x :: l') l.
Proof.
  revert l'. induction l as [|y t IH]; cbn; intros l' E; [discriminate|]. destruct (Nat.eqb_spec x y) as [->|N]; [injection E as <-; reflexivity|].
  destruct (removeNat x t) as [t'|] eqn:E'; [|discriminate]. injection E as <-. rewrite perm_swap. apply perm_skip, IH; reflexivity.
Qed.
Lemma permb_spec l1 : forall l2, permb l1 l2 = true -> Permutation l1 l2.
Proof.
  induction l1 as [|x t IH]; cbn; intros l2 E; [destruct l2; [constructor | discriminate]|].
  destruct (removeNat x l2) as [l2'|] eqn:E'; [|discriminate]. apply removeNat_spec in E'. rewrite <- E'. apply perm_skip, IH; assumption.
Qed.
Fixpoint orderb (v : nat -> Z) (l : list nat) : bool :=
  match l with [] => true | p :: t => forallb (fun e => negb (absBefore 1 (v e) (v p))) t && orderb v t end.
Lemma orderb_spec v l : orderb v l = true -> forall A B, l = A ++ B -> forall p e, In p A -> In e B -> absBefore 1 (v e) (v p) = false.
Proof.
  induction l as [|x t IH]; cbn; intros H A B E p e Hp He; [destruct A; [destruct Hp | discriminate]|].
  apply andb_true_iff in H as [H1 H2]. destruct A as [|y A]; [destruct Hp|]. injection E as <- ->. destruct Hp as [<-|Hp].
  - rewrite forallb_forall in H1. apply negb_true_iff, H1, in_or_app. right; assumption.
  - apply (IH H2 A B eq_refl); assumption.
Qed.

(** ** Replaying calls *)

(** parents found by embedFaces are given by a table *)
Definition parTable (t : list (Z * nat)) (m : gmap) (a : Z) : nat :=
  match find (fun x => fst x =? a) t with
  | Some (_, l) => match faceP m l with Ok (Some _) => l | _ => 0%nat end
  | None => 0%nat
  end.
Lemma parTable_ok t m1 a : (exists f, isFace m1 0 f) -> exists f, isFace m1 (parTable t m1 a) f.
Proof.
  intros H0. unfold parTable. destruct (find _ t) as [[? l]|]; [|assumption]. destruct (faceP m1 l) as [[f|]| | |] eqn:E; try assumption. exists f. exact E.
Qed.

Inductive xcall := XCall (o : op) | XInit (ord : list nat) (t : list (Z * nat)).
Definition yes : hooks := {| hkNode := fun _ _ => true; hkMergeEdges := fun _ _ => true; hkBridge := fun _ _ => true; hkMergeFaces := fun _ _ => true |}.
Definition asCall (c : xcall) : call := match c with XCall o => Call yes o | XInit ord t => Init ord (parTable t) end.

Definition liveb {A} (r : res (option A)) (p : A -> bool) : bool := match r with Ok (Some a) => p a | _ => false end.
Definition saExists m (a : sigmaAnchor) : bool := match a with SAnode l => liveb (nodeP m l) (fun _ => true) | SAdart _ => true end.
Definition allowedb m (c : xcall) : bool :=
  match c with
  | XCall (OAddEdge s e _ _) => saExists m s && saExists m e
  | XCall (OSplitEdge l _ _ _) => liveb (edgeP m l) (fun e => negb (Nat.eqb (length (epts e)) 0))
  | XCall (ORemoveIsolatedNode l) => liveb (nodeP m l) (fun nd => nanchor nd =? 0)
  | XCall (ORemoveEdge d) => inb d (darts m)
  | XCall (OFaceArea l) => liveb (faceP m l) (fun _ => true)
  | XCall (OSetFlag l _ _) => liveb (edgeP m l) (fun _ => true)
  | XCall (OSetPosition l _) => liveb (nodeP m l) (fun _ => true) &&
      forallb (fun o => match o with Some e => negb (Nat.eqb (length (epts e)) 0) | None => true end) (edges m)
  | XCall (OSetSigma _ _ _) => false
  | XCall _ => true
  | XInit ord _ =>
      Nat.eqb (length (faces m)) 0 &&
      match sortedMap m with
      | Ok ms => drawnb ms && match initContours ms with Ok m1 => permb ord (seq 1 (length (faces m1) - 1)) && orderb (faceSum m1) ord | _ => false end
      | Exn => true
      | _ => false
      end
  end.

Lemma liveb_spec {A} (r : res (option A)) p : liveb r p = true -> exists a, r = Ok (Some a) /\ p a = true.
Proof. destruct r as [[a|]| | |]; cbn; try discriminate. eauto. Qed.

Lemma saExists_spec m a : saExists m a = true -> anchorExists m a.
Proof. destruct a; cbn; [|trivial]. intros H. apply liveb_spec in H as (nd & E & _). exists nd. exact E. Qed.

Lemma allowedb_spec m c : Inv m -> allowedb m c = true -> allowed m (asCall c).
Proof.
  intros HI. destruct c as [o|ord t]; cbn [allowedb asCall].
  - destruct o; cbn; intros H; try exact I; try discriminate.
    + apply andb_true_iff in H as [A B]. split; apply saExists_spec; assumption.
    + apply isDart_iff, inb_spec; assumption.
    + apply liveb_spec in H as (e & E & K). exists e. split; [exact E|]. intros K0. rewrite K0 in K. discriminate.
    + apply liveb_spec in H as (e & E & K). exists e. split; [exact E | apply Z.eqb_eq; assumption].
    + apply liveb_spec in H as (e & E & _). exists e. exact E.
    + apply liveb_spec in H as (e & E & _). exists e. exact E.
    + apply andb_true_iff in H as [H H2]. apply liveb_spec in H as (e & E & _). split; [exists e; exact E|]. intros k e0 He _ K.
      unfold isEdge, edgeP in He. destruct (nth_error (edges m) k) as [o|] eqn:Ek; [|discriminate]. injection He as ->. apply nth_error_In in Ek.
      rewrite forallb_forall in H2. specialize (H2 _ Ek). cbn in H2. rewrite K in H2. discriminate.
  - intros H. apply andb_true_iff in H as [Hf H]. apply Nat.eqb_eq in Hf. cbn. split; [|split; [|intros; apply parTable_ok; assumption]].
    + intros ms E. rewrite E in H. apply andb_true_iff in H as [H _].
      assert (G : GP m) by (destruct HI as [G|M]; [assumption | pose proof (mi_0 _ M) as M0; unfold fAt, tget in M0; destruct (faces m); [cbn in M0; congruence | discriminate]]).
      destruct (sortedMap_spec m ms G E) as (_ & Gs & _). apply drawn_planarDrawing; [apply Gs|]. apply drawnb_spec; [apply Gs | assumption].
    + intros ms m1 E E1. rewrite E in H. apply andb_true_iff in H as [_ H]. rewrite E1 in H. apply andb_true_iff in H as [H1 H2].
      assert (G : GP m) by (destruct HI as [G|M]; [assumption | pose proof (mi_0 _ M) as M0; unfold fAt, tget in M0; destruct (faces m); [cbn in M0; congruence | discriminate]]).
      destruct (sortedMap_spec m ms G E) as (_ & Gs & _). pose proof (gp_v _ Gs) as Vs.
      destruct (initContours_spec ms Vs (gp_f _ Gs) (gp_l _ Gs)) as (m1' & R1 & C1 & Hall). rewrite R1 in E1. injection E1 as ->.
      pose proof (ci_rel _ _ C1) as Rl. pose proof (rf_SI _ _ Rl (sv_si _ Vs)) as S1. pose proof (CI_FI ms m1 Vs C1 Hall) as F1.
      exists 1. split; [lia|]. split; [apply permb_spec; assumption|]. intros A B EA p e fp fe vp ve Hp He Fp Fe Vp Ve.
      apply isFace_iff in Fp. apply isFace_iff in Fe. apply (enclosed_iff m1 p fp vp S1 F1 Fp) in Vp. apply (enclosed_iff m1 e fe ve S1 F1 Fe) in Ve. subst vp ve.
      apply (orderb_spec _ _ H2 A B EA p e Hp He).
Qed.

Definition pointb (p q : point) : bool := (fst p =? fst q) && (snd p =? snd q).
Definition optpointb (a b : option point) : bool :=
  match a, b with Some p, Some q => pointb p q | None, None => true | _, _ => false end.
Lemma optpointb_spec a b : optpointb a b = true -> a = b.
Proof.
  destruct a as [[x y]|], b as [[x' y']|]; cbn; try discriminate; [|reflexivity]. intros H. apply andb_true_iff in H as [A B].
  apply Z.eqb_eq in A. apply Z.eqb_eq in B. cbn in *. congruence.
Qed.
Definition geometricb m (c : xcall) : bool :=
  match c with
  | XCall (OAddEdge s e pts _) => Nat.leb 2 (length pts) &&
      match resolveSA m s with Ok r => optpointb (hd_error pts) (posOf m (sa_node r)) | _ => true end &&
      match resolveSA m e with Ok r => optpointb (hd_error (rev pts)) (posOf m (sa_node r)) | _ => true end
  | XCall (OSplitEdge _ k _ ins) => ins || Nat.ltb 0 k
  | _ => true
  end.
Lemma geometricb_spec m c : geometricb m c = true -> geometric m (asCall c).
Proof.
  destruct c as [o|]; cbn; [|trivial]. destruct o; cbn; intros H; try exact I.
  - apply andb_true_iff in H as [H H2]. apply andb_true_iff in H as [H0 H1]. split; [destruct (length pts) as [|[|?]]; try discriminate; lia|]. split; intros r E; rewrite E in *; apply optpointb_spec; assumption.
  - apply orb_true_iff in H as [H|H]; [left; assumption | right; apply Nat.ltb_lt; assumption].
Qed.
Definition straightb m (c : xcall) : bool :=
  match c with
  | XCall (OSplitEdge l k p true) =>
      match edgeP m l with
      | Ok (Some e) => match nth_error (epts e) k, nth_error (epts e) (S k) with
                       | Some a, Some b => (fst p - fst a) * (snd b - snd a) =? (snd p - snd a) * (fst b - fst a)
                       | _, _ => true
                       end
      | _ => true
      end
  | XCall (OSetPosition _ _) => Nat.eqb (length (faces m)) 0
  | _ => true
  end.
Lemma straightb_spec m c : straightb m c = true -> straight m (asCall c).
Proof.
  destruct c as [o|]; cbn; [|trivial]. destruct o; cbn; intros H; try exact I.
  - destruct ins; [|exact I]. intros e a b E Ea Eb. unfold isEdge in E. rewrite E, Ea, Eb in H. apply Z.eqb_eq in H. exact H.
  - apply Nat.eqb_eq in H. destruct (faces m); [reflexivity | discriminate].
Qed.

(** [str]: also check that inserted points lie on the line *)
Fixpoint replayFrom (str : bool) (cs : list xcall) m : res gmap :=
  match cs with
  | [] => Ok m
  | c :: t => if allowedb m c && geometricb m c && (negb str || straightb m c)
              then m1 <- exec m (asCall c) ;; replayFrom str t m1 else UB
  end.
Definition replay str cs : gmap := match replayFrom str cs empty_map with Ok m => m | _ => empty_map end.
Definition replays str cs : bool := match replayFrom str cs empty_map with Ok _ => true | _ => false end.

Definition rule (str : bool) : gmap -> call -> Prop := if str then geometricStraight else geometric.

Lemma replayFrom_history str cs : forall m m', history (rule str) m -> replayFrom str cs m = Ok m' -> history (rule str) m'.
Proof.
  induction cs as [|c t IH]; cbn [replayFrom]; intros m m' H E; [congruence|].
  destruct (allowedb m c && geometricb m c && (negb str || straightb m c)) eqn:K; [|discriminate].
  apply andb_true_iff in K as [K K3]. apply andb_true_iff in K as [K1 K2].
  destruct (exec m (asCall c)) as [m1| | |] eqn:E1; try discriminate. cbn [bind] in E. apply (IH m1); [|assumption].
  apply (h_call _ m (asCall c)); auto; [apply allowedb_spec; [apply (history_Inv _ m H) | assumption]|].
  destruct str; cbn in *; [split|]; try (apply geometricb_spec; assumption). apply straightb_spec; assumption.
Qed.
Lemma replay_history str cs : replays str cs = true -> history (rule str) (replay str cs).
Proof.
  unfold replays, replay. destruct (replayFrom str cs empty_map) as [m| | |] eqn:E; try discriminate. intros _.
  apply (replayFrom_history str cs empty_map); [apply h_new | assumption].
Qed.
Lemma replay_any str cs : replays str cs = true -> history anyCall (replay str cs).
Proof. intros H. apply (history_weaken (rule str)); [intros; exact I | apply replay_history; assumption]. Qed.
Lemma replay_geometric str cs : replays str cs = true -> history geometric (replay str cs).
Proof. intros H. apply (history_weaken (rule str)); [|apply replay_history; assumption]. destruct str; [intros ? ? K; apply K | intros ? ? K; exact K]. Qed.
