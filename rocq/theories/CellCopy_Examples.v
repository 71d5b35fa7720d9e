(** Every map of CellMap_Model can be an object on a heap; a concrete one whose copy holds darts of the original. *)
From Verif Require Import Base CellMap_Model CellMap_Proofs CellMap_Main CellMap_Examples CellCopy_Model CellCopy_Spec CellCopy_Proofs.
Local Open Scope Z_scope.

(** the object with the value [m] at the address [a], image in buffer [b] *)
Definition put (a b : nat) (d : dart) : pdart := PDart (Ptr b (dcx d) (dcy d)) (ddir d) (Some a).
Definition settle (m : cmap) (a b : nat) : gmo :=
  Gmo b (Ptr b 2 2) (map (fun n => PNode (ninf n) (put a b (nanchor n)) (ndegree n)) (cnodes m)) (map (fun e => PEdge (einf e) (put a b (estart e)) (put a b (eend e))) (cedges m))
    (map (fun f => PFace (finf f) (map (put a b) (fcontours f))) (cfaces m)) (nodeCount m) (edgeCount m) (faceCount m) (cinit m).
(** two maps, at the addresses 0 and 1 *)
Definition twoMaps (m n : cmap) : heap :=
  Heap (fun a => match a with 0%nat => Some (settle m 0 0) | 1%nat => Some (settle n 1 1) | _ => None end) (fun b => match b with 0%nat => Some (cim m) | 1%nat => Some (cim n) | _ => None end) 2.
Lemma settle_darts m a b d : liveDart (settle m a b) d -> pbuf (pcen d) = b /\ pseg d = Some a.
Proof.
  intros [(n & I & _ & ->)|[(e & I & _ & K)|(f & I & _ & K)]]; cbn in I; apply in_map_iff in I; destruct I as (x & <- & _); cbn in *; [split; reflexivity|destruct K as [->| ->]; split; reflexivity|].
  apply in_map_iff in K. destruct K as (y & <- & _). split; reflexivity.
Qed.
Lemma put_view a b d : dartView (put a b d) = d. Proof. destruct d. reflexivity. Qed.
Lemma settle_view m a b : CMap (cim m) (map nodeView (gnodes (settle m a b))) (map edgeView (gedges (settle m a b))) (map faceView (gfaces (settle m a b))) (nodeCount m) (edgeCount m) (faceCount m) (cinit m) = m.
Proof.
  destruct m as [im ns es fs a1 a2 a3 a4]. cbn. rewrite !map_map. f_equal.
  - rewrite <- (map_id ns) at 2. apply map_ext. intros [i d g]. unfold nodeView. cbn. rewrite put_view. reflexivity.
  - rewrite <- (map_id es) at 2. apply map_ext. intros [i d g]. unfold edgeView. cbn. rewrite !put_view. reflexivity.
  - rewrite <- (map_id fs) at 2. apply map_ext. intros [i d]. unfold faceView. cbn. rewrite map_map. f_equal. rewrite <- (map_id d) at 2. apply map_ext. apply put_view.
Qed.
Lemma twoMaps_good m n : separate (twoMaps m n) /\ parented (twoMaps m n) 0 /\ parented (twoMaps m n) 1 /\ view (twoMaps m n) 0 = Some m /\ view (twoMaps m n) 1 = Some n.
Proof.
  split; [split|].
  - intros [|[|a]] o E; cbn in E; [| |discriminate E]; injection E as <-; cbn; split; eauto.
  - intros [|[|a]] [|[|b]] o p E F N; cbn in E, F; try discriminate E; try discriminate F; try congruence; injection E as <-; injection F as <-; cbn; lia.
  - split; [exists (settle m 0 0); split; [reflexivity|split; [reflexivity|intros d L; exact (settle_darts _ _ _ _ L)]]|].
    split; [exists (settle n 1 1); split; [reflexivity|split; [reflexivity|intros d L; exact (settle_darts _ _ _ _ L)]]|].
    split; [exact (f_equal Some (settle_view m 0 0))|exact (f_equal Some (settle_view n 1 1))].
Qed.

(** a map whose isolated node has been removed, copied; then the original is destroyed *)
Definition withDead : cmap := tidied 1.
Definition deadHeap : heap := twoMaps withDead r0.
Definition hereDart (o : gmo) : pdart := panchor (nth 3 (gnodes o) (PNode (CInfo 0 emptyRect 0) (PDart (Ptr 0 0 0) 0 None) 0)).
Definition copied : option heap := match copyConstruct deadHeap 2 0 with Ok h => match destroy h 0 with Ok h' => Some h' | _ => None end | _ => None end.
Lemma dead_refuted : exists h this other h' h'' o d, separate h /\ hobj h this = None /\ parented h other /\ copyConstruct h this other = Ok h' /\ destroy h' other = Ok h'' /\
  hobj h'' this = Some o /\ anyDart o d /\ pseg d = Some other /\ readPtr h'' (pcen d) = UB.
Proof.
  destruct (twoMaps_good withDead r0) as (S & P & _ & V & _).
  destruct (construct_all deadHeap 2 0 S eq_refl P) as (h' & E & S' & P' & V' & SM).
  assert (exists o, hobj h' 0%nat = Some o) as X by (destruct (SM 0%nat ltac:(lia)) as [A _]; rewrite A; eexists; reflexivity).
  destruct (destroy_apart h' 0 S' X) as (h'' & E' & S'' & _ & SM').
  assert (match copyConstruct deadHeap 2 0 with Ok q => match destroy q 0 with Ok r => match hobj r 2%nat with Some o => (4 <=? length (gnodes o))%nat && (match pseg (hereDart o) with Some 0%nat => true | _ => false end) && (match readPtr r (pcen (hereDart o)) with UB => true | _ => false end) | None => false end | _ => false end | _ => false end = true) as Q by (vm_compute; reflexivity).
  rewrite E in Q. rewrite E' in Q. destruct (hobj h'' 2%nat) as [o|] eqn:Eo; [|discriminate Q]. apply andb_true_iff in Q. destruct Q as [Q Q3]. apply andb_true_iff in Q. destruct Q as [Q1 Q2]. apply Nat.leb_le in Q1.
  exists deadHeap, 2%nat, 0%nat, h', h'', o, (hereDart o). split; [exact S|]. split; [reflexivity|]. split; [exact P|]. split; [exact E|]. split; [exact E'|]. split; [exact Eo|].
  split; [left; eexists; split; [|reflexivity]; apply nth_In; lia|]. split; [destruct (pseg (hereDart o)) as [[|k]|]; congruence|]. destruct (readPtr h'' (pcen (hereDart o))); congruence.
Qed.
(** assignment between maps of different sizes *)
Lemma assign_case : exists h', deepCopy (twoMaps withDead r1) 1 0 = Ok h' /\ view h' 1 = Some withDead /\ view h' 0 = Some withDead /\ readPtr h' (Ptr 1 2 2) = UB.
Proof.
  destruct (twoMaps_good withDead r1) as (S & P & _ & V & _).
  destruct (deepCopy_all (twoMaps withDead r1) 1 0 (settle r1 1 1) S eq_refl P) as (h' & t' & E & _ & _ & V' & SM & _ & K). exists h'. split; [exact E|]. split; [rewrite V'; exact V|]. split; [rewrite (same_view _ _ _ (SM 0%nat ltac:(lia))); exact V|].
  specialize (K (cim r1) (cim withDead) (settle withDead 0 0) ltac:(lia) eq_refl eq_refl eq_refl). assert ((iw (cim r1) =? iw (cim withDead)) && (ih (cim r1) =? ih (cim withDead)) = false) as D by (vm_compute; reflexivity). rewrite D in K. unfold readPtr, bufAt. cbn [pbuf settle gbuf] in *. rewrite K. reflexivity.
Qed.
