(** Proofs about the copy constructor *)
From Verif Require Import Base GeoMap_Model Scanlines_Model LabelLUT_Model Map2D_Model Map2D_Spec Map2D_Proofs SigmaArray LabelImage_Model LabelImage_Spec Copy_Model Copy_Spec.
Local Open Scope Z_scope.

(** ** Heaps *)
Definition extends (h h' : heap) : Prop := (hnext h <= hnext h')%nat /\ (forall l, (l < hnext h)%nat -> hat h' l = hat h l) /\ (heapOK h -> heapOK h').
Lemma extends_refl h : extends h h.
Proof. split; [lia|]. auto. Qed.
Lemma extends_trans a b c : extends a b -> extends b c -> extends a c.
Proof. intros (A1 & A2 & A3) (B1 & B2 & B3). split; [lia|]. split; [|auto]. intros l H. rewrite B2 by lia. apply A2, H. Qed.
Lemma alloc_extends h x : extends h (fst (alloc h x)).
Proof.
  unfold alloc. cbn [fst]. split; [cbn; lia|]. split; [intros l H | intros K l H]; cbn [hat hnext] in *; destruct (Nat.eqb_spec l (hnext h)); try lia; [reflexivity|]. apply K. lia.
Qed.
Lemma alloc_at h x : hat (fst (alloc h x)) (hnext h) = Some x.
Proof. cbn. rewrite Nat.eqb_refl. reflexivity. Qed.
Lemma store_at h l x k : hat (store h l x) k = if Nat.eqb k l then Some x else hat h k.
Proof. reflexivity. Qed.
Lemma store_extends h h' l x : extends h h' -> (hnext h <= l)%nat -> (l < hnext h')%nat -> extends h (store h' l x).
Proof.
  intros (A & B & C) L1 L2. split; [exact A|]. split; [intros k Hk; rewrite store_at; destruct (Nat.eqb_spec k l); [lia | apply B, Hk]|].
  intros K k Hk. rewrite store_at. cbn [hnext store] in Hk. destruct (Nat.eqb_spec k l); [lia|]. apply (C K), Hk.
Qed.
Lemma heapOK_lt h l : heapOK h -> hat h l <> None -> (l < hnext h)%nat.
Proof. intros K N. destruct (Nat.lt_ge_cases l (hnext h)) as [H|H]; [exact H|]. elim N. apply K, H. Qed.

(** ** Copying a table *)
Fixpoint liveObjs (ys : nat -> obj) (i : nat) (src : list (option loc)) : list obj :=
  match src with [] => [] | None :: t => liveObjs ys (S i) t | Some _ :: t => ys i :: liveObjs ys (S i) t end.

Lemma copyCells_ok {A} dup (note : obj -> A -> A) (ys : nat -> obj) h0 : forall src h tab acc k,
  extends h0 h -> (k + length src <= length tab)%nat ->
  (forall i p, nth_error src i = Some (Some p) -> exists x, hat h0 p = Some x /\ (p < hnext h0)%nat /\ dup x = Some ((k + i)%nat, ys (k + i)%nat)) ->
  exists h' tab', copyCells dup note h src tab acc = Ok (h', tab', fold_left (fun a y => note y a) (liveObjs ys k src) acc) /\
    extends h h' /\ length tab' = length tab /\
    (forall i p, nth_error src i = Some (Some p) -> exists q, nth_error tab' (k + i) = Some (Some q) /\ (hnext h <= q < hnext h')%nat /\ hat h' q = Some (ys (k + i)%nat)) /\
    (forall j, (forall i p, nth_error src i = Some (Some p) -> j <> (k + i)%nat) -> nth_error tab' j = nth_error tab j).
Proof.
  induction src as [|o t IH]; intros h tab acc k Ex Lk Hs.
  - exists h, tab. split; [reflexivity|]. split; [apply extends_refl|]. split; [reflexivity|]. split; [intros [|i] p; discriminate | auto].
  - cbn [length] in Lk. assert (Hs' : forall i p, nth_error t i = Some (Some p) -> exists x, hat h0 p = Some x /\ (p < hnext h0)%nat /\ dup x = Some ((Datatypes.S k + i)%nat, ys (Datatypes.S k + i)%nat)).
    { intros i p Hp. replace (Datatypes.S k + i)%nat with (k + Datatypes.S i)%nat by lia. apply Hs. exact Hp. }
    destruct o as [p|]; cbn [copyCells liveObjs].
    + destruct (Hs 0%nat p eq_refl) as (x & Hx & Lp & Hd). rewrite Nat.add_0_r in Hd. unfold deref. rewrite (proj1 (proj2 Ex) p Lp), Hx. cbn [bind]. rewrite Hd. cbn [fst snd alloc].
      unfold vset. destruct (Nat.ltb_spec k (length tab)); [|lia]. cbn [bind].
      pose proof (alloc_extends h (ys k)) as E1. set (h1 := fst (alloc h (ys k))) in *. set (tab1 := list_upd tab k (Some (hnext h))).
      destruct (IH h1 tab1 (note (ys k) acc) (Datatypes.S k)) as (h' & tab' & E & Eh & Lt & Hin & Hout); [exact (extends_trans _ _ _ Ex E1) | unfold tab1; rewrite list_upd_length; lia | exact Hs'|].
      exists h', tab'. split; [exact E|]. split; [exact (extends_trans _ _ _ E1 Eh)|]. split; [rewrite Lt; apply list_upd_length|]. split.
      * intros [|i] q Hq.
        -- rewrite Nat.add_0_r. exists (hnext h). rewrite Hout by (intros; lia). unfold tab1. rewrite nth_error_upd_eq by lia. split; [reflexivity|].
           destruct Eh as (E2 & E3 & _). assert (Q : hnext h1 = Datatypes.S (hnext h)) by reflexivity. split; [lia|]. rewrite E3 by lia. apply alloc_at.
        -- destruct (Hin i q Hq) as (r & R1 & R2 & R3). replace (k + Datatypes.S i)%nat with (Datatypes.S k + i)%nat by lia. exists r. split; [exact R1|]. split; [|exact R3].
           assert (Q : hnext h1 = Datatypes.S (hnext h)) by reflexivity. lia.
      * intros j Hj. rewrite Hout.
        -- unfold tab1. apply nth_error_upd_neq. intros ->. apply (Hj 0%nat p eq_refl). lia.
        -- intros i q Hq. replace (Datatypes.S k + i)%nat with (k + Datatypes.S i)%nat by lia. apply (Hj (Datatypes.S i) q). exact Hq.
    + destruct (IH h tab acc (Datatypes.S k)) as (h' & tab' & E & Eh & Lt & Hin & Hout); [exact Ex | lia | exact Hs'|].
      exists h', tab'. split; [exact E|]. split; [exact Eh|]. split; [exact Lt|]. split.
      * intros [|i] q Hq; [discriminate|]. replace (k + Datatypes.S i)%nat with (Datatypes.S k + i)%nat by lia. apply (Hin i q Hq).
      * intros j Hj. apply Hout. intros i q Hq. replace (Datatypes.S k + i)%nat with (k + Datatypes.S i)%nat by lia. apply (Hj (Datatypes.S i) q). exact Hq.
Qed.

Lemma nth_repeat_None {A} n i : nth_error (repeat (@None A) n) i = if (i <? n)%nat then Some None else None.
Proof.
  destruct (Nat.ltb_spec i n) as [H|H]; [|apply nth_error_None; rewrite repeat_length; exact H].
  rewrite (nth_error_nth' _ None) by (rewrite repeat_length; exact H). rewrite nth_repeat. reflexivity.
Qed.

(** the table of the copy: [f] describes the old cells, [g] the new ones *)
Lemma copyTable_ok {A B} dup (note : obj -> B -> B) (f : nat -> A -> obj -> Prop) (mk : nat -> A -> obj) (dflt : A) h0 h src vs acc :
  heapOK h0 -> extends h0 h -> tableHolds h0 f src vs -> (forall i v x, f i v x -> dup x = Some (i, mk i v)) ->
  let ys := fun i => mk i (match nth_error vs i with Some (Some v) => v | _ => dflt end) in
  exists h' tab', copyCells dup note h src (repeat None (length src)) acc = Ok (h', tab', fold_left (fun a y => note y a) (liveObjs ys 0 src) acc) /\
    extends h h' /\ tableHolds h' (fun i v x => x = mk i v) tab' vs /\ (forall p, In (Some p) tab' -> (hnext h <= p < hnext h')%nat).
Proof.
  intros OK Ex (Hl & Hv) Hd ys.
  assert (Hs : forall i p, nth_error src i = Some (Some p) -> exists v x, nth_error vs i = Some (Some v) /\ hat h0 p = Some x /\ f i v x).
  { intros i p Hp. specialize (Hv i). rewrite Hp in Hv. destruct (nth_error vs i) as [[v|]|] eqn:E; try contradiction. destruct Hv as (x & A1 & A2). exists v, x. auto. }
  destruct (copyCells_ok dup note ys h0 src h (repeat None (length src)) acc 0%nat Ex) as (h' & tab' & E & Eh & Lt & Hin & Hout).
  { rewrite repeat_length. lia. }
  { intros i p Hp. destruct (Hs i p Hp) as (v & x & V & X & F). exists x. split; [exact X|]. split; [apply heapOK_lt; [exact OK | congruence]|]. rewrite (Hd _ _ _ F). unfold ys. cbn [Nat.add]. rewrite V. reflexivity. }
  exists h', tab'. split; [exact E|]. split; [exact Eh|]. rewrite repeat_length in Lt.
  assert (Hj : forall j, nth_error tab' j = match nth_error src j with Some (Some p) => nth_error tab' j | Some None => Some None | None => None end).
  { intros j. destruct (nth_error src j) as [[p|]|] eqn:Ej; [reflexivity| |].
    - rewrite Hout; [rewrite nth_repeat_None; assert (j < length src)%nat by (apply nth_error_Some; congruence); destruct (Nat.ltb_spec j (length src)); [reflexivity | lia]|].
      intros i p Hp ->. cbn [Nat.add] in Ej. congruence.
    - apply nth_error_None. apply nth_error_None in Ej. lia. }
  split.
  - split; [lia|]. intros i. rewrite Hj. specialize (Hv i). destruct (nth_error src i) as [[p|]|] eqn:Ei; [|destruct (nth_error vs i) as [[v|]|]; auto | destruct (nth_error vs i) as [[v|]|]; auto].
    destruct (Hs i p Ei) as (v & x & V & _). rewrite V. destruct (Hin i p Ei) as (q & Q1 & _ & Q3). cbn [Nat.add] in *. rewrite Q1. exists (ys i). split; [exact Q3|]. unfold ys. rewrite V. reflexivity.
  - intros p Hp. destruct (In_nth_error _ _ Hp) as (j & Ej). pose proof Ej as Ej'. rewrite Hj in Ej'. destruct (nth_error src j) as [[r|]|] eqn:Er; try discriminate.
    destruct (Hin j r Er) as (q & Q1 & Q2 & _). cbn [Nat.add] in Q1. assert (p = q) by congruence. subst. exact Q2.
Qed.

Lemma tableHolds_ext {A} h h' (f : nat -> A -> obj -> Prop) tab vs : (forall p, In (Some p) tab -> hat h' p = hat h p) -> tableHolds h f tab vs -> tableHolds h' f tab vs.
Proof.
  intros E (L & H). split; [exact L|]. intros i. specialize (H i). destruct (nth_error tab i) as [[p|]|] eqn:Ei; auto. destruct (nth_error vs i) as [[v|]|]; auto.
  rewrite (E p); [exact H|]. eapply nth_error_In. exact Ei.
Qed.

(** the position index filled by the node loop *)
Lemma index_filled o vs : forall src i idx, length src = length vs ->
  (forall j, match nth_error src j, nth_error vs j with None, None | Some None, Some None => True | Some (Some _), Some (Some _) => True | _, _ => False end) ->
  forall ys, (forall j v, nth_error vs j = Some (Some v) -> ys (i + j)%nat = ONode o (i + j) v) -> wf idx ->
  let idx' := fold_left (fun a y => noteNode y a) (liveObjs ys i src) idx in wf idx' /\ Permutation (stored idx') (livePos i vs ++ stored idx).
Proof.
  induction vs as [|v vs IH]; intros [|s src] i idx Hl Hm ys Hy W; try discriminate; [cbn; auto|].
  assert (Hm' : forall j, match nth_error src j, nth_error vs j with None, None | Some None, Some None => True | Some (Some _), Some (Some _) => True | _, _ => False end) by (intros j; exact (Hm (Datatypes.S j))).
  assert (Hy' : forall j w, nth_error vs j = Some (Some w) -> ys (Datatypes.S i + j)%nat = ONode o (Datatypes.S i + j) w).
  { intros j w Hw. replace (Datatypes.S i + j)%nat with (i + Datatypes.S j)%nat by lia. apply Hy. exact Hw. }
  specialize (Hm 0%nat). cbn in Hm. destruct s as [p|], v as [v|]; try contradiction; cbn [liveObjs fold_left livePos].
  - pose proof (Hy 0%nat v eq_refl) as Y. rewrite Nat.add_0_r in Y. rewrite Y. cbn [noteNode]. destruct (IH src (Datatypes.S i) (insert idx (npos v) i) ltac:(cbn in Hl; lia) Hm' ys Hy' (insert_wf _ _ _ W)) as [W' P].
    split; [exact W'|]. rewrite P. rewrite (insert_stored idx (npos v) i). symmetry. apply Permutation_middle.
  - apply (IH src (Datatypes.S i) idx ltac:(cbn in Hl; lia) Hm' ys Hy' W).
Qed.

Lemma wf_keys (l : list (entry nat)) : wf l <-> keysSorted l.
Proof.
  split.
  - intros [A K]. split; [exact K|]. clear K. induction A as [|h t H A IH]; intros i j e1 e2 Lt E1 E2; [destruct i; discriminate|].
    destruct j as [|j]; [lia|]. cbn in E2. destruct i as [|i]; cbn in E1; [injection E1 as <-; apply H; eapply nth_error_In; exact E2|]. apply (IH i j e1 e2); [lia | exact E1 | exact E2].
  - intros [K H]. split; [|exact K]. clear K. induction l as [|h t IH]; constructor.
    + intros e He. destruct (In_nth_error _ _ He) as (j & Ej). apply (H 0%nat (Datatypes.S j)); [lia | reflexivity | exact Ej].
    + apply IH. intros i j e1 e2 Lt E1 E2. apply (H (Datatypes.S i) (Datatypes.S j)); [lia | exact E1 | exact E2].
Qed.

Lemma copyInto_same a : copyInto a (repeat 0 (length a)) = Ok a.
Proof. unfold copyInto. rewrite repeat_length, Nat.leb_refl. rewrite skipn_all2 by (rewrite repeat_length; lia). rewrite app_nil_r. reflexivity. Qed.

Lemma tab_len {A} h (f : nat -> A -> obj -> Prop) tab vs : tableHolds h f tab vs -> length tab = length vs.
Proof. intros [L _]. exact L. Qed.
Lemma tab_alive {A} h (f : nat -> A -> obj -> Prop) tab vs p : tableHolds h f tab vs -> In (Some p) tab -> exists i v x, nth_error tab i = Some (Some p) /\ nth_error vs i = Some (Some v) /\ hat h p = Some x /\ f i v x.
Proof.
  intros [_ H] Hp. destruct (In_nth_error _ _ Hp) as (i & Ei). specialize (H i). rewrite Ei in H. destruct (nth_error vs i) as [[v|]|] eqn:Ev; try contradiction. destruct H as (x & X & F). exists i, v, x. auto.
Qed.

(** ** The copy constructor *)
Lemma deref_ok h l x : hat h l = Some x -> deref h l = Ok x.
Proof. unfold deref. intros ->. reflexivity. Qed.

Section Copy.
Variables (h : heap) (o : loc) (st : lmap).
Hypothesis R : represents h o st.
Definition nd := mkNode (0, 0) 0.
Definition ed := mkEdge 0 0 None None [] 0%N.
Definition fd := mkFace [] None 0%N.

Theorem copy_works : exists h' n, copyMap h o = Ok (h', n) /\ extends h h' /\ (hnext h <= n)%nat /\ represents h' n (copyOf st) /\
  (forall mo, hat h' n = Some (OMap mo) -> forall l, In l (refs (OMap mo)) -> (hnext h <= l)%nat).
Proof.
  destruct R as [OK (mo & a & ai & Ho & Ha & Va & Ia & Hi & Vi & Ii & Tn & Te & Tf & Cn & Ix & Sz & Im & Lu & So & Ex)].
  unfold copyMap. rewrite (deref_ok _ _ _ Ho). cbn [bind asMap]. rewrite (deref_ok _ _ _ Ha), (deref_ok _ _ _ Hi). cbn [bind asArr].
  set (r1 := alloc h (OArr (repeat 0 (length a)))). set (r2 := alloc (fst r1) (OArr (repeat 0 (length ai)))).
  set (s1 := snd r1). set (s2 := snd r2). match goal with |- context [alloc (fst r2) (OMap ?m)] => set (mo1 := m) end. set (r3 := alloc (fst r2) (OMap mo1)). set (n := snd r3). cbv zeta.
  assert (S1 : s1 = hnext h) by reflexivity. assert (S2 : s2 = Datatypes.S (hnext h)) by reflexivity. assert (S3 : n = Datatypes.S (Datatypes.S (hnext h))) by reflexivity.
  assert (N3 : hnext (fst r3) = Datatypes.S n) by reflexivity.
  assert (E3 : extends h (fst r3)).
  { eapply extends_trans; [apply alloc_extends|]. eapply extends_trans; apply alloc_extends. }
  destruct (copyTable_ok (dupNode n) noteNode _ (fun i v => ONode n i v) nd h (fst r3) (mnodes mo) (nodes (lg st)) [] OK E3 Tn) as (h4 & tn & En & X4 & Tn' & Bn); [intros i v x ->; reflexivity|]. rewrite En. cbn [bind fst snd].
  assert (E4 : extends h h4) by (exact (extends_trans _ _ _ E3 X4)).
  destruct (copyTable_ok (dupEdge n) (fun _ u => u) _ (fun i v => OEdge n i v None) ed h h4 (medges mo) (edges (lg st)) tt OK E4 Te) as (h5 & te & Ee & X5 & Te' & Be); [intros i v x ->; reflexivity|]. rewrite Ee. cbn [bind fst snd].
  rewrite !copyInto_same. cbn [bind].
  assert (L4 : (hnext (fst r3) <= hnext h4)%nat) by apply X4. assert (L5 : (hnext h4 <= hnext h5)%nat) by apply X5.
  set (h6 := store (store h5 s1 (OArr a)) s2 (OArr ai)).
  assert (E6 : extends h h6).
  { unfold h6. apply store_extends; [apply store_extends; [exact (extends_trans _ _ _ E4 X5) | lia | lia] | lia | cbn [hnext store]; lia]. }
  assert (N6 : hnext h6 = hnext h5) by reflexivity.
  assert (Q : exists h7 tf im, copyFaces h6 mo n = Ok (h7, tf, im, llut (copyOf st)) /\ extends h h7 /\ (hnext h5 <= hnext h7)%nat /\ (forall l, (l < hnext h5)%nat -> hat h7 l = hat h6 l) /\
    tableHolds h7 (fun i v x => x = OFace n i (map (pair n) (fanchors v)) (fflags v) (farea v) (larea st i)) tf (faces (lg st)) /\ (forall p, In (Some p) tf -> (hnext h5 <= p < hnext h7)%nat) /\
    match im, lim (copyOf st) with Some p, Some i => hat h7 p = Some (OImage i) /\ (hnext h5 <= p < hnext h7)%nat | None, None => True | _, _ => False end).
  { unfold copyFaces. pose proof (tab_len _ _ _ _ Tf) as Lf. unfold copyOf. cbn [lim llut]. destruct (mfaces mo) as [|f0 ft] eqn:Ef.
    - cbn in Lf. rewrite <- Lf. cbn [Nat.eqb isLive]. exists h6, [], None. split; [reflexivity|]. split; [exact E6|]. split; [lia|]. split; [reflexivity|]. split; [|split; [intros p [] | exact I]].
      destruct (faces (lg st)); [|discriminate]. split; [reflexivity|]. intros [|i]; exact I.
    - rewrite <- Ef in *. destruct (Nat.eqb_spec (length (faces (lg st))) 0) as [Z0|Nz]; [rewrite Ef in Lf; cbn in Lf; lia|].
      destruct (copyTable_ok (dupFace n) (fun _ u => u) _ (fun i v => OFace n i (map (pair n) (fanchors v)) (fflags v) (farea v) (larea st i)) fd h h6 (mfaces mo) (faces (lg st)) tt OK E6 Tf) as (h7 & tf & Eq & X7 & Tf' & Bf).
      { intros i v x ->. cbn [dupFace]. rewrite map_map. reflexivity. }
      rewrite Eq. cbn [bind fst snd]. assert (K7 : forall l, (l < hnext h5)%nat -> hat h7 l = hat h6 l) by (intros l Hl; apply X7; rewrite N6; exact Hl). assert (L7 : (hnext h5 <= hnext h7)%nat) by (rewrite <- N6; apply X7).
      rewrite N6 in Bf. destruct (mimg mo) as [p|], (lim st) as [img|]; try contradiction; cbn [isLive].
      + assert (Lp : (p < hnext h)%nat) by (apply heapOK_lt; [exact OK | congruence]).
        assert (Hp : hat h7 p = Some (OImage img)) by (rewrite (proj1 (proj2 (extends_trans _ _ _ E6 X7)) p Lp); exact Im). rewrite (deref_ok _ _ _ Hp). cbn [bind]. rewrite Lu.
        pose proof (alloc_extends h7 (OImage img)) as X8. set (r := alloc h7 (OImage img)) in *. exists (fst r), tf, (Some (snd r)). split; [reflexivity|].
        split; [exact (extends_trans _ _ _ (extends_trans _ _ _ E6 X7) X8)|]. assert (N8 : hnext (fst r) = Datatypes.S (hnext h7)) by reflexivity. split; [lia|].
        split; [intros l Hl; rewrite (proj1 (proj2 X8)) by lia; apply K7, Hl|]. split; [|split].
        * apply (tableHolds_ext h7); [|exact Tf']. intros q Hq. apply X8, (Bf q Hq).
        * intros q Hq. specialize (Bf q Hq). lia.
        * split; [apply alloc_at | cbn [snd r alloc]; lia].
      + exists h7, tf, None. split; [reflexivity|]. split; [exact (extends_trans _ _ _ E6 X7)|]. repeat (split; [assumption|]). exact I. }
  destruct Q as (h7 & tf & im & Eq & E7 & L7 & K7 & Tf' & Bf & Im'). rewrite Eq. cbn [bind fst snd].
  match goal with |- context [OMap ?m] => set (mo2 := m) end. set (h8 := store h7 n (OMap mo2)). exists h8, n. split; [reflexivity|].
  assert (E8 : extends h h8) by (apply store_extends; [exact E7 | lia | lia]). split; [exact E8|]. split; [lia|].
  assert (K8 : forall l, l <> n -> hat h8 l = hat h7 l) by (intros l Hl; unfold h8; rewrite store_at; destruct (Nat.eqb_spec l n); [contradiction | reflexivity]).
  assert (Kn : forall p, In (Some p) tn -> hat h8 p = hat h4 p).
  { intros p Hp. specialize (Bn p Hp). rewrite K8 by lia. rewrite K7 by lia. unfold h6. rewrite !store_at. destruct (Nat.eqb_spec p s2); [lia|]. destruct (Nat.eqb_spec p s1); [lia|]. apply X5. lia. }
  assert (Ke : forall p, In (Some p) te -> hat h8 p = hat h5 p).
  { intros p Hp. specialize (Be p Hp). rewrite K8 by lia. rewrite K7 by lia. unfold h6. rewrite !store_at. destruct (Nat.eqb_spec p s2); [lia|]. destruct (Nat.eqb_spec p s1); [lia|]. reflexivity. }
  assert (Hn : hat h8 n = Some (OMap mo2)) by (unfold h8; rewrite store_at, Nat.eqb_refl; reflexivity).
  split.
  - constructor; [apply E8, OK|]. exists mo2, a, ai. split; [exact Hn|]. unfold mo2. cbn [msArr msiArr msIt msiIt mnodes medges mfaces mnc mec mfc midx msize mimg mlut msorted mextra mo1]. unfold copyOf at 1 2 3 4 5 6 7 8 9 10 11 12. cbn [lg lsize larea lsc].
    split. { rewrite K8 by lia. rewrite K7 by lia. unfold h6. rewrite !store_at. destruct (Nat.eqb_spec s1 s2); [lia|]. rewrite Nat.eqb_refl. reflexivity. } split; [exact Va|]. split; [reflexivity|].
    split. { rewrite K8 by lia. rewrite K7 by lia. unfold h6. rewrite !store_at. rewrite Nat.eqb_refl. reflexivity. } split; [exact Vi|]. split; [reflexivity|].
    split; [exact (tableHolds_ext _ _ _ _ _ Kn Tn')|]. split; [exact (tableHolds_ext _ _ _ _ _ Ke Te')|].
    split; [refine (tableHolds_ext _ _ _ _ _ _ Tf'); intros p Hp; apply K8; specialize (Bf p Hp); lia|]. split; [exact Cn|].
    split. { pose proof Tn as (Ln & Mn). match goal with |- context [fold_left _ (liveObjs ?y 0 _) _] => destruct (index_filled n (nodes (lg st)) (mnodes mo) 0%nat [] Ln) with (ys := y) as [W P] end.
      - intros j. specialize (Mn j). destruct (nth_error (mnodes mo) j) as [[q|]|], (nth_error (nodes (lg st)) j) as [[v|]|]; auto.
      - intros j v Hv. cbn [Nat.add]. rewrite Hv. reflexivity.
      - split; [constructor | intros e []].
      - split; [rewrite app_nil_r in P; exact P | apply wf_keys, W]. }
    split; [exact Sz|]. split; [|split; [reflexivity|]; split; [exact So | intros l []]].
    destruct im as [p|], (lim (copyOf st)) as [img|]; auto. destruct Im' as [I1 I2]. rewrite K8 by lia. exact I1.
  - intros mo' Hm l Hl. assert (mo' = mo2) by congruence. subst mo'. unfold mo2 in Hl. cbn [refs msArr msiArr msIt msiIt mnodes medges mfaces mimg mextra mo1 fst] in Hl. rewrite app_nil_r in Hl.
    destruct Hl as [<-|[<-|[<-|[<-|Hl]]]]; try lia. apply in_concat in Hl. destruct Hl as (xs & Hx & Hl). apply in_map_iff in Hx. destruct Hx as (q & <- & Hq). destruct q as [q|]; [|destruct Hl]. destruct Hl as [->|[]].
    rewrite !in_app_iff in Hq. destruct Hq as [Hq|[Hq|[Hq|[Hq|[]]]]]; [specialize (Bn l Hq) | specialize (Be l Hq) | specialize (Bf l Hq) | subst im; destruct (lim (copyOf st)); [|contradiction]]; lia.
Qed.
End Copy.
