(** Proofs about the constructor of the pixel based map. *)
From Verif Require Import Base CellMap_Model CellMap_Spec CellMap_Scan CellMap_Proofs CellMap_Main CellMap_Init.
Local Open Scope Z_scope.

(** ** Loops *)

Lemma forEach_inv {A S} (f : S -> A -> res S) (I : list A -> S -> Prop) (l : list A) :
  (forall done a rest s s', l = done ++ a :: rest -> I done s -> f s a = Ok s' -> I (done ++ [a]) s') ->
  forall s s', I [] s -> forEach f l s = Ok s' -> I l s'.
Proof.
  intros Hs. assert (forall t done s s', l = done ++ t -> I done s -> forEach f t s = Ok s' -> I l s') as K.
  { induction t as [|a t IH]; intros done s s' E Hi H; cbn in H.
    - injection H as <-. rewrite app_nil_r in E. subst done. exact Hi.
    - bnd H s1 E1. apply (IH (done ++ [a]) s1 s'); [rewrite <- app_assoc; exact E | exact (Hs done a t s s1 E Hi E1) | exact H]. }
  intros s s' Hi H. exact (K l [] s s' eq_refl Hi H).
Qed.

Lemma upFrom_in a b x : In x (upFrom a b) <-> a <= x < b.
Proof.
  unfold upFrom. rewrite in_map_iff. split.
  - intros (i & <- & H). apply in_seq in H. lia.
  - intros H. exists (Z.to_nat (x - a)). split; [lia|]. apply in_seq. lia.
Qed.
Lemma upFrom_NoDup a b : NoDup (upFrom a b).
Proof. unfold upFrom. apply FinFun.Injective_map_NoDup; [intros i j H; lia | apply seq_NoDup]. Qed.
Lemma rectPoints_in r x y : In (x, y) (rectPoints r) <-> inRect r x y.
Proof.
  unfold rectPoints, inRect. rewrite in_flat_map. split.
  - intros (y' & Hy & H). apply in_map_iff in H. destruct H as (x' & [= -> ->] & Hx). apply upFrom_in in Hx, Hy. auto.
  - intros [Hx Hy]. exists y. split; [apply upFrom_in; exact Hy|]. apply in_map_iff. exists x. split; [reflexivity|]. apply upFrom_in. exact Hx.
Qed.
Lemma rectPoints_NoDup r : NoDup (rectPoints r).
Proof.
  unfold rectPoints. generalize (upFrom_NoDup (ry0 r) (ry1 r)). generalize (upFrom (ry0 r) (ry1 r)) as ys.
  induction ys as [|y ys IH]; intros H; cbn; [constructor|]. apply NoDup_cons_iff in H. destruct H as [N H]. apply NoDup_app_intro.
  - apply FinFun.Injective_map_NoDup; [intros a b [= K]; exact K | apply upFrom_NoDup].
  - apply IH; exact H.
  - intros p Hp Hq. apply in_map_iff in Hp. destruct Hp as (x & <- & _). apply in_flat_map in Hq. destruct Hq as (y' & Hy & Hq).
    apply in_map_iff in Hq. destruct Hq as (x' & [= _ ->] & _). exact (N Hy).
Qed.
Lemma NoDup_middle {A} (done rest : list A) a : NoDup (done ++ a :: rest) -> ~ In a done.
Proof. intros H K. apply NoDup_remove_2 in H. apply H, in_or_app. left. exact K. Qed.

(** ** Tallies *)

Definition tally (P : Z -> Z -> Prop) (c : cinfo) : Prop :=
  manyPixels P (csize c) /\ ((cbounds c = emptyRect /\ forall x y, ~ P x y) \/ exactRect P (cbounds c)).
Definition seen (im : img) (done : list (Z * Z)) (t : ctype) (l x y : Z) : Prop := In (x, y) done /\ owns im t l x y.

Lemma tally_ext (P Q : Z -> Z -> Prop) c : (forall x y, P x y <-> Q x y) -> tally P c -> tally Q c.
Proof.
  intros H [A B]. split; [exact (manyPixels_ext _ _ _ H A)|]. destruct B as [[E N]|B]; [left | right; exact (exactRect_ext _ _ _ H B)].
  split; [exact E|]. intros x y K. apply (N x y), H, K.
Qed.

Lemma one_exact x y : exactRect (fun a b => (a, b) = (x, y)) (Rect x y (x + 1) (y + 1)).
Proof.
  split; [intros a b [= -> ->]; unfold inRect; cbn; lia|]. cbn.
  split; [exists y; reflexivity|]. split; [exists y; f_equal; lia|]. split; [exists x; reflexivity | exists x; f_equal; lia].
Qed.
Lemma one_many x y : manyPixels (fun a b => (a, b) = (x, y)) 1.
Proof. exists [(x, y)]. split; [constructor; [easy | constructor]|]. split; [|reflexivity]. intros a b. cbn. split; [intros [H|[]]; auto | auto]. Qed.

Lemma tally_add P c x y l : tally P c -> ~ P x y -> csize c + 1 < 2 ^ 32 -> tally (fun a b => P a b \/ (a, b) = (x, y)) (addPixel x y (CInfo l (cbounds c) (csize c))).
Proof.
  intros [A B] N S. assert (0 <= csize c) by (destruct A as (ps & _ & _ & <-); lia). split; cbn.
  - rewrite Z.mod_small by lia. apply manyPixels_or; [|exact A | apply one_many]. intros a b Hp [= -> ->]. exact (N Hp).
  - right. destruct B as [[E K]|B].
    + rewrite E. cbn. assert (rectOrPoint emptyRect x y = Rect x y (x + 1) (y + 1)) as ->.
      { unfold rectOrPoint, rectOr. rewrite rectEmpty_false by (cbn; lia). reflexivity. }
      refine (exactRect_ext _ _ _ _ (one_exact x y)). intros a b. split; [auto | intros [Hp|Hp]; [destruct (K a b Hp) | exact Hp]].
    + apply exactRect_or; [exact B | apply one_exact].
Qed.

Lemma seen_add im done t l p : forall x y, seen im (done ++ [p]) t l x y <-> seen im done t l x y \/ ((x, y) = p /\ owns im t l x y).
Proof.
  intros x y. unfold seen. rewrite in_app_iff. cbn. split.
  - intros [[H|[H|[]]] O]; [left; auto | right; auto].
  - intros [[H O]|[H O]]; auto.
Qed.

(** the information about the cells of one type after the pixels [done] have been looked at *)
Definition phaseCell (im : img) (done : list (Z * Z)) (t : ctype) (l : nat) (c : cinfo) : Prop :=
  (initialized c = true -> clabel c = Z.of_nat l) /\
  (t = Region /\ l = 0%nat -> initialized c = true /\ cbounds c = Rect 0 0 (iw im) (ih im)) /\
  (~ (t = Region /\ l = 0%nat) -> tally (seen im done t (Z.of_nat l)) c /\ (initialized c = true -> exists x y, owns im t (Z.of_nat l) x y)).
Definition phase (im : img) (done : list (Z * Z)) (t : ctype) (cells : list cinfo) : Prop :=
  (forall l c, nth_error cells l = Some c -> phaseCell im done t l c) /\
  (t <> Line -> forall l x y, seen im done t l x y -> exists c, nth_error cells (Z.to_nat l) = Some c /\ initialized c = true).

Lemma seen_size im done t l n : wfImg im -> manyPixels (seen im done t l) n -> n < 2 ^ 31.
Proof.
  intros (A & B & C & _) H. apply (manyPixels_le _ (iw im) (ih im)) in H; [lia | lia | lia|]. intros x y [_ (K & L & _)]. auto.
Qed.

Lemma phase_skip im done t cells p : (forall l, ~ owns im t l (fst p) (snd p)) -> phase im done t cells -> phase im (done ++ [p]) t cells.
Proof.
  intros N [A B]. assert (forall l x y, seen im done t l x y <-> seen im (done ++ [p]) t l x y) as E.
  { intros l x y. rewrite seen_add. split; [auto|]. intros [H|[<- H]]; [exact H | destruct (N l H)]. }
  split.
  - intros l c H. destruct (A l c H) as (A1 & A2 & A3). split; [exact A1|]. split; [exact A2|]. intros Z0. destruct (A3 Z0) as [A4 A5].
    split; [apply (tally_ext _ _ _ (E (Z.of_nat l)) A4) | exact A5].
  - intros Ht l x y H. apply E in H. exact (B Ht l x y H).
Qed.

Lemma rectOr_inside w h x y : 0 <= x < w -> 0 <= y < h -> rectOrPoint (Rect 0 0 w h) x y = Rect 0 0 w h.
Proof.
  intros H K. unfold rectOrPoint, rectOr. rewrite !rectEmpty_false by (cbn; lia). cbn. f_equal; lia.
Qed.

Lemma phase_count im done t cells x y l c lab : wfImg im -> ~ In (x, y) done -> owns im t (Z.of_nat l) x y ->
  phase im done t cells -> nth_error cells l = Some c -> lab <> maxLabel \/ t = Line -> lab = Z.of_nat l \/ (t = Line /\ lab = clabel c) ->
  phase im (done ++ [(x, y)]) t (list_upd cells l (addPixel x y (CInfo lab (cbounds c) (csize c)))).
Proof.
  intros W N O [A B] Hc Hlab Hl.
  assert (l < length cells)%nat as LT by (apply nth_error_lt in Hc; exact Hc).
  split.
  - intros k d Hd. rewrite nth_error_upd in Hd. destruct (Nat.eqb_spec l k) as [<-|Nk].
    + destruct (l <? length cells)%nat; [|discriminate]. injection Hd as <-. destruct (A l c Hc) as (A1 & A2 & A3).
      assert (initialized (addPixel x y (CInfo lab (cbounds c) (csize c))) = initialized (CInfo lab (cbounds c) (csize c))) as EI by reflexivity.
      split; [|split].
      * intros I. cbn. destruct Hl as [->|[_ ->]]; [reflexivity|]. apply A1. exact I.
      * intros Z0. destruct (A2 Z0) as [I R]. split.
        -- apply initialized_iff. cbn. destruct Z0 as [-> _]. destruct Hlab as [H|H]; [exact H | discriminate H].
        -- cbn. rewrite R. destruct O as (O1 & O2 & _). apply rectOr_inside; assumption.
      * intros Z0. destruct (A3 Z0) as [T I]. split; [|intros _; exists x, y; exact O].
        assert (~ seen im done t (Z.of_nat l) x y) as NS by (intros [S _]; exact (N S)).
        apply (tally_ext (fun a b => seen im done t (Z.of_nat l) a b \/ (a, b) = (x, y))).
        -- intros a b. rewrite seen_add. split; [intros [H|[= -> ->]]; auto | intros [H|[H _]]; auto].
        -- apply tally_add; [exact T | exact NS|]. destruct T as [T _]. apply (seen_size _ _ _ _ _ W) in T. lia.
    + destruct (A k d Hd) as (A1 & A2 & A3). split; [exact A1|]. split; [exact A2|]. intros Z0. destruct (A3 Z0) as [T I]. split; [|exact I].
      apply (tally_ext (seen im done t (Z.of_nat k))); [|exact T]. intros a b. rewrite seen_add. split; [auto|]. intros [H|[[= -> ->] H]]; [exact H|].
      destruct O as (_ & _ & O). destruct H as (_ & _ & H). rewrite O in H. injection H as H. lia.
  - intros Ht k a b H. apply seen_add in H. destruct (Nat.eq_dec (Z.to_nat k) l) as [<-|Nk].
    + eexists. split; [apply nth_error_upd_eq; exact LT|]. apply initialized_iff. cbn. destruct Hlab as [H0|H0]; [exact H0 | contradiction].
    + destruct H as [H|[[= -> ->] H]].
      * destruct (B Ht k a b H) as (d & Hd & I). exists d. split; [|exact I]. rewrite nth_error_upd_neq by auto. exact Hd.
      * exfalso. destruct O as (_ & _ & O). destruct H as (_ & _ & H). rewrite O in H. injection H as H. lia.
Qed.

(** ** The maxima *)

Lemma maxLabelOf_small im t : wfImg im -> 0 <= maxLabelOf im t < 2 ^ 30.
Proof.
  intros (_ & _ & _ & W). unfold maxLabelOf.
  assert (forall ps a, (forall x y, In (x, y) ps -> 0 <= x < iw im /\ 0 <= y < ih im) -> 0 <= a < 2 ^ 30 ->
    0 <= fold_left (fun a p => let c := ipix im (fst p) (snd p) in if ctypeEqb (ptype c) t then Z.max a (plabel c) else a) ps a < 2 ^ 30) as K.
  { induction ps as [|[x y] ps IH]; intros a H Ha; [exact Ha|]. cbn [fold_left]. apply IH; [intros u v Hu; apply H; right; exact Hu|].
    cbn. destruct (ctypeEqb _ _); [|exact Ha]. destruct (H x y (or_introl eq_refl)) as [Hx Hy]. specialize (W x y Hx Hy). lia. }
  apply K; [|lia]. intros x y H. apply rectPoints_in in H. unfold inRect in H; cbn in H. lia.
Qed.

(** ** The books while the lists are built: lengths, and the counters *)
Definition counted (m : cmap) : Prop := forall t, t <> ErrorType -> countOf m t = Z.of_nat (length (filter initialized (cellsOf m t))).
Definition short (m : cmap) : Prop := forall t, Z.of_nat (length (cellsOf m t)) <= 2 ^ 30.

(** one cell is changed, and the counter if it is a new one *)
Definition stepped (m m' : cmap) (t : ctype) (l : nat) (c c' : cinfo) : Prop :=
  cim m' = cim m /\ nth_error (cellsOf m t) l = Some c /\
  (forall u, cellsOf m' u = if ctypeEqb u t then list_upd (cellsOf m u) l c' else cellsOf m u) /\
  (forall u, countOf m' u = if ctypeEqb u t && negb (initialized c) && initialized c' then (countOf m u + 1) mod 2 ^ 32 else countOf m u).

Lemma filter_le {A} (f : A -> bool) l : (length (filter f l) <= length l)%nat.
Proof. induction l as [|a l IH]; cbn; [lia|]. destruct (f a); cbn; lia. Qed.

Lemma stepped_counted m m' t l c c' : stepped m m' t l c c' -> short m -> (initialized c = true -> initialized c' = true) -> counted m -> counted m' /\ short m'.
Proof.
  intros (_ & H & HC & HN) S I C. split.
  - intros u Hu. rewrite HC, HN. specialize (C u Hu). destruct (ctypeEqb_spec u t) as [->|]; cbn; [|exact C].
    pose proof (filter_upd_length _ _ _ c' H) as F. pose proof (filter_le initialized (cellsOf m t)) as L. specialize (S t).
    destruct (initialized c) eqn:Ec; cbn.
    + rewrite (I eq_refl) in F. lia.
    + destruct (initialized c'); [rewrite Z.mod_small; lia | lia].
  - intros u. rewrite HC. destruct (ctypeEqb u t); rewrite ?list_upd_length; apply S.
Qed.

Lemma changed_stepped m m' t l c c' : changed m m' t l c' -> nth_error (cellsOf m t) l = Some c -> initialized c' = initialized c -> stepped m m' t l c c'.
Proof.
  intros (A & B & C) H I. split; [exact A|]. split; [exact H|]. split; [exact B|]. intros u. rewrite C, I.
  destruct (ctypeEqb u t), (initialized c); reflexivity.
Qed.

Lemma list_upd_again {A} (v : list A) i a b : list_upd (list_upd v i a) i b = list_upd v i b.
Proof. revert i. induction v as [|h t IH]; intros [|i]; cbn; auto. f_equal. apply IH. Qed.

(** a change and then another one of the same cell *)
Lemma stepped_then m m1 m2 t l c c1 c2 : stepped m m1 t l c c1 -> changed m1 m2 t l c2 -> initialized c2 = initialized c1 -> stepped m m2 t l c c2.
Proof.
  intros (A & B & C & D) (E & F & G) I. split; [congruence|]. split; [exact B|]. split.
  - intros u. rewrite F, C. destruct (ctypeEqb u t); [apply list_upd_again | reflexivity].
  - intros u. rewrite G, D, I. reflexivity.
Qed.
Lemma stepped_same m m1 m2 t l c c1 : stepped m m1 t l c c1 -> sameCells m1 m2 -> stepped m m2 t l c c1.
Proof. intros (A & B & C & D) (E & F & G). split; [congruence|]. split; [exact B|]. split; intros u; [rewrite F; apply C | rewrite G; apply D]. Qed.
Lemma same_stepped m m1 m2 t l c c1 : sameCells m m1 -> stepped m1 m2 t l c c1 -> stepped m m2 t l c c1.
Proof. intros (E & F & G) (A & B & C & D). split; [congruence|]. rewrite F in B. split; [exact B|]. split; intros u; [rewrite C, F; reflexivity | rewrite D, G; reflexivity]. Qed.

Lemma stepped_nth m m' t l c c' : stepped m m' t l c c' -> nth_error (cellsOf m' t) l = Some c'.
Proof. intros (_ & H & C & _). rewrite C, ctypeEqb_refl. apply nth_error_upd_eq. apply nth_error_lt in H. exact H. Qed.

Lemma count_range m t : counted m -> short m -> 0 <= countOf m t < 2 ^ 32.
Proof.
  intros C S. destruct (ctype_dec t ErrorType) as [->|N]; [cbn; lia|]. rewrite (C t N). specialize (S t). pose proof (filter_le initialized (cellsOf m t)). lia.
Qed.

Section Proofs.
Variable crackArea : img -> Z -> Z -> Z.
Variable outerRegions : img -> Z -> Z -> list Z.
Variable components : img -> (Z -> Z -> Z) * nat.

Lemma node_step m areas x y st' : wfImg (cim m) -> short m -> counted m -> initNodePix crackArea (m, areas) (x, y) = Ok st' ->
  (fst st' = m /\ forall l, ~ owns (cim m) Vertex l x y) \/
  exists (l : nat) c, owns (cim m) Vertex (Z.of_nat l) x y /\
    stepped m (fst st') Vertex l c (addPixel x y (CInfo (if initialized c then clabel c else Z.of_nat l) (cbounds c) (csize c))).
Proof.
  intros W SH CT H. unfold initNodePix in H. cbn [fst snd] in H. bnd H p Ep. apply readPix_Ok in Ep. destruct Ep as [[Ix Iy] ->].
  destruct (ctypeEqb_spec (ptype (ipix (cim m) x y)) Vertex) as [Et|Et]; cbn [negb] in H.
  2: { injection H as <-. left. split; [reflexivity|]. intros l (_ & _ & O). rewrite O in Et. apply Et. reflexivity. }
  right. set (l := plabel (ipix (cim m) x y)) in *. destruct (l <? Z.of_nat (length (cnodes m))) eqn:Lt; cbn [negb] in H; [|discriminate].
  bnd H n En. pose proof (cells_node _ _ _ En) as [L0 Hn].
  assert (owns (cim m) Vertex (Z.of_nat (Z.to_nat l)) x y) as O.
  { rewrite Z2Nat.id by exact L0. split; [exact Ix|]. split; [exact Iy|]. unfold l. rewrite <- Et. destruct (ipix (cim m) x y); reflexivity. }
  exists (Z.to_nat l), (ninf n). split; [exact O|]. bnd H st1 E1. bnd H m2 E2. injection H as <-. cbn [fst].
  destruct (initialized (ninf n)) eqn:I.
  - injection E1 as <-. cbn [fst] in E2. pose proof (node_info _ _ _ _ _ E2 Hn) as CH. apply changed_stepped; [|exact Hn|exact (eq_sym I) || reflexivity].
    destruct (ninf n) as [cl cb cs]; cbn in *; exact CH.
  - bnd E1 a Ea. bnd E1 s Es. bnd E1 deg Ed. bnd E1 m1 Em. bnd E1 ar Ear. injection E1 as <-. cbn [fst] in E2.
    apply updNode_changed in Em. destruct Em as (n' & En' & Em). rewrite En in En'. injection En' as <-. cbn [ninf] in Em.
    set (c1 := CInfo l (cbounds (ninf n)) (csize (ninf n))) in *.
    assert (l <> maxLabel) as NL. { specialize (SH Vertex). apply nth_error_lt in Hn. unfold maxLabel. lia. }
    assert (stepped m (addCounts m1 1 0 0) Vertex (Z.to_nat l) (ninf n) c1) as S1.
    { destruct Em as (A & B & C). split; [exact A|]. split; [exact Hn|]. split; [intros u; rewrite addCounts_cells; apply B|].
      intros u. rewrite I. assert (initialized c1 = true) as -> by (apply initialized_iff; exact NL).
      destruct u; cbn; [specialize (C Region) | specialize (C Line) | specialize (C Vertex) | reflexivity]; cbn in C; rewrite C; try reflexivity;
        rewrite Z.add_0_r; apply Z.mod_small; [apply (count_range m Region) | apply (count_range m Line)]; assumption. }
    rewrite Z2Nat.id by exact L0.
    pose proof (node_info _ _ _ _ _ E2 (stepped_nth _ _ _ _ _ _ S1)) as CH. refine (stepped_then _ _ _ _ _ _ _ _ S1 CH _). reflexivity.
Qed.

Lemma nodes_loop m0 areas st : wfImg (cim m0) -> short m0 -> counted m0 -> phase (cim m0) [] Vertex (cellsOf m0 Vertex) ->
  forEach (initNodePix crackArea) (innerPoints (cim m0)) (m0, areas) = Ok st ->
  cim (fst st) = cim m0 /\ phase (cim m0) (innerPoints (cim m0)) Vertex (cellsOf (fst st) Vertex) /\ counted (fst st) /\ short (fst st) /\
  forall u, u <> Vertex -> cellsOf (fst st) u = cellsOf m0 u.
Proof.
  intros W SH CT PH H.
  refine (forEach_inv (initNodePix crackArea) (fun done s => cim (fst s) = cim m0 /\ phase (cim m0) done Vertex (cellsOf (fst s) Vertex) /\
    counted (fst s) /\ short (fst s) /\ forall u, u <> Vertex -> cellsOf (fst s) u = cellsOf m0 u) _ _ _ _ _ H); [|cbn; auto].
  intros done [x y] rest [m a] st' El (A & B & C & D & E) Hs. cbn [fst] in *.
  assert (~ In (x, y) done) as N. { apply (NoDup_middle done rest). rewrite <- El. apply rectPoints_NoDup. }
  destruct (node_step m a x y st') as [[-> No]|(l & c & O & ST)]; [rewrite A; exact W | exact D | exact C | exact Hs | |].
  - split; [exact A|]. split; [|auto]. rewrite A in No. apply phase_skip; [exact No | exact B].
  - rewrite A in O. pose proof ST as (A1 & A2 & A3 & A4). destruct (proj1 B l c A2) as (P1 & _).
    assert ((if initialized c then clabel c else Z.of_nat l) = Z.of_nat l) as EL by (destruct (initialized c); auto).
    rewrite EL in *.
    assert (Z.of_nat l <> maxLabel) as NL by (specialize (D Vertex); apply nth_error_lt in A2; unfold maxLabel; lia).
    split; [congruence|]. split; [|].
    + rewrite A3, ctypeEqb_refl. apply phase_count; auto.
    + destruct (stepped_counted _ _ _ _ _ _ ST D) as [K1 K2]; [|exact C|].
      * intros _. apply initialized_iff. cbn. exact NL.
      * split; [exact K1|]. split; [exact K2|]. intros u Hu. rewrite A3. destruct (ctypeEqb_spec u Vertex); [contradiction | apply E; exact Hu].
Qed.

(** at the end every pixel but those of the frame has been seen *)
Lemma seen_all im t l : framed im -> ~ (t = Region /\ l = 0) -> forall x y, seen im (innerPoints im) t l x y <-> owns im t l x y.
Proof.
  intros F N x y. unfold seen. split; [tauto|]. intros O. split; [|exact O]. apply rectPoints_in. unfold inRect. cbn. destruct O as (A & B & C).
  destruct (Z.eq_dec x 0); [|destruct (Z.eq_dec x (iw im - 1)); [|destruct (Z.eq_dec y 0); [|destruct (Z.eq_dec y (ih im - 1)); [|lia]]]];
    (rewrite (F x y A B) in C by lia; injection C as <- <-; exfalso; apply N; auto).
Qed.

Definition exactCell (im : img) (t : ctype) (l : Z) (c : cinfo) : Prop :=
  clabel c = l /\ exactRect (owns im t l) (cbounds c) /\ manyPixels (owns im t l) (csize c).
Lemma phase_exact im t cells : framed im -> phase im (innerPoints im) t cells -> forall l c, nth_error cells l = Some c -> initialized c = true ->
  ~ (t = Region /\ l = 0%nat) -> exactCell im t (Z.of_nat l) c.
Proof.
  intros F [P _] l c H I N. destruct (P l c H) as (A & _ & B). destruct (B N) as [[T1 T2] X]. destruct (X I) as (x & y & O).
  assert (~ (t = Region /\ Z.of_nat l = 0)) as N' by (intros [? ?]; apply N; split; [assumption | lia]).
  pose proof (seen_all im t (Z.of_nat l) F N') as SA. split; [exact (A I)|]. split.
  - destruct T2 as [[_ T2]|T2]; [exfalso; apply (T2 x y), SA, O | exact (exactRect_ext _ _ _ SA T2)].
  - exact (manyPixels_ext _ _ _ SA T1).
Qed.
Lemma phase_cell im t cells : framed im -> phase im (innerPoints im) t cells -> t <> Line -> forall l x y, owns im t l x y -> ~ (t = Region /\ l = 0) ->
  exists c, nth_error cells (Z.to_nat l) = Some c /\ initialized c = true.
Proof. intros F [_ P] Ht l x y O N. apply (P Ht l x y), seen_all; auto. Qed.

(** ** Filling the holes of nodes *)

Definition filled (im im' : img) (r : rect) (hole node : pix) : Prop :=
  iw im' = iw im /\ ih im' = ih im /\ forall x y,
    (inRect r x y /\ ipix im x y = hole -> ipix im' x y = node) /\ (~ (inRect r x y /\ ipix im x y = hole) -> ipix im' x y = ipix im x y).

Lemma fillHole_spec im r hole node f : hole <> node -> fillHole im r hole node = Ok f ->
  filled im (fst f) r hole node /\ manyPixels (fun x y => inRect r x y /\ ipix im x y = hole) (snd f).
Proof.
  intros HN H. unfold fillHole in H.
  pose (I := fun (done : list (Z * Z)) (s : img * Z) => (iw (fst s) = iw im /\ ih (fst s) = ih im /\ forall x y,
     (In (x, y) done /\ ipix im x y = hole -> ipix (fst s) x y = node) /\ (~ (In (x, y) done /\ ipix im x y = hole) -> ipix (fst s) x y = ipix im x y)) /\
     manyPixels (fun x y => In (x, y) done /\ ipix im x y = hole) (snd s)).
  assert (I (rectPoints r) f) as K.
  { refine (forEach_inv (fillStep hole node) I _ _ _ _ _ H).
    - intros done [x y] rest [i n] s' El [(A & B & C) D] Hs. unfold fillStep in Hs. cbn [fst snd] in *. bnd Hs q Eq0. apply readPix_Ok in Eq0. destruct Eq0 as [[Ix Iy] ->].
      assert (~ In (x, y) done) as N. { apply (NoDup_middle done rest). rewrite <- El. apply rectPoints_NoDup. }
      assert (ipix i x y = ipix im x y) as Ei by (apply C; tauto).
      destruct (pixEqb (ipix i x y) hole) eqn:Eh.
      + apply pixEqb_eq in Eh. bnd Hs im' Ew. rewrite writePix_spec in Ew by assumption. injection Ew as <-. injection Hs as <-.
        split; cbn [fst snd iw ih ipix].
        * split; [exact A|]. split; [exact B|]. intros a b. destruct (Z.eqb_spec a x) as [->|Na]; [destruct (Z.eqb_spec b y) as [->|Nb]|]; cbn [andb].
          -- split; [auto|]. intros Hn. exfalso. apply Hn. split; [apply in_or_app; right; left; reflexivity | congruence].
          -- rewrite in_app_iff. cbn. destruct (C x b) as [C1 C2]. split; [intros [[H1|[H1|[]]] H2]; [auto | congruence] | intros Hn; apply C2; tauto].
          -- rewrite in_app_iff. cbn. destruct (C a b) as [C1 C2]. split; [intros [[H1|[H1|[]]] H2]; [auto | congruence] | intros Hn; apply C2; tauto].
        * apply (manyPixels_ext (fun a b => (In (a, b) done /\ ipix im a b = hole) \/ (a, b) = (x, y))).
          -- intros a b. rewrite in_app_iff. cbn. split; [intros [[H1 H2]|[= -> ->]]; [auto | split; [auto | congruence]]|].
             intros [[H1|[H1|[]]] H2]; [auto | right; symmetry; exact H1].
          -- apply manyPixels_or; [|exact D | apply one_many]. intros a b [H1 _] [= -> ->]. exact (N H1).
      + injection Hs as <-. assert (ipix im x y <> hole) as Nh by (intros Eh'; rewrite Ei, Eh' in Eh; assert (pixEqb hole hole = true) as Et by (apply pixEqb_eq; reflexivity); congruence).
        assert (forall a b, (In (a, b) done /\ ipix im a b = hole) <-> (In (a, b) (done ++ [(x, y)]) /\ ipix im a b = hole)) as EE.
        { intros a b. rewrite in_app_iff. cbn. split; [tauto|]. intros [[H1|[[= -> ->]|[]]] H2]; [auto | contradiction]. }
        split; cbn [fst snd]; [split; [exact A|]; split; [exact B|]; intros a b; rewrite <- EE; apply C | exact (manyPixels_ext _ _ _ EE D)].
    - split; cbn [fst snd]; [split; [reflexivity|]; split; [reflexivity|]; intros x y; cbn; tauto|]. exists []. split; [constructor|]. split; [intros x y; cbn; tauto | reflexivity]. }
  destruct K as [(A & B & C) D]. split.
  - split; [exact A|]. split; [exact B|]. intros x y. rewrite <- rectPoints_in. apply C.
  - refine (manyPixels_ext _ _ _ _ D). intros x y. rewrite rectPoints_in. reflexivity.
Qed.

(** what the filling does to the images: [l] is the node *)
Definition growing (im : img) (l : Z) (r : rect) (im' : img) (size : Z) : Prop :=
  wfImg im' /\ framed im' /\ iw im' = iw im /\ ih im' = ih im /\
  (forall k x y, k <> l -> owns im' Vertex k x y <-> owns im Vertex k x y) /\
  exactRect (owns im' Vertex l) r /\ manyPixels (owns im' Vertex l) size.

Lemma exactRect_inner im t l r : framed im -> ~ (t = Region /\ l = 0) -> exactRect (owns im t l) r ->
  1 <= rx0 r /\ rx1 r <= iw im - 1 /\ 1 <= ry0 r /\ ry1 r <= ih im - 1.
Proof.
  intros F N (_ & (b & B) & (c & C) & (d & D) & (e & E)). apply (seen_all im t l F N) in B, C, D, E.
  destruct B as [B _], C as [C _], D as [D _], E as [E _]. apply rectPoints_in in B, C, D, E. unfold inRect in *. cbn in *. lia.
Qed.

Lemma growing_fill im l r im1 size hl f : 0 <= l < 2 ^ 30 -> growing im l r im1 size -> fillHole im1 r (Pix Region hl) (Pix Vertex l) = Ok f ->
  growing im l r (fst f) ((size + snd f) mod 2 ^ 32).
Proof.
  intros Hl (W & F & A & B & C & D & E) H. apply fillHole_spec in H; [|congruence]. destruct H as [(Fw & Fh & Fp) Fn].
  assert (exactRect_in : 1 <= rx0 r /\ rx1 r <= iw im1 - 1 /\ 1 <= ry0 r /\ ry1 r <= ih im1 - 1) by (apply (exactRect_inner im1 Vertex l); [exact F | intros [? _]; discriminate | exact D]).
  assert (forall k x y, owns (fst f) Vertex k x y <-> owns im1 Vertex k x y \/ (k = l /\ inRect r x y /\ ipix im1 x y = Pix Region hl)) as O.
  { intros k x y. unfold owns. rewrite Fw, Fh. destruct (Fp x y) as [F1 F2]. split.
    - intros (Hx & Hy & Hp). destruct (pix_dec (ipix im1 x y) (Pix Region hl)) as [Eh|Eh].
      + assert (inRect r x y \/ ~ inRect r x y) as [I|I] by (unfold inRect; lia).
        * rewrite F1 in Hp by auto. injection Hp as ->. right. auto.
        * rewrite F2 in Hp by tauto. left. auto.
      + rewrite F2 in Hp by tauto. left. auto.
    - intros [(Hx & Hy & Hp)|(-> & I & Hp)].
      + split; [exact Hx|]. split; [exact Hy|]. rewrite F2; [exact Hp|]. rewrite Hp. intros [_ ?]; discriminate.
      + unfold inRect in I. split; [lia|]. split; [lia|]. apply F1. auto. }
  assert (W' : wfImg (fst f)).
  { destruct W as (W1 & W2 & W3 & W4). split; [lia|]. split; [lia|]. rewrite Fw, Fh. split; [exact W3|]. intros x y Hx Hy. destruct (Fp x y) as [F1 F2].
    destruct (pix_dec (ipix im1 x y) (Pix Region hl)) as [Eh|Eh]; [|rewrite F2 by tauto; apply W4; auto].
    assert (inRect r x y \/ ~ inRect r x y) as [I|I] by (unfold inRect; lia); [rewrite F1 by auto; exact Hl | rewrite F2 by tauto; apply W4; auto]. }
  assert (ML : manyPixels (owns (fst f) Vertex l) (size + snd f)).
  { apply (manyPixels_ext (fun x y => owns im1 Vertex l x y \/ (inRect r x y /\ ipix im1 x y = Pix Region hl))).
    - intros x y. rewrite O. tauto.
    - apply manyPixels_or; [|exact E | exact Fn]. intros x y (_ & _ & H1) [_ H2]. congruence. }
  split; [exact W'|]. split; [|split; [congruence|split; [congruence|split; [|split]]]].
  - intros x y Hx Hy K. rewrite Fw in *. rewrite Fh in *. rewrite (proj2 (Fp x y)); [apply F; auto|]. unfold inRect. lia.
  - intros k x y Hk. rewrite O. rewrite C by exact Hk. tauto.
  - destruct D as (D0 & (b & D1) & (c & D2) & (d & D3) & (e & D4)). split.
    + intros x y. rewrite O. intros [H|(_ & H & _)]; [apply D0; exact H | exact H].
    + split; [exists b; apply O; auto|]. split; [exists c; apply O; auto|]. split; [exists d; apply O; auto | exists e; apply O; auto].
  - rewrite Z.mod_small; [exact ML|]. destruct W' as (W1 & W2 & W3 & _). apply (manyPixels_le _ (iw (fst f)) (ih (fst f))) in ML; [lia | lia | lia|]. intros x y (H1 & H2 & _). auto.
Qed.

Lemma stuffRow_spec im l r outer area : 0 <= l < 2 ^ 30 -> forall fuel im1 size x y f, growing im l r im1 size ->
  stuffRow fuel im1 size (Pix Vertex l) outer area r x y = Ok f -> growing im l r (fst (fst f)) (snd (fst f)).
Proof.
  intros Hl. induction fuel as [|k IH]; intros im1 size x y f G H; cbn [stuffRow] in H; [discriminate|].
  destruct (x <? rx1 r - 1); cbn [negb] in H; [|injection H as <-; exact G].
  bnd H p Ep. destruct (pixEqb p (Pix Vertex l)); cbn [negb] in H; [|exact (IH _ _ _ _ _ G H)].
  bnd H q Eqq. destruct (ctypeEqb_spec (ptype q) Region) as [Er|Er]; cbn [andb] in H; [|exact (IH _ _ _ _ _ G H)].
  destruct (memZ (plabel q) outer); cbn [negb] in H; [exact (IH _ _ _ _ _ G H)|].
  bnd H g Eg. assert (growing im l r (fst g) ((size + snd g) mod 2 ^ 32)) as G'.
  { destruct q as [qt ql]; cbn in Er; subst qt. exact (growing_fill _ _ _ _ _ _ _ Hl G Eg). }
  destruct (area =? (size + snd g) mod 2 ^ 32); [injection H as <-; exact G' | exact (IH _ _ _ _ _ G' H)].
Qed.
Lemma stuffRows_spec im l r outer area : 0 <= l < 2 ^ 30 -> forall ys im1 size f, growing im l r im1 size ->
  stuffRows im1 size (Pix Vertex l) outer area r ys = Ok f -> growing im l r (fst f) (snd f).
Proof.
  intros Hl. induction ys as [|y ys IH]; intros im1 size f G H; cbn [stuffRows] in H; [injection H as <-; exact G|].
  bnd H g Eg. pose proof (stuffRow_spec _ _ _ _ _ Hl _ _ _ _ _ _ G Eg) as G'. destruct (snd g); [injection H as <-; exact G' | exact (IH _ _ _ G' H)].
Qed.

(** the state of the books when the nodes are done *)
Definition nodesDone (m : cmap) : Prop :=
  wfImg (cim m) /\ framed (cim m) /\ short m /\ counted m /\
  (forall l c, nth_error (cellsOf m Vertex) l = Some c -> initialized c = true -> exactCell (cim m) Vertex (Z.of_nat l) c) /\
  (forall l x y, owns (cim m) Vertex l x y -> exists c, nth_error (cellsOf m Vertex) (Z.to_nat l) = Some c /\ initialized c = true).

Lemma stuffNode_spec areas m i m' : nodesDone m -> stuffNode outerRegions areas m i = Ok m' ->
  nodesDone m' /\ forall u, u <> Vertex -> cellsOf m' u = cellsOf m u.
Proof.
  intros ND H. unfold stuffNode in H. bnd H n En. destruct (initialized (ninf n)) eqn:I; cbn [negb] in H; [|injection H as <-; auto].
  bnd H area Ea. destruct (area =? csize (ninf n)); [injection H as <-; auto|].
  bnd H ax Eax. bnd H f Ef. pose proof ND as (W & F & SH & CT & EX & PX).
  pose proof (cells_node _ _ _ En) as [_ Hn]. rewrite Nat2Z.id in Hn. destruct (EX i (ninf n) Hn I) as (EL & ER & EN).
  assert (0 <= Z.of_nat i < 2 ^ 30) as Hi. { specialize (SH Vertex). apply nth_error_lt in Hn. lia. }
  rewrite EL, cellPixel_small in Ef by exact Hi.
  assert (growing (cim m) (Z.of_nat i) (cbounds (ninf n)) (cim m) (csize (ninf n))) as G0.
  { split; [exact W|]. split; [exact F|]. split; [reflexivity|]. split; [reflexivity|]. split; [reflexivity|]. auto. }
  pose proof (stuffRows_spec _ _ _ _ _ Hi _ _ _ _ G0 Ef) as (W' & F' & Gw & Gh & GO & GR & GN).
  set (c' := CInfo (clabel (ninf n)) (cbounds (ninf n)) (snd f)).
  assert (changed (setIm m (fst f)) m' Vertex i c') as (A & B & C).
  { assert (nth_error (cellsOf (setIm m (fst f)) Vertex) (Z.to_nat (Z.of_nat i)) = Some (ninf n)) as Hn' by (rewrite Nat2Z.id; exact Hn).
    pose proof (node_info _ _ _ _ _ H Hn') as CH. rewrite Nat2Z.id in CH. exact CH. }
  assert (forall u, cellsOf (setIm m (fst f)) u = cellsOf m u) as SC by (intros []; reflexivity).
  assert (forall u, countOf (setIm m (fst f)) u = countOf m u) as SN by (intros []; reflexivity).
  assert (initialized c' = true) as I' by exact I.
  assert (cim m' = fst f) as A' by (rewrite A; reflexivity).
  split.
  - split; [rewrite A'; exact W'|]. split; [rewrite A'; exact F'|]. split; [|split; [|split]].
    + intros u. rewrite B, SC. destruct (ctypeEqb u Vertex); rewrite ?list_upd_length; apply SH.
    + intros u Hu. rewrite B, C, SC, SN. rewrite (CT u Hu). destruct (ctypeEqb_spec u Vertex) as [->|]; [|reflexivity].
      rewrite (filter_upd_length _ _ _ c' Hn), I, I'. lia.
    + intros k c Hk Ic. rewrite B, ctypeEqb_refl, SC, nth_error_upd in Hk. rewrite A'. destruct (Nat.eqb_spec i k) as [<-|Nk].
      * destruct (i <? length (cellsOf m Vertex))%nat; [|discriminate]. injection Hk as <-. split; [exact EL|]. split; [exact GR | exact GN].
      * destruct (EX k c Hk Ic) as (E1 & E2 & E3). assert (forall x y, owns (cim m) Vertex (Z.of_nat k) x y <-> owns (fst f) Vertex (Z.of_nat k) x y) as Eo by (intros x y; symmetry; apply GO; lia).
        split; [exact E1|]. split; [exact (exactRect_ext _ _ _ Eo E2) | exact (manyPixels_ext _ _ _ Eo E3)].
    + intros l x y O. rewrite A' in O. rewrite B, ctypeEqb_refl, SC. destruct (Nat.eq_dec (Z.to_nat l) i) as [->|Nl].
      * exists c'. split; [apply nth_error_upd_eq; apply nth_error_lt in Hn; exact Hn | exact I'].
      * rewrite nth_error_upd_neq by auto. apply (PX l x y), GO; [lia | exact O].
  - intros u Hu. rewrite B, SC. destruct (ctypeEqb_spec u Vertex); [contradiction | reflexivity].
Qed.

Lemma initNodeList_spec m m' : wfImg (cim m) -> framed (cim m) -> short m -> counted m -> phase (cim m) [] Vertex (cellsOf m Vertex) ->
  initNodeList crackArea outerRegions m = Ok m' -> nodesDone m' /\ forall u, u <> Vertex -> cellsOf m' u = cellsOf m u.
Proof.
  intros W F SH CT PH H. unfold initNodeList in H. bnd H st Est.
  destruct (nodes_loop _ _ _ W SH CT PH Est) as (A & B & C & D & E).
  assert (nodesDone (fst st)) as N0.
  { split; [rewrite A; exact W|]. split; [rewrite A; exact F|]. split; [exact D|]. split; [exact C|]. rewrite A. split.
    - intros l c Hl I. apply (phase_exact _ _ _ F B l c Hl I). intros [? _]; discriminate.
    - intros l x y O. refine (phase_cell _ _ _ F B _ l x y O _); [discriminate | intros [? _]; discriminate]. }
  refine (forEach_inv (stuffNode outerRegions (snd st)) (fun _ s => nodesDone s /\ forall u, u <> Vertex -> cellsOf s u = cellsOf m u) _ _ _ _ _ H); [|auto].
  intros done a rest s s' _ [N1 N2] Hs. destruct (stuffNode_spec _ _ _ _ N1 Hs) as [N3 N4]. split; [exact N3|]. intros u Hu. rewrite N4 by exact Hu. apply N2; exact Hu.
Qed.

(** ** The edges *)

Definition lineDart (im : img) (d : dart) : Prop := exists p, neighborPix im d 0 = Ok p /\ ptype p = Line.
Lemma sigmaLoop_lineDart im n : forall fuel d d', sigmaLoop fuel im n d = Ok d' -> lineDart im d'.
Proof.
  induction fuel as [|k IH]; intros d d' H; cbn [sigmaLoop] in H; [discriminate|]. bnd H p Ep.
  destruct (ctypeEqb_spec (ptype p) Line) as [El|El]; [injection H as <-; exists p; auto|]. bnd H d1 E1. exact (IH _ _ H).
Qed.
Lemma nextSigma_lineDart im d d' : lineDart im d -> nextSigma im d = Ok d' -> lineDart im d'.
Proof.
  intros (p & Hp & Et) H. unfold nextSigma, sigmaStep, isSingular in H. rewrite Hp in H. cbn [bind] in H. rewrite Et in H. cbn [ctypeEqb negb] in H. bnd H d1 E1.
  exact (sigmaLoop_lineDart _ _ _ _ _ H).
Qed.

(** the books of the edges before their pixels are counted *)
Definition edgesOpen (im : img) (cells : list cinfo) : Prop :=
  forall l c, nth_error cells l = Some c -> cbounds c = emptyRect /\ csize c = 0 /\ (initialized c = true -> clabel c = Z.of_nat l /\ exists x y, owns im Line (Z.of_nat l) x y).
Definition edgesInv (m0 m : cmap) : Prop :=
  cim m = cim m0 /\ short m /\ counted m /\ edgesOpen (cim m0) (cellsOf m Line) /\ forall u, u <> Line -> cellsOf m u = cellsOf m0 u.

Lemma around_spec m0 : forall fuel m dend d m', edgesInv m0 m -> lineDart (cim m) d -> initEdgesAround fuel m dend d = Ok m' -> edgesInv m0 m'.
Proof.
  induction fuel as [|k IH]; intros m dend d m' V LD H; cbn [initEdgesAround] in H; [discriminate|].
  bnd H l El. destruct (l <? Z.of_nat (length (cedges m))) eqn:Lt; cbn [negb] in H; [|discriminate].
  bnd H e Ee. bnd H m1 E1. bnd H d' Ed. bnd H q Eqq.
  pose proof (nextSigma_lineDart _ _ _ LD Ed) as LD'. pose proof V as (A & SH & CT & OP & OT).
  assert (edgesInv m0 m1 /\ cim m1 = cim m) as [V1 C1].
  { destruct (initialized (einf e)) eqn:I; [injection E1 as <-; auto|].
    bnd E1 o Eo. bnd E1 m2 E2. injection E1 as <-. pose proof (cells_edge _ _ _ Ee) as [L0 He].
    apply updEdge_changed in E2. destruct E2 as (e' & Ee' & CH). rewrite Ee in Ee'. injection Ee' as <-. cbn [einf] in CH.
    set (c1 := CInfo l (cbounds (einf e)) 0) in *. destruct CH as (CA & CB & CC).
    assert (l <> maxLabel) as NL. { specialize (SH Line). apply nth_error_lt in He. unfold maxLabel. lia. }
    assert (initialized c1 = true) as I1 by (apply initialized_iff; exact NL).
    assert (stepped m (addCounts m2 0 1 0) Line (Z.to_nat l) (einf e) c1) as ST.
    { split; [exact CA|]. split; [exact He|]. split; [intros u; rewrite addCounts_cells; apply CB|]. intros u. rewrite I, I1.
      destruct u; cbn; [specialize (CC Region) | specialize (CC Line) | specialize (CC Vertex) | reflexivity]; cbn in CC; rewrite CC; try reflexivity;
        rewrite Z.add_0_r; apply Z.mod_small; [apply (count_range m Region) | apply (count_range m Vertex)]; assumption. }
    destruct (stepped_counted _ _ _ _ _ _ ST SH) as [K1 K2]; [intros _; exact I1 | exact CT|].
    split; [|exact CA]. split; [cbn [addCounts cim]; congruence|]. split; [exact K2|]. split; [exact K1|]. destruct ST as (_ & _ & S3 & _). split.
    - intros k0 c Hk. rewrite S3, ctypeEqb_refl, nth_error_upd in Hk. destruct (Nat.eqb_spec (Z.to_nat l) k0) as [<-|Nk]; [|exact (OP k0 c Hk)].
      destruct (_ <? _)%nat; [|discriminate]. injection Hk as <-. destruct (OP _ _ He) as (O1 & O2 & _). split; [exact O1|]. split; [reflexivity|]. intros _. cbn.
      rewrite Z2Nat.id by exact L0. split; [reflexivity|]. destruct LD as (p & Hp & Et). unfold edgeLabel in El. rewrite Hp in El. cbn in El. injection El as <-.
      apply neighborPix_owns in Hp. rewrite Et, A in Hp. eexists _, _. exact Hp.
    - intros u Hu. rewrite S3. destruct (ctypeEqb_spec u Line); [contradiction | apply OT; exact Hu]. }
  destruct q; [injection H as <-; exact V1|]. apply (IH _ _ _ _ V1) in H; [exact H | rewrite C1; exact LD'].
Qed.

Lemma initEdgeList_spec m m' : edgesInv m m -> initEdgeList m = Ok m' -> edgesInv m m'.
Proof.
  intros V H. unfold initEdgeList in H. refine (forEach_inv initEdgesOf (fun _ s => edgesInv m s) _ _ _ _ V H).
  intros done i rest s s' _ V1 Hs. unfold initEdgesOf in Hs. bnd Hs n En. destruct (initialized (ninf n)); cbn [negb] in Hs; [|injection Hs as <-; exact V1].
  bnd Hs b Eb. destruct b; [injection Hs as <-; exact V1|]. refine (around_spec m _ _ _ _ _ V1 _ Hs).
  unfold isSingular in Eb. bnd Eb p Ep. exists p. split; [exact Ep|]. destruct (ctypeEqb_spec (ptype p) Line) as [E|E]; [exact E | cbn in Eb; discriminate Eb].
Qed.

(** ** The faces *)

Lemma push_same m l a m' : pushAnchor m l a = Ok m' -> sameCells m m'.
Proof. intros H. unfold pushAnchor in H. apply updFace_changed in H. destruct H as (f & E & H). apply (changed_same _ _ _ _ _ H). exact (proj2 (cells_face _ _ _ E)). Qed.
Lemma sameCells_refl m : sameCells m m. Proof. split; [reflexivity|]. split; reflexivity. Qed.

Lemma inner_same comp l x y st k st' : innerContour comp l x y st k = Ok st' -> sameCells (fst st) (fst st').
Proof.
  unfold innerContour. intros H. destruct (insideImg _ _ _); cbn [negb] in H; [|discriminate]. destruct (_ =? 0); [injection H as <-; apply sameCells_refl|].
  bnd H b Eb. destruct b; [injection H as <-; apply sameCells_refl|]. bnd H done Ed. bnd H p Ep. bnd H a Ea. bnd H m1 E1. injection H as <-. exact (push_same _ _ _ _ E1).
Qed.
Lemma inners_same comp l x y ks st st' : forEach (innerContour comp l x y) ks st = Ok st' -> sameCells (fst st) (fst st').
Proof.
  intros H. refine (forEach_inv (innerContour comp l x y) (fun _ s => sameCells (fst st) (fst s)) _ _ _ _ (sameCells_refl _) H).
  intros done a rest s s' _ S1 Hs. exact (sameCells_trans _ _ _ S1 (inner_same _ _ _ _ _ _ _ Hs)).
Qed.

Lemma face_step comp m a x y st' : wfImg (cim m) -> short m -> counted m -> initFacePix comp (m, a) (x, y) = Ok st' ->
  (fst st' = m /\ forall t l, t = Region \/ t = Line -> ~ owns (cim m) t l x y) \/
  exists t (l : nat) c, (t = Region \/ t = Line) /\ owns (cim m) t (Z.of_nat l) x y /\
    stepped m (fst st') t l c (addPixel x y (CInfo (if ctypeEqb t Line || initialized c then clabel c else Z.of_nat l) (cbounds c) (csize c))).
Proof.
  intros W SH CT H. unfold initFacePix in H. cbn [fst snd] in H. bnd H p Ep. apply readPix_Ok in Ep. destruct Ep as [[Ix Iy] ->].
  pose proof W as (_ & _ & _ & W4). specialize (W4 x y Ix Iy).
  assert (O : owns (cim m) (ptype (ipix (cim m) x y)) (Z.of_nat (Z.to_nat (plabel (ipix (cim m) x y)))) x y).
  { split; [exact Ix|]. split; [exact Iy|]. rewrite Z2Nat.id by lia. destruct (ipix (cim m) x y); reflexivity. }
  set (l := plabel (ipix (cim m) x y)) in *.
  destruct (ptype (ipix (cim m) x y)) eqn:Et.
  - right. destruct (l <? Z.of_nat (length (cfaces m))) eqn:Lt; cbn [negb] in H; [|discriminate].
    bnd H f Ef. pose proof (cells_face _ _ _ Ef) as [L0 Hf]. bnd H st1 E1. bnd H m' E2. injection H as <-. cbn [fst].
    exists Region, (Z.to_nat l), (finf f). split; [auto|]. split; [exact O|]. cbn [ctypeEqb orb].
    destruct (initialized (finf f)) eqn:I.
    + apply inners_same in E1. cbn [fst] in E1. apply (same_stepped _ _ _ _ _ _ _ E1).
      assert (nth_error (cellsOf (fst st1) Region) (Z.to_nat l) = Some (finf f)) as Hf' by (rewrite (proj1 (proj2 E1)); exact Hf).
      pose proof (face_info _ _ _ _ _ E2 Hf') as CH. apply changed_stepped; [|exact Hf'|reflexivity]. destruct (finf f); exact CH.
    + bnd E1 m1 Em. bnd E1 q Eqq. bnd E1 an Ea. bnd E1 m3 E3. injection E1 as <-. cbn [fst] in E2.
      pose proof (face_info _ _ _ _ _ Em Hf) as (CA & CB & CC). set (c1 := CInfo l (cbounds (finf f)) (csize (finf f))) in *.
      assert (l <> maxLabel) as NL. { specialize (SH Region). apply nth_error_lt in Hf. unfold maxLabel. lia. }
      assert (initialized c1 = true) as I1 by (apply initialized_iff; exact NL).
      assert (stepped m (addCounts m1 0 0 1) Region (Z.to_nat l) (finf f) c1) as S1.
      { split; [exact CA|]. split; [exact Hf|]. split; [intros u; rewrite addCounts_cells; apply CB|]. intros u. rewrite I, I1.
        destruct u; cbn; [specialize (CC Region) | specialize (CC Line) | specialize (CC Vertex) | reflexivity]; cbn in CC; rewrite CC; try reflexivity;
          rewrite Z.add_0_r; apply Z.mod_small; [apply (count_range m Line) | apply (count_range m Vertex)]; assumption. }
      pose proof (stepped_same _ _ _ _ _ _ _ S1 (push_same _ _ _ _ E3)) as S2. rewrite Z2Nat.id by exact L0.
      pose proof (face_info _ _ _ _ _ E2 (stepped_nth _ _ _ _ _ _ S2)) as CH. refine (stepped_then _ _ _ _ _ _ _ _ S2 CH _). reflexivity.
  - right. bnd H m' E1. injection H as <-. cbn [fst]. pose proof (updEdge_changed _ _ _ _ E1) as (e & Ee & _). pose proof (cells_edge _ _ _ Ee) as [L0 He].
    exists Line, (Z.to_nat l), (einf e). split; [auto|]. split; [exact O|]. cbn [ctypeEqb orb].
    pose proof (edge_info _ _ _ _ _ E1 He) as CH. apply changed_stepped; [|exact He|reflexivity]. destruct (einf e); exact CH.
  - injection H as <-. left. split; [reflexivity|]. intros t k Ht (_ & _ & K). rewrite K in Et. cbn in Et. destruct Ht; congruence.
  - injection H as <-. left. split; [reflexivity|]. intros t k Ht (_ & _ & K). rewrite K in Et. cbn in Et. destruct Ht; congruence.
Qed.

Lemma faces_loop comp m0 a0 st : wfImg (cim m0) -> short m0 -> counted m0 ->
  (forall t, t = Region \/ t = Line -> phase (cim m0) [] t (cellsOf m0 t)) ->
  forEach (initFacePix comp) (innerPoints (cim m0)) (m0, a0) = Ok st ->
  cim (fst st) = cim m0 /\ (forall t, t = Region \/ t = Line -> phase (cim m0) (innerPoints (cim m0)) t (cellsOf (fst st) t)) /\
  counted (fst st) /\ short (fst st) /\ cellsOf (fst st) Vertex = cellsOf m0 Vertex /\ length (cellsOf (fst st) Region) = length (cellsOf m0 Region).
Proof.
  intros W SH CT PH H.
  refine (forEach_inv (initFacePix comp) (fun done s => cim (fst s) = cim m0 /\ (forall t, t = Region \/ t = Line -> phase (cim m0) done t (cellsOf (fst s) t)) /\
    counted (fst s) /\ short (fst s) /\ cellsOf (fst s) Vertex = cellsOf m0 Vertex /\ length (cellsOf (fst s) Region) = length (cellsOf m0 Region)) _ _ _ _ _ H); [|cbn; repeat (split; auto)].
  intros done [x y] rest [m a] st' El (A & B & C & D & E & LE) Hs. cbn [fst] in *.
  assert (~ In (x, y) done) as N. { apply (NoDup_middle done rest). rewrite <- El. apply rectPoints_NoDup. }
  destruct (face_step comp m a x y st') as [[-> No]|(t & l & c & Ht & O & ST)]; [rewrite A; exact W | exact D | exact C | exact Hs | |].
  - split; [exact A|]. split; [|auto]. rewrite A in No. intros t Ht. apply phase_skip; [intros l; apply No; exact Ht | apply B; exact Ht].
  - rewrite A in O. pose proof ST as (A1 & A2 & A3 & A4). destruct (proj1 (B t Ht) l c A2) as (P1 & _).
    assert (Z.of_nat l <> maxLabel) as NL by (specialize (D t); apply nth_error_lt in A2; unfold maxLabel; lia).
    split; [congruence|]. split; [|].
    + intros u Hu. rewrite A3. destruct (ctypeEqb_spec u t) as [->|Nu].
      * apply phase_count; auto.
        -- destruct Ht as [->| ->]; [left; cbn|right; reflexivity]. destruct (initialized c) eqn:Ic; [apply initialized_iff; exact Ic | exact NL].
        -- destruct Ht as [->| ->]; [left; cbn|right; auto]. destruct (initialized c); auto.
      * apply phase_skip; [|apply B; exact Hu]. intros k (_ & _ & K). destruct O as (_ & _ & O). cbn in K. rewrite O in K. injection K as K _. congruence.
    + destruct (stepped_counted _ _ _ _ _ _ ST D) as [K1 K2]; [|exact C|].
      * intros I. rewrite I, orb_true_r. apply initialized_iff. cbn. apply initialized_iff. exact I.
      * split; [exact K1|]. split; [exact K2|]. split; [rewrite A3; destruct (ctypeEqb_spec Vertex t) as [<-|]; [destruct Ht; discriminate | exact E]|].
        etransitivity; [|exact LE]. rewrite A3. destruct (ctypeEqb Region t); [apply list_upd_length | reflexivity].
Qed.

Lemma tally_none im t l c : cbounds c = emptyRect -> csize c = 0 -> tally (seen im [] t l) c.
Proof.
  intros A B. split; [|left; split; [exact A | intros x y [[] _]]]. exists []. split; [constructor|]. split; [|rewrite B; reflexivity].
  intros x y. split; [intros [] | intros [[] _]].
Qed.
Lemma phase_open im cells : edgesOpen im cells -> phase im [] Line cells.
Proof.
  intros H. split; [|intros N; contradiction]. intros l c Hc. destruct (H l c Hc) as (A & B & C). split; [intros I; apply C; exact I|].
  split; [intros [? _]; discriminate|]. intros _. split; [apply tally_none; assumption | intros I; apply C; exact I].
Qed.

Lemma phase_new im t n : t <> Region -> phase im [] t (repeat newInfo n).
Proof.
  intros Ht. split; [|intros _ l x y [[] _]]. intros l c H. apply nth_error_In, repeat_spec in H. subst c.
  split; [intros I; discriminate I|]. split; [intros [? _]; contradiction|]. intros _. split; [apply tally_none; reflexivity | intros I; discriminate I].
Qed.
Lemma phase_first im n c0 : initialized c0 = true -> clabel c0 = 0 -> cbounds c0 = Rect 0 0 (iw im) (ih im) -> phase im [] Region (list_upd (repeat newInfo n) 0 c0).
Proof.
  intros I0 L0 B0. split; [|intros _ l x y [[] _]]. intros l c H. rewrite nth_error_upd in H. destruct (Nat.eqb_spec 0 l) as [<-|Nl].
  - destruct (_ <? _)%nat; [|discriminate]. injection H as <-. split; [intros _; exact L0|]. split; [auto|]. intros K. exfalso. apply K. auto.
  - apply nth_error_In, repeat_spec in H. subst c.
    split; [intros I; discriminate I|]. split; [intros [_ ?]; lia|]. intros _. split; [apply tally_none; reflexivity | intros I; discriminate I].
Qed.

Lemma initFaceList_spec m n m' : wfImg (cim m) -> framed (cim m) -> short m -> counted m -> edgesOpen (cim m) (cellsOf m Line) ->
  cellsOf m Region = repeat newInfo n -> initFaceList components m = Ok m' ->
  cim m' = cim m /\ (forall t, t = Region \/ t = Line -> phase (cim m) (innerPoints (cim m)) t (cellsOf m' t)) /\
  counted m' /\ short m' /\ cellsOf m' Vertex = cellsOf m Vertex /\ (0 < length (cellsOf m' Region))%nat.
Proof.
  intros W F SH CT OP RG H. unfold initFaceList in H. bnd H m1 E1. bnd H a Ea. bnd H a' Ea'. bnd H m3 E3. bnd H done Ed. bnd H st Est. injection H as <-.
  pose proof (updFace_changed _ _ _ _ E1) as (f & Ef & _). pose proof (cells_face _ _ _ Ef) as [_ Hf].
  assert (finf f = newInfo) as Ff by (rewrite RG in Hf; apply nth_error_In, repeat_spec in Hf; exact Hf).
  pose proof (face_info _ _ _ _ _ E1 Hf) as (CA & CB & CC). rewrite Ff in *. cbn [newInfo cbounds] in *.
  set (c0 := CInfo 0 (rectOrPoint (rectOrPoint emptyRect 0 0) (iw (cim m) - 1) (ih (cim m) - 1)) (2 ^ 32 - 1)) in *. cbn [Z.to_nat] in *.
  pose proof W as (W1 & W2 & _).
  assert (cbounds c0 = Rect 0 0 (iw (cim m)) (ih (cim m))) as B0.
  { unfold c0. cbn [cbounds]. assert (rectOrPoint emptyRect 0 0 = Rect 0 0 1 1) as -> by reflexivity. unfold rectOrPoint, rectOr.
    rewrite !rectEmpty_false by (cbn; lia). cbn [rx0 ry0 rx1 ry1]. f_equal; lia. }
  assert (stepped m (addCounts m1 0 0 1) Region 0 newInfo c0) as S1.
  { split; [exact CA|]. split; [exact Hf|]. split; [intros u; rewrite addCounts_cells; apply CB|]. intros u.
    destruct u; cbn; [specialize (CC Region) | specialize (CC Line) | specialize (CC Vertex) | reflexivity]; cbn in CC; rewrite CC; try reflexivity;
      rewrite Z.add_0_r; apply Z.mod_small; [apply (count_range m Line) | apply (count_range m Vertex)]; assumption. }
  pose proof (stepped_same _ _ _ _ _ _ _ S1 (push_same _ _ _ _ E3)) as S2.
  destruct (stepped_counted _ _ _ _ _ _ S2 SH) as [K1 K2]; [intros I; reflexivity | exact CT|].
  destruct S2 as (T1 & T2 & T3 & T4). rewrite <- T1 in Est.
  assert (wfImg (cim m3)) as W3 by (rewrite T1; exact W).
  assert (forall t, t = Region \/ t = Line -> phase (cim m3) [] t (cellsOf m3 t)) as PH.
  {  rewrite T1. intros t [->| ->]; rewrite T3; cbn [ctypeEqb].
    + rewrite RG. apply phase_first; [reflexivity | reflexivity | exact B0].
    + apply phase_open. exact OP. }
  destruct (faces_loop _ _ _ _ W3 K2 K1 PH Est) as (R1 & R2 & R3 & R4 & R5 & R6). rewrite T1 in R1, R2. split; [exact R1|]. split; [exact R2|]. split; [exact R3|]. split; [exact R4|]. split; [rewrite R5, T3; reflexivity|]. rewrite R6, T3. cbn [ctypeEqb]. rewrite list_upd_length. apply nth_error_lt in Hf. exact Hf.
Qed.

Lemma map_repeat' {A B} (f : A -> B) a n : map f (repeat a n) = repeat (f a) n.
Proof. induction n; cbn; [reflexivity | f_equal; assumption]. Qed.

Lemma blank_cells im n e f t : cellsOf (blank im n e f) t = match t with ErrorType => [] | _ => repeat newInfo (Z.to_nat (match t with Region => f | Line => e | _ => n end + 1)) end.
Proof. destruct t; cbn [cellsOf blank cnodes cedges cfaces]; rewrite ?map_repeat'; reflexivity. Qed.

Theorem import_sound im m : wfImg im -> framed im -> import crackArea outerRegions components im = Ok m ->
  (forall l x y, owns (cim m) Line l x y -> exists c, isCell m Line (Z.to_nat l) c) -> sound m.
Proof.
  intros W F H HL. unfold import in H. bnd H m1 E1. bnd H m2 E2. bnd H m3 E3.
  set (b := blank im _ _ _) in *. assert (forall t, t <> ErrorType -> exists n, cellsOf b t = repeat newInfo n /\ Z.of_nat n <= 2 ^ 30) as BC.
  { intros t Ht. unfold b. rewrite blank_cells. pose proof (maxLabelOf_small im Vertex W). pose proof (maxLabelOf_small im Line W). pose proof (maxLabelOf_small im Region W).
    destruct t; try contradiction; (eexists; split; [reflexivity|]; lia). }
  assert (short b) as SB. { intros t. destruct (ctype_dec t ErrorType) as [->|N]; [cbn; lia|]. destruct (BC t N) as (n & -> & Hn). rewrite repeat_length. exact Hn. }
  assert (counted b) as CB.
  { intros t N. destruct (BC t N) as (n & -> & _). assert (filter initialized (repeat newInfo n) = []) as -> by (induction n; cbn; auto). destruct t; reflexivity. }
  assert (cim b = im) as IB by reflexivity.
  destruct (initNodeList_spec b m1) as [ND OT]; [rewrite IB; exact W | rewrite IB; exact F | exact SB | exact CB | | exact E1 |].
  { destruct (BC Vertex ltac:(discriminate)) as (n & -> & _). apply phase_new. discriminate. }
  pose proof ND as (W1 & F1 & SH1 & CT1 & EX1 & PX1).
  assert (edgesInv m1 m1) as V1.
  { split; [reflexivity|]. split; [exact SH1|]. split; [exact CT1|]. split; [|reflexivity]. rewrite OT by discriminate. destruct (BC Line ltac:(discriminate)) as (n & -> & _).
    intros l c Hl. apply nth_error_In, repeat_spec in Hl. subst c. split; [reflexivity|]. split; [reflexivity|]. intros I; discriminate I. }
  pose proof (initEdgeList_spec _ _ V1 E2) as (A2 & SH2 & CT2 & OP2 & OT2). rewrite <- A2 in *.
  destruct (BC Region ltac:(discriminate)) as (n & BR & _).
  destruct (initFaceList_spec m2 n m3 W1 F1 SH2 CT2 OP2) as (A3 & PH3 & CT3 & SH3 & NV3 & LR); [rewrite OT2, OT by discriminate; exact BR | exact E3|].
  injection H as <-.
  match goal with |- sound ?m => set (m4 := m) in * end.
  assert (forall t, cellsOf m4 t = cellsOf m3 t) as C4 by (intros []; reflexivity). assert (forall t, countOf m4 t = countOf m3 t) as N4 by (intros []; reflexivity).
  assert (cim m4 = cim m2) as I4 by exact A3.
  assert (forall l c, nth_error (cellsOf m3 Vertex) l = Some c -> initialized c = true -> exactCell (cim m2) Vertex (Z.of_nat l) c) as EXV.
  { rewrite NV3, OT2 by discriminate. exact EX1. }
  split; [split; [rewrite I4; exact W1 | intros t; rewrite C4; apply SH3]|]. split; [rewrite I4; exact F1|]. unfold recount. rewrite I4. split; [|split].
  - intros t l c Hc I. rewrite C4 in Hc.
    destruct (ctype_dec t Region) as [->|Nr]; [destruct (Nat.eq_dec l 0) as [->|Nl]|].
    + destruct (proj1 (PH3 Region (or_introl eq_refl)) 0%nat c Hc) as (P1 & P2 & _). destruct (P2 (conj eq_refl eq_refl)) as [_ PB].
      split; [exact (P1 I)|]. split; [|intros K; exfalso; apply K; auto]. rewrite PB. pose proof W1 as (X1 & X2 & _).
      assert (forall x y, 0 <= x < iw (cim m2) -> 0 <= y < ih (cim m2) -> x = 0 \/ x = iw (cim m2) - 1 \/ y = 0 \/ y = ih (cim m2) - 1 -> owns (cim m2) Region 0 x y) as FR.
      { intros x y Hx Hy K. split; [exact Hx|]. split; [exact Hy|]. apply F1; auto. }
      cbn [Z.of_nat]. split; [intros x y (K1 & K2 & _); unfold inRect; cbn; lia|]. cbn [rx0 ry0 rx1 ry1].
      split; [exists 0; apply FR; lia|]. split; [exists 0; apply FR; lia|]. split; [exists 0; apply FR; lia | exists 0; apply FR; lia].
    + destruct (phase_exact _ _ _ F1 (PH3 Region (or_introl eq_refl)) l c Hc I) as (X1 & X2 & X3); [intros [_ ?]; contradiction|]. auto.
    + destruct t; try contradiction.
      * destruct (phase_exact _ _ _ F1 (PH3 Line (or_intror eq_refl)) l c Hc I) as (X1 & X2 & X3); [intros [? _]; contradiction|]. auto.
      * destruct (EXV l c Hc I) as (X1 & X2 & X3). auto.
      * cbn in Hc. destruct l; discriminate.
  - intros t l x y O Ht. rewrite C4. destruct t; try contradiction.
    + destruct (Z.eq_dec l 0) as [->|Nl].
      * destruct (nth_error (cellsOf m3 Region) (Z.to_nat 0)) as [c|] eqn:E0.
        -- exists c. split; [reflexivity|]. destruct (proj1 (PH3 Region (or_introl eq_refl)) 0%nat c E0) as (_ & P2 & _). apply P2. auto.
        -- exfalso. apply nth_error_None in E0. cbn [Z.to_nat] in E0. lia.
      * apply (phase_cell _ _ _ F1 (PH3 Region (or_introl eq_refl)) ltac:(discriminate) l x y O). intros [_ ?]; contradiction.
    + rewrite <- I4 in O. destruct (HL l x y O) as (c & Hc). exists c. rewrite <- C4. exact Hc.
    + rewrite NV3, OT2 by discriminate. apply (PX1 l x y O).
  - intros t Ht. rewrite C4, N4. apply CT3. exact Ht.
Qed.
End Proofs.

Theorem import_right (crack : img -> Z -> Z -> Z) (outer : img -> Z -> Z -> list Z) (comps : img -> (Z -> Z -> Z) * nat) (im : img) (m : cmap) :
  wfImg im -> framed im -> import crack outer comps im = Ok m ->
  (forall l x y, owns (cim m) Line l x y -> exists c, isCell m Line (Z.to_nat l) c) -> sound m.
Proof. apply import_sound. Qed.
