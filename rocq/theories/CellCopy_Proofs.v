(** Proofs about copies of the pixel based map. *)
From Verif Require Import Base CellMap_Model CellMap_Proofs CellMap_Main CellCopy_Model CellCopy_Spec.
Local Open Scope Z_scope.

Lemma objAt_Ok h a o : hobj h a = Some o -> objAt h a = Ok o. Proof. intros H. unfold objAt. rewrite H. reflexivity. Qed.
Lemma bufAt_Ok h b i : hbuf h b = Some i -> bufAt h b = Ok i. Proof. intros H. unfold bufAt. rewrite H. reflexivity. Qed.
Lemma objAt_inv h a o : objAt h a = Ok o -> hobj h a = Some o. Proof. unfold objAt. destruct (hobj h a); congruence. Qed.
Lemma bufAt_inv h b i : bufAt h b = Ok i -> hbuf h b = Some i. Proof. unfold bufAt. destruct (hbuf h b); congruence. Qed.
Lemma setObj_same h a o : hobj (setObj h a o) a = Some o. Proof. cbn. rewrite Nat.eqb_refl. reflexivity. Qed.
Lemma setObj_other h a o x : x <> a -> hobj (setObj h a o) x = hobj h x. Proof. intros N. cbn. apply Nat.eqb_neq in N. rewrite N. reflexivity. Qed.

(** ** The image *)
Lemma assignImage_ok h this other t o io : separate h -> hobj h this = Some t -> hobj h other = Some o -> hbuf h (gbuf o) = Some io ->
  exists h1 b, assignImage h this other = Ok (h1, b) /\ (forall x, hobj h1 x = hobj h x) /\ hbuf h1 b = Some io /\ (b < hnext h1)%nat /\ (hnext h <= hnext h1)%nat /\
    (forall a p, hobj h a = Some p -> a <> this -> gbuf p <> b /\ hbuf h1 (gbuf p) = hbuf h (gbuf p)) /\ (this = other -> b = gbuf o) /\
    (forall it, this <> other -> hbuf h (gbuf t) = Some it -> if (iw it =? iw io) && (ih it =? ih io) then b = gbuf t else b <> gbuf t /\ hbuf h1 (gbuf t) = None).
Proof.
  intros [S1 S2] Ht Ho Hi. unfold assignImage. rewrite (objAt_Ok _ _ _ Ht), (objAt_Ok _ _ _ Ho). cbn [bind]. destruct (S1 _ _ Ht) as (Lt & it & Et).
  destruct (Nat.eqb this other) eqn:E.
  - apply Nat.eqb_eq in E. subst other. assert (o = t) as -> by congruence. exists h, (gbuf t). split; [reflexivity|]. split; [auto|]. split; [exact Hi|]. split; [exact Lt|]. split; [lia|]. split; [|split; [auto|intros ? N; congruence]].
    intros a p Hp N. split; [exact (S2 _ _ _ _ Hp Ht N)|reflexivity].
  - apply Nat.eqb_neq in E. rewrite (bufAt_Ok _ _ _ Et), (bufAt_Ok _ _ _ Hi). cbn [bind]. destruct ((iw it =? iw io) && (ih it =? ih io)) eqn:D.
    + eexists _, _. split; [reflexivity|]. cbn [setBuf hobj hbuf hnext]. split; [auto|]. rewrite Nat.eqb_refl. split; [reflexivity|]. split; [exact Lt|]. split; [lia|]. split; [|split; [contradiction|]].
      * intros a p Hp N. pose proof (S2 _ _ _ _ Hp Ht N) as N'. split; [exact N'|]. apply Nat.eqb_neq in N'. rewrite N'. reflexivity.
      * intros it' _ Et'. assert (it' = it) as -> by congruence. rewrite D. reflexivity.
    + eexists _, _. split; [reflexivity|]. cbn [setBuf hobj hbuf hnext]. split; [auto|]. rewrite Nat.eqb_refl. split; [reflexivity|]. split; [lia|]. split; [lia|]. split; [|split; [contradiction|]].
      * intros a p Hp N. pose proof (S2 _ _ _ _ Hp Ht N) as N'. destruct (S1 _ _ Hp) as (Lp & _). split; [lia|]. apply Nat.eqb_neq in N'. rewrite N'. assert (Nat.eqb (gbuf p) (hnext h) = false) as -> by (apply Nat.eqb_neq; lia). reflexivity.
      * intros it' _ Et'. assert (it' = it) as -> by congruence. rewrite D. rewrite Nat.eqb_refl. assert (Nat.eqb (gbuf t) (hnext h) = false) as -> by (apply Nat.eqb_neq; lia). split; [lia|reflexivity].
Qed.

(** ** The lists *)
Lemma mapRes_ok {A B} (f : A -> res B) (P : A -> B -> Prop) l : (forall x, In x l -> exists y, f x = Ok y /\ P x y) -> exists l', mapRes f l = Ok l' /\ Forall2 P l l'.
Proof.
  induction l as [|x l IH]; intros H; [exists []; split; [reflexivity|constructor]|]. destruct (H x (or_introl eq_refl)) as (y & E & Q). destruct IH as (ys & E' & Q'); [intros z Z; apply H; right; exact Z|].
  exists (y :: ys). cbn [mapRes]. rewrite E. cbn [bind]. rewrite E'. split; [reflexivity|constructor; assumption].
Qed.
Lemma F2_map {A B C} (f : A -> C) (g : B -> C) (P : A -> B -> Prop) l l' : Forall2 P l l' -> (forall x y, P x y -> g y = f x) -> map g l' = map f l.
Proof. intros H K. induction H as [|x y l l' Q _ IH]; [reflexivity|]. cbn. rewrite (K _ _ Q), IH. reflexivity. Qed.
Lemma F2_in {A B} (P : A -> B -> Prop) l l' y : Forall2 P l l' -> In y l' -> exists x, In x l /\ P x y.
Proof. intros H. induction H as [|x z l l' Q _ IH]; intros []; [subst; exists x; cbn; auto|]. destruct (IH H) as (w & W1 & W2). exists w. cbn. auto. Qed.

Definition own (b a : nat) (d : pdart) : Prop := pbuf (pcen d) = b /\ pseg d = Some a.
Lemma reparent_ok h this other b bo t o d : hobj h this = Some t -> hobj h other = Some o -> gcells t = Ptr b 2 2 -> gcells o = Ptr bo 2 2 -> own bo other d ->
  exists d', reparent h this d = Ok d' /\ dartView d' = dartView d /\ own b this d'.
Proof.
  intros Ht Ho Ct Co [Hb Hs]. unfold reparent. rewrite Hs, (objAt_Ok _ _ _ Ho). cbn [bind]. rewrite (objAt_Ok _ _ _ Ht). cbn [bind]. rewrite Co, Ct. cbn [pbuf ppx ppy]. rewrite Hb, Nat.eqb_refl. cbn [negb].
  eexists. split; [reflexivity|]. split; [|split; reflexivity]. unfold dartView. cbn [pcen ppx ppy pdir]. f_equal; ring.
Qed.

Lemma deepCopy_all h this other t : separate h -> hobj h this = Some t -> parented h other ->
  exists h' t', deepCopy h this other = Ok h' /\ separate h' /\ parented h' this /\ view h' this = view h other /\ (forall a, a <> this -> sameMap h h' a) /\ hobj h' this = Some t' /\
    (forall it io o, this <> other -> hbuf h (gbuf t) = Some it -> hobj h other = Some o -> hbuf h (gbuf o) = Some io -> if (iw it =? iw io) && (ih it =? ih io) then hbuf h' (gbuf t) = Some io else hbuf h' (gbuf t) = None).
Proof.
  intros S Ht (o & Ho & Co & Do). pose proof S as [S1 S2]. destruct (S1 _ _ Ho) as (Lo & io & Ei).
  destruct (assignImage_ok h this other t o io S Ht Ho Ei) as (h1 & b & EA & O1 & B1 & Lb & Ln & Bo & Bs & Bt). unfold deepCopy. rewrite EA. cbn [bind fst snd]. rewrite (objAt_Ok h1 this t) by (rewrite O1; exact Ht). cbn [bind].
  set (t2 := Gmo b (Ptr b 2 2) (gnodes t) (gedges t) (gfaces t) (gnc t) (gec t) (gfc t) (ginit t)). set (h2 := setObj h1 this t2).
  assert (hobj h2 this = Some t2) as T2 by apply setObj_same.
  assert (exists o2, hobj h2 other = Some o2 /\ gcells o2 = Ptr (gbuf o) 2 2 /\ gnodes o2 = gnodes o /\ gedges o2 = gedges o /\ gfaces o2 = gfaces o /\ gnc o2 = gnc o /\ gec o2 = gec o /\ gfc o2 = gfc o /\ ginit o2 = ginit o) as (o2 & Ho2 & Co2 & N2 & E2 & F2 & Q1 & Q2 & Q3 & Q4).
  { destruct (Nat.eq_dec other this) as [->|N]; [|exists o; unfold h2; rewrite setObj_other by exact N; rewrite O1; repeat split; auto].
    exists t2. assert (o = t) as -> by congruence. split; [exact T2|]. unfold t2. cbn. rewrite (Bs eq_refl). repeat split. }
  rewrite (objAt_Ok _ _ _ Ho2). cbn [bind]. rewrite N2, E2, F2, Q1, Q2, Q3, Q4.
  assert (forall d, liveDart o d -> exists d', reparent h2 this d = Ok d' /\ dartView d' = dartView d /\ own b this d') as RP.
  { intros d L. apply (reparent_ok h2 this other b (gbuf o) t2 o2 d T2 Ho2 eq_refl Co2). exact (Do d L). }
  destruct (mapRes_ok (reparentNode h2 this) (fun x y => nodeView y = nodeView x /\ (initialized (pninf y) = true -> own b this (panchor y))) (gnodes o)) as (ns & -> & Hns).
  { intros n I. unfold reparentNode. destruct (initialized (pninf n)) eqn:In'; [|eexists; split; [reflexivity|]; split; [reflexivity|congruence]].
    destruct (RP (panchor n)) as (d' & -> & V & W); [left; exists n; auto|]. cbn [bind]. eexists. split; [reflexivity|]. split; [unfold nodeView; cbn; rewrite V; reflexivity|intros _; exact W]. }
  cbn [bind].
  destruct (mapRes_ok (reparentEdge h2 this) (fun x y => edgeView y = edgeView x /\ (initialized (peinf y) = true -> own b this (pstart y) /\ own b this (pend y))) (gedges o)) as (es & -> & Hes).
  { intros n I. unfold reparentEdge. destruct (initialized (peinf n)) eqn:In'; [|eexists; split; [reflexivity|]; split; [reflexivity|congruence]].
    destruct (RP (pstart n)) as (d' & -> & V & W); [right; left; exists n; auto|]. cbn [bind]. destruct (RP (pend n)) as (d2 & -> & V2 & W2); [right; left; exists n; auto|]. cbn [bind].
    eexists. split; [reflexivity|]. split; [unfold edgeView; cbn; rewrite V, V2; reflexivity|intros _; split; assumption]. }
  cbn [bind].
  destruct (mapRes_ok (reparentFace h2 this) (fun x y => faceView y = faceView x /\ (initialized (pfinf y) = true -> forall d, In d (pcontours y) -> own b this d)) (gfaces o)) as (fs & -> & Hfs).
  { intros n I. unfold reparentFace. destruct (initialized (pfinf n)) eqn:In'; [|eexists; split; [reflexivity|]; split; [reflexivity|congruence]].
    destruct (mapRes_ok (reparent h2 this) (fun x y => dartView y = dartView x /\ own b this y) (pcontours n)) as (ds & -> & Hd); [intros d Id; apply RP; right; right; exists n; auto|]. cbn [bind].
    eexists. split; [reflexivity|]. split; [unfold faceView; cbn; f_equal; apply (F2_map _ _ _ _ _ Hd); intros ? ? [K _]; exact K|]. intros _ d Id. cbn in Id. destruct (F2_in _ _ _ _ Hd Id) as (x & _ & _ & K). exact K. }
  cbn [bind]. set (t' := Gmo b (Ptr b 2 2) ns es fs (gnc o) (gec o) (gfc o) (ginit o)). exists (setObj h2 this t'), t'. split; [reflexivity|].
  assert (forall x, x <> this -> hobj (setObj h2 this t') x = hobj h x) as OX by (intros x N; rewrite setObj_other by exact N; unfold h2; rewrite setObj_other by exact N; apply O1).
  assert (forall x, hbuf (setObj h2 this t') x = hbuf h1 x) as BX by reflexivity. assert (hobj (setObj h2 this t') this = Some t') as OT by apply setObj_same.
  split; [split|split; [|split; [|split; [|split; [exact OT|]]]]].
  - intros a p Hp. change (hnext (setObj h2 this t')) with (hnext h1). rewrite BX. destruct (Nat.eq_dec a this) as [->|N]; [rewrite OT in Hp; injection Hp as <-; split; [exact Lb|eauto]|].
    rewrite (OX a N) in Hp. destruct (S1 _ _ Hp) as (L & i & Ep). destruct (Bo _ _ Hp N) as (_ & K). split; [lia|]. rewrite K. eauto.
  - intros a c p q Hp Hq N. destruct (Nat.eq_dec a this) as [->|Na]; destruct (Nat.eq_dec c this) as [->|Nc]; try congruence.
    + rewrite OT in Hp. injection Hp as <-. rewrite (OX c Nc) in Hq. cbn. intros K. exact (proj1 (Bo _ _ Hq Nc) (eq_sym K)).
    + rewrite OT in Hq. injection Hq as <-. rewrite (OX a Na) in Hp. exact (proj1 (Bo _ _ Hp Na)).
    + rewrite (OX a Na) in Hp. rewrite (OX c Nc) in Hq. exact (S2 _ _ _ _ Hp Hq N).
  - exists t'. split; [exact OT|]. split; [reflexivity|]. intros d [(n & I & V & ->)|[(e & I & V & K)|(f & I & V & K)]].
    + cbn in I. destruct (F2_in _ _ _ _ Hns I) as (x & _ & _ & W). exact (W V).
    + cbn in I. destruct (F2_in _ _ _ _ Hes I) as (x & _ & _ & W). destruct (W V) as [W1 W2]. destruct K as [->| ->]; assumption.
    + cbn in I. destruct (F2_in _ _ _ _ Hfs I) as (x & _ & _ & W). exact (W V d K).
  - unfold view. rewrite OT, Ho, BX. cbn [t' gbuf gnodes gedges gfaces gnc gec gfc ginit]. rewrite B1, Ei. f_equal. f_equal; [apply (F2_map _ _ _ _ _ Hns)|apply (F2_map _ _ _ _ _ Hes)|apply (F2_map _ _ _ _ _ Hfs)]; intros ? ? [K _]; exact K.
  - intros a N. split; [exact (OX a N)|]. intros p Hp. rewrite BX. exact (proj2 (Bo _ _ Hp N)).
  - intros it io' o' N Et Ho' Ei'. assert (o' = o) as -> by congruence. assert (io' = io) as -> by congruence. specialize (Bt it N Et). rewrite !BX. destruct ((iw it =? iw io) && (ih it =? ih io)); [subst b; exact B1|exact (proj2 Bt)].
Qed.

Lemma same_view h h' a : sameMap h h' a -> view h' a = view h a.
Proof. intros [A B]. unfold view. rewrite A. destruct (hobj h a) as [o|] eqn:E; [|reflexivity]. rewrite (B o eq_refl). reflexivity. Qed.
Lemma same_parented h h' a : sameMap h h' a -> parented h a -> parented h' a.
Proof. intros [A B] (o & Ho & P). exists o. rewrite A. auto. Qed.

Lemma construct_all h this other : separate h -> hobj h this = None -> parented h other ->
  exists h', copyConstruct h this other = Ok h' /\ separate h' /\ parented h' this /\ view h' this = view h other /\ (forall a, a <> this -> sameMap h h' a).
Proof.
  intros S Ht P. pose proof S as [S1 S2]. unfold copyConstruct. rewrite Ht. set (t := Gmo (hnext h) (Ptr (hnext h) 0 0) [] [] [] 0 0 0 false). set (h1 := setBuf h (hnext h) (Some (Img 0 0 (fun _ _ => Pix Region 0)))).
  set (h2 := setObj (Heap (hobj h1) (hbuf h1) (Datatypes.S (hnext h))) this t).
  assert (hobj h2 this = Some t) as T by apply setObj_same. assert (forall x, x <> this -> hobj h2 x = hobj h x) as OX by (intros x N; unfold h2; rewrite setObj_other by exact N; reflexivity).
  assert (forall b, (b < hnext h)%nat -> hbuf h2 b = hbuf h b) as BX by (intros b L; cbn; assert (Nat.eqb b (hnext h) = false) as -> by (apply Nat.eqb_neq; lia); reflexivity).
  assert (forall a, a <> this -> sameMap h h2 a) as SM by (intros a N; split; [exact (OX a N)|intros o Ho; apply BX; exact (proj1 (S1 _ _ Ho))]).
  assert (separate h2) as Sep.
  { split.
    - intros a o Ho. change (hnext h2) with (Datatypes.S (hnext h)). destruct (Nat.eq_dec a this) as [->|N]; [rewrite T in Ho; injection Ho as <-; cbn; split; [lia|rewrite Nat.eqb_refl; eauto]|]. rewrite (OX a N) in Ho. destruct (S1 _ _ Ho) as (L & i & E). split; [lia|]. rewrite BX by exact L. eauto.
    - intros a c p q Hp Hq N. destruct (Nat.eq_dec a this) as [->|Na]; destruct (Nat.eq_dec c this) as [->|Nc]; try congruence.
      + rewrite T in Hp. injection Hp as <-. rewrite (OX c Nc) in Hq. pose proof (proj1 (S1 _ _ Hq)). cbn. lia.
      + rewrite T in Hq. injection Hq as <-. rewrite (OX a Na) in Hp. pose proof (proj1 (S1 _ _ Hp)). cbn. lia.
      + rewrite (OX a Na) in Hp. rewrite (OX c Nc) in Hq. exact (S2 _ _ _ _ Hp Hq N). }
  assert (other <> this) as N by (intros ->; destruct P as (o & Ho & _); congruence).
  destruct (deepCopy_all h2 this other t Sep T (same_parented _ _ _ (SM other N) P)) as (h' & t' & E & S' & P' & V & SM' & _). exists h'. split; [exact E|]. split; [exact S'|]. split; [exact P'|]. split; [rewrite V; apply same_view, SM, N|].
  intros a Na. destruct (SM a Na) as [A1 A2]. destruct (SM' a Na) as [B1 B2]. split; [congruence|]. intros o Ho. rewrite (B2 o) by congruence. exact (A2 o Ho).
Qed.

(** ** Changes and the end of one of the maps *)
Lemma write_apart h a o p v h' : separate h -> hobj h a = Some o -> pbuf p = gbuf o -> writePtr h p v = Ok h' ->
  separate h' /\ (forall b, b <> a -> sameMap h h' b) /\ exists i i', hbuf h (gbuf o) = Some i /\ writePix i (ppx p) (ppy p) v = Ok i' /\ hobj h' a = Some o /\ hbuf h' (gbuf o) = Some i'.
Proof.
  intros [S1 S2] Ho Hp H. unfold writePtr in H. bnd H i Ei. bnd H i' Ew. injection H as <-. apply bufAt_inv in Ei. rewrite Hp in *. split; [split|split].
  - intros c q Hq. cbn. destruct (S1 _ _ Hq) as (L & j & E). split; [exact L|]. destruct (Nat.eqb (gbuf q) (gbuf o)); eauto.
  - intros c d q r Hq Hr N. exact (S2 _ _ _ _ Hq Hr N).
  - intros b N. split; [reflexivity|]. intros q Hq. cbn. pose proof (S2 _ _ _ _ Hq Ho N) as K. apply Nat.eqb_neq in K. rewrite K. reflexivity.
  - exists i, i'. split; [exact Ei|]. split; [exact Ew|]. split; [exact Ho|]. cbn. rewrite Nat.eqb_refl. reflexivity.
Qed.
Lemma destroy_apart h b : separate h -> (exists o, hobj h b = Some o) ->
  exists h', destroy h b = Ok h' /\ separate h' /\ hobj h' b = None /\ forall a, a <> b -> sameMap h h' a.
Proof.
  intros [S1 S2] (o & Ho). unfold destroy. rewrite (objAt_Ok _ _ _ Ho). cbn [bind]. eexists. split; [reflexivity|].
  assert (forall a p, a <> b -> hobj h a = Some p -> Nat.eqb (gbuf p) (gbuf o) = false) as K by (intros a p N Hp; apply Nat.eqb_neq; exact (S2 _ _ _ _ Hp Ho N)).
  split; [split|split].
  - intros a p Hp. cbn in *. destruct (Nat.eqb a b) eqn:E; [discriminate Hp|]. apply Nat.eqb_neq in E. rewrite (K a p E Hp). exact (S1 _ _ Hp).
  - intros a c p q Hp Hq N. cbn in *. destruct (Nat.eqb a b); [discriminate Hp|]. destruct (Nat.eqb c b); [discriminate Hq|]. exact (S2 _ _ _ _ Hp Hq N).
  - cbn. rewrite Nat.eqb_refl. reflexivity.
  - intros a N. split; [cbn; apply Nat.eqb_neq in N; rewrite N; reflexivity|]. intros p Hp. cbn. rewrite (K a p N Hp). reflexivity.
Qed.
Lemma stale_pointer h this other t it o io p : separate h -> hobj h this = Some t -> parented h other -> this <> other -> hbuf h (gbuf t) = Some it -> hobj h other = Some o -> hbuf h (gbuf o) = Some io -> pbuf p = gbuf t ->
  exists h', deepCopy h this other = Ok h' /\ ((iw it = iw io /\ ih it = ih io) -> readPtr h' p = readPix io (ppx p) (ppy p)) /\ (~ (iw it = iw io /\ ih it = ih io) -> readPtr h' p = UB).
Proof.
  intros S Ht P N Et Ho Ei Hp. destruct (deepCopy_all h this other t S Ht P) as (h' & t' & E & _ & _ & _ & _ & _ & K). exists h'. split; [exact E|]. specialize (K it io o N Et Ho Ei). unfold readPtr. rewrite Hp.
  destruct ((iw it =? iw io) && (ih it =? ih io)) eqn:D.
  - rewrite (bufAt_Ok _ _ _ K). cbn [bind]. split; [auto|]. apply andb_true_iff in D. rewrite !Z.eqb_eq in D. tauto.
  - split; [|intros _; unfold bufAt; rewrite K; reflexivity]. intros [A B]. rewrite A, B, !Z.eqb_refl in D. discriminate D.
Qed.
