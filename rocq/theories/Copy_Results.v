(** The copy answers like the original, and both maps are independent *)
From Verif Require Import Base GeoMap_Model Scanlines_Model LabelLUT_Model Map2D_Model Map2D_Spec Map2D_Proofs SigmaArray LabelImage_Model LabelImage_Spec Copy_Model Copy_Spec Copy_Proofs.
Local Open Scope Z_scope.

(** ** Answers *)
(** the answer a map value gives *)
Definition answerOf (st : lmap) (q : query) : option (res answer) :=
  let g := lg st in
  match q with
  | QNode l => Some (match nth_error (nodes g) l with None => UB | Some None => Ok ANull | Some (Some v) => Ok (ANode l true v) end)
  | QEdge l => Some (match nth_error (edges g) l with None => UB | Some None => Ok ANull | Some (Some v) => Ok (AEdge l true v) end)
  | QFace l => Some (match nth_error (faces g) l with None => UB | Some None => Ok ANull
                     | Some (Some v) => Ok (AFace l true (map (pair true) (fanchors v)) (fflags v) (farea v) (larea st l)) end)
  | QSigma d => Some (if Z.abs d <=? cap g then Ok (ADart (sg g d)) else UB)
  | QSigmaInv d => Some (if Z.abs d <=? cap g then Ok (ADart (sgi g d)) else UB)
  | QCounts => Some (Ok (ACounts (nodeCount g) (edgeCount g) (faceCount g) (length (nodes g)) (length (edges g)) (length (faces g))))
  | QSorted => Some (Ok (ABool (sorted g)))
  | QImageSize => Some (Ok (ASize (lsize st)))
  | QHasImage => Some (Ok (ABool (isLive (lim st))))
  | QPixel x y => Some (v <- labelAt st x y ;; Ok (ALabel v))
  | QNearest _ _ => None
  end.

Lemma cellAt_ok {A} h o (f : nat -> A -> obj -> Prop) tab vs l g (r : A -> answer) : tableHolds h f tab vs -> (forall v x, f l v x -> g x = Ok (r v)) ->
  cellAt h o tab l g = match nth_error vs l with None => UB | Some None => Ok ANull | Some (Some v) => Ok (r v) end.
Proof.
  intros [_ H] Hg. specialize (H l). unfold cellAt, vget. destruct (nth_error tab l) as [[p|]|], (nth_error vs l) as [[v|]|]; try contradiction; try reflexivity.
  destruct H as (x & X & F). cbn [bind]. rewrite (deref_ok _ _ _ X). cbn [bind]. apply Hg, F.
Qed.
Lemma iterGet_ok h l a c f d : hat h l = Some (OArr a) -> holds a c f -> iterGet h (l, (length a / 2)%nat) d = if Z.abs d <=? c then Ok (f d) else UB.
Proof.
  intros Hl V. unfold iterGet. cbn [fst snd]. rewrite (deref_ok _ _ _ Hl). cbn [bind asArr]. rewrite <- (arrGet_defined a c f d V). reflexivity.
Qed.

Theorem answers h o st q r : represents h o st -> answerOf st q = Some r -> ask h o q = r.
Proof.
  intros [OK (mo & a & ai & Ho & Ha & Va & Ia & Hi & Vi & Ii & Tn & Te & Tf & (C1 & C2 & C3) & Ix & Sz & Im & Lu & So & Ex)] E. unfold ask. rewrite (deref_ok _ _ _ Ho). cbn [bind asMap].
  destruct q as [l|l|l|d|d| | | | |x y|p b]; cbn [answerOf] in E; try discriminate; injection E as <-.
  - apply (cellAt_ok h o _ _ _ l _ (fun v => ANode l true v) Tn). intros v x ->. rewrite Nat.eqb_refl. reflexivity.
  - apply (cellAt_ok h o _ _ _ l _ (fun v => AEdge l true v) Te). intros v x ->. rewrite Nat.eqb_refl. reflexivity.
  - apply (cellAt_ok h o _ _ _ l _ (fun v => AFace l true (map (pair true) (fanchors v)) (fflags v) (farea v) (larea st l)) Tf). intros v x ->. rewrite Nat.eqb_refl. rewrite map_map. cbn [fst snd]. rewrite Nat.eqb_refl. reflexivity.
  - rewrite Ia, (iterGet_ok _ _ _ _ _ d Ha Va). destruct (Z.abs d <=? cap (lg st)); reflexivity.
  - rewrite Ii, (iterGet_ok _ _ _ _ _ d Hi Vi). destruct (Z.abs d <=? cap (lg st)); reflexivity.
  - rewrite C1, C2, C3, (tab_len _ _ _ _ Tn), (tab_len _ _ _ _ Te), (tab_len _ _ _ _ Tf). reflexivity.
  - rewrite So. reflexivity.
  - rewrite Sz. reflexivity.
  - destruct (mimg mo), (lim st); try contradiction; reflexivity.
  - unfold labelAt. destruct (mimg mo) as [p|], (lim st) as [img|]; try contradiction; [|reflexivity]. rewrite (deref_ok _ _ _ Im). cbn [bind]. rewrite Lu. unfold pixGet.
    destruct (insideB img x y); [|reflexivity]. cbn [bind]. destruct (Z.ltb_spec (ipx img x y) 0) as [N|N]; destruct (Z.geb_spec (ipx img x y) 0) as [M|M]; try lia; [reflexivity|].
    destruct (lookup (llut st) (Z.to_nat (ipx img x y))); reflexivity.
Qed.

(** nearestNode *)
Definition posTable (st : lmap) : list (option (Z * Z)) := map (option_map npos) (nodes (lg st)).
Lemma livePos_in vs : forall i p l, In (p, l) (livePos i vs) <-> exists v, (i <= l)%nat /\ nth_error vs (l - i) = Some (Some v) /\ npos v = p.
Proof.
  induction vs as [|v vs IH]; intros i p l; cbn [livePos].
  - split; [intros [] | intros (v & _ & H & _); destruct (l - i)%nat; discriminate].
  - assert (Hrest : In (p, l) (livePos (S i) vs) <-> (i < l)%nat /\ exists w, nth_error (v :: vs) (l - i) = Some (Some w) /\ npos w = p).
    { rewrite IH. split.
      - intros (w & A & B & C). split; [lia|]. exists w. replace (l - i)%nat with (S (l - S i)) by lia. auto.
      - intros (A & w & B & C). exists w. split; [lia|]. replace (l - i)%nat with (S (l - S i)) in B by lia. auto. }
    destruct v as [v|]; cbn [In]; rewrite Hrest; clear Hrest.
    + split.
      * intros [Q|(A & w & B & C)]; [injection Q as <- <-; exists v; split; [lia|]; rewrite Nat.sub_diag; auto | exists w; split; [lia | auto]].
      * intros (w & A & B & C). destruct (Nat.eq_dec l i) as [->|N]; [left; rewrite Nat.sub_diag in B; cbn in B; injection B as Bv; rewrite Bv, C; reflexivity | right; split; [lia|]; exists w; auto].
    + split; [intros (A & w & B & C); exists w; split; [lia | auto]|]. intros (w & A & B & C). destruct (Nat.eq_dec l i) as [->|N]; [rewrite Nat.sub_diag in B; discriminate | split; [lia | exists w; auto]].
Qed.
Lemma livePos_live st p l : In (p, l) (livePos 0 (nodes (lg st))) <-> liveAt (posTable st) l p.
Proof.
  rewrite livePos_in. unfold liveAt, posTable. rewrite nth_error_map, Nat.sub_0_r. destruct (nth_error (nodes (lg st)) l) as [[v|]|]; cbn; split.
  - intros (w & _ & E & <-). injection E as ->. reflexivity.
  - intros E. injection E as E. exists v. split; [lia|]. split; [reflexivity | exact E].
  - intros (w & _ & E & _). congruence.
  - congruence.
  - intros (w & _ & E & _). congruence.
  - congruence.
Qed.
Theorem answers_nearest h o st p b : represents h o st -> exists r, ask h o (QNearest p b) = Ok (ANearest r) /\ nearestLive (posTable st) p b r.
Proof.
  intros [OK (mo & a & ai & Ho & _ & _ & _ & _ & _ & _ & _ & _ & _ & _ & (P & K) & _)]. unfold ask. rewrite (deref_ok _ _ _ Ho). cbn [bind asMap]. apply wf_keys in K.
  assert (HP : forall q l, In (q, l) (stored (midx mo)) <-> liveAt (posTable st) l q).
  { intros q l. rewrite <- livePos_live. split; apply Permutation_in; [exact P | apply Permutation_sym, P]. }
  assert (Dq : forall q, dist2 q p = farSq q p) by (intros q; unfold dist2, farSq, sq; lia).
  assert (HI : forall l q, liveAt (posTable st) l q -> exists e, In e (midx mo) /\ epos e = q).
  { intros l q Hq. apply HP in Hq. unfold stored in Hq. apply in_map_iff in Hq. destruct Hq as (e & E & He). exists e. split; [exact He | congruence]. }
  destruct (nearest_spec (midx mo) p b K) as (i & E & [[-> Hn]|(e & He & Hlt & Hmin)]); rewrite E; cbn [bind].
  - rewrite (proj2 (nth_error_None (midx mo) (length (midx mo)))) by lia. exists None. split; [reflexivity|]. intros l q Hq. destruct (HI l q Hq) as (e & I1 & <-). rewrite <- Dq. apply Hn, I1.
  - rewrite He. exists (Some (epay e)). split; [reflexivity|]. exists (epos e). split; [apply HP; unfold stored; apply in_map_iff; exists e; split; [reflexivity | eapply nth_error_In; exact He]|].
    rewrite <- Dq. split; [exact Hlt|]. intros l q Hq. destruct (HI l q Hq) as (e' & I1 & <-). rewrite <- Dq. apply Hmin, I1.
Qed.

(** ** Reachability *)
Definition owned (h : heap) (o : loc) (l : loc) : Prop := l = o \/ exists mo, hat h o = Some (OMap mo) /\ In l (refs (OMap mo)).
Lemma refs_tab mo p : In (Some p) (mnodes mo) \/ In (Some p) (medges mo) \/ In (Some p) (mfaces mo) \/ mimg mo = Some p -> In p (refs (OMap mo)).
Proof.
  intros H. cbn [refs]. do 4 right. apply in_or_app. left. apply in_concat. exists [p]. split; [|left; reflexivity]. apply in_map_iff. exists (Some p). split; [reflexivity|]. rewrite !in_app_iff. cbn. intuition.
Qed.
Lemma refs_inv mo l : In l (refs (OMap mo)) -> l = msArr mo \/ l = msiArr mo \/ l = fst (msIt mo) \/ l = fst (msiIt mo) \/ In (Some l) (mnodes mo) \/ In (Some l) (medges mo) \/ In (Some l) (mfaces mo) \/ mimg mo = Some l \/ In l (mextra mo).
Proof.
  cbn [refs]. intros [H|[H|[H|[H|H]]]]; auto. apply in_app_or in H. destruct H as [H|H]; [|auto 10]. apply in_concat in H. destruct H as (xs & Hx & Hl). apply in_map_iff in Hx. destruct Hx as (q & <- & Hq).
  destruct q as [q|]; [|destruct Hl]. destruct Hl as [->|[]]. rewrite !in_app_iff in Hq. cbn in Hq. intuition.
Qed.
Lemma owned_closed h o st l x q : represents h o st -> owned h o l -> hat h l = Some x -> In q (refs x) -> owned h o q.
Proof.
  intros [OK (mo & a & ai & Ho & Ha & Va & Ia & Hi & Vi & Ii & Tn & Te & Tf & Cn & Ix & Sz & Im & Lu & So & Ex)] Hl Hx Hq. destruct Hl as [->|(mo' & Hm & Hl)].
  - right. assert (x = OMap mo) by congruence. subst. exists mo. auto.
  - assert (mo' = mo) by congruence. subst mo'. left. apply refs_inv in Hl. rewrite Ia, Ii in Hl. cbn [fst] in Hl. destruct Hl as [->|[->|[->|[->|[Hl|[Hl|[Hl|[Hl|Hl]]]]]]]].
    1,3: rewrite Ha in Hx; injection Hx as <-; destruct Hq.
    1,2: rewrite Hi in Hx; injection Hx as <-; destruct Hq.
    + destruct (tab_alive _ _ _ _ _ Tn Hl) as (i & v & y & _ & _ & Y & ->). rewrite Y in Hx. injection Hx as <-. destruct Hq as [->|[]]. reflexivity.
    + destruct (tab_alive _ _ _ _ _ Te Hl) as (i & v & y & _ & _ & Y & ->). rewrite Y in Hx. injection Hx as <-. destruct Hq as [->|[]]. reflexivity.
    + destruct (tab_alive _ _ _ _ _ Tf Hl) as (i & v & y & _ & _ & Y & ->). rewrite Y in Hx. injection Hx as <-. cbn [refs] in Hq. destruct Hq as [->|Hq]; [reflexivity|]. rewrite map_map in Hq. apply in_map_iff in Hq. destruct Hq as (d & <- & _). reflexivity.
    + rewrite Hl in Im. destruct (lim st); [|contradiction]. rewrite Im in Hx. injection Hx as <-. destruct Hq.
    + destruct (Ex l Hl) as (rs & Hr & Hrs). rewrite Hr in Hx. injection Hx as <-. apply Hrs, Hq.
Qed.
Lemma reach_owned h o st l : represents h o st -> reach h o l -> owned h o l.
Proof. intros R H. induction H as [|p x q Hp IH Hx Hq]; [left; reflexivity | apply (owned_closed h o st p x q); auto]. Qed.
Lemma owned_alive h o st l : represents h o st -> owned h o l -> hat h l <> None.
Proof.
  intros [OK (mo & a & ai & Ho & Ha & Va & Ia & Hi & Vi & Ii & Tn & Te & Tf & Cn & Ix & Sz & Im & Lu & So & Ex)] Hl. destruct Hl as [->|(mo' & Hm & Hl)]; [congruence|].
  assert (mo' = mo) by congruence. subst mo'. apply refs_inv in Hl. rewrite Ia, Ii in Hl. cbn [fst] in Hl. destruct Hl as [->|[->|[->|[->|[Hl|[Hl|[Hl|[Hl|Hl]]]]]]]]; try congruence.
  - destruct (tab_alive _ _ _ _ _ Tn Hl) as (i & v & y & _ & _ & Y & ->). congruence.
  - destruct (tab_alive _ _ _ _ _ Te Hl) as (i & v & y & _ & _ & Y & ->). congruence.
  - destruct (tab_alive _ _ _ _ _ Tf Hl) as (i & v & y & _ & _ & Y & ->). congruence.
  - rewrite Hl in Im. destruct (lim st); [congruence | contradiction].
  - destruct (Ex l Hl) as (rs & Hr & _). congruence.
Qed.

(** answers depend on reachable objects only *)
Lemma ask_frame h h' o q : (forall l, reach h o l -> hat h' l = hat h l) -> ask h' o q = ask h o q.
Proof.
  intros F. unfold ask. assert (D : deref h' o = deref h o) by (unfold deref; rewrite (F o (re_here h o)); reflexivity). rewrite D. clear D. unfold deref at 1. unfold deref at 2. destruct (hat h o) as [x|] eqn:Ho; [|reflexivity]. cbn [bind]. destruct x as [mo| | | | | |]; try reflexivity. cbn [asMap bind].
  assert (G : forall l, In l (refs (OMap mo)) -> hat h' l = hat h l) by (intros l Hl; apply F; apply (re_step h o o (OMap mo) l (re_here h o) Ho Hl)).
  assert (C : forall tab l f, (forall p, In (Some p) tab -> In p (refs (OMap mo))) -> cellAt h' o tab l f = cellAt h o tab l f).
  { intros tab l f Ht. unfold cellAt, vget. destruct (nth_error tab l) as [[p|]|] eqn:E; try reflexivity. cbn [bind]. unfold deref. rewrite (G p); [reflexivity|]. apply Ht. eapply nth_error_In. exact E. }
  assert (It : forall it d, In (fst it) (refs (OMap mo)) -> iterGet h' it d = iterGet h it d) by (intros it d Hit; unfold iterGet, deref; rewrite (G _ Hit); reflexivity).
  destruct q as [l|l|l|d|d| | | | |x y|p b]; try reflexivity.
  - apply C. intros p Hp. apply refs_tab. auto.
  - apply C. intros p Hp. apply refs_tab. auto.
  - apply C. intros p Hp. apply refs_tab. auto.
  - rewrite It; [reflexivity | cbn; auto].
  - rewrite It; [reflexivity | cbn; auto].
  - destruct (mimg mo) as [p|] eqn:Ei; [|reflexivity]. unfold deref. rewrite (G p); [reflexivity|]. apply refs_tab. auto.
Qed.
Lemma represents_frame h h' o st : represents h o st -> heapOK h' -> (forall l, reach h o l -> hat h' l = hat h l) -> represents h' o st.
Proof.
  intros [OK (mo & a & ai & Ho & Ha & Va & Ia & Hi & Vi & Ii & Tn & Te & Tf & Cn & Ix & Sz & Im & Lu & So & Ex)] OK' F. constructor; [exact OK'|].
  assert (G : forall l, In l (refs (OMap mo)) -> hat h' l = hat h l) by (intros l Hl; apply F; apply (re_step h o o (OMap mo) l (re_here h o) Ho Hl)).
  exists mo, a, ai. rewrite (F o (re_here h o)). split; [exact Ho|]. rewrite (G (msArr mo)) by (cbn; auto). rewrite (G (msiArr mo)) by (cbn; auto). repeat (split; [assumption|]).
  split; [apply (tableHolds_ext h); [|exact Tn]; intros p Hp; apply G, refs_tab; auto|]. split; [apply (tableHolds_ext h); [|exact Te]; intros p Hp; apply G, refs_tab; auto|].
  split; [apply (tableHolds_ext h); [|exact Tf]; intros p Hp; apply G, refs_tab; auto|]. repeat (split; [assumption|]).
  split; [|repeat (split; [assumption|])]. { destruct (mimg mo) as [p|] eqn:Ei; [|exact Im]. rewrite (G p) by (apply refs_tab; auto). exact Im. }
  intros l Hl. rewrite (G l) by (cbn [refs]; do 4 right; apply in_or_app; auto). apply Ex, Hl.
Qed.

(** ** Programs stay among what they can reach *)
(** [P] contains the known addresses and is closed, apart from addresses not handed out yet *)
Definition closed (h : heap) (P : loc -> Prop) : Prop := forall l x q, P l -> hat h l = Some x -> In q (refs x) -> P q.
Record apart (h : heap) (K : bool -> list loc) (P : bool -> loc -> Prop) : Prop := {
  ap_heap : heapOK h;
  ap_known : forall s l, In l (K s) -> P s l;
  ap_closed : forall s, closed h (P s);
  ap_old : forall s l, P s l -> (l < hnext h)%nat;
  ap_apart : forall l, P true l -> P false l -> False }.

Lemma act_apart s h K h' Ks' P : apart h K P -> act (h, K s) (h', Ks') ->
  exists P', apart h' (fun b => if Bool.eqb b s then Ks' else K b) P' /\ (forall b l, P b l -> P' b l) /\ (forall l, P (negb s) l -> hat h' l = hat h l) /\ (forall l, P' (negb s) l -> P (negb s) l) /\ incl (K s) Ks'.
Proof.
  intros [A1 A2 A3 A4 A5] H. inversion H as [h0 K0 l x p Hl Hx Hp E1 E2|h0 K0 l x y Hl Hx Hy E1 E2|h0 K0 l Hl E1 E2|h0 K0 y Hy E1 E2]; subst h0 K0.
  - subst h' Ks'. exists P. assert (Pp : P s p) by (apply (A3 s l x p (A2 s l Hl) Hx Hp)). split; [|split; [auto|]; split; [auto|]; split; [auto | intros q Hq; right; exact Hq]].
    constructor; auto. intros b q Hq. destruct (Bool.eqb_spec b s) as [->|N]; [destruct Hq as [<-|Hq]; auto | apply A2, Hq].
  - subst h' Ks'. exists P. assert (Pl : P s l) by (apply A2, Hl). split; [|split; [auto|]; split; [|split; [auto | apply incl_refl]]].
    + constructor; auto.
      * intros k Hk. rewrite store_at. specialize (A4 s l Pl). cbn [hnext store] in Hk. destruct (Nat.eqb_spec k l); [lia | apply A1, Hk].
      * intros b q Hq. destruct (Bool.eqb_spec b s) as [->|N]; apply A2, Hq.
      * intros b k x' q Pk Hx' Hq. rewrite store_at in Hx'. destruct (Nat.eqb_spec k l) as [->|N]; [|apply (A3 b k x' q); auto]. injection Hx' as <-.
        assert (b = s) by (destruct b, s; auto; exfalso; eauto). subst. apply A2, Hy, Hq.
    + intros k Pk. rewrite store_at. destruct (Nat.eqb_spec k l) as [->|N]; [|reflexivity]. exfalso. destruct s; cbn in Pk; eauto.
  - subst h' Ks'. exists P. assert (Pl : P s l) by (apply A2, Hl). split; [|split; [auto|]; split; [|split; [auto | apply incl_refl]]].
    + constructor; auto.
      * intros k Hk. cbn [hat hnext] in *. destruct (Nat.eqb k l); [reflexivity | apply A1, Hk].
      * intros b q Hq. destruct (Bool.eqb_spec b s) as [->|N]; apply A2, Hq.
      * intros b k x' q Pk Hx' Hq. cbn [hat] in Hx'. destruct (Nat.eqb_spec k l) as [->|N]; [discriminate|]. apply (A3 b k x' q); auto.
    + intros k Pk. cbn [hat]. destruct (Nat.eqb_spec k l) as [->|N]; [|reflexivity]. exfalso. destruct s; cbn in Pk; eauto.
  - subst h' Ks'. exists (fun b l => P b l \/ (b = s /\ l = hnext h)). destruct (alloc_extends h y) as (X1 & X2 & X3). split; [|split; [auto|]; split; [|split]].
    + constructor.
      * apply X3, A1.
      * intros b q Hq. destruct (Bool.eqb_spec b s) as [->|N]; [|left; apply A2, Hq]. destruct Hq as [<-|Hq]; [right; split; reflexivity | left; apply A2, Hq].
      * intros b k x' q Pk Hx' Hq. destruct Pk as [Pk|[-> ->]].
        -- rewrite X2 in Hx' by (apply (A4 b), Pk). left. apply (A3 b k x' q); auto.
        -- change (hat (fst (alloc h y)) (hnext h) = Some x') in Hx'. rewrite alloc_at in Hx'. injection Hx' as <-. left. apply A2, Hy, Hq.
      * intros b k [Pk|[_ ->]]; [specialize (A4 b k Pk) | pose proof (eq_refl (hnext h))]; cbn [hnext alloc fst]; lia.
      * intros k [H1|[B1 ->]] [H2|[B2 E2]]; [eauto | subst k; specialize (A4 _ _ H1); lia | specialize (A4 _ _ H2); lia | congruence].
    + intros k Pk. apply X2, (A4 _ _ Pk).
    + intros k [Pk|[B _]]; [exact Pk | destruct s; discriminate].
    + intros q Hq. right. exact Hq.
Qed.

Lemma acts_apart s h K h' Ks' P : apart h K P -> acts (h, K s) (h', Ks') ->
  exists P', apart h' (fun b => if Bool.eqb b s then Ks' else K b) P' /\ (forall b l, P b l -> P' b l) /\ (forall l, P (negb s) l -> hat h' l = hat h l) /\ (forall l, P' (negb s) l -> P (negb s) l) /\ incl (K s) Ks'.
Proof.
  intros A H. remember (h, K s) as a eqn:Ea. remember (h', Ks') as b eqn:Eb. revert h K P A Ea Eb. induction H as [t|t [h1 K1] u Ha Hs IH]; intros h K P A -> Eb.
  - injection Eb as <- <-. exists P. split; [|split; [auto|]; split; [auto|]; split; [auto | apply incl_refl]]. destruct A as [A1 A2 A3 A4 A5]. constructor; auto. intros b q Hq. destruct (Bool.eqb_spec b s) as [->|N]; apply A2, Hq.
  - destruct (act_apart s h K h1 K1 P A Ha) as (P1 & B & M1 & F1 & N1 & I1).
    destruct (IH h1 _ P1 B) as (P2 & C & M2 & F2 & N2 & I2); [rewrite Bool.eqb_reflx; reflexivity | exact Eb|].
    exists P2. split; [|split; [auto|]; split; [|split]].
    + destruct C as [C1 C2 C3 C4 C5]. constructor; auto. intros b q Hq. apply C2. destruct (Bool.eqb b s); exact Hq.
    + intros l Pl. rewrite F2 by auto. apply F1, Pl.
    + auto.
    + rewrite Bool.eqb_reflx in I2. intros q Hq. apply I2, I1, Hq.
Qed.

Lemma turn_apart s w w' P : apart (wh w) (wk w) P -> turn s w w' ->
  exists P', apart (wh w') (wk w') P' /\ (forall l, P (negb s) l -> hat (wh w') l = hat (wh w) l) /\ (forall b, incl (wk w b) (wk w' b)).
Proof.
  intros A [H E]. destruct (acts_apart s (wh w) (wk w) (wh w') (wk w' s) P A H) as (P' & B & M & F & _ & I). exists P'. split; [|split; [exact F|]].
  - destruct B as [B1 B2 B3 B4 B5]. constructor; auto. intros b q Hq. apply B2. destruct (Bool.eqb_spec b s) as [->|N]; [exact Hq|]. assert (b = negb s) by (destruct b, s; auto; contradiction). subst b. rewrite <- E. exact Hq.
  - intros b. destruct (Bool.bool_dec b s) as [->|N]; [exact I|]. assert (b = negb s) by (destruct b, s; auto; contradiction). subst b. rewrite E. apply incl_refl.
Qed.
Lemma turns_apart w w' P : apart (wh w) (wk w) P -> turns w w' -> exists P', apart (wh w') (wk w') P' /\ (forall b, incl (wk w b) (wk w' b)).
Proof.
  intros A H. revert P A. induction H as [w|s w w1 w2 T _ IH]; intros P A; [exists P; split; [exact A | intros b; apply incl_refl]|].
  destruct (turn_apart s w w1 P A T) as (P1 & B & _ & I1). destruct (IH P1 B) as (P2 & C & I2). exists P2. split; [exact C|]. intros b. eapply incl_tran; [apply I1 | apply I2].
Qed.
Lemma reach_in h K P s r l : apart h K P -> In r (K s) -> reach h r l -> P s l.
Proof. intros A Hr H. induction H as [|p x q Hp IH Hx Hq]; [apply (ap_known _ _ _ A), Hr | apply (ap_closed _ _ _ A s p x q IH Hx Hq)]. Qed.

Lemma calls_gen srt unit o n f cs w0 w : performsAll srt unit o n f cs w0 w -> forall P, (forall s, represents (wh w0) (rootOf o n s) (f s)) ->
  apart (wh w0) (wk w0) P -> (forall s, In (rootOf o n s) (wk w0 s)) ->
  forall s, exists st', callAll srt unit (f s) (callsOf s cs) = Ok st' /\ represents (wh w) (rootOf o n s) st'.
Proof.
  intros H0. induction H0 as [f w0|f s c st' cs w0 w1 w2 Ex T Pf Hs IH]; intros P Ro A Hk b.
  - exists (f b). split; [reflexivity | apply Ro].
  - destruct (turn_apart s w0 w1 P A T) as (P1 & A1 & F & I1).
    assert (Hk1 : forall b, In (rootOf o n b) (wk w1 b)) by (intros x; apply I1, Hk).
    assert (G : represents (wh w1) (rootOf o n (negb s)) (f (negb s))).
    { apply (represents_frame (wh w0)); [apply Ro | apply A1|]. intros l Hl. apply F. apply (reach_in (wh w0) (wk w0) P (negb s) _ l A (Hk _) Hl). }
    assert (R1 : forall x, represents (wh w1) (rootOf o n x) (putSide f s st' x)).
    { intros x. unfold putSide. destruct (Bool.eqb_spec x s) as [->|N]; [apply Pf, Ro|]. assert (x = negb s) by (destruct x, s; auto; contradiction). subst x. exact G. }
    destruct (IH P1 R1 A1 Hk1 b) as (st2 & E2 & Rb). exists st2. split; [|exact Rb]. unfold callsOf, putSide in *. cbn [filter fst]. destruct (Bool.eqb_spec b s) as [->|N].
    + rewrite Bool.eqb_reflx. cbn [map snd callAll]. rewrite Ex. exact E2.
    + destruct (Bool.eqb_spec s b) as [->|_]; [contradiction|]. exact E2.
Qed.

(** ** The theorems *)
Section Both.
Variables (h : heap) (o : loc) (st : lmap) (h' : heap) (n : loc).
Hypothesis R : represents h o st.
Hypothesis E : copyMap h o = Ok (h', n).

Lemma both : represents h' o st /\ represents h' n (copyOf st) /\ n <> o /\ apart h' (fun s => if s then [o] else [n]) (fun s => owned h' (if s then o else n)).
Proof.
  destruct (copy_works h o st R) as (h1 & n1 & E1 & X & Ln & Rn & Hr). rewrite E in E1. injection E1 as <- <-.
  assert (OK' : heapOK h') by apply Rn.
  assert (Lo : forall l, reach h o l -> (l < hnext h)%nat) by (intros l Hl; apply heapOK_lt; [apply R | apply (owned_alive h o st l R), (reach_owned h o st l R Hl)]).
  assert (Ro : represents h' o st) by (apply (represents_frame h); [exact R | exact OK' | intros l Hl; apply X, Lo, Hl]).
  assert (Lto : (o < hnext h)%nat) by (apply Lo, re_here). split; [exact Ro|]. split; [exact Rn|]. split; [lia|]. constructor.
  - exact OK'.
  - intros [|] l [<-|[]]; left; reflexivity.
  - intros [|] l x q; [apply (owned_closed h' o st); exact Ro | apply (owned_closed h' n (copyOf st)); exact Rn].
  - intros [|] l Hl; (apply heapOK_lt; [exact OK'|]); [apply (owned_alive h' o st l Ro Hl) | apply (owned_alive h' n (copyOf st) l Rn Hl)].
  - intros l H1 H2. assert (G1 : (l < hnext h)%nat).
    { destruct H1 as [->|(mo & Hm & Hl)]; [exact Lto|]. rewrite (proj1 (proj2 X) o Lto) in Hm. apply Lo. apply (re_step h o o (OMap mo) l (re_here h o) Hm Hl). }
    destruct H2 as [->|(mo & Hm & Hl)]; [lia|]. specialize (Hr mo Hm l Hl). lia.
Qed.

Theorem copy_answers q r : answerOf st q = Some r -> lim (copyOf st) = lim st -> ask h' n q = r /\ ask h' o q = r /\ ask h o q = r.
Proof.
  intros Hq Hl. destruct both as (Ro & Rn & _). split; [|split; [apply (answers h' o st q r Ro Hq) | apply (answers h o st q r R Hq)]]. apply (answers h' n (copyOf st) q r Rn). rewrite <- Hq.
  destruct q as [l|l|l|d|d| | | | |x y|p b]; try reflexivity; cbn [answerOf].
  - rewrite Hl. reflexivity.
  - unfold labelAt. rewrite Hl. destruct (lim st) as [img|] eqn:Hi; [|reflexivity]. unfold copyOf in *. cbn [lim llut] in *. rewrite Hl. reflexivity.
Qed.

Theorem independent w w' s : turns (bothMaps h' o n) w -> turn s w w' ->
  (forall l, reach (wh w) (rootOf o n (negb s)) l -> hat (wh w') l = hat (wh w) l) /\ forall q, ask (wh w') (rootOf o n (negb s)) q = ask (wh w) (rootOf o n (negb s)) q.
Proof.
  intros T1 T2. destruct both as (_ & _ & _ & A). destruct (turns_apart (bothMaps h' o n) w _ A T1) as (P1 & A1 & I1). destruct (turn_apart s w w' P1 A1 T2) as (P2 & A2 & F & _).
  assert (Hr : In (rootOf o n (negb s)) (wk w (negb s))) by (apply I1; cbn; destruct s; cbn; auto).
  assert (G : forall l, reach (wh w) (rootOf o n (negb s)) l -> hat (wh w') l = hat (wh w) l) by (intros l Hl; apply F; apply (reach_in (wh w) (wk w) P1 (negb s) _ l A1 Hr Hl)).
  split; [exact G|]. intros q. apply ask_frame, G.
Qed.

Theorem calls_apart srt unit cs w : performsAll srt unit o n (fun s => if s then st else copyOf st) cs (bothMaps h' o n) w ->
  exists st1 st2, callAll srt unit st (callsOf true cs) = Ok st1 /\ callAll srt unit (copyOf st) (callsOf false cs) = Ok st2 /\ represents (wh w) o st1 /\ represents (wh w) n st2.
Proof.
  intros H. destruct both as (Ro & Rn & _ & A). pose proof (calls_gen srt unit o n _ cs (bothMaps h' o n) w H _ ltac:(intros [|]; assumption) A ltac:(intros [|]; cbn; auto)) as G.
  destruct (G true) as (st1 & E1 & R1). destruct (G false) as (st2 & E2 & R2). exists st1, st2. auto.
Qed.
End Both.

(** ** Every map is represented, and every change of a map can be programmed *)
Lemma acts_trans a b c : acts a b -> acts b c -> acts a c.
Proof. induction 1; [auto|]. intros H2. econstructor; [eassumption | auto]. Qed.
Lemma holds_exists c f : 0 <= c -> exists a, holds a c f.
Proof.
  intros Hc. exists (map (fun i => f (Z.of_nat i - c)) (seq 0 (Z.to_nat (2 * c + 1)))).
  assert (L : Z.of_nat (length (map (fun i => f (Z.of_nat i - c)) (seq 0 (Z.to_nat (2 * c + 1))))) = 2 * c + 1) by (rewrite map_length, seq_length; lia).
  constructor; [exact Hc | exact L|]. intros d Hd. unfold arrGet, arrIndex. rewrite (half_len _ c Hc L). destruct (Z.ltb_spec (d + Z.of_nat (Z.to_nat c)) 0); [lia|].
  apply vget_Ok. rewrite nth_error_map. assert (Q : nth_error (seq 0 (Z.to_nat (2 * c + 1))) (Z.to_nat (d + Z.of_nat (Z.to_nat c))) = Some (Z.to_nat (d + c))).
  { rewrite (nth_error_nth' _ 0%nat) by (rewrite seq_length; lia). rewrite seq_nth by lia. f_equal. lia. }
  rewrite Q. cbn. do 2 f_equal. lia.
Qed.
Lemma new_one h K x : incl (refs x) K -> exists h' K' p, acts (h, K) (h', K') /\ extends h h' /\ incl K K' /\ In p K' /\ (hnext h <= p < hnext h')%nat /\ hat h' p = Some x.
Proof.
  intros H. exists (fst (alloc h x)), (hnext h :: K), (hnext h). split; [econstructor; [apply (act_new h K x H) | constructor]|]. split; [apply alloc_extends|]. split; [intros q Hq; right; exact Hq|]. split; [left; reflexivity|]. split; [cbn; lia | apply alloc_at].
Qed.
Lemma new_cells {A} (mk : nat -> A -> obj) o : (forall i v q, In q (refs (mk i v)) -> q = o) -> forall vs k h K, In o K ->
  exists h' K' tab, acts (h, K) (h', K') /\ extends h h' /\ incl K K' /\ (forall p, In (Some p) tab -> In p K' /\ (hnext h <= p < hnext h')%nat) /\
    length tab = length vs /\ forall i, match nth_error tab i, nth_error vs i with
            | None, None | Some None, Some None => True
            | Some (Some p), Some (Some v) => hat h' p = Some (mk (k + i)%nat v)
            | _, _ => False
            end.
Proof.
  intros Hm. induction vs as [|v vs IH]; intros k h K Ho.
  - exists h, K, []. split; [constructor|]. split; [apply extends_refl|]. split; [apply incl_refl|]. split; [intros p []|]. split; [reflexivity|]. intros [|i]; exact I.
  - destruct v as [v|].
    + destruct (new_one h K (mk k v)) as (h1 & K1 & p & A1 & X1 & I1 & Hp & Lp & Hat); [intros q Hq; rewrite (Hm _ _ _ Hq); exact Ho|].
      destruct (IH (S k) h1 K1 (I1 _ Ho)) as (h2 & K2 & tab & A2 & X2 & I2 & Ht & Lt & T). exists h2, K2, (Some p :: tab). split; [exact (acts_trans _ _ _ A1 A2)|]. split; [exact (extends_trans _ _ _ X1 X2)|]. split; [exact (incl_tran I1 I2)|].
      assert (L1 : (hnext h <= hnext h1)%nat) by apply X1. assert (L2 : (hnext h1 <= hnext h2)%nat) by apply X2.
      split; [|split; [cbn; lia|]].
      * intros q [Q|Q]; [injection Q as <-; split; [apply I2, Hp | lia] | destruct (Ht q Q); split; [assumption | lia]].
      * intros [|i]; cbn [nth_error]; [rewrite Nat.add_0_r, (proj1 (proj2 X2)) by lia; exact Hat|]. specialize (T i). replace (k + S i)%nat with (S k + i)%nat by lia. exact T.
    + destruct (IH (S k) h K Ho) as (h2 & K2 & tab & A2 & X2 & I2 & Ht & Lt & T). exists h2, K2, (None :: tab). repeat (split; [assumption|]). split; [|split; [cbn; lia|]].
      * intros q [Q|Q]; [discriminate | apply Ht, Q].
      * intros [|i]; cbn [nth_error]; [exact I|]. specialize (T i). replace (k + S i)%nat with (S k + i)%nat by lia. exact T.
Qed.

Theorem programmable h K o x st : heapOK h -> hat h o = Some x -> In o K -> 0 <= cap (lg st) -> exists h' K', acts (h, K) (h', K') /\ represents h' o st.
Proof.
  intros OK Hx Ho Hc. destruct (holds_exists _ (sg (lg st)) Hc) as (a & Va). destruct (holds_exists _ (sgi (lg st)) Hc) as (ai & Vi).
  destruct (new_one h K (OArr a)) as (h1 & K1 & s1 & A1 & X1 & I1 & P1 & L1 & T1); [intros q []|].
  destruct (new_one h1 K1 (OArr ai)) as (h2 & K2 & s2 & A2 & X2 & I2 & P2 & L2 & T2); [intros q []|].
  destruct (new_cells (fun i v => ONode o i v) o) with (vs := nodes (lg st)) (k := 0%nat) (h := h2) (K := K2) as (h3 & K3 & tn & A3 & X3 & I3 & P3 & L3 & T3); [intros i v q [<-|[]]; reflexivity | auto|].
  destruct (new_cells (fun i v => OEdge o i v (lsc st i)) o) with (vs := edges (lg st)) (k := 0%nat) (h := h3) (K := K3) as (h4 & K4 & te & A4 & X4 & I4 & P4 & L4 & T4); [intros i v q [<-|[]]; reflexivity | auto|].
  destruct (new_cells (fun i v => OFace o i (map (pair o) (fanchors v)) (fflags v) (farea v) (larea st i)) o) with (vs := faces (lg st)) (k := 0%nat) (h := h4) (K := K4) as (h5 & K5 & tf & A5 & X5 & I5 & P5 & L5 & T5); [|auto|].
  { intros i v q [<-|H]; [reflexivity|]. rewrite map_map in H. apply in_map_iff in H. destruct H as (d & <- & _). reflexivity. }
  assert (Q : exists h6 K6 im, acts (h5, K5) (h6, K6) /\ extends h5 h6 /\ incl K5 K6 /\ match im, lim st with Some p, Some i => hat h6 p = Some (OImage i) /\ In p K6 /\ (hnext h5 <= p)%nat | None, None => True | _, _ => False end).
  { destruct (lim st) as [img|]; [|exists h5, K5, None; split; [constructor|]; split; [apply extends_refl|]; split; [apply incl_refl | exact I]].
    destruct (new_one h5 K5 (OImage img)) as (h6 & K6 & p & A6 & X6 & I6 & P6 & L6 & T6); [intros q []|]. exists h6, K6, (Some p). repeat (split; [assumption|]). lia. }
  destruct Q as (h6 & K6 & im & A6 & X6 & I6 & P6).
  set (idx := fillFrom [] (livePos 0 (nodes (lg st)))).
  set (mo := mkMO s1 s2 (s1, (length a / 2)%nat) (s2, (length ai / 2)%nat) tn te tf (nodeCount (lg st)) (edgeCount (lg st)) (faceCount (lg st)) idx (lsize st) im (llut st) (sorted (lg st)) []).
  assert (Y2 : extends h1 h6) by (repeat (eapply extends_trans; [eassumption|]); apply extends_refl).
  assert (Y3 : extends h2 h6) by (repeat (eapply extends_trans; [eassumption|]); apply extends_refl).
  assert (Y4 : extends h3 h6) by (repeat (eapply extends_trans; [eassumption|]); apply extends_refl).
  assert (Y5 : extends h4 h6) by (repeat (eapply extends_trans; [eassumption|]); apply extends_refl).
  assert (Y1 : extends h h6) by (eapply extends_trans; [exact X1 | exact Y2]).
  assert (Lo : (o < hnext h)%nat) by (apply heapOK_lt; [exact OK | congruence]).
  assert (B1 : (hnext h <= hnext h1)%nat) by apply X1. assert (B2 : (hnext h1 <= hnext h2)%nat) by apply X2. assert (B3 : (hnext h2 <= hnext h3)%nat) by apply X3. assert (B4 : (hnext h3 <= hnext h4)%nat) by apply X4. assert (B5 : (hnext h4 <= hnext h5)%nat) by apply X5.
  assert (B6 : (hnext h5 <= hnext h6)%nat) by apply X6.
  assert (Ho6 : hat h6 o = Some x) by (rewrite (proj1 (proj2 Y1) o Lo); exact Hx).
  exists (store h6 o (OMap mo)), K6. split.
  - eapply acts_trans; [exact A1|]. eapply acts_trans; [exact A2|]. eapply acts_trans; [exact A3|]. eapply acts_trans; [exact A4|]. eapply acts_trans; [exact A5|]. eapply acts_trans; [exact A6|].
    econstructor; [|constructor]. apply (act_store h6 K6 o x (OMap mo)); [auto 10 | exact Ho6|]. intros q Hq. apply refs_inv in Hq. unfold mo in Hq. cbn [msArr msiArr msIt msiIt mnodes medges mfaces mimg mextra fst] in Hq.
    destruct Hq as [->|[->|[->|[->|[Hq|[Hq|[Hq|[Hq|[]]]]]]]]]; auto 10.
    + apply I6, I5, I4, P3, Hq.
    + apply I6, I5, P4, Hq.
    + apply I6, P5, Hq.
    + subst im. destruct (lim st); [apply P6 | contradiction].
  - assert (Ok6 : heapOK h6) by (apply Y1, OK).
    assert (Hk : forall p, p <> o -> hat (store h6 o (OMap mo)) p = hat h6 p) by (intros p Np; rewrite store_at; destruct (Nat.eqb_spec p o); [contradiction | reflexivity]).
    constructor.
    + intros l Hl. rewrite store_at. cbn [hnext store] in Hl. destruct (Nat.eqb_spec l o); [lia | apply Ok6, Hl].
    + exists mo, a, ai. rewrite store_at, Nat.eqb_refl. split; [reflexivity|]. unfold mo at 1 2 3 4 5 6 7 8 9 10 11 12 13 14 15 16 17 18 19 20 21 22. cbn [msArr msiArr msIt msiIt mnodes medges mfaces mnc mec mfc midx msize mimg mlut msorted mextra].
      split; [rewrite Hk by lia; rewrite (proj1 (proj2 Y2)) by lia; exact T1|]. split; [exact Va|]. split; [reflexivity|].
      split; [rewrite Hk by lia; rewrite (proj1 (proj2 Y3)) by lia; exact T2|]. split; [exact Vi|]. split; [reflexivity|].
      split. { split; [exact L3|]. intros i. specialize (T3 i). destruct (nth_error tn i) as [[p|]|] eqn:Ei; auto. destruct (nth_error (nodes (lg st)) i) as [[v|]|]; auto. exists (ONode o i v). split; [|reflexivity].
        destruct (P3 p (nth_error_In _ _ Ei)) as (_ & Lp). rewrite Hk by lia. rewrite (proj1 (proj2 Y4)) by lia. exact T3. }
      split. { split; [exact L4|]. intros i. specialize (T4 i). destruct (nth_error te i) as [[p|]|] eqn:Ei; auto. destruct (nth_error (edges (lg st)) i) as [[v|]|]; auto. eexists. split; [|reflexivity].
        destruct (P4 p (nth_error_In _ _ Ei)) as (_ & Lp). rewrite Hk by lia. rewrite (proj1 (proj2 Y5)) by lia. exact T4. }
      split. { split; [exact L5|]. intros i. specialize (T5 i). destruct (nth_error tf i) as [[p|]|] eqn:Ei; auto. destruct (nth_error (faces (lg st)) i) as [[v|]|]; auto. eexists. split; [|reflexivity].
        destruct (P5 p (nth_error_In _ _ Ei)) as (_ & Lp). rewrite Hk by lia. rewrite (proj1 (proj2 X6)) by lia. exact T5. }
      split; [auto|]. split.
      { split; [|apply wf_keys, fillFrom_wf; split; [constructor | intros e []]]. pose proof (fillFrom_stored (livePos 0 (nodes (lg st))) []) as P. cbn [stored map] in P. rewrite app_nil_r in P. exact P. }
      split; [reflexivity|]. split; [|split; [reflexivity|]; split; [reflexivity | intros l []]].
      destruct im as [p|], (lim st) as [img|]; auto. destruct P6 as (Q1 & _ & Q2). rewrite Hk by lia. exact Q1.
Qed.
Theorem representable st : 0 <= cap (lg st) -> exists h o, represents h o st.
Proof.
  intros Hc. destruct (programmable (mkHeap (fun k => if Nat.eqb k 0 then Some (OExtra []) else None) 1%nat) [0%nat] 0%nat (OExtra []) st) as (h' & K' & _ & R); auto; [|left; reflexivity | exists h', 0%nat; exact R].
  intros l Hl. cbn [hnext hat] in *. destruct (Nat.eqb_spec l 0); [lia | reflexivity].
Qed.
