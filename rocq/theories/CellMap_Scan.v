(** LabelScanIterator visits the pixels with its value inside its rectangle, row by row, each once. *)
From Verif Require Import Base CellMap_Model CellMap_Spec.
From Coq Require Import Sorting.Sorted.
Local Open Scope Z_scope.

Lemma ctypeEqb_eq a b : ctypeEqb a b = true <-> a = b.
Proof. destruct a, b; cbn; split; congruence. Qed.
Lemma pixEqb_eq a b : pixEqb a b = true <-> a = b.
Proof.
  unfold pixEqb. rewrite andb_true_iff, ctypeEqb_eq, Z.eqb_eq. destruct a, b; cbn. split; [intros [-> ->]; reflexivity | intros [= -> ->]; auto].
Qed.
Lemma insideImg_iff im x y : insideImg im x y = true <-> 0 <= x < iw im /\ 0 <= y < ih im.
Proof. unfold insideImg. rewrite !andb_true_iff, !Z.leb_le, !Z.ltb_lt. lia. Qed.
Lemma readPix_Ok im x y p : readPix im x y = Ok p <-> (0 <= x < iw im /\ 0 <= y < ih im) /\ p = ipix im x y.
Proof.
  unfold readPix. destruct (insideImg im x y) eqn:E.
  - apply insideImg_iff in E. split; [intros [= <-]; auto | intros [_ ->]; reflexivity].
  - split; [discriminate | intros [H _]; apply insideImg_iff in H; congruence].
Qed.

(** row by row *)
Definition before (p q : Z * Z) : Prop := snd p < snd q \/ (snd p = snd q /\ fst p < fst q).
Definition notBefore (p q : Z * Z) : Prop := snd q < snd p \/ (snd p = snd q /\ fst q <= fst p).
Definition fits (im : img) (r : rect) : Prop := forall x y, inRect r x y -> 0 <= x < iw im /\ 0 <= y < ih im.
(** the positions from (x, y) on *)
Definition left_ (r : rect) (x y : Z) : Z := (ry1 r - y - 1) * (rx1 r - rx0 r) + (rx1 r - x).

Lemma left_pos r x y : inRect r x y -> 0 < left_ r x y.
Proof. unfold inRect, left_. intros [H K]. assert (0 <= (ry1 r - y - 1) * (rx1 r - rx0 r)) by (apply Z.mul_nonneg_nonneg; lia). lia. Qed.

Definition found (im : img) (r : rect) (v : pix) (from : Z * Z) (o : option (Z * Z)) : Prop :=
  match o with
  | Some q => inRect r (fst q) (snd q) /\ notBefore q from /\ ipix im (fst q) (snd q) = v /\
              forall x y, inRect r x y -> notBefore (x, y) from -> before (x, y) q -> ipix im x y <> v
  | None => forall x y, inRect r x y -> notBefore (x, y) from -> ipix im x y <> v
  end.

Lemma advance_spec im r v (k : Z -> Z -> res (option (Z * Z))) x y : inRect r x y ->
  (forall a b, inRect r a b -> left_ r a b < left_ r x y -> notBefore (a, b) (x, y) -> exists o, k a b = Ok o /\ found im r v (a, b) o) ->
  exists o, scanAdvance k r x y = Ok o /\
    match o with
    | Some q => inRect r (fst q) (snd q) /\ before (x, y) q /\ ipix im (fst q) (snd q) = v /\
                forall a b, inRect r a b -> before (x, y) (a, b) -> before (a, b) q -> ipix im a b <> v
    | None => forall a b, inRect r a b -> before (x, y) (a, b) -> ipix im a b <> v
    end.
Proof.
  intros HR Hk. unfold scanAdvance. destruct (Z.eqb_spec (x + 1) (rx1 r)) as [E|E].
  - destruct (Z.eqb_spec (y + 1) (ry1 r)) as [F|F].
    + exists None. split; [reflexivity|]. intros a b [A B] C. unfold before in C; cbn in C. lia.
    + destruct (Hk (rx0 r) (y + 1)) as (o & Ho & Hf).
      * unfold inRect in *; lia.
      * unfold left_. unfold inRect in HR.
        replace ((ry1 r - y - 1) * (rx1 r - rx0 r)) with ((ry1 r - (y + 1) - 1) * (rx1 r - rx0 r) + (rx1 r - rx0 r)) by ring. lia.
      * unfold notBefore; cbn; lia.
      * exists o. split; [exact Ho|]. destruct o as [[qx qy]|]; cbn in *.
        -- destruct Hf as (A & B & C & D). unfold before, notBefore, inRect in *; cbn in *.
           split; [exact A|]. split; [lia|]. split; [exact C|]. intros a b H1 H2 H3. apply D; lia.
        -- intros a b H1 H2. apply Hf; [exact H1|]. unfold before, notBefore, inRect in *; cbn in *. lia.
  - destruct (Hk (x + 1) y) as (o & Ho & Hf).
    + unfold inRect in *; lia.
    + unfold left_. lia.
    + unfold notBefore; cbn; lia.
    + exists o. split; [exact Ho|]. destruct o as [[qx qy]|]; cbn in *.
      * destruct Hf as (A & B & C & D). unfold before, notBefore, inRect in *; cbn in *.
        split; [exact A|]. split; [lia|]. split; [exact C|]. intros a b H1 H2 H3. apply D; lia.
      * intros a b H1 H2. apply Hf; [exact H1|]. unfold before, notBefore, inRect in *; cbn in *. lia.
Qed.

Lemma seek_spec im r v : fits im r -> forall fuel x y, inRect r x y -> left_ r x y <= Z.of_nat fuel ->
  exists o, scanSeek fuel im r v x y = Ok o /\ found im r v (x, y) o.
Proof.
  intros Hf. induction fuel as [|k IH]; intros x y HR HL.
  - pose proof (left_pos r x y HR). lia.
  - cbn [scanSeek]. assert (readPix im x y = Ok (ipix im x y)) as E by (apply readPix_Ok; split; [apply Hf; exact HR | reflexivity]).
    rewrite E. cbn [bind]. destruct (pixEqb (ipix im x y) v) eqn:Ev.
    + apply pixEqb_eq in Ev. exists (Some (x, y)). split; [reflexivity|]. cbn. split; [exact HR|]. split; [right; cbn; lia|]. split; [exact Ev|].
      intros a b H1 H2 H3. unfold before, notBefore in *; cbn in *. lia.
    + assert (ipix im x y <> v) as Nv by (intros C; apply pixEqb_eq in C; congruence).
      destruct (advance_spec im r v (scanSeek k im r v) x y HR) as (o & Ho & Hs).
      { intros a b HR' HL' _. apply IH; [exact HR' | lia]. }
      exists o. split; [exact Ho|]. destruct o as [[qx qy]|]; cbn in *.
      * destruct Hs as (A & B & C & D). split; [exact A|]. split; [unfold before, notBefore in *; cbn in *; lia|]. split; [exact C|].
        intros a b H1 H2 H3. destruct (Z.eq_dec a x) as [->|Na]; [destruct (Z.eq_dec b y) as [->|Nb]; [exact Nv|]|]; apply D; auto; unfold before, notBefore in *; cbn in *; lia.
      * intros a b H1 H2. destruct (Z.eq_dec a x) as [->|Na]; [destruct (Z.eq_dec b y) as [->|Nb]; [exact Nv|]|]; apply Hs; auto; unfold before, notBefore in *; cbn in *; lia.
Qed.

Lemma scanFuel_left r x y : inRect r x y -> left_ r x y <= Z.of_nat (scanFuel r).
Proof.
  intros [H K]. unfold scanFuel, left_, rectArea. rewrite Nat2Z.inj_succ, Z2Nat.id by (apply Z.mul_nonneg_nonneg; lia).
  assert ((ry1 r - y - 1) * (rx1 r - rx0 r) <= (ry1 r - ry0 r - 1) * (rx1 r - rx0 r)) by (apply Z.mul_le_mono_nonneg_r; lia).
  replace ((rx1 r - rx0 r) * (ry1 r - ry0 r)) with ((ry1 r - ry0 r - 1) * (rx1 r - rx0 r) + (rx1 r - rx0 r)) by ring. lia.
Qed.

Lemma next_spec im r v x y : fits im r -> inRect r x y ->
  exists o, scanNext im r v x y = Ok o /\
    match o with
    | Some q => inRect r (fst q) (snd q) /\ before (x, y) q /\ ipix im (fst q) (snd q) = v /\
                forall a b, inRect r a b -> before (x, y) (a, b) -> before (a, b) q -> ipix im a b <> v
    | None => forall a b, inRect r a b -> before (x, y) (a, b) -> ipix im a b <> v
    end.
Proof.
  intros Hf HR. unfold scanNext. apply advance_spec; [exact HR|]. intros a b HR' _ _. apply seek_spec; auto. apply scanFuel_left; exact HR'.
Qed.

Lemma begin_spec im r v : fits im r -> exists o, scanBegin im r v = Ok o /\
    match o with
    | Some q => inRect r (fst q) (snd q) /\ ipix im (fst q) (snd q) = v /\ forall a b, inRect r a b -> before (a, b) q -> ipix im a b <> v
    | None => forall a b, inRect r a b -> ipix im a b <> v
    end.
Proof.
  intros Hf. unfold scanBegin. destruct ((rx0 r <? rx1 r) && (ry0 r <? ry1 r)) eqn:E.
  - apply andb_true_iff in E. rewrite !Z.ltb_lt in E. destruct E as [E1 E2].
    assert (inRect r (rx0 r) (ry0 r)) as HR by (unfold inRect; lia).
    destruct (seek_spec im r v Hf (scanFuel r) (rx0 r) (ry0 r) HR (scanFuel_left r _ _ HR)) as (o & Ho & H).
    exists o. split; [exact Ho|]. destruct o as [[qx qy]|]; cbn in *.
    + destruct H as (A & _ & C & D). split; [exact A|]. split; [exact C|]. intros a b H1 H2. apply D; auto. unfold notBefore, inRect in *; cbn; lia.
    + intros a b H1. apply H; auto. unfold notBefore, inRect in *; cbn; lia.
  - exists None. split; [reflexivity|]. intros a b [A B]. apply andb_false_iff in E. rewrite !Z.ltb_ge in E. lia.
Qed.

(** where the iterator stands: nothing before it (and after [lo]) has the value *)
Definition itLeft (r : rect) (it : option (Z * Z)) : Z := match it with Some (x, y) => left_ r x y | None => 0 end.

Lemma before_left r x y a b : inRect r x y -> inRect r a b -> before (x, y) (a, b) -> left_ r a b < left_ r x y.
Proof.
  unfold inRect, before, left_; cbn. intros [H1 H2] [H3 H4] [H|[-> H]]; [|lia].
  assert ((ry1 r - b - 1) * (rx1 r - rx0 r) <= (ry1 r - (y + 1) - 1) * (rx1 r - rx0 r)) by (apply Z.mul_le_mono_nonneg_r; lia).
  replace ((ry1 r - y - 1) * (rx1 r - rx0 r)) with ((ry1 r - (y + 1) - 1) * (rx1 r - rx0 r) + (rx1 r - rx0 r)) by ring. lia.
Qed.

(** *** writing while scanning *)

Lemma writePix_spec im x y p : 0 <= x < iw im -> 0 <= y < ih im ->
  writePix im x y p = Ok (Img (iw im) (ih im) (fun x' y' => if (x' =? x) && (y' =? y) then p else ipix im x' y')).
Proof. intros H K. unfold writePix. assert (insideImg im x y = true) as -> by (apply insideImg_iff; auto). reflexivity. Qed.

Definition relabelled (im im' : img) (r : rect) (v new : pix) : Prop :=
  iw im' = iw im /\ ih im' = ih im /\ forall x y,
    (inRect r x y -> ipix im x y = v -> ipix im' x y = new) /\ (~ (inRect r x y /\ ipix im x y = v) -> ipix im' x y = ipix im x y).

Definition atV (im : img) (r : rect) (v : pix) (it : option (Z * Z)) : Prop :=
  match it with Some q => inRect r (fst q) (snd q) /\ ipix im (fst q) (snd q) = v | None => True end.
(** the positions not yet reached *)
Definition ahead (it : option (Z * Z)) (x y : Z) : Prop := match it with Some q => notBefore (x, y) q | None => False end.

Lemma relabelLoop_spec r v new : forall fuel im it, fits im r -> itLeft r it <= Z.of_nat fuel -> atV im r v it ->
  exists im', relabelLoop fuel im r v new it = Ok im' /\ iw im' = iw im /\ ih im' = ih im /\
    forall x y, (inRect r x y -> ahead it x y -> ipix im x y = v -> ipix im' x y = new) /\
                (~ (inRect r x y /\ ahead it x y /\ ipix im x y = v) -> ipix im' x y = ipix im x y).
Proof.
  induction fuel as [|k IH]; intros im it Hf HL Hv.
  - destruct it as [[x y]|].
    + cbn in *. destruct Hv as [HR _]. pose proof (left_pos r x y HR). lia.
    + exists im. cbn. repeat split; auto. intros _ [].
  - destruct it as [[x y]|].
    + cbn [relabelLoop]. cbn in HL, Hv. destruct Hv as [HR Hxy]. destruct (Hf x y HR) as [Hx Hy].
      rewrite (writePix_spec im x y new Hx Hy). cbn [bind].
      set (im1 := Img (iw im) (ih im) (fun x' y' => if (x' =? x) && (y' =? y) then new else ipix im x' y')).
      assert (forall a b, (a, b) <> (x, y) -> ipix im1 a b = ipix im a b) as Eother.
      { intros a b N. cbn. destruct (Z.eqb_spec a x) as [->|]; cbn; [|reflexivity]. destruct (Z.eqb_spec b y) as [->|]; [congruence | reflexivity]. }
      assert (ipix im1 x y = new) as Ehere by (cbn; rewrite !Z.eqb_refl; reflexivity).
      assert (fits im1 r) as Hf1 by exact Hf.
      destruct (next_spec im1 r v x y Hf1 HR) as (o & Ho & Hn). rewrite Ho. cbn [bind].
      assert (forall a b, inRect r a b -> before (x, y) (a, b) -> ~ ahead o a b -> ipix im a b <> v) as Hskip.
      { intros a b H1 H2 H3. rewrite <- (Eother a b) by (intros [= -> ->]; unfold before in H2; cbn in H2; lia).
        destruct o as [[qx qy]|]; cbn in *.
        - destruct Hn as (_ & _ & _ & D). apply D; auto. unfold before, notBefore in *; cbn in *; lia.
        - apply Hn; auto. }
      assert (forall a b, ahead o a b -> inRect r a b -> before (x, y) (a, b)) as Hahead.
      { intros a b H1 H2. destruct o as [[qx qy]|]; cbn in *; [|contradiction]. destruct Hn as (_ & B & _). unfold before, notBefore in *; cbn in *; lia. }
      destruct (IH im1 o Hf1) as (im' & E & Ew & Eh & Hp).
      { destruct o as [[qx qy]|]; cbn in *; [|lia]. destruct Hn as (A & B & _). pose proof (before_left r x y qx qy HR A B). lia. }
      { destruct o as [[qx qy]|]; cbn in *; [|exact I]. destruct Hn as (A & _ & C & _). split; [exact A | exact C]. }
      exists im'. split; [exact E|]. split; [exact Ew|]. split; [exact Eh|].
      intros a b. destruct (Hp a b) as [P1 P2]. split.
      * intros H1 H2 H3. destruct (Z.eq_dec a x) as [->|Na].
        -- destruct (Z.eq_dec b y) as [->|Nb].
           ++ rewrite P2; [exact Ehere|]. intros (K1 & K2 & _). pose proof (Hahead x y K2 K1) as B. unfold before in B; cbn in B; lia.
           ++ assert (before (x, y) (x, b)) as B by (cbn in H2; unfold before, notBefore in *; cbn in *; lia).
              destruct o as [[qx qy]|] eqn:Eo.
              ** destruct (Z_lt_le_dec b qy) as [L|L]; [exfalso; apply (Hskip x b H1 B); [cbn; unfold notBefore; cbn; lia | exact H3]|].
                 destruct (Z.eq_dec b qy) as [->|N].
                 --- destruct (Z_lt_le_dec x qx) as [L'|L']; [exfalso; apply (Hskip x qy H1 B); [cbn; unfold notBefore; cbn; lia | exact H3]|].
                     apply P1; auto; [cbn; unfold notBefore; cbn; lia|]. rewrite Eother; [exact H3 | congruence].
                 --- apply P1; auto; [cbn; unfold notBefore; cbn; lia|]. rewrite Eother; [exact H3 | congruence].
              ** exfalso. apply (Hskip x b H1 B); [intros [] | exact H3].
        -- assert (before (x, y) (a, b)) as B by (cbn in H2; unfold before, notBefore in *; cbn in *; lia).
           destruct o as [[qx qy]|] eqn:Eo.
           ++ destruct (Z_lt_le_dec b qy) as [L|L]; [exfalso; apply (Hskip a b H1 B); [cbn; unfold notBefore; cbn; lia | exact H3]|].
              destruct (Z.eq_dec b qy) as [->|N].
              ** destruct (Z_lt_le_dec a qx) as [L'|L']; [exfalso; apply (Hskip a qy H1 B); [cbn; unfold notBefore; cbn; lia | exact H3]|].
                 apply P1; auto; [cbn; unfold notBefore; cbn; lia|]. rewrite Eother; [exact H3 | congruence].
              ** apply P1; auto; [cbn; unfold notBefore; cbn; lia|]. rewrite Eother; [exact H3 | congruence].
           ++ exfalso. apply (Hskip a b H1 B); [intros [] | exact H3].
      * intros N. assert ((a, b) <> (x, y)) as Nab.
        { intros [= -> ->]. apply N. split; [exact HR|]. split; [right; cbn; lia | exact Hxy]. }
        rewrite P2; [apply Eother; exact Nab|]. intros (K1 & K2 & K3). apply N. split; [exact K1|]. split.
        -- pose proof (Hahead a b K2 K1) as B. cbn. unfold before, notBefore in *; cbn in *; lia.
        -- rewrite Eother in K3 by exact Nab. exact K3.
    + exists im. cbn. repeat split; auto. intros _ [].
Qed.

Lemma relabel_spec im r v new : fits im r -> exists im', relabel im r v new = Ok im' /\ relabelled im im' r v new.
Proof.
  intros Hf. unfold relabel. destruct (begin_spec im r v Hf) as (o & Ho & Hb). rewrite Ho. cbn [bind].
  destruct (relabelLoop_spec r v new (scanFuel r) im o Hf) as (im' & E & Ew & Eh & Hp).
  { destruct o as [[x y]|]; cbn; [apply scanFuel_left; apply Hb | lia]. }
  { destruct o as [q|]; cbn; [split; apply Hb | exact I]. }
  exists im'. split; [exact E|]. split; [exact Ew|]. split; [exact Eh|]. intros x y. destruct (Hp x y) as [P1 P2]. split.
  - intros H1 H2. apply P1; auto. destruct o as [[qx qy]|]; cbn in *.
    + destruct Hb as (_ & _ & D). destruct (Z_lt_le_dec y qy); [exfalso; apply (D x y H1); [left; cbn; lia | exact H2]|].
      destruct (Z.eq_dec y qy) as [->|]; [|left; cbn; lia].
      destruct (Z_lt_le_dec x qx); [exfalso; apply (D x qy H1); [right; cbn; lia | exact H2]|]. right; cbn; lia.
    + exfalso. apply (Hb x y H1 H2).
  - intros N. apply P2. intros (K1 & _ & K3). apply N; auto.
Qed.

(** *** reading only *)

Lemma visitLoop_spec im r v : fits im r -> forall fuel it, itLeft r it <= Z.of_nat fuel -> atV im r v it ->
  exists ps, visitLoop fuel im r v it = Ok ps /\ StronglySorted before ps /\
    forall x y, In (x, y) ps <-> (inRect r x y /\ ahead it x y /\ ipix im x y = v).
Proof.
  intros Hf. induction fuel as [|k IH]; intros it HL Hv.
  - destruct it as [[x y]|].
    + cbn in *. destruct Hv as [HR _]. pose proof (left_pos r x y HR). lia.
    + exists []. cbn. split; [reflexivity|]. split; [constructor|]. intros x y. split; [intros [] | intros (_ & [] & _)].
  - destruct it as [[x y]|].
    + cbn [visitLoop]. cbn in HL, Hv. destruct Hv as [HR Hxy].
      destruct (next_spec im r v x y Hf HR) as (o & Ho & Hn). rewrite Ho. cbn [bind].
      destruct (IH o) as (ps & E & Hs & Hp).
      { destruct o as [[qx qy]|]; cbn in *; [|lia]. destruct Hn as (A & B & _). pose proof (before_left r x y qx qy HR A B). lia. }
      { destruct o as [[qx qy]|]; cbn in *; [|exact I]. destruct Hn as (A & _ & C & _). split; [exact A | exact C]. }
      rewrite E. cbn [bind]. exists ((x, y) :: ps). split; [reflexivity|].
      assert (forall a b, In (a, b) ps -> before (x, y) (a, b)) as Hlater.
      { intros a b Hi. apply Hp in Hi. destruct Hi as (H1 & H2 & _). destruct o as [[qx qy]|]; cbn in *; [|contradiction].
        destruct Hn as (_ & B & _). unfold before, notBefore in *; cbn in *; lia. }
      split.
      { constructor; [exact Hs|]. apply Forall_forall. intros [a b] Hi. apply Hlater; exact Hi. }
      intros a b. cbn. rewrite Hp. split.
      * intros [[= <- <-]|(H1 & H2 & H3)]; [split; [exact HR|]; split; [right; cbn; lia | exact Hxy]|].
        split; [exact H1|]. split; [|exact H3]. destruct o as [[qx qy]|]; cbn in *; [|contradiction].
        destruct Hn as (_ & B & _). unfold before, notBefore in *; cbn in *; lia.
      * intros (H1 & H2 & H3). destruct (Z.eq_dec a x) as [->|Na].
        -- destruct (Z.eq_dec b y) as [->|Nb]; [left; reflexivity|]. right. split; [exact H1|]. split; [|exact H3].
           assert (before (x, y) (x, b)) as B by (unfold before, notBefore in *; cbn in *; lia).
           destruct o as [[qx qy]|]; cbn in *.
           ++ destruct Hn as (_ & _ & _ & D). destruct (Z_lt_le_dec b qy); [exfalso; apply (D x b H1 B); [left; cbn; lia | exact H3]|].
              destruct (Z.eq_dec b qy) as [->|]; [|left; cbn; lia].
              destruct (Z_lt_le_dec x qx); [exfalso; apply (D x qy H1 B); [right; cbn; lia | exact H3]|]. right; cbn; lia.
           ++ exact (Hn x b H1 B H3).
        -- right. split; [exact H1|]. split; [|exact H3].
           assert (before (x, y) (a, b)) as B by (unfold before, notBefore in *; cbn in *; lia).
           destruct o as [[qx qy]|]; cbn in *.
           ++ destruct Hn as (_ & _ & _ & D). destruct (Z_lt_le_dec b qy); [exfalso; apply (D a b H1 B); [left; cbn; lia | exact H3]|].
              destruct (Z.eq_dec b qy) as [->|]; [|left; cbn; lia].
              destruct (Z_lt_le_dec a qx); [exfalso; apply (D a qy H1 B); [right; cbn; lia | exact H3]|]. right; cbn; lia.
           ++ exact (Hn a b H1 B H3).
    + exists []. cbn. split; [reflexivity|]. split; [constructor|]. intros x y. split; [intros [] | intros (_ & [] & _)].
Qed.

Lemma visit_spec im r v : fits im r -> exists ps, visit im r v = Ok ps /\ StronglySorted before ps /\
  forall x y, In (x, y) ps <-> (inRect r x y /\ ipix im x y = v).
Proof.
  intros Hf. unfold visit. destruct (begin_spec im r v Hf) as (o & Ho & Hb). rewrite Ho. cbn [bind].
  destruct (visitLoop_spec im r v Hf (scanFuel r) o) as (ps & E & Hs & Hp).
  { destruct o as [[x y]|]; cbn; [apply scanFuel_left; apply Hb | lia]. }
  { destruct o as [q|]; cbn; [split; apply Hb | exact I]. }
  exists ps. split; [exact E|]. split; [exact Hs|]. intros x y. rewrite Hp. split; [intros (A & _ & C); auto|].
  intros (H1 & H2). split; [exact H1|]. split; [|exact H2]. destruct o as [[qx qy]|]; cbn in *.
  - destruct Hb as (_ & _ & D). destruct (Z_lt_le_dec y qy); [exfalso; apply (D x y H1); [left; cbn; lia | exact H2]|].
    destruct (Z.eq_dec y qy) as [->|]; [|left; cbn; lia].
    destruct (Z_lt_le_dec x qx); [exfalso; apply (D x qy H1); [right; cbn; lia | exact H2]|]. right; cbn; lia.
  - exact (Hb x y H1 H2).
Qed.
