(** convexHull: Graham's scan (C50). *)
From Coq Require Import Permutation.
From Verif Require Import Base GeoMap_Model Hull_Model Hull_Spec.
Local Open Scope Z_scope.

(** ** The plane seen from the extremal point *)
Definition low (o v : point) : Prop := snd v < snd o \/ (snd v = snd o /\ fst o < fst v).
Definition lin (A B C : Z) (v : point) : Z := A * fst v + B * snd v + C.
Definition d2 (o v : point) : Z := (fst v - fst o) * (fst v - fst o) + (snd v - snd o) * (snd v - snd o).

Lemma side_split o a b c : side a b c = side o a b + side o b c - side o a c.
Proof. unfold side. ring. Qed.
Lemma side_swap o a b : side o b a = - side o a b.
Proof. unfold side. ring. Qed.
Lemma side_cycle a b c : side a b c = side b c a.
Proof. unfold side. ring. Qed.
Lemma side_aa o a : side o a a = 0.
Proof. unfold side. ring. Qed.
Lemma side_ooa o a : side o o a = 0.
Proof. unfold side. ring. Qed.
Lemma side_oao o a : side o a o = 0.
Proof. unfold side. ring. Qed.
Lemma side_lin a b q : side a b q = lin (snd b - snd a) (- (fst b - fst a)) (- fst a * (snd b - snd a) + (fst b - fst a) * snd a) q.
Proof. unfold side, lin. ring. Qed.

Lemma grow_t o a s t c : side o s t * side a t c = side o a t * side s t c + side o t c * side a s t.
Proof. unfold side. ring. Qed.
Lemma grow_s o a s t c : side o s t * side a s c = side o s c * side a s t + side o a s * side s t c.
Proof. unfold side. ring. Qed.
Lemma lin_tri o s t c A B C :
  side o s c * lin A B C t = side o t c * lin A B C s + side o s t * lin A B C c - side s t c * lin A B C o.
Proof. unfold side, lin. ring. Qed.

(** the angle from [o] orders the points *)
Lemma ang_x o a b c : side o a c * (fst b - fst o) = side o b c * (fst a - fst o) + side o a b * (fst c - fst o).
Proof. unfold side. ring. Qed.
Lemma ang_y o a b c : side o a c * (snd b - snd o) = side o b c * (snd a - snd o) + side o a b * (snd c - snd o).
Proof. unfold side. ring. Qed.

Lemma mul_pos_r x k : 0 < k -> 0 <= x * k -> 0 <= x.
Proof. intros. nia. Qed.
Lemma mul_pos_r' x k : 0 < k -> 0 < x * k -> 0 < x.
Proof. intros. nia. Qed.

Lemma low_axis o a b : low o a -> low o b -> snd b = snd o -> 0 <= side o a b -> snd a = snd o.
Proof.
  intros [Ha|[Ha Ha']] [Hb|[Hb Hb']] E H; try lia. exfalso. unfold side in H. rewrite E in H. nia.
Qed.
Lemma ang_trans o a b c : low o a -> low o b -> low o c -> 0 <= side o a b -> 0 <= side o b c -> 0 <= side o a c.
Proof.
  intros La Lb Lc H1 H2. destruct (Z.eq_dec (snd b) (snd o)) as [E|E].
  - pose proof (low_axis o a b La Lb E H1) as Ea. destruct La as [La|[_ La]]; [lia|].
    unfold side. rewrite Ea. destruct Lc as [Lc|[Lc Lc']]; nia.
  - assert (Hb : 0 < snd o - snd b) by (destruct Lb as [Lb|[Lb _]]; lia).
    assert (Ha : 0 <= snd o - snd a) by (destruct La as [La|[La _]]; lia).
    assert (Hc : 0 <= snd o - snd c) by (destruct Lc as [Lc|[Lc _]]; lia).
    apply (mul_pos_r _ _ Hb). pose proof (ang_y o a b c) as Y.
    pose proof (Z.mul_nonneg_nonneg _ _ H2 Ha). pose proof (Z.mul_nonneg_nonneg _ _ H1 Hc). lia.
Qed.
Lemma ang_trans_l o a b c : low o a -> low o b -> low o c -> 0 < side o a b -> 0 <= side o b c -> 0 < side o a c.
Proof.
  intros La Lb Lc H1 H2.
  assert (Hb : 0 < snd o - snd b).
  { destruct (Z.eq_dec (snd b) (snd o)) as [E|E]; [|destruct Lb as [Lb|[Lb _]]; lia].
    pose proof (low_axis o a b La Lb E ltac:(lia)) as Ea. unfold side in H1. rewrite E, Ea in H1. lia. }
  assert (Ha : 0 <= snd o - snd a) by (destruct La as [La|[La _]]; lia).
  assert (Hc : 0 < snd o - snd c).
  { destruct (Z.eq_dec (snd c) (snd o)) as [E|E]; [|destruct Lc as [Lc|[Lc _]]; lia].
    pose proof (low_axis o b c Lb Lc E H2). lia. }
  apply (mul_pos_r' _ _ Hb). pose proof (ang_y o a b c) as Y.
  pose proof (Z.mul_nonneg_nonneg _ _ H2 Ha). pose proof (Z.mul_pos_pos _ _ H1 Hc). lia.
Qed.
Lemma ang_trans_r o a b c : low o a -> low o b -> low o c -> 0 <= side o a b -> 0 < side o b c -> 0 < side o a c.
Proof.
  intros La Lb Lc H1 H2. destruct (Z.eq_dec (snd b) (snd o)) as [E|E].
  - pose proof (low_axis o a b La Lb E H1) as Ea. destruct La as [La|[_ La]]; [lia|].
    unfold side in H2 |- *. rewrite E in H2. rewrite Ea. destruct Lb as [Lb|[_ Lb]]; [lia|].
    destruct Lc as [Lc|[Lc Lc']]; nia.
  - assert (Hb : 0 < snd o - snd b) by (destruct Lb as [Lb|[Lb _]]; lia).
    assert (Hc : 0 <= snd o - snd c) by (destruct Lc as [Lc|[Lc _]]; lia).
    destruct (Z.eq_dec (snd a) (snd o)) as [Ea|Ea].
    + destruct La as [La|[_ La]]; [lia|]. unfold side. rewrite Ea.
      assert (0 < snd o - snd c); [|nia].
      destruct (Z.eq_dec (snd c) (snd o)) as [Ec|]; [|lia]. pose proof (low_axis o b c Lb Lc Ec ltac:(lia)). lia.
    + assert (Ha : 0 < snd o - snd a) by (destruct La as [La|[La _]]; lia).
      apply (mul_pos_r' _ _ Hb). pose proof (ang_y o a b c) as Y.
      pose proof (Z.mul_pos_pos _ _ H2 Ha). pose proof (Z.mul_nonneg_nonneg _ _ H1 Hc). lia.
Qed.

(** two points on a ray: the nearer one is on the segment to the farther one *)
Lemma ray_coords o a b : low o a -> low o b -> side o a b = 0 ->
  exists k l, 0 < k /\ 0 < l /\ k * (fst a - fst o) = l * (fst b - fst o) /\ k * (snd a - snd o) = l * (snd b - snd o).
Proof.
  intros La Lb H. unfold side in H. destruct (Z.eq_dec (snd a) (snd o)) as [E|E].
  - assert (Eb : snd b = snd o) by (destruct La as [La|[_ La]]; [lia|]; rewrite E in H; destruct Lb as [Lb|[Lb _]]; [nia|lia]).
    exists (fst b - fst o), (fst a - fst o). destruct La as [La|[_ La]]; [lia|]. destruct Lb as [Lb|[_ Lb]]; [lia|].
    rewrite E, Eb. split; [lia|]. split; [lia|]. split; ring.
  - assert (Hb : snd b <> snd o).
    { intro Eb. rewrite Eb in H. destruct Lb as [Lb|[_ Lb]]; [lia|]. nia. }
    exists (snd o - snd b), (snd o - snd a). destruct La as [La|[La _]]; [|lia]. destruct Lb as [Lb|[Lb _]]; [|lia].
    split; [lia|]. split; [lia|]. split; [lia|ring].
Qed.
Lemma ray_d2 o a b k l : k * (fst a - fst o) = l * (fst b - fst o) -> k * (snd a - snd o) = l * (snd b - snd o) ->
  k * k * d2 o a = l * l * d2 o b.
Proof.
  intros H1 H2. unfold d2.
  replace (k * k * ((fst a - fst o) * (fst a - fst o) + (snd a - snd o) * (snd a - snd o)))
    with ((k * (fst a - fst o)) * (k * (fst a - fst o)) + (k * (snd a - snd o)) * (k * (snd a - snd o))) by ring.
  rewrite H1, H2. ring.
Qed.
Lemma low_d2 o a : low o a -> 0 < d2 o a.
Proof.
  unfold d2. intros H. set (x := fst a - fst o). set (y := snd a - snd o).
  assert (Hx : 0 <= x * x) by nia. assert (Hy : 0 <= y * y) by nia.
  destruct H as [H|[H H']]; [assert (y < 0) by (unfold y; lia)|assert (0 < x) by (unfold x; lia)]; nia.
Qed.
Lemma d2_nonneg o a : 0 <= d2 o a.
Proof. unfold d2. set (x := fst a - fst o). set (y := snd a - snd o). nia. Qed.
Lemma d2_zero o a : d2 o a <= 0 -> fst a = fst o /\ snd a = snd o.
Proof.
  unfold d2. intros H. set (x := fst a - fst o) in *. set (y := snd a - snd o) in *.
  assert (Hx : 0 <= x * x) by nia. assert (Hy : 0 <= y * y) by nia.
  assert (x = 0) by nia. assert (y = 0) by nia. unfold x, y in *. lia.
Qed.
Lemma sq_le k l x y : 0 < k -> 0 < l -> 0 < y -> k * k * x = l * l * y -> x <= y -> l <= k.
Proof.
  intros Hk Hl Hy E H. destruct (Z_le_gt_dec l k) as [|G]; [assumption|exfalso].
  assert (G1 : k * k < l * l) by nia. pose proof (Z.mul_le_mono_nonneg_l x y (k * k) ltac:(nia) H).
  pose proof (Z.mul_lt_mono_pos_r y (k * k) (l * l) Hy) as [M _]. specialize (M G1). lia.
Qed.
Lemma sq_lt k l x y : 0 < k -> 0 < l -> 0 < y -> k * k * x = l * l * y -> l < k -> x < y.
Proof.
  intros Hk Hl Hy E H. destruct (Z_lt_ge_dec x y) as [|G]; [assumption|exfalso].
  assert (G1 : l * l < k * k) by nia. pose proof (Z.mul_le_mono_nonneg_l y x (k * k) ltac:(nia) ltac:(lia)).
  pose proof (Z.mul_lt_mono_pos_r y (l * l) (k * k) Hy) as [M _]. specialize (M G1). lia.
Qed.

Lemma on_ray o a b A B C : low o a -> low o b -> side o a b = 0 -> d2 o a <= d2 o b -> 0 <= lin A B C o -> 0 <= lin A B C b ->
  0 <= lin A B C a.
Proof.
  intros La Lb H D Ho Hb. destruct (ray_coords o a b La Lb H) as (k & l & Hk & Hl & E1 & E2).
  pose proof (ray_d2 o a b k l E1 E2) as E. pose proof (sq_le k l _ _ Hk Hl (low_d2 o b Lb) E D) as L.
  assert (I : k * lin A B C a = l * lin A B C b + (k - l) * lin A B C o).
  { unfold lin.
    replace (k * (A * fst a + B * snd a + C)) with (A * (k * (fst a - fst o)) + B * (k * (snd a - snd o)) + k * (A * fst o + B * snd o + C)) by ring.
    rewrite E1, E2. ring. }
  assert (0 <= lin A B C a * k); [|nia].
  pose proof (Z.mul_nonneg_nonneg l (lin A B C b) ltac:(lia) Hb). pose proof (Z.mul_nonneg_nonneg (k - l) (lin A B C o) ltac:(lia) Ho). lia.
Qed.

Lemma rev_case (l : list point) : l = [] \/ exists u z, l = u ++ [z].
Proof. destruct l as [|a l] using rev_ind; [left; reflexivity|right; exists l, a; reflexivity]. Qed.
Lemma point_eq_dec (a b : point) : {a = b} + {a <> b}.
Proof. decide equality; apply Z.eq_dec. Qed.

(** ** The stack of the scan, last entry first and without the extremal point at its bottom *)
Section Scan.
Variable o : point.
Notation cr := (side o).

(** x came before y *)
Inductive pairs (P : point -> point -> Prop) : list point -> Prop :=
| pairs_nil : pairs P []
| pairs_cons t r : (forall x, In x r -> P x t) -> pairs P r -> pairs P (t :: r).
Inductive triples (P : point -> point -> point -> Prop) : list point -> Prop :=
| triples_nil : triples P []
| triples_cons t r : pairs (fun x y => P x y t) r -> triples P r -> triples P (t :: r).

Lemma pairs_impl (P Q : point -> point -> Prop) l : (forall x y, In x l -> In y l -> P x y -> Q x y) -> pairs P l -> pairs Q l.
Proof.
  intros H HP. induction HP as [|t r Ht HP IH]; constructor.
  - intros x Hx. apply H; [right; exact Hx|left; reflexivity|apply Ht, Hx].
  - apply IH. intros x y Hx Hy. apply H; right; assumption.
Qed.
Lemma pairs_and (P Q : point -> point -> Prop) l : pairs P l -> pairs Q l -> pairs (fun x y => P x y /\ Q x y) l.
Proof.
  intros HP HQ. induction HP as [|t r Ht HP IH]; [constructor|]. inversion HQ as [|? ? Ht' HQ']; subst. constructor.
  - intros x Hx. split; auto.
  - apply IH, HQ'.
Qed.

(** the last entry may be a nearer point on the ray of the entry below it *)
Definition tail (st : list point) : Prop := exists t s r, st = t :: s :: r /\ cr s t = 0.
Definition okTop (st : list point) : Prop :=
  match st with t :: s :: r => (forall x, In x r -> 0 < cr x t) /\ (0 < cr s t \/ (cr s t = 0 /\ d2 o t < d2 o s)) | _ => True end.
Definition good (st : list point) : Prop :=
  Forall (low o) st /\ pairs (fun x y => 0 < cr x y) (tl st) /\ okTop st /\ triples (fun x y z => 0 <= side x y z) st.

Lemma good_below t s r : good (t :: s :: r) -> good (s :: r).
Proof.
  intros (L & P & _ & T). cbn [tl] in P. inversion L as [|? ? _ L']; subst. inversion T as [|? ? _ T']; subst.
  inversion P as [|? ? Ps P']; subst. split; [exact L'|]. split; [exact P'|]. split; [|exact T'].
  destruct r as [|u r]; [exact I|]. cbn. split; [intros x Hx; apply Ps; right; exact Hx|left; apply Ps; left; reflexivity].
Qed.

(** the triples with a new last entry *)
Lemma new_triples t r c : 0 <= 0 -> Forall (low o) (c :: t :: r) -> pairs (fun x y => 0 < cr x y) (t :: r) ->
  triples (fun x y z => 0 <= side x y z) (t :: r) -> (forall x, In x (t :: r) -> 0 <= cr x c) ->
  (forall x, In x r -> 0 <= side x t c) -> triples (fun x y z => 0 <= side x y z) (c :: t :: r).
Proof.
  intros _ L P T HC HT. constructor; [|exact T]. constructor; [exact HT|].
  inversion P as [|? ? Pt P']; subst. inversion T as [|? ? Tt T']; subst.
  assert (Y : pairs (fun x y => 0 <= side x y t /\ 0 < cr x y) r) by (apply pairs_and; assumption).
  eapply pairs_impl; [|exact Y]. cbn. intros x y Hx Hy [H1 H2].
  pose proof (Pt y Hy) as Dy. pose proof (HT y Hy) as Ty. pose proof (HC y (or_intror Hy)) as Cy.
  pose proof (grow_s o x y t c) as G.
  apply (mul_pos_r _ _ Dy). rewrite Z.mul_comm, G.
  pose proof (Z.mul_nonneg_nonneg _ _ Cy H1). pose proof (Z.mul_nonneg_nonneg (cr x y) (side y t c) ltac:(lia) Ty). lia.
Qed.

Definition spans (st : list point) (q : point) : Prop :=
  forall A B C, 0 <= lin A B C o -> (forall v, In v st -> 0 <= lin A B C v) -> 0 <= lin A B C q.
Lemma spans_in st q : In q st -> spans st q.
Proof. intros H A B C _ K. apply K, H. Qed.

(** one point *)
Lemma scan_one : forall st c, st <> [] -> good st -> low o c -> (forall x, In x st -> 0 <= cr x c) ->
  (forall t s r, st = t :: s :: r -> cr s t = 0 -> cr s c = 0 -> d2 o c <= d2 o s) ->
  exists st', scanOne (st ++ [o]) c = Ok (st' ++ [o]) /\ st' <> [] /\ good st' /\ incl st' (c :: st) /\
    (forall q, In q (c :: st) -> spans st' q) /\
    (st' = st \/ (exists r, st' = c :: r /\ incl r st) \/ ~ tail st').
Proof.
  induction st as [|t st IH]; [congruence|]. intros c _ G Lc HC HR. destruct st as [|s r].
  - (* one entry above the extremal point *)
    destruct G as (L & _). inversion L as [|? ? Lt _]; subst. pose proof (HC t (or_introl eq_refl)) as Hc.
    cbn [app scanOne]. change ((fst c - fst o) * (snd t - snd o) - (fst t - fst o) * (snd c - snd o)) with (cr t c).
    destruct (0 <? cr t c) eqn:E1; [apply Z.ltb_lt in E1|apply Z.ltb_ge in E1].
    + exists [c; t]. split; [reflexivity|]. split; [discriminate|]. split.
      { split; [repeat (apply Forall_cons; [assumption|]); apply Forall_nil|]. split; [cbn; constructor; [intros x []|constructor]|].
        split; [cbn; split; [intros x []|left; exact E1]|].
        constructor; [constructor; [intros x []|constructor]|]. constructor; [constructor|constructor]. }
      split; [intros x Hx; exact Hx|]. split; [intros q Hq; apply spans_in, Hq|].
      right; left. exists [t]. split; [reflexivity|intros x Hx; exact Hx].
    + assert (E : cr t c = 0) by lia. rewrite E. cbn [Z.eqb].
      assert (F1 : sqDist t o = d2 o t) by reflexivity. assert (F2 : sqDist c o = d2 o c) by reflexivity. rewrite F1, F2.
      destruct (d2 o t <? d2 o c) eqn:E2; [apply Z.ltb_lt in E2|apply Z.ltb_ge in E2].
      * exists [c]. split; [reflexivity|]. split; [discriminate|]. split.
        { split; [repeat (apply Forall_cons; [assumption|]); apply Forall_nil|]. split; [constructor|]. split; [exact I|]. constructor; constructor. }
        split; [intros x [<-|[]]; left; reflexivity|]. split.
        { intros q [<-|[<-|[]]]; [apply spans_in; left; reflexivity|].
          intros A B C Ho Hv. apply (on_ray o t c); auto; [lia|apply Hv; left; reflexivity]. }
        right; left. exists []. split; [reflexivity|intros x []].
      * exists [t]. split; [reflexivity|]. split; [discriminate|]. split.
        { split; [exact L|]. split; [constructor|]. split; [exact I|]. constructor; constructor. }
        split; [intros x Hx; right; exact Hx|]. split.
        { intros q [<-|[<-|[]]]; [|apply spans_in; left; reflexivity].
          intros A B C Ho Hv. apply (on_ray o c t); auto; [rewrite side_swap, E; reflexivity|apply Hv; left; reflexivity]. }
        left; reflexivity.
  - pose proof (good_below t s r G) as G'. destruct G as (L & P & OT & T). cbn [tl] in P. cbn in OT. destruct OT as [PT OT].
    inversion L as [|? ? Lt L']; subst. inversion L' as [|? ? Ls L'']; subst.
    pose proof (HC t (or_introl eq_refl)) as Ct. pose proof (HC s (or_intror (or_introl eq_refl))) as Cs.
    inversion P as [|? ? Ps P'']; subst. inversion T as [|? ? Tt T']; subst. inversion Tt as [|? ? Tts _]; subst.
    assert (LF : forall x, In x r -> low o x) by (rewrite <- Forall_forall; exact L'').
    change ((t :: s :: r) ++ [o]) with (t :: s :: (r ++ [o])). cbn [scanOne].
    change ((fst c - fst s) * (snd t - snd s) - (fst t - fst s) * (snd c - snd s)) with (side s t c).
    (* a tail is on the left of nothing *)
    assert (TAIL : cr s t = 0 -> d2 o t < d2 o s -> side s t c <= 0 /\ (side s t c = 0 -> cr s c = 0)).
    { intros E D. destruct (ray_coords o t s Lt Ls ltac:(rewrite side_swap; lia)) as (k & l & Hk & Hl & E1 & E2).
      pose proof (ray_d2 o t s k l E1 E2) as E3.
      assert (KL : l < k).
      { pose proof (sq_le k l _ _ Hk Hl (low_d2 o s Ls) E3 ltac:(lia)). destruct (Z.eq_dec l k) as [->|]; [|lia].
        exfalso. assert (d2 o t = d2 o s) by nia. lia. }
      assert (I : k * cr t c = l * cr s c).
      { unfold side.
        replace (k * ((fst c - fst o) * (snd t - snd o) - (fst t - fst o) * (snd c - snd o)))
          with ((fst c - fst o) * (k * (snd t - snd o)) - (k * (fst t - fst o)) * (snd c - snd o)) by ring.
        rewrite E1, E2. ring. }
      assert (J : k * side s t c = - ((k - l) * cr s c)).
      { rewrite (side_split o s t c), E. replace (k * (0 + cr t c - cr s c)) with (k * cr t c - k * cr s c) by ring. rewrite I. ring. }
      split; [nia|]. intro K. rewrite K in J. nia. }
    destruct (0 <? side s t c) eqn:E1; [apply Z.ltb_lt in E1|apply Z.ltb_ge in E1].
    + (* push *)
      assert (D : 0 < cr s t) by (destruct OT as [OT|[OT OT']]; [exact OT|]; destruct (TAIL OT OT'); lia).
      exists (c :: t :: s :: r). split; [reflexivity|]. split; [discriminate|].
      assert (PP : pairs (fun x y => 0 < cr x y) (t :: s :: r)).
      { constructor; [intros x [<-|Hx]; [exact D|apply PT, Hx]|exact P]. }
      split.
      { split; [constructor; assumption|]. split; [exact PP|]. split.
        - cbn. split.
          + intros x [<-|Hx]; [apply (ang_trans_l o s t c); assumption|apply (ang_trans_l o x t c); auto].
          + destruct (Z.eq_dec (cr t c) 0) as [E|E]; [right; split; [exact E|]|left; lia].
            (* a nearer point on the ray of t *)
            rewrite (side_split o s t c), E in E1.
            destruct (ray_coords o c t Lc Lt ltac:(rewrite side_swap; lia)) as (k & l & Hk & Hl & F1 & F2).
            pose proof (ray_d2 o c t k l F1 F2) as F3.
            assert (I : k * cr s c = l * cr s t).
            { unfold side.
              replace (k * ((fst c - fst o) * (snd s - snd o) - (fst s - fst o) * (snd c - snd o)))
                with ((k * (fst c - fst o)) * (snd s - snd o) - (fst s - fst o) * (k * (snd c - snd o))) by ring.
              rewrite F1, F2. ring. }
            apply (sq_lt k l _ _ Hk Hl (low_d2 o t Lt) F3). nia.
        - apply new_triples; [lia|constructor; assumption|exact PP|exact T|exact HC|].
          intros x [<-|Hx]; [lia|]. apply (mul_pos_r _ _ D). rewrite Z.mul_comm, (grow_t o x s t c).
          pose proof (Tts x Hx) as H1. pose proof (PT x Hx) as H2.
          pose proof (Z.mul_nonneg_nonneg (cr x t) (side s t c) ltac:(lia) ltac:(lia)). pose proof (Z.mul_nonneg_nonneg _ _ Ct H1). lia. }
      split; [intros x Hx; exact Hx|]. split; [intros q Hq; apply spans_in, Hq|].
      right; left. exists (t :: s :: r). split; [reflexivity|intros x Hx; exact Hx].
    + destruct (side s t c =? 0) eqn:E2; [apply Z.eqb_eq in E2|apply Z.eqb_neq in E2].
      * (* collinear with the last segment *)
        destruct OT as [D|[D D']].
        -- assert (Dc : 0 < cr s c) by (rewrite (side_split o s t c) in E2; lia).
           destruct (sqDist t s <? sqDist c s) eqn:E3; [apply Z.ltb_lt in E3|apply Z.ltb_ge in E3].
           ++ exists (c :: s :: r). split; [reflexivity|]. split; [discriminate|]. split.
              { split; [constructor; [exact Lc|constructor; assumption]|]. split; [exact P|]. split.
                - cbn. split; [|left; exact Dc]. intros x Hx. apply (ang_trans_l o x s c); auto.
                - apply new_triples; [lia|constructor; [exact Lc|constructor; assumption]|exact P|exact T'|intros x Hx; apply HC; right; exact Hx|].
                  intros x Hx. apply (mul_pos_r _ _ D). rewrite Z.mul_comm, (grow_s o x s t c), E2.
                  pose proof (Tts x Hx) as H1. pose proof (Z.mul_nonneg_nonneg _ _ Cs H1). lia. }
              split; [intros x [<-|Hx]; [left; reflexivity|right; right; exact Hx]|]. split.
              { intros q [<-|[<-|Hq]]; [apply spans_in; left; reflexivity| |apply spans_in; right; exact Hq].
                intros A B C Ho Hv. apply (mul_pos_r _ _ Dc). rewrite Z.mul_comm, (lin_tri o s t c), E2.
                pose proof (Hv c (or_introl eq_refl)) as V1. pose proof (Hv s (or_intror (or_introl eq_refl))) as V2.
                pose proof (Z.mul_nonneg_nonneg _ _ Ct V2). pose proof (Z.mul_nonneg_nonneg (cr s t) (lin A B C c) ltac:(lia) V1). lia. }
              right; left. exists (s :: r). split; [reflexivity|intros x Hx; right; exact Hx].
           ++ (* c = t *)
              assert (Ec : c = t).
              { assert (F1 : cr s t * (fst c - fst s) = cr s c * (fst t - fst s)).
                { assert (K : cr s t * (fst c - fst s) - cr s c * (fst t - fst s) = - side s t c * (fst s - fst o)) by (unfold side; ring).
                  rewrite E2 in K. lia. }
                assert (F2 : cr s t * (snd c - snd s) = cr s c * (snd t - snd s)).
                { assert (K : cr s t * (snd c - snd s) - cr s c * (snd t - snd s) = - side s t c * (snd s - snd o)) by (unfold side; ring).
                  rewrite E2 in K. lia. }
                pose proof (ray_d2 s c t _ _ F1 F2) as F3. change (sqDist c s) with (d2 s c) in E3. change (sqDist t s) with (d2 s t) in E3.
                assert (Dst : 0 < d2 s t).
                { destruct (Z_lt_ge_dec 0 (d2 s t)) as [|Dz]; [assumption|exfalso]. destruct (d2_zero s t ltac:(lia)) as [Ex Ey].
                  unfold side in D. rewrite Ex, Ey in D. lia. }
                pose proof (sq_le (cr s t) (cr s c) (d2 s c) (d2 s t) D Dc Dst F3 E3) as LE.
                assert (cr s c = cr s t) by (rewrite (side_split o s t c) in E2; lia).
                rewrite H in F1, F2. destruct c as [cx cy], t as [tx ty]. cbn [fst snd] in *. f_equal; nia. }
              exists (t :: s :: r). split; [reflexivity|]. split; [discriminate|]. split.
              { split; [exact L|]. split; [exact P|]. split; [cbn; split; [exact PT|left; exact D]|exact T]. }
              split; [intros x Hx; right; exact Hx|]. split.
              { intros q [<-|Hq]; apply spans_in; [left; symmetry; exact Ec|exact Hq]. }
              left; reflexivity.
        -- (* the last entry is a nearer point on the ray *)
           destruct (TAIL D D') as [_ K]. specialize (K E2). pose proof (HR t s r eq_refl D K) as R.
           destruct (sqDist t s <? sqDist c s) eqn:E3; [apply Z.ltb_lt in E3|apply Z.ltb_ge in E3].
           ++ assert (R' : d2 o c < d2 o s).
              { destruct (Z.eq_dec (d2 o c) (d2 o s)) as [Eq|]; [|lia]. exfalso.
                destruct (ray_coords o c s Lc Ls ltac:(rewrite side_swap; lia)) as (k & l & Hk & Hl & F1 & F2).
                pose proof (ray_d2 o c s k l F1 F2) as F3. rewrite Eq in F3. pose proof (low_d2 o s Ls) as Pd.
                assert (k = l) by (assert (k * k = l * l) by (apply (Z.mul_reg_r _ _ (d2 o s)); lia); nia). subst l.
                assert (Ex : fst c = fst s) by nia. assert (Ey : snd c = snd s) by nia.
                change (sqDist t s) with (d2 s t) in E3. unfold sqDist in E3. rewrite Ex, Ey in E3. pose proof (d2_nonneg s t). lia. }
              exists (c :: s :: r). split; [reflexivity|]. split; [discriminate|]. split.
              { split; [constructor; [exact Lc|constructor; assumption]|]. split; [exact P|]. split.
                - cbn. split; [|right; split; assumption]. intros x Hx. apply (ang_trans_l o x s c); auto.
                - apply new_triples; [lia|constructor; [exact Lc|constructor; assumption]|exact P|exact T'|intros x Hx; apply HC; right; exact Hx|].
                  intros x Hx. rewrite (side_split o x s c), K. pose proof (Ps x Hx) as Dx.
                  destruct (ray_coords o c s Lc Ls ltac:(rewrite side_swap; lia)) as (k & l & Hk & Hl & F1 & F2).
                  pose proof (ray_d2 o c s k l F1 F2) as F3. pose proof (sq_le k l _ _ Hk Hl (low_d2 o s Ls) F3 R) as LE.
                  assert (I : k * cr x c = l * cr x s).
                  { unfold side.
                    replace (k * ((fst c - fst o) * (snd x - snd o) - (fst x - fst o) * (snd c - snd o)))
                      with ((k * (fst c - fst o)) * (snd x - snd o) - (fst x - fst o) * (k * (snd c - snd o))) by ring.
                    rewrite F1, F2. ring. }
                  nia. }
              split; [intros x [<-|Hx]; [left; reflexivity|right; right; exact Hx]|]. split.
              { intros q [<-|[<-|Hq]]; [apply spans_in; left; reflexivity| |apply spans_in; right; exact Hq].
                intros A B C Ho Hv. apply (on_ray o t s); auto; [rewrite side_swap; lia|lia|apply Hv; right; left; reflexivity]. }
              right; left. exists (s :: r). split; [reflexivity|intros x Hx; right; exact Hx].
           ++ exists (t :: s :: r). split; [reflexivity|]. split; [discriminate|]. split.
              { split; [exact L|]. split; [exact P|]. split; [cbn; split; [exact PT|right; split; assumption]|exact T]. }
              split; [intros x Hx; right; exact Hx|]. split.
              { intros q [<-|Hq]; [|apply spans_in; exact Hq].
                intros A B C Ho Hv. apply (on_ray o c s); auto; [rewrite side_swap; lia|apply Hv; right; left; reflexivity]. }
              left; reflexivity.
      * (* pop *)
        assert (N : side s t c < 0) by lia.
        assert (Dst : 0 <= cr s t) by (destruct OT as [OT|[OT _]]; lia).
        assert (Dsc : 0 < cr s c) by (rewrite (side_split o s t c) in N; lia).
        assert (NT : ~ tail (s :: r)).
        { intros (t' & s' & r' & Eq & Z'). injection Eq as <- ->. pose proof (Ps s' (or_introl eq_refl)). lia. }
        destruct (IH c ltac:(discriminate) G' Lc) as (st' & S1 & S2 & S3 & S4 & S5 & S6).
        { intros x Hx. apply HC. right; exact Hx. }
        { intros t' s' r' Eq Z' _. exfalso. apply NT. exists t', s', r'. split; assumption. }
        exists st'. split; [exact S1|]. split; [exact S2|]. split; [exact S3|]. split.
        { intros x Hx. destruct (S4 x Hx) as [<-|Hx']; [left; reflexivity|right; right; exact Hx']. }
        split.
        { intros q [<-|[<-|Hq]]; [apply S5; left; reflexivity| |apply S5; right; exact Hq].
          intros A B C Ho Hv. apply (mul_pos_r _ _ Dsc). rewrite Z.mul_comm, (lin_tri o s t c).
          pose proof (S5 c (or_introl eq_refl) A B C Ho Hv) as V1. pose proof (S5 s (or_intror (or_introl eq_refl)) A B C Ho Hv) as V2.
          pose proof (Z.mul_nonneg_nonneg _ _ Ct V2). pose proof (Z.mul_nonneg_nonneg _ _ Dst V1).
          pose proof (Z.mul_nonneg_nonneg (- side s t c) (lin A B C o) ltac:(lia) Ho). lia. }
        destruct S6 as [->|[(r' & -> & S6)|S6]]; [right; right; exact NT|right; left; exists r'|right; right; exact S6].
        split; [reflexivity|]. intros x Hx. right. apply S6, Hx.
Qed.

(** the scan never runs out of entries and only keeps input points *)
Lemma scan_one_total : forall st c, st <> [] -> (forall x, In x st -> 0 <= cr x c) ->
  exists st', scanOne (st ++ [o]) c = Ok (st' ++ [o]) /\ st' <> [] /\ incl st' (c :: st) /\ (length st' <= S (length st))%nat.
Proof.
  induction st as [|t st IH]; [congruence|]. intros c _ HC. destruct st as [|s r].
  - cbn [app scanOne]. change ((fst c - fst o) * (snd t - snd o) - (fst t - fst o) * (snd c - snd o)) with (cr t c).
    pose proof (HC t (or_introl eq_refl)) as H. destruct (0 <? cr t c) eqn:E1; [|apply Z.ltb_ge in E1].
    + exists [c; t]. split; [reflexivity|]. split; [discriminate|]. split; [intros x Hx; exact Hx|cbn; lia].
    + replace (cr t c) with 0 by lia. cbn [Z.eqb]. destruct (sqDist t o <? sqDist c o).
      * exists [c]. split; [reflexivity|]. split; [discriminate|]. split; [intros x [<-|[]]; left; reflexivity|cbn; lia].
      * exists [t]. split; [reflexivity|]. split; [discriminate|]. split; [intros x Hx; right; exact Hx|cbn; lia].
  - change ((t :: s :: r) ++ [o]) with (t :: s :: (r ++ [o])). cbn [scanOne].
    destruct (0 <? _); [|destruct (_ =? 0); [destruct (_ <? _)|]].
    + exists (c :: t :: s :: r). split; [reflexivity|]. split; [discriminate|]. split; [intros x Hx; exact Hx|cbn; lia].
    + exists (c :: s :: r). split; [reflexivity|]. split; [discriminate|].
      split; [intros x [<-|Hx]; [left; reflexivity|right; right; exact Hx]|cbn; lia].
    + exists (t :: s :: r). split; [reflexivity|]. split; [discriminate|]. split; [intros x Hx; right; exact Hx|cbn; lia].
    + destruct (IH c ltac:(discriminate)) as (st' & S1 & S2 & S3 & S4); [intros x Hx; apply HC; right; exact Hx|].
      exists st'. split; [exact S1|]. split; [exact S2|]. split; [|cbn in *; lia].
      intros x Hx. destruct (S3 x Hx) as [<-|Hx']; [left; reflexivity|right; right; exact Hx'].
Qed.

(** the points in the order of their angles *)
Definition angular (l : list point) : Prop := forall l1 a l2 b l3, l = l1 ++ a :: l2 ++ b :: l3 -> 0 <= cr a b.
Lemma angular_next P c l x : angular (P ++ c :: l) -> In x P -> 0 <= cr x c.
Proof.
  intros H Hx. apply in_split in Hx as (u & v & ->). apply (H u x v c l). rewrite <- !app_assoc. reflexivity.
Qed.

Lemma scan_all_total : forall l P st, angular (P ++ l) -> st <> [] -> incl st P ->
  exists st', scanAll (st ++ [o]) l = Ok (st' ++ [o]) /\ st' <> [] /\ incl st' (P ++ l) /\
    (length st' <= length st + length l)%nat.
Proof.
  induction l as [|c l IH]; intros P st HA HN HI.
  - exists st. split; [reflexivity|]. split; [exact HN|]. split; [rewrite app_nil_r; exact HI|cbn; lia].
  - destruct (scan_one_total st c HN) as (st1 & S1 & S2 & S3 & S4); [intros x Hx; eapply angular_next; [exact HA|apply HI, Hx]|].
    destruct (IH (P ++ [c]) st1) as (st' & T1 & T2 & T3 & T4).
    + rewrite <- app_assoc. exact HA.
    + exact S2.
    + intros x Hx. apply in_or_app. destruct (S3 x Hx) as [<-|Hx']; [right; left; reflexivity|left; apply HI, Hx'].
    + exists st'. cbn [scanAll]. rewrite S1. cbn [bind]. split; [exact T1|]. split; [exact T2|].
      rewrite <- app_assoc in T3. split; [exact T3|cbn [length]; lia].
Qed.

Definition rays (l : list point) : Prop :=
  forall l1 a l2 b l3 c l4, l = l1 ++ a :: l2 ++ b :: l3 ++ c :: l4 -> cr a b = 0 -> cr a c = 0 -> ~ (d2 o b < d2 o a /\ d2 o a < d2 o c).
Definition tailIn (P st : list point) : Prop :=
  forall t s r, st = t :: s :: r -> cr s t = 0 -> exists l1 l2 l3, P = l1 ++ s :: l2 ++ t :: l3.

Lemma scan_all : forall l P st, angular (P ++ l) -> rays (P ++ l) -> Forall (low o) (P ++ l) -> st <> [] -> incl st P -> good st ->
  tailIn P st -> (forall q, In q P -> spans st q) ->
  exists st', scanAll (st ++ [o]) l = Ok (st' ++ [o]) /\ st' <> [] /\ incl st' (P ++ l) /\ good st' /\
    (forall q, In q (P ++ l) -> spans st' q).
Proof.
  induction l as [|c l IH]; intros P st HA HR HL HN HI HG HT HS.
  - exists st. rewrite app_nil_r. split; [reflexivity|]. split; [exact HN|]. split; [exact HI|]. split; assumption.
  - assert (HC : forall x, In x st -> 0 <= cr x c) by (intros x Hx; eapply angular_next; [exact HA|apply HI, Hx]).
    assert (Lc : low o c) by (rewrite Forall_forall in HL; apply HL, in_or_app; right; left; reflexivity).
    destruct (scan_one st c HN HG Lc HC) as (st1 & S1 & S2 & S3 & S4 & S5 & S6).
    { intros t s r -> E1 E2. destruct (HT t s r eq_refl E1) as (l1 & l2 & l3 & ->).
      destruct HG as (_ & _ & (_ & OT) & _). destruct OT as [OT|[_ OT]]; [lia|].
      destruct (Z_le_gt_dec (d2 o c) (d2 o s)) as [|Gt]; [assumption|exfalso].
      apply (HR l1 s l2 t l3 c l); [rewrite <- !app_assoc; cbn [app]; rewrite <- !app_assoc; reflexivity|exact E1|exact E2|lia]. }
    destruct (IH (P ++ [c]) st1) as (st' & T1 & T2 & T3 & T4 & T5).
    + rewrite <- app_assoc. exact HA.
    + rewrite <- app_assoc. exact HR.
    + rewrite <- app_assoc. exact HL.
    + exact S2.
    + intros x Hx. apply in_or_app. destruct (S4 x Hx) as [<-|Hx']; [right; left; reflexivity|left; apply HI, Hx'].
    + exact S3.
    + intros t s r E1 E2. destruct S6 as [->|[(r' & E & S6)|S6]].
      * destruct (HT t s r E1 E2) as (l1 & l2 & l3 & ->). exists l1, l2, (l3 ++ [c]). rewrite <- !app_assoc. cbn [app].
        rewrite <- !app_assoc. reflexivity.
      * rewrite E in E1. injection E1 as -> ->. assert (Hs : In s P) by (apply HI, S6; left; reflexivity).
        apply in_split in Hs as (u & v & ->). exists u, v, []. rewrite <- app_assoc. reflexivity.
      * exfalso. apply S6. exists t, s, r. split; assumption.
    + intros q Hq A B C Ho Hv.
      assert (K : forall v, In v (c :: st) -> 0 <= lin A B C v) by (intros v Hv'; apply (S5 v Hv'); assumption).
      apply in_app_or in Hq as [Hq|[<-|[]]]; [|apply K; left; reflexivity].
      apply (HS q Hq A B C Ho). intros v Hv'. apply K. right; exact Hv'.
    + exists st'. cbn [scanAll]. rewrite S1. cbn [bind]. rewrite <- app_assoc in T3, T5. split; [exact T1|].
      split; [exact T2|]. split; [exact T3|]. split; [exact T4|exact T5].
Qed.

(** edges of the finished hull *)
Lemma pairs_split (P : point -> point -> Prop) : forall u st y x w, pairs P st -> st = u ++ y :: x :: w -> P x y.
Proof.
  induction u as [|h u IH]; intros st y x w H E; subst; inversion H as [|? ? Ht H']; subst.
  - apply Ht. left; reflexivity.
  - eapply IH; [exact H'|reflexivity].
Qed.
Lemma pairs_in (P : point -> point -> Prop) : forall u st y w v, pairs P st -> st = u ++ y :: w -> In v w -> P v y.
Proof.
  induction u as [|h u IH]; intros st y w v H E Hv; subst; inversion H as [|? ? Ht H']; subst.
  - apply Ht, Hv.
  - eapply IH; [exact H'|reflexivity|exact Hv].
Qed.
Lemma pairs_in' (P : point -> point -> Prop) : forall u st x w v, pairs P st -> st = u ++ x :: w -> In v u -> P x v.
Proof.
  induction u as [|h u IH]; intros st x w v H E Hv; [destruct Hv|]. subst. inversion H as [|? ? Ht H']; subst.
  destruct Hv as [->|Hv]; [apply Ht, in_or_app; right; left; reflexivity|]. eapply IH; [exact H'|reflexivity|exact Hv].
Qed.
Lemma triples_split (P : point -> point -> point -> Prop) : forall u st y x w, triples P st -> st = u ++ y :: x :: w ->
  (forall v, In v w -> P v x y) /\ (forall v, In v u -> P x y v).
Proof.
  induction u as [|h u IH]; intros st y x w H E; subst; inversion H as [|? ? Ht H']; subst.
  - split; [|intros v []]. intros v Hv. inversion Ht as [|? ? Hx _]; subst. apply Hx, Hv.
  - destruct (IH _ y x w H' eq_refl) as [A B]. split; [exact A|]. intros v [->|Hv]; [|apply B, Hv].
    apply (pairs_split _ u _ y x w Ht eq_refl).
Qed.

Lemma good_pairs st : good st -> pairs (fun x y => 0 <= cr x y) st.
Proof.
  intros (L & P & OT & _). destruct st as [|t r]; [constructor|]. constructor.
  - destruct r as [|s r]; [intros x []|]. destruct OT as [PT OT]. intros x [<-|Hx]; [destruct OT as [|[]]; lia|].
    pose proof (PT x Hx). lia.
  - cbn [tl] in P. eapply pairs_impl; [|exact P]. cbn. intros; lia.
Qed.

Lemma good_encloses st a b v : good st -> st <> [] -> edgeOf (rev (o :: st ++ [o])) a b -> In v (o :: st) -> 0 <= side a b v.
Proof.
  intros G N (u & w & E) Hv. pose proof (good_pairs st G) as GP. destruct G as (_ & _ & _ & T).
  apply (f_equal (@rev point)) in E. rewrite rev_involutive, rev_app_distr in E. cbn [rev] in E. rewrite <- !app_assoc in E. cbn [app] in E.
  remember (rev w) as w'. remember (rev u) as u'. clear Hequ' Heqw' u w.
  destruct w' as [|h w'].
  - (* closing edge *)
    cbn [app] in E. injection E as <- E. destruct st as [|t r]; [congruence|]. cbn [app] in E. injection E as <- E.
    rewrite <- (side_cycle v t o), <- (side_cycle o v t). destruct Hv as [<-|[<-|Hv]]; [rewrite side_ooa; lia|rewrite side_aa; lia|].
    inversion GP as [|? ? H _]; subst. apply H, Hv.
  - cbn [app] in E. injection E as <- E. destruct (rev_case u') as [->|(u1 & z & ->)].
    + (* first edge *)
      assert (E' : st ++ [o] = (w' ++ [b]) ++ [a]) by (rewrite E, <- app_assoc; reflexivity).
      apply app_inj_tail in E' as [-> <-]. destruct Hv as [<-|Hv]; [rewrite side_oao; lia|].
      apply in_app_or in Hv as [Hv|[<-|[]]]; [|rewrite side_aa; lia]. apply (pairs_in' _ w' _ b [] v GP eq_refl Hv).
    + assert (E' : st ++ [o] = (w' ++ b :: a :: u1) ++ [z]) by (rewrite E, <- app_assoc; reflexivity).
      apply app_inj_tail in E' as [-> <-]. destruct (triples_split _ w' _ b a u1 T eq_refl) as [T1 T2].
      pose proof (pairs_split _ w' _ b a u1 GP eq_refl) as Pab. cbn in Pab.
      destruct Hv as [<-|Hv]; [rewrite <- (side_cycle o a b); exact Pab|].
      apply in_app_or in Hv as [Hv|[<-|[<-|Hv]]].
      * apply T2, Hv.
      * rewrite side_aa. lia.
      * rewrite side_oao. lia.
      * rewrite <- (side_cycle v a b). apply T1, Hv.
Qed.

End Scan.

(** ** The extremal point and the sort *)
Lemma extremal_spec : forall l i p0 i0 pre, length pre = i -> nth_error (pre ++ l) i0 = Some p0 ->
  let r := extremal l i p0 i0 in nth_error (pre ++ l) (snd r) = Some (fst r) /\
    (fst r = p0 \/ snd p0 < snd (fst r) \/ (snd p0 = snd (fst r) /\ fst (fst r) < fst p0)) /\
    forall q, In q l -> snd q < snd (fst r) \/ (snd q = snd (fst r) /\ fst (fst r) <= fst q).
Proof.
  induction l as [|p l IH]; intros i p0 i0 pre Hi Hn; cbn zeta; cbn [extremal].
  - split; [exact Hn|]. split; [left; reflexivity|intros q []].
  - assert (A : pre ++ p :: l = (pre ++ [p]) ++ l) by (rewrite <- app_assoc; reflexivity).
    assert (Li : length (pre ++ [p]) = S i) by (rewrite app_length; cbn; lia).
    destruct ((0 <? snd p - snd p0) || ((snd p - snd p0 =? 0) && (fst p <? fst p0))) eqn:E.
    + destruct (IH (S i) p i (pre ++ [p]) Li) as (R1 & R2 & R3).
      { rewrite <- app_assoc. cbn [app]. rewrite nth_error_app2 by lia. rewrite Hi, Nat.sub_diag. reflexivity. }
      rewrite A. split; [exact R1|].
      assert (snd p0 < snd p \/ (snd p0 = snd p /\ fst p < fst p0)).
      { apply orb_true_iff in E as [E|E]; [left; apply Z.ltb_lt in E; lia|]. apply andb_true_iff in E as [E1 E2].
        apply Z.eqb_eq in E1. apply Z.ltb_lt in E2. right; lia. }
      split; [right; destruct R2 as [->|[R2|R2]]; [|left|]; lia|].
      intros q [<-|Hq]; [|apply R3, Hq]. destruct R2 as [->|[R2|R2]]; [right; lia|left; lia|right; lia].
    + destruct (IH (S i) p0 i0 (pre ++ [p]) Li) as (R1 & R2 & R3); [rewrite <- A; exact Hn|].
      rewrite A. split; [exact R1|]. split; [exact R2|].
      intros q [<-|Hq]; [|apply R3, Hq]. apply orb_false_iff in E as [E1 E2]. apply Z.ltb_ge in E1.
      destruct (Z.eq_dec (snd p - snd p0) 0) as [E0|E0].
      * rewrite E0 in E2. cbn [Z.eqb andb] in E2. apply Z.ltb_ge in E2. destruct R2 as [->|[R2|R2]]; lia.
      * destruct R2 as [->|[R2|R2]]; lia.
Qed.

Lemma ccw_side o a b : ccwBefore o a b = (0 <? side o a b).
Proof. unfold ccwBefore, side. f_equal. ring. Qed.
Lemma ccw_false o a b : ccwBefore o a b = false <-> 0 <= side o b a.
Proof. rewrite ccw_side, Z.ltb_ge, (side_swap o a b). lia. Qed.
Lemma ccw_true o a b : ccwBefore o a b = true <-> 0 < side o a b.
Proof. rewrite ccw_side. apply Z.ltb_lt. Qed.

Lemma ccw_weak o l : Forall (low o) l -> strictWeak (ccwBefore o) l.
Proof.
  rewrite Forall_forall. intros L. split; [|split].
  - intros a _. rewrite ccw_false, side_aa. lia.
  - intros a b c Ha Hb Hc. rewrite !ccw_true. intros H1 H2. apply (ang_trans_l o a b c); auto. lia.
  - intros a b c Ha Hb Hc. rewrite !ccw_false. intros H1 H2 H3 H4. split; [apply (ang_trans o c b a)|apply (ang_trans o a b c)]; auto.
Qed.

(** the extremal point of the specification is the one that is found *)
Lemma split_firstn (u : list point) x v : firstn (length u) (u ++ x :: v) ++ skipn (S (length u)) (u ++ x :: v) = u ++ v.
Proof.
  rewrite firstn_app, Nat.sub_diag, firstn_all, firstn_O, app_nil_r. f_equal.
  rewrite skipn_app. replace (S (length u) - length u)%nat with 1%nat by lia.
  rewrite (skipn_all2 u) by lia. reflexivity.
Qed.
Lemma extremal_found p0 u v a rest : u ++ p0 :: v = a :: rest ->
  (forall q, In q (u ++ v) -> low p0 q) -> extremal rest 1 a 0 = (p0, length u).
Proof.
  intros E L. destruct (extremal_spec rest 1 a 0 [a] eq_refl eq_refl) as (R1 & R2 & R3).
  destruct (extremal rest 1 a 0) as [p i]. cbn [fst snd] in *. change ([a] ++ rest) with (a :: rest) in R1. rewrite <- E in R1.
  assert (Hp : forall q, In q (u ++ p0 :: v) -> q <> p -> low p q).
  { intros q Hq Hn. assert (K : snd q < snd p \/ (snd q = snd p /\ fst p <= fst q)).
    { rewrite E in Hq. destruct Hq as [<-|Hq]; [|apply R3, Hq]. destruct R2 as [R2|[R2|R2]]; [congruence|left; lia|right; lia]. }
    destruct K as [K|[K1 K2]]; [left; exact K|]. right. split; [exact K1|].
    destruct (Z.eq_dec (fst p) (fst q)) as [K3|]; [|lia]. exfalso. apply Hn. destruct p, q; cbn in *; congruence. }
  assert (Ep : p = p0).
  { destruct (point_eq_dec p p0) as [|N]; [assumption|exfalso].
    pose proof (Hp p0 ltac:(apply in_or_app; right; left; reflexivity) ltac:(congruence)) as L1.
    assert (Ip : In p (u ++ v)).
    { apply nth_error_In in R1. apply in_app_or in R1 as [R1|[R1|R1]]; apply in_or_app; [left; exact R1|congruence|right; exact R1]. }
    pose proof (L p Ip) as L2. unfold low in L1, L2. lia. }
  subst p. f_equal.
  destruct (Nat.lt_trichotomy i (length u)) as [H|[H|H]]; [|exact H|]; exfalso.
  - rewrite nth_error_app1 in R1 by exact H. apply nth_error_In in R1.
    pose proof (L p0 ltac:(apply in_or_app; left; exact R1)) as K. unfold low in K. lia.
  - rewrite nth_error_app2 in R1 by lia. destruct (i - length u)%nat as [|k] eqn:Ek; [lia|]. cbn in R1. apply nth_error_In in R1.
    pose proof (L p0 ltac:(apply in_or_app; right; exact R1)) as K. unfold low in K. lia.
Qed.

Section Hull.
Variable sort : (point -> point -> bool) -> list point -> list point.
Hypothesis Hsort : sorts sort.

Lemma hull_setup p0 u v : (forall q, In q (u ++ v) -> low p0 q) -> u ++ v <> [] ->
  exists h others, sort (ccwBefore p0) (u ++ v) = h :: others /\ Permutation (h :: others) (u ++ v) /\
    angular p0 (h :: others) /\ Forall (low p0) (h :: others) /\
    convexHull sort (u ++ p0 :: v) = (st <- scanAll [h; p0] others ;; Ok (rev (p0 :: st))).
Proof.
  intros L N. destruct (Hsort (ccwBefore p0) (u ++ v)) as [HP HS]; [apply ccw_weak; rewrite Forall_forall; exact L|].
  destruct (sort (ccwBefore p0) (u ++ v)) as [|h others] eqn:Es; [apply Permutation_nil in HP; congruence|].
  exists h, others. split; [reflexivity|]. split; [exact HP|]. split; [|split].
  - intros l1 a l2 b l3 E. specialize (HS l1 a l2 b l3 E). apply ccw_false. exact HS.
  - rewrite Forall_forall. intros q Hq. apply L. eapply Permutation_in; [exact HP|exact Hq].
  - unfold convexHull. destruct (u ++ p0 :: v) as [|a [|b rest]] eqn:E.
    + destruct u; discriminate.
    + exfalso. apply N. destruct u as [|? [|? u]]; cbn in E; [injection E as _ ->; reflexivity|discriminate|discriminate].
    + rewrite (extremal_found p0 u v a (b :: rest) E L). rewrite <- E, split_firstn, Es. reflexivity.
Qed.

Theorem hull_total p0 poly : isExtremal p0 poly -> (2 <= length poly)%nat ->
  exists hull, convexHull sort poly = Ok hull /\ closedFrom hull poly /\ (length hull <= S (length poly))%nat.
Proof.
  intros (u & v & -> & L) N. assert (N' : u ++ v <> []).
  { intro E. apply app_eq_nil in E as [-> ->]. cbn in N. lia. }
  destruct (hull_setup p0 u v L N') as (h & others & _ & HP & HA & _ & ->).
  destruct (scan_all_total p0 others [h] [h] HA ltac:(discriminate) ltac:(intros x Hx; exact Hx)) as (st & S1 & S2 & S3 & S4).
  change ([h] ++ [p0]) with [h; p0] in S1. rewrite S1. cbn [bind]. exists (rev (p0 :: st ++ [p0])). split; [reflexivity|].
  assert (LP : length (h :: others) = length (u ++ v)) by (apply Permutation_length, HP).
  split; [split|].
  - exists p0, (rev st). split; [cbn [rev]; rewrite rev_app_distr; reflexivity|]. intro E. apply S2.
    apply (f_equal (@rev point)) in E. rewrite rev_involutive in E. exact E.
  - intros x Hx. rewrite <- in_rev in Hx. assert (Hx' : x = p0 \/ In x st).
    { destruct Hx as [<-|Hx]; [left; reflexivity|]. apply in_app_or in Hx as [Hx|[<-|[]]]; auto. }
    destruct Hx' as [->|Hx']; [apply in_or_app; right; left; reflexivity|]. apply S3 in Hx'.
    pose proof (Permutation_in _ HP Hx') as K. apply in_app_or in K as [K|K]; apply in_or_app; [left|right; right]; exact K.
  - rewrite rev_length. cbn [length] in *. rewrite !app_length in *. cbn [length] in *. lia.
Qed.

Theorem hull_convex p0 poly : isExtremal p0 poly -> (2 <= length poly)%nat ->
  (forall u v, poly = u ++ p0 :: v -> rayOrder p0 (sort (ccwBefore p0) (u ++ v))) ->
  exists hull, convexHull sort poly = Ok hull /\ closedFrom hull poly /\ enclosesAll hull poly /\ spansAll hull poly.
Proof.
  intros (u & v & -> & L) N HR. specialize (HR u v eq_refl). assert (N' : u ++ v <> []).
  { intro E. apply app_eq_nil in E as [-> ->]. cbn in N. lia. }
  destruct (hull_total p0 (u ++ p0 :: v)) as (hull & H1 & H2 & _); [exists u, v; split; [reflexivity|exact L]|exact N|].
  exists hull. split; [exact H1|]. split; [exact H2|].
  destruct (hull_setup p0 u v L N') as (h & others & Es & HP & HA & HL & E). rewrite Es in HR. rewrite E in H1. clear E.
  destruct (scan_all p0 others [h] [h] HA HR HL ltac:(discriminate) ltac:(intros x Hx; exact Hx)) as (st & S1 & S2 & S3 & S4 & S5).
  - split; [inversion HL; constructor; [assumption|constructor]|]. split; [constructor|]. split; [exact I|]. constructor; constructor.
  - intros t s r E. discriminate.
  - intros q Hq. apply spans_in, Hq.
  - change ([h] ++ [p0]) with [h; p0] in S1. rewrite S1 in H1. cbn [bind] in H1. injection H1 as <-.
    assert (SP : forall q, In q (u ++ p0 :: v) -> spans p0 st q).
    { intros q Hq A B C Ho Hv. apply in_app_or in Hq as [Hq|[<-|Hq]]; [|exact Ho|]; apply (S5 q); try assumption;
        apply (Permutation_in _ (Permutation_sym HP)); apply in_or_app; auto. }
    split.
    + intros a b q He Hq. rewrite side_lin. apply (SP q Hq); intros; rewrite <- side_lin; apply (good_encloses p0 st); auto.
      * left; reflexivity.
      * right; assumption.
    + intros A B C Hv q Hq. apply (SP q Hq A B C).
      * apply Hv. apply (proj1 (in_rev (p0 :: st ++ [p0]) p0)). left; reflexivity.
      * intros w Hw. apply Hv. apply (proj1 (in_rev (p0 :: st ++ [p0]) w)). right. apply in_or_app. left; exact Hw.
Qed.
End Hull.
