(** labelComponents finds the connected components. *)
From Coq Require Import Relations.
From Verif Require Import Base CellMap_Model CellMap_Spec CellMap_Init CellMap_InitProofs CellThresh_Model CellThresh_Spec.
Local Open Scope Z_scope.

Lemma within_iff a b z : within a b z = true <-> a <= z < b.
Proof. unfold within. rewrite andb_true_iff, Z.leb_le, Z.ltb_lt. lia. Qed.
Lemma inRectB_iff r x y : inRectB r x y = true <-> inRect r x y.
Proof. unfold inRectB, inRect. rewrite andb_true_iff, !within_iff. lia. Qed.

Notation point := (Z * Z)%type.
Notation joinedBy L := (clos_refl_sym_trans point (fun a b => In (a, b) L)).

Lemma joined_more (L L' : list (point * point)) p q : (forall e, In e L -> In e L') -> joinedBy L p q -> joinedBy L' p q.
Proof. intros I H. induction H; [apply rst_step; auto|apply rst_refl|apply rst_sym; auto|eapply rst_trans; eauto]. Qed.

Lemma joined_cons L a b p q : joinedBy (L ++ [(a, b)]) p q <-> joinedBy L p q \/ (joinedBy L p a /\ joinedBy L b q) \/ (joinedBy L p b /\ joinedBy L a q).
Proof.
  split.
  - intros H. induction H as [p q H|p|p q H IH|p q s H1 IH1 H2 IH2].
    + apply in_app_iff in H. destruct H as [H|[H|[]]]; [left; apply rst_step; exact H|]. injection H as <- <-. right. left. split; apply rst_refl.
    + left. apply rst_refl.
    + destruct IH as [I|[[I J]|[I J]]]; [left; apply rst_sym; exact I|right; right; split; apply rst_sym; assumption|right; left; split; apply rst_sym; assumption].
    + destruct IH1 as [I|[[I J]|[I J]]], IH2 as [K|[[K M]|[K M]]].
      * left. eapply rst_trans; eassumption.
      * right; left. split; [eapply rst_trans; eassumption|exact M].
      * right; right. split; [eapply rst_trans; eassumption|exact M].
      * right; left. split; [exact I|eapply rst_trans; eassumption].
      * right; left. split; [exact I|exact M].
      * left. eapply rst_trans; [exact I|exact M].
      * right; right. split; [exact I|eapply rst_trans; eassumption].
      * left. eapply rst_trans; [exact I|exact M].
      * right; right. split; [exact I|exact M].
  - assert (M : forall p q, joinedBy L p q -> joinedBy (L ++ [(a, b)]) p q) by (intros p' q'; apply joined_more; intros e H; apply in_or_app; left; exact H).
    assert (AB : joinedBy (L ++ [(a, b)]) a b) by (apply rst_step; apply in_or_app; right; left; reflexivity).
    intros [H|[[H K]|[H K]]]; [apply M, H| |].
    + eapply rst_trans; [apply M, H|]. eapply rst_trans; [exact AB|apply M, K].
    + eapply rst_trans; [apply M, H|]. eapply rst_trans; [apply rst_sym; exact AB|apply M, K].
Qed.

Section Comps.
Variable eight : bool.
Variable r : rect.
Variable fg : Z -> Z -> bool.
Let D (p : point) : Prop := inRect r (fst p) (snd p).
Let on (p : point) : Prop := D p /\ fg (fst p) (snd p) = true.

Lemma index_inj p q : D p -> D q -> pixelIndex r p = pixelIndex r q -> p = q.
Proof. unfold D, inRect, pixelIndex. destruct p as [a b], q as [c d]. cbn. intros P Q E. assert (b = d) by nia. subst d. f_equal. nia. Qed.

(** the labels after the pairs of [L] *)
Definition sorts (L : list (point * point)) (lab : point -> Z) : Prop :=
  (forall p q, D p -> D q -> (lab p = lab q <-> joinedBy L p q)) /\
  (forall p, D p -> exists q, D q /\ lab p = pixelIndex r q /\ joinedBy L p q).

Lemma sorts_start : sorts [] (pixelIndex r).
Proof.
  split.
  - intros p q P Q. split; [intros E; rewrite (index_inj p q P Q E); apply rst_refl|].
    intros H. induction H as [p q []|p|p q H IH|p q s H1 IH1 H2 IH2]; [reflexivity|symmetry; auto|].
    assert (G : forall p q, joinedBy [] p q -> p = q) by (clear; intros p q H; induction H as [? ? []| |? ? ? IH|? ? ? ? IH ? IH']; congruence).
    rewrite (G _ _ H1), (G _ _ H2). reflexivity.
  - intros p P. exists p. split; [exact P|split; [reflexivity|apply rst_refl]].
Qed.
Lemma sorts_merge L lab a b : D a -> D b -> sorts L lab -> sorts (L ++ [(a, b)]) (mergeTwo lab (a, b)).
Proof.
  intros A B [E R].
  assert (N : forall p, mergeTwo lab (a, b) p = if lab p =? Z.max (lab a) (lab b) then Z.min (lab a) (lab b) else lab p) by reflexivity.
  split.
  - intros p q P Q. rewrite joined_cons. rewrite !N.
    rewrite <- (E p q P Q), <- (E p a P A), <- (E b q B Q), <- (E p b P B), <- (E a q A Q).
    destruct (Z.eqb_spec (lab p) (Z.max (lab a) (lab b))), (Z.eqb_spec (lab q) (Z.max (lab a) (lab b))); lia.
  - intros p P. rewrite N. destruct (Z.eqb_spec (lab p) (Z.max (lab a) (lab b))) as [M|M].
    + assert (C : (lab p = lab a \/ lab p = lab b)) by lia.
      destruct (Z.min_spec (lab a) (lab b)) as [[_ ->]|[_ ->]].
      * destruct (R a A) as (q & Q & Eq & J). exists q. split; [exact Q|split; [exact Eq|]]. apply joined_cons.
        destruct C as [C|C]; [left; eapply rst_trans; [apply (E p a P A); exact C|exact J]|right; right; split; [apply (E p b P B); exact C|exact J]].
      * destruct (R b B) as (q & Q & Eq & J). exists q. split; [exact Q|split; [exact Eq|]]. apply joined_cons.
        destruct C as [C|C]; [right; left; split; [apply (E p a P A); exact C|exact J]|left; eapply rst_trans; [apply (E p b P B); exact C|exact J]].
    + destruct (R p P) as (q & Q & Eq & J). exists q. split; [exact Q|split; [exact Eq|]]. apply joined_cons. left. exact J.
Qed.
Lemma sorts_fold : forall L' L lab, (forall a b, In (a, b) L' -> D a /\ D b) -> sorts L lab -> sorts (L ++ L') (fold_left mergeTwo L' lab).
Proof.
  induction L' as [|[a b] t IH]; intros L lab I H; cbn [fold_left]; [rewrite app_nil_r; exact H|].
  replace (L ++ (a, b) :: t) with ((L ++ [(a, b)]) ++ t) by (rewrite <- app_assoc; reflexivity).
  apply IH; [intros; apply I; right; assumption|]. destruct (I a b (or_introl eq_refl)). apply sorts_merge; assumption.
Qed.

Lemma touching_in a b : In (a, b) (touching eight r fg) <-> on a /\ on b /\ exists k, In k (neighbourCode eight) /\ b = step8 a k.
Proof.
  unfold touching. rewrite in_flat_map. split.
  - intros (p & P & I). destruct (inRectB r (fst p) (snd p) && fg (fst p) (snd p)) eqn:O; [|contradiction].
    apply in_map_iff in I. destruct I as (k & E & I). injection E as <- <-. apply filter_In in I. destruct I as [K O'].
    apply andb_prop in O, O'. destruct O as [O1 O2], O' as [O1' O2']. rewrite inRectB_iff in O1, O1'.
    split; [split; assumption|split; [split; assumption|exists k; split; [exact K|reflexivity]]].
  - intros ((A1 & A2) & (B1 & B2) & k & K & ->). exists a. destruct a as [x y]. split; [apply rectPoints_in; exact A1|].
    apply inRectB_iff in A1. rewrite A1, A2. cbn [andb]. apply in_map_iff. exists k. split; [reflexivity|]. apply filter_In. split; [exact K|].
    apply inRectB_iff in B1. rewrite B1, B2. reflexivity.
Qed.
Lemma root_sorts : sorts (touching eight r fg) (rootOf eight r fg).
Proof.
  unfold rootOf. apply (sorts_fold (touching eight r fg) [] (pixelIndex r)); [|apply sorts_start].
  intros a b I. apply touching_in in I. destruct I as ((A & _) & (B & _) & _). auto.
Qed.

Let P (x y : Z) : Prop := inRect r x y /\ fg x y = true.
Let reach8 := reach (neighbourCode eight) P.
Lemma reach_trans x y u v a b : reach8 x y u v -> reach8 u v a b -> reach8 x y a b.
Proof. intros H K. induction K as [|a b k K IH I Q]; [exact H|]. apply re_step; assumption. Qed.
Lemma reach_start x y u v : reach8 x y u v -> P x y.
Proof. intros H. induction H; assumption. Qed.
Lemma reach_end x y u v : reach8 x y u v -> P u v.
Proof. intros H. destruct H; assumption. Qed.
Lemma opposite k : In k (neighbourCode eight) -> In ((k + 4) mod 8) (neighbourCode eight) /\ dirX ((k + 4) mod 8) = - dirX k /\ dirY ((k + 4) mod 8) = - dirY k.
Proof. unfold neighbourCode. destruct eight; cbn [In]; intros H; repeat (destruct H as [<-|H]; [cbn; tauto|]); contradiction. Qed.
Lemma reach_back x y k : P x y -> In k (neighbourCode eight) -> P (x + dirX k) (y + dirY k) -> reach8 (x + dirX k) (y + dirY k) x y.
Proof.
  intros A K B. destruct (opposite k K) as (K' & X & Y).
  assert (Ex : x = x + dirX k + dirX ((k + 4) mod 8)) by lia. assert (Ey : y = y + dirY k + dirY ((k + 4) mod 8)) by lia.
  rewrite Ex at 2. rewrite Ey at 2. apply re_step; [apply re_here; exact B|exact K'|]. rewrite <- Ex, <- Ey. exact A.
Qed.
Lemma joined_reach p q : on p -> on q -> (joinedBy (touching eight r fg) p q <-> reach8 (fst p) (snd p) (fst q) (snd q)).
Proof.
  intros A B. split.
  - intros H. assert (G : (on p -> reach8 (fst p) (snd p) (fst q) (snd q)) /\ (on q -> reach8 (fst q) (snd q) (fst p) (snd p))).
    { clear A B. induction H as [p q H|p|p q H IH|p q s H1 IH1 H2 IH2].
      - apply touching_in in H. destruct H as (A & B & k & K & ->). destruct p as [x y]. cbn in *. split; intros _.
        + apply re_step; [apply re_here; exact A|exact K|exact B].
        + apply reach_back; assumption.
      - split; intros A; apply re_here; exact A.
      - tauto.
      - destruct IH1 as [F1 G1], IH2 as [F2 G2]. split; intros A.
        + pose proof (F1 A) as R1. assert (Q : on q) by (exact (reach_end _ _ _ _ R1)).
          eapply reach_trans; [exact R1|apply F2, Q].
        + pose proof (G2 A) as R1. assert (Q : on q) by (exact (reach_end _ _ _ _ R1)).
          eapply reach_trans; [exact R1|apply G1, Q]. }
    apply G, A.
  - intros H. destruct p as [x y], q as [u v]. cbn in H. clear B. induction H as [|u v k H IH K Q]; [apply rst_refl|].
    eapply rst_trans; [exact IH|]. apply rst_step. apply touching_in.
    pose proof (reach_end _ _ _ _ H) as C.
    split; [exact C|split; [exact Q|exists k; split; [exact K|reflexivity]]].
Qed.

Lemma position_range v : forall l, In v l -> 0 <= position v l < Z.of_nat (length l).
Proof. induction l as [|a t IH]; cbn [position length In]; [intros []|]. intros [->|I]; [rewrite Z.eqb_refl; lia|]. destruct (a =? v); [lia|]. specialize (IH I). lia. Qed.
Lemma position_inj v v' : forall l, In v l -> In v' l -> position v l = position v' l -> v = v'.
Proof.
  induction l as [|a t IH]; cbn [position In]; [intros []|]. intros H H' E.
  destruct (Z.eqb_spec a v), (Z.eqb_spec a v'); [congruence| | |].
  - destruct H' as [H'|H']; [congruence|]. pose proof (position_range v' t H'). lia.
  - destruct H as [H|H]; [congruence|]. pose proof (position_range v t H). lia.
  - destruct H as [H|H], H' as [H'|H']; try congruence. apply IH; [exact H|exact H'|lia].
Qed.
Lemma position_nth : forall l i, NoDup l -> (i < length l)%nat -> exists v, In v l /\ position v l = Z.of_nat i.
Proof.
  induction l as [|a t IH]; intros i N L; cbn in L; [lia|]. inversion N as [|? ? NI N']; subst. destruct i as [|i].
  - exists a. split; [left; reflexivity|]. cbn. rewrite Z.eqb_refl. reflexivity.
  - destruct (IH i N' ltac:(lia)) as (v & V & E). exists v. split; [right; exact V|]. cbn [position]. destruct (Z.eqb_spec a v); [subst; contradiction|]. lia.
Qed.
Lemma map_nodup {A B} (f : A -> B) : forall l, (forall a b, In a l -> In b l -> f a = f b -> a = b) -> NoDup l -> NoDup (map f l).
Proof.
  induction l as [|a t IH]; intros I N; cbn; [constructor|]. inversion N as [|? ? NI N']; subst. constructor.
  - intros H. apply in_map_iff in H. destruct H as (b & E & Hb). apply NI. rewrite (I a b); [exact Hb|left; reflexivity|right; exact Hb|symmetry; exact E].
  - apply IH; [intros x y X Y; apply I; right; assumption|exact N'].
Qed.
Lemma firsts_nodup : NoDup (firstsOf eight r fg).
Proof.
  unfold firstsOf. apply map_nodup; [|apply NoDup_filter, rectPoints_NoDup].
  intros [a b] [c d] A B. apply filter_In in A, B. apply index_inj; [apply (rectPoints_in r a b), A|apply (rectPoints_in r c d), B].
Qed.
(** the label of the first pixel of a component *)
Lemma root_first p : on p -> exists q, on q /\ rootOf eight r fg p = pixelIndex r q /\ rootOf eight r fg q = rootOf eight r fg p /\ In (pixelIndex r q) (firstsOf eight r fg).
Proof.
  intros A. destruct root_sorts as [E R]. destruct (R p (proj1 A)) as (q & Q & Eq & J).
  assert (Eq' : rootOf eight r fg q = rootOf eight r fg p) by (symmetry; apply E; [apply A|exact Q|exact J]).
  assert (O : on q).
  { assert (G : forall p q, joinedBy (touching eight r fg) p q -> (on p <-> on q)).
    { clear. intros p q H. induction H as [p q H| |p q H IH|p q s H1 IH1 H2 IH2]; [|tauto|tauto|tauto]. apply touching_in in H. tauto. }
    apply (G p q J). exact A. }
  exists q. split; [exact O|split; [exact Eq|split; [exact Eq'|]]].
  unfold firstsOf. apply in_map. apply filter_In. destruct q as [x y]. split; [apply rectPoints_in, O|]. cbn [fst snd].
  destruct O as [_ F]. cbn [fst snd] in F. rewrite F. cbn [andb]. apply Z.eqb_eq. congruence.
Qed.
Lemma first_root v : In v (firstsOf eight r fg) -> exists q, on q /\ v = pixelIndex r q /\ rootOf eight r fg q = v.
Proof.
  unfold firstsOf. rewrite in_map_iff. intros ([x y] & <- & I). apply filter_In in I. destruct I as [I F]. apply andb_prop in F. destruct F as [F E]. apply Z.eqb_eq in E.
  exists (x, y). split; [split; [apply rectPoints_in; exact I|exact F]|split; [reflexivity|exact E]].
Qed.

Theorem components_spec lab n : labelComponents eight r fg = (lab, n) ->
  (forall x y, P x y -> 1 <= lab x y <= n) /\
  (forall l, 1 <= l <= n -> exists x y, P x y /\ lab x y = l) /\
  (forall x y u v, P x y -> P u v -> (lab x y = lab u v <-> reach8 x y u v)) /\ 0 <= n.
Proof.
  intros H.
  assert (E1 : forall x y, lab x y = 1 + position (rootOf eight r fg (x, y)) (firstsOf eight r fg)) by (intros; change lab with (fst (lab, n)); rewrite <- H; reflexivity).
  assert (E2 : n = Z.of_nat (length (firstsOf eight r fg))) by (change n with (snd (lab, n)); rewrite <- H; reflexivity). clear H.
  assert (A : forall x y, P x y -> In (rootOf eight r fg (x, y)) (firstsOf eight r fg)).
  { intros x y Q. destruct (root_first (x, y) Q) as (q & _ & Eq & _ & I). rewrite Eq. exact I. }
  split; [|split; [|split]].
  - intros x y Q. pose proof (position_range _ _ (A x y Q)). rewrite E1. lia.
  - intros l L. destruct (position_nth (firstsOf eight r fg) (Z.to_nat (l - 1)) firsts_nodup ltac:(lia)) as (v & V & E).
    destruct (first_root v V) as ([x y] & O & _ & Ro). exists x, y. split; [exact O|]. rewrite E1, Ro. lia.
  - intros x y u v Q Q'. destruct root_sorts as [E _].
    rewrite <- (joined_reach (x, y) (u, v) Q Q'), <- (E (x, y) (u, v) (proj1 Q) (proj1 Q')). split.
    + rewrite !E1. intros K. apply (position_inj _ _ (firstsOf eight r fg)); [apply A, Q|apply A, Q'|lia].
    + rewrite !E1. intros ->. reflexivity.
  - lia.
Qed.
End Comps.
