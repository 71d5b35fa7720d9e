From Coq Require Import QArith Lqa Setoid Bool.
From Verif Require Import Base Contains_Model Contains_Spec.
Local Open Scope Q_scope.

Lemma Qltb_true a b : Qltb a b = true <-> a < b.
Proof.
  unfold Qltb. rewrite negb_true_iff. destruct (Qle_bool b a) eqn:E.
  - apply Qle_bool_iff in E. split; [discriminate | intros; lra].
  - split; [intros _ | reflexivity]. apply Qnot_le_lt. intros K. apply Qle_bool_iff in K. congruence.
Qed.
Lemma Qltb_false a b : Qltb a b = false <-> b <= a.
Proof.
  destruct (Qltb a b) eqn:E; [apply Qltb_true in E; split; [discriminate | intros; lra]|].
  split; [intros _ | reflexivity]. apply Qnot_lt_le. intros K. apply Qltb_true in K. congruence.
Qed.
Lemma Qltb_ext a b a' b' : a == a' -> b == b' -> Qltb a b = Qltb a' b'.
Proof.
  intros H H'. destruct (Qltb a' b') eqn:E; [apply Qltb_true in E; apply Qltb_true; lra | apply Qltb_false in E; apply Qltb_false; lra].
Qed.

Definition samePoint (a b : qpt) : Prop := fst a == fst b /\ snd a == snd b.
Lemma samePt_iff a b : samePt a b = true <-> samePoint a b.
Proof. unfold samePt, samePoint. rewrite andb_true_iff, !Qeq_bool_iff. reflexivity. Qed.
Lemma samePt_refl a : samePt a a = true.
Proof. apply samePt_iff. split; reflexivity. Qed.
Lemma samePt_sym a b : samePt a b = samePt b a.
Proof.
  destruct (samePt b a) eqn:E.
  - apply samePt_iff in E. destruct E. apply samePt_iff. split; symmetry; assumption.
  - destruct (samePt a b) eqn:E'; [|reflexivity]. apply samePt_iff in E'. destruct E' as [H H'].
    assert (samePt b a = true) by (apply samePt_iff; split; symmetry; assumption). congruence.
Qed.

(** ** One segment *)

Definition isAbove (p a : qpt) : bool := Qltb (snd a) (snd p).
Definition pc (p a b : qpt) : bool := if Bool.eqb (isAbove p a) (isAbove p b) then false else Qltb (intersectX a b p) (fst p).

Lemma isAbove_ext p a b : samePoint a b -> isAbove p a = isAbove p b.
Proof. intros [_ H]. apply Qltb_ext; [exact H | reflexivity]. Qed.

Lemma differ_y p a b : isAbove p a <> isAbove p b -> ~ snd b - snd a == 0.
Proof. intros H K. apply H. apply Qltb_ext; [lra | reflexivity]. Qed.

Lemma eqb_sym a b : Bool.eqb a b = Bool.eqb b a.
Proof. destruct a, b; reflexivity. Qed.

Lemma intersectX_sym p a b : ~ snd b - snd a == 0 -> intersectX a b p == intersectX b a p.
Proof. intros H. unfold intersectX. field. split; [intros K | exact H]. apply H. lra. Qed.

Lemma pc_sym p a b : pc p a b = pc p b a.
Proof.
  unfold pc. rewrite (eqb_sym (isAbove p b)). destruct (Bool.eqb (isAbove p a) (isAbove p b)) eqn:E; [reflexivity|].
  apply eqb_false_iff in E. apply Qltb_ext; [apply intersectX_sym, (differ_y p), E | reflexivity].
Qed.

Lemma pc_same p a b : samePoint a b -> pc p a b = false.
Proof. intros H. unfold pc. rewrite (isAbove_ext p a b H), eqb_reflx. reflexivity. Qed.

Lemma pc_ext p a b a' b' : samePoint a a' -> samePoint b b' -> pc p a b = pc p a' b'.
Proof.
  intros Ha Hb. unfold pc. rewrite <- (isAbove_ext p a a' Ha), <- (isAbove_ext p b b' Hb).
  destruct (Bool.eqb (isAbove p a) (isAbove p b)) eqn:E; [reflexivity|]. apply eqb_false_iff in E.
  apply Qltb_ext; [|reflexivity]. destruct Ha as [H1 H2], Hb as [H3 H4]. unfold intersectX. rewrite H1, H2, H3, H4. reflexivity.
Qed.

(** the intersection lies on the segment *)
Lemma intersect_on p a b : isAbove p a <> isAbove p b -> onSegment a b (intersectX a b p, snd p).
Proof.
  intros H. pose proof (differ_y p a b H) as Hd. exists ((snd p - snd a) / (snd b - snd a)). cbn [fst snd].
  assert (H0 : 0 <= (snd p - snd a) / (snd b - snd a) /\ (snd p - snd a) / (snd b - snd a) <= 1).
  { unfold isAbove in H. destruct (Qltb (snd a) (snd p)) eqn:Ea, (Qltb (snd b) (snd p)) eqn:Eb; try congruence.
    - apply Qltb_true in Ea. apply Qltb_false in Eb. split.
      + apply Qle_shift_div_l; lra.
      + apply Qle_shift_div_r; lra.
    - apply Qltb_false in Ea. apply Qltb_true in Eb.
      assert (K : (snd p - snd a) / (snd b - snd a) == (snd a - snd p) / (snd a - snd b)) by (field; split; [intros K; apply Hd; lra | exact Hd]).
      rewrite K. split.
      + apply Qle_shift_div_l; lra.
      + apply Qle_shift_div_r; lra. }
  split; [apply H0|]. split; [apply H0|]. split; [unfold intersectX; field; exact Hd | field; exact Hd].
Qed.

Lemma onSegment_at p a b q : isAbove p a <> isAbove p b -> onSegment a b q -> snd q == snd p -> fst q == intersectX a b p.
Proof.
  intros H (t & _ & _ & Hx & Hy) Hp. pose proof (differ_y p a b H) as Hd. unfold intersectX.
  assert (Ht : t == (snd p - snd a) / (snd b - snd a)).
  { apply (Qmult_inj_r _ _ (snd b - snd a) Hd). transitivity (snd p - snd a); [lra | field; exact Hd]. }
  rewrite Hx, Ht. field. exact Hd.
Qed.

Lemma pc_spec p a b : pc p a b = true <-> crossesLeft a b p.
Proof.
  unfold pc, crossesLeft. destruct (Bool.eqb (isAbove p a) (isAbove p b)) eqn:E.
  - split; [discriminate|]. intros [K _]. apply eqb_prop in E. unfold isAbove in E. destruct K as [[K1 K2]|[K1 K2]];
      apply Qltb_true in K1; apply Qltb_false in K2; congruence.
  - apply eqb_false_iff in E. rewrite Qltb_true. split.
    + intros K. split.
      * unfold isAbove in E. destruct (Qltb (snd a) (snd p)) eqn:Ea, (Qltb (snd b) (snd p)) eqn:Eb; try congruence; [left|right];
          split; try (apply Qltb_true; assumption); apply Qltb_false; assumption.
      * exists (intersectX a b p, snd p). split; [apply intersect_on; exact E|]. split; [reflexivity | exact K].
    + intros (_ & q & Hq & Hy & Hx). pose proof (onSegment_at p a b q E Hq Hy). lra.
Qed.

(** ** Chains of segments *)

Fixpoint par (p : qpt) (l : list qpt) : bool :=
  match l with
  | a :: ((b :: _) as t) => xorb (pc p a b) (par p t)
  | _ => false
  end.
Lemma par_cons p a b t : par p (a :: b :: t) = xorb (pc p a b) (par p (b :: t)).
Proof. reflexivity. Qed.

Lemma odd_S n : Nat.odd (S n) = negb (Nat.odd n).
Proof. rewrite Nat.odd_succ, <- Nat.negb_odd. reflexivity. Qed.

Lemma containsLoop_par p l : forall a n, Nat.odd (containsLoop a (isAbove p a) l p n) = xorb (Nat.odd n) (par p (a :: l)).
Proof.
  induction l as [|b t IH]; intros a n; [cbn [containsLoop par]; rewrite xorb_false_r; reflexivity|].
  cbn [containsLoop]. change (Qltb (snd b) (snd p)) with (isAbove p b). rewrite par_cons. unfold pc. rewrite (eqb_sym (isAbove p a)).
  destruct (Bool.eqb (isAbove p b) (isAbove p a)) eqn:E; cbn [negb].
  - apply eqb_prop in E. rewrite <- E, IH, xorb_false_l. reflexivity.
  - rewrite IH. destruct (Qltb (intersectX a b p) (fst p)); [rewrite odd_S|]; destruct (Nat.odd n), (par p (b :: t)); reflexivity.
Qed.

Lemma par_crossings p l : exists n, crossings p l n /\ par p l = Nat.odd n.
Proof.
  induction l as [|a [|b t] IH]; [exists 0%nat; split; [constructor | reflexivity] | exists 0%nat; split; [constructor | reflexivity]|].
  destruct IH as (n & H1 & H2). rewrite par_cons, H2. destruct (pc p a b) eqn:E.
  - exists (S n). split; [constructor; [apply pc_spec; exact E | exact H1]|]. rewrite odd_S. reflexivity.
  - exists n. rewrite xorb_false_l. split; [|reflexivity]. constructor; [|exact H1]. intros K. apply pc_spec in K. congruence.
Qed.

Lemma par_app p u m v : par p (u ++ m :: v) = xorb (par p (u ++ [m])) (par p (m :: v)).
Proof.
  induction u as [|a [|b u] IH]; [cbn [app par]; rewrite xorb_false_l; reflexivity| |].
  - cbn [app]. rewrite !par_cons. cbn [par]. rewrite xorb_false_r. reflexivity.
  - cbn [app] in *. rewrite !par_cons, IH, xorb_assoc. reflexivity.
Qed.

Lemma par_rev p l : par p (rev l) = par p l.
Proof.
  induction l as [|a [|b t] IH]; [reflexivity | reflexivity|]. rewrite par_cons, <- IH. cbn [rev]. rewrite <- !app_assoc. cbn [app].
  rewrite (par_app p (rev t) b [a]), par_cons, (pc_sym p b a). cbn [par]. rewrite xorb_false_r. apply xorb_comm.
Qed.

(** ** Polygon::contains *)

Lemma vget_last {A} (l : list A) a : vget (l ++ [a]) (length (l ++ [a]) - 1) = Ok a.
Proof. apply vget_Ok. rewrite app_length. cbn [length]. replace (length l + 1 - 1)%nat with (length l) by lia. rewrite nth_error_app2, Nat.sub_diag by lia. reflexivity. Qed.

Lemma contains_ends a l z p : contains (a :: l ++ [z]) p = if samePt z a then Ok (par p (a :: l ++ [z])) else Exn.
Proof.
  unfold contains, closed. change (vget (a :: l ++ [z]) 0) with (Ok a). cbn [bind].
  change (a :: l ++ [z]) with ((a :: l) ++ [z]). rewrite vget_last. cbn [bind]. destruct (samePt z a); [|reflexivity].
  cbn [bind app tl]. f_equal. change (Qltb (snd a) (snd p)) with (isAbove p a). rewrite (containsLoop_par p (l ++ [z]) a 0). apply xorb_false_l.
Qed.
Lemma contains_one a p : contains [a] p = Ok false.
Proof. unfold contains, closed. cbn [vget nth_error length Nat.sub bind]. rewrite samePt_refl. reflexivity. Qed.

(** the two shapes of a non-empty polygon *)
Lemma poly_cases (l : list qpt) : l <> [] -> (exists a, l = [a]) \/ exists a m z, l = a :: m ++ [z].
Proof.
  destruct l as [|a t]; [contradiction|]. intros _. destruct (rev t) as [|z m] eqn:E.
  - left. exists a. apply (f_equal (@rev _)) in E. rewrite rev_involutive in E. cbn in E. subst. reflexivity.
  - right. exists a, (rev m), z. apply (f_equal (@rev _)) in E. rewrite rev_involutive in E. cbn [rev] in E. subst. reflexivity.
Qed.

Lemma contains_loop c p : c <> [] -> contains (loop c) p = Ok (par p (loop c)).
Proof. destruct c as [|a t]; [contradiction|]. intros _. unfold loop. change ((a :: t) ++ [a]) with (a :: t ++ [a]). rewrite contains_ends, samePt_refl. reflexivity. Qed.

Theorem contains_evenOdd l p : l <> [] -> (closed l = Ok false /\ contains l p = Exn) \/
  (closed l = Ok true /\ exists n, crossings p l n /\ contains l p = Ok (Nat.odd n)).
Proof.
  intros H. destruct (poly_cases l H) as [[a ->]|(a & m & z & ->)].
  - right. rewrite contains_one. unfold closed. cbn [vget nth_error length Nat.sub bind]. rewrite samePt_refl. split; [reflexivity|].
    exists 0%nat. split; [constructor | reflexivity].
  - rewrite contains_ends. assert (Hc : closed (a :: m ++ [z]) = Ok (samePt z a)).
    { unfold closed. change (vget (a :: m ++ [z]) 0) with (Ok a). cbn [bind]. change (a :: m ++ [z]) with ((a :: m) ++ [z]). rewrite vget_last. reflexivity. }
    rewrite Hc. destruct (samePt z a); [right|left; auto]. split; [reflexivity|].
    destruct (par_crossings p (a :: m ++ [z])) as (n & H1 & H2). exists n. rewrite H2. auto.
Qed.

Lemma crossings_fun p l n : crossings p l n -> forall n', crossings p l n' -> n = n'.
Proof.
  induction 1; intros n' K; inversion K; subst; try reflexivity; try contradiction; [f_equal|]; apply IHcrossings; assumption.
Qed.

Lemma par_rot p a u b v : par p ((a :: u) ++ (b :: v) ++ [a]) = par p ((b :: v) ++ (a :: u) ++ [b]).
Proof.
  change ((b :: v) ++ [a]) with (b :: v ++ [a]). rewrite (par_app p (a :: u) b (v ++ [a])).
  change ((a :: u) ++ [b]) with (a :: u ++ [b]). rewrite (par_app p (b :: v) a (u ++ [b])). apply xorb_comm.
Qed.

Theorem contains_rotate u v p : contains (loop (u ++ v)) p = contains (loop (v ++ u)) p.
Proof.
  destruct u as [|a u]; [rewrite app_nil_r; reflexivity|]. destruct v as [|b v]; [rewrite app_nil_r; reflexivity|].
  rewrite !contains_loop by discriminate. f_equal. unfold loop. cbn [app]. rewrite <- !app_assoc. apply (par_rot p a u b v).
Qed.

Theorem contains_reverse l p : contains (rev l) p = contains l p.
Proof.
  destruct l as [|x l]; [reflexivity|]. destruct (poly_cases (x :: l) ltac:(discriminate)) as [[a ->]|(a & m & z & ->)]; [reflexivity|].
  assert (E : rev (a :: m ++ [z]) = z :: rev m ++ [a]) by (cbn [rev]; rewrite rev_app_distr; reflexivity).
  rewrite E, !contains_ends, samePt_sym. destruct (samePt z a); [|reflexivity]. rewrite <- E, par_rev. reflexivity.
Qed.

(** ** Extra points on a segment *)

Lemma onSegment_between p a b q : onSegment a b q -> isAbove p a = isAbove p b -> isAbove p q = isAbove p a.
Proof.
  intros (t & H0 & H1 & _ & Hy) E. unfold isAbove in *. destruct (Qltb (snd a) (snd p)) eqn:Ea; symmetry in E.
  - apply Qltb_true in Ea. apply Qltb_true in E. apply Qltb_true.
    assert (K : snd p - snd q == (1 - t) * (snd p - snd a) + t * (snd p - snd b)) by (rewrite Hy; ring).
    assert (K1 : 0 <= t * (snd p - snd b)) by (apply Qmult_le_0_compat; lra).
    destruct (Qlt_le_dec t 1) as [L|L].
    + assert (K2 : 0 < (1 - t) * (snd p - snd a)) by (apply Qmult_lt_0_compat; lra). lra.
    + assert (E1 : t == 1) by lra. rewrite E1 in K. lra.
  - apply Qltb_false in Ea. apply Qltb_false in E. apply Qltb_false.
    assert (K : snd q - snd p == (1 - t) * (snd a - snd p) + t * (snd b - snd p)) by (rewrite Hy; ring).
    assert (K1 : 0 <= t * (snd b - snd p)) by (apply Qmult_le_0_compat; lra).
    assert (K2 : 0 <= (1 - t) * (snd a - snd p)) by (apply Qmult_le_0_compat; lra). lra.
Qed.

Lemma pc_subdivide p a b q : onSegment a b q -> pc p a b = xorb (pc p a q) (pc p q b).
Proof.
  intros H. destruct (Bool.eqb (isAbove p a) (isAbove p b)) eqn:E.
  - apply eqb_prop in E. pose proof (onSegment_between p a b q H E) as Hq. unfold pc. rewrite Hq, E, !eqb_reflx. reflexivity.
  - assert (Hab := E). apply eqb_false_iff in Hab. pose proof (differ_y p a b Hab) as Hd. destruct H as (t & H0 & H1 & Hx & Hy). unfold pc. rewrite E.
    destruct (Bool.eqb (isAbove p a) (isAbove p q)) eqn:E1; [|destruct (Bool.eqb (isAbove p q) (isAbove p b)) eqn:E2].
    + apply eqb_prop in E1. rewrite <- E1, E, xorb_false_l. assert (Hqb : isAbove p q <> isAbove p b) by congruence.
      apply Qltb_ext; [|reflexivity]. apply differ_y in Hqb. unfold intersectX. rewrite Hx, Hy in *. field. split; assumption.
    + rewrite xorb_false_r. apply eqb_false_iff in E1. apply differ_y in E1. apply Qltb_ext; [|reflexivity]. unfold intersectX. rewrite Hx, Hy in *.
      assert (Ht : ~ t == 0) by (intros K; apply E1; rewrite K; ring). field. split; assumption.
    + apply eqb_false_iff in E1. apply eqb_false_iff in E2. destruct (isAbove p a), (isAbove p b), (isAbove p q); congruence.
Qed.

Theorem contains_subdivide u a b v q p : onSegment a b q -> contains (u ++ a :: q :: b :: v) p = contains (u ++ a :: b :: v) p.
Proof.
  intros H. assert (Hp : par p (u ++ a :: q :: b :: v) = par p (u ++ a :: b :: v)).
  { rewrite (par_app p u a (q :: b :: v)), (par_app p u a (b :: v)), !par_cons, (pc_subdivide p a b q H), xorb_assoc. reflexivity. }
  assert (Hv : (exists z v', b :: v = v' ++ [z])) by (destruct (exists_last (l := b :: v) ltac:(discriminate)) as (v' & z & E); eauto).
  destruct Hv as (z & v' & E). rewrite E in *.
  destruct u as [|x u]; cbn [app] in *.
  - change (a :: q :: v' ++ [z]) with (a :: (q :: v') ++ [z]). rewrite !contains_ends. cbn [app]. rewrite Hp. reflexivity.
  - assert (E1 : u ++ a :: q :: v' ++ [z] = (u ++ a :: q :: v') ++ [z]) by (rewrite <- app_assoc; reflexivity).
    assert (E2 : u ++ a :: v' ++ [z] = (u ++ a :: v') ++ [z]) by (rewrite <- app_assoc; reflexivity).
    rewrite E1, E2 in *. rewrite !contains_ends, Hp. reflexivity.
Qed.

(** ** Cutting along a chord *)

Theorem contains_chord a u b v p : exists x y, contains (loop (a :: u ++ [b])) p = Ok x /\ contains (loop (b :: v ++ [a])) p = Ok y /\
  contains (loop (a :: u ++ b :: v)) p = Ok (xorb x y).
Proof.
  rewrite !contains_loop by discriminate. do 2 eexists. split; [reflexivity|]. split; [reflexivity|]. f_equal.
  unfold loop. cbn [app]. rewrite <- !app_assoc. cbn [app].
  change (a :: u ++ [b; a]) with ((a :: u) ++ [b; a]). change (b :: v ++ [a; b]) with ((b :: v) ++ [a; b]).
  change (a :: u ++ b :: v ++ [a]) with ((a :: u) ++ b :: (v ++ [a])).
  rewrite (par_app p (a :: u) b [a]), (par_app p (b :: v) a [b]), (par_app p (a :: u) b (v ++ [a])).
  rewrite !par_cons, (pc_sym p b a). change (par p [a]) with false. change (par p [b]) with false.
  change (b :: v ++ [a]) with ((b :: v) ++ [a]).
  destruct (par p ((a :: u) ++ [b])), (par p ((b :: v) ++ [a])), (pc p a b); reflexivity.
Qed.

(** ** Triangles *)

Lemma contains_tri a b c p : contains [a; b; c; a] p = Ok (xorb (pc p a b) (xorb (pc p b c) (pc p c a))).
Proof. change [a; b; c; a] with (loop [a; b; c]). rewrite contains_loop by discriminate. unfold loop. cbn [app]. rewrite !par_cons. cbn [par]. rewrite xorb_false_r. reflexivity. Qed.

Lemma fan_par p q l : l <> [] -> exists z, (exists l', l = l' ++ [z]) /\ fan q l p = Ok (xorb (pc p q (hd z l)) (xorb (par p l) (pc p z q))).
Proof.
  induction l as [|a [|b t] IH]; [contradiction| |]; intros _.
  - exists a. split; [exists []; reflexivity|]. cbn [fan hd par]. rewrite xorb_false_l, (pc_sym p a q), xorb_nilpotent. reflexivity.
  - destruct IH as (z & (l' & E) & H); [discriminate|]. exists z. split; [exists (a :: l'); rewrite E; reflexivity|].
    change (fan q (a :: b :: t) p) with (x <- contains [q; a; b; q] p ;; r <- fan q (b :: t) p ;; Ok (xorb x r)).
    rewrite contains_tri, H. cbn [bind hd]. rewrite par_cons, (pc_sym p b q). f_equal.
    destruct (pc p q a), (pc p a b), (pc p q b), (par p (b :: t)), (pc p z q); reflexivity.
Qed.

(** a polygon contains a point iff an odd number of the triangles (apex, segment) does *)
Theorem contains_fan apex l p : closed l = Ok true -> contains l p = fan apex l p.
Proof.
  intros Hc. assert (H : l <> []) by (intros ->; discriminate Hc).
  destruct (fan_par p apex l H) as (z & (l' & E) & Hf). rewrite Hf.
  destruct l' as [|a l']; cbn [app] in E; subst l.
  - rewrite contains_one. cbn [hd par]. rewrite xorb_false_l, (pc_sym p z apex), xorb_nilpotent. reflexivity.
  - unfold closed in Hc. change (vget (a :: l' ++ [z]) 0) with (Ok a) in Hc. cbn [bind] in Hc. change (a :: l' ++ [z]) with ((a :: l') ++ [z]) in Hc.
    rewrite vget_last in Hc. cbn [bind] in Hc. assert (Hs : samePt z a = true) by congruence. rewrite contains_ends, Hs. cbn [hd].
    apply samePt_iff in Hs. rewrite (pc_sym p z apex), (pc_ext p apex z apex a) by (try assumption; split; reflexivity).
    destruct (pc p apex a), (par p (a :: l' ++ [z])); reflexivity.
Qed.

Lemma orient_rot a b c : orient b c a == orient a b c.
Proof. unfold orient. ring. Qed.
Lemma orient_swap a b c : orient b a c == - orient a b c.
Proof. unfold orient. ring. Qed.
Lemma orient_sum a b c p : orient a b p + orient b c p + orient c a p == orient a b c.
Proof. unfold orient. ring. Qed.

(** position of [p] relative to the intersection *)
Lemma orient_cross p a b : ~ snd b - snd a == 0 -> orient a b p == (intersectX a b p - fst p) * (snd b - snd a).
Proof. intros H. unfold orient, intersectX. field. exact H. Qed.

(** signs: [ub], [uc] are the positions of the intersections relative to the point *)
Lemma sign_core h yb yc ub uc O ob oc obc : ob == ub * yb -> oc == - (uc * yc) -> h * O == yb * yc * (ub - uc) ->
  h * obc == ub * (yb * (yc - h)) - uc * (yc * (yb - h)) -> 0 < yb -> 0 < yc -> 0 <= h -> h <= yb -> h <= yc -> ub < uc -> ub <= 0 -> 0 <= uc ->
  ~ O == 0 /\ ob <= 0 /\ oc <= 0 /\ obc <= 0.
Proof.
  intros Hob Hoc HO Hobc Hb Hc H0 H1 H2 Hu Hub Huc.
  assert (Hbc : 0 < yb * yc) by nra.
  assert (Hh : 0 < h). { apply Qnot_le_lt. intros K. assert (E : h == 0) by lra. rewrite E in HO. nra. }
  assert (HO' : h * O < 0) by nra.
  split; [intros K; rewrite K in HO'; lra|]. split; [nra|]. split; [nra|].
  assert (A : 0 <= yb * (yc - h)) by nra. assert (B : 0 <= yc * (yb - h)) by nra.
  assert (C : h * obc <= 0) by nra. apply Qnot_lt_le. intros K. nra.
Qed.

(** [a] lies on one side of the row of [p], [b] and [c] on the other *)
Lemma tri_split a b c p : isAbove p a <> isAbove p b -> isAbove p b = isAbove p c ->
  (insideTri a b c p -> xorb (pc p a b) (xorb (pc p b c) (pc p c a)) = true) /\
  (xorb (pc p a b) (xorb (pc p b c) (pc p c a)) = true -> withinTri a b c p).
Proof.
  intros Hab Hbc. assert (Hac : isAbove p a <> isAbove p c) by congruence.
  pose proof (orient_cross p a b (differ_y _ _ _ Hab)) as Ob. pose proof (orient_cross p a c (differ_y _ _ _ Hac)) as Oc.
  pose proof (orient_swap a c p) as Os. pose proof (orient_sum a b c p) as Sum.
  rewrite (pc_sym p c a). unfold pc. rewrite <- Hbc, eqb_reflx. destruct (Bool.eqb (isAbove p a) (isAbove p b)) eqn:E; [apply eqb_prop in E; congruence|].
  rewrite xorb_false_l. set (xb := intersectX a b p) in *. set (xc := intersectX a c p) in *.
  assert (Hy : (snd a < snd p /\ snd p <= snd b /\ snd p <= snd c) \/ (snd p <= snd a /\ snd b < snd p /\ snd c < snd p)).
  { unfold isAbove in *. destruct (Qltb (snd a) (snd p)) eqn:Ea, (Qltb (snd b) (snd p)) eqn:Eb; try congruence; symmetry in Hbc; [left|right];
      rewrite ?Qltb_true, ?Qltb_false in *; auto. }
  set (yb := snd b - snd a) in *. set (yc := snd c - snd a) in *.
  assert (Hy' : (0 < yb /\ 0 < yc) \/ (yb < 0 /\ yc < 0)) by (unfold yb, yc; destruct Hy as [(H1 & H2 & H3)|(H1 & H2 & H3)]; [left|right]; lra).
  split.
  - intros [(H1 & H2 & H3)|(H1 & H2 & H3)]; destruct (Qltb xb (fst p)) eqn:Eb, (Qltb xc (fst p)) eqn:Ec; try reflexivity; exfalso;
      rewrite ?Qltb_true, ?Qltb_false in *; destruct Hy' as [[K1 K2]|[K1 K2]]; nra.
  - intros HX. set (h := snd p - snd a).
    assert (Xb : (xb - fst a) * yb == (fst b - fst a) * h) by (unfold xb, yb, h, intersectX; field; apply (differ_y _ _ _ Hab)).
    assert (Xc : (xc - fst a) * yc == (fst c - fst a) * h) by (unfold xc, yc, h, intersectX; field; apply (differ_y _ _ _ Hac)).
    assert (HO : h * orient a b c == yb * yc * (xb - xc)).
    { transitivity (yc * ((fst b - fst a) * h) - yb * ((fst c - fst a) * h)); [unfold orient, yb, yc, h; ring|]. rewrite <- Xb, <- Xc. ring. }
    assert (Hbc' : h * orient b c p == (xb - fst p) * (yb * (yc - h)) - (xc - fst p) * (yc * (yb - h))).
    { assert (K : orient b c p == orient a b c - orient a b p + orient a c p) by lra. rewrite K, Ob, Oc.
      transitivity (h * orient a b c - h * ((xb - fst p) * yb) + h * ((xc - fst p) * yc)); [ring|]. rewrite HO. ring. }
    destruct (Qltb xb (fst p)) eqn:Eb, (Qltb xc (fst p)) eqn:Ec; try discriminate HX; rewrite ?Qltb_true, ?Qltb_false in *; unfold withinTri;
      destruct Hy as [(K1 & K2 & K3)|(K1 & K2 & K3)].
    + destruct (sign_core (h) (yb) (yc) ((xb - fst p)) ((xc - fst p)) (orient a b c) (orient a b p) (orient c a p) (orient b c p)) as (A & B & C & D); [rewrite Ob; ring | rewrite Os, Oc; ring | transitivity ((h * orient a b c)); [ring | rewrite HO; ring] | transitivity ((h * orient b c p)); [ring | rewrite Hbc'; ring] | unfold h, yb, yc; lra .. |].
      split; [intros K; apply A; lra|]. right. split; [lra|]. split; lra.
    + destruct (sign_core (- h) (- yb) (- yc) ((xb - fst p)) ((xc - fst p)) (- orient a b c) (- orient a b p) (- orient c a p) (- orient b c p)) as (A & B & C & D); [rewrite Ob; ring | rewrite Os, Oc; ring | transitivity ((h * orient a b c)); [ring | rewrite HO; ring] | transitivity ((h * orient b c p)); [ring | rewrite Hbc'; ring] | unfold h, yb, yc; lra .. |].
      split; [intros K; apply A; lra|]. left. split; [lra|]. split; lra.
    + destruct (sign_core (h) (yb) (yc) (- (xb - fst p)) (- (xc - fst p)) (- orient a b c) (- orient a b p) (- orient c a p) (- orient b c p)) as (A & B & C & D); [rewrite Ob; ring | rewrite Os, Oc; ring | transitivity (- (h * orient a b c)); [ring | rewrite HO; ring] | transitivity (- (h * orient b c p)); [ring | rewrite Hbc'; ring] | unfold h, yb, yc; lra .. |].
      split; [intros K; apply A; lra|]. left. split; [lra|]. split; lra.
    + destruct (sign_core (- h) (- yb) (- yc) (- (xb - fst p)) (- (xc - fst p)) (orient a b c) (orient a b p) (orient c a p) (orient b c p)) as (A & B & C & D); [rewrite Ob; ring | rewrite Os, Oc; ring | transitivity (- (h * orient a b c)); [ring | rewrite HO; ring] | transitivity (- (h * orient b c p)); [ring | rewrite Hbc'; ring] | unfold h, yb, yc; lra .. |].
      split; [intros K; apply A; lra|]. right. split; [lra|]. split; lra.
Qed.

Lemma insideTri_rot a b c p : insideTri b c a p <-> insideTri a b c p.
Proof. unfold insideTri. tauto. Qed.
Lemma withinTri_rot a b c p : withinTri b c a p <-> withinTri a b c p.
Proof. unfold withinTri. rewrite (orient_rot a b c). tauto. Qed.

Lemma insideTri_rows a b c p : insideTri a b c p -> ~ (isAbove p a = isAbove p b /\ isAbove p b = isAbove p c).
Proof.
  intros H [E1 E2].
  assert (I : orient b c p * (snd a - snd p) + orient c a p * (snd b - snd p) + orient a b p * (snd c - snd p) == 0) by (unfold orient; ring).
  unfold isAbove in *. destruct (Qltb (snd a) (snd p)) eqn:Ea; symmetry in E1; rewrite E1 in E2; symmetry in E2; rewrite ?Qltb_true, ?Qltb_false in *.
  - destruct H as [(H1 & H2 & H3)|(H1 & H2 & H3)]; nra.
  - set (u := snd a - snd p) in *. set (v := snd b - snd p) in *. set (w := snd c - snd p) in *.
    assert (Hu : 0 <= u) by (unfold u; lra). assert (Hv : 0 <= v) by (unfold v; lra). assert (Hw : 0 <= w) by (unfold w; lra).
    assert (O : orient a b p == (fst a - fst p) * v - (fst b - fst p) * u) by (unfold orient, u, v; ring).
    assert (u == 0 /\ v == 0) as [K1 K2]; [|rewrite K1, K2 in O; destruct H as [(H1 & H2 & H3)|(H1 & H2 & H3)]; lra].
    destruct H as [(H1 & H2 & H3)|(H1 & H2 & H3)].
    + assert (A1 : 0 <= orient b c p * u) by nra. assert (A2 : 0 <= orient c a p * v) by nra. assert (A3 : 0 <= orient a b p * w) by nra.
      split; apply Qle_antisym; try assumption; apply Qnot_lt_le; intros K; nra.
    + assert (A1 : orient b c p * u <= 0) by nra. assert (A2 : orient c a p * v <= 0) by nra. assert (A3 : orient a b p * w <= 0) by nra.
      split; apply Qle_antisym; try assumption; apply Qnot_lt_le; intros K; nra.
Qed.

Theorem contains_triangle a b c p : exists r, contains [a; b; c; a] p = Ok r /\ (insideTri a b c p -> r = true) /\ (r = true -> withinTri a b c p).
Proof.
  rewrite contains_tri. eexists. split; [reflexivity|].
  destruct (Bool.bool_dec (isAbove p a) (isAbove p b)) as [E1|E1], (Bool.bool_dec (isAbove p b) (isAbove p c)) as [E2|E2].
  - split; [intros H; contradiction (insideTri_rows _ _ _ _ H); auto|]. unfold pc. rewrite <- E2, <- E1, !eqb_reflx. discriminate.
  - (* c alone *) destruct (tri_split c a b p ltac:(congruence) E1) as [H1 H2]. rewrite <- withinTri_rot, <- insideTri_rot, <- withinTri_rot, <- insideTri_rot.
    replace (xorb (pc p a b) (xorb (pc p b c) (pc p c a))) with (xorb (pc p c a) (xorb (pc p a b) (pc p b c))); [auto|].
    destruct (pc p a b), (pc p b c), (pc p c a); reflexivity.
  - (* a alone *) apply (tri_split a b c p E1 E2).
  - (* b alone *) assert (E3 : isAbove p c = isAbove p a) by (destruct (isAbove p a), (isAbove p b), (isAbove p c); congruence).
    destruct (tri_split b c a p E2 E3) as [H1 H2]. rewrite <- withinTri_rot, <- insideTri_rot.
    replace (xorb (pc p a b) (xorb (pc p b c) (pc p c a))) with (xorb (pc p b c) (xorb (pc p c a) (pc p a b))); [auto|].
    destruct (pc p a b), (pc p b c), (pc p c a); reflexivity.
Qed.

(** ** Bounding boxes *)

Lemma Qmin2_le a b : Qmin2 a b <= a /\ Qmin2 a b <= b.
Proof.
  unfold Qmin2. destruct (Qle_bool a b) eqn:E; [apply Qle_bool_iff in E; lra|]. split; [|lra].
  apply Qlt_le_weak, Qnot_le_lt. intros K. apply Qle_bool_iff in K. congruence.
Qed.
Lemma Qmax2_le a b : a <= Qmax2 a b /\ b <= Qmax2 a b.
Proof.
  unfold Qmax2. destruct (Qle_bool a b) eqn:E; [apply Qle_bool_iff in E; lra|]. split; [lra|].
  apply Qlt_le_weak, Qnot_le_lt. intros K. apply Qle_bool_iff in K. congruence.
Qed.

Definition inBox (b : qbox) (a : qpt) : Prop := qx0 b <= fst a /\ fst a <= qx1 b /\ qy0 b <= snd a /\ snd a <= qy1 b.
Lemma qboxContains_iff o p : qboxContains o p = true <-> exists b, o = Some b /\ inBox b p.
Proof.
  unfold qboxContains, inBox. destruct o as [b|]; [|split; [discriminate | intros (b & K & _); discriminate]].
  rewrite !andb_true_iff, !Qle_bool_iff. split; [intros (((H1 & H2) & H3) & H4); exists b; auto | intros (b' & K & H); injection K as <-; tauto].
Qed.

(** what the box covers: at least the points of the list *)
Definition covers (o : option qbox) (l : list qpt) : Prop := forall a, In a l -> exists b, o = Some b /\ inBox b a.

Lemma boxAdd_covers o l p : covers o l -> covers (qboxAdd o p) (l ++ [p]).
Proof.
  intros H a Ha. apply in_app_iff in Ha. destruct o as [b|]; cbn [qboxAdd].
  - eexists. split; [reflexivity|]. unfold inBox. cbn [qx0 qx1 qy0 qy1].
    pose proof (Qmin2_le (qx0 b) (fst p)). pose proof (Qmin2_le (qy0 b) (snd p)). pose proof (Qmax2_le (qx1 b) (fst p)). pose proof (Qmax2_le (qy1 b) (snd p)).
    destruct Ha as [Ha|[<-|[]]]; [|lra]. destruct (H a Ha) as (b' & K & Hb). injection K as <-. unfold inBox in Hb. lra.
  - destruct Ha as [Ha|[<-|[]]]; [destruct (H a Ha) as (b' & K & _); discriminate|]. eexists. split; [reflexivity|]. unfold inBox. cbn [qx0 qx1 qy0 qy1]. lra.
Qed.
Lemma bboxFrom_covers l : forall o l0, covers o l0 -> covers (fold_left qboxAdd l o) (l0 ++ l).
Proof.
  induction l as [|p t IH]; intros o l0 H; cbn [fold_left]; [rewrite app_nil_r; exact H|].
  replace (l0 ++ p :: t) with ((l0 ++ [p]) ++ t) by (rewrite <- app_assoc; reflexivity). apply IH, boxAdd_covers, H.
Qed.
Lemma bbox_covers l : covers (bbox l) l.
Proof. apply (bboxFrom_covers l None []). intros a []. Qed.
Lemma boxJoin_covers o o' l l' : covers o l -> covers o' l' -> covers (qboxJoin o o') (l ++ l').
Proof.
  intros H H' a Ha. apply in_app_iff in Ha. destruct o as [b|], o' as [b'|]; cbn [qboxJoin].
  - eexists. split; [reflexivity|]. unfold inBox. cbn [qx0 qx1 qy0 qy1].
    pose proof (Qmin2_le (qx0 b) (qx0 b')). pose proof (Qmin2_le (qy0 b) (qy0 b')). pose proof (Qmax2_le (qx1 b) (qx1 b')). pose proof (Qmax2_le (qy1 b) (qy1 b')).
    destruct Ha as [Ha|Ha]; [destruct (H a Ha) as (c & K & Hb) | destruct (H' a Ha) as (c & K & Hb)]; injection K as <-; unfold inBox in Hb; lra.
  - destruct Ha as [Ha|Ha]; [apply H, Ha | destruct (H' a Ha) as (c & K & _); discriminate].
  - destruct Ha as [Ha|Ha]; [destruct (H a Ha) as (c & K & _); discriminate | apply H', Ha].
  - destruct Ha as [Ha|Ha]; [apply H, Ha | apply H', Ha].
Qed.

(** a point outside the box of a closed polygon is crossed evenly *)
Lemma par_rows p l : (forall a b, In a l -> In b l -> isAbove p a = isAbove p b) -> par p l = false.
Proof.
  induction l as [|a [|b t] IH]; intros H; [reflexivity | reflexivity|]. rewrite par_cons, IH by (intros x y Hx Hy; apply H; right; assumption).
  unfold pc. rewrite (H a b), eqb_reflx by (cbn; auto). reflexivity.
Qed.
Lemma par_right p l : (forall a, In a l -> fst p < fst a) -> par p l = false.
Proof.
  induction l as [|a [|b t] IH]; intros H; [reflexivity | reflexivity|]. rewrite par_cons. rewrite IH by (intros x Hx; apply H; right; assumption).
  rewrite xorb_false_r. destruct (pc p a b) eqn:E; [|reflexivity]. exfalso. apply pc_spec in E.
  destruct E as (_ & q & (s & Hs0 & Hs1 & Hx & _) & _ & Hlt). pose proof (H a (or_introl eq_refl)). pose proof (H b (or_intror (or_introl eq_refl))).
  assert (K : fst q - fst p == (1 - s) * (fst a - fst p) + s * (fst b - fst p)) by (rewrite Hx; ring).
  assert (0 <= (1 - s) * (fst a - fst p)) by (apply Qmult_le_0_compat; lra). assert (0 <= s * (fst b - fst p)) by (apply Qmult_le_0_compat; lra). lra.
Qed.
Lemma par_left p l a : (forall x, In x (a :: l) -> fst x < fst p) -> forall z, par p (a :: l ++ [z]) = false \/ ~ fst z < fst p \/ par p (a :: l ++ [z]) = xorb (isAbove p a) (isAbove p z).
Proof.
  intros H z. destruct (Qlt_le_dec (fst z) (fst p)) as [Hz|Hz]; [|right; left; lra]. right. right.
  revert a H. induction l as [|b t IH]; intros a H.
  - cbn [app par]. rewrite xorb_false_r. assert (Ha := H a (or_introl eq_refl)). unfold pc.
    destruct (Bool.eqb (isAbove p a) (isAbove p z)) eqn:E; [apply eqb_prop in E; rewrite E, xorb_nilpotent; reflexivity|].
    apply eqb_false_iff in E. destruct (intersect_on p a z E) as (s & Hs0 & Hs1 & Hx & _). cbn [fst] in Hx.
    assert (K : fst p - intersectX a z p == (1 - s) * (fst p - fst a) + s * (fst p - fst z)) by (rewrite Hx; ring).
    assert (L : intersectX a z p < fst p).
    { assert (K1 : 0 <= s * (fst p - fst z)) by (apply Qmult_le_0_compat; lra).
      destruct (Qlt_le_dec s 1) as [L|L].
      - assert (K2 : 0 < (1 - s) * (fst p - fst a)) by (apply Qmult_lt_0_compat; lra). lra.
      - assert (E1 : s == 1) by lra. rewrite E1 in K. lra. }
    apply Qltb_true in L. rewrite L. destruct (isAbove p a), (isAbove p z); try reflexivity; congruence.
  - cbn [app]. rewrite par_cons. change (b :: t ++ [z]) with (b :: t ++ [z]). rewrite (IH b) by (intros x Hx; apply H; right; exact Hx).
    assert (Ha := H a (or_introl eq_refl)). assert (Hb := H b (or_intror (or_introl eq_refl))). unfold pc.
    destruct (Bool.eqb (isAbove p a) (isAbove p b)) eqn:E; [apply eqb_prop in E; rewrite E, xorb_false_l; reflexivity|].
    apply eqb_false_iff in E. destruct (intersect_on p a b E) as (s & Hs0 & Hs1 & Hx & _). cbn [fst] in Hx.
    assert (K : fst p - intersectX a b p == (1 - s) * (fst p - fst a) + s * (fst p - fst b)) by (rewrite Hx; ring).
    assert (L : intersectX a b p < fst p).
    { assert (K1 : 0 <= s * (fst p - fst b)) by (apply Qmult_le_0_compat; lra).
      destruct (Qlt_le_dec s 1) as [L|L].
      - assert (K2 : 0 < (1 - s) * (fst p - fst a)) by (apply Qmult_lt_0_compat; lra). lra.
      - assert (E1 : s == 1) by lra. rewrite E1 in K. lra. }
    apply Qltb_true in L. rewrite L. destruct (isAbove p a), (isAbove p b), (isAbove p z); try reflexivity; congruence.
Qed.

Lemma outside_box o l p : covers o l -> closed l = Ok true -> qboxContains o p = false -> contains l p = Ok false.
Proof.
  intros Hc Hcl Ho. assert (Hl : l <> []) by (intros ->; discriminate Hcl). destruct (poly_cases l Hl) as [[a ->]|(a & m & z & ->)]; [apply contains_one|].
  destruct (Hc a (or_introl eq_refl)) as (b & -> & _).
  assert (Hs : samePt z a = true).
  { unfold closed in Hcl. change (vget (a :: m ++ [z]) 0) with (Ok a) in Hcl. cbn [bind] in Hcl. change (a :: m ++ [z]) with ((a :: m) ++ [z]) in Hcl.
    rewrite vget_last in Hcl. cbn [bind] in Hcl. congruence. }
  rewrite contains_ends, Hs. f_equal. apply samePt_iff in Hs.
  assert (Hin : forall x, In x (a :: m ++ [z]) -> inBox b x) by (intros x Hx; destruct (Hc x Hx) as (b' & K & Hb); injection K as <-; exact Hb).
  assert (D : ~ inBox b p) by (intros K; assert (T : qboxContains (Some b) p = true) by (apply qboxContains_iff; eauto); congruence). unfold inBox in D.
  destruct (Qlt_le_dec (fst p) (qx0 b)) as [L|L1].
  { apply par_right. intros x Hx. apply Hin in Hx. unfold inBox in Hx. lra. }
  destruct (Qlt_le_dec (qx1 b) (fst p)) as [L|L2].
  { destruct (par_left p m a) with (z := z) as [K|[K|K]]; [| exact K | | ].
    - intros x Hx. assert (inBox b x) by (apply Hin; change (a :: m ++ [z]) with ((a :: m) ++ [z]); apply in_app_iff; left; exact Hx). unfold inBox in H. lra.
    - exfalso. apply K. assert (inBox b z) by (apply Hin; right; apply in_app_iff; right; left; reflexivity). unfold inBox in H. lra.
    - rewrite K, (isAbove_ext p z a Hs), xorb_nilpotent. reflexivity. }
  apply par_rows. intros x y Hx Hy. apply Hin in Hx. apply Hin in Hy. unfold inBox in Hx, Hy. unfold isAbove.
  destruct (Qlt_le_dec (snd p) (qy0 b)) as [L|L3].
  - rewrite (proj2 (Qltb_false (snd x) (snd p))), (proj2 (Qltb_false (snd y) (snd p))) by lra. reflexivity.
  - assert (L4 : qy1 b < snd p) by (apply Qnot_le_lt; intros K; apply D; auto).
    rewrite (proj2 (Qltb_true (snd x) (snd p))), (proj2 (Qltb_true (snd y) (snd p))) by lra. reflexivity.
Qed.

Theorem bbox_agrees l p : closed l = Ok true -> bboxContains l p = contains l p.
Proof.
  intros H. unfold bboxContains. destruct (qboxContains (bbox l) p) eqn:E; [reflexivity|]. symmetry. apply (outside_box (bbox l)); [apply bbox_covers | exact H | exact E].
Qed.
