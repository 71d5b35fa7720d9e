(** convexHull: a sort, concrete hulls, and inputs whose result is no convex hull (C50). *)
From Coq Require Import Permutation.
From Verif Require Import Base GeoMap_Model Hull_Model Hull_Spec Hull_Proofs.
Local Open Scope Z_scope.

(** Insertion sort: stable, and what libstdc++'s std::sort does for at most 16 elements. *)
Fixpoint insSorted (before : point -> point -> bool) (x : point) (l : list point) : list point :=
  match l with [] => [x] | y :: t => if before y x then y :: insSorted before x t else x :: y :: t end.
Fixpoint insertionSort (before : point -> point -> bool) (l : list point) : list point :=
  match l with [] => [] | x :: t => insSorted before x (insertionSort before t) end.

Lemma insSorted_perm before x l : Permutation (insSorted before x l) (x :: l).
Proof.
  induction l as [|y t IH]; cbn [insSorted]; [apply Permutation_refl|]. destruct (before y x); [|apply Permutation_refl].
  eapply Permutation_trans; [apply perm_skip, IH|apply perm_swap].
Qed.
Lemma insertionSort_perm before l : Permutation (insertionSort before l) l.
Proof.
  induction l as [|x t IH]; cbn [insertionSort]; [apply Permutation_refl|].
  eapply Permutation_trans; [apply insSorted_perm|apply perm_skip, IH].
Qed.
Lemma sorted_cons before a l : sorted before (a :: l) <-> (forall b, In b l -> before b a = false) /\ sorted before l.
Proof.
  split.
  - intros H. split.
    + intros b Hb. apply in_split in Hb as (u & v & ->). apply (H [] a u b v). reflexivity.
    + intros l1 x l2 y l3 E. apply (H (a :: l1) x l2 y l3). rewrite E. reflexivity.
  - intros [H1 H2] l1 x l2 y l3 E. destruct l1 as [|h l1]; cbn [app] in E; injection E as -> ->.
    + apply H1, in_or_app. right; left; reflexivity.
    + apply (H2 l1 x l2 y l3). reflexivity.
Qed.
Lemma sorted_nil before : sorted before [].
Proof. intros l1 a l2 b l3 E. destruct l1; discriminate. Qed.
Lemma negTrans before l x y z : strictWeak before l -> In x l -> In y l -> In z l -> before z y = false -> before y x = false -> before z x = false.
Proof.
  intros (_ & HT & HI) Hx Hy Hz H1 H2. destruct (before z x) eqn:E; [|reflexivity]. exfalso.
  destruct (before y z) eqn:E1; [rewrite (HT y z x Hy Hz Hx E1 E) in H2; discriminate|].
  destruct (before x y) eqn:E2; [rewrite (HT z x y Hz Hx Hy E E2) in H1; discriminate|].
  destruct (HI z y x Hz Hy Hx H1 E1 H2 E2). congruence.
Qed.
Lemma insSorted_sorted before L x l : strictWeak before L -> In x L -> incl l L -> sorted before l -> sorted before (insSorted before x l).
Proof.
  intros W Hx. induction l as [|y t IH]; intros HI HS; cbn [insSorted].
  - apply sorted_cons. split; [intros b []|apply sorted_nil].
  - apply sorted_cons in HS as [H1 H2]. assert (Hy : In y L) by (apply HI; left; reflexivity).
    destruct (before y x) eqn:E.
    + apply sorted_cons. split; [|apply IH; [intros z Hz; apply HI; right; exact Hz|exact H2]].
      intros b Hb. apply (Permutation_in _ (insSorted_perm before x t)) in Hb as [<-|Hb]; [|apply H1, Hb].
      destruct (before x y) eqn:E2; [|reflexivity]. destruct W as (W1 & W2 & _).
      pose proof (W2 x y x Hx Hy Hx E2 E). rewrite (W1 x Hx) in H. discriminate.
    + apply sorted_cons. split; [|apply sorted_cons; split; assumption].
      intros b [<-|Hb]; [exact E|]. apply (negTrans before L x y b W Hx Hy); [apply HI; right; exact Hb|apply H1, Hb|exact E].
Qed.
Theorem insertionSort_sorts : sorts insertionSort.
Proof.
  intros before l W. split; [apply insertionSort_perm|].
  assert (K : forall t, incl t l -> sorted before (insertionSort before t)).
  { induction t as [|x t IH]; intros HI; cbn [insertionSort]; [apply sorted_nil|].
    apply (insSorted_sorted before l); [exact W|apply HI; left; reflexivity| |apply IH; intros z Hz; apply HI; right; exact Hz].
    intros z Hz. apply (Permutation_in _ (insertionSort_perm before t)) in Hz. apply HI. right; exact Hz. }
  apply K. intros z Hz; exact Hz.
Qed.

(** ** At most two points on a ray from the extremal point: always a convex hull *)
Lemma two_rayOrder p0 poly sort : sorts sort -> isExtremal p0 poly -> raysOfTwo p0 poly ->
  forall u v, poly = u ++ p0 :: v -> rayOrder p0 (sort (ccwBefore p0) (u ++ v)).
Proof.
  intros HS (u' & v' & E' & L) HT u v E. subst poly.
  assert (E2 : u = u' /\ v = v').
  { clear HT HS. revert u E. induction u' as [|h u' IH]; intros [|k u] E; cbn in E.
    - injection E as ->. split; reflexivity.
    - injection E as -> E. exfalso. rewrite E in L. pose proof (L k) as K. cbn [app] in K.
      specialize (K ltac:(apply in_or_app; right; left; reflexivity)). lia.
    - injection E as -> E. exfalso. specialize (L p0 ltac:(left; reflexivity)). lia.
    - injection E as -> E. destruct (IH (fun q Hq => L q (or_intror Hq)) u E) as [-> ->]. split; reflexivity. }
  destruct E2 as [-> ->].
  destruct (HS (ccwBefore p0) (u' ++ v')) as [HP _]; [apply ccw_weak; rewrite Forall_forall; exact L|].
  intros l1 a l2 b l3 c l4 Es H1 H2 d _. rewrite Es in HP.
  apply (HT u' v' a b c (l1 ++ l2 ++ l3 ++ l4) eq_refl); [|split; assumption].
  eapply Permutation_trans; [apply Permutation_sym, HP|]. apply Permutation_sym.
  apply Permutation_cons_app. replace (l1 ++ l2 ++ b :: l3 ++ c :: l4) with ((l1 ++ l2) ++ b :: l3 ++ c :: l4) by (rewrite <- app_assoc; reflexivity).
  apply Permutation_cons_app. replace ((l1 ++ l2) ++ l3 ++ c :: l4) with ((l1 ++ l2 ++ l3) ++ c :: l4) by (rewrite <- !app_assoc; reflexivity).
  apply Permutation_cons_app. rewrite <- !app_assoc. apply Permutation_refl.
Qed.

Theorem hull_two sort p0 poly : sorts sort -> isExtremal p0 poly -> (2 <= length poly)%nat -> raysOfTwo p0 poly ->
  exists hull, convexHull sort poly = Ok hull /\ closedFrom hull poly /\ enclosesAll hull poly /\ spansAll hull poly.
Proof. intros HS HE HN HT. apply (hull_convex sort HS p0 poly HE HN). apply (two_rayOrder p0 poly sort HS HE HT). Qed.

(** ** Three points on a ray *)
Definition dentIn : list point := [(0, 0); (10, 0); (0, -2); (0, -1); (0, -10)].
Definition missIn : list point := [(0, 0); (10, 0); (0, -4); (0, -1); (0, -6)].

Theorem hull_refuted : exists sort poly p0 hull, sorts sort /\ isExtremal p0 poly /\ NoDup poly /\ convexHull sort poly = Ok hull /\
  (exists a b q, edgeOf hull a b /\ In q hull /\ side a b q < 0) /\ (exists a b q, edgeOf hull a b /\ In q hull /\ 0 < side a b q) /\
  ~ enclosesAll hull poly.
Proof.
  exists insertionSort, dentIn, (0, 0), [(0, 0); (10, 0); (0, -2); (0, -10); (0, 0)].
  split; [exact insertionSort_sorts|]. split.
  { exists [], [(10, 0); (0, -2); (0, -1); (0, -10)]. split; [reflexivity|]. cbn. intros q H.
    repeat (destruct H as [<-|H]; [cbn; lia|]). destruct H. }
  split.
  { unfold dentIn. repeat (constructor; [cbn; intros H; repeat (destruct H as [H|H]; [discriminate|]); exact H|]). constructor. }
  split; [vm_compute; reflexivity|].
  assert (E : edgeOf [(0, 0); (10, 0); (0, -2); (0, -10); (0, 0)] (10, 0) (0, -2)) by (exists [(0, 0)], [(0, -10); (0, 0)]; reflexivity).
  split; [|split].
  - exists (10, 0), (0, -2), (0, -10). split; [exact E|]. split; [cbn; tauto|reflexivity].
  - exists (10, 0), (0, -2), (0, 0). split; [exact E|]. split; [cbn; tauto|reflexivity].
  - intros H. specialize (H (10, 0) (0, -2) (0, -10) E ltac:(cbn; tauto)). vm_compute in H. apply H. reflexivity.
Qed.

Theorem hull_misses_refuted : exists sort poly p0 hull, sorts sort /\ isExtremal p0 poly /\ NoDup poly /\ convexHull sort poly = Ok hull /\
  ~ spansAll hull poly.
Proof.
  exists insertionSort, missIn, (0, 0), [(0, 0); (10, 0); (0, -4); (0, -1); (0, 0)].
  split; [exact insertionSort_sorts|]. split.
  { exists [], [(10, 0); (0, -4); (0, -1); (0, -6)]. split; [reflexivity|]. cbn. intros q H.
    repeat (destruct H as [<-|H]; [cbn; lia|]). destruct H. }
  split.
  { unfold missIn. repeat (constructor; [cbn; intros H; repeat (destruct H as [H|H]; [discriminate|]); exact H|]). constructor. }
  split; [vm_compute; reflexivity|].
  intros H. specialize (H 0 1 4). assert (K : 0 <= 0 * 0 + 1 * -6 + 4); [|lia].
  apply (H) with (q := (0, -6)); [|cbn; tauto]. intros v Hv. cbn in Hv.
  repeat (destruct Hv as [<-|Hv]; [cbn; lia|]). destruct Hv.
Qed.

(** a closed polygon that starts at its extremal point: CCWCompare is no strict weak order *)
Theorem hull_closed_refuted : exists poly p0 others, poly = p0 :: others /\ nth_error others (length others - 1) = Some p0 /\
  (forall q, In q others -> snd q < snd p0 \/ (snd q = snd p0 /\ fst p0 <= fst q)) /\ ~ strictWeak (ccwBefore p0) others.
Proof.
  exists [(0, 0); (2, -1); (1, -2); (0, 0)], (0, 0), [(2, -1); (1, -2); (0, 0)]. split; [reflexivity|]. split; [reflexivity|]. split.
  { intros q H. cbn in H. repeat (destruct H as [<-|H]; [cbn; lia|]). destruct H. }
  intros (_ & _ & H). destruct (H (2, -1) (0, 0) (1, -2)) as [A B]; try reflexivity; try (cbn; tauto). vm_compute in A. discriminate.
Qed.

(** ** Concrete hulls *)
Definition cloud : list point := [(1, -1); (4, -2); (2, -2); (0, 0); (3, 0); (1, -4); (2, -1); (-1, -3)].
Example cloud_hull : convexHull insertionSort cloud = Ok [(0, 0); (3, 0); (4, -2); (1, -4); (-1, -3); (0, 0)].
Proof. vm_compute. reflexivity. Qed.
Example cloud_extremal : isExtremal (0, 0) cloud.
Proof.
  exists [(1, -1); (4, -2); (2, -2)], [(3, 0); (1, -4); (2, -1); (-1, -3)]. split; [reflexivity|]. intros q H. cbn in H.
  repeat (destruct H as [<-|H]; [cbn; lia|]). destruct H.
Qed.
Lemma cloud_rays : raysOfTwo (0, 0) cloud.
Proof.
  intros w x a b c u E HP' [H1 H2]. pose proof (Permutation_sym HP') as HP.
  assert (W : w ++ x = [(1, -1); (4, -2); (2, -2); (3, 0); (1, -4); (2, -1); (-1, -3)]).
  { unfold cloud in E. do 8 (destruct w as [|? w]; cbn [app] in E; [injection E; intros; subst; try discriminate; try reflexivity|injection E as <- E]).
    destruct w; discriminate. }
  rewrite W in HP.
  assert (ND : NoDup (a :: b :: c :: u)).
  { eapply Permutation_NoDup; [apply Permutation_sym, HP|].
    repeat (constructor; [cbn; intros H; repeat (destruct H as [H|H]; [discriminate|]); exact H|]). constructor. }
  assert (Ia : In a [(1, -1); (4, -2); (2, -2); (3, 0); (1, -4); (2, -1); (-1, -3)]) by (apply (Permutation_in _ HP); cbn; tauto).
  assert (Ib : In b [(1, -1); (4, -2); (2, -2); (3, 0); (1, -4); (2, -1); (-1, -3)]) by (apply (Permutation_in _ HP); cbn; tauto).
  assert (Ic : In c [(1, -1); (4, -2); (2, -2); (3, 0); (1, -4); (2, -1); (-1, -3)]) by (apply (Permutation_in _ HP); cbn; tauto).
  inversion ND as [|? ? Na ND']; subst. inversion ND' as [|? ? Nb _]; subst.
  assert (Nab : a <> b) by (intros ->; apply Na; left; reflexivity).
  assert (Nac : a <> c) by (intros ->; apply Na; right; left; reflexivity).
  assert (Nbc : b <> c) by (intros ->; apply Nb; left; reflexivity).
  clear - Ia Ib Ic Nab Nac Nbc H1 H2. unfold side in H1, H2. cbn in Ia, Ib, Ic.
  repeat (destruct Ia as [<-|Ia]; [|]); try destruct Ia; repeat (destruct Ib as [<-|Ib]; [|]); try destruct Ib; cbn in H1; try lia; try congruence;
    repeat (destruct Ic as [<-|Ic]; [|]); try destruct Ic; cbn in H2; try lia; try congruence.
Qed.
Lemma cloud_order : forall u v, cloud = u ++ (0, 0) :: v -> rayOrder (0, 0) (insertionSort (ccwBefore (0, 0)) (u ++ v)).
Proof. exact (two_rayOrder (0, 0) cloud insertionSort insertionSort_sorts cloud_extremal cloud_rays). Qed.
Example collinear_hull : convexHull insertionSort [(1, 1); (3, 3); (0, 0); (2, 2)] = Ok [(3, 3); (0, 0); (3, 3)].
Proof. vm_compute. reflexivity. Qed.
