(** Proofs of C94. *)
From Coq Require Import Lia.
From Verif Require Import Base Scanlines_Model Scanlines_Spec Image_Model Image_Proofs EdgeMark_Model EdgeMark_Spec.
Local Open Scope Z_scope.

(** ** The loops go through a list of pixels *)
Fixpoint upTo (n : nat) (a : Z) : list Z := match n with O => [] | Datatypes.S k => a :: upTo k (a + 1) end.
Definition spread (a b : Z) : list Z := upTo (Z.to_nat (b - a)) a.
Definition rowVisits (w y : Z) (l : list seg) : list (Z * Z) := flat_map (fun g => map (fun x => (x, y)) (spread (clipBegin g) (clipEnd w g))) l.
Definition visits (s : scanlines) (w h : Z) : list (Z * Z) := flat_map (fun y => rowVisits w y (lineOf s y)) (spread (Z.max 0 (sl_start s)) (Z.min h (endIndex s))).

Section Loops.
Variable T : Type.
Variable P : T -> Prop.
Variable step : T -> Z * Z -> T.
Hypothesis stepP : forall s p, P s -> P (step s p).
Lemma foldP l : forall s, P s -> P (fold_left step l s).
Proof. induction l as [|p l IH]; intros s H; cbn; auto. Qed.
Lemma forN_fold (body : Z -> T -> res T) vis : forall n a s, P s -> (forall y s, a <= y < a + Z.of_nat n -> P s -> body y s = Ok (fold_left step (vis y) s)) ->
  forN n a body s = Ok (fold_left step (flat_map vis (upTo n a)) s).
Proof.
  induction n as [|n IH]; intros a s H B; cbn [forN upTo flat_map]; [reflexivity|]. rewrite B by (try assumption; lia). cbn [bind]. rewrite fold_left_app. apply IH; [apply foldP, H|]. intros y s' Y. apply B. lia.
Qed.
Lemma forZ_fold (body : Z -> T -> res T) vis a b s : P s -> (forall y s, a <= y < b -> P s -> body y s = Ok (fold_left step (vis y) s)) ->
  forZ a b body s = Ok (fold_left step (flat_map vis (spread a b)) s).
Proof. intros H B. apply forN_fold; [exact H|]. intros y s' Y. apply B. lia. Qed.
Lemma forSegs_fold (body : seg -> T -> res T) vis l : forall s, P s -> (forall g s, P s -> body g s = Ok (fold_left step (vis g) s)) ->
  forSegs l body s = Ok (fold_left step (flat_map vis l) s).
Proof. induction l as [|g l IH]; intros s H B; cbn [forSegs flat_map]; [reflexivity|]. rewrite B by assumption. cbn [bind]. rewrite fold_left_app. apply IH; [apply foldP, H|exact B]. Qed.
Lemma flat_single {A B} (f : A -> B) l : flat_map (fun x => [f x]) l = map f l.
Proof. induction l; cbn; congruence. Qed.
Lemma forPixels_fold s w h (body : Z -> Z -> T -> res T) t : P t -> (forall x y t, 0 <= x < w -> 0 <= y < h -> P t -> body x y t = Ok (step t (x, y))) ->
  forPixels s w h body t = Ok (fold_left step (visits s w h) t).
Proof.
  intros H B. unfold forPixels, visits. apply forZ_fold; [exact H|]. intros y t' Y H'.
  assert (L : lineAt s y = Ok (lineOf s y)).
  { unfold lineAt, lineOf. unfold endIndex in Y. destruct (Z.ltb_spec (y - sl_start s) 0); [lia|]. destruct (Z.ltb_spec y (sl_start s)); [lia|]. unfold vget.
    destruct (nth_error (sl_lines s) (Z.to_nat (y - sl_start s))) as [l|] eqn:E; [f_equal; symmetry; apply nth_error_nth, E|]. apply nth_error_None in E. lia. }
  rewrite L. cbn [bind]. unfold rowVisits. apply forSegs_fold; [exact H'|]. intros g t2 H2. rewrite <- flat_single. apply forZ_fold; [exact H2|].
  intros x t3 X H3. apply B; [|lia|exact H3]. unfold clipBegin, clipEnd in X. destruct (Z.ltb_spec (sbeg g) 0); destruct (Z.gtb_spec (send g) w); lia.
Qed.
End Loops.

(** ** How often a pixel is visited *)
Definition eqp (p q : Z * Z) : bool := (fst p =? fst q) && (snd p =? snd q).
Definition many (p : Z * Z) (l : list (Z * Z)) : nat := length (filter (eqp p) l).
Lemma eqp_iff p q : eqp p q = true <-> p = q.
Proof. destruct p, q. unfold eqp. cbn. rewrite andb_true_iff, !Z.eqb_eq. split; [intros [-> ->]; reflexivity|intros [= -> ->]; auto]. Qed.
Lemma eqp_not p q : p <> q -> eqp p q = false.
Proof. intros N. destruct (eqp p q) eqn:E; [apply eqp_iff in E; contradiction|reflexivity]. Qed.
Lemma many_app p a b : many p (a ++ b) = (many p a + many p b)%nat.
Proof. unfold many. rewrite filter_app, app_length. reflexivity. Qed.
Lemma many_cons p q l : many p (q :: l) = ((if eqp p q then 1 else 0) + many p l)%nat.
Proof. unfold many. cbn [filter]. destruct (eqp p q); reflexivity. Qed.
Lemma many_run x y v : forall n a, many (x, y) (map (fun u => (u, v)) (upTo n a)) = if (y =? v) && (a <=? x) && (x <? a + Z.of_nat n) then 1%nat else O.
Proof.
  induction n as [|n IH]; intros a; [cbn; destruct (Z.eqb_spec y v), (Z.leb_spec a x), (Z.ltb_spec x (a + 0)); cbn; try reflexivity; lia|].
  cbn [upTo map]. change (many (x, y) ((a, v) :: ?l)) with (many (x, y) ([(a, v)] ++ l)). rewrite many_app, IH. unfold many, eqp. cbn [filter fst snd].
  destruct (Z.eqb_spec y v), (Z.eqb_spec x a), (Z.leb_spec (a + 1) x), (Z.ltb_spec x (a + 1 + Z.of_nat n)), (Z.leb_spec a x), (Z.ltb_spec x (a + Z.of_nat (Datatypes.S n))); cbn [andb length Nat.add]; try reflexivity; lia.
Qed.
Lemma many_row x y w l : 0 <= x < w -> many (x, y) (rowVisits w y l) = length (filter (fun g => (sbeg g <=? x) && (x <? send g)) l).
Proof.
  intros X. unfold rowVisits, spread. induction l as [|g l IH]; [reflexivity|]. cbn [flat_map filter]. rewrite many_app, many_run, Z.eqb_refl. cbn [andb]. rewrite IH. clear IH. unfold clipBegin, clipEnd.
  destruct (Z.ltb_spec (sbeg g) 0), (Z.gtb_spec (send g) w), (Z.leb_spec (sbeg g) x), (Z.ltb_spec x (send g));
    repeat match goal with |- context [?a <=? x] => destruct (Z.leb_spec a x) | |- context [x <? ?a] => destruct (Z.ltb_spec x a) end; cbn [andb length Nat.add]; try reflexivity; lia.
Qed.
Lemma many_else x y w v l : y <> v -> many (x, y) (rowVisits w v l) = O.
Proof. intros N. unfold rowVisits, spread. induction l as [|g l IH]; [reflexivity|]. cbn [flat_map]. rewrite many_app, IH, many_run. destruct (Z.eqb_spec y v); [contradiction|reflexivity]. Qed.
Lemma many_rows x y w (f : Z -> list seg) : forall n a, many (x, y) (flat_map (fun v => rowVisits w v (f v)) (upTo n a)) = if (a <=? y) && (y <? a + Z.of_nat n) then many (x, y) (rowVisits w y (f y)) else O.
Proof.
  induction n as [|n IH]; intros a; [cbn; destruct (Z.leb_spec a y), (Z.ltb_spec y (a + 0)); cbn; try reflexivity; lia|].
  cbn [upTo flat_map]. rewrite many_app, IH. destruct (Z.eq_dec y a) as [->|N].
  - destruct (Z.leb_spec (a + 1) a); [lia|]. destruct (Z.leb_spec a a); [|lia]. destruct (Z.ltb_spec a (a + Z.of_nat (Datatypes.S n))); [|lia]. cbn [andb]. lia.
  - rewrite many_else by exact N. destruct (Z.leb_spec (a + 1) y), (Z.ltb_spec y (a + 1 + Z.of_nat n)), (Z.leb_spec a y), (Z.ltb_spec y (a + Z.of_nat (Datatypes.S n))); cbn [andb]; try reflexivity; lia.
Qed.
Lemma many_visits s w h x y : 0 <= x < w -> 0 <= y < h -> Z.of_nat (many (x, y) (visits s w h)) = times s x y.
Proof.
  intros X Y. unfold visits, times, spread. rewrite many_rows. f_equal.
  destruct (Z.leb_spec (Z.max 0 (sl_start s)) y) as [A|A]; [destruct (Z.ltb_spec y (Z.max 0 (sl_start s) + Z.of_nat (Z.to_nat (Z.min h (endIndex s) - Z.max 0 (sl_start s))))) as [B|B]|]; cbn [andb].
  - apply many_row, X.
  - unfold lineOf, endIndex in *. destruct (Z.ltb_spec y (sl_start s)); [reflexivity|]. rewrite nth_overflow by lia. reflexivity.
  - unfold lineOf. destruct (Z.ltb_spec y (sl_start s)); [reflexivity|lia].
Qed.

(** ** Marking *)
Definition minus1 (v : Z) : Z := if v <? 0 then v - 1 else -1.
Definition markStep (im : image) (p : Z * Z) : image := setPx im (fst p) (snd p) (minus1 (ipx im (fst p) (snd p))).
Definition sized (w h : Z) (im : image) : Prop := iw im = w /\ ih im = h.
Lemma markEdge_fold s im : markEdge s im = Ok (fold_left markStep (visits s (iw im) (ih im)) im).
Proof.
  unfold markEdge. apply (forPixels_fold _ (sized (iw im) (ih im))); [intros t p [A B]; split; assumption|split; reflexivity|].
  intros x y t X Y [A B]. rewrite getPx_Ok by lia. cbn [bind]. rewrite putPx_Ok by lia. reflexivity.
Qed.
Lemma mark_size l : forall im, iw (fold_left markStep l im) = iw im /\ ih (fold_left markStep l im) = ih im.
Proof. induction l as [|p l IH]; intros im; [auto|]. cbn [fold_left]. destruct (IH (markStep im p)) as [-> ->]. auto. Qed.
Lemma mark_at x y l : forall im, ipx (fold_left markStep l im) x y = let n := Z.of_nat (many (x, y) l) in let v := ipx im x y in if n =? 0 then v else if v <? 0 then v - n else - n.
Proof.
  induction l as [|[a b] l IH]; intros im; [reflexivity|]. cbn [fold_left]. rewrite IH, many_cons. clear IH. unfold markStep, minus1. cbn [fst snd]. rewrite ipx_setPx. set (n := many (x, y) l). cbv zeta. destruct (eqp (x, y) (a, b)) eqn:E.
  - apply eqp_iff in E. injection E as <- <-. rewrite !Z.eqb_refl. cbn [andb]. destruct (Z.eqb_spec (Z.of_nat n) 0), (Z.eqb_spec (Z.of_nat (1 + n)) 0); try lia; destruct (Z.ltb_spec (ipx im x y) 0); try lia.
    + destruct (Z.ltb_spec (ipx im x y - 1) 0); lia.
    + change (-1 <? 0) with true. cbv iota. lia.
  - assert ((x =? a) && (y =? b) = false) as -> by exact E. reflexivity.
Qed.
Lemma mark_is s im : exists im', markEdge s im = Ok im' /\ iw im' = iw im /\ ih im' = ih im /\
  forall x y, inside im x y -> (times s x y = 0 -> ipx im' x y = ipx im x y) /\ (0 < times s x y -> 0 <= ipx im x y -> ipx im' x y = - times s x y) /\ (ipx im x y < 0 -> ipx im' x y = ipx im x y - times s x y).
Proof.
  eexists. split; [apply markEdge_fold|]. destruct (mark_size (visits s (iw im) (ih im)) im) as [A B]. split; [exact A|]. split; [exact B|]. intros x y [X Y]. rewrite mark_at, (many_visits s _ _ x y X Y). cbv zeta.
  destruct (Z.eqb_spec (times s x y) 0), (Z.ltb_spec (ipx im x y) 0); lia.
Qed.

(** ** Removing *)
Section Remove.
Variable k : Z.
Definition plus1 (v : Z) : Z := if v =? -1 then k else v + 1.
Definition removeStep (r : image * list (Z * Z)) (p : Z * Z) : image * list (Z * Z) :=
  (setPx (fst r) (fst p) (snd p) (plus1 (ipx (fst r) (fst p) (snd p))), snd r ++ (if ipx (fst r) (fst p) (snd p) =? -1 then [p] else [])).
Lemma removeEdge_fold s im : removeEdge s im k = Ok (fold_left removeStep (visits s (iw im) (ih im)) (im, [])).
Proof.
  unfold removeEdge. apply (forPixels_fold _ (fun r => sized (iw im) (ih im) (fst r))); [intros t p [A B]; split; assumption|split; reflexivity|].
  intros x y [t ps] X Y [A B]. cbn [fst snd] in *. rewrite getPx_Ok by lia. cbn [bind]. unfold removeStep, plus1. cbn [fst snd]. destruct (ipx t x y =? -1); cbn [negb]; rewrite putPx_Ok by lia; cbn [bind]; [reflexivity|]. rewrite app_nil_r. reflexivity.
Qed.
Lemma remove_size l : forall r, iw (fst (fold_left removeStep l r)) = iw (fst r) /\ ih (fst (fold_left removeStep l r)) = ih (fst r).
Proof. induction l as [|p l IH]; intros r; [auto|]. cbn [fold_left]. destruct (IH (removeStep r p)) as [-> ->]. auto. Qed.
Hypothesis Hk : 0 <= k.
Lemma remove_at x y l : forall r, let n := Z.of_nat (many (x, y) l) in let v := ipx (fst r) x y in let r' := fold_left removeStep l r in
  ipx (fst r') x y = (if (v <? 0) && (0 <=? v + n) then k + (v + n) else v + n) /\
  many (x, y) (snd r') = (many (x, y) (snd r) + (if ((v <? 0) && (0 <=? v + n))%Z then 1 else 0))%nat.
Proof.
  induction l as [|[a b] l IH]; intros r; cbv zeta.
  { cbn [fold_left many filter length]. destruct (Z.ltb_spec (ipx (fst r) x y) 0), (Z.leb_spec 0 (ipx (fst r) x y + Z.of_nat 0)); cbn [andb]; lia. }
  cbn [fold_left]. destruct (IH (removeStep r (a, b))) as [I J]. cbv zeta in I, J. rewrite I, J. clear I J IH. rewrite many_cons. unfold removeStep, plus1. cbn [fst snd].
  rewrite many_app, ipx_setPx. set (n := many (x, y) l). set (c := many (x, y) (snd r)). destruct (eqp (x, y) (a, b)) eqn:E.
  - apply eqp_iff in E. injection E as <- <-. rewrite !Z.eqb_refl. cbn [andb]. destruct (Z.eqb_spec (ipx (fst r) x y) (-1)) as [V|V].
    + rewrite V. assert (many (x, y) [(x, y)] = 1%nat) as -> by (rewrite many_cons; replace (eqp (x, y) (x, y)) with true by (symmetry; apply eqp_iff; reflexivity); reflexivity).
      destruct (Z.ltb_spec k 0); [lia|]. change (-1 <? 0) with true. cbn [andb]. destruct (Z.leb_spec 0 (-1 + Z.of_nat (1 + n))); lia.
    + change (many (x, y) []) with O. destruct (Z.ltb_spec (ipx (fst r) x y + 1) 0), (Z.ltb_spec (ipx (fst r) x y) 0), (Z.leb_spec 0 (ipx (fst r) x y + 1 + Z.of_nat n)), (Z.leb_spec 0 (ipx (fst r) x y + Z.of_nat (1 + n))); cbn [andb]; lia.
  - assert ((x =? a) && (y =? b) = false) as -> by exact E.
    assert (many (x, y) (if ipx (fst r) a b =? -1 then [(a, b)] else []) = O) as -> by (destruct (ipx (fst r) a b =? -1); [rewrite many_cons, E|]; reflexivity).
    rewrite Nat.add_0_r. cbn [Nat.add]. auto.
Qed.
Lemma remove_list l : forall r, incl (snd (fold_left removeStep l r)) (snd r ++ l).
Proof.
  induction l as [|p l IH]; intros r q H; cbn [fold_left] in H; [rewrite app_nil_r; exact H|]. apply IH in H. apply in_app_iff. apply in_app_iff in H. unfold removeStep in H. cbn [snd] in H. destruct H as [H|H]; [|right; right; exact H].
  apply in_app_iff in H. destruct H as [H|H]; [left; exact H|]. destruct (_ =? -1); [|destruct H]. destruct H as [<-|[]]. right. left. reflexivity.
Qed.
End Remove.

Lemma many_in p l : (0 < many p l)%nat <-> In p l.
Proof.
  induction l as [|q l IH]; [cbn; split; [lia|tauto]|]. rewrite many_cons. cbn [In]. destruct (eqp p q) eqn:E; [apply eqp_iff in E; split; [left; congruence|lia]|]. rewrite <- IH. split; [right; lia|]. intros [->|H]; [|lia].
  assert (eqp p p = true) by (apply eqp_iff; reflexivity). congruence.
Qed.
Lemma many_nodup l : (forall p, (many p l <= 1)%nat) -> NoDup l.
Proof.
  induction l as [|q l IH]; intros H; constructor.
  - intros K. apply many_in in K. specialize (H q). rewrite many_cons in H. assert (eqp q q = true) as E by (apply eqp_iff; reflexivity). rewrite E in H. lia.
  - apply IH. intros p. specialize (H p). rewrite many_cons in H. lia.
Qed.
Lemma upTo_in x : forall n a, In x (upTo n a) -> a <= x < a + Z.of_nat n.
Proof. induction n as [|n IH]; intros a H; [destruct H|]. destruct H as [<-|H]; [lia|]. apply IH in H. lia. Qed.
Lemma visits_in s w h x y : In (x, y) (visits s w h) -> 0 <= x < w /\ 0 <= y < h.
Proof.
  intros H. apply in_flat_map in H. destruct H as (v & V & H). apply in_flat_map in H. destruct H as (g & _ & H). apply in_map_iff in H. destruct H as (u & [= <- <-] & U). apply upTo_in in V, U. unfold clipBegin, clipEnd in U.
  destruct (Z.ltb_spec (sbeg g) 0), (Z.gtb_spec (send g) w); lia.
Qed.

Lemma remove_is s im k : 0 <= k -> exists im' ps, removeEdge s im k = Ok (im', ps) /\ iw im' = iw im /\ ih im' = ih im /\ NoDup ps /\
  (forall x y, In (x, y) ps <-> inside im x y /\ ipx im x y < 0 <= ipx im x y + times s x y) /\
  forall x y, inside im x y -> (0 <= ipx im x y \/ ipx im x y + times s x y < 0 -> ipx im' x y = ipx im x y + times s x y) /\
    (ipx im x y < 0 <= ipx im x y + times s x y -> ipx im' x y = k + (ipx im x y + times s x y)).
Proof.
  intros Hk. rewrite removeEdge_fold. set (r := fold_left (removeStep k) (visits s (iw im) (ih im)) (im, [])). exists (fst r), (snd r). split; [destruct r; reflexivity|].
  destruct (remove_size k (visits s (iw im) (ih im)) (im, [])) as [A B]. split; [exact A|]. split; [exact B|].
  assert (N : forall x y, let n := Z.of_nat (many (x, y) (visits s (iw im) (ih im))) in many (x, y) (snd r) = if (ipx im x y <? 0) && (0 <=? ipx im x y + n) then 1%nat else O) by (intros x y; exact (proj2 (remove_at k Hk x y (visits s (iw im) (ih im)) (im, [])))).
  cbv zeta in N. split; [|split].
  - apply many_nodup. intros [x y]. rewrite N. destruct (_ && _); lia.
  - intros x y. split.
    + intros I. pose proof (remove_list k (visits s (iw im) (ih im)) (im, []) _ I) as V. apply visits_in in V. split; [exact V|]. apply many_in in I. rewrite N, (many_visits s _ _ x y (proj1 V) (proj2 V)) in I.
      destruct (Z.ltb_spec (ipx im x y) 0), (Z.leb_spec 0 (ipx im x y + times s x y)); cbn [andb] in I; lia.
    + intros [[X Y] V]. apply many_in. rewrite N, (many_visits s _ _ x y X Y). destruct (Z.ltb_spec (ipx im x y) 0), (Z.leb_spec 0 (ipx im x y + times s x y)); cbn [andb]; lia.
  - intros x y [X Y]. pose proof (proj1 (remove_at k Hk x y (visits s (iw im) (ih im)) (im, []))) as Q. cbv zeta in Q. fold r in Q. cbn [fst] in Q. rewrite (many_visits s _ _ x y X Y) in Q. rewrite Q.
    destruct (Z.ltb_spec (ipx im x y) 0), (Z.leb_spec 0 (ipx im x y + times s x y)); cbn [andb]; lia.
Qed.

(** ** Sequences *)
Lemma times_nonneg s x y : 0 <= times s x y.
Proof. unfold times. lia. Qed.
Lemma all_nonneg on x y : 0 <= timesAll on x y.
Proof. induction on as [|s on IH]; cbn [timesAll fold_right]; [lia|]. pose proof (times_nonneg s x y). unfold timesAll in IH. lia. Qed.
Lemma all_app a b x y : timesAll (a ++ b) x y = timesAll a x y + timesAll b x y.
Proof. induction a as [|s a IH]; [reflexivity|]. change (timesAll ((s :: a) ++ b) x y) with (times s x y + timesAll (a ++ b) x y). change (timesAll (s :: a) x y) with (times s x y + timesAll a x y). lia. Qed.
Lemma all_cons s on x y : timesAll (s :: on) x y = times s x y + timesAll on x y.
Proof. reflexivity. Qed.

Lemma drawn_is im0 on im : (forall x y, inside im0 x y -> 0 <= ipx im0 x y) -> drawn im0 on im -> iw im = iw im0 /\ ih im = ih im0 /\
  forall x y, inside im0 x y -> (0 < timesAll on x y -> ipx im x y = - timesAll on x y) /\ (timesAll on x y = 0 -> 0 <= ipx im x y).
Proof.
  intros P D. induction D as [|on im s im' D IH E|a s b im k im' ps D IH K E].
  - split; [reflexivity|]. split; [reflexivity|]. intros x y I. split; [cbn; lia|]. intros _. apply P, I.
  - destruct IH as (W & H & IH). destruct (mark_is s im) as (im2 & E2 & W2 & H2 & Q). rewrite E in E2. injection E2 as <-. split; [lia|]. split; [lia|]. intros x y I.
    assert (I' : inside im x y) by (unfold inside in *; lia). destruct (IH x y I) as [A B]. destruct (Q x y I') as (Q0 & Q1 & Q2). rewrite all_cons. pose proof (times_nonneg s x y). pose proof (all_nonneg on x y).
    destruct (Z.eq_dec (timesAll on x y) 0) as [Z0|Z0]; [|rewrite Q2 by lia; lia]. destruct (Z.eq_dec (times s x y) 0) as [T0|T0]; [rewrite (Q0 T0); lia|rewrite Q1 by lia; lia].
  - destruct IH as (W & H & IH). destruct (remove_is s im k K) as (im2 & ps2 & E2 & W2 & H2 & _ & _ & Q). rewrite E in E2. injection E2 as <- <-. split; [lia|]. split; [lia|]. intros x y I.
    assert (I' : inside im x y) by (unfold inside in *; lia). destruct (IH x y I) as [A B]. destruct (Q x y I') as (Q0 & Q1). rewrite all_app, all_cons in A, B. rewrite all_app.
    pose proof (times_nonneg s x y). pose proof (all_nonneg a x y). pose proof (all_nonneg b x y).
    destruct (Z.eq_dec (timesAll a x y + timesAll b x y) 0) as [Z0|Z0]; [destruct (Z.eq_dec (times s x y) 0) as [T0|T0]; [rewrite Q0 by lia; lia|rewrite Q1 by lia; lia]|rewrite Q0 by lia; lia].
Qed.
Lemma freed im0 a s b im k : (forall x y, inside im0 x y -> 0 <= ipx im0 x y) -> drawn im0 (a ++ s :: b) im -> 0 <= k ->
  exists im' ps, removeEdge s im k = Ok (im', ps) /\ NoDup ps /\ (forall x y, In (x, y) ps <-> inside im0 x y /\ 0 < times s x y /\ timesAll (a ++ b) x y = 0) /\
    forall x y, inside im0 x y -> (In (x, y) ps -> ipx im' x y = k) /\ (timesAll (a ++ s :: b) x y = 0 -> ipx im' x y = ipx im x y).
Proof.
  intros P D K. destruct (drawn_is im0 _ im P D) as (W & H & I). destruct (remove_is s im k K) as (im' & ps & E & W' & H' & N & L & Q). exists im', ps. split; [exact E|]. split; [exact N|].
  assert (L' : forall x y, In (x, y) ps <-> inside im0 x y /\ 0 < times s x y /\ timesAll (a ++ b) x y = 0).
  { intros x y. rewrite L. assert (inside im x y <-> inside im0 x y) as -> by (unfold inside; rewrite W, H; tauto). split; intros [J V]; (split; [exact J|]); destruct (I x y J) as [A B]; rewrite all_app, all_cons in A, B; rewrite all_app in *;
      pose proof (times_nonneg s x y); pose proof (all_nonneg a x y); pose proof (all_nonneg b x y); lia. }
  split; [exact L'|]. intros x y J. assert (J' : inside im x y) by (unfold inside in *; lia). destruct (I x y J) as [A B]. destruct (Q x y J') as [Q0 Q1]. rewrite L'. pose proof (all_app a (s :: b) x y) as S1. pose proof (all_app a b x y) as S2. pose proof (all_cons s b x y) as S3.
  pose proof (times_nonneg s x y). pose proof (all_nonneg a x y). pose proof (all_nonneg b x y). split; [intros (_ & T & Z0); rewrite Q1 by lia; lia|]. intros Z0. rewrite Q0 by lia. lia.
Qed.

(** ** Rows from Python *)
Lemma row_is s i : scanlineAt s i = if (sl_start s <=? i) && (i <? endIndex s) then Ok (lineOf s i) else Exn.
Proof.
  unfold scanlineAt, lineAt, lineOf, endIndex. destruct (Z.ltb_spec i (sl_start s)), (Z.leb_spec (sl_start s) i), (Z.geb_spec i (sl_start s + Z.of_nat (length (sl_lines s)))), (Z.ltb_spec i (sl_start s + Z.of_nat (length (sl_lines s)))); cbn [orb andb]; try reflexivity; try lia.
  destruct (Z.ltb_spec (i - sl_start s) 0); [lia|]. unfold vget. destruct (nth_error (sl_lines s) (Z.to_nat (i - sl_start s))) as [l|] eqn:E; [f_equal; symmetry; apply nth_error_nth, E|]. apply nth_error_None in E. lia.
Qed.
Lemma iterate_from s : forall fuel i, sl_start s <= i -> (length (sl_lines s) - Z.to_nat (i - sl_start s) < fuel)%nat -> iterateRows fuel s i = Ok (skipn (Z.to_nat (i - sl_start s)) (sl_lines s)).
Proof.
  induction fuel as [|fuel IH]; intros i L F; [lia|]. cbn [iterateRows]. rewrite row_is. destruct (Z.leb_spec (sl_start s) i); [|lia]. cbn [andb]. unfold endIndex. destruct (Z.ltb_spec i (sl_start s + Z.of_nat (length (sl_lines s)))) as [B|B].
  - rewrite IH by lia. cbn [bind]. unfold lineOf. destruct (Z.ltb_spec i (sl_start s)); [lia|]. replace (Z.to_nat (i + 1 - sl_start s)) with (Datatypes.S (Z.to_nat (i - sl_start s))) by lia.
    assert (K : (Z.to_nat (i - sl_start s) < length (sl_lines s))%nat) by lia. revert K. generalize (Z.to_nat (i - sl_start s)) as n. generalize (sl_lines s) as ls. clear. intros ls n K. f_equal.
    revert n K. induction ls as [|l ls IH]; intros [|n] K; cbn in *; try lia; [reflexivity|]. apply IH. lia.
  - rewrite skipn_all2 by lia. reflexivity.
Qed.
Lemma iterate_is fuel s : (length (sl_lines s) < fuel)%nat -> iterateRows fuel s 0 = Ok (if sl_start s <=? 0 then skipn (Z.to_nat (- sl_start s)) (sl_lines s) else []).
Proof.
  intros F. destruct (Z.leb_spec (sl_start s) 0) as [L|L]; [rewrite iterate_from by lia; reflexivity|]. destruct fuel; [lia|]. cbn [iterateRows]. rewrite row_is. destruct (Z.leb_spec (sl_start s) 0); [lia|reflexivity].
Qed.
