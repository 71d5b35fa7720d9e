(** The sigma tables as vectors: sigmaMappingArray_ / sigmaInverseMappingArray_ with
    the iterators sigmaMapping_ / sigmaInverseMapping_ pointing at their middle
    (cppmap.hxx 183-190, cppmap.cxx 230-236, 1255-1271).  GeoMap_Model.v works on
    functions with a half size; here both are related. *)
From Verif Require Import Base GeoMap_Model GeoMap_Views GeoMap_SInv GeoMap_Spec GeoMap_Facts GeoMap_History GeoMap_Results.
Local Open Scope Z_scope.

(** ** Model *)

(** sigmaMapping_[d] with sigmaMapping_ = begin() + size()/2 (cppmap.cxx 233, 1267) *)
Definition arrIndex (a : list Z) (d : Z) : Z := d + Z.of_nat (length a / 2).
Definition arrGet (a : list Z) (d : Z) : res Z :=
  if arrIndex a d <? 0 then UB else vget a (Z.to_nat (arrIndex a d)).
Definition arrPut (a : list Z) (d v : Z) : res (list Z) :=
  if arrIndex a d <? 0 then UB else vset a (Z.to_nat (arrIndex a d)) v.
(** cppmap.cxx 1257-1264: a zeroed vector of the new size, the old entries copied to
    begin() + oldSize/2; std::copy beyond the end is undefined *)
Definition arrResize (a : list Z) (n : nat) : res (list Z) :=
  let o := (length a / 2)%nat in
  if (n <? o + length a)%nat then UB
  else Ok (repeat 0 o ++ a ++ repeat 0 (n - o - length a)).
(** cppmap.cxx 1275-1276, 1907-1908 *)
Definition arrGrow (a : list Z) : res (list Z) := arrResize a (2 * length a - 1).
(** the loop of lines 1275-1276 *)
Fixpoint arrEnsure (n : nat) (a : list Z) (d : Z) : res (list Z) :=
  if Z.of_nat (length a) <? 2 * Z.abs d + 1
  then match n with O => NoFuel | S k => a' <- arrGrow a ;; arrEnsure k a' d end
  else Ok a.

(** ** The vector holds the entries of the function *)

Record holds (a : list Z) (c : Z) (f : Z -> Z) : Prop := {
  ho_c : 0 <= c;
  ho_len : Z.of_nat (length a) = 2 * c + 1;
  ho_get : forall d, Z.abs d <= c -> arrGet a d = Ok (f d) }.

Lemma half_len (a : list Z) c : 0 <= c -> Z.of_nat (length a) = 2 * c + 1 -> (length a / 2)%nat = Z.to_nat c.
Proof. intros H E. replace (length a) with (1 + Z.to_nat c * 2)%nat by lia. rewrite Nat.div_add by lia. reflexivity. Qed.

Lemma holds_index a c f d : holds a c f -> arrIndex a d = d + c.
Proof. intros H. unfold arrIndex. rewrite (half_len a c (ho_c _ _ _ H) (ho_len _ _ _ H)). pose proof (ho_c _ _ _ H). lia. Qed.

(** reads and writes are in range exactly where the model allows them *)
Theorem arrGet_defined a c f d : holds a c f -> arrGet a d = if Z.abs d <=? c then Ok (f d) else UB.
Proof.
  intros H. destruct (Z.leb_spec (Z.abs d) c) as [L|L]; [apply H; assumption|].
  unfold arrGet. rewrite (holds_index a c f d H). destruct (Z.ltb_spec (d + c) 0); [reflexivity|].
  unfold vget. destruct (nth_error a _) eqn:E; [|reflexivity]. exfalso.
  assert (Z.to_nat (d + c) < length a)%nat by (apply nth_error_Some; congruence). pose proof (ho_len _ _ _ H). lia.
Qed.

Theorem arrPut_holds a c f d v : holds a c f -> Z.abs d <= c -> exists a', arrPut a d v = Ok a' /\ holds a' c (updZ f d v).
Proof.
  intros H L. pose proof (ho_len _ _ _ H) as HL. unfold arrPut. rewrite (holds_index a c f d H). destruct (Z.ltb_spec (d + c) 0); [lia|].
  unfold vset. destruct (Nat.ltb_spec (Z.to_nat (d + c)) (length a)); [|lia]. eexists. split; [reflexivity|].
  assert (HL' : Z.of_nat (length (list_upd a (Z.to_nat (d + c)) v)) = 2 * c + 1) by (rewrite list_upd_length; assumption).
  constructor; [apply H | assumption|]. intros x Hx. unfold arrGet, arrIndex.
  rewrite (half_len _ c (ho_c _ _ _ H) HL'). replace (x + Z.of_nat (Z.to_nat c)) with (x + c) by lia. destruct (Z.ltb_spec (x + c) 0); [lia|].
  pose proof (ho_get _ _ _ H x Hx) as G. unfold arrGet in G. rewrite (holds_index a c f x H) in G. destruct (Z.ltb_spec (x + c) 0); [lia|].
  unfold updZ, vget. destruct (Z.eqb_spec x d) as [->|N].
  - rewrite nth_error_upd_eq by assumption. reflexivity.
  - rewrite nth_error_upd_neq by lia. exact G.
Qed.

Theorem arrPut_undefined a c f d v : holds a c f -> c < Z.abs d -> arrPut a d v = UB.
Proof.
  intros H L. pose proof (ho_len _ _ _ H) as HL. unfold arrPut. rewrite (holds_index a c f d H). destruct (Z.ltb_spec (d + c) 0); [reflexivity|].
  unfold vset. destruct (Nat.ltb_spec (Z.to_nat (d + c)) (length a)); [lia | reflexivity].
Qed.

(** growing keeps every entry and zeroes the new ones *)
Theorem arrGrow_holds a c f : holds a c f ->
  exists a', arrGrow a = Ok a' /\ holds a' (2 * c) (fun d => if Z.abs d <=? c then f d else 0).
Proof.
  intros H. pose proof (ho_len _ _ _ H) as HL. pose proof (ho_c _ _ _ H) as Hc. unfold arrGrow, arrResize.
  rewrite (half_len a c Hc HL). destruct (Nat.ltb_spec (2 * length a - 1) (Z.to_nat c + length a)); [lia|].
  eexists. split; [reflexivity|].
  set (a' := repeat 0 (Z.to_nat c) ++ a ++ repeat 0 (2 * length a - 1 - Z.to_nat c - length a)).
  assert (HL' : Z.of_nat (length a') = 2 * (2 * c) + 1) by (unfold a'; rewrite !app_length, !repeat_length; lia).
  constructor; [lia | assumption|]. intros d Hd. unfold arrGet, arrIndex. rewrite (half_len a' (2 * c)) by lia.
  destruct (Z.ltb_spec (d + Z.of_nat (Z.to_nat (2 * c))) 0); [lia|]. unfold vget, a'.
  assert (R0 : forall n k, (k < n)%nat -> nth_error (repeat 0 n) k = Some 0).
  { intros n k Hk. rewrite (nth_error_nth' _ 0) by (rewrite repeat_length; assumption). f_equal. apply nth_repeat. }
  destruct (Z.leb_spec (Z.abs d) c) as [L|L].
  - rewrite nth_error_app2 by (rewrite repeat_length; lia). rewrite repeat_length. rewrite nth_error_app1 by lia.
    pose proof (ho_get _ _ _ H d L) as G. unfold arrGet in G. rewrite (holds_index a c f d H) in G. destruct (Z.ltb_spec (d + c) 0); [lia|].
    unfold vget in G. replace (Z.to_nat (d + Z.of_nat (Z.to_nat (2 * c))) - Z.to_nat c)%nat with (Z.to_nat (d + c)) by lia. exact G.
  - destruct (Z.ltb_spec d 0).
    + rewrite nth_error_app1 by (rewrite repeat_length; lia). rewrite R0 by lia. reflexivity.
    + rewrite nth_error_app2 by (rewrite repeat_length; lia). rewrite repeat_length. rewrite nth_error_app2 by lia. rewrite R0 by lia. reflexivity.
Qed.

(** ** Simulation of the model's primitives *)

Record tables (m : gmap) (t : list Z * list Z) : Prop := {
  tb_s : holds (fst t) (cap m) (sg m);
  tb_i : holds (snd t) (cap m) (sgi m) }.

Theorem get_sim m t d : tables m t -> arrGet (fst t) d = getS m d /\ arrGet (snd t) d = getSi m d.
Proof. intros [A B]. unfold getS, getSi, inCap. rewrite (arrGet_defined _ _ _ d A), (arrGet_defined _ _ _ d B). auto. Qed.

Theorem put_sim m t d v : tables m t ->
  match putS m d v with Ok m' => exists a, arrPut (fst t) d v = Ok a /\ tables m' (a, snd t) | _ => arrPut (fst t) d v = UB end /\
  match putSi m d v with Ok m' => exists a, arrPut (snd t) d v = Ok a /\ tables m' (fst t, a) | _ => arrPut (snd t) d v = UB end.
Proof.
  intros [A B]. unfold putS, putSi, inCap. destruct (Z.leb_spec (Z.abs d) (cap m)) as [L|L].
  - destruct (arrPut_holds _ _ _ d v A L) as (a & Ea & Ha). destruct (arrPut_holds _ _ _ d v B L) as (b & Eb & Hb).
    split; [exists a | exists b]; (split; [assumption|]); constructor; assumption.
  - split; [apply (arrPut_undefined _ _ _ d v A L) | apply (arrPut_undefined _ _ _ d v B L)].
Qed.

Theorem grow_sim m t : tables m t ->
  exists a b, arrGrow (fst t) = Ok a /\ arrGrow (snd t) = Ok b /\ tables (resizeSigma m) (a, b) /\
    forall d, Z.abs d <= cap m -> arrGet a d = arrGet (fst t) d /\ arrGet b d = arrGet (snd t) d.
Proof.
  intros [A B]. destruct (arrGrow_holds _ _ _ A) as (a & Ea & Ha). destruct (arrGrow_holds _ _ _ B) as (b & Eb & Hb).
  exists a, b. split; [assumption|]. split; [assumption|]. split; [constructor; assumption|].
  intros d Hd. pose proof (ho_c _ _ _ A). rewrite (arrGet_defined _ _ _ d A), (arrGet_defined _ _ _ d B), (arrGet_defined _ _ _ d Ha), (arrGet_defined _ _ _ d Hb).
  destruct (Z.leb_spec (Z.abs d) (cap m)), (Z.leb_spec (Z.abs d) (2 * cap m)); try lia. auto.
Qed.

Theorem ensure_sim n m t d : tables m t ->
  match growSigma n m d with
  | Ok m' => exists a b, arrEnsure n (fst t) d = Ok a /\ arrEnsure n (snd t) d = Ok b /\ tables m' (a, b) /\ Z.abs d <= cap m'
  | NoFuel => arrEnsure n (fst t) d = NoFuel
  | _ => False
  end.
Proof.
  revert m t. induction n as [|n IH]; intros m t T; cbn [growSigma arrEnsure]; unfold inCap;
    pose proof (ho_len _ _ _ (tb_s _ _ T)) as L1; pose proof (ho_len _ _ _ (tb_i _ _ T)) as L2;
    destruct (Z.leb_spec (Z.abs d) (cap m)).
  - exists (fst t), (snd t). destruct (Z.ltb_spec (Z.of_nat (length (fst t))) (2 * Z.abs d + 1)); [lia|].
    destruct (Z.ltb_spec (Z.of_nat (length (snd t))) (2 * Z.abs d + 1)); [lia|]. rewrite <- surjective_pairing. auto.
  - destruct (Z.ltb_spec (Z.of_nat (length (fst t))) (2 * Z.abs d + 1)); [reflexivity | lia].
  - exists (fst t), (snd t). destruct (Z.ltb_spec (Z.of_nat (length (fst t))) (2 * Z.abs d + 1)); [lia|].
    destruct (Z.ltb_spec (Z.of_nat (length (snd t))) (2 * Z.abs d + 1)); [lia|]. rewrite <- surjective_pairing. auto.
  - destruct (grow_sim m t T) as (a & b & Ea & Eb & T' & _). specialize (IH (resizeSigma m) (a, b) T').
    destruct (Z.ltb_spec (Z.of_nat (length (fst t))) (2 * Z.abs d + 1)); [|lia].
    destruct (Z.ltb_spec (Z.of_nat (length (snd t))) (2 * Z.abs d + 1)); [|lia]. rewrite Ea, Eb. cbn [bind]. exact IH.
Qed.

(** cppmap.cxx 230-236: the constructor allocates 101 entries *)
Theorem tables_empty : tables empty_map (repeat 0 101, repeat 0 101).
Proof.
  assert (H : holds (repeat 0 101) 50 (fun _ => 0)).
  { constructor; [lia | reflexivity|]. intros d Hd. unfold arrGet, arrIndex. rewrite repeat_length. change (Z.of_nat (101 / 2)) with 50.
    destruct (Z.ltb_spec (d + 50) 0); [lia|]. unfold vget. rewrite (nth_error_nth' _ 0) by (rewrite repeat_length; lia). rewrite nth_repeat. reflexivity. }
  constructor; exact H.
Qed.

(** ** C41 *)

(** every dart of an existing edge label has an entry, at every point of a history *)
Theorem table_covers m t l : history anyCall m -> tables m t -> (l < length (edges m))%nat ->
  exists s1 s2 i1 i2, arrGet (fst t) (Z.of_nat l) = Ok s1 /\ arrGet (fst t) (- Z.of_nat l) = Ok s2 /\
                      arrGet (snd t) (Z.of_nat l) = Ok i1 /\ arrGet (snd t) (- Z.of_nat l) = Ok i2.
Proof.
  intros H T Hl. pose proof (sv_len _ (Inv_SInv m (history_Inv _ m H))) as L.
  rewrite !(arrGet_defined _ _ _ _ (tb_s _ _ T)), !(arrGet_defined _ _ _ _ (tb_i _ _ T)).
  destruct (Z.leb_spec (Z.abs (Z.of_nat l)) (cap m)); [|lia]. destruct (Z.leb_spec (Z.abs (- Z.of_nat l)) (cap m)); [|lia]. repeat eexists.
Qed.

(** so the resize in setSigmaMapping (cppmap.cxx 950-951) is never executed ... *)
Theorem setSigma_never_resizes m t : history anyCall m -> tables m t -> (2 * length (edges m) - 1 <= length (fst t))%nat.
Proof.
  intros H T. pose proof (sv_len _ (Inv_SInv m (history_Inv _ m H))) as L. pose proof (ho_len _ _ _ (tb_s _ _ T)). lia.
Qed.

(** ... which matters, because resizeSigmaMapping is only right for doubling: with
    other sizes it writes behind the vector or moves the entries *)
Theorem resize_other_sizes_refuted :
  (exists a n, (length a < n)%nat /\ arrResize a n = UB) /\
  (exists a a' n d, (length a < n)%nat /\ arrResize a n = Ok a' /\ arrGet a d = Ok 7 /\ arrGet a' d <> Ok 7).
Proof.
  split; [exists [1;2;3;4;5], 6%nat; split; [cbn; lia | reflexivity]|].
  exists [1;7;3], [0;1;7;3;0;0;0], 7%nat, 0. split; [cbn; lia|]. split; [reflexivity|]. split; [reflexivity | discriminate].
Qed.
