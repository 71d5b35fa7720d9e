From Coq Require Import QArith Qround Lqa Sorted.
From Verif Require Import Base Scanlines_Model Scanlines_Spec Scanlines_Proofs ScanPoly_Model ScanPoly_Spec.
Local Open Scope Q_scope.

Lemma injZ_lt a b : inject_Z a < inject_Z b <-> (a < b)%Z.
Proof. rewrite <- Zlt_Qlt. reflexivity. Qed.
Lemma injZ_le a b : inject_Z a <= inject_Z b <-> (a <= b)%Z.
Proof. rewrite <- Zle_Qle. reflexivity. Qed.

Lemma qle_cases a b : (Qle_bool a b = true /\ a <= b) \/ (Qle_bool a b = false /\ b < a).
Proof.
  destruct (Qle_bool a b) eqn:E; [left; split; [reflexivity | apply Qle_bool_iff, E]|]. right. split; [reflexivity|].
  apply Qnot_le_lt. intros C. apply Qle_bool_iff in C. congruence.
Qed.
Lemma qmin_lt a b h : qmin a b < h <-> a < h \/ b < h.
Proof. unfold qmin. destruct (qle_cases a b) as [[-> E]|[-> E]]; (split; [intros H; auto | intros [H|H]; lra]). Qed.
Lemma qmax_lt a b l : l < qmax a b <-> l < a \/ l < b.
Proof. unfold qmax. destruct (qle_cases a b) as [[-> E]|[-> E]]; (split; [intros H; auto | intros [H|H]; lra]). Qed.
Lemma qmin_le a b : qmin a b <= a /\ qmin a b <= b.
Proof. unfold qmin. destruct (qle_cases a b) as [[-> E]|[-> E]]; lra. Qed.
Lemma qmax_le a b : a <= qmax a b /\ b <= qmax a b.
Proof. unfold qmax. destruct (qle_cases a b) as [[-> E]|[-> E]]; lra. Qed.

Lemma floor_spec q n : Qfloor q = n <-> inject_Z n <= q < inject_Z n + 1.
Proof.
  pose proof (Qfloor_le q) as A. pose proof (Qlt_floor q) as B. rewrite inject_Z_plus in B. change (inject_Z 1) with 1 in B. split; [intros <-; auto|].
  intros [H1 H2]. assert (C : inject_Z n < inject_Z (Qfloor q + 1)) by (rewrite inject_Z_plus; change (inject_Z 1) with 1; lra).
  assert (D : inject_Z (Qfloor q) < inject_Z (n + 1)) by (rewrite inject_Z_plus; change (inject_Z 1) with 1; lra).
  rewrite injZ_lt in C, D. lia.
Qed.

(** ** rows *)
Lemma K_cases y : (exists L, kLineOfY y = (2 * L)%Z /\ lineOfY y = L /\ inject_Z L - (1#2) < y < inject_Z L + (1#2)) \/
                  (exists L, kLineOfY y = (2 * L - 1)%Z /\ lineOfY y = L /\ y == inject_Z L - (1#2)).
Proof.
  unfold kLineOfY. assert (E : lineOfY y = lineOfY y) by reflexivity. unfold lineOfY at 1 in E. apply floor_spec in E. destruct E as [E1 E2].
  destruct (Qeq_bool (y + (1#2)) (inject_Z (lineOfY y))) eqn:B.
  - apply Qeq_bool_iff in B. right. exists (lineOfY y). split; [reflexivity|]. split; [reflexivity|]. lra.
  - apply Qeq_bool_neq in B. left. exists (lineOfY y). split; [reflexivity|]. split; [reflexivity|]. split; [|lra].
    destruct (Qlt_le_dec (inject_Z (lineOfY y) - (1#2)) y) as [H|H]; [exact H|]. exfalso. apply B. lra.
Qed.

Lemma lt_Z_half a b : inject_Z a - (1#2) < inject_Z b + (1#2) <-> (a <= b)%Z.
Proof.
  split; intros H.
  - assert (K : inject_Z a < inject_Z (b + 1)) by (rewrite inject_Z_plus; change (inject_Z 1) with 1; lra). rewrite injZ_lt in K. lia.
  - rewrite <- injZ_le in H. lra.
Qed.
Lemma le_Z_half a b : inject_Z a + (1#2) <= inject_Z b - (1#2) <-> (a < b)%Z.
Proof.
  split; intros H.
  - assert (K : ~ (inject_Z b - (1#2) < inject_Z a + (1#2))) by lra. rewrite lt_Z_half in K. lia.
  - assert (K : ~ (b <= a)%Z) by lia. rewrite <- lt_Z_half in K. lra.
Qed.

Lemma K_lt y L : (kLineOfY y < 2 * L)%Z <-> y <= inject_Z L - (1#2).
Proof.
  destruct (K_cases y) as [(M & E & _ & H)|(M & E & _ & H)]; rewrite E.
  - split; intros K.
    + assert (M < L)%Z by lia. rewrite <- le_Z_half in H0. lra.
    + assert (C : inject_Z M - (1#2) < inject_Z L - (1#2)) by lra. assert (D : inject_Z M < inject_Z L) by lra. rewrite injZ_lt in D. lia.
  - split; intros K.
    + assert (M <= L)%Z by lia. rewrite <- injZ_le in H0. lra.
    + assert (C : inject_Z M <= inject_Z L) by lra. rewrite injZ_le in C. lia.
Qed.
Lemma K_gt y L : (2 * L < kLineOfY y)%Z <-> inject_Z L + (1#2) <= y.
Proof.
  destruct (K_cases y) as [(M & E & _ & H)|(M & E & _ & H)]; rewrite E.
  - split; intros K.
    + assert (L < M)%Z by lia. rewrite <- le_Z_half in H0. lra.
    + assert (D : inject_Z L < inject_Z M) by lra. rewrite injZ_lt in D. lia.
  - split; intros K.
    + assert (L < M)%Z by lia. rewrite <- le_Z_half in H0. lra.
    + assert (C : inject_Z L + (1#2) <= inject_Z M - (1#2)) by lra. rewrite le_Z_half in C. lia.
Qed.
Lemma K_eq y L : kLineOfY y = (2 * L)%Z <-> inject_Z L - (1#2) < y < inject_Z L + (1#2).
Proof.
  pose proof (K_lt y L). pose proof (K_gt y L). split.
  - intros E. split; apply Qnot_le_lt; intros C; [apply H in C | apply H0 in C]; lia.
  - intros [A B]. assert (~ (kLineOfY y < 2 * L)%Z) by (rewrite H; lra). assert (~ (2 * L < kLineOfY y)%Z) by (rewrite H0; lra). lia.
Qed.

(** ** the crossing loop, seen from one row *)
Definition rowOf (L : Z) (ev : list (Z * seg)) : list seg := map snd (filter (fun c => (fst c =? L)%Z) ev).
Lemma rowOf_app L a b : rowOf L (a ++ b) = rowOf L a ++ rowOf L b.
Proof. unfold rowOf. rewrite filter_app, map_app. reflexivity. Qed.
Lemma rowOf_cons L l g ev : rowOf L ((l, g) :: ev) = if (l =? L)%Z then g :: rowOf L ev else rowOf L ev.
Proof. unfold rowOf. cbn [filter fst]. destruct (l =? L)%Z; reflexivity. Qed.

Section Edge.
Variables (px py x y : Q) (step L : Z).
Hypothesis Hstep : step = 1%Z \/ step = (-1)%Z.
Notation ixr l := (intersectX px py x y l step).

Lemma crossLoop_row : forall n s e pstep line k, (2 * line = if Z.even k then k else k - step)%Z ->
  rowOf L (fst (crossLoop n px py x y step s e pstep line k)) =
    (let d := (2 * L - k) * step in
     if (0 <=? d) && (d <? Z.of_nat n) then
       (if d =? 0 then [qSeg (qmin s (ixr L)) (step + pstep) (qmax e (ixr L))]
        else [qSeg (qmin (ixr (L - step)) (ixr L)) (step + step) (qmax (ixr (L - step)) (ixr L))])
     else [])%Z.
Proof.
  induction n as [|n IH]; intros s e pstep line k Hl; cbn [crossLoop].
  - cbn [fst]. cbv zeta. destruct (Z.leb_spec 0 ((2 * L - k) * step)), (Z.ltb_spec ((2 * L - k) * step) (Z.of_nat 0)); try lia; reflexivity.
  - destruct (Z.even k) eqn:Ek.
    + cbn [fst]. rewrite rowOf_cons, IH.
      2:{ rewrite <- Z.negb_odd. replace (Z.odd (k + step)) with true; [cbn [negb]; lia|]. destruct Hstep; subst step; rewrite Z.odd_add, <- Z.negb_even, Ek; reflexivity. }
      assert (Ekl : (k / 2 = line)%Z) by (rewrite <- Hl, Z.mul_comm; apply Z.div_mul; lia). rewrite Ekl. cbv zeta.
      replace ((2 * L - (k + step)) * step)%Z with ((2 * L - k) * step - 1)%Z by (destruct Hstep; subst step; ring).
      destruct (Z.eqb_spec line L) as [->|Hn].
      * replace (2 * L - k)%Z with 0%Z by lia. rewrite Z.mul_0_l. destruct (Z.ltb_spec 0 (Z.of_nat (S n))); [|lia]. reflexivity.
      * destruct (Z.eqb_spec ((2 * L - k) * step) 0); [exfalso; destruct Hstep; subst step; lia|].
        assert ((2 * L - k) * step <> 1)%Z by (destruct Hstep; subst step; lia).
        destruct (Z.eqb_spec ((2 * L - k) * step - 1) 0); [lia|].
        destruct (Z.leb_spec 0 ((2 * L - k) * step - 1)), (Z.leb_spec 0 ((2 * L - k) * step)), (Z.ltb_spec ((2 * L - k) * step - 1) (Z.of_nat n)), (Z.ltb_spec ((2 * L - k) * step) (Z.of_nat (S n))); try lia; reflexivity.
    + rewrite IH.
      2:{ rewrite <- Z.negb_odd. replace (Z.odd (k + step)) with false; [cbn [negb]; lia|]. destruct Hstep; subst step; rewrite Z.odd_add, <- Z.negb_even, Ek; reflexivity. }
      cbv zeta. replace ((2 * L - (k + step)) * step)%Z with ((2 * L - k) * step - 1)%Z by (destruct Hstep; subst step; ring).
      assert (Ho : ((2 * L - k) * step <> 0)%Z). { intros C. rewrite <- Z.negb_odd in Ek. assert (k = 2 * L)%Z by (destruct Hstep; subst step; lia). subst k. rewrite Z.odd_mul in Ek. discriminate. }
      destruct (Z.eqb_spec ((2 * L - k) * step) 0); [lia|].
      destruct (Z.eqb_spec ((2 * L - k) * step - 1) 0) as [E|E].
      * assert (line = L - step)%Z by (destruct Hstep; subst step; lia). subst line.
        destruct (Z.leb_spec 0 ((2 * L - k) * step - 1)), (Z.leb_spec 0 ((2 * L - k) * step)), (Z.ltb_spec ((2 * L - k) * step - 1) (Z.of_nat n)), (Z.ltb_spec ((2 * L - k) * step) (Z.of_nat (S n))); try lia; reflexivity.
      * destruct (Z.leb_spec 0 ((2 * L - k) * step - 1)), (Z.leb_spec 0 ((2 * L - k) * step)), (Z.ltb_spec ((2 * L - k) * step - 1) (Z.of_nat n)), (Z.ltb_spec ((2 * L - k) * step) (Z.of_nat (S n))); try lia; reflexivity.
Qed.

Lemma crossLoop_state : forall n s e pstep line k, (2 * line = if Z.even k then k else k - step)%Z ->
  exists s' e' p', snd (crossLoop n px py x y step s e pstep line k) = (s', e', p', (k + Z.of_nat n * step)%Z) /\
    ((n = 0%nat /\ s' = s /\ e' = e /\ p' = pstep) \/
     ((0 < n)%nat /\ p' = step /\ ((k + Z.of_nat n * step)%Z = (2 * L)%Z -> s' = ixr (L - step) /\ e' = ixr (L - step)))).
Proof.
  induction n as [|n IH]; intros s e pstep line k Hl.
  - exists s, e, pstep. cbn [crossLoop snd]. split; [f_equal; lia | left; auto].
  - cbn [crossLoop]. destruct (Z.even k) eqn:Ek; cbn [snd].
    + destruct (IH (qmin s (ixr line)) (qmax e (ixr line)) step line (k + step)%Z) as (s' & e' & p' & E & C).
      { rewrite <- Z.negb_odd. replace (Z.odd (k + step)) with true; [cbn [negb]; lia|]. destruct Hstep; subst step; rewrite Z.odd_add, <- Z.negb_even, Ek; reflexivity. }
      exists s', e', p'. split; [rewrite E; f_equal; lia|]. right. split; [lia|].
      replace (k + Z.of_nat (S n) * step)%Z with (k + step + Z.of_nat n * step)%Z by lia.
      destruct C as [(-> & -> & -> & ->)|(Hn & -> & C)]; [|auto]. split; [reflexivity|]. intros C. exfalso.
      assert (k = 2 * line)%Z by lia. subst k. destruct Hstep; subst step; lia.
    + destruct (IH (ixr line) (ixr line) step (line + step)%Z (k + step)%Z) as (s' & e' & p' & E & C).
      { rewrite <- Z.negb_odd. replace (Z.odd (k + step)) with false; [cbn [negb]; lia|]. destruct Hstep; subst step; rewrite Z.odd_add, <- Z.negb_even, Ek; reflexivity. }
      exists s', e', p'. split; [rewrite E; f_equal; lia|]. right. split; [lia|].
      replace (k + Z.of_nat (S n) * step)%Z with (k + step + Z.of_nat n * step)%Z by lia.
      destruct C as [(-> & -> & -> & ->)|(Hn & -> & C)]; [|auto]. split; [reflexivity|]. intros C.
      assert (line = L - step)%Z by lia. subst line. auto.
Qed.
End Edge.

(** state at point [a] *)
Record spInv (st : spst) (a : Q * Q) : Prop := {
  iv_x : sp_px st = fst a; iv_y : sp_py st = snd a; iv_k : sp_k st = kLineOfY (snd a);
  iv_even : Z.even (sp_k st) = true -> sp_line st = (sp_k st / 2)%Z /\ sp_s st <= fst a <= sp_e st }.

Lemma spInv_init a : spInv (scanInit a) a.
Proof.
  split; try reflexivity. cbn [sp_k scanInit sp_line sp_s sp_e]. intros E. split; [|lra].
  destruct (K_cases (snd a)) as [(M & E1 & E2 & _)|(M & E1 & E2 & _)].
  - rewrite E1, E2, Z.mul_comm, Z.div_mul; lia.
  - rewrite E1 in E. rewrite Z.even_sub, Z.even_mul in E. discriminate.
Qed.

Definition ixab (a b : Q * Q) (l step : Z) : Q := intersectX (fst a) (snd a) (fst b) (snd b) l step.
Definition sgnZ (d : Z) : Z := if (d >? 0)%Z then 1%Z else (-1)%Z.

Lemma scanPoint_row st a b L : spInv st a ->
  let ka := kLineOfY (snd a) in let kb := kLineOfY (snd b) in let step := sgnZ (kb - ka) in
  let ev := fst (scanPoint st b) in let st' := snd (scanPoint st b) in
  spInv st' b /\
  ( (ka = 2 * L /\ kb = 2 * L /\ rowOf L ev = [] /\ sp_s st' = qmin (sp_s st) (fst b) /\ sp_e st' = qmax (sp_e st) (fst b) /\ sp_step st' = sp_step st)%Z \/
    (ka = 2 * L /\ kb <> 2 * L /\ rowOf L ev = [qSeg (qmin (sp_s st) (ixab a b L step)) (step + sp_step st) (qmax (sp_e st) (ixab a b L step))])%Z \/
    (ka <> 2 * L /\ kb = 2 * L /\ rowOf L ev = [] /\ sp_s st' = qmin (ixab a b (L - step) step) (fst b) /\ sp_e st' = qmax (ixab a b (L - step) step) (fst b) /\ sp_step st' = step)%Z \/
    (((ka < 2 * L /\ 2 * L < kb) \/ (kb < 2 * L /\ 2 * L < ka)) /\
       rowOf L ev = [qSeg (qmin (ixab a b (L - step) step) (ixab a b L step)) (step + step) (qmax (ixab a b (L - step) step) (ixab a b L step))])%Z \/
    (((ka < 2 * L /\ kb < 2 * L) \/ (2 * L < ka /\ 2 * L < kb)) /\ rowOf L ev = [])%Z ).
Proof.
  intros [Ix Iy Ik Ie] ka kb step ev st'. unfold ev, st', scanPoint. destruct b as [bx by_]. fold kb. cbn [fst snd] in *. change (kLineOfY by_) with kb. rewrite Ik. fold ka. rewrite Ik in Ie. fold ka in Ie.
  destruct (Z.eqb_spec kb ka) as [Ekk|Ekk].
  - cbn [fst snd]. split.
    + split; cbn [sp_px sp_py sp_k sp_line sp_s sp_e fst snd]; auto. intros He. destruct (Ie He) as [E1 [E2 E3]]. split; [exact E1|].
      pose proof (qmin_le (sp_s st) bx). pose proof (qmax_le (sp_e st) bx). lra.
    + destruct (Z.eq_dec ka (2 * L)) as [E|E]; [left; repeat split; auto; lia|]. do 4 right. split; [lia | reflexivity].
  - assert (Hs : step = 1%Z \/ step = (-1)%Z) by (unfold step, sgnZ; destruct (kb - ka >? 0)%Z; auto).
    assert (Es : (if (kb >? ka)%Z then 1 else -1)%Z = step).
    { unfold step, sgnZ. rewrite !Z.gtb_ltb. destruct (Z.ltb_spec ka kb), (Z.ltb_spec 0 (kb - ka)); try lia; reflexivity. }
    rewrite Es. set (pl := (if Z.odd ka then Z.quot (ka - step) 2 else sp_line st)).
    assert (Hpl : (2 * pl = if Z.even ka then ka else ka - step)%Z).
    { unfold pl. rewrite <- Z.negb_even. destruct (Z.even ka) eqn:Ek; cbn [negb].
      - destruct (Ie eq_refl) as [E _]. rewrite E. apply Z.even_spec in Ek. destruct Ek as [m Em]. rewrite Em, (Z.mul_comm 2 m), Z.div_mul; lia.
      - assert (Ho : Z.odd ka = true) by (rewrite <- Z.negb_even, Ek; reflexivity). apply Z.odd_spec in Ho. destruct Ho as [m Em].
        destruct Hs as [-> | ->]; [replace (ka - 1)%Z with (m * 2)%Z by lia | replace (ka - -1)%Z with ((m + 1) * 2)%Z by lia]; rewrite Z.quot_mul; lia. }
    set (n := Z.abs_nat (kb - ka)). assert (Hn : (0 < n)%nat) by lia.
    assert (Hkn : (ka + Z.of_nat n * step = kb)%Z) by (unfold n, step, sgnZ; rewrite Z.gtb_ltb; destruct (Z.ltb_spec 0 (kb - ka)); lia).
    rewrite Ix, Iy. set (r := crossLoop n (fst a) (snd a) bx by_ step (sp_s st) (sp_e st) (sp_step st) pl ka).
    assert (Hrow := crossLoop_row (fst a) (snd a) bx by_ step L Hs n (sp_s st) (sp_e st) (sp_step st) pl ka Hpl). fold r in Hrow.
    destruct (crossLoop_state (fst a) (snd a) bx by_ step (kb / 2) Hs n (sp_s st) (sp_e st) (sp_step st) pl ka Hpl) as (s' & e' & p' & Er & C). fold r in Er.
    destruct C as [(C & _)|(_ & Ep & C)]; [lia|]. subst p'. rewrite Er. cbn [fst snd]. rewrite Hkn in *. split.
    + split; cbn [sp_px sp_py sp_k sp_line sp_s sp_e fst snd]; auto. intros He. split.
      * destruct (K_cases by_) as [(M & E1 & E2 & _)|(M & E1 & E2 & _)]; fold kb in E1.
        { rewrite E1, E2, Z.mul_comm, Z.div_mul; lia. }
        { rewrite E1, Z.even_sub, Z.even_mul in He. discriminate. }
      * pose proof (qmin_le s' bx). pose proof (qmax_le e' bx). lra.
    + cbn [sp_s sp_e sp_step]. cbv zeta in Hrow.
      assert (Hd : forall P Q0 : list seg, (if ((0 <=? (2 * L - ka) * step) && ((2 * L - ka) * step <? Z.of_nat n))%Z then P else Q0) =
                   (if (((ka <=? 2 * L) && (2 * L <? kb)) || ((kb <? 2 * L) && (2 * L <=? ka)))%Z then P else Q0)).
      { intros P Q0. unfold n, step, sgnZ. rewrite Z.gtb_ltb.
        destruct (Z.ltb_spec 0 (kb - ka)), (Z.leb_spec ka (2 * L)), (Z.ltb_spec (2 * L) kb), (Z.ltb_spec kb (2 * L)), (Z.leb_spec (2 * L) ka); cbn [andb orb]; try lia;
        match goal with |- (if ((0 <=? ?d)%Z && (?d <? ?m)%Z)%bool then _ else _) = _ => destruct (Z.leb_spec 0 d), (Z.ltb_spec d m); cbn [andb]; try lia; reflexivity end. }
      rewrite Hd in Hrow. clear Hd.
      assert (Hz : ((2 * L - ka) * step =? 0)%Z = (ka =? 2 * L)%Z).
      { destruct Hs as [-> | ->]; destruct (Z.eqb_spec ka (2 * L)) as [E|E]; [rewrite E; replace ((2 * L - 2 * L) * 1)%Z with 0%Z by ring; reflexivity | apply Z.eqb_neq; lia | rewrite E; replace ((2 * L - 2 * L) * -1)%Z with 0%Z by ring; reflexivity | apply Z.eqb_neq; lia]. }
      rewrite Hz in Hrow. unfold ixab. cbn [fst snd].
      destruct (Z.eq_dec kb (2 * L)) as [Eb|Eb].
      * right. right. left. split; [lia|]. split; [exact Eb|]. rewrite Hrow. destruct (Z.leb_spec ka (2 * L)), (Z.ltb_spec (2 * L) kb), (Z.ltb_spec kb (2 * L)); try lia; cbn [andb orb]; (split; [reflexivity|]).
        all: assert (E2 : (kb / 2 = L)%Z) by (rewrite Eb, Z.mul_comm, Z.div_mul; lia); rewrite E2 in C; destruct (C Eb) as [-> ->]; auto.
      * destruct (Z.eqb_spec ka (2 * L)) as [Ea|Ea].
        { right. left. split; [exact Ea|]. split; [exact Eb|]. rewrite Hrow. destruct (Z.leb_spec ka (2 * L)), (Z.ltb_spec (2 * L) kb), (Z.ltb_spec kb (2 * L)), (Z.leb_spec (2 * L) ka); try lia; reflexivity. }
        { destruct (Z.leb_spec ka (2 * L)), (Z.ltb_spec (2 * L) kb), (Z.ltb_spec kb (2 * L)), (Z.leb_spec (2 * L) ka); try lia; cbn [andb orb] in Hrow;
            first [right; right; right; left; split; [lia | exact Hrow] | do 4 right; split; [lia | exact Hrow]]. }
Qed.

(** ** geometry of one edge *)
Definition meets (s e : Q) (x : Z) : Prop := s < inject_Z x + (1#2) /\ inject_Z x - (1#2) < e.

Lemma covers_qSeg s d e x : covers (qSeg s d e) x <-> meets s e x.
Proof.
  unfold covers, qSeg, meets. cbn [sbeg send].
  assert (A : (Qfloor (s + (1#2)) <= x)%Z <-> s < inject_Z x + (1#2)).
  { destruct (proj1 (floor_spec (s + (1#2)) _) eq_refl) as [F1 F2]. split; intros H.
    - rewrite <- injZ_le in H. lra.
    - assert (K : inject_Z (Qfloor (s + (1#2))) < inject_Z (x + 1)) by (rewrite inject_Z_plus; change (inject_Z 1) with 1; lra). rewrite injZ_lt in K. lia. }
  assert (B : (x < Qceiling (e + (1#2)))%Z <-> inject_Z x - (1#2) < e).
  { pose proof (Qle_ceiling (e + (1#2))) as C1. pose proof (Qceiling_lt (e + (1#2))) as C2. split; intros H.
    - assert (K : inject_Z x <= inject_Z (Qceiling (e + (1#2)) - 1)) by (rewrite injZ_le; lia). lra.
    - rewrite <- injZ_lt. lra. }
  rewrite A, B. reflexivity.
Qed.

Lemma meets_minmax a b c d x : meets (qmin a b) (qmax c d) x <-> (a < inject_Z x + (1#2) \/ b < inject_Z x + (1#2)) /\ (inject_Z x - (1#2) < c \/ inject_Z x - (1#2) < d).
Proof. unfold meets. rewrite qmin_lt, qmax_lt. reflexivity. Qed.

Lemma linear_mid_pos A B t0 t1 lo hi : 0 < B -> t0 < t1 -> lo < hi -> A + B * t0 < hi -> lo < A + B * t1 -> exists u, t0 < u < t1 /\ lo < A + B * u < hi.
Proof.
  intros HB Ht Hl H0 H1. set (m := qmax (A + B * t0) lo). set (M := qmin (A + B * t1) hi).
  assert (HmM : m < M). { unfold m, qmax, M, qmin. destruct (qle_cases (A + B * t0) lo) as [[-> E]|[-> E]], (qle_cases (A + B * t1) hi) as [[-> E']|[-> E']]; try lra. nra. }
  pose proof (qmax_le (A + B * t0) lo) as [P1 P2]. pose proof (qmin_le (A + B * t1) hi) as [P3 P4]. fold m in P1, P2. fold M in P3, P4.
  set (v := (m + M) * (1#2)). set (u := (v - A) / B). assert (Eu : B * u == v - A) by (unfold u; field; lra).
  assert (Hv : m < v < M) by (unfold v; lra). exists u. split; [|lra].
  split; apply (Qmult_lt_l _ _ B HB); lra.
Qed.

Lemma linear_mid A B t0 t1 lo hi : t0 < t1 -> lo < hi -> (A + B * t0 < hi \/ A + B * t1 < hi) -> (lo < A + B * t0 \/ lo < A + B * t1) -> exists u, t0 < u < t1 /\ lo < A + B * u < hi.
Proof.
  intros Ht Hl H0 H1. destruct (Q_dec B 0) as [[HB|HB]|HB].
  - destruct (linear_mid_pos A (- B) (- t1) (- t0) lo hi) as (u & Hu1 & Hu2); try lra.
    + destruct H0; nra.
    + destruct H1; nra.
    + exists (- u). split; [lra|]. assert (E : A + B * - u == A + - B * u) by ring. lra.
  - apply linear_mid_pos; auto; [destruct H0; nra | destruct H1; nra].
  - exists ((t0 + t1) * (1#2)). split; [lra|]. assert (E : forall t, A + B * t == A) by (intros t; rewrite HB; ring). pose proof (E t0). pose proof (E t1). pose proof (E ((t0 + t1) * (1#2))).
    destruct H0, H1; lra.
Qed.

Definition touches (x L : Z) (a b : Q * Q) : Prop := exists u, 0 <= u <= 1 /\ inPixel x L (between a b u).

Lemma clip_touch x L a b t0 t1 f0 f1 : 0 <= t0 -> t0 < t1 -> t1 <= 1 ->
  (forall u, 0 <= u <= 1 -> inject_Z L - (1#2) < snd a + (snd b - snd a) * u < inject_Z L + (1#2) -> t0 <= u <= t1) ->
  (forall u, t0 < u < t1 -> inject_Z L - (1#2) < snd a + (snd b - snd a) * u < inject_Z L + (1#2)) ->
  f0 == fst a + (fst b - fst a) * t0 -> f1 == fst a + (fst b - fst a) * t1 ->
  touches x L a b <-> meets (qmin f0 f1) (qmax f0 f1) x.
Proof.
  intros H0 H01 H1 Hin Hrow E0 E1. rewrite meets_minmax. set (B := fst b - fst a) in *. split.
  - intros (u & Hu & [Px Py]). unfold between in *. cbn [fst snd] in *. fold B in Px. specialize (Hin u Hu Py).
    destruct (Qlt_le_dec B 0).
    + split; [right | left]; nra.
    + split; [left | right]; nra.
  - intros [C1 C2]. destruct (linear_mid (fst a) B t0 t1 (inject_Z x - (1#2)) (inject_Z x + (1#2))) as (u & Hu & Hv); try lra.
    exists u. split; [lra|]. split; unfold between; cbn [fst snd]; [exact Hv | apply Hrow, Hu].
Qed.

Definition tAt (a b : Q * Q) (l step : Z) : Q := ((inject_Z l + (1#2) * inject_Z step) - snd a) / (snd b - snd a).
Lemma ixab_t a b l step : ixab a b l step == fst a + (fst b - fst a) * tAt a b l step.
Proof. unfold ixab, intersectX, tAt, Qdiv. ring. Qed.
Lemma tAt_eq a b l step : ~ snd b - snd a == 0 -> (snd b - snd a) * tAt a b l step == (inject_Z l + (1#2) * inject_Z step) - snd a.
Proof. intros H. unfold tAt. field. exact H. Qed.

Lemma injZ_sub a b : inject_Z (a - b) == inject_Z a - inject_Z b.
Proof. unfold Z.sub. rewrite inject_Z_plus, inject_Z_opp. reflexivity. Qed.

Lemma sgn_pos d : (0 < d)%Z -> sgnZ d = 1%Z.
Proof. intros H. unfold sgnZ. rewrite Z.gtb_ltb. destruct (Z.ltb_spec 0 d); [reflexivity | lia]. Qed.
Lemma sgn_neg d : (d < 0)%Z -> sgnZ d = (-1)%Z.
Proof. intros H. unfold sgnZ. rewrite Z.gtb_ltb. destruct (Z.ltb_spec 0 d); [lia | reflexivity]. Qed.

Section Geo.
Variables (x L : Z) (a b : Q * Q).
Let ka := kLineOfY (snd a).
Let kb := kLineOfY (snd b).
Let step := sgnZ (kb - ka).
Let D := snd b - snd a.
Let lo := inject_Z L - (1#2).
Let hi := inject_Z L + (1#2).

Lemma touch_inin : ka = (2 * L)%Z -> kb = (2 * L)%Z -> touches x L a b <-> meets (qmin (fst a) (fst b)) (qmax (fst a) (fst b)) x.
Proof.
  intros Ea Eb. apply K_eq in Ea, Eb. apply (clip_touch x L a b 0 1); try lra; intros u Hu.
  - intros _. lra.
  - split; nra.
Qed.

Lemma touch_inout : ka = (2 * L)%Z -> kb <> (2 * L)%Z ->
  touches x L a b <-> meets (qmin (fst a) (ixab a b L step)) (qmax (fst a) (ixab a b L step)) x.
Proof.
  intros Ea Eb. pose proof Ea as Ea'. apply K_eq in Ea'. assert (C : (kb < 2 * L \/ 2 * L < kb)%Z) by lia. destruct C as [C|C].
  - assert (Es : step = (-1)%Z) by (apply sgn_neg; lia). rewrite Es. apply K_lt in C.
    assert (HD : D < 0) by (unfold D; lra). pose proof (tAt_eq a b L (-1) ltac:(unfold D in HD; lra)) as T. fold D in T. change (inject_Z (-1)) with (-(1)) in T.
    set (t := tAt a b L (-1)) in *. assert (Ht : 0 < t <= 1) by (unfold D in *; split; nra).
    apply (clip_touch x L a b 0 t); try lra; try apply ixab_t; fold D; intros u Hu; [intros Hr; split; nra | split; nra].
  - assert (Es : step = 1%Z) by (apply sgn_pos; lia). rewrite Es. apply K_gt in C.
    assert (HD : 0 < D) by (unfold D; lra). pose proof (tAt_eq a b L 1 ltac:(unfold D in HD; lra)) as T. fold D in T. change (inject_Z 1) with 1 in T.
    set (t := tAt a b L 1) in *. assert (Ht : 0 < t <= 1) by (unfold D in *; split; nra).
    apply (clip_touch x L a b 0 t); try lra; try apply ixab_t; fold D; intros u Hu; [intros Hr; split; nra | split; nra].
Qed.

Lemma touch_outin : ka <> (2 * L)%Z -> kb = (2 * L)%Z ->
  touches x L a b <-> meets (qmin (ixab a b (L - step) step) (fst b)) (qmax (ixab a b (L - step) step) (fst b)) x.
Proof.
  intros Ea Eb. pose proof Eb as Eb'. apply K_eq in Eb'. assert (C : (ka < 2 * L \/ 2 * L < ka)%Z) by lia. destruct C as [C|C].
  - assert (Es : step = 1%Z) by (apply sgn_pos; lia). rewrite Es. apply K_lt in C.
    assert (HD : 0 < D) by (unfold D; lra). pose proof (tAt_eq a b (L - 1) 1 ltac:(unfold D in HD; lra)) as T. fold D in T. rewrite injZ_sub in T. change (inject_Z 1) with 1 in T.
    set (t := tAt a b (L - 1) 1) in *. assert (Ht : 0 <= t < 1) by (unfold D in *; split; nra).
    apply (clip_touch x L a b t 1); try lra; try apply ixab_t; fold D; intros u Hu; [intros Hr; split; nra | unfold D in *; split; nra].
  - assert (Es : step = (-1)%Z) by (apply sgn_neg; lia). rewrite Es. apply K_gt in C.
    assert (HD : D < 0) by (unfold D; lra). pose proof (tAt_eq a b (L - -1) (-1) ltac:(unfold D in HD; lra)) as T. fold D in T. rewrite injZ_sub in T. change (inject_Z (-1)) with (-(1)) in T.
    set (t := tAt a b (L - -1) (-1)) in *. assert (Ht : 0 <= t < 1) by (unfold D in *; split; nra).
    apply (clip_touch x L a b t 1); try lra; try apply ixab_t; fold D; intros u Hu; [intros Hr; split; nra | unfold D in *; split; nra].
Qed.

Lemma touch_through : ((ka < 2 * L /\ 2 * L < kb) \/ (kb < 2 * L /\ 2 * L < ka))%Z ->
  touches x L a b <-> meets (qmin (ixab a b (L - step) step) (ixab a b L step)) (qmax (ixab a b (L - step) step) (ixab a b L step)) x.
Proof.
  intros [[C1 C2]|[C1 C2]].
  - assert (Es : step = 1%Z) by (apply sgn_pos; lia). rewrite Es. apply K_lt in C1. apply K_gt in C2.
    assert (HD : 0 < D) by (unfold D; lra). pose proof (tAt_eq a b (L - 1) 1 ltac:(unfold D in HD; lra)) as T. fold D in T. rewrite injZ_sub in T.
    pose proof (tAt_eq a b L 1 ltac:(unfold D in HD; lra)) as T'. fold D in T'. change (inject_Z 1) with 1 in T, T'.
    set (t := tAt a b (L - 1) 1) in *. set (t' := tAt a b L 1) in *. assert (Ht : 0 <= t /\ t < t' /\ t' <= 1) by (unfold D in *; split; [nra | split; nra]).
    apply (clip_touch x L a b t t'); try lra; try apply ixab_t; fold D; intros u Hu; [intros Hr; split; nra | unfold D in *; split; nra].
  - assert (Es : step = (-1)%Z) by (apply sgn_neg; lia). rewrite Es. apply K_lt in C1. apply K_gt in C2.
    assert (HD : D < 0) by (unfold D; lra). pose proof (tAt_eq a b (L - -1) (-1) ltac:(unfold D in HD; lra)) as T. fold D in T. rewrite injZ_sub in T.
    pose proof (tAt_eq a b L (-1) ltac:(unfold D in HD; lra)) as T'. fold D in T'. change (inject_Z (-1)) with (-(1)) in T, T'.
    set (t := tAt a b (L - -1) (-1)) in *. set (t' := tAt a b L (-1)) in *. assert (Ht : 0 <= t /\ t < t' /\ t' <= 1) by (unfold D in *; split; [nra | split; nra]).
    apply (clip_touch x L a b t t'); try lra; try apply ixab_t; fold D; intros u Hu; [intros Hr; split; nra | unfold D in *; split; nra].
Qed.

Lemma touch_none : ((ka < 2 * L /\ kb < 2 * L) \/ (2 * L < ka /\ 2 * L < kb))%Z -> ~ touches x L a b.
Proof.
  intros [[C1 C2]|[C1 C2]] (u & Hu & [_ Py]); unfold between in Py; cbn [fst snd] in Py.
  - apply K_lt in C1, C2. nra.
  - apply K_gt in C1, C2. nra.
Qed.
End Geo.

(** ** the whole chain *)
Fixpoint edgesTouch (x L : Z) (pts : list (Q * Q)) : Prop :=
  match pts with
  | a :: ((b :: _) as t) => touches x L a b \/ edgesTouch x L t
  | _ => False
  end.

Lemma scanRest_cons L st b t : rowOf L (scanRest st (b :: t)) = rowOf L (fst (scanPoint st b)) ++ rowOf L (scanRest (snd (scanPoint st b)) t).
Proof. cbn [scanRest]. apply rowOf_app. Qed.

Lemma covered_one s d e x : covered [qSeg s d e] x <-> meets s e x.
Proof. rewrite covered_cons, covers_qSeg. split; [intros [H|H]; [exact H | destruct (covered_nil _ H)] | auto]. Qed.

Lemma even_half k L : (k = 2 * L)%Z -> Z.odd k = false /\ (k / 2 = L)%Z.
Proof. intros ->. split; [rewrite Z.odd_mul; reflexivity | rewrite Z.mul_comm, Z.div_mul; lia]. Qed.

Lemma inv_even st a L : spInv st a -> kLineOfY (snd a) = (2 * L)%Z -> sp_s st <= fst a <= sp_e st.
Proof. intros [_ _ Ik Ie] E. rewrite Ik, E in Ie. apply Ie. rewrite Z.even_mul. reflexivity. Qed.

Lemma rest_nil L st a : spInv st a -> rowOf L (scanRest st []) = if (kLineOfY (snd a) =? 2 * L)%Z then [qSeg (sp_s st) (sp_step st) (sp_e st)] else [].
Proof.
  intros [_ _ Ik _]. cbn [scanRest]. rewrite Ik. destruct (Z.eqb_spec (kLineOfY (snd a)) (2 * L)) as [E|E].
  - destruct (even_half _ _ E) as [-> E2]. rewrite rowOf_cons, E2, Z.eqb_refl. reflexivity.
  - destruct (Z.odd (kLineOfY (snd a))) eqn:Eo; [reflexivity|]. rewrite rowOf_cons.
    assert (Ho : Z.even (kLineOfY (snd a)) = true) by (rewrite <- Z.negb_odd, Eo; reflexivity). apply Z.even_spec in Ho. destruct Ho as [m Em].
    destruct (even_half _ m Em) as [_ E2]. rewrite E2. destruct (Z.eqb_spec m L); [lia | reflexivity].
Qed.

Lemma meets_extend s e p q x : s <= p <= e -> meets (qmin s q) (qmax e q) x <-> meets s e x \/ meets (qmin p q) (qmax p q) x.
Proof.
  intros H. rewrite !meets_minmax. unfold meets. set (h := inject_Z x + (1#2)). set (l := inject_Z x - (1#2)). assert (l < h) by (unfold l, h; lra). clearbody h l.
  destruct (Qlt_le_dec s h), (Qlt_le_dec l e), (Qlt_le_dec p h), (Qlt_le_dec l p), (Qlt_le_dec q h), (Qlt_le_dec l q); split; intros K; try lra; intuition lra.
Qed.

Theorem scanRest_covered x L : forall pts st a, spInv st a ->
  covered (rowOf L (scanRest st pts)) x <-> (kLineOfY (snd a) = (2 * L)%Z /\ meets (sp_s st) (sp_e st) x) \/ edgesTouch x L (a :: pts).
Proof.
  induction pts as [|b t IH]; intros st a Hi.
  - rewrite (rest_nil L st a Hi). cbn [edgesTouch]. destruct (Z.eqb_spec (kLineOfY (snd a)) (2 * L)) as [E|E].
    + rewrite covered_one. tauto.
    + split; [intros C; destruct (covered_nil _ C) | intros [[C _]|[]]; contradiction].
  - rewrite scanRest_cons, covered_app. destruct (scanPoint_row st a b L Hi) as [Hi' C]. rewrite (IH _ b Hi'). change (edgesTouch x L (a :: b :: t)) with (touches x L a b \/ edgesTouch x L (b :: t)).
    pose proof (fun E => inv_even st a L Hi E) as Hse. cbv zeta in C.
    destruct C as [(Ea & Eb & Er & Es & Ee & Ep)|[(Ea & Eb & Er)|[(Ea & Eb & Er & Es & Ee & Ep)|[(Ec & Er)|(Ec & Er)]]]]; rewrite Er.
    + rewrite Es, Ee, (touch_inin x L a b Ea Eb), (meets_extend _ _ (fst a) _ _ (Hse Ea)). pose proof (covered_nil x). tauto.
    + rewrite covered_one, (touch_inout x L a b Ea Eb), (meets_extend _ _ (fst a) _ _ (Hse Ea)). tauto.
    + rewrite Es, Ee, (touch_outin x L a b Ea Eb). pose proof (covered_nil x). tauto.
    + rewrite covered_one, (touch_through x L a b Ec). assert (kLineOfY (snd a) <> (2 * L)%Z /\ kLineOfY (snd b) <> (2 * L)%Z) by lia. tauto.
    + pose proof (touch_none x L a b Ec). assert (kLineOfY (snd a) <> (2 * L)%Z /\ kLineOfY (snd b) <> (2 * L)%Z) by lia. pose proof (covered_nil x). tauto.
Qed.

Lemma inPixel_eq x y p q : fst p == fst q -> snd p == snd q -> inPixel x y p -> inPixel x y q.
Proof. unfold inPixel. intros E1 E2 H. lra. Qed.

Lemma chain_edges x L : forall pts a, chainMeets (inPixel x L) (a :: pts) <-> inPixel x L a \/ edgesTouch x L (a :: pts).
Proof.
  induction pts as [|b t IH]; intros a; [cbn [chainMeets edgesTouch]; tauto|].
  change (chainMeets (inPixel x L) (a :: b :: t)) with (touches x L a b \/ chainMeets (inPixel x L) (b :: t)).
  change (edgesTouch x L (a :: b :: t)) with (touches x L a b \/ edgesTouch x L (b :: t)). rewrite IH.
  assert (A : inPixel x L a -> touches x L a b). { intros H. exists 0. split; [lra|]. revert H. apply inPixel_eq; unfold between; cbn [fst snd]; ring. }
  assert (B : inPixel x L b -> touches x L a b). { intros H. exists 1. split; [lra|]. revert H. apply inPixel_eq; unfold between; cbn [fst snd]; ring. }
  tauto.
Qed.

Lemma scanCalls_covered x L pts : covered (rowOf L (scanCalls pts)) x <-> chainMeets (inPixel x L) pts.
Proof.
  destruct pts as [|a t]; [split; [intros C; destruct (covered_nil _ C) | intros []]|].
  cbn [scanCalls]. rewrite (scanRest_covered x L t _ a (spInv_init a)), chain_edges. cbn [scanInit sp_s sp_e]. rewrite K_eq. unfold inPixel, meets. intuition lra.
Qed.

(** proper segments *)
Lemma qSeg_proper s d e : s <= e -> (sbeg (qSeg s d e) <= send (qSeg s d e))%Z.
Proof.
  intros H. cbn [qSeg sbeg send]. pose proof (Qfloor_le (s + (1#2))). pose proof (Qle_ceiling (e + (1#2))). rewrite <- injZ_le. lra.
Qed.
Lemma proper_one s d e : s <= e -> proper [qSeg s d e].
Proof. intros H g [<-|[]]. apply qSeg_proper, H. Qed.
Lemma minmax_le a b : qmin a b <= qmax a b.
Proof. pose proof (qmin_le a b). pose proof (qmax_le a b). lra. Qed.
Lemma scanRest_proper L : forall pts st a, spInv st a -> proper (rowOf L (scanRest st pts)).
Proof.
  induction pts as [|b t IH]; intros st a Hi.
  - rewrite (rest_nil L st a Hi). destruct (Z.eqb_spec (kLineOfY (snd a)) (2 * L)) as [E|E]; [|intros g []]. apply proper_one. pose proof (inv_even st a L Hi E). lra.
  - rewrite scanRest_cons. destruct (scanPoint_row st a b L Hi) as [Hi' C]. apply proper_app. split; [|apply (IH _ b Hi')].
    destruct C as [(Ea & Eb & Er & Es & Ee & Ep)|[(Ea & Eb & Er)|[(Ea & Eb & Er & Es & Ee & Ep)|[(Ec & Er)|(Ec & Er)]]]]; rewrite Er; try (intros g Hg; exact (False_ind _ Hg)); apply proper_one.
    + pose proof (inv_even st a L Hi Ea). set (i := ixab a b L (sgnZ (kLineOfY (snd b) - kLineOfY (snd a)))). pose proof (qmin_le (sp_s st) i). pose proof (qmax_le (sp_e st) i). lra.
    + apply minmax_le.
Qed.
Lemma scanCalls_proper L pts : proper (rowOf L (scanCalls pts)).
Proof. destruct pts as [|a t]; [intros g []|]. apply (scanRest_proper L t _ a (spInv_init a)). Qed.

(** total direction *)
Definition hL (L k : Z) : Z := Z.sgn (k - 2 * L).
Theorem scanRest_total L : forall pts st a, spInv st a ->
  totalDir (rowOf L (scanRest st pts)) = (hL L (kLineOfY (snd (last pts a))) - hL L (kLineOfY (snd a)) + (if kLineOfY (snd a) =? 2 * L then sp_step st else 0))%Z.
Proof.
  induction pts as [|b t IH]; intros st a Hi.
  - rewrite (rest_nil L st a Hi). cbn [last]. destruct (Z.eqb_spec (kLineOfY (snd a)) (2 * L)) as [E|E]; unfold totalDir; cbn [map sumZ sdir qSeg]; lia.
  - rewrite scanRest_cons, totalDir_app. destruct (scanPoint_row st a b L Hi) as [Hi' C]. rewrite (IH _ b Hi').
    replace (last (b :: t) a) with (last t b).
    2:{ clear. revert b. induction t as [|c t IH]; intros b; [reflexivity|]. change (last (b :: c :: t) a) with (last (c :: t) a). rewrite <- IH. destruct t; [reflexivity|]. cbn [last]. clear. revert p. induction t as [|d t IH]; intros p; [reflexivity | apply IH]. }
    cbv zeta in C. unfold hL. set (ka := kLineOfY (snd a)) in *. set (kb := kLineOfY (snd b)) in *. set (kl := kLineOfY (snd (last t b))).
    destruct C as [(Ea & Eb & Er & Es & Ee & Ep)|[(Ea & Eb & Er)|[(Ea & Eb & Er & Es & Ee & Ep)|[(Ec & Er)|(Ec & Er)]]]]; rewrite Er; unfold totalDir; cbn [map sumZ sdir qSeg];
      unfold sgnZ in *; rewrite ?Z.gtb_ltb in *; destruct (Z.eqb_spec kb (2 * L)), (Z.eqb_spec ka (2 * L)), (Z.ltb_spec 0 (kb - ka)); lia.
Qed.

(** ** winding numbers *)
Definition leftB (x : Z) (X : Q) : bool := negb (Qle_bool (inject_Z x) X).
Definition gB (L : Z) (y : Q) : Z := (if negb (Qle_bool y (inject_Z L)) then 1 else 0)%Z.
Lemma leftB_spec x X : (leftB x X = true /\ X < inject_Z x) \/ (leftB x X = false /\ inject_Z x <= X).
Proof. unfold leftB. destruct (qle_cases (inject_Z x) X) as [[-> E]|[-> E]]; [right | left]; auto. Qed.
Lemma gB_spec L y : (gB L y = 1%Z /\ inject_Z L < y) \/ (gB L y = 0%Z /\ y <= inject_Z L).
Proof. unfold gB. destruct (qle_cases y (inject_Z L)) as [[-> E]|[-> E]]; [right | left]; auto. Qed.

Lemma windLeft_one s d e x X : s <= X <= e -> ~ meets s e x -> windLeft [qSeg s d e] x = if leftB x X then d else 0%Z.
Proof.
  intros H Hm. rewrite windLeft_cons. unfold windLeft. cbn [filter map sumZ sdir qSeg].
  assert (B : (x < send (qSeg s d e))%Z <-> inject_Z x - (1#2) < e).
  { cbn [qSeg send]. pose proof (Qle_ceiling (e + (1#2))) as C1. pose proof (Qceiling_lt (e + (1#2))) as C2. split; intros K.
    - assert (K' : inject_Z x <= inject_Z (Qceiling (e + (1#2)) - 1)) by (rewrite injZ_le; lia). lra.
    - rewrite <- injZ_lt. lra. }
  unfold meets in Hm. destruct (Z.leb_spec (send (qSeg s d e)) x) as [L|L], (leftB_spec x X) as [[-> E]|[-> E]]; try lia; exfalso.
  - assert (C : ~ inject_Z x - (1#2) < e) by (rewrite <- B; lia). apply Qnot_lt_le in C. lra.
  - rewrite B in L. apply Hm. lra.
Qed.

Definition btw (f0 f1 c : Q) : Prop := qmin f0 f1 <= c <= qmax f0 f1.
Lemma lin_btw A B t0 t1 u f0 f1 c : t0 <= u <= t1 -> f0 == A + B * t0 -> f1 == A + B * t1 -> c == A + B * u -> btw f0 f1 c.
Proof.
  intros H E0 E1 E2. unfold btw. pose proof (qmin_le f0 f1). pose proof (qmax_le f0 f1). destruct (Qlt_le_dec B 0).
  - split; nra.
  - split; nra.
Qed.
Definition crossX (L : Z) (a b : Q * Q) : Q := fst a + (fst b - fst a) * (inject_Z L - snd a) / (snd b - snd a).
Lemma crossing_eq x L a b : crossing x L a b = (if leftB x (crossX L a b) then gB L (snd b) - gB L (snd a) else 0)%Z.
Proof. reflexivity. Qed.

Section Cross.
Variables (L : Z) (a b : Q * Q).
Let ka := kLineOfY (snd a).
Let kb := kLineOfY (snd b).
Let step := sgnZ (kb - ka).
Let D := snd b - snd a.
Let tc := (inject_Z L - snd a) / D.
Lemma crossX_t : crossX L a b == fst a + (fst b - fst a) * tc.
Proof. unfold crossX, tc, Qdiv. fold D. ring. Qed.
Lemma tc_eq : ~ D == 0 -> D * tc == inject_Z L - snd a.
Proof. intros H. unfold tc. field. exact H. Qed.

Hypothesis Hg : gB L (snd a) <> gB L (snd b).
Lemma D_cases : (0 < D /\ snd a <= inject_Z L < snd b) \/ (D < 0 /\ snd b <= inject_Z L < snd a).
Proof.
  unfold D. destruct (gB_spec L (snd a)) as [[E H]|[E H]], (gB_spec L (snd b)) as [[E' H']|[E' H']]; try congruence; [right | left]; split; lra.
Qed.

Lemma cross_inin : btw (fst a) (fst b) (crossX L a b).
Proof.
  destruct D_cases as [[HD H]|[HD H]]; pose proof (tc_eq ltac:(lra)) as T; apply (lin_btw (fst a) (fst b - fst a) 0 1 tc); try ring; try apply crossX_t; unfold D in *; split; nra.
Qed.
Lemma cross_inout : ka = (2 * L)%Z -> kb <> (2 * L)%Z -> btw (fst a) (ixab a b L step) (crossX L a b).
Proof.
  intros Ea Eb. pose proof Ea as Ea'. apply K_eq in Ea'.
  apply (lin_btw (fst a) (fst b - fst a) 0 (tAt a b L step) tc); try apply crossX_t; try apply ixab_t; try ring.
  destruct D_cases as [[HD H]|[HD H]]; pose proof (tc_eq ltac:(lra)) as T; pose proof (tAt_eq a b L step ltac:(unfold D in HD; lra)) as T'; fold D in T'.
  - assert (Es : step = 1%Z). { apply sgn_pos. assert (~ kb < 2 * L)%Z by (unfold kb; rewrite K_lt; lra). lia. } rewrite Es in *. change (inject_Z 1) with 1 in T'. split; nra.
  - assert (Es : step = (-1)%Z). { apply sgn_neg. assert (~ 2 * L < kb)%Z by (unfold kb; rewrite K_gt; lra). lia. } rewrite Es in *. change (inject_Z (-1)) with (-(1)) in T'. split; nra.
Qed.
Lemma cross_outin : ka <> (2 * L)%Z -> kb = (2 * L)%Z -> btw (ixab a b (L - step) step) (fst b) (crossX L a b).
Proof.
  intros Ea Eb. pose proof Eb as Eb'. apply K_eq in Eb'.
  apply (lin_btw (fst a) (fst b - fst a) (tAt a b (L - step) step) 1 tc); try apply crossX_t; try apply ixab_t; try ring.
  destruct D_cases as [[HD H]|[HD H]]; pose proof (tc_eq ltac:(lra)) as T; pose proof (tAt_eq a b (L - step) step ltac:(unfold D in HD; lra)) as T'; fold D in T'; rewrite injZ_sub in T'.
  - assert (Es : step = 1%Z). { apply sgn_pos. assert (~ 2 * L < ka)%Z by (unfold ka; rewrite K_gt; lra). lia. } rewrite Es in *. change (inject_Z 1) with 1 in T'. unfold D in *. split; nra.
  - assert (Es : step = (-1)%Z). { apply sgn_neg. assert (~ ka < 2 * L)%Z by (unfold ka; rewrite K_lt; lra). lia. } rewrite Es in *. change (inject_Z (-1)) with (-(1)) in T'. unfold D in *. split; nra.
Qed.
Lemma cross_through : ((ka < 2 * L /\ 2 * L < kb) \/ (kb < 2 * L /\ 2 * L < ka))%Z -> btw (ixab a b (L - step) step) (ixab a b L step) (crossX L a b).
Proof.
  intros C. apply (lin_btw (fst a) (fst b - fst a) (tAt a b (L - step) step) (tAt a b L step) tc); try apply crossX_t; try apply ixab_t.
  destruct D_cases as [[HD H]|[HD H]]; pose proof (tc_eq ltac:(lra)) as T; pose proof (tAt_eq a b (L - step) step ltac:(unfold D in HD; lra)) as T';
    pose proof (tAt_eq a b L step ltac:(unfold D in HD; lra)) as T''; fold D in T', T''; rewrite injZ_sub in T'.
  - assert (Es : step = 1%Z). { apply sgn_pos. destruct C as [[C1 C2]|[C1 C2]]; [lia|]. exfalso. apply K_lt in C1. apply K_gt in C2. lra. } rewrite Es in *. change (inject_Z 1) with 1 in T', T''. split; nra.
  - assert (Es : step = (-1)%Z). { apply sgn_neg. destruct C as [[C1 C2]|[C1 C2]]; [|lia]. exfalso. apply K_lt in C1. apply K_gt in C2. lra. } rewrite Es in *. change (inject_Z (-1)) with (-(1)) in T', T''. split; nra.
Qed.
End Cross.

Lemma gB_low L y : (kLineOfY y < 2 * L)%Z -> gB L y = 0%Z.
Proof. intros H. apply K_lt in H. destruct (gB_spec L y) as [[_ E]|[E _]]; [lra | exact E]. Qed.
Lemma gB_high L y : (2 * L < kLineOfY y)%Z -> gB L y = 1%Z.
Proof. intros H. apply K_gt in H. destruct (gB_spec L y) as [[E _]|[_ E]]; [exact E | lra]. Qed.

Definition Tfun (x L : Z) (a : Q * Q) (pstep : Z) : Z :=
  (if (kLineOfY (snd a) =? 2 * L) && leftB x (fst a) then pstep + (2 * gB L (snd a) - 1) else 0)%Z.

Lemma same_side s e x X Y : ~ meets s e x -> s <= X <= e -> s <= Y <= e -> leftB x X = leftB x Y.
Proof.
  intros Hm HX HY. unfold meets in Hm. destruct (leftB_spec x X) as [[-> E]|[-> E]], (leftB_spec x Y) as [[-> E']|[-> E']]; try reflexivity; exfalso; apply Hm; lra.
Qed.

Lemma uncovered_app l1 l2 x : ~ covered (l1 ++ l2) x -> ~ covered l1 x /\ ~ covered l2 x.
Proof. rewrite covered_app. tauto. Qed.

Theorem scanRest_wind x L : forall pts st a, spInv st a -> ~ covered (rowOf L (scanRest st pts)) x ->
  windLeft (rowOf L (scanRest st pts)) x = (2 * winding x L (a :: pts) + Tfun x L a (sp_step st) - Tfun x L (last pts a) 0)%Z.
Proof.
  induction pts as [|b t IH]; intros st a Hi Hu.
  - revert Hu. rewrite (rest_nil L st a Hi). cbn [last winding]. unfold Tfun. destruct (Z.eqb_spec (kLineOfY (snd a)) (2 * L)) as [E|E]; cbn [andb]; intros Hu.
    + rewrite covered_one in Hu. rewrite (windLeft_one _ _ _ _ (fst a) (inv_even st a L Hi E) Hu). destruct (leftB x (fst a)); lia.
    + reflexivity.
  - rewrite scanRest_cons in Hu |- *. rewrite windLeft_app. apply uncovered_app in Hu. destruct Hu as [Hu1 Hu2].
    destruct (scanPoint_row st a b L Hi) as [Hi' C]. rewrite (IH _ b Hi' Hu2).
    assert (Hm : kLineOfY (snd b) = (2 * L)%Z -> ~ meets (sp_s (snd (scanPoint st b))) (sp_e (snd (scanPoint st b))) x).
    { intros E M. apply Hu2, (scanRest_covered x L t _ b Hi'). left. auto. }
    replace (last (b :: t) a) with (last t b).
    2:{ clear. revert b. induction t as [|c t IH]; intros b; [reflexivity|]. change (last (b :: c :: t) a) with (last (c :: t) a). rewrite <- IH. destruct t; [reflexivity|]. cbn [last]. clear. revert p. induction t as [|d t IH]; intros p; [reflexivity | apply IH]. }
    change (winding x L (a :: b :: t)) with (crossing x L a b + winding x L (b :: t))%Z.
    set (W := winding x L (b :: t)). set (Tl := Tfun x L (last t b) 0).
    rewrite crossing_eq. unfold Tfun. cbv zeta in C.
    destruct C as [(Ea & Eb & Er & Es & Ee & Ep)|[(Ea & Eb & Er)|[(Ea & Eb & Er & Es & Ee & Ep)|[(Ec & Er)|(Ec & Er)]]]]; rewrite Er in *.
    + (* inside the row *)
      rewrite Ea, Eb, Z.eqb_refl. cbn [andb]. rewrite Ep. specialize (Hm Eb). rewrite Es, Ee in Hm. pose proof (inv_even st a L Hi Ea) as Hse.
      pose proof (qmin_le (sp_s st) (fst b)). pose proof (qmax_le (sp_e st) (fst b)).
      rewrite (same_side _ _ x (fst a) (fst b) Hm) by lra.
      destruct (Z.eq_dec (gB L (snd a)) (gB L (snd b))) as [Eg|Eg].
      * rewrite Eg. unfold windLeft. cbn [filter map sumZ]. destruct (leftB x (crossX L a b)), (leftB x (fst b)); lia.
      * pose proof (cross_inin L a b Eg) as B. unfold btw in B.
        assert (Hc : qmin (sp_s st) (fst b) <= crossX L a b <= qmax (sp_e st) (fst b)).
        { revert B. unfold qmin, qmax. destruct (qle_cases (fst a) (fst b)) as [[-> ?]|[-> ?]], (qle_cases (sp_s st) (fst b)) as [[-> ?]|[-> ?]], (qle_cases (sp_e st) (fst b)) as [[-> ?]|[-> ?]]; intros B; lra. }
        rewrite (same_side _ _ x (crossX L a b) (fst b) Hm Hc) by lra. unfold windLeft. cbn [filter map sumZ]. destruct (leftB x (fst b)); lia.
    + (* leaving the row *)
      rewrite Ea, Z.eqb_refl. destruct (Z.eqb_spec (kLineOfY (snd b)) (2 * L)) as [E|_]; [contradiction|]. cbn [andb].
      rewrite covered_one in Hu1. rewrite Ea in Hu1. pose proof (inv_even st a L Hi Ea) as Hse. set (step := sgnZ (kLineOfY (snd b) - 2 * L)) in *.
      assert (Est : step = sgnZ (kLineOfY (snd b) - kLineOfY (snd a))) by (rewrite Ea; reflexivity).
      assert (Hi2 : forall i, qmin (sp_s st) i <= fst a <= qmax (sp_e st) i) by (intros i; pose proof (qmin_le (sp_s st) i); pose proof (qmax_le (sp_e st) i); lra).
      rewrite (windLeft_one _ _ _ _ (fst a) (Hi2 _) Hu1).
      assert (Hgb : (2 * gB L (snd b) - 1 = step)%Z).
      { assert (C : (kLineOfY (snd b) < 2 * L \/ 2 * L < kLineOfY (snd b))%Z) by lia. unfold step. destruct C as [C|C]; [rewrite (gB_low _ _ C), sgn_neg by lia | rewrite (gB_high _ _ C), sgn_pos by lia]; reflexivity. }
      destruct (Z.eq_dec (gB L (snd a)) (gB L (snd b))) as [Eg|Eg].
      * rewrite Eg. rewrite Z.sub_diag. destruct (leftB x (crossX L a b)), (leftB x (fst a)); lia.
      * pose proof (cross_inout L a b Eg Ea Eb) as B. unfold btw in B. rewrite Ea in B. fold step in B. set (i := ixab a b L step) in *.
        assert (Hc : qmin (sp_s st) i <= crossX L a b <= qmax (sp_e st) i).
        { revert B. unfold qmin, qmax. destruct (qle_cases (fst a) i) as [[-> ?]|[-> ?]], (qle_cases (sp_s st) i) as [[-> ?]|[-> ?]], (qle_cases (sp_e st) i) as [[-> ?]|[-> ?]]; intros B; lra. }
        rewrite (same_side _ _ x (crossX L a b) (fst a) Hu1 Hc (Hi2 i)). destruct (leftB x (fst a)); lia.
    + (* entering the row *)
      rewrite Eb, Z.eqb_refl. destruct (Z.eqb_spec (kLineOfY (snd a)) (2 * L)) as [E|_]; [contradiction|]. cbn [andb].
      specialize (Hm Eb). rewrite Es, Ee in Hm. rewrite Ep. set (step := sgnZ (kLineOfY (snd b) - kLineOfY (snd a))) in *.
      set (i := ixab a b (L - step) step) in *.
      assert (Hga : (1 - 2 * gB L (snd a) = step)%Z).
      { assert (C : (kLineOfY (snd a) < 2 * L \/ 2 * L < kLineOfY (snd a))%Z) by lia. unfold step. destruct C as [C|C]; [rewrite (gB_low _ _ C), sgn_pos by lia | rewrite (gB_high _ _ C), sgn_neg by lia]; reflexivity. }
      assert (Hb : qmin i (fst b) <= fst b <= qmax i (fst b)) by (pose proof (qmin_le i (fst b)); pose proof (qmax_le i (fst b)); lra).
      destruct (Z.eq_dec (gB L (snd a)) (gB L (snd b))) as [Eg|Eg].
      * rewrite <- Eg, Z.sub_diag. unfold windLeft. cbn [filter map sumZ]. destruct (leftB x (crossX L a b)), (leftB x (fst b)); lia.
      * pose proof (cross_outin L a b Eg Ea Eb) as B. fold step in B. fold i in B.
        rewrite (same_side _ _ x (crossX L a b) (fst b) Hm B Hb). unfold windLeft. cbn [filter map sumZ]. destruct (leftB x (fst b)); lia.
    + (* crossing the row *)
      destruct (Z.eqb_spec (kLineOfY (snd a)) (2 * L)) as [E|_]; [lia|]. destruct (Z.eqb_spec (kLineOfY (snd b)) (2 * L)) as [E|_]; [lia|]. cbn [andb].
      rewrite covered_one in Hu1. set (step := sgnZ (kLineOfY (snd b) - kLineOfY (snd a))) in *.
      assert (Hgb : (gB L (snd b) - gB L (snd a) = step)%Z).
      { unfold step. destruct Ec as [[C1 C2]|[C1 C2]]; [rewrite (gB_low _ _ C1), (gB_high _ _ C2), sgn_pos by lia | rewrite (gB_low _ _ C1), (gB_high _ _ C2), sgn_neg by lia]; reflexivity. }
      assert (Eg : gB L (snd a) <> gB L (snd b)). { intros Eg. rewrite Eg, Z.sub_diag in Hgb. revert Hgb. unfold step, sgnZ. destruct (_ >? _)%Z; lia. }
      pose proof (cross_through L a b Eg Ec) as B. fold step in B. rewrite (windLeft_one _ _ _ _ _ B Hu1), Hgb. destruct (leftB x (crossX L a b)); lia.
    + (* on one side *)
      destruct (Z.eqb_spec (kLineOfY (snd a)) (2 * L)) as [E|_]; [lia|]. destruct (Z.eqb_spec (kLineOfY (snd b)) (2 * L)) as [E|_]; [lia|]. cbn [andb].
      assert (Eg : gB L (snd a) = gB L (snd b)) by (destruct Ec as [[C1 C2]|[C1 C2]]; [rewrite !gB_low by assumption | rewrite !gB_high by assumption]; reflexivity).
      rewrite Eg, Z.sub_diag. unfold windLeft. cbn [filter map sumZ]. destruct (leftB x (crossX L a b)); lia.
Qed.

(** ** the scanlines built from the calls *)
Lemma fold_append calls : forall s L, lineOf (fold_left (fun r c => append r (fst c) (snd c)) calls s) L =
  lineOf s L ++ (if ((sl_start s <=? L) && (L <? endIndex s))%Z then rowOf L calls else []).
Proof.
  induction calls as [|[l g] t IH]; intros s L; cbn [fold_left fst snd].
  - unfold rowOf. cbn [filter map]. destruct ((sl_start s <=? L) && (L <? endIndex s))%Z; rewrite app_nil_r; reflexivity.
  - rewrite IH, append_spec, <- app_assoc. f_equal.
    assert (Es : sl_start (append s l g) = sl_start s) by (unfold append; destruct (_ && _)%bool; reflexivity).
    assert (Ee : endIndex (append s l g) = endIndex s) by (unfold append, endIndex; destruct (_ && _)%bool; [cbn [sl_start sl_lines]; rewrite list_upd_length|]; reflexivity).
    rewrite Es, Ee, rowOf_cons. destruct (Z.eqb_spec L l) as [->|Hn].
    + rewrite Z.eqb_refl. cbn [andb]. destruct ((sl_start s <=? l) && (l <? endIndex s))%Z; reflexivity.
    + cbn [andb]. destruct (Z.eqb_spec l L); [congruence|]. reflexivity.
Qed.

Lemma new_line a n L : lineOf (newScanlines a n) L = [].
Proof. unfold lineOf, newScanlines. cbn [sl_start sl_lines]. destruct (L <? a)%Z; [reflexivity | apply nth_repeat_nil]. Qed.
Lemma new_end a n : endIndex (newScanlines a n) = (a + Z.of_nat n)%Z.
Proof. unfold endIndex, newScanlines. cbn [sl_start sl_lines]. rewrite repeat_length. reflexivity. Qed.

Definition rawScan (pts : list (Q * Q)) (n : nat) (a : Z) : scanlines :=
  fold_left (fun r c => append r (fst c) (snd c)) (scanCalls pts) (newScanlines a n).
Lemma rawScan_line pts n a L : lineOf (rawScan pts n a) L = if ((a <=? L) && (L <? a + Z.of_nat n))%Z then rowOf L (scanCalls pts) else [].
Proof. unfold rawScan. rewrite fold_append, new_line, new_end. reflexivity. Qed.
Lemma fold_append_domain calls : forall s, sl_start (fold_left (fun r c => append r (fst c) (snd c)) calls s) = sl_start s /\ endIndex (fold_left (fun r c => append r (fst c) (snd c)) calls s) = endIndex s.
Proof.
  induction calls as [|[l g] t IH]; intros s; [auto|]. cbn [fold_left fst snd]. destruct (IH (append s l g)) as [-> ->].
  split; unfold append, endIndex; destruct (_ && _)%bool; try reflexivity. cbn [sl_start sl_lines]. rewrite list_upd_length. reflexivity.
Qed.
Lemma rawScan_domain pts n a : sl_start (rawScan pts n a) = a /\ endIndex (rawScan pts n a) = (a + Z.of_nat n)%Z.
Proof. unfold rawScan. destruct (fold_append_domain (scanCalls pts) (newScanlines a n)) as [-> ->]. rewrite new_end. auto. Qed.
Lemma rawScan_proper pts n a : properLines (rawScan pts n a).
Proof. intros L. rewrite rawScan_line. destruct (_ && _)%bool; [apply scanCalls_proper | intros g []]. Qed.

Lemma scanPoly_normalize srt pts n a : sorter srt -> scanPoly srt pts n a = normalize srt (rawScan pts n a).
Proof.
  intros Hs. destruct pts as [|p t]; [|reflexivity]. unfold scanPoly, rawScan. cbn [scanCalls fold_left]. unfold normalize, newScanlines. cbn [sl_start sl_lines]. f_equal.
  assert (E0 : normalizeLine srt [] = []). { unfold normalizeLine. destruct (Hs []) as [P _]. apply Permutation_nil in P. rewrite P. reflexivity. }
  clear - E0. induction n as [|n IH]; [reflexivity|]. cbn [repeat map]. rewrite E0, <- IH. reflexivity.
Qed.

Section Final.
Variable srt : list seg -> list seg.
Hypothesis Hsrt : sorter srt.

Theorem scanPoly_domain pts n a : sl_start (scanPoly srt pts n a) = a /\ endIndex (scanPoly srt pts n a) = (a + Z.of_nat n)%Z.
Proof. rewrite scanPoly_normalize by exact Hsrt. destruct (normalize_domain srt (rawScan pts n a)) as [-> ->]. apply rawScan_domain. Qed.

(** a pixel is covered exactly if the polygon passes through it *)
Theorem scanPoly_covered pts n a L x : (a <= L < a + Z.of_nat n)%Z ->
  covered (lineOf (scanPoly srt pts n a) L) x <-> chainMeets (inPixel x L) pts.
Proof.
  intros H. rewrite scanPoly_normalize, normalize_line by exact Hsrt.
  destruct (normalizeLine_spec srt (lineOf (rawScan pts n a) L) Hsrt (rawScan_proper pts n a L)) as (_ & _ & K & _). rewrite K, rawScan_line.
  destruct (Z.leb_spec a L), (Z.ltb_spec L (a + Z.of_nat n)); try lia. cbn [andb]. apply scanCalls_covered.
Qed.

Theorem scanPoly_spaced pts n a L : spaced (lineOf (scanPoly srt pts n a) L) /\ proper (lineOf (scanPoly srt pts n a) L).
Proof.
  rewrite scanPoly_normalize, normalize_line by exact Hsrt.
  destruct (normalizeLine_spec srt (lineOf (rawScan pts n a) L) Hsrt (rawScan_proper pts n a L)) as (K1 & K2 & _). auto.
Qed.

Lemma rawScan_total pts n a L : closedChain pts -> totalDir (lineOf (rawScan pts n a) L) = 0%Z.
Proof.
  intros (p & t & -> & El). rewrite rawScan_line. destruct (_ && _)%bool; [|reflexivity]. cbn [scanCalls]. rewrite (scanRest_total L t _ p (spInv_init p)), El. cbn [scanInit sp_step].
  destruct (_ =? _)%Z; lia.
Qed.
Theorem scanPoly_total pts n a L : closedChain pts -> totalDir (lineOf (scanPoly srt pts n a) L) = 0%Z.
Proof.
  intros H. rewrite scanPoly_normalize, normalize_line by exact Hsrt.
  destruct (normalizeLine_spec srt (lineOf (rawScan pts n a) L) Hsrt (rawScan_proper pts n a L)) as (_ & _ & _ & _ & K). rewrite K. apply rawScan_total, H.
Qed.

Lemma rawScan_wind pts n a L x : closedChain pts -> (a <= L < a + Z.of_nat n)%Z -> ~ covered (lineOf (rawScan pts n a) L) x ->
  windLeft (lineOf (rawScan pts n a) L) x = (2 * winding x L pts)%Z.
Proof.
  intros (p & t & -> & El) H. rewrite rawScan_line. destruct (Z.leb_spec a L), (Z.ltb_spec L (a + Z.of_nat n)); try lia. cbn [andb scanCalls]. intros Hu.
  rewrite (scanRest_wind x L t _ p (spInv_init p) Hu), El. cbn [scanInit sp_step]. lia.
Qed.
Theorem scanPoly_wind pts n a L x : closedChain pts -> (a <= L < a + Z.of_nat n)%Z -> ~ chainMeets (inPixel x L) pts ->
  windLeft (lineOf (scanPoly srt pts n a) L) x = (2 * winding x L pts)%Z.
Proof.
  intros Hc H Hu. rewrite <- (scanPoly_covered pts n a L x H) in Hu. revert Hu. rewrite scanPoly_normalize, normalize_line by exact Hsrt.
  destruct (normalizeLine_spec srt (lineOf (rawScan pts n a) L) Hsrt (rawScan_proper pts n a L)) as (_ & _ & K3 & K4 & _). rewrite K3. intros Hu. rewrite (K4 x Hu). apply rawScan_wind; assumption.
Qed.

(** scanning a closed polygon and filling it *)
Theorem fill_polygon pts n a w h : closedChain pts -> (0 <= w)%Z ->
  exists px, fillScannedPoly (scanPoly srt pts n a) w h = Ok (px, Z.of_nat (length px)) /\ NoDup px /\
    (forall x y, In (x, y) px <-> (0 <= x < w /\ 0 <= y < h /\ a <= y < a + Z.of_nat n)%Z /\ ~ chainMeets (inPixel x y) pts /\ (winding x y pts > 0)%Z).
Proof.
  intros Hc Hw. rewrite scanPoly_normalize by exact Hsrt. destruct (fill_spec srt (rawScan pts n a) w h Hsrt (rawScan_proper pts n a) Hw) as [F _].
  destruct F as (px & E & Hnd & Hin); [intros y _; apply rawScan_total, Hc|]. exists px. split; [exact E|]. split; [exact Hnd|]. intros x y. rewrite Hin.
  destruct (Z_le_dec a y) as [A|A]; [destruct (Z_lt_dec y (a + Z.of_nat n)) as [B|B]|].
  - assert (H : (a <= y < a + Z.of_nat n)%Z) by lia.
    assert (Ecov : covered (lineOf (rawScan pts n a) y) x <-> chainMeets (inPixel x y) pts).
    { rewrite rawScan_line. destruct (Z.leb_spec a y), (Z.ltb_spec y (a + Z.of_nat n)); try lia. cbn [andb]. apply scanCalls_covered. }
    split.
    + intros (H1 & H2 & H3 & H4). rewrite (rawScan_wind pts n a y x Hc H H3) in H4. rewrite Ecov in H3. split; [lia|]. split; [exact H3 | lia].
    + intros (H1 & H2 & H3). rewrite <- Ecov in H2. rewrite (rawScan_wind pts n a y x Hc H H2). split; [lia|]. split; [lia|]. split; [exact H2 | lia].
  - rewrite (lineOf_out (rawScan pts n a) y); [|right; rewrite (proj2 (rawScan_domain pts n a)); lia]. split; [intros (_ & _ & _ & K); cbn in K; lia | lia].
  - rewrite (lineOf_out (rawScan pts n a) y); [|left; rewrite (proj1 (rawScan_domain pts n a)); lia]. split; [intros (_ & _ & _ & K); cbn in K; lia | lia].
Qed.

(** drawing it *)
Theorem draw_polygon pts n a w h : exists px, drawScannedPoly (scanPoly srt pts n a) w h = Ok (px, Z.of_nat (length px)) /\ NoDup px /\
    (forall x y, In (x, y) px <-> (0 <= x < w /\ 0 <= y < h /\ a <= y < a + Z.of_nat n)%Z /\ chainMeets (inPixel x y) pts).
Proof.
  rewrite scanPoly_normalize by exact Hsrt. destruct (draw_spec srt (rawScan pts n a) w h Hsrt (rawScan_proper pts n a)) as (px & E & Hnd & Hin).
  exists px. split; [exact E|]. split; [exact Hnd|]. intros x y. rewrite Hin, rawScan_line.
  destruct (Z.leb_spec a y), (Z.ltb_spec y (a + Z.of_nat n)); cbn [andb]; rewrite ?scanCalls_covered;
    try (split; [intros (_ & _ & C); destruct (covered_nil _ C) | lia]). split; intros; intuition lia.
Qed.

(** with the row range of the bounding box nothing is cut off *)
Theorem bbox_rows pts ylo yhi x L : (forall p, In p pts -> (ylo <= snd p <= yhi)%Q) -> chainMeets (inPixel x L) pts ->
  let s := scanPolyBBox srt pts ylo yhi in (sl_start s <= L < endIndex s)%Z /\ covered (lineOf s L) x.
Proof.
  intros Hb Hm s. assert (R : (Qfloor (ylo + (1#2)) <= L <= Qfloor (yhi + (1#2)))%Z).
  { assert (Q : exists q, inPixel x L q /\ ylo <= snd q <= yhi).
    { clear s. induction pts as [|a t IH]; [destruct Hm|]. destruct t as [|b t]; [exists a; split; [exact Hm | apply Hb; left; reflexivity]|].
      destruct Hm as [(u & Hu & Hp)|Hm]; [|apply IH; [intros p Hp; apply Hb; right; exact Hp | exact Hm]].
      exists (between a b u). split; [exact Hp|]. pose proof (Hb a (or_introl eq_refl)). pose proof (Hb b (or_intror (or_introl eq_refl))). cbn [between snd]. split; nra. }
    destruct Q as (q & [_ Hq] & Hr). destruct (proj1 (floor_spec (ylo + (1#2)) _) eq_refl) as [F1 F2]. destruct (proj1 (floor_spec (yhi + (1#2)) _) eq_refl) as [F3 F4].
    split.
    - assert (K : inject_Z (Qfloor (ylo + (1#2))) < inject_Z (L + 1)) by (rewrite inject_Z_plus; change (inject_Z 1) with 1; lra). rewrite injZ_lt in K. lia.
    - assert (K : inject_Z L < inject_Z (Qfloor (yhi + (1#2)) + 1)) by (rewrite inject_Z_plus; change (inject_Z 1) with 1; lra). rewrite injZ_lt in K. lia. }
  unfold s, scanPolyBBox. set (n := Z.to_nat (Qfloor (yhi + (1#2)) - Qfloor (ylo + (1#2)) + 1)). assert (Hn : Z.of_nat n = (Qfloor (yhi + (1#2)) - Qfloor (ylo + (1#2)) + 1)%Z) by lia.
  destruct (scanPoly_domain pts n (Qfloor (ylo + (1#2)))) as [-> ->]. split; [lia|]. apply scanPoly_covered; [lia | exact Hm].
Qed.
End Final.
