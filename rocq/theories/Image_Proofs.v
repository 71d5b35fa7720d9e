(** Loop and pixel lemmas for [Image_Model]. *)
From Coq Require Import ZArith List Bool Lia.
From Verif Require Import Base Image_Model.
Local Open Scope Z_scope.

Lemma forN_inv : forall (S : Type) (I : Z -> S -> Prop) body n a s,
  I a s ->
  (forall i s, a <= i < a + Z.of_nat n -> I i s -> exists s', body i s = Ok s' /\ I (i + 1) s') ->
  exists s', forN n a body s = Ok s' /\ I (a + Z.of_nat n) s'.
Proof.
  intros S I body n; induction n as [|n IH]; intros a s H0 Hs.
  - exists s; split; [reflexivity|]. replace (a + Z.of_nat 0) with a by lia; exact H0.
  - destruct (Hs a s ltac:(lia) H0) as (s1 & E1 & H1).
    destruct (IH (a + 1) s1 H1) as (s2 & E2 & H2).
    { intros i s' Hi; apply Hs; lia. }
    exists s2; split.
    + cbn [forN]; rewrite E1; exact E2.
    + replace (a + Z.of_nat (Datatypes.S n)) with (a + 1 + Z.of_nat n) by lia; exact H2.
Qed.

Lemma forZ_inv : forall (S : Type) (I : Z -> S -> Prop) body a b s,
  a <= b -> I a s ->
  (forall i s, a <= i < b -> I i s -> exists s', body i s = Ok s' /\ I (i + 1) s') ->
  exists s', forZ a b body s = Ok s' /\ I b s'.
Proof.
  intros S I body a b s Hab H0 Hs; unfold forZ.
  destruct (forN_inv S I body (Z.to_nat (b - a)) a s H0) as (s' & E & H).
  { intros i s' Hi; apply Hs; lia. }
  exists s'; split; [exact E|]. replace b with (a + Z.of_nat (Z.to_nat (b - a))) by lia; exact H.
Qed.

Lemma inImg_true : forall im x y, inImg im x y = true <-> 0 <= x < iw im /\ 0 <= y < ih im.
Proof. intros; unfold inImg; rewrite !andb_true_iff, !Z.leb_le, !Z.ltb_lt; lia. Qed.

Lemma getPx_Ok : forall im x y, 0 <= x < iw im -> 0 <= y < ih im -> getPx im x y = Ok (ipx im x y).
Proof. intros; unfold getPx. rewrite (proj2 (inImg_true im x y)); auto. Qed.

Lemma putPx_Ok : forall im x y v, 0 <= x < iw im -> 0 <= y < ih im -> putPx im x y v = Ok (setPx im x y v).
Proof. intros; unfold putPx. rewrite (proj2 (inImg_true im x y)); auto. Qed.

Lemma ipx_setPx : forall im x y v a b, ipx (setPx im x y v) a b = if (a =? x) && (b =? y) then v else ipx im a b.
Proof. reflexivity. Qed.

(** two nested loops whose body changes pixel (x,y) only, by a function of its old value *)
Lemma forRows_pointwise : forall (body : Z -> Z -> image -> res image) (f : Z -> Z -> Z -> Z) x0 x1 y0 y1 im,
  x0 <= x1 -> y0 <= y1 ->
  (forall x y im', x0 <= x < x1 -> y0 <= y < y1 -> iw im' = iw im -> ih im' = ih im ->
     ipx im' x y = ipx im x y ->
     exists im2, body x y im' = Ok im2 /\ iw im2 = iw im /\ ih im2 = ih im /\
       forall a b, ipx im2 a b = if (a =? x) && (b =? y) then f x y (ipx im x y) else ipx im' a b) ->
  exists im2, forZ y0 y1 (fun y im => forZ x0 x1 (fun x im => body x y im) im) im = Ok im2 /\
    iw im2 = iw im /\ ih im2 = ih im /\
    forall a b, ipx im2 a b =
      if (x0 <=? a) && (a <? x1) && (y0 <=? b) && (b <? y1) then f a b (ipx im a b) else ipx im a b.
Proof.
  intros body f x0 x1 y0 y1 im Hx Hy Hb.
  set (rowDone := fun y (s : image) => iw s = iw im /\ ih s = ih im /\
    forall a b, ipx s a b = if (x0 <=? a) && (a <? x1) && (y0 <=? b) && (b <? y) then f a b (ipx im a b) else ipx im a b).
  destruct (forZ_inv image rowDone (fun y im => forZ x0 x1 (fun x im => body x y im) im) y0 y1 im Hy)
    as (s & E & H); [| |exists s; split; [exact E|exact H]].
  - split; [reflexivity|split; [reflexivity|]]. intros a b.
    destruct ((x0 <=? a) && (a <? x1) && (y0 <=? b) && (b <? y0)) eqn:C; [|reflexivity].
    rewrite !andb_true_iff in C; destruct C as [[[? ?] C1] C2]. rewrite Z.leb_le in C1; rewrite Z.ltb_lt in C2; lia.
  - intros y s Hyr (W & Hh & P).
    set (pxDone := fun x (t : image) => iw t = iw im /\ ih t = ih im /\
      forall a b, ipx t a b = if (x0 <=? a) && (a <? x) && (b =? y) then f a b (ipx im a b) else ipx s a b).
    destruct (forZ_inv image pxDone (fun x im => body x y im) x0 x1 s Hx) as (t & Et & Ht).
    + split; [exact W|split; [exact Hh|]]. intros a b.
      destruct ((x0 <=? a) && (a <? x0) && (b =? y)) eqn:C; [|reflexivity].
      rewrite !andb_true_iff in C; destruct C as [[C1 C2] C3]. rewrite Z.leb_le in C1; rewrite Z.ltb_lt in C2; lia.
    + intros x t Hxr (W2 & H2 & P2).
      destruct (Hb x y t Hxr Hyr W2 H2) as (u & Eu & W3 & H3 & P3).
      { rewrite P2, P. destruct (Z.ltb_spec x x); [lia|]. rewrite andb_false_r; cbn [andb].
        destruct (Z.ltb_spec y y); [lia|]. rewrite andb_false_r; reflexivity. }
      exists u; split; [exact Eu|]. split; [exact W3|split; [exact H3|]]. intros a b. rewrite P3, P2.
      destruct (Z.eqb_spec a x), (Z.eqb_spec b y), (Z.leb_spec x0 a), (Z.ltb_spec a (x + 1)), (Z.ltb_spec a x);
        cbn [andb]; subst; try reflexivity; lia.
    + exists t; split; [exact Et|]. destruct Ht as (W2 & H2 & P2).
      split; [exact W2|split; [exact H2|]]. intros a b. rewrite P2, P.
      destruct (Z.eqb_spec b y), (Z.leb_spec x0 a), (Z.ltb_spec a x1), (Z.leb_spec y0 b), (Z.ltb_spec b (y + 1)), (Z.ltb_spec b y);
        cbn [andb]; subst; try reflexivity; lia.
Qed.
