(** C80 to C83: what the statistics keep true. *)
From Coq Require Import Lia.
From Verif Require Import Base CellMap_Model CellMap_Spec CellMap_Scan CellMap_Proofs CellMap_Main CellSigma_Spec CellSigma_Proofs CellSigma_Results CellLink_Spec CellLink_Proofs CellLink_Check CellFace_Spec CellFace_Walk CellFace_Step CellFace_Results CellMap_Init CellEuler_Clear CellStats_Model CellStats_Spec CellStats_Step CellStats_Main CellStats_Chain.
Local Open Scope Z_scope.

(** ** How the pixels of edges go on *)
(** the pixels of one edge of the first map stay together, and none comes to a node *)
Definition whole (m0 m : cmap) : Prop :=
  iw (cim m) = iw (cim m0) /\ ih (cim m) = ih (cim m0) /\
  (forall a x y x' y', owns (cim m0) Line a x y -> owns (cim m0) Line a x' y' -> ipix (cim m) x y = ipix (cim m) x' y') /\
  (forall a x y, owns (cim m0) Line a x y -> ptype (ipix (cim m) x y) <> Vertex).
Lemma pair_dec (a b : ctype * Z) : {a = b} + {a <> b}. Proof. decide equality; [apply Z.eq_dec|apply ctype_dec]. Qed.
Lemma taken_at m m' t k gone x y : takenOver m m' t k gone -> 0 <= x < iw (cim m) -> 0 <= y < ih (cim m) ->
  ipix (cim m') x y = if in_dec pair_dec (ptype (ipix (cim m) x y), plabel (ipix (cim m) x y)) gone then Pix t k else ipix (cim m) x y.
Proof. intros (_ & _ & P & _) X Y. destruct (P x y X Y) as (P1 & P2). destruct (in_dec _ _ _); auto. Qed.
Lemma whole_step m0 m m' t k gone : whole m0 m -> takenOver m m' t k gone -> t <> Vertex -> whole m0 m'.
Proof.
  intros (W & H & A & B) Ta N. pose proof Ta as (W' & H' & _). split; [lia|]. split; [lia|]. split.
  - intros a x y x' y' P Q. pose proof (A a x y x' y' P Q) as E. destruct P as (X & Y & _). destruct Q as (X' & Y' & _). rewrite (taken_at m m' t k gone x y Ta) by lia. rewrite (taken_at m m' t k gone x' y' Ta) by lia. rewrite E. reflexivity.
  - intros a x y P. pose proof (B a x y P) as E. destruct P as (X & Y & _). rewrite (taken_at m m' t k gone x y Ta) by lia. destruct (in_dec _ _ _); auto.
Qed.
(** an edge of the first map is part of one edge at most *)
Lemma part_one m0 m a e f : whole m0 m -> partOf m0 m a e -> partOf m0 m a f -> e = f.
Proof. intros (_ & _ & A & _) (x & y & P & (_ & _ & Q)) (x' & y' & P' & (_ & _ & Q')). rewrite (A a x y x' y' P P') in Q. congruence. Qed.
Lemma part_same m0 m m' t k gone a e : takenOver m m' t k gone -> ~ In (Line, e) gone -> (Line, e) <> (t, k) -> partOf m0 m' a e <-> partOf m0 m a e.
Proof. intros Ta N M. unfold partOf. split; intros (x & y & P & Q); exists x, y; (split; [exact P|]); apply (taken_owns m m' t k gone Line e x y Ta N) in Q || apply (taken_owns m m' t k gone Line e x y Ta N); tauto. Qed.
Lemma part_joined m0 m m' k n e a : whole m0 m -> takenOver m m' Line k [(Vertex, n); (Line, e)] -> k <> e -> partOf m0 m' a k <-> partOf m0 m a k \/ partOf m0 m a e.
Proof.
  intros (_ & _ & _ & V) Ta N. assert (G : ~ In (Line, k) [(Vertex, n); (Line, e)]) by (intros [Q|[Q|[]]]; [discriminate Q|injection Q as Q; congruence]). unfold partOf. split.
  - intros (x & y & P & Q). apply (taken_owns m m' _ _ _ _ _ _ _ Ta G) in Q. destruct Q as [Q|(_ & v & j & I & Q)]; [left; eauto|]. destruct I as [I|[I|[]]]; injection I as <- <-; [exfalso|right; eauto].
    apply (V a x y P). destruct Q as (_ & _ & Q). rewrite Q. reflexivity.
  - intros [(x & y & P & Q)|(x & y & P & Q)]; exists x, y; (split; [exact P|]); apply (taken_owns m m' _ _ _ _ _ _ _ Ta G); [left; exact Q|right]. split; [reflexivity|]. exists Line, e. split; [right; left; reflexivity|exact Q].
Qed.

(** ** Edges along the infinite face stay there *)
Lemma outer_stays m m' t k gone e : takenOver m m' t k gone -> ~ In (Region, 0) gone -> ~ In (Line, e) gone -> outerEdge (cim m) e -> outerEdge (cim m') e.
Proof. intros Ta Z0 N (x & y & j & I & A & B). exists x, y, j. split; [exact I|]. split; [apply (taken_owns m m' _ _ _ _ _ _ _ Ta N); left; exact A|apply (taken_owns m m' _ _ _ _ _ _ _ Ta Z0); left; exact B]. Qed.
Lemma outer_joined m m' k n e : takenOver m m' Line k [(Vertex, n); (Line, e)] -> k <> e -> outerEdge (cim m) k \/ outerEdge (cim m) e -> outerEdge (cim m') k.
Proof.
  intros Ta N O. assert (G : ~ In (Line, k) [(Vertex, n); (Line, e)]) by (intros [Q|[Q|[]]]; [discriminate Q|injection Q as Q; congruence]).
  assert (Z0 : ~ In (Region, 0) [(Vertex, n); (Line, e)]) by (intros [Q|[Q|[]]]; discriminate Q).
  destruct O as [O|O]; [apply (outer_stays m m' _ _ _ k Ta Z0 G O)|]. destruct O as (x & y & j & I & A & B). exists x, y, j. split; [exact I|]. split.
  - apply (taken_owns m m' _ _ _ _ _ _ _ Ta G). right. split; [reflexivity|]. exists Line, e. split; [right; left; reflexivity|exact A].
  - apply (taken_owns m m' _ _ _ _ _ _ _ Ta Z0). left. exact B.
Qed.

(** ** The bounds of the changes *)
Lemma rectOr_l a b x y : inRect a x y -> inRect (rectOr a b) x y.
Proof. unfold inRect, rectOr. intros H. destruct (rectEmpty b); [exact H|]. destruct (rectEmpty a) eqn:E; [unfold rectEmpty in E; apply orb_true_iff in E; rewrite !Z.leb_le in E; lia|]. cbn. lia. Qed.
Lemma rectOr_r a b x y : inRect b x y -> inRect (rectOr a b) x y.
Proof. unfold inRect, rectOr. intros H. destruct (rectEmpty b) eqn:E; [unfold rectEmpty in E; apply orb_true_iff in E; rewrite !Z.leb_le in E; lia|]. destruct (rectEmpty a); [exact H|]. cbn. lia. Qed.
Definition noted (since m : cmap) (r : rect) : Prop := forall x y, 0 <= x < iw (cim m) -> 0 <= y < ih (cim m) -> ipix (cim m) x y <> ipix (cim since) x y -> inRect r x y.
Lemma pix_dec (p q : pix) : {p = q} + {p <> q}. Proof. decide equality; [apply Z.eq_dec|apply ctype_dec]. Qed.
Lemma noted_step since m m' t k gone r b : noted since m r -> takenOver m m' t k gone -> exactRect (owns (cim m') t k) b -> noted since m' (rectOr r b).
Proof.
  intros A Ta (Ex & _) x y X Y N. pose proof Ta as (W & H & _). rewrite W in X. rewrite H in Y. pose proof (taken_at m m' t k gone x y Ta X Y) as E. destruct (in_dec _ _ _).
  - apply rectOr_r, Ex. split; [lia|]. split; [lia|exact E].
  - apply rectOr_l, A; auto. congruence.
Qed.

Section Data.
Variables original gradient : vimg.
Variable maxValue : Z.

Definition facesKept (m0 : cmap) (lost : Z -> Z -> Prop) (m : cmap) (v : list stat) : Prop :=
  forall l c, isCell m Region l c -> exists a, nth_error v l = Some a /\
    ((l = O -> zeroOut (cim m0)) -> statOf original (fun x y => owns (cim m) Region (Z.of_nat l) x y /\ inBase (cim m) x y /\ ~ lost x y) a).
Definition edgesKept (m : cmap) (v : list avg) : Prop :=
  forall l c, isCell m Line l c -> exists a, nth_error v l = Some a /\
    (avgOf gradient (fun x y => owns (cim m) Line (Z.of_nat l) x y /\ inBase (cim m) x y) a \/ (a = Avg 1 maxValue /\ outerEdge (cim m) (Z.of_nat l))).
Definition mergedKept (m0 m : cmap) (mg : list Z) : Prop :=
  forall l c, isCell m Line l c -> exists ch, chain mg (Z.of_nat l) ch /\ NoDup ch /\ forall a, In a ch <-> partOf m0 m a (Z.of_nat l).
Definition flagsKept (m0 : cmap) (p : list Z) : Prop := forall a x y, owns (cim m0) Line a x y -> (Z.to_nat a < length p)%nat.
Definition kept (m0 since : cmap) (lost : Z -> Z -> Prop) (m : cmap) (s : cstats) : Prop :=
  faced m /\ whole m0 m /\ (forall x y, lost x y -> (0 <= x < iw (cim m) /\ 0 <= y < ih (cim m)) /\ ptype (ipix (cim m) x y) = Region) /\
  facesKept m0 lost m (faceStats s) /\ edgesKept m (edgeStats s) /\ mergedKept m0 m (mergedEdges s) /\ flagsKept m0 (flags s) /\ noted since m (lastChanges s).

(** ** Edges are not touched *)
Lemma edges_stay m0 m m' k gone v mg : takenOver m m' Region k gone -> sound m -> sound m' -> edgesKept m v -> mergedKept m0 m mg -> edgesKept m' v /\ mergedKept m0 m' mg.
Proof.
  intros Ta So So' Ek Mk. pose proof (zero_stays m m' _ _ _ Ta So So') as Z0. pose proof Ta as (W & H & _).
  assert (O : forall l c, isCell m' Line l c -> ~ In (Line, Z.of_nat l) gone /\ (exists c', isCell m Line l c') /\ forall x y, owns (cim m') Line (Z.of_nat l) x y <-> owns (cim m) Line (Z.of_nat l) x y).
  { intros l c C. destruct (taken_live m m' _ _ _ _ _ _ Ta C) as (N & L). split; [exact N|]. split; [exact L|]. intros x y. rewrite (taken_owns m m' _ _ _ _ _ x y Ta N). split; [intros [Q|(Q & _)]; [exact Q|discriminate Q]|auto]. }
  split.
  - intros l c C. destruct (O l c C) as (N & (c' & C') & Q). destruct (Ek l c' C') as (a & Na & A). exists a. split; [exact Na|]. destruct A as [A|(A & B)].
    + left. refine (avg_ext _ _ _ _ _ A). intros x y. rewrite Q. unfold inBase. rewrite W, H. tauto.
    + right. split; [exact A|]. apply (outer_stays m m' _ _ _ _ Ta Z0 N B).
  - intros l c C. destruct (O l c C) as (N & (c' & C') & Q). destruct (Mk l c' C') as (ch & A & B & D). exists ch. split; [exact A|]. split; [exact B|]. intros a. rewrite D. symmetry. apply (part_same m0 m m' _ _ _ a _ Ta N). discriminate.
Qed.

(** ** The faces *)
Definition lostNow (m m' : cmap) (lost : Z -> Z -> Prop) (x y : Z) : Prop := lost x y \/ (vertexAt (cim m) x y /\ ptype (ipix (cim m') x y) = Region).
Definition lostOk (m : cmap) (lost : Z -> Z -> Prop) : Prop := forall x y, lost x y -> (0 <= x < iw (cim m) /\ 0 <= y < ih (cim m)) /\ ptype (ipix (cim m) x y) = Region.
Lemma lost_step m m' t k gone lost : takenOver m m' t k gone -> t = Region \/ (forall l, ~ In (Region, l) gone) -> lostOk m lost -> lostOk m' (lostNow m m' lost).
Proof.
  intros Ta T Lo x y L. pose proof Ta as (W & H & _). rewrite W, H. destruct L as [L|((X & Y & _) & L)]; [|tauto]. destruct (Lo x y L) as ((X & Y) & R). split; [tauto|].
  rewrite (taken_at m m' t k gone x y Ta X Y). destruct (in_dec _ _ _) as [I|I]; [|exact R]. destruct T as [-> |T]; [reflexivity|]. rewrite R in I. destruct (T _ I).
Qed.
Lemma face_kept m m' t k gone lost l a : takenOver m m' t k gone -> ~ In (Region, l) gone -> (Region, l) <> (t, k) ->
  statOf original (fun x y => owns (cim m) Region l x y /\ inBase (cim m) x y /\ ~ lost x y) a -> statOf original (fun x y => owns (cim m') Region l x y /\ inBase (cim m') x y /\ ~ lostNow m m' lost x y) a.
Proof.
  intros Ta N M. apply stat_ext. intros x y. pose proof Ta as (W & H & _). unfold inBase, lostNow. rewrite W, H, (taken_owns m m' _ _ _ _ _ x y Ta N). split.
  - intros (P & Q & L). split; [left; exact P|]. split; [exact Q|]. intros [L'|((_ & _ & V) & _)]; [auto|]. destruct P as (_ & _ & P). rewrite P in V. discriminate V.
  - intros ([P|(P & _)] & Q & L); [|congruence]. tauto.
Qed.
Lemma face_grown m m' k gone lost x y : takenOver m m' Region k gone -> ~ In (Region, k) gone -> (forall l, ~ In (Vertex, l) gone) -> lostOk m lost ->
  owns (cim m') Region k x y /\ inBase (cim m') x y /\ ~ lostNow m m' lost x y <-> (owns (cim m) Region k x y /\ inBase (cim m) x y /\ ~ lost x y) \/ (exists v j, In (v, j) gone /\ owns (cim m) v j x y /\ inBase (cim m) x y /\ ~ lost x y).
Proof.
  intros Ta N V Lo. pose proof Ta as (W & H & _). unfold inBase, lostNow. rewrite W, H, (taken_owns m m' _ _ _ _ _ x y Ta N). split.
  - intros ([P|(_ & v & j & I & P)] & Q & L); [left; tauto|right]. exists v, j. tauto.
  - intros [(P & Q & L)|(v & j & I & P & Q & L)]; (split; [|split; [exact Q|]]).
    + left. exact P.
    + intros [L'|((_ & _ & V') & _)]; [auto|]. destruct P as (_ & _ & P). rewrite P in V'. discriminate V'.
    + right. split; [reflexivity|]. eauto.
    + intros [L'|((_ & _ & V') & _)]; [auto|]. destruct P as (_ & _ & P). rewrite P in V'. cbn in V'. subst v. apply (V j I).
Qed.
(** the entry of [k] is replaced *)
Lemma faces_put m0 m m' t k gone lost v a0 a : takenOver m m' t k gone -> t = Region -> facesKept m0 lost m v -> 0 <= k -> nth_error v (Z.to_nat k) = Some a0 ->
  ((Z.to_nat k = O -> zeroOut (cim m0)) -> statOf original (fun x y => owns (cim m') Region k x y /\ inBase (cim m') x y /\ ~ lostNow m m' lost x y) a) -> facesKept m0 (lostNow m m' lost) m' (list_upd v (Z.to_nat k) a).
Proof.
  intros Ta -> Fk K N St l c C. destruct (taken_live m m' _ _ _ _ _ _ Ta C) as (G & c' & C'). assert (Lt : (Z.to_nat k < length v)%nat) by (apply nth_error_Some; congruence).
  destruct (Nat.eq_dec l (Z.to_nat k)) as [-> |Nl].
  - exists a. split; [apply nth_error_upd_eq, Lt|]. rewrite Z2Nat.id by lia. exact St.
  - destruct (Fk l c' C') as (b & Nb & B). exists b. split; [rewrite nth_error_upd_neq by congruence; exact Nb|]. intros L. specialize (B L). apply (face_kept m m' _ _ _ lost _ _ Ta G); [|exact B]. intros Q. injection Q as Q. lia.
Qed.

Notation exec := (statExec original gradient maxValue).
Lemma kept_call m0 since lost m s c m' s' : bigEnough original (cim m) -> bigEnough gradient (cim m) -> kept m0 since lost m s -> faceAllowed (cim m) c -> exec m s c = Ok (m', s') -> kept m0 since (lostNow m m' lost) m' s'.
Proof.
  intros Bo Bg (Fa & Wh & Lo & Fk & Ek & Mk & Fl & No) Al E. pose proof (exec_faced _ _ _ _ _ _ _ _ Fa Al E) as Fa'. assert (So : sound m) by apply Fa. assert (So' : sound m') by apply Fa'. change (lostOk m lost) in Lo.
  split; [exact Fa'|]. destruct c as [d|d|d|d].
  - destruct (isolated_case _ _ _ _ _ _ _ _ Fa Al E) as (n & k & b & x & y & Ta & O & Ex & ->).
    split; [apply (whole_step _ _ _ _ _ _ Wh Ta); discriminate|]. split; [apply (lost_step _ _ _ _ _ _ Ta); auto|]. destruct (edges_stay m0 m m' k _ _ _ Ta So So' Ek Mk) as (Ek' & Mk').
    split; [|split; [exact Ek'|split; [exact Mk'|split; [exact Fl|apply (noted_step _ _ _ _ _ _ _ _ No Ta Ex)]]]]. cbn [faceStats touch setLast].
    intros l c C. destruct (taken_live m m' _ _ _ _ _ _ Ta C) as (G & c' & C'). destruct (Fk l c' C') as (a & Na & A). exists a. split; [exact Na|]. intros L. specialize (A L). refine (stat_ext _ _ _ _ _ A).
    intros u v. pose proof Ta as (W & H & _). unfold inBase, lostNow. rewrite W, H, (taken_owns m m' _ _ _ _ _ u v Ta G). split.
    + intros (P & Q & R). split; [left; exact P|]. split; [exact Q|]. intros [R'|((_ & _ & V) & _)]; [auto|]. destruct P as (_ & _ & P). rewrite P in V. discriminate V.
    + intros ([P|(P & w & j & I & Q)] & B & R); [tauto|]. exfalso. apply R. right. destruct I as [I|[]]. injection I as <- <-. destruct Q as (X & Y & Q). split; [split; [exact X|]; split; [exact Y|]; rewrite Q; reflexivity|].
      destruct (taken_pixel m m' _ _ _ u v Ta X Y) as (_ & _ & Q'); [rewrite Q; left; reflexivity|]. rewrite Q'. reflexivity.
  - destruct (faces_case _ _ _ _ _ _ _ _ Fa Bo Al E) as (e & l & r & k & f & b & x & y & al & ar & o & Ta & O & Ex & Kf & Ll & Lr & Nl & Nr & (cl & Cl) & (cr & Cr) & So2 & ->).
    split; [apply (whole_step _ _ _ _ _ _ Wh Ta); discriminate|]. split; [apply (lost_step _ _ _ _ _ _ Ta); auto|]. destruct (edges_stay m0 m m' k _ _ _ Ta So So' Ek Mk) as (Ek' & Mk').
    split; [|split; [exact Ek'|split; [exact Mk'|split; [exact Fl|apply (noted_step _ _ _ _ _ _ _ _ No Ta Ex)]]]]. cbn [faceStats touch setLast setFaceStats].
    assert (K0 : 0 <= k) by (destruct Kf as [(-> & _)|(-> & _)]; assumption).
    assert (Nk : exists a0, nth_error (faceStats s) (Z.to_nat k) = Some a0) by (destruct Kf as [(-> & _)|(-> & _)]; eauto). destruct Nk as (a0 & Nk).
    apply (faces_put m0 m m' Region k _ lost _ a0 _ Ta eq_refl Fk K0 Nk). intros K.
    assert (Gk : ~ In (Region, k) [(Line, e); (Region, f)]). { intros I. apply (taken_gone m m' _ _ _ _ _ Ta So' I ltac:(discriminate) x y O). }
    assert (Gv : forall j, ~ In (Vertex, j) [(Line, e); (Region, f)]) by (intros j [I|[I|[]]]; discriminate I).
    assert (F0 : f <> 0). { intros ->. apply (zero_stays m m' _ _ _ Ta So So'). right. left. reflexivity. }
    assert (Kn : k <> f) by (intros ->; apply Gk; right; left; reflexivity).
    destruct (Fk _ _ Cl) as (a1 & N1 & A1). destruct (Fk _ _ Cr) as (a2 & N2 & A2). assert (a1 = al) by congruence. assert (a2 = ar) by congruence. subst a1 a2. rewrite Z2Nat.id in A1, A2 by assumption.
    specialize (A1 ltac:(destruct Kf as [(-> & ->)|(-> & ->)]; [exact K|intros Q; exfalso; lia])). specialize (A2 ltac:(destruct Kf as [(-> & ->)|(-> & ->)]; [intros Q; exfalso; lia|exact K])).
    assert (Dlr : forall u v, owns (cim m) Region l u v -> ~ owns (cim m) Region r u v). { intros u v (_ & _ & P) (_ & _ & Q). rewrite P in Q. injection Q as Q. destruct Kf as [(-> & ->)|(-> & ->)]; congruence. }
    assert (Del : forall j u v, owns (cim m) Line e u v -> ~ owns (cim m) Region j u v) by (intros j u v (_ & _ & P) (_ & _ & Q); rewrite P in Q; discriminate Q).
    refine (stat_ext _ _ _ _ _ (stat_or _ _ _ _ _ _ (stat_or _ _ _ _ _ _ A1 So2) A2)).
    + intros u v. rewrite (face_grown m m' k _ lost u v Ta Gk Gv Lo). split.
      * intros [[P|P]|P].
        -- destruct Kf as [(-> & ->)|(-> & ->)]; [left; exact P|right; exists Region, l; split; [right; left; reflexivity|exact P]].
        -- right. exists Line, e. split; [left; reflexivity|]. split; [tauto|]. split; [tauto|]. intros L. apply Lo in L. destruct P as ((_ & _ & P) & _). rewrite P in L. destruct L as (_ & L). discriminate L.
        -- destruct Kf as [(-> & ->)|(-> & ->)]; [right; exists Region, r; split; [right; left; reflexivity|exact P]|left; exact P].
      * intros [P|(w & j & [I|[I|[]]] & P)].
        -- destruct Kf as [(-> & ->)|(-> & ->)]; tauto.
        -- injection I as <- <-. tauto.
        -- injection I as <- <-. destruct Kf as [(-> & ->)|(-> & ->)]; tauto.
    + intros u v [P|P] Q; [apply (Dlr u v); tauto|apply (Del r u v); tauto].
    + intros u v P Q. apply (Del l u v); tauto.
  - destruct (bridge_case _ _ _ _ _ _ _ _ Fa Bo Al E) as (e & k & b & x & y & a & o & Ta & O & Ex & Na & So2 & ->).
    split; [apply (whole_step _ _ _ _ _ _ Wh Ta); discriminate|]. split; [apply (lost_step _ _ _ _ _ _ Ta); auto|]. destruct (edges_stay m0 m m' k _ _ _ Ta So So' Ek Mk) as (Ek' & Mk').
    split; [|split; [exact Ek'|split; [exact Mk'|split; [exact Fl|apply (noted_step _ _ _ _ _ _ _ _ No Ta Ex)]]]]. cbn [faceStats touch setLast setFaceStats].
    assert (K0 : 0 <= k) by (apply (pixel_live m' _ _ _ _ So' O); discriminate). apply (faces_put m0 m m' Region k _ lost _ a _ Ta eq_refl Fk K0 Na). intros K.
    assert (Gk : ~ In (Region, k) [(Line, e)]) by (intros [I|[]]; discriminate I). assert (Gv : forall j, ~ In (Vertex, j) [(Line, e)]) by (intros j [I|[]]; discriminate I).
    destruct (taker m' Region k x y So' ltac:(discriminate) O) as (c & C & _). destruct (taken_live m m' _ _ _ _ _ _ Ta C) as (_ & c' & C'). destruct (Fk _ _ C') as (a1 & N1 & A1). assert (a1 = a) by congruence. subst a1. specialize (A1 K). rewrite Z2Nat.id in A1 by exact K0.
    refine (stat_ext _ _ _ _ _ (stat_or _ _ _ _ _ _ A1 So2)).
    + intros u v. rewrite (face_grown m m' k _ lost u v Ta Gk Gv Lo). split.
      * intros [P|P]; [left; exact P|]. right. exists Line, e. split; [left; reflexivity|]. split; [tauto|]. split; [tauto|]. intros L. apply Lo in L. destruct P as ((_ & _ & P) & _). rewrite P in L. destruct L as (_ & L). discriminate L.
      * intros [P|(w & j & [I|[]] & P)]; [left; exact P|]. injection I as <- <-. tauto.
    + intros u v ((_ & _ & P) & _) ((_ & _ & Q) & _). rewrite P in Q. discriminate Q.
  - destruct (edges_case _ _ _ _ _ _ _ _ Fa Bg Al E) as (n & e & k & r & b & x & y & t & Ta & O & Ex & Ke & E0 & K0 & (ck & Ck) & (ce & Ce) & La & -> & Lk & T).
    assert (Gr : forall l, ~ In (Region, l) [(Vertex, n); (Line, e)]) by (intros l [I|[I|[]]]; discriminate I).
    assert (Gk : ~ In (Line, k) [(Vertex, n); (Line, e)]) by (intros [I|[I|[]]]; [discriminate I|injection I as I; congruence]).
    split; [apply (whole_step _ _ _ _ _ _ Wh Ta); discriminate|]. split; [apply (lost_step _ _ _ _ _ _ Ta); auto|].
    split; [|split; [|split; [|split; [exact Fl|apply (noted_step _ _ _ _ _ _ _ _ No Ta Ex)]]]]; cbn [faceStats edgeStats mergedEdges touch setLast setMerged setEdgeStats].
    + intros l c C. destruct (taken_live m m' _ _ _ _ _ _ Ta C) as (G & c' & C'). destruct (Fk l c' C') as (a & Na & A). exists a. split; [exact Na|]. intros L. apply (face_kept m m' _ _ _ lost _ _ Ta G); [discriminate|exact (A L)].
    + intros l c C. destruct (taken_live m m' _ _ _ _ _ _ Ta C) as (G & c' & C'). pose proof Ta as (W & H & _). destruct (Nat.eq_dec l (Z.to_nat k)) as [-> |Nl].
      * exists t. split; [apply nth_error_upd_eq, Lk|]. rewrite Z2Nat.id by exact K0. destruct T as [(T & T')|(Ok_ & Oe & ak & ae & o & Nk & Ne & Av & T)]; [right; split; [exact T|apply (outer_joined m m' k n e Ta Ke T')]|left].
        destruct (Ek _ _ Ck) as (ak' & Nk' & Ak). assert (ak' = ak) by congruence. subst ak'. destruct (Ek _ _ Ce) as (ae' & Ne' & Ae). assert (ae' = ae) by congruence. subst ae'. rewrite Z2Nat.id in Ak, Ae by assumption.
        destruct Ak as [Ak|(_ & Ak)]; [|contradiction]. destruct Ae as [Ae|(_ & Ae)]; [|contradiction]. subst t. refine (avg_ext _ _ _ _ _ (avg_or _ _ _ _ _ _ (avg_or _ _ _ _ _ _ Ak Ae) Av)).
        -- intros u v. unfold inBase. rewrite W, H, (taken_owns m m' _ _ _ _ _ u v Ta Gk). split.
           ++ intros [[P|P]|P]; [tauto| |]; (split; [right; split; [reflexivity|]|tauto]); [exists Line, e; split; [right; left; reflexivity|tauto]|exists Vertex, n; split; [left; reflexivity|tauto]].
           ++ intros ([P|(_ & w & j & [I|[I|[]]] & P)] & Q); [tauto| |]; injection I as <- <-; tauto.
        -- intros u v [((_ & _ & P) & _)|((_ & _ & P) & _)] ((_ & _ & Q) & _); rewrite P in Q; discriminate Q.
        -- intros u v ((_ & _ & P) & _) ((_ & _ & Q) & _). rewrite P in Q. injection Q as Q. contradiction.
      * destruct (Ek l c' C') as (a & Na & A). exists a. split; [rewrite nth_error_upd_neq by congruence; exact Na|]. destruct A as [A|(A & B)].
        -- left. refine (avg_ext _ _ _ _ _ A). intros u v. unfold inBase. rewrite W, H, (taken_owns m m' _ _ _ _ _ u v Ta G). split; [tauto|]. intros ([P|(P & _)] & Q); [tauto|]. injection P as P. lia.
        -- right. split; [exact A|]. apply (outer_stays m m' _ _ _ _ Ta (Gr 0) G B).
    + destruct (Mk _ _ Ck) as (chk & Hk & Nk & Pk). destruct (Mk _ _ Ce) as (che & He & Ne & Pe). rewrite Z2Nat.id in Hk, Pk, He, Pe by assumption.
      destruct (chain_last (mergedEdges s) k chk _ Hk (Nat.le_trans _ _ _ (chain_length _ _ _ Hk Nk) (Nat.le_succ_diag_r _))) as (r' & b0 & L' & Eb & _). assert (r' = r) by congruence. subst r'.
      assert (Ir : In r chk) by (rewrite Eb; apply in_or_app; right; left; reflexivity). assert (R0 : 0 <= r) by apply (chain_bound _ _ _ r Hk Ir).
      assert (Pr : partOf m0 m r k) by (apply Pk, Ir). assert (Dis : forall a, In a chk -> ~ In a che) by (intros a I J; apply Pk in I; apply Pe in J; apply Ke; apply (part_one m0 m a k e Wh I J)).
      intros l c C. destruct (taken_live m m' _ _ _ _ _ _ Ta C) as (G & c' & C'). destruct (Nat.eq_dec l (Z.to_nat k)) as [-> |Nl].
      * exists (chk ++ che). rewrite Z2Nat.id by exact K0. split; [apply (chain_join _ k chk e che r Hk Nk (ex_intro _ b0 Eb) He (Dis r Ir))|]. split; [apply NoDup_app_intro; auto|].
        intros a. rewrite in_app_iff, Pk, Pe. symmetry. apply (part_joined m0 m m' k n e a Wh Ta Ke).
      * destruct (Mk l c' C') as (ch & A & B & D). exists ch. split; [|split; [exact B|]].
        -- apply chain_other; auto. intros I. apply D in I. pose proof (part_one m0 m r _ _ Wh I Pr). lia.
        -- intros a. rewrite D. symmetry. apply (part_same m0 m m' _ _ _ a _ Ta G). intros Q. injection Q as Q. lia.
Qed.
End Data.
