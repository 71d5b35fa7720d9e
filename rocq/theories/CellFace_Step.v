(** C68, C69: the calls keep [faced], and [faced] makes them allowed. *)
From Coq Require Import Lia.
From Verif Require Import Base CellMap_Model CellMap_Spec CellMap_Main CellMap_Check CellSigma_Spec CellSigma_Proofs CellSigma_Results CellLink_Spec CellLink_Proofs CellLink_Main CellLink_Results CellLink_Check CellFace_Spec CellFace_Walk CellFace_Main.
Local Open Scope Z_scope.

Lemma faced_edge m d b : faced m -> isDart (cim m) d -> nextAlpha m d = Ok b -> facing (cim m) d b /\ bordered (cim m) (edgeOf (cim m) d) d.
Proof.
  intros (Wi & _ & _ & _ & Ed) D A. destruct (alpha_ends m d Wi D) as (e & a & b' & _ & P & C & I & _ & <- & A' & En). assert (b' = b) by congruence. subst b'.
  destruct (Ed _ _ (conj C I)) as ((F1 & F2) & B). rewrite Z2Nat.id in B by exact P.
  destruct En as [(E1 & E2)|(E1 & E2)]; rewrite E1, E2 in *; [split; [split|]; auto|]. split; [split; auto|].
  intros x y k K O X Y T. destruct (B x y k K O X Y T) as [-> | ->]; [right|left]; congruence.
Qed.
Lemma side_live m n d : faced m -> way n -> isDart (cim m) d -> exists c, isCell m Region (Z.to_nat (sideOf (cim m) n d)) c.
Proof.
  intros (Wi & _ & Ai & _) W D. destruct Wi as (_ & ((_ & Fr & (_ & Li & _)) & _) & _).
  destruct (side_region (cim m) Fr Ai n d W D) as (x & y & O). assert (NE : Region <> ErrorType) by discriminate. destruct (Li Region _ x y O NE) as (c & C & I). exists c. split; auto.
Qed.

(** what a dart of the map satisfies *)
Lemma faced_allows m c : faced m -> faceAllowed (cim m) c -> dartAllowed m c.
Proof.
  intros Fa A. pose proof Fa as (Wi & Pl & Ai & Fi & _). assert (Fr : framed (cim m)) by apply Wi. split.
  2: { destruct c; cbn in A; auto. apply A. }
  destruct c as [d|d|d|d]; cbn [faceAllowed callAllowed] in *; auto.
  - destruct A as (P & Q & No). assert (Jo : joined (cim m)) by apply Wi. assert (Ri : ringed (cim m)) by apply Wi. assert (Ne : neat (cim m)) by apply Wi.
    exists (nodeOf (cim m) d), (sideOf (cim m) 1 d). split; [apply vertex_owns, P|]. split; [apply leftFace_is; auto; apply P|].
    rewrite alone_side by auto. intros x y O k K.
    assert (V : vertexAt (cim m) x y) by (destruct O as (X & Y & E); split; auto; split; auto; rewrite E; reflexivity).
    destruct (even_range k K) as (R & _). destruct (neighbor_in (cim m) Fr x y k V) as (X' & Y').
    destruct (ctypeEqb (ptype (ipix (cim m) (x + dirX k) (y + dirY k))) Vertex) eqn:T.
    + apply CellSigma_Proofs.ctypeEqb_eq in T. left. apply (Jo x y k _ R O). split; auto.
    + apply CellSigma_Proofs.ctypeEqb_ne in T. right. assert (Pk : isPlace (cim m) (Dart x y k)) by (apply straight_place; auto).
      assert (Nk : nodeOf (cim m) (Dart x y k) = nodeOf (cim m) d) by (unfold nodeOf; cbn [dcx dcy]; destruct O as (_ & _ & ->); reflexivity).
      assert (Rk : typeAt (cim m) (Dart x y k) 0 = Region) by (apply (side_alone (cim m) Fr Pl Fi Jo Ri _ d); auto; rewrite Nk; auto).
      assert (Lk : labelAt (cim m) (Dart x y k) 0 = labelAt (cim m) d 0) by (apply (side_alone (cim m) Fr Pl Fi Jo Ri d _); auto).
      rewrite label0 in Lk by exact R. rewrite type0 in Rk by exact R. cbn [dcx dcy ddir] in Rk. split; auto. split; auto. apply pix_eta; auto.
  - split.
    + split; intros l E; [rewrite leftFace_is in E by (auto; apply A)|rewrite rightFace_is in E by (auto; apply A)]; injection E as <-; apply side_live; auto; [left|right]; reflexivity.
    + intros d' E. destruct (faced_edge m d d' Fa A E) as ((F1 & F2) & _). destruct (alpha_ends m d Wi A) as (e & a & b & _ & _ & _ & _ & T & <- & A' & _). assert (b = d') by congruence. subst b.
      assert (D' : isDart (cim m) d' /\ edgeOf (cim m) d' = edgeOf (cim m) d) by (apply T; auto). destruct D' as (D' & Ed').
      rewrite !edgeLabel_dart, !leftFace_is, !rightFace_is by (auto; apply A || apply D'). rewrite Ed', F1, F2. auto.
Qed.

Lemma cut_ends m m' el : cutOff m m' el -> map ends (cedges m') = map ends (cedges m).
Proof.
  intros (e & n1 & n2 & ma & mb & mc & Ee & En1 & En2 & Ka & Ia & Db & Dc & Kc).
  assert (S1 : cedges mb = cedges ma) by (unfold dropDegree in Db; bnd Db n En; bnd Db a Ea; unfold updNode in Db; bnd Db z Ez; bnd Db v Ev; injection Db as <-; auto).
  assert (S2 : cedges mc = cedges mb) by (unfold dropDegree in Dc; bnd Dc n En; bnd Dc a Ea; unfold updNode in Dc; bnd Dc z Ez; bnd Dc v Ev; injection Dc as <-; auto).
  destruct Ka as (_ & A2 & _), Kc as (_ & C2 & _). rewrite S2, S1 in C2. congruence.
Qed.
Lemma wired_ends m l e : wired m -> isEdge m l e -> isDart (cim m) (estart e) /\ isDart (cim m) (eend e) /\ edgeOf (cim m) (estart e) = Z.of_nat l /\ edgeOf (cim m) (eend e) = Z.of_nat l.
Proof.
  intros Wi (C & I). pose proof (proj1 (proj2 (proj2 (proj2 (proj2 Wi)))) l e C I) as (_ & T).
  assert (A : dartOfEdge (cim m) (Z.of_nat l) (estart e)) by (apply T; auto). assert (B : dartOfEdge (cim m) (Z.of_nat l) (eend e)) by (apply T; auto).
  destruct A, B. auto.
Qed.

(** an edge goes; the faces beside it are one afterwards *)
Lemma cut_faced m m' s el gone d b : faced m -> wired m' -> takenOver m m' Region s gone -> cutOff m m' el -> In (Line, el) gone ->
  (forall u k, In (u, k) gone -> (u = Line /\ k = el) \/ u = Region) -> isDart (cim m) d -> edgeOf (cim m) d = el -> nextAlpha m d = Ok b ->
  ren gone s (sideOf (cim m) 1 d) = s -> ren gone s (sideOf (cim m) (-1) d) = s -> faced m'.
Proof.
  intros Fa Wi' Ta Cu Ge Gg D El Al S1 S2. pose proof Fa as (Wi & Pl & Ai & Fi & Ed). assert (Fr : framed (cim m)) by apply Wi.
  assert (Jo : joined (cim m)) by apply Wi. assert (Se : separate (cim m)) by apply Wi. pose proof (taken_repaint _ _ _ _ _ Ta) as Re.
  destruct (faced_edge m d b Fa D Al) as (_ & Bo). rewrite El in Bo.
  split; auto. split; [apply (plain_after _ _ _ _ _ Re); auto; discriminate|]. split; [apply (cut_airy (cim m) (cim m') s el gone); auto|].
  split; [apply (cut_filled (cim m) (cim m') s el gone Fi Re Ge Gg d); auto|].
  intros l e E. destruct (wired_ends m' l e Wi' E) as (D1 & D2 & _). destruct E as (C & I).
  destruct (live_edge _ _ _ _ _ _ _ Ta C I) as ((c0 & C0 & I0) & NI). destruct (ends_nth m m' l e (cut_ends _ _ _ Cu) C) as (c1 & C1 & E1 & E2).
  assert (c1 = c0) by congruence. subst c1. rewrite E1, E2 in *. destruct (Ed l c0 (conj C0 I0)) as ((F1 & F2) & B).
  assert (NL : Z.of_nat l <> el) by (intros X; apply NI; rewrite X; exact Ge). assert (W1 : way 1) by (left; reflexivity). assert (W2 : way (-1)) by (right; reflexivity). split.
  - assert (Cs : forall n x, way n -> isDart (cim m') x -> sideOf (cim m') n x = ren gone s (sideOf (cim m) n x)) by (intros; apply (cut_side (cim m) (cim m') s el gone); auto).
    split; rewrite !Cs by auto; congruence.
  - apply (cut_bordered (cim m) (cim m') s el gone); auto.
Qed.

(** a node without edges goes *)
Lemma alone_faced m m' d s n : faced m -> wired m' -> takenOver m m' Region s [(Vertex, n)] -> keeps m m' -> nodeOf (cim m) d = n -> sideOf (cim m) 1 d = s ->
  faceAllowed (cim m) (CRemoveIsolatedNode d) -> faced m'.
Proof.
  intros Fa Wi' Ta Ke Nd Sd (P & Q & No). pose proof Fa as (Wi & Pl & Ai & Fi & Ed). assert (Fr : framed (cim m)) by apply Wi.
  assert (Jo : joined (cim m)) by apply Wi. assert (Ri : ringed (cim m)) by apply Wi. assert (Ne : neat (cim m)) by apply Wi. pose proof (taken_repaint _ _ _ _ _ Ta) as Re.
  set (G := [(Vertex, n)]) in *. assert (Gn : In (Vertex, n) G) by (left; reflexivity).
  assert (Gg : forall u k, In (u, k) G -> (u = Vertex /\ k = n) \/ (u = Line /\ Region = Line)) by (intros u k [X|[]]; injection X as <- <-; auto).
  assert (NV : Region <> Vertex) by discriminate. assert (NX : Region <> ErrorType) by discriminate.
  assert (La : labelAt (cim m) d 0 = s) by (rewrite <- Sd; symmetry; apply alone_side; auto).
  (* the places of the node *)
  assert (At : forall x y k, In k [0; 2; 4; 6] -> 0 <= x < iw (cim m) -> 0 <= y < ih (cim m) -> ipix (cim m) x y = Pix Vertex n -> ptype (ipix (cim m) (x + dirX k) (y + dirY k)) <> Vertex ->
            ptype (ipix (cim m) (x + dirX k) (y + dirY k)) = Region /\ plabel (ipix (cim m) (x + dirX k) (y + dirY k)) = s).
  { intros x y k K X Y O T. destruct (even_range k K) as (R & _). assert (V : vertexAt (cim m) x y) by (split; auto; split; auto; rewrite O; reflexivity).
    assert (Pk : isPlace (cim m) (Dart x y k)) by (apply straight_place; auto).
    assert (Nk : nodeOf (cim m) (Dart x y k) = nodeOf (cim m) d) by (rewrite Nd; unfold nodeOf; cbn [dcx dcy]; rewrite O; reflexivity).
    assert (Rk : typeAt (cim m) (Dart x y k) 0 = Region) by (apply (side_alone (cim m) Fr Pl Fi Jo Ri _ d); auto; rewrite Nk; auto).
    assert (Lk : labelAt (cim m) (Dart x y k) 0 = labelAt (cim m) d 0) by (apply (side_alone (cim m) Fr Pl Fi Jo Ri d _); auto).
    rewrite label0, La in Lk by exact R. rewrite type0 in Rk by exact R. auto. }
  assert (Rg : forall x y, 0 <= x < iw (cim m) -> 0 <= y < ih (cim m) -> ptype (ipix (cim m') x y) = Region ->
            (ptype (ipix (cim m) x y) = Region /\ ipix (cim m') x y = ipix (cim m) x y) \/ (ipix (cim m) x y = Pix Vertex n /\ ipix (cim m') x y = Pix Region s)).
  { intros x y X Y T. destruct (pixel_after _ _ _ _ _ Re x y X Y) as [(I & E)|(I & E)].
    - right. split; auto. destruct I as [I|[]]. injection I as I1 I2. apply pix_eta; auto.
    - left. rewrite E in T. auto. }
  split; auto. split; [apply (plain_after _ _ _ _ _ Re); auto|]. split; [apply (leave_airy (cim m) (cim m') Region s n G); auto|]. pose proof Re as (Wd & Hd & _). split.
  - intros x y k l K (X & Y & O) X' Y' T. rewrite Wd, Hd in *. assert (T0 : ptype (ipix (cim m') x y) = Region) by (rewrite O; reflexivity).
    destruct (step_back x y k K) as (k' & K' & BX & BY).
    destruct (Rg x y X Y T0) as [(A & A')|(A & A')], (Rg _ _ X' Y' T) as [(B & B')|(B & B')]; rewrite A' in O; rewrite B'.
    + apply (Fi x y k l K); auto. split; auto.
    + cbn [plabel]. assert (V : ptype (ipix (cim m) (x + dirX k + dirX k') (y + dirY k + dirY k')) <> Vertex) by (rewrite BX, BY, A; discriminate).
      destruct (At _ _ k' K' X' Y' B V) as (_ & L). rewrite BX, BY in L. rewrite O in L. auto.
    + injection O as <-. apply (At x y k K X Y A). rewrite B. discriminate.
    + injection O as <-. reflexivity.
  - intros l e E. destruct (wired_ends m' l e Wi' E) as (D1 & D2 & _). destruct E as (C & I). destruct Ke as (_ & Ke & _).
    destruct (live_edge _ _ _ _ _ _ _ Ta C I) as ((c0 & C0 & I0) & NI). destruct (ends_nth m m' l e Ke C) as (c1 & C1 & E1 & E2).
    assert (c1 = c0) by congruence. subst c1. rewrite E1, E2 in *. destruct (Ed l c0 (conj C0 I0)) as ((F1 & F2) & B).
    assert (W1 : way 1) by (left; reflexivity). assert (W2 : way (-1)) by (right; reflexivity).
    assert (Cs : forall k x, way k -> isDart (cim m') x -> sideOf (cim m') k x = sideOf (cim m) k x) by (intros; apply (leave_side (cim m) (cim m') Region s n G); auto).
    split; [split; rewrite !Cs by auto; congruence|]. intros x y k K (X & Y & O) X' Y' T. rewrite Wd, Hd in *. rewrite !Cs by auto.
    assert (O0 : ipix (cim m) x y = Pix Line (Z.of_nat l)) by (destruct (pixel_after _ _ _ _ _ Re x y X Y) as [(_ & Z0)|(_ & Z0)]; congruence).
    destruct (Rg _ _ X' Y' T) as [(A & A')|(A & A')].
    + rewrite A'. apply (B x y k K); auto. split; auto.
    + exfalso. destruct (step_back x y k K) as (k' & K' & BX & BY).
      assert (V : ptype (ipix (cim m) (x + dirX k + dirX k') (y + dirY k + dirY k')) <> Vertex) by (rewrite BX, BY, O0; discriminate).
      destruct (At _ _ k' K' X' Y' A V) as (L & _). rewrite BX, BY, O0 in L. discriminate L.
Qed.

(** two edges become one *)
Lemma join_faced m m' s d : faced m -> wired m' -> isDart (cim m) d -> mergeEdges m d = Ok (m', s) -> callEffect m m' (CMergeEdges d) s -> faced m'.
Proof.
  intros Fa Wi' Dd Ex Ef. pose proof Fa as (Wi & Pl & Ai & Fi & Ed). assert (Fr : framed (cim m)) by apply Wi.
  assert (Jo : joined (cim m)) by apply Wi. assert (Ri : ringed (cim m)) by apply Wi. assert (Ne : neat (cim m)) by apply Wi.
  destruct (join_facts m d m' s Wi Dd Ex Ef) as (n & ml & d2 & d3 & a1 & a2 & Ta & Ci & Ee & Hh & D2 & D3 & N23 & N32 & N2 & N3 & L2 & L3 & Df & A1 & A2 & On & _).
  pose proof (taken_repaint _ _ _ _ _ Ta) as Re. set (G := [(Vertex, n); (Line, ml)]) in *. assert (Gn : In (Vertex, n) G) by (left; reflexivity).
  assert (Gg : forall u k, In (u, k) G -> (u = Vertex /\ k = n) \/ (u = Line /\ Line = Line)) by (intros u k [X|[X|[]]]; injection X as <- <-; auto).
  assert (NV : Line <> Vertex) by discriminate. assert (NX : Line <> ErrorType) by discriminate.
  assert (W1 : way 1) by (left; reflexivity). assert (W2 : way (-1)) by (right; reflexivity).
  destruct (faced_edge m d3 a1 Fa D3 A1) as ((F31 & F32) & B3). destruct (faced_edge m d2 a2 Fa D2 A2) as ((F21 & F22) & B2). rewrite L3 in B3. rewrite L2 in B2.
  pose proof (side_next (cim m) Fr Ne Pl Ai Fi 1 d2 d3 W1 D2 N23) as S23. pose proof (side_next (cim m) Fr Ne Pl Ai Fi 1 d3 d2 W1 D3 N32) as S32. cbn [Z.opp] in S23, S32.
  assert (Rg : forall x y, 0 <= x < iw (cim m) -> 0 <= y < ih (cim m) -> ptype (ipix (cim m') x y) = Region -> ptype (ipix (cim m) x y) = Region /\ ipix (cim m') x y = ipix (cim m) x y).
  { intros x y X Y T. destruct (pixel_after _ _ _ _ _ Re x y X Y) as [(I & E)|(I & E)]; rewrite E in T; [discriminate T|auto]. }
  split; auto. split; [apply (plain_after _ _ _ _ _ Re); auto|]. split; [apply (leave_airy (cim m) (cim m') Line s n G); auto|]. pose proof Re as (Wd & Hd & _). split.
  - intros x y k l K (X & Y & O) X' Y' T. rewrite Wd, Hd in *. assert (T0 : ptype (ipix (cim m') x y) = Region) by (rewrite O; reflexivity).
    destruct (Rg x y X Y T0) as (A & A'). destruct (Rg _ _ X' Y' T) as (B & B'). rewrite A' in O. rewrite B'. apply (Fi x y k l K); auto. split; auto.
  - intros l e E. destruct (wired_ends m' l e Wi' E) as (De1 & De2 & _). destruct E as (C & I).
    destruct (live_edge _ _ _ _ _ _ _ Ta C I) as ((c0 & C0 & I0) & NI).
    assert (Cs : forall k x, way k -> isDart (cim m') x -> sideOf (cim m') k x = sideOf (cim m) k x) by (intros; apply (leave_side (cim m) (cim m') Line s n G); auto).
    assert (Q : nth_error (list_upd (map ends (cedges m)) (Z.to_nat s) (a1, a2)) l = Some (ends e)) by (rewrite <- Ee; apply map_nth_error, C).
    assert (Ps : 0 <= s) by (destruct (alpha_ends m d3 Wi D3) as (? & ? & ? & _ & P & _); rewrite L3 in P; exact P).
    unfold facing, bordered. rewrite !Cs by auto. destruct (Nat.eq_dec l (Z.to_nat s)) as [->|NS].
    + rewrite nth_error_upd_eq in Q by (rewrite map_length; apply nth_error_Some; congruence). injection Q as <- <-. rewrite Z2Nat.id by exact Ps.
      split; [split; congruence|]. intros x y k K (X & Y & O) X' Y' T. rewrite Wd, Hd in *. destruct (Rg _ _ X' Y' T) as (A & A'). rewrite A'.
      destruct (pixel_after _ _ _ _ _ Re x y X Y) as [(In_ & _)|(_ & O0)].
      * destruct In_ as [I1|[I1|[]]]; injection I1 as It Il.
        -- assert (V : vertexAt (cim m) x y) by (split; auto). assert (Pk : isPlace (cim m) (Dart x y k)) by (apply straight_place; auto; rewrite A; discriminate).
           destruct (even_range k K) as (R & _). assert (T0 : typeAt (cim m) (Dart x y k) 0 = Region) by (rewrite type0 by exact R; exact A).
           assert (Nk : nodeOf (cim m) d2 = nodeOf (cim m) (Dart x y k)) by (rewrite N2; exact Il).
           destruct (side_any (cim m) Fr Ne Pl Ai Fi Jo Ri (Dart x y k) d2 Pk T0 D2 Nk) as (c & Dc & Nc & Lc). rewrite label0 in Lc by exact R. rewrite Lc.
           destruct (On c Dc) as [-> | ->]; [congruence| |]; [left|right]; congruence.
        -- destruct (B2 x y k K) as [E0|E0]; auto; [split; auto; split; auto; apply pix_eta; auto| |]; rewrite E0; [left|right]; congruence.
      * rewrite O in O0. destruct (B3 x y k K) as [E0|E0]; auto; [split; auto| |]; rewrite E0; [right|left]; congruence.
    + rewrite nth_error_upd_neq in Q by auto. rewrite (map_nth_error ends _ _ C0) in Q. injection Q as Q1 Q2. rewrite <- Q1, <- Q2. destruct (Ed l c0 (conj C0 I0)) as (F & B). split; [exact F|].
      intros x y k K (X & Y & O) X' Y' T. rewrite Wd, Hd in *. destruct (Rg _ _ X' Y' T) as (A & A'). rewrite A'. apply (B x y k K); auto.
      destruct (pixel_after _ _ _ _ _ Re x y X Y) as [(_ & O0)|(_ & O0)]; rewrite O in O0; [injection O0 as O0; lia|]. split; auto.
Qed.

Lemma faced_step m c m' s : faced m -> faceAllowed (cim m) c -> cexec m c = Ok (m', s) -> faced m'.
Proof.
  intros Fa A E. pose proof (faced_allows m c Fa A) as Al. assert (Wi : wired m) by apply Fa. pose proof (wired_step m c m' s Wi Al E) as Wi'.
  assert (So : sound m) by apply Wi. assert (Fr : framed (cim m)) by apply So. destruct (cexec_sound m c m' s So (proj1 Al) E) as (_ & Ef).
  destruct c as [d|d|d|d]; cbn [faceAllowed] in A.
  - cbn [callEffect] in Ef. destruct Ef as (n & En & Es & Ta). rewrite nodeLabel_dart in En by apply A. rewrite leftFace_is in Es by (auto; apply A). injection En as En. injection Es as Es.
    apply (alone_faced m m' d s n); auto. eapply removeIsolatedNode_view, E.
  - cbn [callEffect] in Ef. destruct Ef as (e & f & l & r & Ee & El & Er & Sf & Ta). rewrite edgeLabel_dart in Ee by (auto; apply A). injection Ee as Ee.
    rewrite leftFace_is in El by (auto; apply A). rewrite rightFace_is in Er by (auto; apply A). injection El as El. injection Er as Er.
    destruct (mergeFaces_view _ _ _ _ E) as (rd & el & Rd & Ll & Cu). destruct (alpha_ends m d Wi A) as (i & a & b & _ & _ & _ & _ & T & <- & Ab & _).
    assert (El' : el = e).
    { destruct Rd as [->|Rd]; [rewrite edgeLabel_dart in Ll by (auto; apply A); congruence|]. assert (b = rd) by congruence. subst b.
      assert (Dr : isDart (cim m) rd /\ edgeOf (cim m) rd = edgeOf (cim m) d) by (apply T; auto). destruct Dr as (Dr & Er').
      rewrite edgeLabel_dart in Ll by (auto; apply Dr). congruence. }
    subst el. assert (Rf : ren [(Line, e); (Region, f)] s f = s) by (unfold ren; destruct (in_dec _ _ _) as [|N]; auto; exfalso; apply N; right; left; reflexivity).
    assert (Rs : ren [(Line, e); (Region, f)] s s = s) by (unfold ren; destruct (in_dec _ _ _); auto).
    apply (cut_faced m m' s e [(Line, e); (Region, f)] d b); auto; [left; reflexivity| | |].
    + intros u k [X|[X|[]]]; injection X as <- <-; auto.
    + rewrite El. destruct Sf as [(-> & _)|(_ & ->)]; auto.
    + rewrite Er. destruct Sf as [(_ & ->)|(-> & _)]; auto.
  - cbn [callEffect] in Ef. destruct Ef as (e & Ee & El & Er & Ta). destruct (removeBridge_view _ _ _ _ E) as (el & Ll & Cu). assert (el = e) by congruence. subst el.
    rewrite edgeLabel_dart in Ee by (auto; apply A). injection Ee as Ee. rewrite leftFace_is in El by (auto; apply A). rewrite rightFace_is in Er by (auto; apply A). injection El as El. injection Er as Er.
    destruct (alpha_ends m d Wi A) as (i & a & b & _ & _ & _ & _ & T & <- & Ab & _).
    assert (Rs : ren [(Line, e)] s s = s) by (unfold ren; destruct (in_dec _ _ _); auto).
    apply (cut_faced m m' s e [(Line, e)] d b); auto; [left; reflexivity| |rewrite El; auto|rewrite Er; auto].
    intros u k [X|[]]; injection X as <- <-; auto.
  - apply (join_faced m m' s d); auto.
Qed.
Lemma fhistory_faced m : fhistory m -> faced m.
Proof. induction 1 as [m H|m c m' s H IH A E]; auto. exact (faced_step m c m' s IH A E). Qed.
