(** A closed line without a node gets one: the walks from the new node. *)
From Verif Require Import Base CellMap_Model CellMap_Spec CellMap_Scan CellMap_Init CellSigma_Spec CellSigma_Proofs CellSigma_Results CellLink_Spec CellLink_Proofs CellFace_Spec CellStart_Spec
  CellStart_Walk CellStart_Ends CellThresh_Model CellThresh_Spec CellThresh_Paint CellThresh_Edges.
Local Open Scope Z_scope.

Section Loop.
Variable im : img.
Hypothesis Fr : framed im.
Hypothesis Sl : slim im.
Hypothesis Sm : smooth im.
Hypothesis Pl : plain im.
(** the labels of the lines so far *)
Hypothesis Const : forall x y u v, lineAt im x y -> along im x y u v -> labelOf im u v = labelOf im x y.
Hypothesis Met : forall d, isDart im d -> labelOf im (tx d) (ty d) <> 0.
(** the new node *)
Variables x y : Z.
Hypothesis Lv : lineAt im x y.
Hypothesis Zv : labelOf im x y = 0.
Variable node : Z.
Definition im1 : img := Img (iw im) (ih im) (fun u v => if (u =? x) && (v =? y) then cellPixel Vertex node else ipix im u v).
Definition cls (u v : Z) : Prop := along im x y u v.

Lemma cls_line u v : cls u v -> lineAt im u v. Proof. apply (along_line im x y u v Lv). Qed.
Lemma cls_zero u v : cls u v -> labelOf im u v = 0. Proof. intros C. rewrite (Const x y u v Lv C). exact Zv. Qed.
Lemma target_inside u v k : lineAt im u v -> 0 <= u + dirX k < iw im /\ 0 <= v + dirY k < ih im.
Proof. intros L. apply (line_is_inner im Fr) in L. pose proof (dirX_bound k). pose proof (dirY_bound k). lia. Qed.
Lemma cls_link u v k : cls u v -> link im (Dart u v k) -> lineAt im (u + dirX k) (v + dirY k).
Proof.
  intros C Lk. pose proof (cls_line u v C) as L. destruct (target_inside u v k L) as [X Y]. split; [exact X|]. split; [exact Y|].
  pose proof Lk as (D & T & _). cbn [ddir] in D. rewrite type_ahead in T by exact D. unfold tx, ty in T. cbn [dcx dcy ddir] in T.
  destruct (ptype (ipix im (u + dirX k) (v + dirY k))) eqn:E; auto; [contradiction| |exfalso; exact (Pl _ _ X Y E)].
  exfalso. pose proof (link_back im (Dart u v k) Lk (line_no_region im u v L)) as B. set (e := back (Dart u v k)) in *. destruct (back_target (Dart u v k) D) as [Tx Ty]. fold e in Tx, Ty. cbn [dcx dcy] in Tx, Ty.
  assert (De : isDart im e).
  { destruct B as (Rb & _ & Sb). split; [split; [exact X|split; [exact Y|exact E]]|]. split; [exact Rb|]. split; [|exact Sb]. rewrite type_ahead by exact Rb. rewrite Tx, Ty. apply L. }
  apply (Met e De). rewrite Tx, Ty. apply cls_zero, C.
Qed.
Lemma cls_step u v k : cls u v -> link im (Dart u v k) -> cls (u + dirX k) (v + dirY k).
Proof. intros C Lk. apply al_on; [exact C|exact Lk|apply (cls_link u v k C Lk)]. Qed.

(** ** The image with the new node *)
Lemma im1_other u v : ~ (u = x /\ v = y) -> ipix im1 u v = ipix im u v.
Proof. intros N. cbn [im1 ipix]. destruct (Z.eqb_spec u x), (Z.eqb_spec v y); cbn [andb]; [exfalso; auto|reflexivity..]. Qed.
Lemma im1_here : ipix im1 x y = cellPixel Vertex node.
Proof. cbn [im1 ipix]. rewrite !Z.eqb_refl. reflexivity. Qed.
Lemma here_dec u v : (u = x /\ v = y) \/ ~ (u = x /\ v = y).
Proof. destruct (Z.eq_dec u x), (Z.eq_dec v y); tauto. Qed.
Lemma im1_region u v : ptype (ipix im1 u v) = Region <-> ptype (ipix im u v) = Region.
Proof. destruct (here_dec u v) as [[-> ->]|N]; [rewrite im1_here; destruct Lv as (_ & _ & ->); cbn; split; discriminate|rewrite im1_other by exact N; reflexivity]. Qed.
Lemma im1_line u v : lineAt im1 u v <-> lineAt im u v /\ ~ (u = x /\ v = y).
Proof.
  unfold lineAt. cbn [im1 iw ih]. fold im1. destruct (here_dec u v) as [[-> ->]|N].
  - rewrite im1_here. cbn. split; [intros (_ & _ & Q); discriminate Q|tauto].
  - rewrite im1_other by exact N. tauto.
Qed.
Lemma im1_vertex u v : vertexAt im1 u v <-> vertexAt im u v \/ (u = x /\ v = y).
Proof.
  unfold vertexAt. cbn [im1 iw ih]. fold im1. destruct (here_dec u v) as [[-> ->]|N].
  - rewrite im1_here. cbn. pose proof Lv as (X & Y & _). tauto.
  - rewrite im1_other by exact N. tauto.
Qed.
Lemma here_not_vertex : ~ vertexAt im x y. Proof. intros (_ & _ & T). destruct Lv as (_ & _ & L). congruence. Qed.
Lemma im1_typeR d n : typeAt im1 d n = Region <-> typeAt im d n = Region. Proof. apply im1_region. Qed.
Lemma im1_link d : link im1 d <-> link im d. Proof. unfold link. rewrite !im1_typeR. reflexivity. Qed.
Lemma im1_framed : framed im1.
Proof.
  intros u v U V B. cbn [im1 iw ih] in U, V, B. rewrite im1_other; [apply (Fr u v U V B)|]. intros [-> ->]. pose proof (line_is_inner im Fr x y Lv). lia.
Qed.
Lemma im1_slim : slim im1.
Proof. intros u v L. apply im1_line in L. destruct (Sl u v (proj1 L)) as (a & b & N & H). exists a, b. split; [exact N|]. intros k. rewrite im1_link. apply H. Qed.
Lemma im1_smooth : smooth im1.
Proof. intros d L. apply im1_line in L. rewrite !im1_typeR. apply Sm, L. Qed.
Lemma im1_plain : plain im1.
Proof. intros u v U V. destruct (here_dec u v) as [[-> ->]|N]; [rewrite im1_here; discriminate|rewrite im1_other by exact N; apply Pl; assumption]. Qed.
Lemma im1_along a b u v : along im1 a b u v -> along im a b u v.
Proof. intros A. induction A as [|u v k A IH Lk P]; [constructor|]. apply al_on; [exact IH|apply im1_link, Lk|apply im1_line in P; apply P]. Qed.
Lemma along_im1 a b u v : lineAt im a b -> ~ cls a b -> along im a b u v -> along im1 a b u v.
Proof.
  intros L N A. induction A as [|u v k A IH Lk P]; [constructor|]. apply al_on; [exact IH|apply im1_link, Lk|]. apply im1_line. split; [exact P|]. intros [Qx Qy]. apply N. unfold cls.
  rewrite <- Qx, <- Qy. apply (along_sym im _ _ _ _ L). apply al_on; [exact A|exact Lk|exact P].
Qed.

(** ** The two ways from the new node *)
Definition twoWays (a b : Z) : Prop := a <> b /\ forall k, link im (Dart x y k) <-> k = a \/ k = b.
Lemma ways_swap a b : twoWays a b -> twoWays b a. Proof. intros [N H]. split; [congruence|]. intros k. rewrite H. tauto. Qed.
Lemma ways_exist : exists a b, twoWays a b. Proof. destruct (Sl x y Lv) as (a & b & N & H). exists a, b. split; assumption. Qed.
Lemma cls_here : cls x y. Proof. constructor. Qed.
Lemma step_moves u v k : 0 <= k < 8 -> ~ (u + dirX k = u /\ v + dirY k = v).
Proof. intros K [A B]. pose proof (moved (Dart u v k) K) as M. unfold tx, ty in M. cbn [dcx dcy ddir] in M. apply M. auto. Qed.

Section Ways.
Variables a b : Z.
Hypothesis Ab : twoWays a b.
Lemma link_a : link im (Dart x y a). Proof. apply Ab. auto. Qed.
Lemma range_a : 0 <= a < 8. Proof. exact (proj1 link_a). Qed.
Lemma first_line : lineAt im1 (x + dirX a) (y + dirY a).
Proof. apply im1_line. split; [apply (cls_link x y a cls_here link_a)|]. apply step_moves, range_a. Qed.
Lemma dart_a : isDart im1 (Dart x y a).
Proof.
  pose proof first_line as (X & Y & T). destruct (proj2 (im1_link _) link_a) as (D & _ & Sd). cbn [ddir] in D.
  split; [apply im1_vertex; auto|]. split; [exact D|]. split; [|exact Sd]. rewrite type_ahead by exact D. exact T.
Qed.
End Ways.

Lemma darts_im1 a b d : twoWays a b -> isDart im1 d <-> isDart im d \/ d = Dart x y a \/ d = Dart x y b.
Proof.
  intros Ab. split.
  - intros D. pose proof D as (V & R & T & Sd). apply im1_vertex in V. destruct V as [V|[Vx Vy]].
    + left. split; [exact V|]. split; [exact R|]. split; [|rewrite <- !im1_typeR; exact Sd].
      rewrite type_ahead in T |- * by exact R. destruct (here_dec (tx d) (ty d)) as [[Q1 Q2]|N]; [rewrite Q1, Q2, im1_here in T; discriminate T|rewrite im1_other in T by exact N; exact T].
    + right. destruct d as [u v k]. cbn [dcx dcy ddir] in *. subst u v. assert (Lk : link im (Dart x y k)).
      { apply im1_link. split; [exact R|]. split; [rewrite T; discriminate|exact Sd]. }
      apply Ab in Lk. destruct Lk as [->| ->]; auto.
  - intros [D|[->| ->]]; [|apply (dart_a a b Ab)|apply (dart_a b a (ways_swap a b Ab))].
    pose proof D as (V & R & T & Sd). split; [apply im1_vertex; auto|]. split; [exact R|]. split; [|rewrite !im1_typeR; exact Sd].
    rewrite type_ahead in T |- * by exact R. rewrite im1_other; [exact T|]. intros [Q1 Q2]. apply (Met d D). rewrite Q1, Q2. exact Zv.
Qed.

(** ** The whole line *)
Lemma path_cls a b n u v : twoWays a b -> lineTo im1 (Dart x y a) n -> onPath im1 (Dart x y a) n u v -> cls u v /\ lineAt im1 u v.
Proof.
  intros Ab T (i & I & <- & <-). pose proof (line_along im1 im1_framed im1_slim im1_smooth _ n (dart_a a b Ab) T i I) as A. split.
  - apply (along_trans im x y (x + dirX a) (y + dirY a)); [apply (cls_step x y a cls_here (link_a a b Ab))|]. apply im1_along, A.
  - apply (along_line im1 _ _ _ _ (first_line a b Ab) A).
Qed.
Lemma comes_back a b n : twoWays a b -> lineTo im1 (Dart x y a) n -> far im1 n (Dart x y a) = Dart x y b.
Proof.
  intros Ab T. pose proof (dart_a a b Ab) as Da. pose proof (far_dart im1 im1_framed im1_slim im1_smooth _ n Da T) as F.
  pose proof (far_other im1 im1_framed im1_slim im1_smooth _ n Da T) as O. apply (darts_im1 a b _ Ab) in F. destruct F as [F|[F|F]]; [|contradiction|exact F].
  exfalso. pose proof T as (N & R & _). pose proof (runs_link im1 im1_framed im1_slim im1_smooth n _ Da R) as Lk. apply (Met _ F). unfold far. destruct (back_target (forths im1 n (Dart x y a)) (proj1 Lk)) as [-> ->].
  apply cls_zero. destruct n as [|n]; [lia|]. cbn [forths]. destruct (forth_half im1 im1_framed im1_slim im1_smooth (forths im1 n (Dart x y a)) (R n ltac:(lia))) as (_ & -> & -> & _).
  apply (path_cls a b (Datatypes.S n) _ _ Ab T). exists n. auto.
Qed.
Lemma cls_path a b n u v : twoWays a b -> lineTo im1 (Dart x y a) n -> cls u v -> (u = x /\ v = y) \/ onPath im1 (Dart x y a) n u v.
Proof.
  intros Ab T C. pose proof (dart_a a b Ab) as Da.
  assert (Cov : forall p q, along im1 (x + dirX a) (y + dirY a) p q -> onPath im1 (Dart x y a) n p q).
  { intros p q A. destruct (covers im1 im1_framed im1_slim im1_smooth _ n p q Da T A) as (i & I & X & Y). exists i. auto. }
  induction C as [|u v k C IH Lk P]; [left; auto|]. destruct (here_dec (u + dirX k) (v + dirY k)) as [H|H]; [left; exact H|right].
  destruct IH as [[-> ->]|IH].
  - apply Ab in Lk as Lk'. destruct Lk' as [->| ->].
    + exists O. split; [apply T|]. split; reflexivity.
    + pose proof (comes_back a b n Ab T) as F. pose proof T as (N & R & _). pose proof (runs_link im1 im1_framed im1_slim im1_smooth n _ Da R) as Lkn.
      assert (Q : tx (back (Dart x y b)) = x /\ ty (back (Dart x y b)) = y /\ back (Dart x y b) = forths im1 n (Dart x y a)).
      { split; [apply back_target; apply Lk|]. split; [apply back_target; apply Lk|]. rewrite <- F. unfold far. apply back_back, (proj1 Lkn). }
      destruct Q as (_ & _ & Q). assert (Cn : dcx (forths im1 n (Dart x y a)) = x + dirX b /\ dcy (forths im1 n (Dart x y a)) = y + dirY b) by (rewrite <- Q; split; reflexivity).
      destruct n as [|n]; [lia|]. exists n. split; [lia|]. cbn [forths] in Cn. destruct (forth_half im1 im1_framed im1_slim im1_smooth (forths im1 n (Dart x y a)) (R n ltac:(lia))) as (_ & E1 & E2 & _). rewrite E1, E2 in Cn. exact Cn.
  - apply Cov. apply al_on; [|apply im1_link, Lk|apply im1_line; auto]. destruct IH as (i & I & <- & <-). apply (line_along im1 im1_framed im1_slim im1_smooth _ n Da T i I).
Qed.
Lemma whole a b n u v : twoWays a b -> lineTo im1 (Dart x y a) n -> onPath im1 (Dart x y a) n u v <-> cls u v /\ ~ (u = x /\ v = y).
Proof.
  intros Ab T. split.
  - intros P. destruct (path_cls a b n u v Ab T P) as [C L]. split; [exact C|]. apply im1_line in L. apply L.
  - intros [C N]. destruct (cls_path a b n u v Ab T C); [contradiction|assumption].
Qed.
Lemma cls_dec u v : cls u v \/ ~ cls u v.
Proof.
  destruct ways_exist as (a & b & Ab). destruct (line_ends im1 im1_framed im1_slim im1_smooth im1_plain _ (dart_a a b Ab)) as (n & T & _).
  destruct (here_dec u v) as [[-> ->]|N]; [left; constructor|]. destruct (path_dec im1 (Dart x y a) n u v) as [P|P]; [left; apply (path_cls a b n u v Ab T P)|].
  right. intros C. apply P. apply (whole a b n u v Ab T). auto.
Qed.

(** ** The neighbours of the new node *)
Lemma odd_side k s : 0 <= k < 8 -> Z.odd k = true -> s = 1 \/ s = -1 -> let c := (k + s) mod 8 in let j := (k - s) mod 8 in
  0 <= c < 8 /\ Z.odd c = false /\ 0 <= j < 8 /\ Z.odd j = false /\ dirX c + dirX j = dirX k /\ dirY c + dirY j = dirY k /\
  (j + 4 + s) mod 8 = (k + 4) mod 8 /\ ((c + 4) mod 8 = (j + 4 + 2 * s) mod 8) /\
  dirX j + dirX ((j + 4 - s) mod 8) = dirX ((j + 4 - 2 * s) mod 8) /\ dirY j + dirY ((j + 4 - s) mod 8) = dirY ((j + 4 - 2 * s) mod 8).
Proof.
  intros K O S. apply odd_dirs in K; [|exact O]. destruct S as [->| ->], K as [->|[->|[->| ->]]]; cbn; intuition (lia || reflexivity).
Qed.
(** a neighbour that is no way: the second pixel of a line that turns *)
Lemma corner_of k : 0 <= k < 8 -> ptype (ipix im (x + dirX k) (y + dirY k)) <> Region -> ~ link im (Dart x y k) ->
  Z.odd k = true /\ exists s, (s = 1 \/ s = -1) /\ link im (Dart x y ((k + s) mod 8)).
Proof.
  intros K T N. assert (O : Z.odd k = true).
  { destruct (Z.odd k) eqn:O; [reflexivity|]. exfalso. apply N. split; [exact K|]. split; [rewrite type_ahead by exact K; exact T|]. cbn [ddir]. rewrite O. discriminate. }
  split; [exact O|]. assert (Ex : exists s, (s = 1 \/ s = -1) /\ typeAt im (Dart x y k) s <> Region).
  { assert (TD : forall p q : ctype, {p = q} + {p <> q}) by decide equality. destruct (TD (typeAt im (Dart x y k) 1) Region) as [A|A]; [|exists 1; auto]. destruct (TD (typeAt im (Dart x y k) (-1)) Region) as [B|B]; [|exists (-1); auto].
    exfalso. apply N. split; [exact K|]. split; [rewrite type_ahead by exact K; exact T|auto]. }
  destruct Ex as (s & S & Ts). exists s. split; [exact S|]. destruct (odd_side k s K O S) as (C & Oc & _).
  split; [exact C|]. cbn [ddir]. split; [|rewrite Oc; discriminate]. rewrite type_ahead by exact C. exact Ts.
Qed.
(** all that touches the new node belongs to the line *)
Lemma around_cls k : 0 <= k < 8 -> ptype (ipix im (x + dirX k) (y + dirY k)) <> Region -> cls (x + dirX k) (y + dirY k).
Proof.
  intros K T. destruct (linkR (ringOf im x y) k) eqn:E; [apply (cls_step x y k cls_here); apply link_ring; auto|].
  assert (N : ~ link im (Dart x y k)) by (intros Lk; apply link_ring in Lk; destruct Lk; congruence). destruct (corner_of k K T N) as (O & s & S & Lc).
  destruct (odd_side k s K O S) as (C & Oc & J & Oj & EX & EY & _). set (c := (k + s) mod 8) in *. set (j := (k - s) mod 8) in *.
  pose proof (cls_step x y c cls_here Lc) as Cc. rewrite <- EX, <- EY. rewrite !Z.add_assoc. apply (cls_step _ _ j Cc). split; [exact J|]. cbn [ddir]. split; [|rewrite Oj; discriminate].
  rewrite type_ahead by exact J. unfold tx, ty. cbn [dcx dcy ddir]. rewrite <- !Z.add_assoc, EX, EY. exact T.
Qed.
Lemma no_vertex_near k : 0 <= k < 8 -> ptype (ipix im (x + dirX k) (y + dirY k)) <> Vertex.
Proof. intros K T. pose proof (around_cls k K ltac:(rewrite T; discriminate)) as C. apply cls_line in C. destruct C as (_ & _ & C). congruence. Qed.

(** ** Labelling the line from the new node *)
Definition coloured (cur cur' : img) (P : Z -> Z -> Prop) (l : Z) : Prop :=
  sameTypes im1 cur' /\ (forall u v, P u v -> ipix cur' u v = cellPixel Line l) /\ (forall u v, ~ P u v -> ipix cur' u v = ipix cur u v).
Lemma fuel_path a b n : twoWays a b -> lineTo im1 (Dart x y a) n -> (n <= length (allStates im1))%nat -> (n <= walkFuel im1)%nat.
Proof. intros Ab T B. pose proof (states_fuel im1 (Dart x y a) (place_state im1 _ (dart_place im1 _ (dart_a a b Ab)))). lia. Qed.
Lemma from_way a b cur l : twoWays a b -> sameTypes im1 cur -> exists cur', labelEdge (walkFuel cur) cur (Dart x y a) l = Ok cur' /\ coloured cur cur' (fun u v => cls u v /\ ~ (u = x /\ v = y)) l.
Proof.
  intros Ab S. destruct (line_ends im1 im1_framed im1_slim im1_smooth im1_plain _ (dart_a a b Ab)) as (n & T & B).
  assert (Bf : (n <= walkFuel cur)%nat) by (rewrite (same_fuel im1 cur S); apply (fuel_path a b n Ab T B)).
  destruct (label_path im1 im1_framed im1_slim im1_smooth l (walkFuel cur) n cur (Dart x y a) S T Bf) as (cur' & E & S' & On & Off). exists cur'. split; [exact E|]. split; [exact S'|]. split.
  - intros u v P. apply On. apply (whole a b n u v Ab T), P.
  - intros u v P. apply Off. intros Q. apply P. apply (whole a b n u v Ab T), Q.
Qed.
End Loop.
