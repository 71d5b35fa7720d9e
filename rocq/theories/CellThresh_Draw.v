(** The types of the pixels. *)
From Verif Require Import Base CellMap_Model CellMap_Spec CellMap_Init CellMap_InitProofs CellSigma_Spec CellLink_Spec CellFace_Spec CellStart_Spec CellStart_Walk
  CellThresh_Model CellThresh_Spec CellThresh_Comps CellThresh_Types.
Local Open Scope Z_scope.

Definition ringAt (w h : Z) (boundary : Z -> Z -> bool) (x y k : Z) : bool := contourAt w h boundary (x + dirX k) (y + dirY k).
Lemma seen_seven w h boundary x y nb : seenAs w h boundary x y nb -> seven nb = seven (ringAt w h boundary x y).
Proof.
  intros S. unfold seven. apply map_ext_in. intros k K. apply Bool.eq_iff_eq_true. rewrite (S k K). unfold ringAt. symmetry. apply (contour_spec true).
Qed.
Lemma ring_seen w h boundary x y : seenAs w h boundary x y (ringAt w h boundary x y).
Proof. intros k _. apply (contour_spec true). Qed.
Lemma typeOf_seven cv nb nb' : seven nb = seven nb' -> typeOf cv nb = typeOf cv nb'.
Proof. intros E. rewrite (type_list cv nb), (type_list cv nb'), E. reflexivity. Qed.
Lemma seen_type cv w h boundary x y nb : seenAs w h boundary x y nb -> typeOf cv (ringAt w h boundary x y) = typeOf cv nb.
Proof. intros S. apply typeOf_seven. symmetry. apply seen_seven, S. Qed.

Theorem thick_error cv nb : thickSide nb -> typeOf cv nb = ErrorType.
Proof.
  intros (G & C & k & K & Q1 & Q2).
  assert (H : forallb (fun l => negb (Nat.eqb (groups (ofList l)) 1 && Nat.leb 4 (count8 (ofList l)) && existsb (fun k => ofList l k && negb (ofList l (k - 1) && ofList l ((k + 1) mod 8))) [1; 3; 5; 7]) || ctypeEqb (typeOf cv (ofList l)) ErrorType) (rings 8) = true)
    by (destruct cv; vm_compute; reflexivity).
  apply (all_rings _) with (nb := nb) in H. apply ctypeEqb_iff. change (typeOf cv (ofList (seven nb))) with (typeOf cv nb) in H. change (groups (ofList (seven nb))) with (groups nb) in H.
  change (count8 (ofList (seven nb))) with (count8 nb) in H. rewrite G in H. apply Nat.leb_le in C. rewrite C in H. cbn [Nat.eqb andb] in H.
  replace (existsb _ _) with true in H; [exact H|]. symmetry. apply existsb_exists. exists k. split; [exact K|].
  rewrite andb_true_iff, negb_true_iff. destruct K as [<-|[<-|[<-|[<-|[]]]]]; (split; [exact Q1|exact Q2]).
Qed.

Section Draw.
Variable cv : bool.
Variables w h : Z.
Variable boundary : Z -> Z -> bool.
Hypothesis Hw : 0 <= w.
Hypothesis Hh : 0 <= h.

Theorem init_decides : (exists im, initCellImage cv w h boundary = Ok im) \/
  (initCellImage cv w h boundary = Exn /\ exists x y nb, isContour w h boundary x y /\ seenAs w h boundary x y nb /\ crowded nb).
Proof.
  destruct (init_outcome cv w h boundary Hw Hh) as [(im & Q & _)|(Q & x & y & X & Y & T)]; [left; eauto|right]. split; [exact Q|].
  destruct (contourAt w h boundary x y) eqn:C; [|discriminate T]. exists x, y, (ringAt w h boundary x y). split; [apply (contour_spec true), C|]. split; [apply ring_seen|]. apply (error_many cv). exact T.
Qed.
Theorem init_refuses x y nb : isContour w h boundary x y -> seenAs w h boundary x y nb -> thickSide nb -> initCellImage cv w h boundary = Exn.
Proof.
  intros C S T. destruct (init_outcome cv w h boundary Hw Hh) as [(im & Q & _ & _ & A)|(Q & _)]; [|exact Q]. exfalso.
  apply (contour_spec true) in C. pose proof (contour_inner true w h boundary x y C) as B.
  destruct (A x y) as [_ K]; [lia|lia|]. apply K. rewrite C. change (fun k => contourAt w h boundary (x + dirX k) (y + dirY k)) with (ringAt w h boundary x y). rewrite (seen_type cv w h boundary x y nb S). apply thick_error, T.
Qed.
Variable im : img.
Hypothesis Ei : initCellImage cv w h boundary = Ok im.
Let Im : typedImage cv w h boundary im.
Proof. destruct (init_outcome cv w h boundary Hw Hh) as [(im' & Q & T)|(Q & _)]; [|congruence]. replace im with im' by congruence. exact T. Qed.
Theorem init_size : iw im = w + 4 /\ ih im = h + 4. Proof. split; apply Im. Qed.
Theorem init_regions x y : 0 <= x < w + 4 -> 0 <= y < h + 4 -> (ptype (ipix im x y) = Region <-> ~ isContour w h boundary x y).
Proof. intros X Y. rewrite (typed_region cv w h boundary Hw Hh im Im x y X Y), <- (contour_spec true), <- Bool.not_true_iff_false. reflexivity. Qed.
Theorem init_corner : ipix im 1 1 = Pix Vertex 0.
Proof. rewrite (typed_pix cv w h boundary im Im 1 1) by lia. reflexivity. Qed.
Lemma contour_type x y nb : isContour w h boundary x y -> seenAs w h boundary x y nb -> (x, y) <> (1, 1) -> ipix im x y = Pix (typeOf cv nb) 0.
Proof.
  intros C S N. apply (contour_spec true) in C. pose proof (contour_inner true w h boundary x y C) as B. rewrite (typed_pix cv w h boundary im Im x y) by lia.
  destruct ((x =? 1) && (y =? 1)) eqn:E; [exfalso; apply N; apply andb_prop in E; destruct E; f_equal; lia|]. cbv zeta. rewrite C. f_equal. apply (seen_type cv w h boundary x y nb S).
Qed.
Theorem init_line x y nb : isContour w h boundary x y -> seenAs w h boundary x y nb -> (x, y) <> (1, 1) ->
  (ptype (ipix im x y) = Line <-> lineLike nb /\ (cv = true -> rightAngle nb = false)).
Proof. intros C S N. rewrite (contour_type x y nb C S N). apply line_iff. Qed.
Theorem init_vertex x y nb : isContour w h boundary x y -> seenAs w h boundary x y nb -> (x, y) <> (1, 1) ->
  (ptype (ipix im x y) = Vertex <-> ~ (lineLike nb /\ (cv = true -> rightAngle nb = false))).
Proof.
  intros C S N. rewrite <- (init_line x y nb C S N), (contour_type x y nb C S N). cbn [ptype]. pose proof (never_region cv nb) as Nr.
  assert (Ne : typeOf cv nb <> ErrorType).
  { apply (contour_spec true) in C. pose proof (contour_inner true w h boundary x y C) as B. destruct Im as (_ & _ & A). destruct (A x y) as [_ K]; [lia|lia|]. rewrite C in K. rewrite <- (seen_type cv w h boundary x y nb S). exact K. }
  destruct (typeOf cv nb); split; congruence.
Qed.
Theorem init_blank x y : 0 <= x < w + 4 -> 0 <= y < h + 4 -> plabel (ipix im x y) = 0.
Proof. intros X Y. rewrite (typed_pix cv w h boundary im Im x y X Y). reflexivity. Qed.
Theorem init_accepts x y nb : isContour w h boundary x y -> seenAs w h boundary x y nb -> ~ thickSide nb.
Proof. intros C S T. rewrite (init_refuses x y nb C S T) in Ei. discriminate Ei. Qed.
End Draw.

(** ** The same picture, seen from another side *)
Lemma transposed_contour w h b x y : isContour w h b x y <-> isContour h w (fun u v => b v u) y x.
Proof. unfold isContour. intuition lia. Qed.
Lemma mirrored_contour w h b x y : isContour w h b x y <-> isContour w h (fun u v => b (w - 1 - u) v) (w + 3 - x) y.
Proof. unfold isContour. replace (w - 1 - (w + 3 - x - 2)) with (x - 2) by lia. intuition lia. Qed.
Lemma transposed_type cv nb : typeOf cv (fun k => nb ((6 - k) mod 8)) = typeOf cv nb.
Proof.
  assert (H : forallb (fun l => ctypeEqb (typeOf cv (fun k => ofList l ((6 - k) mod 8))) (typeOf cv (ofList l))) (rings 8) = true) by (destruct cv; vm_compute; reflexivity).
  apply (all_rings _) with (nb := nb) in H. apply ctypeEqb_iff in H. exact H.
Qed.
Lemma transposed_at w h b x y : contourAt h w (fun u v => b v u) y x = contourAt w h b x y.
Proof. apply Bool.eq_iff_eq_true. rewrite !(contour_spec true). symmetry. apply transposed_contour. Qed.
Lemma mirrored_at w h b x y : contourAt w h (fun u v => b (w - 1 - u) v) (w + 3 - x) y = contourAt w h b x y.
Proof. apply Bool.eq_iff_eq_true. rewrite !(contour_spec true). symmetry. apply mirrored_contour. Qed.
Lemma transposed_ring w h b x y k : In k ways8 -> ringAt h w (fun u v => b v u) y x k = ringAt w h b x y ((6 - k) mod 8).
Proof. intros K. unfold ringAt. destruct K as [<-|[<-|[<-|[<-|[<-|[<-|[<-|[<-|[]]]]]]]]]; cbn [dirX dirY]; apply transposed_at. Qed.
Lemma mirrored_ring w h b x y k : In k ways8 -> ringAt w h (fun u v => b (w - 1 - u) v) (w + 3 - x) y k = ringAt w h b x y ((4 - k) mod 8).
Proof.
  intros K. unfold ringAt. rewrite <- (mirrored_at w h b (x + _) _). f_equal; destruct K as [<-|[<-|[<-|[<-|[<-|[<-|[<-|[<-|[]]]]]]]]]; cbn; lia.
Qed.
Definition typeAt cv w h b x y : ctype := if contourAt w h b x y then typeOf cv (ringAt w h b x y) else Region.
Lemma transposed_typeAt cv w h b x y : typeAt cv h w (fun u v => b v u) y x = typeAt cv w h b x y.
Proof.
  unfold typeAt. rewrite transposed_at. destruct (contourAt w h b x y); [|reflexivity]. rewrite <- (transposed_type cv (ringAt w h b x y)). apply typeOf_seven. unfold seven. apply map_ext_in. intros k K. apply transposed_ring, K.
Qed.
Lemma mirrored_typeAt cv w h b x y : typeAt cv w h (fun u v => b (w - 1 - u) v) (w + 3 - x) y = typeAt cv w h b x y.
Proof.
  unfold typeAt. rewrite mirrored_at. destruct (contourAt w h b x y); [|reflexivity]. rewrite <- (type_mirrored cv (ringAt w h b x y)). apply typeOf_seven. unfold seven. apply map_ext_in. intros k K. apply mirrored_ring, K.
Qed.
Theorem init_transposed cv w h b im : 0 <= w -> 0 <= h -> initCellImage cv w h b = Ok im ->
  exists im', initCellImage cv h w (fun u v => b v u) = Ok im' /\ forall x y, 0 <= x < w + 4 -> 0 <= y < h + 4 -> ipix im' y x = ipix im x y.
Proof.
  intros Hw Hh Ei. destruct (init_outcome cv w h b Hw Hh) as [(im1 & Q & _ & _ & A)|(Q & _)]; [|congruence]. rewrite Q in Ei. injection Ei as ->.
  destruct (init_outcome cv h w (fun u v => b v u) Hh Hw) as [(im' & Q' & _ & _ & A')|(Q' & y & x & Y & X & T)].
  - exists im'. split; [exact Q'|]. intros x y X Y. rewrite (proj1 (A' y x Y X)), (proj1 (A x y X Y)). rewrite (andb_comm (y =? 1)). pose proof (transposed_typeAt cv w h b x y) as E. unfold typeAt, ringAt in E. cbv beta in E. cbv zeta. rewrite E. reflexivity.
  - exfalso. apply (proj2 (A x y X Y)). pose proof (transposed_typeAt cv w h b x y) as E. unfold typeAt, ringAt in E. cbv beta in E. cbv zeta in *. rewrite <- E. exact T.
Qed.
Theorem init_mirrored cv w h b im : 0 <= w -> 0 <= h -> initCellImage cv w h b = Ok im ->
  exists im', initCellImage cv w h (fun u v => b (w - 1 - u) v) = Ok im' /\ forall x y, 0 <= x < w + 4 -> 0 <= y < h + 4 -> (x, y) <> (1, 1) -> (x, y) <> (w + 2, 1) -> ipix im' (w + 3 - x) y = ipix im x y.
Proof.
  intros Hw Hh Ei. destruct (init_outcome cv w h b Hw Hh) as [(im1 & Q & _ & _ & A)|(Q & _)]; [|congruence]. rewrite Q in Ei. injection Ei as ->.
  destruct (init_outcome cv w h (fun u v => b (w - 1 - u) v) Hw Hh) as [(im' & Q' & _ & _ & A')|(Q' & x & y & X & Y & T)].
  - exists im'. split; [exact Q'|]. intros x y X Y N1 N2. rewrite (proj1 (A' (w + 3 - x) y ltac:(lia) Y)), (proj1 (A x y X Y)).
    assert ((x =? 1) && (y =? 1) = false) as -> by (apply Bool.not_true_iff_false; intros K; apply andb_prop in K; destruct K; apply N1; f_equal; lia).
    assert ((w + 3 - x =? 1) && (y =? 1) = false) as -> by (apply Bool.not_true_iff_false; intros K; apply andb_prop in K; destruct K; apply N2; f_equal; lia).
    pose proof (mirrored_typeAt cv w h b x y) as E. unfold typeAt, ringAt in E. cbv beta in E. cbv zeta. rewrite E. reflexivity.
  - exfalso. apply (proj2 (A (w + 3 - x) y ltac:(lia) Y)). pose proof (mirrored_typeAt cv w h b (w + 3 - x) y) as E. replace (w + 3 - (w + 3 - x)) with x in E by lia. unfold typeAt, ringAt in E. cbv beta in E. cbv zeta in *. rewrite <- E. exact T.
Qed.
