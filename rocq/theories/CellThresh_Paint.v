(** Labelling the pixels of a line. *)
From Verif Require Import Base CellMap_Model CellMap_Spec CellMap_Scan CellMap_Init CellSigma_Spec CellSigma_Proofs CellSigma_Results CellLink_Spec CellLink_Proofs CellFace_Spec CellStart_Spec
  CellStart_Walk CellStart_Ends CellThresh_Model CellThresh_Spec.
Local Open Scope Z_scope.

(** ** Images that differ in their labels only *)
Definition sameTypes (im im' : img) : Prop := iw im' = iw im /\ ih im' = ih im /\ forall x y, ptype (ipix im' x y) = ptype (ipix im x y).
Lemma same_refl im : sameTypes im im. Proof. repeat split. Qed.
Lemma same_sym im im' : sameTypes im im' -> sameTypes im' im.
Proof. intros (W & H & T). split; [symmetry; exact W|split; [symmetry; exact H|intros x y; symmetry; apply T]]. Qed.
Lemma same_trans a b c : sameTypes a b -> sameTypes b c -> sameTypes a c.
Proof. intros (W & H & T) (W' & H' & T'). split; [congruence|split; [congruence|intros x y; rewrite T'; apply T]]. Qed.

Section Same.
Variables im im' : img.
Hypothesis S : sameTypes im im'.
Lemma same_w : iw im' = iw im. Proof. apply S. Qed.
Lemma same_h : ih im' = ih im. Proof. apply S. Qed.
Lemma same_t x y : ptype (ipix im' x y) = ptype (ipix im x y). Proof. apply S. Qed.
Lemma same_fuel : walkFuel im' = walkFuel im. Proof. unfold walkFuel. rewrite same_w, same_h. reflexivity. Qed.
Lemma same_inside x y : insideImg im' x y = insideImg im x y. Proof. unfold insideImg. rewrite same_w, same_h. reflexivity. Qed.
Lemma same_typeAt d n : typeAt im' d n = typeAt im d n. Proof. apply same_t. Qed.
Lemma same_lineAt x y : lineAt im' x y <-> lineAt im x y. Proof. unfold lineAt. rewrite same_w, same_h, same_t. reflexivity. Qed.
Lemma same_vertexAt x y : vertexAt im' x y <-> vertexAt im x y. Proof. unfold vertexAt. rewrite same_w, same_h, same_t. reflexivity. Qed.
Lemma same_link d : link im' d <-> link im d. Proof. unfold link. rewrite !same_typeAt. reflexivity. Qed.
Lemma same_isDart d : isDart im' d <-> isDart im d. Proof. unfold isDart. rewrite same_vertexAt, !same_typeAt. reflexivity. Qed.
Lemma same_isPlace d : isPlace im' d <-> isPlace im d. Proof. unfold isPlace. rewrite same_vertexAt, !same_typeAt. reflexivity. Qed.
Lemma same_placeNext n d : placeNext im' n d = placeNext im n d. Proof. unfold placeNext. rewrite !same_typeAt. reflexivity. Qed.
Lemma same_places n k : forall d, places k im' n d = places k im n d.
Proof. induction k as [|k IH]; intros d; cbn [places]; [reflexivity|]. rewrite same_placeNext. apply IH. Qed.
Lemma same_along x y u v : along im x y u v -> along im' x y u v.
Proof. intros A. induction A as [|u v k A IH L P]; [constructor|]. apply al_on; [exact IH|apply same_link, L|apply same_lineAt, P]. Qed.

Lemma same_next {A} (f : ctype -> res A) d n : (p <- neighborPix im' d n ;; f (ptype p)) = (p <- neighborPix im d n ;; f (ptype p)).
Proof. unfold neighborPix, readPix. rewrite same_inside. destruct (insideImg im _ _); cbn [bind]; [rewrite same_t; reflexivity|reflexivity]. Qed.
Lemma same_skip k : forall d, skipRegion k im' d = skipRegion k im d.
Proof.
  induction k as [|k IH]; intros d; cbn [skipRegion]; [reflexivity|]. rewrite (same_next (fun t => if ctypeEqb t Region then skipRegion k im' (turn 1 d) else Ok d)).
  destruct (neighborPix im d 0); cbn [bind]; [rewrite IH; reflexivity|reflexivity..].
Qed.
Lemma same_edgel d : edgelNext im' d = edgelNext im d.
Proof.
  unfold edgelNext. rewrite same_skip. destruct (skipRegion 8 im _) as [d1| | |]; cbn [bind]; [|reflexivity..].
  assert (E : (if isDiagonal d1 then q <- neighborPix im' d1 1 ;; Ok (if ctypeEqb (ptype q) Region then d1 else turn 1 d1) else Ok d1) =
              (if isDiagonal d1 then q <- neighborPix im d1 1 ;; Ok (if ctypeEqb (ptype q) Region then d1 else turn 1 d1) else Ok d1)).
  { destruct (isDiagonal d1); [|reflexivity]. exact (same_next (fun t => Ok (if ctypeEqb t Region then d1 else turn 1 d1)) d1 1). }
  rewrite E. clear E. generalize (if isDiagonal d1 then q <- neighborPix im d1 1 ;; Ok (if ctypeEqb (ptype q) Region then d1 else turn 1 d1) else Ok d1).
  intros r. destruct r as [d2| | |]; cbn [bind]; [|reflexivity..]. exact (same_next (fun t => Ok (d2, ctypeEqb t Vertex)) d2 0).
Qed.
Lemma same_forth d : forth im' d = forth im d. Proof. unfold forth. rewrite same_edgel. reflexivity. Qed.
Lemma same_forths n d : forths im' n d = forths im n d.
Proof. induction n as [|n IH]; cbn [forths]; [reflexivity|]. rewrite IH, same_forth. reflexivity. Qed.
Lemma same_half d : half im' d <-> half im d. Proof. unfold half. rewrite same_link, same_lineAt, same_t. reflexivity. Qed.
Lemma same_runs n d : runs im' n d <-> runs im n d.
Proof. unfold runs. split; intros R j J; specialize (R j J); rewrite same_forths in *; apply same_half; exact R. Qed.
Lemma same_lineTo n d : lineTo im' d n <-> lineTo im d n. Proof. unfold lineTo. rewrite same_runs, same_forths, same_typeAt. reflexivity. Qed.
Lemma same_slim : slim im -> slim im'.
Proof. intros Sl x y L. apply same_lineAt in L. destruct (Sl x y L) as (a & b & N & H). exists a, b. split; [exact N|]. intros k. rewrite same_link. apply H. Qed.
Lemma same_smooth : smooth im -> smooth im'.
Proof. intros Sm d L. rewrite !same_typeAt. apply Sm. apply same_lineAt, L. Qed.
Lemma same_plain : plain im -> plain im'.
Proof. intros P x y. rewrite same_w, same_h, same_t. apply P. Qed.
Lemma same_neat : neat im -> neat im'.
Proof. intros N x y k. rewrite same_w, same_h, !same_t. apply N. Qed.
Lemma same_airy : airy im -> airy im'.
Proof. intros A d n V. rewrite !same_typeAt. apply A. apply same_vertexAt, V. Qed.

Lemma same_bad d : badDiagonalConfig im' d = badDiagonalConfig im d.
Proof.
  unfold badDiagonalConfig. destruct (isDiagonal d); [|reflexivity].
  rewrite (same_next (fun t => if ctypeEqb t Line then a <- neighborPix im' d 1 ;; (if negb (ctypeEqb (ptype a) Region) then Ok true else b <- neighborPix im' d (-1) ;; Ok (negb (ctypeEqb (ptype b) Region))) else Ok false)).
  destruct (neighborPix im d 0) as [p| | |]; cbn [bind]; [|reflexivity..]. destruct (ctypeEqb (ptype p) Line); [|reflexivity].
  rewrite (same_next (fun t => if negb (ctypeEqb t Region) then Ok true else b <- neighborPix im' d (-1) ;; Ok (negb (ctypeEqb (ptype b) Region)))).
  destruct (neighborPix im d 1) as [a| | |]; cbn [bind]; [|reflexivity..]. destruct (negb _); [reflexivity|].
  exact (same_next (fun t => Ok (negb (ctypeEqb t Region))) d (-1)).
Qed.
Lemma same_try n d : trySigma im' n d = trySigma im n d. Proof. unfold trySigma. rewrite same_bad. reflexivity. Qed.
Lemma same_sigmaLoop n k : forall d, sigmaLoop k im' n d = sigmaLoop k im n d.
Proof.
  induction k as [|k IH]; intros d; cbn [sigmaLoop]; [reflexivity|].
  rewrite (same_next (fun t => if ctypeEqb t Line then Ok d else d' <- trySigma im' n (if ctypeEqb t Vertex then turn n (swapCenterNeighbor d) else d) ;; sigmaLoop k im' n d')).
  destruct (neighborPix im d 0) as [p| | |]; cbn [bind]; [|reflexivity..]. destruct (ctypeEqb (ptype p) Line); [reflexivity|]. rewrite same_try. destruct (trySigma im n _); cbn [bind]; [apply IH|reflexivity..].
Qed.
Lemma same_singular d : isSingular im' d = isSingular im d.
Proof. exact (same_next (fun t => Ok (negb (ctypeEqb t Line))) d 0). Qed.
Lemma same_sigma n d : sigmaStep im' n d = sigmaStep im n d.
Proof.
  unfold sigmaStep. rewrite same_singular. destruct (isSingular im d) as [b| | |]; cbn [bind]; [|reflexivity..]. destruct b; [reflexivity|]. rewrite same_try.
  destruct (trySigma im n d); cbn [bind]; [|reflexivity..]. rewrite same_fuel. apply same_sigmaLoop.
Qed.
End Same.

(** ** labelEdge *)
Definition onPath (im : img) (h : dart) (n : nat) (x y : Z) : Prop := exists i, (i < n)%nat /\ tx (forths im i h) = x /\ ty (forths im i h) = y.
Lemma path_dec im h n x y : {onPath im h n x y} + {~ onPath im h n x y}.
Proof.
  induction n as [|m IHm]; [right; intros (i & I & _); lia|]. destruct IHm as [Y|N0]; [left; destruct Y as (i & I & Q); exists i; split; [lia|exact Q]|].
  destruct (Z.eq_dec (tx (forths im m h)) x) as [a|a]; [destruct (Z.eq_dec (ty (forths im m h)) y) as [b|b]|].
  - left. exists m. auto.
  - right. intros (i & I & Q1 & Q2). destruct (Nat.eq_dec i m) as [->|]; [contradiction|]. apply N0. exists i. split; [lia|auto].
  - right. intros (i & I & Q1 & Q2). destruct (Nat.eq_dec i m) as [->|]; [contradiction|]. apply N0. exists i. split; [lia|auto].
Qed.
Lemma write_at im x y p : 0 <= x < iw im -> 0 <= y < ih im -> exists im', writePix im x y p = Ok im' /\ iw im' = iw im /\ ih im' = ih im /\ ipix im' x y = p /\
  forall u v, ~ (u = x /\ v = y) -> ipix im' u v = ipix im u v.
Proof.
  intros X Y. unfold writePix. assert (insideImg im x y = true) as -> by (apply insideImg_iff; auto). eexists. split; [reflexivity|]. split; [reflexivity|]. split; [reflexivity|].
  cbn [ipix]. split; [rewrite !Z.eqb_refl; reflexivity|]. intros u v N. destruct (Z.eqb_spec u x), (Z.eqb_spec v y); cbn [andb]; [exfalso; auto|reflexivity..].
Qed.
Lemma write_line im x y l im' : lineAt im x y -> iw im' = iw im -> ih im' = ih im -> ipix im' x y = cellPixel Line l -> (forall u v, ~ (u = x /\ v = y) -> ipix im' u v = ipix im u v) -> sameTypes im im'.
Proof.
  intros (_ & _ & T) W H P O. split; [exact W|split; [exact H|]]. intros u v.
  destruct (Z.eq_dec u x) as [->|N]; [destruct (Z.eq_dec v y) as [->|N]|]; [rewrite P, T; reflexivity|rewrite O; [reflexivity|tauto]..].
Qed.

Section Label.
Variable im : img.
Hypothesis Fr : framed im.
Hypothesis Sl : slim im.
Hypothesis Sm : smooth im.
Lemma forths_S n h : forths im (Datatypes.S n) h = forths im n (forth im h).
Proof. induction n as [|n IH]; [reflexivity|]. change (forths im (Datatypes.S (Datatypes.S n)) h) with (forth im (forths im (Datatypes.S n) h)). rewrite IH. reflexivity. Qed.
Lemma label_path l : forall fuel n im1 h, sameTypes im im1 -> lineTo im h n -> (n <= fuel)%nat ->
  exists im2, labelEdge fuel im1 h l = Ok im2 /\ sameTypes im im2 /\
    (forall x y, onPath im h n x y -> ipix im2 x y = cellPixel Line l) /\ (forall x y, ~ onPath im h n x y -> ipix im2 x y = ipix im1 x y).
Proof.
  induction fuel as [|fuel IH]; intros n im1 h S (N & R & V) F; [lia|]. cbn [labelEdge].
  pose proof (R O N) as Hh. cbn [forths] in Hh. destruct Hh as (Lk & Ln & Ce). pose proof (proj1 Lk) as D. rewrite Z.mod_small by exact D. fold (tx h) (ty h).
  pose proof Ln as (X & Y & _). destruct (write_at im1 (tx h) (ty h) (cellPixel Line l)) as (im' & E & W & H & P & Ot); [rewrite (same_w im im1 S); exact X|rewrite (same_h im im1 S); exact Y|].
  rewrite E. cbn [bind]. assert (S1 : sameTypes im1 im') by (apply (write_line im1 (tx h) (ty h) l); auto; apply (same_lineAt im im1 S); exact Ln).
  pose proof (same_trans _ _ _ S S1) as S2. rewrite (same_edgel im im' S2).
  destruct (forth_spec im Fr Sl Sm h (R O N)) as (k & Ek & _ & _ & Ee & _). rewrite Ee. cbn [bind fst snd].
  destruct n as [|n]; [lia|]. destruct n as [|n].
  - cbn [forths] in V. rewrite V. cbn [ctypeEqb]. exists im'. split; [reflexivity|]. split; [exact S2|]. split.
    + intros x y (i & I & <- & <-). replace i with O by lia. exact P.
    + intros x y Np. apply Ot. intros [-> ->]. apply Np. exists O. auto.
  - assert (Hf : half im (forth im h)) by (apply (R 1%nat); lia). rewrite (type_ahead im (forth im h)) by apply Hf. destruct Hf as (Hf1 & (Hf2 & Hf3 & Hf4) & Hf5). rewrite Hf4. cbn [ctypeEqb].
    destruct (IH (Datatypes.S n) im' (forth im h) S2) as (im2 & E2 & S3 & A & B).
    { split; [lia|]. split; [|rewrite <- forths_S; exact V]. intros j J. rewrite <- forths_S. apply R. lia. }
    { lia. }
    exists im2. split; [exact E2|]. split; [exact S3|].
    assert (Pt : forall x y, onPath im h (Datatypes.S (Datatypes.S n)) x y <-> (x = tx h /\ y = ty h) \/ onPath im (forth im h) (Datatypes.S n) x y).
    { intros x y. split.
      - intros ([|i] & I & <- & <-); [left; auto|right; exists i; rewrite forths_S; split; [lia|auto]].
      - intros [[-> ->]|(i & I & <- & <-)]; [exists O; split; [lia|auto]|exists (Datatypes.S i); rewrite forths_S; split; [lia|auto]]. }
    split.
    + intros x y Q. apply Pt in Q. destruct Q as [[-> ->]|Q]; [|apply A, Q].
      destruct (path_dec im (forth im h) (Datatypes.S n) (tx h) (ty h)) as [Q|Q]; [apply A, Q|]. rewrite B by exact Q. exact P.
    + intros x y Q. rewrite Pt in Q. rewrite B by tauto. apply Ot. tauto.
Qed.
End Label.
