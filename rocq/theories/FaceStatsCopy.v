(** The copy constructor and the destructor of FaceColorStatistics (src/geomap/facestatistics.hxx 503-517, 572-576), with the
    functors as objects on a heap.  Only functors_ and superSampled_ are modelled; new objects are not needed.

    The copy constructor is what Python's copy.copy() and copy.deepcopy() call (src/python_bindings/cppmapmodule_stats.cxx 72-73, 128-151). *)
From Verif Require Import Base.

Section Copy.
Variable V : Type.
(** the functor at an address, None after delete *)
Definition fheap := nat -> option (list V).
(** functors_ (NULL or an address) and *superSampled_ *)
Record fobj := mkFO { oPtr : list (option nat); oTab : option (list nat) }.

(** 503-517: vector<Functor *> is copied, the table is duplicated *)
Definition copyObj (o : fobj) : fobj := mkFO (oPtr o) (oTab o).

(** functors_[l]->..., as in pixelCount() and average() (134-150) *)
Definition readObj (h : fheap) (o : fobj) (l : nat) : res (list V) :=
  p <- vget (oPtr o) l ;;
  match p with None => UB | Some a => match h a with Some xs => Ok xs | None => UB end end.
(** ( *functors_[l])(v), the step of associatePixels (275-287) *)
Definition feedObj (h : fheap) (o : fobj) (l : nat) (v : V) : res fheap :=
  p <- vget (oPtr o) l ;;
  match p with
  | None => UB
  | Some a => match h a with Some xs => Ok (fun b => if Nat.eqb b a then Some (v :: xs) else h b) | None => UB end
  end.
(** 572-576: delete functors_[i] for all i; deleting NULL does nothing, deleting twice is undefined *)
Fixpoint deleteAll (h : fheap) (ps : list (option nat)) : res fheap :=
  match ps with
  | [] => Ok h
  | None :: t => deleteAll h t
  | Some a :: t => match h a with None => UB | Some _ => deleteAll (fun b => if Nat.eqb b a then None else h b) t end
  end.
Definition destroyObj (h : fheap) (o : fobj) : res fheap := deleteAll h (oPtr o).

(** ** Facts *)
Lemma vget_in {A} (l : list A) i x : vget l i = Ok x -> In x l.
Proof. unfold vget. destruct (nth_error l i) eqn:E; [|discriminate]. intros Q. injection Q as <-. apply (nth_error_In _ _ E). Qed.
Lemma delete_gone ps : forall h h', deleteAll h ps = Ok h' -> forall a, h a = None \/ In (Some a) ps -> h' a = None.
Proof.
  induction ps as [|[b|] ps IH]; intros h h' E a K; cbn [deleteAll] in E.
  - injection E as <-. destruct K as [K|[]]. exact K.
  - destruct (h b) eqn:Q; [|discriminate]. apply (IH _ _ E). destruct (Nat.eqb_spec a b) as [->|N]; [left; reflexivity|]. destruct K as [K|[K|K]]; [left; exact K | congruence | right; exact K].
  - apply (IH _ _ E). destruct K as [K|[K|K]]; [left; exact K | discriminate | right; exact K].
Qed.
Lemma delete_gone_ub ps : forall h a, In (Some a) ps -> h a = None -> deleteAll h ps = UB.
Proof.
  induction ps as [|[b|] ps IH]; intros h a K Q; cbn [deleteAll]; [destruct K | |].
  - destruct (h b) eqn:E; [|reflexivity]. destruct K as [K|K]; [congruence|]. apply (IH _ a K). destruct (Nat.eqb a b); [reflexivity | exact Q].
  - destruct K as [K|K]; [discriminate|]. apply (IH h a K Q).
Qed.

(** a copy reads as the original *)
Theorem copy_same (h : fheap) o l : readObj h (copyObj o) l = readObj h o l.
Proof. reflexivity. Qed.
(** every sample given to the original is seen by the copy *)
Theorem copy_shares (h : fheap) o l v h' xs : readObj h (copyObj o) l = Ok xs -> feedObj h o l v = Ok h' -> readObj h' (copyObj o) l = Ok (v :: xs).
Proof.
  unfold readObj, feedObj, copyObj. cbn [oPtr]. destruct (vget (oPtr o) l) as [[a|]| | |]; cbn [bind]; try discriminate. destruct (h a) as [ys|] eqn:Q; [|discriminate]. intros E1 E2. injection E1 as ->. injection E2 as <-. rewrite Nat.eqb_refl. reflexivity.
Qed.
(** destroying one of them leaves the other with deleted functors ... *)
Theorem copy_dangles (h : fheap) o l h' xs : readObj h o l = Ok xs -> destroyObj h (copyObj o) = Ok h' -> readObj h' o l = UB.
Proof.
  unfold readObj, destroyObj, copyObj. cbn [oPtr]. destruct (vget (oPtr o) l) as [[a|]| | |] eqn:E; cbn [bind]; try discriminate. intros _ D. rewrite (delete_gone _ _ _ D a); [reflexivity|]. right. apply (vget_in _ _ _ E).
Qed.
(** ... and destroying both deletes a functor twice *)
Theorem copy_destroyed_twice (h : fheap) o l h' xs : readObj h o l = Ok xs -> destroyObj h (copyObj o) = Ok h' -> destroyObj h' o = UB.
Proof.
  unfold readObj, destroyObj, copyObj. cbn [oPtr]. destruct (vget (oPtr o) l) as [[a|]| | |] eqn:E; cbn [bind]; try discriminate. intros _ D. assert (K : In (Some a) (oPtr o)) by apply (vget_in _ _ _ E).
  apply (delete_gone_ub _ _ a K). apply (delete_gone _ _ _ D a). right. exact K.
Qed.
(** a single object can be destroyed if its functors are distinct and alive *)
Theorem destroy_ok (h : fheap) o : (forall a, In (Some a) (oPtr o) -> h a <> None) -> (forall i j a, nth_error (oPtr o) i = Some (Some a) -> nth_error (oPtr o) j = Some (Some a) -> i = j) -> exists h', destroyObj h o = Ok h'.
Proof.
  unfold destroyObj. generalize (oPtr o). clear o. intros ps. revert h. induction ps as [|[b|] ps IH]; intros h Ha Hd; cbn [deleteAll]; [eexists; reflexivity | |].
  - destruct (h b) eqn:Q; [|destruct (Ha b (or_introl eq_refl) Q)]. apply IH.
    + intros a K. destruct (Nat.eqb_spec a b) as [->|N]; [|apply Ha; right; exact K]. apply In_nth_error in K as (i & Hi). specialize (Hd 0%nat (Datatypes.S i) b eq_refl Hi). discriminate Hd.
    + intros i j a Hi Hj. specialize (Hd (Datatypes.S i) (Datatypes.S j) a Hi Hj). congruence.
  - apply IH; [intros a K; apply Ha; right; exact K|]. intros i j a Hi Hj. specialize (Hd (Datatypes.S i) (Datatypes.S j) a Hi Hj). congruence.
Qed.
End Copy.
