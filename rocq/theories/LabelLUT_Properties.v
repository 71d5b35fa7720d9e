(** C12, C13: LabelLUT. *)
From Verif Require Import Base LabelLUT_Model LabelLUT_Spec LabelLUT_Proofs.

(** C12: after any admissible history no call fails, lookups give one fixed
    representative per class of the equivalence generated by the merges, the
    representative is the one label of the class that was never absorbed, and
    lookups are idempotent. *)
Theorem C12_lookup_is_quotient : forall n os, admissible n os ->
  exists t, run (initIdentity n) os = Ok t /\ size t = nlabels n os /\
  (forall l, l < size t -> exists r, lookup t l = Ok r /\ r < size t /\
      same os l r /\ ~ absorbed os r /\ lookup t r = Ok r) /\
  (forall l l', l < size t -> l' < size t -> (lookup t l = lookup t l' <-> same os l l')) /\
  (forall l, size t <= l -> lookup t l = UB).
Proof. exact lut_lookup. Qed.
Print Assumptions C12_lookup_is_quotient.

(** C13: iteration from a representative terminates and yields exactly its class, once each. *)
Theorem C13_mergedBegin_enumerates_class : forall n os, admissible n os ->
  exists t, run (initIdentity n) os = Ok t /\
  forall r, r < size t -> ~ absorbed os r ->
  exists L, merged t r = Ok L /\ NoDup L /\ forall x, In x L <-> lookup t x = Ok r.
Proof. exact lut_merged. Qed.
Print Assumptions C13_mergedBegin_enumerates_class.

(** The admissibility premise is met by a non-trivial history (chains merged
    into chains, growth in between). *)
Definition C12_ex : list op :=
  [Relabel 1 2; Relabel 3 4; AppendOne; Relabel 2 4; Relabel 6 4; Relabel 0 5].
Example C12_premise_satisfiable : admissible 6 C12_ex.
Proof.
  unfold admissible, C12_ex; simpl.
  repeat match goal with |- _ /\ _ => split end; try lia; auto;
    intros [g H]; simpl in H; intuition discriminate.
Qed.
Example C12_run :
  exists t, run (initIdentity 6) C12_ex = Ok t /\ labelLUT t = [5;4;4;4;4;5;4] /\
            merged t 4 = Ok [4;6;2;1;3].
Proof. eexists; vm_compute; repeat split; reflexivity. Qed.

(** Boundary of C12: the premise cannot be dropped.  Merging into a label that
    is itself absorbed leaves a lookup that is not idempotent. *)
Theorem C12_nonrepresentative_target_refuted :
  exists t, run (initIdentity 3) [Relabel 1 2; Relabel 0 1] = Ok t /\
            exists l r r', lookup t l = Ok r /\ lookup t r = Ok r' /\ r <> r'.
Proof.
  eexists; split; [vm_compute; reflexivity|].
  exists 0, 1, 2; vm_compute; repeat split; discriminate.
Qed.
Print Assumptions C12_nonrepresentative_target_refuted.

(** Boundary of C13: relabel(l, l) on a merged label drops the labels merged
    into it from the enumeration although lookups still report them. *)
Theorem C13_self_relabel_loses_labels_refuted :
  exists t, run (initIdentity 3) [Relabel 0 1; Relabel 1 1] = Ok t /\
            lookup t 0 = Ok 1 /\ merged t 1 = Ok [1].
Proof. eexists; vm_compute; repeat split; reflexivity. Qed.
Print Assumptions C13_self_relabel_loses_labels_refuted.
