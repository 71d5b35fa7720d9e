(** What C92 says about the automatic protection of edges. *)
From Coq Require Import QArith.
From Verif Require Import Base CellMap_Model CellMap_Spec CellStats_Model CellStats_Spec.
Local Open Scope Z_scope.

(** more than this part of the pixels of the edge are edgels; only the pixels of the image the map was made from can be *)
Definition cannyEdge (edgels : vimg) (threshold : Q) (im : img) (l : Z) : Prop :=
  exists n k, amount edgels (fun v => if v =? 0 then 0 else 1) (fun x y => owns im Line l x y /\ inBase im x y) n /\ manyPixels (owns im Line l) k /\ (inject_Z k * threshold < inject_Z n)%Q.
(** bit 1 of the flag says whether [P], the other bits are as before *)
Definition bitSays (P : Prop) (f f' : Z) : Prop := (Z.testbit f' 1 = true <-> P) /\ forall n, n <> 1 -> Z.testbit f' n = Z.testbit f n.
(** the flags of one of the edges of the first map the edge consists of are different *)
Definition edgeChanged (m0 m : cmap) (before after : list Z) (l : nat) : Prop :=
  exists a, partOf m0 m (Z.of_nat a) (Z.of_nat l) /\ nth_error after a <> nth_error before a.
