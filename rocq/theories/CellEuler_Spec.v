(** What C79 says: Euler's formula. *)
From Verif Require Import Base CellMap_Model CellMap_Spec CellThresh_Spec.
Local Open Scope Z_scope.

(** how many contours the faces have together *)
Definition contourCount (m : cmap) : Z := Z.of_nat (length (flat_map fcontours (filter (fun f => initialized (finf f)) (cfaces m)))).
(** one face and nothing else *)
Definition cleared (m : cmap) : Prop :=
  nodeCount m = 0 /\ edgeCount m = 0 /\ faceCount m = 1 /\ contourCount m = 0 /\
  forall x y, 0 <= x < iw (cim m) -> 0 <= y < ih (cim m) -> ipix (cim m) x y = Pix Region 0.
(** [P] falls into [n] parts: from each of its pixels one can go to exactly one of [n] chosen ones without leaving [P] *)
Definition manyParts (P : Z -> Z -> Prop) (n : Z) : Prop :=
  exists ps : list (Z * Z), Z.of_nat (length ps) = n /\ (forall u v, In (u, v) ps -> P u v) /\
    forall x y, P x y -> exists i u v, nth_error ps i = Some (u, v) /\ reach ways8 P u v x y /\ forall j u' v', nth_error ps j = Some (u', v') -> reach ways8 P u' v' x y -> j = i.
