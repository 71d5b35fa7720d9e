(** C92: automatic protection of edges. *)
From Coq Require Import QArith.
From Verif Require Import Base CellMap_Model CellMap_Spec CellMap_Init CellLink_Spec CellFace_Spec CellMap_Examples CellFace_Examples CellStats_Model CellStats_Spec CellStats_Results CellStats_Examples CellAuto_Model CellAuto_Spec CellAuto_Proofs.
Local Open Scope Z_scope.

(** C92: initAutoProtection() returns; every edge has the flag of bit 1 on all its parts or on none, by its number of edgels now; other bits and the flags of edges that are gone stay.  The rectangle is the smallest with all pixels of the edges with a change. *)
Theorem C92_init original gradient maxValue edgels threshold m0 since lost m s : shistory original gradient maxValue m0 since lost m s -> bigEnough edgels (cim m) ->
  exists s' r, initAutoProtection edgels threshold m s = Ok (s', r) /\ shistory original gradient maxValue m0 since lost m s' /\ setFlags s' (flags s) = s /\
    (forall a f, nth_error (flags s) a = Some f -> exists f', nth_error (flags s') a = Some f' /\
       (forall l e, isEdge m l e -> partOf m0 m (Z.of_nat a) (Z.of_nat l) -> bitSays (cannyEdge edgels threshold (cim m) (Z.of_nat l)) f f') /\
       ((forall l e, isEdge m l e -> ~ partOf m0 m (Z.of_nat a) (Z.of_nat l)) -> f' = f)) /\
    (forall l e x y, isEdge m l e -> edgeChanged m0 m (flags s) (flags s') l -> owns (cim m) Line (Z.of_nat l) x y -> inRect r x y) /\
    (forall r0, (forall l e x y, isEdge m l e -> edgeChanged m0 m (flags s) (flags s') l -> owns (cim m) Line (Z.of_nat l) x y -> inRect r0 x y) -> forall x y, inRect r x y -> inRect r0 x y) /\
    ((forall l e, isEdge m l e -> ~ edgeChanged m0 m (flags s) (flags s') l) -> r = Rect 0 0 0 0).
Proof. exact (auto_all original gradient maxValue edgels threshold m0 since lost m s). Qed.
Print Assumptions C92_init.

(** C92: a second call changes nothing and returns the empty rectangle. *)
Theorem C92_again original gradient maxValue edgels threshold m0 since lost m s s1 r : shistory original gradient maxValue m0 since lost m s -> bigEnough edgels (cim m) -> initAutoProtection edgels threshold m s = Ok (s1, r) ->
  exists s2, initAutoProtection edgels threshold m s1 = Ok (s2, Rect 0 0 0 0) /\ forall a f, nth_error (flags s1) a = Some f -> nth_error (flags s2) a = Some f.
Proof. exact (auto_again original gradient maxValue edgels threshold m0 since lost m s s1 r). Qed.
Print Assumptions C92_again.

(** C92: what happens to an edge that has just been merged: only its parts are looked at, and the result says whether a flag changed. *)
Theorem C92_edge original gradient maxValue edgels threshold m0 since lost m s l e : shistory original gradient maxValue m0 since lost m s -> isEdge m l e -> bigEnough edgels (cim m) ->
  exists s' r, autoEdge edgels threshold m s e = Ok (s', r) /\ shistory original gradient maxValue m0 since lost m s' /\ setFlags s' (flags s) = s /\
    (forall a f, nth_error (flags s) a = Some f -> exists f', nth_error (flags s') a = Some f' /\
       (partOf m0 m (Z.of_nat a) (Z.of_nat l) -> bitSays (cannyEdge edgels threshold (cim m) (Z.of_nat l)) f f') /\ (~ partOf m0 m (Z.of_nat a) (Z.of_nat l) -> f' = f)) /\
    (r = true <-> edgeChanged m0 m (flags s) (flags s') l).
Proof. exact (auto_edge original gradient maxValue edgels threshold m0 since lost m s l e). Qed.
Print Assumptions C92_edge.

(** The rooms of CellMap_Examples.v, and edgels along the wall (edge 3): two of its five pixels in the image are more than 3/10, but not more than 1/2. *)
Definition dots : vimg := VImg 9 5 (fun x y => if (x =? 2) && ((y =? 1) || (y =? 3)) then 255 else 0).
Example C92_case_size : bigEnough dots (cim r0). Proof. apply bigB_holds. vm_compute. reflexivity. Qed.
Example C92_case : (match initAutoProtection dots (3 # 10) r0 s0 with Ok (s, r) => Some (flags s, r) | _ => None end) = Some ([1; 1; 5; 2; 0], Rect 4 2 5 7).
Proof. vm_compute. reflexivity. Qed.
Example C92_case_half : (match initAutoProtection dots (1 # 2) r0 (setFlags s0 [1; 1; 5; 7; 0]) with Ok (s, r) => Some (flags s, r) | _ => None end) = Some ([1; 1; 5; 5; 0], Rect 4 2 5 7).
Proof. vm_compute. reflexivity. Qed.
(** the edges 0, 1 and 2 have been joined: they get the flag together; edge 3 is gone and keeps its flag *)
Example C92_case_joined : option_map (fun p => match initAutoProtection dots (-1 # 1) (fst p) (setFlags (snd p) [1; 1; 7; 2; 2]) with Ok (s, r) => Some (flags s) | _ => None end) (runRooms joining) = Some (Some [3; 3; 7; 2; 2]).
Proof. vm_compute. reflexivity. Qed.
