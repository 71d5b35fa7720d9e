(** Digital straight lines (C36). *)
From Coq Require Import Znumtheory.
From Verif Require Import Base Dsl_Model.
Local Open Scope Z_scope.

(** the points of the line *)
Definition onLine (eight : bool) (d : dsl) (x y : Z) : Prop := dslContains eight d x y = true.

(** an 8-connected line of the first octant in lowest terms *)
Definition octant (d : dsl) : Prop := 0 <= da d <= db d /\ 0 < db d /\ Zis_gcd (da d) (db d) 1.

(** points of the line on its upper and lower boundary *)
Definition upperAt (d : dsl) (i : Z) : Prop := exists j, da d * i - db d * j = dp d.
Definition lowerAt (d : dsl) (i : Z) : Prop := exists j, da d * i - db d * j = dp d + db d - 1.
(** the line in lowest terms is determined by its points in the columns [lo, hi]: these contain a whole period of the pattern
    between two points on the same boundary *)
Definition fits (d : dsl) (lo hi : Z) : Prop := octant d /\ lo <= hi /\
  (db d = 1 \/ exists k, lo <= k /\ k + db d <= hi /\ (upperAt d k \/ lowerAt d k)).
(** the lines that may contain points of the first octant *)
Definition flat (e : dsl) : Prop := Z.abs (da e) <= db e /\ 0 < db e.

(** [(x, y)] continues the line by one column with a step of the first octant: to the right of the columns up to [x - 1] ... *)
Definition stepRight (d : dsl) (x y : Z) : Prop := exists y', onLine true d (x - 1) y' /\ y' <= y <= y' + 1.
(** ... or to the left of the columns from [x + 1] on *)
Definition stepLeft (d : dsl) (x y : Z) : Prop := exists y', onLine true d (x + 1) y' /\ y' - 1 <= y <= y'.

(** [d'] has the points of [d] in the columns [lo, hi] and contains [(x, y)] *)
Definition extends (d d' : dsl) (lo hi x y : Z) : Prop :=
  (forall i j, lo <= i <= hi -> onLine true d' i j <-> onLine true d i j) /\ onLine true d' x y.

(** no flat line at all has the points of [d] in the columns [lo, hi] and contains [(x, y)] *)
Definition impossible (d : dsl) (lo hi x y : Z) : Prop := forall e, flat e ->
  (forall i j, lo <= i <= hi -> onLine true d i j -> onLine true e i j) -> ~ onLine true e x y.

(** ** The codes before and behind a point of a polygon given by its freeman codes, cyclically *)
Definition codeAhead (codes : list Z) (s j : nat) : Z := nth ((s + j) mod length codes) codes 0.
Definition codeBehind (codes : list Z) (s j : nat) : Z := nth ((s + S j * (length codes - 1)) mod length codes) codes 0.
(** every step goes one column to the right, and one row down iff its code is odd *)
Fixpoint rise (code : nat -> Z) (j : nat) : Z := match j with O => 0 | S j' => rise code j' + Z.land (code j') 1 end.
Definition pointAhead codes s j : Z * Z := (Z.of_nat j, rise (codeAhead codes s) j).
Definition pointBehind codes s j : Z * Z := (- Z.of_nat j, - rise (codeBehind codes s) j).

(** the first [k] codes on both sides *)
Definition among (codes : list Z) (s : nat) (c1 c2 : Z) (k : nat) : Prop :=
  forall j, (j < k)%nat -> (codeAhead codes s j = c1 \/ codeAhead codes s j = c2) /\ (codeBehind codes s j = c1 \/ codeBehind codes s j = c2).
(** the line contains the points up to [k] steps behind and [k'] steps ahead *)
Definition covers (codes : list Z) (s : nat) (e : dsl) (k k' : nat) : Prop :=
  (forall j, (j <= k')%nat -> onLine true e (fst (pointAhead codes s j)) (snd (pointAhead codes s j))) /\
  (forall j, (j <= k)%nat -> onLine true e (fst (pointBehind codes s j)) (snd (pointBehind codes s j))).
(** a polygon that is not closed has no more than [k] steps on one side *)
Definition ends (closed : bool) (codes : list Z) (s k : nat) : Prop := closed = false /\ (k = s \/ (s + k)%nat = length codes).

(** the longest symmetric tangent at point [s] reaches [k] steps, and [d] is its line *)
Definition longestTangent (closed : bool) (codes : list Z) (s : nat) (c1 c2 : Z) (k : nat) (d : dsl) : Prop :=
  fits d (- Z.of_nat k) (Z.of_nat k) /\ covers codes s d k k /\ among codes s c1 c2 k /\
  (closed = false -> (k <= s)%nat /\ (s + k <= length codes)%nat) /\
  (ends closed codes s k \/ ~ among codes s c1 c2 (S k) \/ (forall e, flat e -> ~ covers codes s e (S k) (S k))).
(** [c2] is the first code that differs from the one following point [s], looking ahead first and then behind *)
Definition secondCode (codes : list Z) (s : nat) (c2 : Z) : Prop := c2 <> codeAhead codes s 0 /\
  exists j, among codes s (codeAhead codes s 0) (codeAhead codes s 0) j /\
    (codeAhead codes s j = c2 \/ codeAhead codes s j = codeAhead codes s 0 /\ codeBehind codes s j = c2).
(** the polygon is straight around [s], and ends or turns to two other directions at once *)
Definition noTangent (closed : bool) (codes : list Z) (s : nat) : Prop := exists k,
  among codes s (codeAhead codes s 0) (codeAhead codes s 0) k /\
  (ends closed codes s k \/
   (codeAhead codes s k <> codeAhead codes s 0 /\ codeBehind codes s k <> codeAhead codes s 0 /\ codeAhead codes s k <> codeBehind codes s k)).
