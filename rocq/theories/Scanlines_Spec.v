(** What scanlines mean: for every line the covered pixels and a turning count. *)
From Coq Require Import Sorted.
From Verif Require Import Base Scanlines_Model.
Local Open Scope Z_scope.

Definition covers (g : seg) (x : Z) : Prop := sbeg g <= x < send g.
Definition covered (l : list seg) (x : Z) : Prop := exists g, In g l /\ covers g x.

Fixpoint sumZ (l : list Z) : Z := match l with [] => 0 | a :: t => a + sumZ t end.
(** sum of all directions *)
Definition totalDir (l : list seg) : Z := sumZ (map sdir l).
(** sum of the directions of the segments that lie left of pixel [x] *)
Definition windLeft (l : list seg) (x : Z) : Z := sumZ (map sdir (filter (fun g => send g <=? x) l)).

(** no segment ends before it begins *)
Definition proper (l : list seg) : Prop := forall g, In g l -> sbeg g <= send g.
(** ascending with a gap between any two *)
Definition spaced (l : list seg) : Prop := StronglySorted (fun a b => send a < sbeg b) l.

(** the segments of line [y]; none outside the domain *)
Definition lineOf (s : scanlines) (y : Z) : list seg :=
  if y <? sl_start s then [] else nth (Z.to_nat (y - sl_start s)) (sl_lines s) [].
Definition properLines (s : scanlines) : Prop := forall y, proper (lineOf s y).

(** the covered pixels, line by line and segment by segment *)
Fixpoint pixelsFrom (y : Z) (ls : list (list seg)) : list (Z * Z) :=
  match ls with
  | [] => []
  | l :: t => flat_map (fun g => map (fun x => (x, y)) (map (fun k => sbeg g + Z.of_nat k) (seq 0 (Z.to_nat (send g - sbeg g))))) l ++ pixelsFrom (y + 1) t
  end.
Definition allPixels (s : scanlines) : list (Z * Z) := pixelsFrom (sl_start s) (sl_lines s).
