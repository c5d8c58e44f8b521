(** Specification notions for the torsion of closed sections: stress functions of sections with holes, the hollow rectangle. *)
From Coquelicot Require Import Coquelicot.
From Coq Require Import Reals List Permutation.
From Verif Require Import Base S_Integral M_Fea S_Fem S_Section S_Prandtl.
Import ListNotations.
Local Open Scope R_scope.

(** The node a side starts from and the node it ends at *)
Definition side_start (s : nat * nat * nat) : nat := let '(a, _, _) := s in a.
Definition side_end (s : nat * nat * nat) : nat := let '(_, b, _) := s in b.
(** A closed ring of sides: every node is the start of as many sides as it is the end of. *)
Definition closed_ring (ring : list (nat * nat * nat)) : Prop := Permutation (map side_start ring) (map side_end ring).
(** The area inside a ring of sides that keeps the material on its left, that is, which runs clockwise around a hole *)
Definition enclosed (X Y : nat -> R) (ring : list (nat * nat * nat)) : R :=
  - sumf (fun s => X (side_start s) * Y (side_end s) - X (side_end s) * Y (side_start s)) ring / 2.
Definition value_on (X Y : nat -> R) (ring : list (nat * nat * nat)) (f : R -> R -> R) (c : R) : Prop :=
  forall a b m l, In (a, b, m) ring -> 0 <= l <= 1 -> f (X a + l * (X b - X a)) (Y a + l * (Y b - Y a)) = c.

(** A stress function of a section with holes: zero on the outer free sides and, for each hole, constant on the closed ring of free sides
    around it. [holes] lists the constants and the rings. *)
Definition hollow_stress (X Y : nat -> R) (els : list tri6) (f fx fy : R -> R -> R) (holes : list (R * list (nat * nat * nat))) : Prop :=
  smooth f fx fy /\ Forall (fun h => closed_ring (snd h) /\ value_on X Y (snd h) f (fst h)) holes /\
  exists outer, free_sides els (outer ++ concat (map snd holes)) /\ zero_on X Y outer f.

(** The segment from p to q lies on a side of the rectangle [x0, x0 + b] x [y0, y0 + d]. *)
Definition in_rectangle (x0 y0 b d : R) (p : point) : Prop := x0 <= fst p <= x0 + b /\ y0 <= snd p <= y0 + d.
Definition along_rectangle (x0 y0 b d : R) (p q : point) : Prop := on_rectangle_side x0 y0 b d p q /\ in_rectangle x0 y0 b d p /\ in_rectangle x0 y0 b d q.
(** The outline of a rectangular hollow section with sharp corners and walls of thickness t: the outer rectangle anticlockwise and the
    inner one clockwise *)
Definition hollow_edges (m : material) (x0 y0 b d t : R) : list edge :=
  ring_edges m (rectangle x0 y0 b d) ++ ring_edges m (rev (rectangle (x0 + t) (y0 + t) (b - 2 * t) (d - 2 * t))).
