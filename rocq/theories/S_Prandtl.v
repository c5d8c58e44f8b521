(** Specification notions for stress functions: smooth functions of the plane, the free sides of a mesh, Prandtl stress functions. *)
From Coquelicot Require Import Coquelicot.
From Coq Require Import Reals List Permutation.
From Verif Require Import Base S_Integral M_Fea S_Fem S_Section.
Import ListNotations.
Local Open Scope R_scope.

(** [f] has the continuous partial derivatives [fx] and [fy] in the whole plane. *)
Definition smooth (f fx fy : R -> R -> R) : Prop :=
  forall x y, is_derive (fun x => f x y) x (fx x y) /\ is_derive (fun y => f x y) y (fy x y) /\ continuity_2d_pt fx x y /\ continuity_2d_pt fy x y.

(** The sides of an element in anticlockwise order, as node numbers (from, to, middle), and a side in the other direction. *)
Definition turned_sides (el : tri6) : list (nat * nat * nat) :=
  let c := el_ids el in [(c0 c, c1 c, c3 c); (c1 c, c2 c, c4 c); (c2 c, c0 c, c5 c)].
Definition flip (s : nat * nat * nat) : nat * nat * nat := let '(a, b, m) := s in (b, a, m).
(** The sides [free] belong to one element only; all other sides are common to two elements, which see them in opposite directions. *)
Definition free_sides (els : list tri6) (free : list (nat * nat * nat)) : Prop :=
  exists common, Permutation (concat (map turned_sides els)) (free ++ concat (map (fun s => [s; flip s]) common)).

(** A Prandtl stress function: zero on the free sides. The shear stresses are (d f / dy, - d f / dx). *)
Definition zero_on (X Y : nat -> R) (free : list (nat * nat * nat)) (f : R -> R -> R) : Prop :=
  forall a b m l, In (a, b, m) free -> 0 <= l <= 1 -> f (X a + l * (X b - X a)) (Y a + l * (Y b - Y a)) = 0.
Definition stress_function (X Y : nat -> R) (els : list tri6) (f fx fy : R -> R -> R) : Prop :=
  smooth f fx fy /\ exists free, free_sides els free /\ zero_on X Y free f.

(** The segment from p to q lies on the line of a side of the rectangle [x0, x0 + b] x [y0, y0 + d]. *)
Definition on_rectangle_side (x0 y0 b d : R) (p q : point) : Prop :=
  (fst p = x0 /\ fst q = x0) \/ (fst p = x0 + b /\ fst q = x0 + b) \/ (snd p = y0 /\ snd q = y0) \/ (snd p = y0 + d /\ snd q = y0 + d).
Definition rectangle (x0 y0 b d : R) : list point := [(x0, y0); (x0 + b, y0); (x0 + b, y0 + d); (x0, y0 + d)].

(** The stress function of an elastic bar of one material: its Laplacian is -2. *)
Definition elastic_stress (f fx fy : R -> R -> R) : Prop :=
  exists fxx fxy fyx fyy, smooth f fx fy /\ smooth fx fxx fxy /\ smooth fy fyx fyy /\ forall x y, fxx x y + fyy x y = - 2.

(** The equilateral triangle with the base from (0, 0) to (a, 0), and segments on the lines of its sides. *)
Definition equilateral (a : R) : list point := [(0, 0); (a, 0); (a / 2, sqrt 3 * a / 2)].
Definition on_equilateral_side (a : R) (p q : point) : Prop :=
  (snd p = 0 /\ snd q = 0) \/ (snd p = sqrt 3 * fst p /\ snd q = sqrt 3 * fst q) \/ (snd p = sqrt 3 * (a - fst p) /\ snd q = sqrt 3 * (a - fst q)).
