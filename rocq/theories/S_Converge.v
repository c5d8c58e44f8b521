(** Specification notions for the convergence of the torsion constant and of the shear areas under mesh refinement: element sizes and shapes, warping functions of
    elasticity theory. *)
From Coquelicot Require Import Coquelicot.
From Coq Require Import Reals List.
From Verif Require Import Base S_Integral M_Fea S_Fem S_Section S_Refine S_Prandtl.
Import ListNotations.
Local Open Scope R_scope.

(** The corners of the triangle a b c are at most k apart in both directions. *)
Definition within (k : R) (a b c : point) : Prop :=
  Rabs (fst b - fst a) <= k /\ Rabs (snd b - snd a) <= k /\ Rabs (fst c - fst a) <= k /\ Rabs (snd c - snd a) <= k /\ Rabs (fst c - fst b) <= k /\ Rabs (snd c - snd b) <= k.
(** A mesh of elements of size at most h and not too thin: the square of the size of an element is at most sigma times its area. *)
Definition fine_mesh_of (h sigma : R) (els : list tri6) : Prop :=
  forall el, In el els -> exists k, 0 <= k <= h /\ within k (corner_a el) (corner_b el) (corner_c el) /\ k ^ 2 <= sigma * (orient (corner_a el) (corner_b el) (corner_c el) / 2).

(** On all elements the absolute value of g is at most M. *)
Definition at_most (M : R) (els : list tri6) (g : R -> R -> R) : Prop := forall el x y, In el els -> in_el el (x, y) -> Rabs (g x y) <= M.
(** The function om with the partial derivatives omx, omy has continuous third derivatives, at most M on the section. *)
Definition third_at_most (M : R) (els : list tri6) (om omx omy : R -> R -> R) : Prop :=
  exists oxx oxy oyy a1 a2 a3 a4 a5 a6, smooth om omx omy /\ smooth omx oxx oxy /\ smooth omy oxy oyy /\
    smooth oxx a1 a2 /\ smooth oxy a3 a4 /\ smooth oyy a5 a6 /\ Forall (at_most M els) [a1; a2; a3; a4; a5; a6].

(** The warping function om and the stress function f of an elastic bar give the same shear stresses per unit of twist about the origin. *)
Definition same_stresses (f fx fy om omx omy : R -> R -> R) : Prop :=
  smooth f fx fy /\ smooth om omx omy /\ forall x y, omx x y - y = fy x y /\ omy x y + x = - fx x y.

(** The shear area [a] of a mesh of size h differs from the exact one, which is the reciprocal of the energy of the shear stresses (p, q), in one
    direction only, and its reciprocal by no more than a multiple of the fourth power of the element size. *)
Definition near_exact (els : list tri6) (p q : R -> R -> R) (h sigma M a : R) : Prop :=
  let energy := mesh_int (fun _ => 1) (fun x y => p x y ^ 2 + q x y ^ 2) els in let area := mesh_int (fun _ => 1) (fun _ _ => 1) els in
  0 < a /\ energy - 2 * (4 + 144 * sigma) ^ 2 * M ^ 2 * area * h ^ 4 <= / a <= energy.
(** The factor of the fourth power of the element size for the shear areas of a rectangle b by d. *)
Definition rectangle_rate (b d sigma : R) : R := 5 / 3 * (b * d) ^ 3 * (4 + 144 * sigma) ^ 2 * (12 / (b ^ 3 * d) + 12 / (b * d ^ 3)) ^ 2.
