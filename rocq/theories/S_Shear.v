(** Specification notions for shear areas: the bending stresses of a shear force, the work of a shear displacement, shear stress fields in equilibrium. *)
From Coquelicot Require Import Coquelicot.
From Coq Require Import Reals List Permutation.
From Verif Require Import Base S_Integral M_Fea S_Fem M_Post M_Section S_Section S_Warp S_Prandtl.
Import ListNotations.
Local Open Scope R_scope.

(** Rate of change along the beam of the bending stress (divided by the modulus) at (x, y), for a unit shear force in the direction (co, si). *)
Definition bending_rate (els : list tri6) (co si : R) (x y : R) : R :=
  let c := centroidal_of (section_totals els) in
  let det := p_ixx_c c * p_iyy_c c - p_ixy_c c ^ 2 in
  (co * p_ixx_c c - si * p_ixy_c c) / det * (x - p_cx c) + (si * p_iyy_c c - co * p_ixy_c c) / det * (y - p_cy c).

(** Twice the work of these stresses on an axial displacement v, less the energy of its shear strains. *)
Definition shear_work (els : list tri6) (co si : R) (v : nat -> R) : R :=
  E_int (fun el s t => 2 * bending_rate els co si (loc_x el s t) (loc_y el s t) * val v el s t - (ddx v el s t ^ 2 + ddy v el s t ^ 2)) els.

(** [m] is the greatest value of [f]. *)
Definition greatest {A : Type} (f : A -> R) (m : R) : Prop := (exists a, f a = m) /\ forall a, f a <= m.

(** The shear stresses (p, q) are in equilibrium with a unit shear force in the direction (co, si): inside the section they balance the change
    of the bending stresses, and no stress crosses the free sides. *)
Definition equilibrium (X Y : nat -> R) (els : list tri6) (co si : R) (p q : R -> R -> R) : Prop :=
  exists px py qx qy free, smooth p px py /\ smooth q qx qy /\
    (forall x y, px x y + qy x y = - bending_rate els co si x y) /\ free_sides els free /\
    forall a b m l, In (a, b, m) free -> 0 <= l <= 1 ->
      let x := X a + l * (X b - X a) in let y := Y a + l * (Y b - Y a) in
      p x y * (Y b - Y a) - q x y * (X b - X a) = 0.
