(** Specification notions for the error of a stress field. *)
From Coquelicot Require Import Coquelicot.
From Coq Require Import Reals List.
From Verif Require Import Base S_Integral M_Fea S_Fem M_Post M_Section S_Section S_Warp.
Import ListNotations.
Local Open Scope R_scope.

(** The integral over the mesh of the squared length of the difference between the shear stresses (zx, zy), given element by element in local
    coordinates, and the shear stresses (p, q), given at the points of the plane. *)
Definition square_error (els : list tri6) (zx zy : tri6 -> R -> R -> R) (p q : R -> R -> R) : R :=
  field_int (fun el s t => (zx el s t - p (loc_x el s t) (loc_y el s t)) ^ 2 + (zy el s t - q (loc_x el s t) (loc_y el s t)) ^ 2) els.

(** (co, si) is one of the four directions with a shear area in the results, and [ar] is this area. *)
Definition force_direction (els : list tri6) (w : warping) (co si ar : R) : Prop :=
  let phi := p_phi (centroidal_of (section_totals els)) * PI / 180 in
  In (co, si, ar) [(1, 0, w_a_sx w); (0, 1, w_a_sy w); (cos phi, sin phi, w_a_s11 w); (- sin phi, cos phi, w_a_s22 w)].
