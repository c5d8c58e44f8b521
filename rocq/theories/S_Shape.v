(** Specification notions relating plastic and elastic bending. *)
From Coq Require Import Reals List.
From Verif Require Import Base S_Integral M_Fea S_Fem S_Section M_Section S_Post M_Props M_Plastic S_Plastic M_Post.
Import ListNotations.
Local Open Scope R_scope.

(** Second moment of area, elastic section moduli and yield moment about each of the four axes. *)
Definition inertia_of (c : centroidal) (k : axis) : R :=
  match k with axis_x => p_ixx_c c | axis_y => p_iyy_c c | axis_11 => p_i11_c c | axis_22 => p_i22_c c end.
Definition z_plus (m : moduli) (k : axis) : R :=
  match k with axis_x => z_xx_plus m | axis_y => z_yy_plus m | axis_11 => z_11_plus m | axis_22 => z_22_plus m end.
Definition z_minus (m : moduli) (k : axis) : R :=
  match k with axis_x => z_xx_minus m | axis_y => z_yy_minus m | axis_11 => z_11_minus m | axis_22 => z_22_minus m end.
Definition my_of (q : quad_idx) (k : axis) : R :=
  match k with axis_x => q_xx q | axis_y => q_yy q | axis_11 => q_11 q | axis_22 => q_22 q end.
Definition sf_plus_prop (k : axis) : prop :=
  match k with axis_x => p_sf_xx_plus | axis_y => p_sf_yy_plus | axis_11 => p_sf_11_plus | axis_22 => p_sf_22_plus end.
Definition sf_minus_prop (k : axis) : prop :=
  match k with axis_x => p_sf_xx_minus | axis_y => p_sf_yy_minus | axis_11 => p_sf_11_minus | axis_22 => p_sf_22_minus end.
Definition z_plus_prop (k : axis) : prop :=
  match k with axis_x => p_zxx_plus | axis_y => p_zyy_plus | axis_11 => p_z11_plus | axis_22 => p_z22_plus end.
Definition z_minus_prop (k : axis) : prop :=
  match k with axis_x => p_zxx_minus | axis_y => p_zyy_minus | axis_11 => p_z11_minus | axis_22 => p_z22_minus end.
Definition my_prop (k : axis) : prop :=
  match k with axis_x => p_my_xx | axis_y => p_my_yy | axis_11 => p_my_11 | axis_22 => p_my_22 end.
(** The other axis of the pair (x, y) or (11, 22). *)
Definition partner (k : axis) : axis :=
  match k with axis_x => axis_y | axis_y => axis_x | axis_11 => axis_22 | axis_22 => axis_11 end.

(** The integral of E times the squared distance from the centroidal line perpendicular to [n]. *)
Definition about (els : list tri6) (n : R * R) : R :=
  let c := centroidal_of (section_totals els) in
  mesh_int m_E (fun x y => height n (x - p_cx c) (y - p_cy c) ^ 2) els.

(** The mesh of the section, moved by (sx, sy), and the regions of the plastic geometry are the same section. *)
Definition same_section (els : list tri6) (sx sy : R) (shapes : list (list mtri)) : Prop :=
  same_boundary (mesh_edges (map (translate_el sx sy) els)) (region_edges (concat shapes)).

(** The relative tolerance with which the 11-axis of the code is the axis of the largest second moment (the code
    keeps phi = 0 when Ixx is within 1e-12 of I11); the other axes are exact. *)
Definition axis_tol (k : axis) : R := match k with axis_11 => 1 / 10 ^ 12 | _ => 0 end.
