(** Specification notions for bending stresses and principal axes. *)
From Coq Require Import Reals List.
From Verif Require Import Base S_Integral M_Fea S_Fem M_Post S_Section.
Import ListNotations.
Local Open Scope R_scope.

(** Second moment about, and product of inertia for, axes rotated anticlockwise by the angle t (radians):
    integrals of (y cos t - x sin t)^2 and (x cos t + y sin t)(y cos t - x sin t). *)
Definition rot_ixx (ixx iyy ixy t : R) : R := ixx * cos t ^ 2 - 2 * ixy * sin t * cos t + iyy * sin t ^ 2.
Definition rot_iyy (ixx iyy ixy t : R) : R := iyy * cos t ^ 2 + 2 * ixy * sin t * cos t + ixx * sin t ^ 2.
Definition rot_ixy (ixx iyy ixy t : R) : R := ixy * (cos t ^ 2 - sin t ^ 2) + (ixx - iyy) * sin t * cos t.

(** Elastic bending stresses at a point p (global coordinates) of a material with modulus E for a moment
    M about the x-, y-, 11- and 22-axis. *)
Definition bend_xx (c : centroidal) (E M : R) (p : point) : R :=
  E * M * (p_iyy_c c * (snd p - p_cy c) - p_ixy_c c * (fst p - p_cx c)) /
  (p_ixx_c c * p_iyy_c c - p_ixy_c c ^ 2).
Definition bend_yy (c : centroidal) (E M : R) (p : point) : R :=
  - (E * M * (p_ixx_c c * (fst p - p_cx c) - p_ixy_c c * (snd p - p_cy c)) /
  (p_ixx_c c * p_iyy_c c - p_ixy_c c ^ 2)).
Definition bend_11 (c : centroidal) (E M : R) (p : point) : R :=
  E * M * snd (principal_coordinate (p_phi c) (fst p - p_cx c) (snd p - p_cy c)) / p_i11_c c.
Definition bend_22 (c : centroidal) (E M : R) (p : point) : R :=
  - (E * M * fst (principal_coordinate (p_phi c) (fst p - p_cx c) (snd p - p_cy c)) / p_i22_c c).

(** A node of a material group, with the group's material. *)
Definition group_node (groups : list (material * list tri6)) (m : material) (p : point) : Prop :=
  exists els el, In (m, els) groups /\ In el els /\ In p (el_nodes el).

(** [p] attains the largest value of h on the list l. *)
Definition attains_max (h : point -> R) (l : list point) (p : point) : Prop :=
  In p l /\ forall q, In q l -> h q <= h p.

(** Coordinates of a point in the principal axes through the centroid. *)
Definition pr11 (c : centroidal) (p : point) : point :=
  principal_coordinate (p_phi c) (fst p - p_cx c) (snd p - p_cy c).

(** The material groups cover the mesh and every element is in a group of its own material. *)
Definition groups_ok (groups : list (material * list tri6)) (els : list tri6) : Prop :=
  (forall m l el, In (m, l) groups -> In el l -> In el els /\ el_mat el = m) /\
  (forall el, In el els -> exists l, In (el_mat el, l) groups /\ In el l).

(** The node list contains the corners of all elements. *)
Definition mesh_nodes_in (els : list tri6) (nodes : list point) : Prop :=
  forall el q, In el els -> In q [corner_a el; corner_b el; corner_c el] -> In q nodes.

(** [my] is the yield moment for the stress [sig E M p] caused by the moment M at the point p of a
    material of modulus E: for no moment up to my does any point of the section exceed its yield
    strength, and at my some node attains it. *)
Definition is_yield_moment (els : list tri6) (sig : R -> R -> point -> R) (my : R) : Prop :=
  0 < my /\
  (forall M el p, Rabs M <= my -> In el els -> in_triangle (corner_a el) (corner_b el) (corner_c el) p ->
     Rabs (sig (m_E (el_mat el)) M p) <= m_fy (el_mat el)) /\
  (exists el p, In el els /\ In p (el_nodes el) /\ Rabs (sig (m_E (el_mat el)) my p) = m_fy (el_mat el)).

(** Componentwise sum of two sets of totals. *)
Definition add_totals (s t : totals) : totals :=
  mkTotals (t_area s + t_area t) (t_mass s + t_mass t) (t_ea s + t_ea t) (t_ga s + t_ga t)
    (t_qx s + t_qx t) (t_qy s + t_qy t) (t_ixx_g s + t_ixx_g t) (t_iyy_g s + t_iyy_g t)
    (t_ixy_g s + t_ixy_g t).
