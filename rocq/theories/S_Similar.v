(** Specification notions for two meshes of the same section in different positions and sizes. *)
From Coq Require Import Reals List Permutation.
From Verif Require Import Base S_Integral M_Fea S_Fem M_Post M_Section S_Section S_Warp.
Import ListNotations.
Local Open Scope R_scope.

(** A similarity of the plane: (x, y) goes to (a x - e b y + dx, b x + e a y + dy), with e = 1 (a rotation) or e = -1 (a
    reflection), followed by a scaling with the factor sqrt (a^2 + b^2). *)
Record similarity : Type := mkSim { s_a : R; s_b : R; s_e : R; s_dx : R; s_dy : R }.
Definition proper_sim (m : similarity) : Prop := (s_e m = 1 \/ s_e m = -1) /\ 0 < s_a m ^ 2 + s_b m ^ 2.
Definition sim_x (m : similarity) (x y : R) : R := s_a m * x - s_e m * s_b m * y + s_dx m.
Definition sim_y (m : similarity) (x y : R) : R := s_b m * x + s_e m * s_a m * y + s_dy m.
(** its linear part, for vectors *)
Definition lin_x (m : similarity) (x y : R) : R := s_a m * x - s_e m * s_b m * y.
Definition lin_y (m : similarity) (x y : R) : R := s_b m * x + s_e m * s_a m * y.
(** the square of the scale *)
Definition scale2 (m : similarity) : R := s_a m ^ 2 + s_b m ^ 2.
(** Rotation by an angle about the origin, mirror images in the axes, scaling, translation, and moves composed of them *)
Definition turned_by (t : R) : similarity := mkSim (cos t) (sin t) 1 0 0.
Definition in_x_axis : similarity := mkSim 1 0 (-1) 0 0.
Definition in_y_axis : similarity := mkSim (-1) 0 (-1) 0 0.
Definition scaled_by (k : R) : similarity := mkSim k 0 1 0 0.
Definition moved_by (dx dy : R) : similarity := mkSim 1 0 1 dx dy.

(** The image of an element; the nodes are renumbered by [p]. *)
Definition map_conn (p : nat -> nat) (c : conn6) : conn6 := mkConn (p (c0 c)) (p (c1 c)) (p (c2 c)) (p (c3 c)) (p (c4 c)) (p (c5 c)).
Definition move_el (m : similarity) (p : nat -> nat) (el : tri6) : tri6 :=
  mkTri (zip6 (sim_x m) (el_x el) (el_y el)) (zip6 (sim_y m) (el_x el) (el_y el)) (map_conn p (el_ids el)) (el_mat el).
(** The same triangle with its corners listed from the second one on. ([flip_el] of S_Section lists them in the other sense.) *)
Definition turn6 (v : V6) : V6 := mkV6 (v1 v) (v2 v) (v0 v) (v4 v) (v5 v) (v3 v).
Definition turn_conn (c : conn6) : conn6 := mkConn (c1 c) (c2 c) (c0 c) (c4 c) (c5 c) (c3 c).
Definition turn_el (el : tri6) : tri6 := mkTri (turn6 (el_x el)) (turn6 (el_y el)) (turn_conn (el_ids el)) (el_mat el).
Inductive relisted (el : tri6) : tri6 -> Prop :=
| rl_same : relisted el el
| rl_turn : forall el', relisted el el' -> relisted el (turn_el el')
| rl_flip : forall el', relisted el el' -> relisted el (flip_el el').

(** [p] renumbers the nodes 0 .. n-1; [q] is its inverse. *)
Definition renumbering (n : nat) (p q : nat -> nat) : Prop := forall i, (i < n)%nat -> (p i < n)%nat /\ q (p i) = i.
(** The mesh [els'] is the image of the mesh [els], with its nodes numbered by [p], its elements in any order, and the corners of each
    element listed from any one of them. *)
Definition mesh_image (m : similarity) (p : nat -> nat) (els els' : list tri6) : Prop :=
  exists l, Permutation l els' /\ Forall2 (fun el el' => relisted (move_el m p el) el') els l.

(** The principal angle is that of the computed moments: the analysis sets it to zero when ixx and i11 agree to twelve digits. *)
Definition axes_found (els : list tri6) : Prop :=
  let c := centroidal_of (section_totals els) in ~ Rabs (p_ixx_c c - p_i11_c c) < 1 / 10 ^ 12 * p_i11_c c.

(** How the results of the second section follow from those of the first one. Areas are multiplied by the square k2 of the scale, the
    centroid is the image of the centroid, and the second moments form a tensor. *)
Definition moved_geometry (m : similarity) (els els' : list tri6) : Prop :=
  let t := section_totals els in let t' := section_totals els' in let c := centroidal_of t in let c' := centroidal_of t' in
  let a := s_a m in let b := s_b m in let e := s_e m in let k2 := scale2 m in
  t_area t' = k2 * t_area t /\ t_mass t' = k2 * t_mass t /\ t_ea t' = k2 * t_ea t /\ t_ga t' = k2 * t_ga t /\
  p_cx c' = sim_x m (p_cx c) (p_cy c) /\ p_cy c' = sim_y m (p_cx c) (p_cy c) /\
  p_ixx_c c' = k2 * (a ^ 2 * p_ixx_c c + 2 * e * a * b * p_ixy_c c + b ^ 2 * p_iyy_c c) /\
  p_iyy_c c' = k2 * (b ^ 2 * p_ixx_c c - 2 * e * a * b * p_ixy_c c + a ^ 2 * p_iyy_c c) /\
  p_ixy_c c' = k2 * (e * (a ^ 2 - b ^ 2) * p_ixy_c c + a * b * (p_iyy_c c - p_ixx_c c)) /\
  p_i11_c c' = k2 ^ 2 * p_i11_c c /\ p_i22_c c' = k2 ^ 2 * p_i22_c c.
(** The torsion constant, the elastic shear centre (given from the centroid, so only the linear part acts), and the shear areas,
    whose reciprocals form a tensor. (The reciprocal of an infinite shear area is zero; so is that of Coq's 1 / 0.) *)
Definition moved_results (m : similarity) (w w' : warping) : Prop :=
  let a := s_a m in let b := s_b m in let e := s_e m in let k2 := scale2 m in
  w_j w' = k2 ^ 2 * w_j w /\
  w_x_se w' = lin_x m (w_x_se w) (w_y_se w) /\ w_y_se w' = lin_y m (w_x_se w) (w_y_se w) /\
  k2 ^ 2 * / w_a_sx w' = a ^ 2 * / w_a_sx w - 2 * e * a * b * / w_a_sxy w + b ^ 2 * / w_a_sy w /\
  k2 ^ 2 * / w_a_sy w' = b ^ 2 * / w_a_sx w + 2 * e * a * b * / w_a_sxy w + a ^ 2 * / w_a_sy w /\
  k2 ^ 2 * / w_a_sxy w' = a * b * (/ w_a_sx w - / w_a_sy w) + e * (a ^ 2 - b ^ 2) * / w_a_sxy w.
(** The Trefftz shear centre and the warping constant *)
Definition moved_moments (m : similarity) (w w' : warping) : Prop :=
  w_x_st w' = lin_x m (w_x_st w) (w_y_st w) /\ w_y_st w' = lin_y m (w_x_st w) (w_y_st w) /\ w_gamma w' = scale2 m ^ 3 * w_gamma w.
(** Results about the principal axes; [sg] tells which of the two senses of the 11-axis was chosen. *)
Definition moved_principal (m : similarity) (sg : R) (w w' : warping) : Prop :=
  let e := s_e m in let k2 := scale2 m in let k := sqrt (scale2 m) in
  w_x11_se w' = sg * k * w_x11_se w /\ w_y22_se w' = sg * e * k * w_y22_se w /\ w_a_s11 w' = k2 * w_a_s11 w /\ w_a_s22 w' = k2 * w_a_s22 w /\
  w_beta_11_plus w' = sg * e * k * w_beta_11_plus w /\ w_beta_11_minus w' = sg * e * k * w_beta_11_minus w /\
  w_beta_22_plus w' = sg * k * w_beta_22_plus w /\ w_beta_22_minus w' = sg * k * w_beta_22_minus w.
(** ixx (2 y_se - beta_x) and iyy (2 x_se - beta_y), the third moments of the section, are the coordinates of a vector. *)
Definition moved_third_moments (m : similarity) (els els' : list tri6) (w w' : warping) : Prop :=
  let c := centroidal_of (section_totals els) in let c' := centroidal_of (section_totals els') in
  let u := p_iyy_c c * (2 * w_x_se w - w_beta_y_plus w) in let v := p_ixx_c c * (2 * w_y_se w - w_beta_x_plus w) in
  p_iyy_c c' * (2 * w_x_se w' - w_beta_y_plus w') = scale2 m ^ 2 * lin_x m u v /\
  p_ixx_c c' * (2 * w_y_se w' - w_beta_x_plus w') = scale2 m ^ 2 * lin_y m u v /\
  w_beta_x_minus w' = - w_beta_x_plus w' /\ w_beta_y_minus w' = - w_beta_y_plus w'.

(** The mesh is its own mirror image in the line x = x0 (y = y0), or its own image under a half turn about (x0, y0). *)
Definition symmetric_about_x (x0 : R) (n : nat) (els : list tri6) : Prop :=
  exists p q, renumbering n p q /\ mesh_image (mkSim (-1) 0 (-1) (2 * x0) 0) p els els.
Definition symmetric_about_y (y0 : R) (n : nat) (els : list tri6) : Prop :=
  exists p q, renumbering n p q /\ mesh_image (mkSim 1 0 (-1) 0 (2 * y0)) p els els.
Definition half_turn_symmetric (x0 y0 : R) (n : nat) (els : list tri6) : Prop :=
  exists p q, renumbering n p q /\ mesh_image (mkSim (-1) 0 1 (2 * x0) (2 * y0)) p els els.
(** The mesh is its own image under a quarter turn. *)
Definition quarter_turn_symmetric (x0 y0 : R) (n : nat) (els : list tri6) : Prop :=
  exists p q, renumbering n p q /\ mesh_image (mkSim 0 1 1 (x0 + y0) (y0 - x0)) p els els.

(** [w] and [w'] are the results of warping analyses (with exact solvers) of a mesh and of its image under a similarity. *)
Definition analysed_image (n : nat) (m : similarity) (p q : nat -> nat) (els els' : list tri6) (composite : bool) (w w' : warping) : Prop :=
  proper_sim m /\ renumbering n p q /\ mesh_image m p els els' /\ physical_nu els /\
  (exists X Y solve, analysed n X Y els solve composite w) /\ (exists X' Y' solve', analysed n X' Y' els' solve' composite w').
