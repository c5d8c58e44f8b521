(** Model of post/post.py (class SectionProperties) and of the property accumulation in
    analysis/section.py calculate_geometric_properties / calculate_frame_properties. *)
From Coq Require Import Reals List.
From Verif Require Import Base M_Fea.
Import ListNotations.
Local Open Scope R_scope.

(** numpy.arctan2 on real numbers (signed zeros are not modelled). *)
Definition atan2 (y x : R) : R :=
  if Rlt_dec 0 x then atan (y / x)
  else if Rlt_dec x 0 then
    (if Rle_dec 0 y then atan (y / x) + PI else atan (y / x) - PI)
  else if Rlt_dec 0 y then PI / 2
  else if Rlt_dec y 0 then - (PI / 2)
  else 0.

(** The totals accumulated over the elements. *)
Record totals : Type := mkTotals {
  t_area : R; t_mass : R; t_ea : R; t_ga : R;
  t_qx : R; t_qy : R; t_ixx_g : R; t_iyy_g : R; t_ixy_g : R }.

Definition zero_totals : totals := mkTotals 0 0 0 0 0 0 0 0 0.

(** section.py 233-253: body of the element loop *)
Definition add_element (t : totals) (el : tri6) : totals :=
  let o := geometric_properties el in
  mkTotals
    (t_area t + ge_area o)
    (t_mass t + ge_area o * ge_rho o)
    (t_ea t + ge_area o * ge_e o)
    (t_ga t + ge_area o * ge_g o)
    (t_qx t + ge_qx o * ge_e o)
    (t_qy t + ge_qy o * ge_e o)
    (t_ixx_g t + ge_ixx o * ge_e o)
    (t_iyy_g t + ge_iyy o * ge_e o)
    (t_ixy_g t + ge_ixy o * ge_e o).

(** section.py 210-253 *)
Definition section_totals (els : list tri6) : totals := fold_left add_element els zero_totals.

(** Results derived from the totals by post.py. *)
Record centroidal : Type := mkCentroidal {
  p_cx : R; p_cy : R;
  p_ixx_c : R; p_iyy_c : R; p_ixy_c : R;
  p_i11_c : R; p_i22_c : R; p_phi : R }.

(** post.py 280-282: principal second moments *)
Definition principal_delta (ixx iyy ixy : R) : R := sqrt (((ixx - iyy) / 2) ^ 2 + ixy ^ 2).
Definition principal_i11 (ixx iyy ixy : R) : R := (ixx + iyy) / 2 + principal_delta ixx iyy ixy.
Definition principal_i22 (ixx iyy ixy : R) : R := (ixx + iyy) / 2 - principal_delta ixx iyy ixy.

(** post.py 284-288 (and section.py 980-984): principal axis angle in degrees *)
Definition principal_phi (ixx ixy i11 : R) : R :=
  if Rlt_dec (Rabs (ixx - i11)) (1 / 10 ^ 12 * i11) then 0
  else atan2 (ixx - i11) ixy * 180 / PI.

(** post.py 226-237 calculate_elastic_centroid and 260-262, 280-288 of
    calculate_centroidal_properties. (Python's guards against missing totals are in M_State.v.) *)
Definition centroidal_of (t : totals) : centroidal :=
  let cx := t_qy t / t_ea t in
  let cy := t_qx t / t_ea t in
  let ixx := t_ixx_g t - (t_qx t) ^ 2 / t_ea t in
  let iyy := t_iyy_g t - (t_qy t) ^ 2 / t_ea t in
  let ixy := t_ixy_g t - t_qx t * t_qy t / t_ea t in
  let i11 := principal_i11 ixx iyy ixy in
  let i22 := principal_i22 ixx iyy ixy in
  mkCentroidal cx cy ixx iyy ixy i11 i22 (principal_phi ixx ixy i11).

(** section.py 258-262: effective moduli *)
Definition nu_eff (t : totals) : R := t_ea t / (2 * t_ga t) - 1.
Definition e_eff (t : totals) : R := t_ea t / t_area t.
Definition g_eff (t : totals) : R := t_ga t / t_area t.

(** Section moduli and radii of gyration. *)
Record moduli : Type := mkModuli {
  z_xx_plus : R; z_xx_minus : R; z_yy_plus : R; z_yy_minus : R;
  z_rx : R; z_ry : R;
  z_11_plus : R; z_11_minus : R; z_22_plus : R; z_22_minus : R;
  z_r11 : R; z_r22 : R }.

(** numpy max / min of a column: nodes[:, k].max() with at least one row *)
Definition lmax (x : R) (l : list R) : R := fold_left Rmax l x.
Definition lmin (x : R) (l : list R) : R := fold_left Rmin l x.

(** post.py 264-277, 290-328: section moduli, radii of gyration. [n0 :: ns] are the mesh nodes; an
    empty node list makes numpy raise ValueError. *)
Definition moduli_of (t : totals) (c : centroidal) (nodes : list (R * R)) : result moduli :=
  match nodes with
  | [] => Err ValueError
  | n0 :: ns =>
    let xmax := lmax (fst n0) (map fst ns) in
    let xmin := lmin (fst n0) (map fst ns) in
    let ymax := lmax (snd n0) (map snd ns) in
    let ymin := lmin (snd n0) (map snd ns) in
    let pc (p : R * R) := principal_coordinate (p_phi c) (fst p - p_cx c) (snd p - p_cy c) in
    let x1max := lmax (fst (pc n0)) (map (fun p => fst (pc p)) ns) in
    let x1min := lmin (fst (pc n0)) (map (fun p => fst (pc p)) ns) in
    let y2max := lmax (snd (pc n0)) (map (fun p => snd (pc p)) ns) in
    let y2min := lmin (snd (pc n0)) (map (fun p => snd (pc p)) ns) in
    Ok (mkModuli
      (p_ixx_c c / Rabs (ymax - p_cy c))
      (p_ixx_c c / Rabs (ymin - p_cy c))
      (p_iyy_c c / Rabs (xmax - p_cx c))
      (p_iyy_c c / Rabs (xmin - p_cx c))
      (sqrt (p_ixx_c c / t_ea t))
      (sqrt (p_iyy_c c / t_ea t))
      (p_i11_c c / Rabs y2max)
      (p_i11_c c / Rabs y2min)
      (p_i22_c c / Rabs x1max)
      (p_i22_c c / Rabs x1min)
      (sqrt (p_i11_c c / t_ea t))
      (sqrt (p_i22_c c / t_ea t)))
  end.

(** The nodes of an element as a list of points (el.coords.transpose()). *)
Definition el_nodes (el : tri6) : list (R * R) :=
  [ (v0 (el_x el), v0 (el_y el)); (v1 (el_x el), v1 (el_y el)); (v2 (el_x el), v2 (el_y el));
    (v3 (el_x el), v3 (el_y el)); (v4 (el_x el), v4 (el_y el)); (v5 (el_x el), v5 (el_y el)) ].

(** Yield indexes / yield moments for the four axes. *)
Record quad_idx : Type := mkIdx { q_xx : R; q_yy : R; q_11 : R; q_22 : R }.

(** section.py 315-330: stresses due to unit moments at a node *)
Definition unit_stress (c : centroidal) (em : R) (pt : R * R) : quad_idx :=
  let x := fst pt - p_cx c in
  let y := snd pt - p_cy c in
  let '(x11, y22) := principal_coordinate (p_phi c) x y in
  let ixx := p_ixx_c c in
  let iyy := p_iyy_c c in
  let ixy := p_ixy_c c in
  let d := ixx * iyy - ixy ^ 2 in
  mkIdx
    (em * (- ixy / d * x + iyy / d * y))
    (em * (- ixx / d * x + ixy / d * y))
    (em / p_i11_c c * y22)
    (- em / p_i22_c c * x11).

(** section.py 332-336: update the yield indexes *)
Definition upd_yield (c : centroidal) (m : material) (acc : quad_idx) (pt : R * R) : quad_idx :=
  let s := unit_stress c (m_E m) pt in
  mkIdx
    (Rmax (q_xx acc) (Rabs (q_xx s / m_fy m)))
    (Rmax (q_yy acc) (Rabs (q_yy s / m_fy m)))
    (Rmax (q_11 acc) (Rabs (q_11 s / m_fy m)))
    (Rmax (q_22 acc) (Rabs (q_22 s / m_fy m))).

(** section.py 284-336: the three nested loops over groups, elements and nodes. A group is its
    material with its list of elements. *)
Definition yield_index (c : centroidal) (groups : list (material * list tri6)) : quad_idx :=
  fold_left
    (fun acc g =>
       fold_left (fun acc el => fold_left (upd_yield c (fst g)) (el_nodes el) acc) (snd g) acc)
    groups (mkIdx 0 0 0 0).

(** section.py 338-342: yield moments *)
Definition yield_moments (c : centroidal) (groups : list (material * list tri6)) : quad_idx :=
  let yi := yield_index c groups in
  mkIdx (1 / q_xx yi) (1 / q_yy yi) (1 / q_11 yi) (1 / q_22 yi).
