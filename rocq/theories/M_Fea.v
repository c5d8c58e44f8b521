(** Model of src/sectionproperties/analysis/fea.py. Definitions only.
    Floating point numbers are modelled by R. The [njit] and [cache] decorators are ignored
    (fea.py 23-59): the decorated functions are pure. *)
From Coq Require Import Reals List ZArith.
From Verif Require Import Base.
Import ListNotations.
Local Open Scope R_scope.

(** pre/pre.py 11-64: the numeric fields of the frozen dataclass [Material]
    (name and colour play no role in the numerical analysis; they are added in M_State.v where
    equality of materials matters). *)
Record material : Type := mkMat {
  m_E : R;      (* elastic_modulus *)
  m_nu : R;     (* poissons_ratio *)
  m_fy : R;     (* yield_strength *)
  m_rho : R     (* density *)
}.

(** pre/pre.py 66-76: Material.shear_modulus *)
Definition shear_modulus (m : material) : R := m_E m / (2 * (1 + m_nu m)).

(** A row of the array returned by [gauss_points]: weight and three area coordinates. *)
Record gp : Type := mkGp { g_w : R; g_eta : R; g_xi : R; g_zeta : R }.

(** fea.py 919-984: gauss_points. One list for each supported n. *)
Definition gps1 : list gp := [mkGp 1 (1/3) (1/3) (1/3)].

Definition gps3 : list gp :=
  [ mkGp (1/3) (2/3) (1/6) (1/6);
    mkGp (1/3) (1/6) (2/3) (1/6);
    mkGp (1/3) (1/6) (1/6) (2/3) ].

Definition gps4 : list gp :=
  [ mkGp (-27/48) (1/3) (1/3) (1/3);
    mkGp (25/48) (6/10) (2/10) (2/10);
    mkGp (25/48) (2/10) (6/10) (2/10);
    mkGp (25/48) (2/10) (2/10) (6/10) ].

Definition g6_g1 : R := 1 / 18 * (8 - sqrt 10 + sqrt (38 - 44 * sqrt (2 / 5))).
Definition g6_g2 : R := 1 / 18 * (8 - sqrt 10 - sqrt (38 - 44 * sqrt (2 / 5))).
Definition g6_w1 : R := (620 + sqrt (213125 - 53320 * sqrt 10)) / 3720.
Definition g6_w2 : R := (620 - sqrt (213125 - 53320 * sqrt 10)) / 3720.

Definition gps6 : list gp :=
  [ mkGp g6_w2 (1 - 2 * g6_g2) g6_g2 g6_g2;
    mkGp g6_w2 g6_g2 (1 - 2 * g6_g2) g6_g2;
    mkGp g6_w2 g6_g2 g6_g2 (1 - 2 * g6_g2);
    mkGp g6_w1 g6_g1 g6_g1 (1 - 2 * g6_g1);
    mkGp g6_w1 (1 - 2 * g6_g1) g6_g1 g6_g1;
    mkGp g6_w1 g6_g1 (1 - 2 * g6_g1) g6_g1 ].

Definition gauss_points (n : Z) : result (list gp) :=
  if Z.eqb n 1 then Ok gps1
  else if Z.eqb n 3 then Ok gps3
  else if Z.eqb n 4 then Ok gps4
  else if Z.eqb n 6 then Ok gps6
  else Err ValueError.

(** fea.py 1014-1024 (and the same table in shape_function_only, 1085-1096):
    values of the shape functions *)
Definition shape_n (eta xi zeta : R) : V6 :=
  mkV6 (eta * (2 * eta - 1))
       (xi * (2 * xi - 1))
       (zeta * (2 * zeta - 1))
       (4 * eta * xi)
       (4 * xi * zeta)
       (4 * eta * zeta).

(** fea.py 1074-1096: shape_function_only, a separate copy of the table *)
Definition shape_function_only (p : R * R * R) : V6 :=
  let '(eta, xi, zeta) := p in
  mkV6 (eta * (2 * eta - 1))
       (xi * (2 * xi - 1))
       (zeta * (2 * zeta - 1))
       (4 * eta * xi)
       (4 * xi * zeta)
       (4 * eta * zeta).

(** fea.py 1026-1034: derivatives of the shape functions wrt the isoparametric coordinates,
    one row per coordinate *)
Definition b_iso0 (eta xi zeta : R) : V6 := mkV6 (4 * eta - 1) 0 0 (4 * xi) 0 (4 * zeta).
Definition b_iso1 (eta xi zeta : R) : V6 := mkV6 0 (4 * xi - 1) 0 (4 * eta) (4 * zeta) 0.
Definition b_iso2 (eta xi zeta : R) : V6 := mkV6 0 0 (4 * zeta - 1) 0 (4 * xi) (4 * eta).

(** A 3x3 matrix given by its rows. *)
Record M3 : Type := mkM3 {
  j00 : R; j01 : R; j02 : R;
  j10 : R; j11 : R; j12 : R;
  j20 : R; j21 : R; j22 : R }.

(** np.linalg.det of a 3x3 matrix *)
Definition det3 (m : M3) : R :=
  j00 m * (j11 m * j22 m - j12 m * j21 m)
  - j01 m * (j10 m * j22 m - j12 m * j20 m)
  + j02 m * (j10 m * j21 m - j11 m * j20 m).

(** fea.py 1038-1040: the Jacobian matrix, first column ones, then b_iso @ coords^T *)
Definition jac (xs ys : V6) (eta xi zeta : R) : M3 :=
  mkM3 1 (dot6 (b_iso0 eta xi zeta) xs) (dot6 (b_iso0 eta xi zeta) ys)
       1 (dot6 (b_iso1 eta xi zeta) xs) (dot6 (b_iso1 eta xi zeta) ys)
       1 (dot6 (b_iso2 eta xi zeta) xs) (dot6 (b_iso2 eta xi zeta) ys).

(** np.linalg.solve(j, rhs), rows 1 and 2 of the solution for one column (a0,a1,a2) of the
    right hand side. np.linalg.solve returns the unique solution of a regular system; it is
    written here with Cramer's rule (that it solves the system is lemma solve_col_correct in P_Fea.v). *)
Definition solve_row1 (m : M3) (a0 a1 a2 : R) : R :=
  (j00 m * (a1 * j22 m - j12 m * a2)
   - a0 * (j10 m * j22 m - j12 m * j20 m)
   + j02 m * (j10 m * a2 - a1 * j20 m)) / det3 m.

Definition solve_row2 (m : M3) (a0 a1 a2 : R) : R :=
  (j00 m * (j11 m * a2 - a1 * j21 m)
   - j01 m * (j10 m * a2 - a1 * j20 m)
   + a0 * (j10 m * j21 m - j11 m * j20 m)) / det3 m.

(** One row of [tmp_array @ np.linalg.solve(j, b_iso)] : the six columns of b_iso in turn *)
Definition solve_rows (f : M3 -> R -> R -> R -> R) (m : M3) (b0 b1 b2 : V6) : V6 :=
  mkV6 (f m (v0 b0) (v0 b1) (v0 b2)) (f m (v1 b0) (v1 b1) (v1 b2))
       (f m (v2 b0) (v2 b1) (v2 b2)) (f m (v3 b0) (v3 b1) (v3 b2))
       (f m (v4 b0) (v4 b1) (v4 b2)) (f m (v5 b0) (v5 b1) (v5 b2)).

(** The tuple (n, b, jacobian, nx, ny) returned by shape_function; b has two rows. *)
Record shape_out : Type := mkShape {
  sh_n : V6;
  sh_b0 : V6;
  sh_b1 : V6;
  sh_j : R;
  sh_nx : R;
  sh_ny : R
}.

(** fea.py 990-1048 and 1051-1071: shape_function (weight of the gauss point is dropped by
    [gauss_point[1:]]) *)
Definition shape_function (xs ys : V6) (g : gp) : shape_out :=
  let eta := g_eta g in
  let xi := g_xi g in
  let zeta := g_zeta g in
  let n := shape_n eta xi zeta in
  let m := jac xs ys eta xi zeta in
  let jacobian := 1 / 2 * det3 m in
  let b0 := b_iso0 eta xi zeta in
  let b1 := b_iso1 eta xi zeta in
  let b2 := b_iso2 eta xi zeta in
  let nonzero := if Req_EM_T jacobian 0 then false else true in
  mkShape n
    (if nonzero then solve_rows solve_row1 m b0 b1 b2 else zero6)
    (if nonzero then solve_rows solve_row2 m b0 b1 b2 else zero6)
    jacobian
    (dot6 xs n)
    (dot6 ys n).

(** The six global node numbers of an element. *)
Record conn6 : Type := mkConn { c0 : nat; c1 : nat; c2 : nat; c3 : nat; c4 : nat; c5 : nat }.

(** fea.py 218-237: class Tri6 (el_id is not used by the numerical code). [coords] is split into
    its two rows. *)
Record tri6 : Type := mkTri { el_x : V6; el_y : V6; el_ids : conn6; el_mat : material }.

(** Return value of geometric_properties. *)
Record geom_out : Type := mkGeomOut {
  ge_area : R; ge_qx : R; ge_qy : R; ge_ixx : R; ge_iyy : R; ge_ixy : R;
  ge_e : R; ge_g : R; ge_rho : R }.

(** fea.py 274-320: Tri6.geometric_properties *)
Definition geometric_properties (el : tri6) : geom_out :=
  fold_left
    (fun acc g =>
       let s := shape_function (el_x el) (el_y el) g in
       let weight := g_w g * sh_j s in
       mkGeomOut
         (ge_area acc + weight)
         (ge_qx acc + weight * sh_ny s)
         (ge_qy acc + weight * sh_nx s)
         (ge_ixx acc + weight * (sh_ny s) ^ 2)
         (ge_iyy acc + weight * (sh_nx s) ^ 2)
         (ge_ixy acc + weight * sh_ny s * sh_nx s)
         (ge_e acc) (ge_g acc) (ge_rho acc))
    gps4
    (mkGeomOut 0 0 0 0 0 0 (m_E (el_mat el)) (shear_modulus (el_mat el)) (m_rho (el_mat el))).

(** A 6x6 matrix given by its rows. *)
Record M6 : Type := mkM6 { r0 : V6; r1 : V6; r2 : V6; r3 : V6; r4 : V6; r5 : V6 }.
Definition zeroM6 : M6 := mkM6 zero6 zero6 zero6 zero6 zero6 zero6.
Definition addM6 (a b : M6) : M6 :=
  mkM6 (add6 (r0 a) (r0 b)) (add6 (r1 a) (r1 b)) (add6 (r2 a) (r2 b))
       (add6 (r3 a) (r3 b)) (add6 (r4 a) (r4 b)) (add6 (r5 a) (r5 b)).
Definition mulM6 (m : M6) (v : V6) : V6 :=
  mkV6 (dot6 (r0 m) v) (dot6 (r1 m) v) (dot6 (r2 m) v)
       (dot6 (r3 m) v) (dot6 (r4 m) v) (dot6 (r5 m) v).
(** the matrix with entries u_i v_j *)
Definition outer6 (u v : V6) : M6 :=
  mkM6 (scal6 (v0 u) v) (scal6 (v1 u) v) (scal6 (v2 u) v)
       (scal6 (v3 u) v) (scal6 (v4 u) v) (scal6 (v5 u) v).
Definition scalM6 (k : R) (m : M6) : M6 :=
  mkM6 (scal6 k (r0 m)) (scal6 k (r1 m)) (scal6 k (r2 m))
       (scal6 k (r3 m)) (scal6 k (r4 m)) (scal6 k (r5 m)).

(** [b.transpose() @ [p, q]] for the 2x6 matrix b with rows b0, b1 *)
Definition bT2 (b0 b1 : V6) (p q : R) : V6 := add6 (scal6 p b0) (scal6 q b1).

(** fea.py 62-92: _assemble_torsion *)
Definition assemble_torsion_gp (k : M6) (f c : V6) (n b0 b1 : V6) (weight nx ny : R)
  : M6 * V6 * V6 :=
  (addM6 k (scalM6 weight (addM6 (outer6 b0 b0) (outer6 b1 b1))),
   add6 f (scal6 weight (bT2 b0 b1 ny (- nx))),
   add6 c (scal6 weight n)).

(** fea.py 322-351: Tri6.torsion_properties *)
Definition torsion_properties (el : tri6) : M6 * V6 * V6 :=
  fold_left
    (fun acc g =>
       let '(k, f, c) := acc in
       let s := shape_function (el_x el) (el_y el) g in
       let weight := g_w g * sh_j s * m_E (el_mat el) in
       assemble_torsion_gp k f c (sh_n s) (sh_b0 s) (sh_b1 s) weight (sh_nx s) (sh_ny s))
    gps4 (zeroM6, zero6, zero6).

(** Return value of _shear_parameter. *)
Record shear_par : Type := mkShearPar {
  sp_r : R; sp_q : R; sp_d1 : R; sp_d2 : R; sp_h1 : R; sp_h2 : R }.

(** fea.py 95-122: _shear_parameter *)
Definition shear_parameter (nx ny ixx iyy ixy : R) : shear_par :=
  let r := nx ^ 2 - ny ^ 2 in
  let q := 2 * nx * ny in
  mkShearPar r q
    (ixx * r - ixy * q)
    (ixy * r + ixx * q)
    (- ixy * r + iyy * q)
    (- iyy * r - ixy * q).

(** fea.py 125-167: _assemble_shear_load *)
Definition assemble_shear_load_gp (f_psi f_phi : V6) (b0 b1 n : V6)
  (weight nx ny ixx iyy ixy nu : R) : V6 * V6 :=
  let sp := shear_parameter nx ny ixx iyy ixy in
  (add6 f_psi
     (scal6 weight
        (add6 (scal6 (nu / 2) (bT2 b0 b1 (sp_d1 sp) (sp_d2 sp)))
              (scal6 (2 * (1 + nu) * (ixx * nx - ixy * ny)) n))),
   add6 f_phi
     (scal6 weight
        (add6 (scal6 (nu / 2) (bT2 b0 b1 (sp_h1 sp) (sp_h2 sp)))
              (scal6 (2 * (1 + nu) * (iyy * ny - ixy * nx)) n)))).

(** fea.py 353-399: Tri6.shear_load_vectors *)
Definition shear_load_vectors (el : tri6) (ixx iyy ixy nu : R) : V6 * V6 :=
  fold_left
    (fun acc g =>
       let '(f_psi, f_phi) := acc in
       let s := shape_function (el_x el) (el_y el) g in
       let weight := g_w g * sh_j s * m_E (el_mat el) in
       assemble_shear_load_gp f_psi f_phi (sh_b0 s) (sh_b1 s) (sh_n s)
         weight (sh_nx s) (sh_ny s) ixx iyy ixy nu)
    gps4 (zero6, zero6).

(** Return value of shear_warping_integrals. *)
Record warp_int : Type := mkWarpInt {
  wi_scx : R; wi_scy : R; wi_q : R; wi_i : R; wi_ix : R; wi_iy : R }.

Definition zero_warp_int : warp_int := mkWarpInt 0 0 0 0 0 0.

(** fea.py 401-448: Tri6.shear_warping_integrals *)
Definition shear_warping_integrals (el : tri6) (ixx iyy ixy : R) (omega : V6) : warp_int :=
  fold_left
    (fun acc g =>
       let s := shape_function (el_x el) (el_y el) g in
       let weight := g_w g * sh_j s * m_E (el_mat el) in
       let nx := sh_nx s in
       let ny := sh_ny s in
       let n_omega := dot6 (sh_n s) omega in
       mkWarpInt
         (wi_scx acc + weight * (iyy * nx + ixy * ny) * (nx ^ 2 + ny ^ 2))
         (wi_scy acc + weight * (ixx * ny + ixy * nx) * (nx ^ 2 + ny ^ 2))
         (wi_q acc + weight * n_omega)
         (wi_i acc + weight * n_omega ^ 2)
         (wi_ix acc + weight * nx * n_omega)
         (wi_iy acc + weight * ny * n_omega))
    gps4 zero_warp_int.

(** fea.py 170-215: _assemble_shear_coefficients *)
Definition assemble_shear_coefficients_gp (acc : R * R * R) (psi phi : V6) (b0 b1 : V6)
  (weight nx ny ixx iyy ixy nu : R) : R * R * R :=
  let '(kappa_x, kappa_y, kappa_xy) := acc in
  let sp := shear_parameter nx ny ixx iyy ixy in
  let px := dot6 b0 psi - nu / 2 * sp_d1 sp in
  let py := dot6 b1 psi - nu / 2 * sp_d2 sp in
  let hx := dot6 b0 phi - nu / 2 * sp_h1 sp in
  let hy := dot6 b1 phi - nu / 2 * sp_h2 sp in
  (kappa_x + weight * (px * px + py * py),
   kappa_y + weight * (hx * hx + hy * hy),
   kappa_xy + weight * (px * hx + py * hy)).

(** fea.py 450-504: Tri6.shear_coefficients *)
Definition shear_coefficients (el : tri6) (ixx iyy ixy : R) (psi phi : V6) (nu : R) : R * R * R :=
  fold_left
    (fun acc g =>
       let s := shape_function (el_x el) (el_y el) g in
       let weight := g_w g * sh_j s * m_E (el_mat el) in
       assemble_shear_coefficients_gp acc psi phi (sh_b0 s) (sh_b1 s)
         weight (sh_nx s) (sh_ny s) ixx iyy ixy nu)
    gps4 (0, 0, 0).

(** fea.py 1166-1186: principal_coordinate *)
Definition principal_coordinate (phi x y : R) : R * R :=
  let p := phi * PI / 180 in
  (x * cos p + y * sin p, y * cos p - x * sin p).

(** fea.py 1189-1209: global_coordinate *)
Definition global_coordinate (phi x11 y22 : R) : R * R :=
  let p := phi * PI / 180 in
  (x11 * cos p - y22 * sin p, x11 * sin p + y22 * cos p).

(** fea.py 1212-1234: point_above_line; np.cross of two plane vectors is a0*b1 - a1*b0 *)
Definition point_above_line (u : R * R) (px py x y : R) : bool :=
  let pq0 := px - x in
  let pq1 := py - y in
  if Rlt_dec 0 (pq0 * snd u - pq1 * fst u) then true else false.

(** Return value of monosymmetry_integrals. *)
Record mono_int : Type := mkMono { mi_x : R; mi_y : R; mi_11 : R; mi_22 : R }.

(** fea.py 506-544: Tri6.monosymmetry_integrals *)
Definition monosymmetry_integrals (el : tri6) (phi : R) : mono_int :=
  fold_left
    (fun acc g =>
       let s := shape_function (el_x el) (el_y el) g in
       let weight := g_w g * sh_j s * m_E (el_mat el) in
       let nx := sh_nx s in
       let ny := sh_ny s in
       let '(nx_11, ny_22) := principal_coordinate phi nx ny in
       mkMono
         (mi_x acc + weight * (nx * nx * ny + ny * ny * ny))
         (mi_y acc + weight * (ny * ny * nx + nx * nx * nx))
         (mi_11 acc + weight * (nx_11 * nx_11 * ny_22 + ny_22 * ny_22 * ny_22))
         (mi_22 acc + weight * (ny_22 * ny_22 * nx_11 + nx_11 * nx_11 * nx_11)))
    gps4 (mkMono 0 0 0 0).

(** fea.py 1099-1150: h_inv, the literal table (15 significant digits) *)
Definition h_inv : M6 :=
  mkM6
    (mkV6 1.87365927351160 0.138559587411935 0.138559587411935
          (-0.638559587411936) 0.126340726488397 (-0.638559587411935))
    (mkV6 0.138559587411935 1.87365927351160 0.138559587411935
          (-0.638559587411935) (-0.638559587411935) 0.126340726488397)
    (mkV6 0.138559587411935 0.138559587411935 1.87365927351160
          0.126340726488396 (-0.638559587411935) (-0.638559587411935))
    (mkV6 0.0749010751157440 0.0749010751157440 0.180053080734478
          1.36051633430762 (-0.345185782636792) (-0.345185782636792))
    (mkV6 0.180053080734478 0.0749010751157440 0.0749010751157440
          (-0.345185782636792) 1.36051633430762 (-0.345185782636792))
    (mkV6 0.0749010751157440 0.180053080734478 0.0749010751157440
          (-0.345185782636792) (-0.345185782636792) 1.36051633430762).

(** fea.py 1153-1163: extrapolate_to_nodes *)
Definition extrapolate_to_nodes (w : V6) : V6 := mulM6 h_inv w.

(** The section quantities passed to element_stress (ea, cx, ..., delta_s). *)
Record stress_par : Type := mkStressPar {
  st_ea : R; st_cx : R; st_cy : R; st_ixx : R; st_iyy : R; st_ixy : R;
  st_i11 : R; st_i22 : R; st_phi : R; st_j : R; st_nu : R; st_delta_s : R }.

(** The eight stress resultants (arguments n ... mzz). *)
Record actions : Type := mkActions {
  a_n : R; a_vx : R; a_vy : R; a_mxx : R; a_myy : R; a_m11 : R; a_m22 : R; a_mzz : R }.

(** The eleven stress arrays returned by element_stress. *)
Record stress_out : Type := mkStressOut {
  so_zz_n : V6; so_zz_mxx : V6; so_zz_myy : V6; so_zz_m11 : V6; so_zz_m22 : V6;
  so_zx_mzz : V6; so_zy_mzz : V6; so_zx_vx : V6; so_zy_vx : V6; so_zx_vy : V6; so_zy_vy : V6 }.

(** The stresses at one Gauss point, in the same order (without the axial stress). *)
Record stress_gp : Type := mkStressGp {
  sg_zz_mxx : R; sg_zz_myy : R; sg_zz_m11 : R; sg_zz_m22 : R;
  sg_zx_mzz : R; sg_zy_mzz : R; sg_zx_vx : R; sg_zy_vx : R; sg_zx_vy : R; sg_zy_vy : R }.

(** fea.py 640-688: the body of the Gauss point loop of element_stress *)
Definition element_stress_gp (el : tri6) (a : actions) (p : stress_par)
  (omega psi phi_s : V6) (g : gp) : stress_gp :=
  let E := m_E (el_mat el) in
  let xs := map6 (fun x => x - st_cx p) (el_x el) in
  let ys := map6 (fun y => y - st_cy p) (el_y el) in
  let s := shape_function xs ys g in
  let nx := sh_nx s in
  let ny := sh_ny s in
  let '(nx_11, ny_22) := principal_coordinate (st_phi p) nx ny in
  let sp := shear_parameter nx ny (st_ixx p) (st_iyy p) (st_ixy p) in
  let det := st_ixx p * st_iyy p - (st_ixy p) ^ 2 in
  let nz (x : R) := if Req_EM_T x 0 then false else true in
  mkStressGp
    (E * (- (st_ixy p * a_mxx a) / det * nx + (st_iyy p * a_mxx a) / det * ny))
    (E * (- (st_ixx p * a_myy a) / det * nx + (st_ixy p * a_myy a) / det * ny))
    (E * a_m11 a / st_i11 p * ny_22)
    (E * - a_m22 a / st_i22 p * nx_11)
    (if nz (a_mzz a) then E * a_mzz a / st_j p * (dot6 (sh_b0 s) omega - ny) else 0)
    (if nz (a_mzz a) then E * a_mzz a / st_j p * (dot6 (sh_b1 s) omega - - nx) else 0)
    (if nz (a_vx a) then E * a_vx a / st_delta_s p * (dot6 (sh_b0 s) psi - st_nu p / 2 * sp_d1 sp) else 0)
    (if nz (a_vx a) then E * a_vx a / st_delta_s p * (dot6 (sh_b1 s) psi - st_nu p / 2 * sp_d2 sp) else 0)
    (if nz (a_vy a) then E * a_vy a / st_delta_s p * (dot6 (sh_b0 s) phi_s - st_nu p / 2 * sp_h1 sp) else 0)
    (if nz (a_vy a) then E * a_vy a / st_delta_s p * (dot6 (sh_b1 s) phi_s - st_nu p / 2 * sp_h2 sp) else 0).

(** An array of six results, one per Gauss point of the six point rule. *)
Definition at_gps6 {A : Type} (d : A) (f : gp -> A) : A * A * A * A * A * A :=
  match map f gps6 with
  | [a; b; c; d'; e; f'] => (a, b, c, d', e, f')
  | _ => (d, d, d, d, d, d)
  end.

Definition col6 {A : Type} (h : A -> R) (t : A * A * A * A * A * A) : V6 :=
  let '(a, b, c, d, e, f) := t in mkV6 (h a) (h b) (h c) (h d) (h e) (h f).

Definition zero_stress_gp : stress_gp := mkStressGp 0 0 0 0 0 0 0 0 0 0.

(** fea.py 546-715: Tri6.element_stress. The weights [gps[:,0]] are [stress_weights]. *)
Definition element_stress (el : tri6) (a : actions) (p : stress_par) (omega psi phi_s : V6)
  : stress_out :=
  let t := at_gps6 zero_stress_gp (element_stress_gp el a p omega psi phi_s) in
  mkStressOut
    (const6 (a_n a * 1 * m_E (el_mat el) / st_ea p))
    (extrapolate_to_nodes (col6 sg_zz_mxx t))
    (extrapolate_to_nodes (col6 sg_zz_myy t))
    (extrapolate_to_nodes (col6 sg_zz_m11 t))
    (extrapolate_to_nodes (col6 sg_zz_m22 t))
    (extrapolate_to_nodes (col6 sg_zx_mzz t))
    (extrapolate_to_nodes (col6 sg_zy_mzz t))
    (extrapolate_to_nodes (col6 sg_zx_vx t))
    (extrapolate_to_nodes (col6 sg_zy_vx t))
    (extrapolate_to_nodes (col6 sg_zx_vy t))
    (extrapolate_to_nodes (col6 sg_zy_vy t)).

(** fea.py 714: gps[:, 0] *)
Definition stress_weights : V6 := col6 g_w (at_gps6 (mkGp 0 0 0 0) (fun g => g)).

(** fea.py 243-262 and 902-916: Tri6.__post_init__ (the 2x2 inverse [_m] of the matrix with
    columns p0-x0, p1-x0, written with the adjugate, and [_x0]) and Tri6.local_coord.
    A zero determinant makes np.linalg.solve raise LinAlgError (not modelled: theorems assume it is
    non-zero). *)
Definition local_coord (el : tri6) (p : R * R) : R * R * R :=
  let x0 := v2 (el_x el) in
  let y0 := v2 (el_y el) in
  let r0x := v0 (el_x el) - x0 in
  let r0y := v0 (el_y el) - y0 in
  let r1x := v1 (el_x el) - x0 in
  let r1y := v1 (el_y el) - y0 in
  let d := r0x * r1y - r1x * r0y in
  let dx := fst p - x0 in
  let dy := snd p - y0 in
  let eta := (r1y / d) * dx + (- r1x / d) * dy in
  let xi := (- r0y / d) * dx + (r0x / d) * dy in
  (eta, xi, 1 - eta - xi).

(** fea.py 867-900: Tri6.point_within_element *)
Definition point_within_element (el : tri6) (p : R * R) : bool :=
  let px := fst p in
  let py := snd p in
  let x1 := v0 (el_x el) in
  let y1 := v0 (el_y el) in
  let x2 := v1 (el_x el) in
  let y2 := v1 (el_y el) in
  let x3 := v2 (el_x el) in
  let y3 := v2 (el_y el) in
  let den := (y2 - y3) * (x1 - x3) + (x3 - x2) * (y1 - y3) in
  let alpha := ((y2 - y3) * (px - x3) + (x3 - x2) * (py - y3)) / den in
  let beta := ((y3 - y1) * (px - x3) + (x1 - x3) * (py - y3)) / den in
  let gamma := 1 - alpha - beta in
  if Rle_dec 0 alpha then (if Rle_dec 0 beta then (if Rle_dec 0 gamma then true else false) else false)
  else false.

(** fea.py 717-865: Tri6.local_element_stress, returning (sig_zz, sig_zx, sig_zy) *)
Definition local_element_stress (el : tri6) (pt : R * R) (a : actions) (p : stress_par)
  (omega psi phi_s : V6) : R * R * R :=
  let s := element_stress el a p omega psi phi_s in
  let n := shape_function_only (local_coord el pt) in
  let zz_n := dot6 (so_zz_n s) n in
  let zz_mxx := dot6 (so_zz_mxx s) n in
  let zz_myy := dot6 (so_zz_myy s) n in
  let zz_m11 := dot6 (so_zz_m11 s) n in
  let zz_m22 := dot6 (so_zz_m22 s) n in
  let zx_mzz := dot6 (so_zx_mzz s) n in
  let zy_mzz := dot6 (so_zy_mzz s) n in
  let zx_vx := dot6 (so_zx_vx s) n in
  let zy_vx := dot6 (so_zy_vx s) n in
  let zx_vy := dot6 (so_zx_vy s) n in
  let zy_vy := dot6 (so_zy_vy s) n in
  let zz_m := zz_mxx + zz_myy + zz_m11 + zz_m22 in
  let zx_v := zx_vx + zx_vy in
  let zy_v := zy_vx + zy_vy in
  (zz_n + zz_m, zx_mzz + zx_v, zy_mzz + zy_v).
