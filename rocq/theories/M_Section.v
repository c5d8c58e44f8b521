(** Model of the numerical part of analysis/section.py: assembly, warping, frame and stress analyses.
    Nodal vectors are functions [nat -> R]; the number of nodes is an argument. *)
From Coq Require Import Reals List.
From Verif Require Import Base M_Fea M_Post.
Import ListNotations.
Local Open Scope R_scope.

(** numpy indexing u[el.node_ids] *)
Definition gather (u : nat -> R) (c : conn6) : V6 :=
  mkV6 (u (c0 c)) (u (c1 c)) (u (c2 c)) (u (c3 c)) (u (c4 c)) (u (c5 c)).

(** numpy in-place update f[el.node_ids] += v. With repeated indices numpy keeps the last
    assignment, so the last matching position is used. *)
Definition scatter_add (f : nat -> R) (c : conn6) (v : V6) : nat -> R :=
  fun i =>
    if Nat.eqb i (c5 c) then f i + v5 v
    else if Nat.eqb i (c4 c) then f i + v4 v
    else if Nat.eqb i (c3 c) then f i + v3 v
    else if Nat.eqb i (c2 c) then f i + v2 v
    else if Nat.eqb i (c1 c) then f i + v1 v
    else if Nat.eqb i (c0 c) then f i + v0 v
    else f i.

(** section.py 429-440 and 1014-1023: element of the warping section, shifted to the centroid *)
Definition shift_el (cx cy : R) (el : tri6) : tri6 :=
  mkTri (map6 (fun x => x - cx) (el_x el)) (map6 (fun y => y - cy) (el_y el)) (el_ids el) (el_mat el).

(** A coordinate-format sparse matrix entry (row, column, value). *)
Definition coo : Type := (nat * nat * R)%type.

Definition ids_list (c : conn6) : list nat := [c0 c; c1 c; c2 c; c3 c; c4 c; c5 c].
Definition v6_list (v : V6) : list R := [v0 v; v1 v; v2 v; v3 v; v4 v; v5 v].
Definition m6_rows (m : M6) : list V6 := [r0 m; r1 m; r2 m; r3 m; r4 m; r5 m].

(** section.py 1523-1526: the 36 entries of one element; row i is repeated for the six columns and
    k_el.flatten() runs over the rows *)
Definition el_coo (c : conn6) (k : M6) : list coo :=
  concat (map (fun ir => map (fun jv => (fst ir, fst jv, snd jv))
                             (combine (ids_list c) (v6_list (snd ir))))
              (combine (ids_list c) (m6_rows k))).

(** section.py 1503-1528: loop over the elements; state (coo entries, f_torsion, c_torsion) *)
Definition torsion_step (st : list coo * (nat -> R) * (nat -> R)) (el : tri6)
  : list coo * (nat -> R) * (nat -> R) :=
  let '(entries, f, c) := st in
  let '(k_el, f_el, c_el) := torsion_properties el in
  (entries ++ el_coo (el_ids el) k_el,
   scatter_add f (el_ids el) f_el,
   scatter_add c (el_ids el) c_el).

Definition torsion_loop (els : list tri6) : list coo * (nat -> R) * (nat -> R) :=
  fold_left torsion_step els ([], fun _ => 0, fun _ => 0).

(** scipy coo_matrix -> csc_matrix: duplicate entries are summed *)
Definition dense (l : list coo) (i j : nat) : R :=
  sumf (fun e => let '(r, c, v) := e in if (Nat.eqb r i && Nat.eqb c j)%bool then v else 0) l.

(** section.py 1483-1546: Section.assemble_torsion; returns the bordered matrix and f_torsion *)
Definition assemble_torsion (n : nat) (els : list tri6) : (nat -> nat -> R) * (nat -> R) :=
  let '(entries, f, c) := torsion_loop els in
  let column := map (fun i => (i, n, c i)) (seq 0 n) in
  let row := map (fun i => (n, i, c i)) (seq 0 n) in
  (dense (entries ++ column ++ row), f).

(** numpy dot of two nodal vectors of length n *)
Definition dotn (n : nat) (u v : nat -> R) : R := sumn n (fun i => u i * v i).

(** section.py 541-557: assemble_shear_load *)
Definition shear_load_step (ixx iyy ixy nu : R) (st : (nat -> R) * (nat -> R)) (el : tri6)
  : (nat -> R) * (nat -> R) :=
  let '(f_psi, f_phi) := st in
  let '(fp, fh) := shear_load_vectors el ixx iyy ixy nu in
  (scatter_add f_psi (el_ids el) fp, scatter_add f_phi (el_ids el) fh).

Definition assemble_shear_load (ixx iyy ixy nu : R) (els : list tri6) : (nat -> R) * (nat -> R) :=
  fold_left (shear_load_step ixx iyy ixy nu) els (fun _ => 0, fun _ => 0).

(** section.py 625-661: assemble_sc_warping_integrals *)
Definition sc_warping_step (ixx iyy ixy : R) (omega : nat -> R) (acc : warp_int) (el : tri6) : warp_int :=
  let o := shear_warping_integrals el ixx iyy ixy (gather omega (el_ids el)) in
  mkWarpInt (wi_scx acc + wi_scx o) (wi_scy acc + wi_scy o) (wi_q acc + wi_q o)
            (wi_i acc + wi_i o) (wi_ix acc + wi_ix o) (wi_iy acc + wi_iy o).

Definition sc_warping_integrals (ixx iyy ixy : R) (omega : nat -> R) (els : list tri6) : warp_int :=
  fold_left (sc_warping_step ixx iyy ixy omega) els zero_warp_int.

(** section.py 717-743: assemble_shear_deformation *)
Definition shear_deformation_step (ixx iyy ixy nu : R) (psi phi : nat -> R) (acc : R * R * R)
  (el : tri6) : R * R * R :=
  let '(kx, ky, kxy) := acc in
  let '(ex, ey, exy) :=
    shear_coefficients el ixx iyy ixy (gather psi (el_ids el)) (gather phi (el_ids el)) nu in
  (kx + ex, ky + ey, kxy + exy).

Definition shear_deformation (ixx iyy ixy nu : R) (psi phi : nat -> R) (els : list tri6) : R * R * R :=
  fold_left (shear_deformation_step ixx iyy ixy nu psi phi) els (0, 0, 0).

(** section.py 790-815: calculate_monosymmetry_integrals *)
Definition mono_step (phi : R) (acc : mono_int) (el : tri6) : mono_int :=
  let o := monosymmetry_integrals el phi in
  mkMono (mi_x acc + mi_x o) (mi_y acc + mi_y o) (mi_11 acc + mi_11 o) (mi_22 acc + mi_22 o).

Definition mono_integrals (phi : R) (els : list tri6) : mono_int :=
  fold_left (mono_step phi) els (mkMono 0 0 0 0).

(** Everything stored by calculate_warping_properties. *)
Record warping : Type := mkWarping {
  w_omega : nat -> R; w_psi : nat -> R; w_phi : nat -> R;
  w_j : R; w_delta_s : R;
  w_x_se : R; w_y_se : R; w_x11_se : R; w_y22_se : R; w_x_st : R; w_y_st : R;
  w_gamma : R;
  w_a_sx : R; w_a_sy : R; w_a_sxy : R; w_a_s11 : R; w_a_s22 : R;
  w_beta_x_plus : R; w_beta_x_minus : R; w_beta_y_plus : R; w_beta_y_minus : R;
  w_beta_11_plus : R; w_beta_11_minus : R; w_beta_22_plus : R; w_beta_22_minus : R }.

(** The linear solver used by the warping analysis: bordered matrix and load vector to the vector
    without the multiplier, or an exception. *)
Definition lg_solver : Type := (nat -> nat -> R) -> (nat -> R) -> result (nat -> R).

(** section.py 443-845: warping_analysis. [els] are the unshifted elements, [t] and [c] the results of
    the geometric analysis, [composite] the value of is_composite(). With e_ref = 1 the getters get_eic,
    get_ic etc. return the stored values. *)
Definition warping_analysis (n : nat) (solve : lg_solver) (composite : bool)
  (t : totals) (c : centroidal) (els : list tri6) : result warping :=
  let wels := map (shift_el (p_cx c) (p_cy c)) els in
  let '(k_lg, f_torsion) := assemble_torsion n wels in
  bind (solve k_lg f_torsion) (fun omega =>
  let ixx_c := p_ixx_c c in
  let iyy_c := p_iyy_c c in
  let ixy_c := p_ixy_c c in
  let j := ixx_c + iyy_c - dotn n omega f_torsion in
  let nu := if composite then nu_eff t else 0 in
  let '(f_psi, f_phi) := assemble_shear_load ixx_c iyy_c ixy_c nu wels in
  bind (solve k_lg f_psi) (fun psi_shear =>
  bind (solve k_lg f_phi) (fun phi_shear =>
  let wi := sc_warping_integrals ixx_c iyy_c ixy_c omega wels in
  let phi := p_phi c in
  let delta_s := 2 * (1 + nu) * (ixx_c * iyy_c - ixy_c ^ 2) in
  let x_se := (1 / delta_s) * ((nu / 2 * wi_scx wi) - dotn n f_torsion phi_shear) in
  let y_se := (1 / delta_s) * ((nu / 2 * wi_scy wi) + dotn n f_torsion psi_shear) in
  let '(x11_se, y22_se) := principal_coordinate phi x_se y_se in
  let x_st := (ixy_c * wi_ix wi - iyy_c * wi_iy wi) / (ixx_c * iyy_c - ixy_c ^ 2) in
  let y_st := (ixx_c * wi_ix wi - ixy_c * wi_iy wi) / (ixx_c * iyy_c - ixy_c ^ 2) in
  let ea := if composite then t_ea t else t_area t in
  let gamma := wi_i wi - (wi_q wi) ^ 2 / ea - y_se * wi_ix wi + x_se * wi_iy wi in
  let '(kappa_x, kappa_y, kappa_xy) := shear_deformation ixx_c iyy_c ixy_c nu psi_shear phi_shear wels in
  let area := t_area t in
  let alpha_xx := kappa_x * area / delta_s ^ 2 in
  let alpha_yy := kappa_y * area / delta_s ^ 2 in
  let alpha_xy := kappa_xy * area / delta_s ^ 2 in
  let phi_rad := phi * PI / 180 in
  let co := cos phi_rad in
  let si := sin phi_rad in
  (* r . alpha . r^T with r = [[co, si], [-si, co]], diagonal entries *)
  let rot00 := (co * alpha_xx + si * alpha_xy) * co + (co * alpha_xy + si * alpha_yy) * si in
  let rot11 := (- si * alpha_xx + co * alpha_xy) * - si + (- si * alpha_xy + co * alpha_yy) * co in
  let m := mono_integrals phi wels in
  let i11 := p_i11_c c in
  let i22 := p_i22_c c in
  Ok (mkWarping omega psi_shear phi_shear j delta_s x_se y_se x11_se y22_se x_st y_st gamma
    (delta_s ^ 2 / kappa_x) (delta_s ^ 2 / kappa_y) (delta_s ^ 2 / kappa_xy)
    (area / rot00) (area / rot11)
    (- mi_x m / ixx_c + 2 * y_se) (mi_x m / ixx_c - 2 * y_se)
    (- mi_y m / iyy_c + 2 * x_se) (mi_y m / iyy_c - 2 * x_se)
    (- mi_11 m / i11 + 2 * y22_se) (mi_11 m / i11 - 2 * y22_se)
    (- mi_22 m / i22 + 2 * x11_se) (mi_22 m / i22 - 2 * x11_se))))).

(** section.py 938-948: the element loop of the frame analysis (no mass, no GA) *)
Record frame_totals : Type := mkFrameTotals {
  f_area : R; f_ea : R; f_qx : R; f_qy : R; f_ixx_g : R; f_iyy_g : R; f_ixy_g : R }.

Definition frame_step (t : frame_totals) (el : tri6) : frame_totals :=
  let o := geometric_properties el in
  mkFrameTotals
    (f_area t + ge_area o)
    (f_ea t + ge_area o * ge_e o)
    (f_qx t + ge_qx o * ge_e o)
    (f_qy t + ge_qy o * ge_e o)
    (f_ixx_g t + ge_ixx o * ge_e o)
    (f_iyy_g t + ge_iyy o * ge_e o)
    (f_ixy_g t + ge_ixy o * ge_e o).

Definition frame_loop (els : list tri6) : frame_totals :=
  fold_left frame_step els (mkFrameTotals 0 0 0 0 0 0 0).

(** Return value of calculate_frame_properties. *)
Record frame_out : Type := mkFrame {
  fr_area : R; fr_ixx_c : R; fr_iyy_c : R; fr_ixy_c : R; fr_j : R; fr_phi : R }.

(** section.py 915-984 and 1013-1164: calculate_frame_properties *)
Definition frame_analysis (n : nat) (solve : lg_solver) (composite : bool) (els : list tri6)
  : result frame_out :=
  let t := frame_loop els in
  let cx := f_qy t / f_ea t in
  let cy := f_qx t / f_ea t in
  let ea := if composite then f_ea t else f_area t in
  let ixx_c := f_ixx_g t - (f_qx t) ^ 2 / ea in
  let iyy_c := f_iyy_g t - (f_qy t) ^ 2 / ea in
  let ixy_c := f_ixy_g t - f_qx t * f_qy t / ea in
  let delta := sqrt (((ixx_c - iyy_c) / 2) ^ 2 + ixy_c ^ 2) in
  let i11_c := (ixx_c + iyy_c) / 2 + delta in
  let phi :=
    if Rlt_dec (Rabs (ixx_c - i11_c)) (1 / 10 ^ 12 * i11_c) then 0
    else atan2 (ixx_c - i11_c) ixy_c * 180 / PI in
  let wels := map (shift_el cx cy) els in
  let '(k_lg, f_torsion) := assemble_torsion n wels in
  bind (solve k_lg f_torsion) (fun omega =>
    Ok (mkFrame (f_area t) ixx_c iyy_c ixy_c (ixx_c + iyy_c - dotn n omega f_torsion) phi)).

(** ** Stress analysis *)

(** The eleven nodal stress arrays of a material group (StressResult). *)
Record nodal_stress : Type := mkNodalStress {
  ns_zz_n : nat -> R; ns_zz_mxx : nat -> R; ns_zz_myy : nat -> R; ns_zz_m11 : nat -> R; ns_zz_m22 : nat -> R;
  ns_zx_mzz : nat -> R; ns_zy_mzz : nat -> R; ns_zx_vx : nat -> R; ns_zy_vx : nat -> R;
  ns_zx_vy : nat -> R; ns_zy_vy : nat -> R }.

Definition zero_nodal_stress : nodal_stress :=
  let z := fun _ : nat => 0 in mkNodalStress z z z z z z z z z z z.

(** section.py 1370-1430: one element of a group; state (nodal stresses, nodal weights) *)
Definition stress_step (a : actions) (p : stress_par) (omega psi phi_s : nat -> R)
  (st : nodal_stress * (nat -> R)) (el : tri6) : nodal_stress * (nat -> R) :=
  let '(s, wts) := st in
  let ids := el_ids el in
  let o := element_stress el a p (gather omega ids) (gather psi ids) (gather phi_s ids) in
  let w := stress_weights in
  let add (f : nat -> R) (v : V6) := scatter_add f ids (zip6 Rmult v w) in
  (mkNodalStress
     (add (ns_zz_n s) (so_zz_n o)) (add (ns_zz_mxx s) (so_zz_mxx o)) (add (ns_zz_myy s) (so_zz_myy o))
     (add (ns_zz_m11 s) (so_zz_m11 o)) (add (ns_zz_m22 s) (so_zz_m22 o))
     (add (ns_zx_mzz s) (so_zx_mzz o)) (add (ns_zy_mzz s) (so_zy_mzz o))
     (add (ns_zx_vx s) (so_zx_vx o)) (add (ns_zy_vx s) (so_zy_vx o))
     (add (ns_zx_vy s) (so_zx_vy o)) (add (ns_zy_vy s) (so_zy_vy o)),
   scatter_add wts ids w).

(** section.py 1435-1448: nodal averaging of one array *)
Definition average (f wts : nat -> R) : nat -> R :=
  fun i => if Req_EM_T (wts i) 0 then f i else f i * (1 / wts i).

(** section.py 1365-1448: the nodal stresses of one material group before combination *)
Definition group_stress (a : actions) (p : stress_par) (omega psi phi_s : nat -> R) (els : list tri6)
  : nodal_stress :=
  let '(s, w) := fold_left (stress_step a p omega psi phi_s) els (zero_nodal_stress, fun _ => 0) in
  mkNodalStress
    (average (ns_zz_n s) w) (average (ns_zz_mxx s) w) (average (ns_zz_myy s) w)
    (average (ns_zz_m11 s) w) (average (ns_zz_m22 s) w)
    (average (ns_zx_mzz s) w) (average (ns_zy_mzz s) w)
    (average (ns_zx_vx s) w) (average (ns_zy_vx s) w)
    (average (ns_zx_vy s) w) (average (ns_zy_vy s) w).
