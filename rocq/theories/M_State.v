(** Model of the Section object as a state machine: the analyses of src/sectionproperties/analysis/section.py
    read and write the attributes of section_props (M_Props.v), may fail half way, and read the geometry object
    again. Definitions only. Not modelled: progress bars, printed and plotted results, warnings (418-427, 1209-1222),
    assemble_torsion as a method of its own. *)
From Coq Require Import String Reals List Bool Arith.
From Verif Require Import Base M_Fea M_Section M_Stress M_Init M_Bisect M_Plastic M_Solver.
From Verif Require M_Post.
From Verif Require Import M_Props.
Import ListNotations.
Local Open Scope R_scope.

(** A method reads and writes the attributes and returns a value or raises; what was written before an
    exception stays. *)
Definition M (A : Type) : Type := props -> props * result A.
Definition mret {A} (a : A) : M A := fun s => (s, Ok a).
Definition mraise {A} (e : exn) : M A := fun s => (s, Err e).
Definition mlift {A} (r : result A) : M A := fun s => (s, r).
Definition mbind {A B} (m : M A) (f : A -> M B) : M B :=
  fun s => match m s with (s', Ok a) => f a s' | (s', Err e) => (s', Err e) end.
Definition mtell (l : list write) : M unit := fun s => (apply_writes s l, Ok tt).
(** a method of the writer form (M_Props.W) that reads the attributes only before it writes *)
Definition mrun {A} (w : (prop -> option R) -> W A) : M A :=
  fun s => (apply_writes s (fst (w (num s))), snd (w (num s))).
Definition mget (p : prop) : M (option R) := fun s => (s, Ok (num s p)).
Definition mgetv (a : arr) : M (option (nat -> R)) := fun s => (s, Ok (vec s a)).
Notation "'do' x <- m ; k" := (mbind m (fun x => k)) (at level 200, x pattern, m at level 100, k at level 200).
Notation "m ;; k" := (mbind m (fun _ => k)) (at level 100, k at level 200, right associativity).

(** The geometry object a Section refers to, as far as the analyses look at it: its mesh (None before
    create_mesh), its materials, its perimeter (calculate_perimeter, shapely) and what the plastic analysis sees of it
    (align_center, compile_geometry, split_section: M_Plastic.v). *)
Record geometry : Type := mkGeometry {
  g_mesh : option raw_mesh; g_mats : list mat_obj; g_perimeter : R; g_plastic : plastic_geom }.

(** The numerical libraries called. *)
Record libs : Type := mkLibs { l_spsolve : direct_oracle; l_cgs : cgs_oracle; l_brentq : root_finder;
  l_query : raw_mesh -> R * R -> list nat }.

(** ** Getters, section.py 1935-3272 *)

Inductive getter : Type :=
| get_area | get_perimeter | get_mass | get_ea | get_q | get_eq | get_ig | get_eig | get_c | get_ic | get_eic
| get_z | get_ez | get_my | get_rc | get_ip | get_eip | get_phi | get_zp | get_ezp | get_my_p | get_rp
| get_nu_eff | get_e_eff | get_g_eff | get_j | get_ej | get_sc | get_sc_p | get_sc_t | get_gamma | get_egamma
| get_as | get_eas | get_as_p | get_eas_p | get_beta | get_beta_p | get_pc | get_pc_p | get_s | get_mp | get_sp
| get_mp_p | get_sf | get_sf_p.

(** The check at the head of a getter: [Some true] "if not self.is_composite(): raise", [Some false]
    "if self.is_composite(): raise", [None] no check. *)
Definition gate (x : getter) : option bool :=
  match x with
  | get_mass | get_ea | get_eq | get_eig | get_eic | get_ez | get_my | get_eip | get_ezp | get_my_p
  | get_nu_eff | get_e_eff | get_g_eff | get_ej | get_egamma | get_eas | get_eas_p | get_mp | get_mp_p => Some true
  | get_q | get_ig | get_ic | get_z | get_ip | get_zp | get_j | get_gamma | get_as | get_as_p | get_s | get_sp => Some false
  | get_area | get_perimeter | get_c | get_rc | get_phi | get_rp | get_sc | get_sc_p | get_sc_t | get_beta | get_beta_p
  | get_pc | get_pc_p | get_sf | get_sf_p => None
  end.

(** The attributes checked against None and used, in the order in which they are returned. *)
Definition fields (x : getter) : list prop :=
  match x with
  | get_area => [p_area] | get_perimeter => [p_perimeter] | get_mass => [p_mass] | get_ea => [p_ea]
  | get_q | get_eq => [p_qx; p_qy]
  | get_ig | get_eig => [p_ixx_g; p_iyy_g; p_ixy_g]
  | get_c => [p_cx; p_cy]
  | get_ic | get_eic => [p_ixx_c; p_iyy_c; p_ixy_c]
  | get_z | get_ez => [p_zxx_plus; p_zxx_minus; p_zyy_plus; p_zyy_minus]
  | get_my => [p_my_xx; p_my_yy]
  | get_rc => [p_rx_c; p_ry_c]
  | get_ip | get_eip => [p_i11_c; p_i22_c]
  | get_phi => [p_phi]
  | get_zp | get_ezp => [p_z11_plus; p_z11_minus; p_z22_plus; p_z22_minus]
  | get_my_p => [p_my_11; p_my_22]
  | get_rp => [p_r11_c; p_r22_c]
  | get_nu_eff => [p_nu_eff] | get_e_eff => [p_e_eff] | get_g_eff => [p_g_eff]
  | get_j | get_ej => [p_j]
  | get_sc => [p_x_se; p_y_se; p_cx; p_cy]
  | get_sc_p => [p_x11_se; p_y22_se]
  | get_sc_t => [p_x_st; p_y_st; p_cx; p_cy]
  | get_gamma | get_egamma => [p_gamma]
  | get_as | get_eas => [p_a_sx; p_a_sy]
  | get_as_p | get_eas_p => [p_a_s11; p_a_s22]
  | get_beta => [p_beta_x_plus; p_beta_x_minus; p_beta_y_plus; p_beta_y_minus]
  | get_beta_p => [p_beta_11_plus; p_beta_11_minus; p_beta_22_plus; p_beta_22_minus]
  | get_pc => [p_x_pc; p_y_pc; p_cx; p_cy]
  | get_pc_p => [p_x11_pc; p_y22_pc; p_cx; p_cy; p_phi]
  | get_s | get_mp => [p_sxx; p_syy]
  | get_sp | get_mp_p => [p_s11; p_s22]
  | get_sf => [p_sf_xx_plus; p_sf_xx_minus; p_sf_yy_plus; p_sf_yy_minus]
  | get_sf_p => [p_sf_11_plus; p_sf_11_minus; p_sf_22_plus; p_sf_22_minus]
  end.

(** Getters with the argument e_ref. *)
Definition has_e_ref (x : getter) : bool :=
  match x with
  | get_ea | get_eq | get_eig | get_eic | get_ez | get_eip | get_ezp | get_ej | get_egamma | get_eas | get_eas_p => true
  | _ => false
  end.

(** section.py 1917-1933: get_e_ref; the argument is a number or a Material *)
Inductive e_ref : Type := ENum (e : R) | EMat (m : material).
Definition e_value (e : e_ref) : R := match e with ENum r => r | EMat m => m_E m end.

(** The returned tuple from the values of the attributes. 2749-2752 get_sc, 2788-2791 get_sc_t, 3063-3066 get_pc,
    3088-3095 get_pc_p add the centroid; the getters with e_ref divide by it. *)
Definition finish (x : getter) (e : e_ref) (v : list R) : list R :=
  match x, v with
  | get_sc, [a; b; cx; cy] | get_sc_t, [a; b; cx; cy] | get_pc, [a; b; cx; cy] => [a + cx; b + cy]
  | get_pc_p, [a; b; cx; cy; phi] => let '(x, y) := global_coordinate phi a b in [x + cx; y + cy]
  | _, _ => if has_e_ref x then map (fun a => a / e_value e) v else v
  end.

(** The values of attributes, or RuntimeError if one is None *)
Fixpoint need (l : list prop) : M (list R) :=
  match l with
  | [] => mret []
  | p :: rest => do v <- mget p;
                 match v with None => mraise RuntimeError | Some a => do r <- need rest; mret (a :: r) end
  end.

Definition run_getter (composite : bool) (x : getter) (e : e_ref) : M (list R) :=
  match gate x with
  | Some b => if Bool.eqb b composite then do v <- need (fields x); mret (finish x e v) else mraise RuntimeError
  | None => do v <- need (fields x); mret (finish x e v)
  end.

(** The internal uses of getters, with e_ref = 1.0 *)
Definition get1 (composite : bool) (x : getter) : M R :=
  do v <- run_getter composite x (ENum 1); mret (nth 0 v 0).
Definition get2 (composite : bool) (x : getter) : M (R * R) :=
  do v <- run_getter composite x (ENum 1); mret (nth 0 v 0, nth 1 v 0).
Definition get3 (composite : bool) (x : getter) : M (R * R * R) :=
  do v <- run_getter composite x (ENum 1); mret (nth 0 v 0, nth 1 v 0, nth 2 v 0).

(** ** Analyses *)

(** section.py 176-368 with post.py 226-330: calculate_geometric_properties. The element loop cannot raise, so the
    sums are stored at once; attributes that were just stored are read back directly. The division of Python
    floats by zero is not modelled. *)
Definition calculate_geometric (g : geometry) (s : section_obj) : M unit :=
  let t := M_Post.section_totals (s_tris s) in
  let c := M_Post.centroidal_of t in
  mtell [WNum p_area 0; WNum p_perimeter 0; WNum p_mass 0; WNum p_ea 0; WNum p_ga 0; WNum p_qx 0; WNum p_qy 0;
         WNum p_ixx_g 0; WNum p_iyy_g 0; WNum p_ixy_g 0; WNum p_perimeter (g_perimeter g)] ;;
  mtell [WNum p_area (M_Post.t_area t); WNum p_mass (M_Post.t_mass t); WNum p_ea (M_Post.t_ea t); WNum p_ga (M_Post.t_ga t);
         WNum p_qx (M_Post.t_qx t); WNum p_qy (M_Post.t_qy t); WNum p_ixx_g (M_Post.t_ixx_g t);
         WNum p_iyy_g (M_Post.t_iyy_g t); WNum p_ixy_g (M_Post.t_ixy_g t)] ;;
  mtell [WNum p_nu_eff (M_Post.nu_eff t); WNum p_e_eff (M_Post.e_eff t); WNum p_g_eff (M_Post.g_eff t);
         WNum p_cx (M_Post.p_cx c); WNum p_cy (M_Post.p_cy c);
         WNum p_ixx_c (M_Post.p_ixx_c c); WNum p_iyy_c (M_Post.p_iyy_c c); WNum p_ixy_c (M_Post.p_ixy_c c)] ;;
  do z <- mlift (M_Post.moduli_of t c (s_nodes s));
  mtell [WNum p_zxx_plus (M_Post.z_xx_plus z); WNum p_zxx_minus (M_Post.z_xx_minus z);
         WNum p_zyy_plus (M_Post.z_yy_plus z); WNum p_zyy_minus (M_Post.z_yy_minus z);
         WNum p_rx_c (M_Post.z_rx z); WNum p_ry_c (M_Post.z_ry z);
         WNum p_i11_c (M_Post.p_i11_c c); WNum p_i22_c (M_Post.p_i22_c c); WNum p_phi (M_Post.p_phi c);
         WNum p_z11_plus (M_Post.z_11_plus z); WNum p_z11_minus (M_Post.z_11_minus z);
         WNum p_z22_plus (M_Post.z_22_plus z); WNum p_z22_minus (M_Post.z_22_minus z);
         WNum p_r11_c (M_Post.z_r11 z); WNum p_r22_c (M_Post.z_r22 z);
         WNum p_my_xx 0; WNum p_my_yy 0; WNum p_my_11 0; WNum p_my_22 0] ;;
  let my := M_Post.yield_moments c (s_group_tris s) in
  mtell [WNum p_my_xx (M_Post.q_xx my); WNum p_my_yy (M_Post.q_yy my);
         WNum p_my_11 (M_Post.q_11 my); WNum p_my_22 (M_Post.q_22 my)].

(** solver.py 67: default tolerance of solve_cgs_lagrange *)
Definition cgs_tol : R := 1 / 10 ^ 5.

(** section.py 463-506 and 573-602 (and 1044-1087): the solver chosen by solver_type. [n] is the number of nodes
    of the section whose matrix is solved, [n0] that of the section that asks: the preconditioner is built with the
    latter (469-471, 1050-1052) and a mismatch is rejected by scipy with ValueError. *)
Definition choose_solver (l : libs) (solver_type : string) (n0 n : nat) : lg_solver := fun K f =>
  if String.eqb solver_type "cgs" then
    (if Nat.eqb n0 n then solve_cgs_lagrange n (l_cgs l) cgs_tol K f else Err ValueError)
  else if String.eqb solver_type "direct" then solve_direct_lagrange n (l_spsolve l) K f
  else Err ValueError.

(** section.py 408-415: guard of the warping analysis (and 1291-1297 of the stress analysis) *)
Definition guard_geometric : M unit :=
  do a <- mget p_area; do i <- mget p_ixx_c; do c <- mget p_cx;
  match a, i, c with Some _, Some _, Some _ => mret tt | _, _, _ => mraise RuntimeError end.

(** section.py 370-875: calculate_warping_properties. If the rebuilt section has another number of nodes than
    this one, the arrays allocated with self.num_nodes (541-542) do not fit and numpy or scipy raise IndexError or
    ValueError; the model raises ValueError. *)
Definition calculate_warping (l : libs) (g : geometry) (s : section_obj) (solver_type : string) : M unit :=
  let comp := is_composite (s_mats s) in
  guard_geometric ;;
  do ws <- mlift (section_init (g_mesh g) (g_mats g));
  do (cx, cy) <- get2 comp get_c;
  let n := length (s_nodes ws) in
  let solve := choose_solver l solver_type (length (s_nodes s)) n in
  let wels := map (shift_el cx cy) (s_tris ws) in
  let '(k_lg, f_torsion) := assemble_torsion n wels in
  do omega <- mlift (solve k_lg f_torsion);
  mtell [WVec a_omega omega] ;;
  do (ixx_c, iyy_c, ixy_c) <- get3 comp (if comp then get_eic else get_ic);
  mtell [WNum p_j (ixx_c + iyy_c - dotn n omega f_torsion)] ;;
  do nu <- (if comp then get1 comp get_nu_eff else mret 0);
  if Nat.eqb (length (s_nodes s)) n then
    let '(f_psi, f_phi) := assemble_shear_load ixx_c iyy_c ixy_c nu wels in
    do psi_shear <- mlift (solve k_lg f_psi);
    do phi_shear <- mlift (solve k_lg f_phi);
    mtell [WVec a_psi_shear psi_shear; WVec a_phi_shear phi_shear] ;;
    let wi := sc_warping_integrals ixx_c iyy_c ixy_c omega wels in
    do phi <- get1 comp get_phi;
    let delta_s := 2 * (1 + nu) * (ixx_c * iyy_c - ixy_c ^ 2) in
    let x_se := (1 / delta_s) * ((nu / 2 * wi_scx wi) - dotn n f_torsion phi_shear) in
    let y_se := (1 / delta_s) * ((nu / 2 * wi_scy wi) + dotn n f_torsion psi_shear) in
    let '(x11_se, y22_se) := principal_coordinate phi x_se y_se in
    let x_st := (ixy_c * wi_ix wi - iyy_c * wi_iy wi) / (ixx_c * iyy_c - ixy_c ^ 2) in
    let y_st := (ixx_c * wi_ix wi - ixy_c * wi_iy wi) / (ixx_c * iyy_c - ixy_c ^ 2) in
    mtell [WNum p_delta_s delta_s; WNum p_x_se x_se; WNum p_y_se y_se; WNum p_x11_se x11_se; WNum p_y22_se y22_se;
           WNum p_x_st x_st; WNum p_y_st y_st] ;;
    do ea <- get1 comp (if comp then get_ea else get_area);
    mtell [WNum p_gamma (wi_i wi - (wi_q wi) ^ 2 / ea - y_se * wi_ix wi + x_se * wi_iy wi)] ;;
    let '(kappa_x, kappa_y, kappa_xy) := shear_deformation ixx_c iyy_c ixy_c nu psi_shear phi_shear wels in
    mtell [WNum p_a_sx (delta_s ^ 2 / kappa_x); WNum p_a_sy (delta_s ^ 2 / kappa_y); WNum p_a_sxy (delta_s ^ 2 / kappa_xy)] ;;
    do area <- get1 comp get_area;
    let alpha_xx := kappa_x * area / delta_s ^ 2 in
    let alpha_yy := kappa_y * area / delta_s ^ 2 in
    let alpha_xy := kappa_xy * area / delta_s ^ 2 in
    let co := cos (phi * PI / 180) in
    let si := sin (phi * PI / 180) in
    let rot00 := (co * alpha_xx + si * alpha_xy) * co + (co * alpha_xy + si * alpha_yy) * si in
    let rot11 := (- si * alpha_xx + co * alpha_xy) * - si + (- si * alpha_xy + co * alpha_yy) * co in
    mtell [WNum p_a_s11 (area / rot00); WNum p_a_s22 (area / rot11)] ;;
    let m := mono_integrals phi wels in
    do (i11, i22) <- get2 comp (if comp then get_eip else get_ip);
    mtell [WNum p_beta_x_plus (- mi_x m / ixx_c + 2 * y_se); WNum p_beta_x_minus (mi_x m / ixx_c - 2 * y_se);
           WNum p_beta_y_plus (- mi_y m / iyy_c + 2 * x_se); WNum p_beta_y_minus (mi_y m / iyy_c - 2 * x_se);
           WNum p_beta_11_plus (- mi_11 m / i11 + 2 * y22_se); WNum p_beta_11_minus (mi_11 m / i11 - 2 * y22_se);
           WNum p_beta_22_plus (- mi_22 m / i22 + 2 * x11_se); WNum p_beta_22_minus (mi_22 m / i22 - 2 * x11_se)]
  else mraise ValueError.

(** section.py 877-1164: calculate_frame_properties. The final check against None (1145-1155) cannot fail. *)
Definition calculate_frame (l : libs) (g : geometry) (s : section_obj) (solver_type : string) : M frame_out :=
  let comp := is_composite (s_mats s) in
  let t := frame_loop (s_tris s) in
  mtell [WNum p_area 0; WNum p_ea 0; WNum p_qx 0; WNum p_qy 0; WNum p_ixx_g 0; WNum p_iyy_g 0; WNum p_ixy_g 0;
         WNum p_ixx_c 0; WNum p_iyy_c 0; WNum p_ixy_c 0; WNum p_j 0; WNum p_phi 0] ;;
  mtell [WNum p_area (f_area t); WNum p_ea (f_ea t); WNum p_qx (f_qx t); WNum p_qy (f_qy t);
         WNum p_ixx_g (f_ixx_g t); WNum p_iyy_g (f_iyy_g t); WNum p_ixy_g (f_ixy_g t);
         WNum p_cx (f_qy t / f_ea t); WNum p_cy (f_qx t / f_ea t)] ;;
  do ea <- get1 comp (if comp then get_ea else get_area);
  do (qx, qy) <- get2 comp (if comp then get_eq else get_q);
  do (ixx_g, iyy_g, ixy_g) <- get3 comp (if comp then get_eig else get_ig);
  mtell [WNum p_ixx_c (ixx_g - qx ^ 2 / ea); WNum p_iyy_c (iyy_g - qy ^ 2 / ea); WNum p_ixy_c (ixy_g - qx * qy / ea)] ;;
  do (ixx_c, iyy_c, ixy_c) <- get3 comp (if comp then get_eic else get_ic);
  let i11_c := (ixx_c + iyy_c) / 2 + sqrt (((ixx_c - iyy_c) / 2) ^ 2 + ixy_c ^ 2) in
  let phi := if Rlt_dec (Rabs (ixx_c - i11_c)) (1 / 10 ^ 12 * i11_c) then 0
             else M_Post.atan2 (ixx_c - i11_c) ixy_c * 180 / PI in
  mtell [WNum p_phi phi] ;;
  do ws <- mlift (section_init (g_mesh g) (g_mats g));
  do (cx, cy) <- get2 comp get_c;
  let n := length (s_nodes ws) in
  let wels := map (shift_el cx cy) (s_tris ws) in
  let '(k_lg, f_torsion) := assemble_torsion n wels in
  do omega <- mlift (choose_solver l solver_type (length (s_nodes s)) n k_lg f_torsion);
  mtell [WVec a_omega omega] ;;
  do (ixx_c, iyy_c, _) <- get3 comp (if comp then get_eic else get_ic);
  mtell [WNum p_j (ixx_c + iyy_c - dotn n omega f_torsion)] ;;
  do v <- need [p_area; p_ixx_c; p_iyy_c; p_ixy_c; p_j; p_phi];
  mret (mkFrame (nth 0 v 0) (nth 1 v 0) (nth 2 v 0) (nth 3 v 0) (nth 4 v 0) (nth 5 v 0)).

(** section.py 1166-1249: calculate_plastic_properties *)
Definition calculate_plastic (l : libs) (g : geometry) (s : section_obj) : M unit :=
  do c <- mget p_cx;
  match c with
  | None => mraise RuntimeError
  | Some _ => mrun (fun get => plastic_analysis (l_brentq l) (g_plastic g) get (negb (is_composite (s_mats s))))
  end.

(** section.py 1318-1362 (and 3339-3391): the values handed to the elements. *)
Definition read_parameters (comp : bool) (a : actions) : M (stress_par * (nat -> R) * (nat -> R) * (nat -> R)) :=
  do (cx, cy) <- get2 comp get_c;
  do phi <- get1 comp get_phi;
  do ea <- get1 comp (if comp then get_ea else get_area);
  do (ixx, iyy, ixy) <- get3 comp (if comp then get_eic else get_ic);
  do (i11, i22) <- get2 comp (if comp then get_eip else get_ip);
  if needs_warping a then
    do j <- get1 comp (if comp then get_ej else get_j);
    do nu <- (if comp then get1 comp get_nu_eff else mret 0);
    do delta_s <- mget p_delta_s; do omega <- mgetv a_omega; do psi <- mgetv a_psi_shear; do phi_s <- mgetv a_phi_shear;
    match delta_s, omega, psi, phi_s with
    | Some d, Some om, Some ps, Some ph => mret (mkStressPar ea cx cy ixx iyy ixy i11 i22 phi j nu d, om, ps, ph)
    | _, _, _, _ => mraise RuntimeError
    end
  else let z := fun _ : nat => 0 in mret (mkStressPar ea cx cy ixx iyy ixy i11 i22 phi 0 0 0, z, z, z).

(** section.py 1299-1308 (and 3317-3326): a warping analysis is needed for shear and torsion *)
Definition guard_warping (a : actions) : M unit :=
  if needs_warping a then do o <- mgetv a_omega; match o with None => mraise RuntimeError | Some _ => mret tt end
  else mret tt.

(** section.py 1251-1481: calculate_stress; the StressPost object is made of copies of the groups *)
Definition calculate_stress (s : section_obj) (a : actions) : M (list (nodal_stress * (nat -> combined))) :=
  guard_geometric ;;
  guard_warping a ;;
  do (p, om, ps, ph) <- read_parameters (is_composite (s_mats s)) a;
  mret (map (fun g => let r := group_stress a p om ps ph (snd g) in (r, combine_node r)) (s_group_tris s)).

(** section.py 3274-3446: get_stress_at_points (the order of the getters differs from calculate_stress; all raise
    RuntimeError). [query] is the search tree built with the section. *)
Definition stress_points (s : section_obj) (query : R * R -> list nat) (agg : list R -> R) (a : actions) (pts : list (R * R))
  : M (list (option (R * R * R))) :=
  guard_warping a ;;
  do (p, om, ps, ph) <- read_parameters (is_composite (s_mats s)) a;
  mret (map (fun pt => stress_at_point (s_tris s) (query pt) agg a p om ps ph pt) pts).

(** ** Histories of calls on one Section *)

(** The world: the geometry object (which the user may re-mesh or change), the Section built from it at some time,
    and the attributes stored so far. *)
Record world : Type := mkWorld { w_geom : geometry; w_sec : section_obj; w_props : props }.

Inductive call : Type :=
| CGeometric
| CWarping (solver_type : string)
| CFrame (solver_type : string)
| CPlastic
| CStress (a : actions)
| CPoints (a : actions) (pts : list (R * R)) (agg : list R -> R)
| CGet (x : getter) (e : e_ref)
| CGeometry (g : geometry).   (** the user changes the geometry object, e.g. by create_mesh *)

Inductive value_out : Type :=
| VUnit | VFrame (f : frame_out) | VStress (r : list (nodal_stress * (nat -> combined)))
| VPoints (r : list (option (R * R * R))) | VNums (l : list R).

Definition mmap {A B} (f : A -> B) (m : M A) : M B := do x <- m; mret (f x).

(** The effect of a call on the attributes, and what it returns. *)
Definition method (l : libs) (query : R * R -> list nat) (g : geometry) (s : section_obj) (c : call) : M value_out :=
  match c with
  | CGeometric => mmap (fun _ => VUnit) (calculate_geometric g s)
  | CWarping st => mmap (fun _ => VUnit) (calculate_warping l g s st)
  | CFrame st => mmap VFrame (calculate_frame l g s st)
  | CPlastic => mmap (fun _ => VUnit) (calculate_plastic l g s)
  | CStress a => mmap VStress (calculate_stress s a)
  | CPoints a pts agg => mmap VPoints (stress_points s query agg a pts)
  | CGet x e => mmap VNums (run_getter (is_composite (s_mats s)) x e)
  | CGeometry _ => mret VUnit
  end.

Definition step (l : libs) (query : R * R -> list nat) (w : world) (c : call) : world * result value_out :=
  let '(p, r) := method l query (w_geom w) (w_sec w) c (w_props w) in
  (mkWorld (match c with CGeometry g => g | _ => w_geom w end) (w_sec w) p, r).

(** The world after a history of calls (exceptions are caught by the user and the history goes on). *)
Definition run (l : libs) (query : R * R -> list nat) (w : world) (h : list call) : world :=
  fold_left (fun w c => fst (step l query w c)) h w.

(** section.py 63-174: a new Section; 174: all attributes None *)
Definition new_section (g : geometry) : result world :=
  bind (section_init (g_mesh g) (g_mats g)) (fun s => Ok (mkWorld g s no_props)).
