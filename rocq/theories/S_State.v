(** Specification notions for histories of calls on a Section: the value each attribute should have, which analyses
    provide which getter, pairs of getters. *)
From Coq Require Import String Reals List Bool Arith.
From Verif Require Import Base M_Fea M_Section M_Stress M_Init M_Bisect M_Plastic M_Solver M_Props M_State S_Init.
From Verif Require Import M_Post.
Import ListNotations.
Local Open Scope R_scope.

(** The last assignment to an attribute in a list of assignments. *)
Fixpoint last_write (l : list write) (q : prop) : option R :=
  match l with
  | [] => None
  | WNum p v :: rest => match last_write rest q with Some x => Some x | None => if prop_eq_dec q p then Some v else None end
  | WVec _ _ :: rest => last_write rest q
  end.

(** ** The value of every property, as a function of the section alone *)
Section Values.
Variables (l : libs) (g : geometry) (s : section_obj) (st : string).

(** The results of the pure analysis functions (M_Post.v, M_Section.v, M_Plastic.v) for the mesh of the section. *)
Definition the_totals : totals := section_totals (s_tris s).
Definition the_centroidal : centroidal := centroidal_of the_totals.
Definition the_solver : lg_solver := choose_solver l st (length (s_nodes s)) (length (s_nodes s)).
Definition the_torsion : result ((nat -> R) * R) :=
  let '(K, f) := assemble_torsion (length (s_nodes s)) (map (shift_el (p_cx the_centroidal) (p_cy the_centroidal)) (s_tris s)) in
  bind (the_solver K f) (fun om =>
    Ok (om, p_ixx_c the_centroidal + p_iyy_c the_centroidal - dotn (length (s_nodes s)) om f)).
Definition the_warping : result warping :=
  warping_analysis (length (s_nodes s)) the_solver (is_composite (s_mats s)) the_totals the_centroidal (s_tris s).

Definition of_moduli (f : moduli -> R) : option R :=
  match moduli_of the_totals the_centroidal (s_nodes s) with Ok m => Some (f m) | Err _ => None end.
Definition of_warping (f : warping -> R) : option R := match the_warping with Ok w => Some (f w) | Err _ => None end.

(** What the geometric analysis gives. *)
Definition geometric_value (q : prop) : option R :=
  let t := the_totals in let c := the_centroidal in let my := yield_moments c (s_group_tris s) in
  match q with
  | M_Props.p_area => Some (t_area t) | M_Props.p_perimeter => Some (g_perimeter g) | M_Props.p_mass => Some (t_mass t)
  | M_Props.p_ea => Some (t_ea t) | M_Props.p_ga => Some (t_ga t)
  | M_Props.p_nu_eff => Some (nu_eff t) | M_Props.p_e_eff => Some (e_eff t) | M_Props.p_g_eff => Some (g_eff t)
  | M_Props.p_qx => Some (t_qx t) | M_Props.p_qy => Some (t_qy t)
  | M_Props.p_ixx_g => Some (t_ixx_g t) | M_Props.p_iyy_g => Some (t_iyy_g t) | M_Props.p_ixy_g => Some (t_ixy_g t)
  | M_Props.p_cx => Some (p_cx c) | M_Props.p_cy => Some (p_cy c)
  | M_Props.p_ixx_c => Some (p_ixx_c c) | M_Props.p_iyy_c => Some (p_iyy_c c) | M_Props.p_ixy_c => Some (p_ixy_c c)
  | M_Props.p_i11_c => Some (p_i11_c c) | M_Props.p_i22_c => Some (p_i22_c c) | M_Props.p_phi => Some (p_phi c)
  | M_Props.p_zxx_plus => of_moduli z_xx_plus | M_Props.p_zxx_minus => of_moduli z_xx_minus
  | M_Props.p_zyy_plus => of_moduli z_yy_plus | M_Props.p_zyy_minus => of_moduli z_yy_minus
  | M_Props.p_rx_c => of_moduli z_rx | M_Props.p_ry_c => of_moduli z_ry
  | M_Props.p_z11_plus => of_moduli z_11_plus | M_Props.p_z11_minus => of_moduli z_11_minus
  | M_Props.p_z22_plus => of_moduli z_22_plus | M_Props.p_z22_minus => of_moduli z_22_minus
  | M_Props.p_r11_c => of_moduli z_r11 | M_Props.p_r22_c => of_moduli z_r22
  | M_Props.p_my_xx => Some (q_xx my) | M_Props.p_my_yy => Some (q_yy my)
  | M_Props.p_my_11 => Some (q_11 my) | M_Props.p_my_22 => Some (q_22 my)
  | _ => None
  end.

Definition the_plastic : W unit :=
  plastic_analysis (l_brentq l) (g_plastic g) geometric_value (negb (is_composite (s_mats s))).

(** The value of a property, whatever the history. *)
Definition property_value (q : prop) : option R :=
  match q with
  | M_Props.p_j => match the_torsion with Ok (_, j) => Some j | Err _ => None end
  | M_Props.p_delta_s => of_warping w_delta_s | M_Props.p_x_se => of_warping w_x_se | M_Props.p_y_se => of_warping w_y_se
  | M_Props.p_x11_se => of_warping w_x11_se | M_Props.p_y22_se => of_warping w_y22_se
  | M_Props.p_x_st => of_warping w_x_st | M_Props.p_y_st => of_warping w_y_st | M_Props.p_gamma => of_warping w_gamma
  | M_Props.p_a_sx => of_warping w_a_sx | M_Props.p_a_sy => of_warping w_a_sy | M_Props.p_a_sxy => of_warping w_a_sxy
  | M_Props.p_a_s11 => of_warping w_a_s11 | M_Props.p_a_s22 => of_warping w_a_s22
  | M_Props.p_beta_x_plus => of_warping w_beta_x_plus | M_Props.p_beta_x_minus => of_warping w_beta_x_minus
  | M_Props.p_beta_y_plus => of_warping w_beta_y_plus | M_Props.p_beta_y_minus => of_warping w_beta_y_minus
  | M_Props.p_beta_11_plus => of_warping w_beta_11_plus | M_Props.p_beta_11_minus => of_warping w_beta_11_minus
  | M_Props.p_beta_22_plus => of_warping w_beta_22_plus | M_Props.p_beta_22_minus => of_warping w_beta_22_minus
  | p_x_pc | p_y_pc | p_x11_pc | p_y22_pc | p_sxx | p_syy | p_s11 | p_s22
  | p_sf_xx_plus | p_sf_xx_minus | p_sf_yy_plus | p_sf_yy_minus
  | p_sf_11_plus | p_sf_11_minus | p_sf_22_plus | p_sf_22_minus => last_write (fst the_plastic) q
  | _ => geometric_value q
  end.

Definition array_value (a : arr) : option (nat -> R) :=
  match a with
  | a_omega => match the_torsion with Ok (om, _) => Some om | Err _ => None end
  | a_psi_shear => match the_warping with Ok w => Some (w_psi w) | Err _ => None end
  | a_phi_shear => match the_warping with Ok w => Some (w_phi w) | Err _ => None end
  end.

(** All values of a list of properties. *)
Fixpoint all_values (f : prop -> option R) (qs : list prop) : option (list R) :=
  match qs with
  | [] => Some []
  | q :: rest => match f q, all_values f rest with Some v, Some r => Some (v :: r) | _, _ => None end
  end.
(** What a getter should return. *)
Definition getter_value (x : getter) (e : e_ref) : option (list R) :=
  match all_values property_value (fields x) with Some v => Some (finish x e v) | None => None end.
End Values.

(** ** Histories *)

(** The section of the world was built from the geometry, which has nodes. *)
Definition built (g : geometry) (s : section_obj) : Prop :=
  section_init (g_mesh g) (g_mats g) = Ok s /\ s_nodes s <> [].

(** All analyses of the history use the solver type st and the geometry object is left alone. *)
Definition uses (st : string) (c : call) : Prop :=
  match c with CWarping st' | CFrame st' => st' = st | CGeometry _ => False | _ => True end.

(** The state of the world just before some call of the history. *)
Definition occurs (l : libs) (query : R * R -> list nat) (w : world) (h : list call) (c : call) (w' : world) : Prop :=
  exists h1 h2, h = h1 ++ c :: h2 /\ w' = run l query w h1.

(** A call of the history that returned normally. *)
Definition succeeded (l : libs) (query : R * R -> list nat) (w : world) (h : list call) (c : call) : Prop :=
  exists w', occurs l query w h c w' /\ is_ok (snd (step l query w' c)).

(** Kinds of analyses. *)
Inductive analysis : Type := Geometric | Warping | Frame | Plastic.
Definition is_analysis (a : analysis) (c : call) : Prop :=
  match a, c with
  | Geometric, CGeometric | Plastic, CPlastic => True
  | Warping, CWarping _ | Frame, CFrame _ => True
  | _, _ => False
  end.

(** Documentation of the getters: which analyses provide them. (Shape factors need a plastic analysis after a
    geometric one and are treated separately.) *)
Definition provided_by (x : getter) : list analysis :=
  match x with
  | get_area | get_ea | get_q | get_eq | get_ig | get_eig | get_c | get_ic | get_eic | get_phi => [Geometric; Frame]
  | get_perimeter | get_mass | get_z | get_ez | get_my | get_rc | get_ip | get_eip | get_zp | get_ezp | get_my_p | get_rp
  | get_nu_eff | get_e_eff | get_g_eff => [Geometric]
  | get_j | get_ej => [Warping; Frame]
  | get_sc | get_sc_p | get_sc_t | get_gamma | get_egamma | get_as | get_eas | get_as_p | get_eas_p
  | get_beta | get_beta_p => [Warping]
  | get_pc | get_pc_p | get_s | get_mp | get_sp | get_mp_p | get_sf | get_sf_p => [Plastic]
  end.
Definition shape_factor_getter (x : getter) : bool := match x with get_sf | get_sf_p => true | _ => false end.

(** A getter that may be called in the current mode: True for composite sections, False for others. *)
Definition allowed (composite : bool) (x : getter) : Prop :=
  match x with
  | get_mass | get_ea | get_eq | get_eig | get_eic | get_ez | get_my | get_eip | get_ezp | get_my_p
  | get_nu_eff | get_e_eff | get_g_eff | get_ej | get_egamma | get_eas | get_eas_p | get_mp | get_mp_p => composite = true
  | get_q | get_ig | get_ic | get_z | get_ip | get_zp | get_j | get_gamma | get_as | get_as_p | get_s | get_sp => composite = false
  | _ => True
  end.

(** A call of a getter returns. *)
Definition returns (l : libs) (query : R * R -> list nat) (w : world) (x : getter) (e : e_ref) (v : list R) : Prop :=
  snd (step l query w (CGet x e)) = Ok (VNums v).

(** Pairs: property of the geometry alone, modulus-weighted property. *)
Definition getter_pairs : list (getter * getter) :=
  [(get_q, get_eq); (get_ig, get_eig); (get_ic, get_eic); (get_z, get_ez); (get_ip, get_eip); (get_zp, get_ezp);
   (get_j, get_ej); (get_gamma, get_egamma); (get_as, get_eas); (get_as_p, get_eas_p); (get_s, get_mp); (get_sp, get_mp_p)].

(** Calls that only read: stress analyses and getters. *)
Definition reads (c : call) : bool := match c with CStress _ | CPoints _ _ _ | CGet _ _ => true | _ => false end.

(** the moduli (or yield moments) by which the plastic moduli are divided *)
Definition sf_divisors (composite principal : bool) : list prop :=
  match composite, principal with
  | false, false => [M_Props.p_zxx_plus; M_Props.p_zxx_minus; M_Props.p_zyy_plus; M_Props.p_zyy_minus]
  | false, true => [M_Props.p_z11_plus; M_Props.p_z11_minus; M_Props.p_z22_plus; M_Props.p_z22_minus]
  | true, false => [M_Props.p_my_xx; M_Props.p_my_yy]
  | true, true => [M_Props.p_my_11; M_Props.p_my_22]
  end.


(** the torsion problem of the mesh of s2, about the centroid of s *)
Definition torsion_on (l : libs) (s s2 : section_obj) (st : string) : result ((nat -> R) * R) :=
  let c := the_centroidal s in let n2 := length (s_nodes s2) in
  let '(K, f) := assemble_torsion n2 (map (shift_el (p_cx c) (p_cy c)) (s_tris s2)) in
  bind (choose_solver l st (length (s_nodes s)) n2 K f) (fun om => Ok (om, p_ixx_c c + p_iyy_c c - dotn n2 om f)).

(** What the docstrings of the getters in section.py promise, in terms of the stored properties [num]: the values [v] are these
    properties ([plain]), or these divided by the elastic modulus e_ref ([over]), or, for the centres, their position in the user's
    axes: centroidal coordinates moved by the centroid, principal ones (plastic centroid) first turned by phi. *)
Definition plain (num : prop -> option R) (l : list prop) (v : list R) : Prop := Forall2 (fun q a => num q = Some a) l v.
Definition over (num : prop -> option R) (e : R) (l : list prop) (v : list R) : Prop := exists u, plain num l u /\ Forall2 (fun a b => b = a / e) u v.
Definition moved (num : prop -> option R) (qx qy : prop) (v : list R) : Prop :=
  exists x y cx cy, num qx = Some x /\ num qy = Some y /\ num M_Props.p_cx = Some cx /\ num M_Props.p_cy = Some cy /\ v = [x + cx; y + cy].
Definition documented (num : prop -> option R) (x : getter) (e : R) (v : list R) : Prop :=
  match x with
  | get_area => plain num [M_Props.p_area] v
  | get_perimeter => plain num [M_Props.p_perimeter] v
  | get_mass => plain num [M_Props.p_mass] v
  | get_ea => over num e [M_Props.p_ea] v
  | get_q => plain num [M_Props.p_qx; M_Props.p_qy] v
  | get_eq => over num e [M_Props.p_qx; M_Props.p_qy] v
  | get_ig => plain num [M_Props.p_ixx_g; M_Props.p_iyy_g; M_Props.p_ixy_g] v
  | get_eig => over num e [M_Props.p_ixx_g; M_Props.p_iyy_g; M_Props.p_ixy_g] v
  | get_c => plain num [M_Props.p_cx; M_Props.p_cy] v
  | get_ic => plain num [M_Props.p_ixx_c; M_Props.p_iyy_c; M_Props.p_ixy_c] v
  | get_eic => over num e [M_Props.p_ixx_c; M_Props.p_iyy_c; M_Props.p_ixy_c] v
  | get_z => plain num [M_Props.p_zxx_plus; M_Props.p_zxx_minus; M_Props.p_zyy_plus; M_Props.p_zyy_minus] v
  | get_ez => over num e [M_Props.p_zxx_plus; M_Props.p_zxx_minus; M_Props.p_zyy_plus; M_Props.p_zyy_minus] v
  | get_my => plain num [M_Props.p_my_xx; M_Props.p_my_yy] v
  | get_rc => plain num [M_Props.p_rx_c; M_Props.p_ry_c] v
  | get_ip => plain num [M_Props.p_i11_c; M_Props.p_i22_c] v
  | get_eip => over num e [M_Props.p_i11_c; M_Props.p_i22_c] v
  | get_phi => plain num [M_Props.p_phi] v
  | get_zp => plain num [M_Props.p_z11_plus; M_Props.p_z11_minus; M_Props.p_z22_plus; M_Props.p_z22_minus] v
  | get_ezp => over num e [M_Props.p_z11_plus; M_Props.p_z11_minus; M_Props.p_z22_plus; M_Props.p_z22_minus] v
  | get_my_p => plain num [M_Props.p_my_11; M_Props.p_my_22] v
  | get_rp => plain num [M_Props.p_r11_c; M_Props.p_r22_c] v
  | get_nu_eff => plain num [M_Props.p_nu_eff] v
  | get_e_eff => plain num [M_Props.p_e_eff] v
  | get_g_eff => plain num [M_Props.p_g_eff] v
  | get_j => plain num [M_Props.p_j] v
  | get_ej => over num e [M_Props.p_j] v
  | get_sc => moved num M_Props.p_x_se M_Props.p_y_se v
  | get_sc_p => plain num [M_Props.p_x11_se; M_Props.p_y22_se] v
  | get_sc_t => moved num M_Props.p_x_st M_Props.p_y_st v
  | get_gamma => plain num [M_Props.p_gamma] v
  | get_egamma => over num e [M_Props.p_gamma] v
  | get_as => plain num [M_Props.p_a_sx; M_Props.p_a_sy] v
  | get_eas => over num e [M_Props.p_a_sx; M_Props.p_a_sy] v
  | get_as_p => plain num [M_Props.p_a_s11; M_Props.p_a_s22] v
  | get_eas_p => over num e [M_Props.p_a_s11; M_Props.p_a_s22] v
  | get_beta => plain num [M_Props.p_beta_x_plus; M_Props.p_beta_x_minus; M_Props.p_beta_y_plus; M_Props.p_beta_y_minus] v
  | get_beta_p => plain num [M_Props.p_beta_11_plus; M_Props.p_beta_11_minus; M_Props.p_beta_22_plus; M_Props.p_beta_22_minus] v
  | get_pc => moved num M_Props.p_x_pc M_Props.p_y_pc v
  | get_pc_p => exists x y cx cy phi, num M_Props.p_x11_pc = Some x /\ num M_Props.p_y22_pc = Some y /\ num M_Props.p_cx = Some cx /\ num M_Props.p_cy = Some cy /\
      num M_Props.p_phi = Some phi /\
      v = [x * cos (phi * PI / 180) - y * sin (phi * PI / 180) + cx; x * sin (phi * PI / 180) + y * cos (phi * PI / 180) + cy]
  | get_s => plain num [M_Props.p_sxx; M_Props.p_syy] v
  | get_mp => plain num [M_Props.p_sxx; M_Props.p_syy] v
  | get_sp => plain num [M_Props.p_s11; M_Props.p_s22] v
  | get_mp_p => plain num [M_Props.p_s11; M_Props.p_s22] v
  | get_sf => plain num [M_Props.p_sf_xx_plus; M_Props.p_sf_xx_minus; M_Props.p_sf_yy_plus; M_Props.p_sf_yy_minus] v
  | get_sf_p => plain num [M_Props.p_sf_11_plus; M_Props.p_sf_11_minus; M_Props.p_sf_22_plus; M_Props.p_sf_22_minus] v
  end.
