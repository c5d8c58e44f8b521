(** Specification vocabulary for the tables of results: the names under which the values of each getter are listed. *)
From Coq Require Import String Reals List Bool.
From Verif Require Import Base M_State S_State.
Import ListNotations.
Local Open Scope string_scope.

(** Names of the values of a getter in display_results, in the order of the returned tuple. Modulus-weighted values are prefixed "e.". *)
Definition names (x : getter) : list string :=
  match x with
  | get_area => ["area"] | get_perimeter => ["perimeter"] | get_mass => ["mass"] | get_ea => ["e.a"]
  | get_q => ["qx"; "qy"] | get_eq => ["e.qx"; "e.qy"]
  | get_ig => ["ixx_g"; "iyy_g"; "ixy_g"] | get_eig => ["e.ixx_g"; "e.iyy_g"; "e.ixy_g"]
  | get_c => ["cx"; "cy"]
  | get_ic => ["ixx_c"; "iyy_c"; "ixy_c"] | get_eic => ["e.ixx_c"; "e.iyy_c"; "e.ixy_c"]
  | get_z => ["zxx+"; "zxx-"; "zyy+"; "zyy-"] | get_ez => ["e.zxx+"; "e.zxx-"; "e.zyy+"; "e.zyy-"]
  | get_my => ["my_xx"; "my_yy"]
  | get_rc => ["rx"; "ry"]
  | get_ip => ["i11_c"; "i22_c"] | get_eip => ["e.i11_c"; "e.i22_c"]
  | get_phi => ["phi"]
  | get_zp => ["z11+"; "z11-"; "z22+"; "z22-"] | get_ezp => ["e.z11+"; "e.z11-"; "e.z22+"; "e.z22-"]
  | get_my_p => ["my_11"; "my_22"]
  | get_rp => ["r11"; "r22"]
  | get_nu_eff => ["nu_eff"] | get_e_eff => ["e_eff"] | get_g_eff => ["g_eff"]
  | get_j => ["j"] | get_ej => ["e.j"]
  | get_sc => ["x_se"; "y_se"] | get_sc_p => ["x1_se"; "y2_se"] | get_sc_t => ["x_st"; "y_st"]
  | get_gamma => ["gamma"] | get_egamma => ["e.gamma"]
  | get_as => ["a_sx"; "a_sy"] | get_eas => ["e.a_sx"; "e.a_sy"]
  | get_as_p => ["a_s11"; "a_s22"] | get_eas_p => ["e.a_s11"; "e.a_s22"]
  | get_beta => ["beta_x+"; "beta_x-"; "beta_y+"; "beta_y-"] | get_beta_p => ["beta_11+"; "beta_11-"; "beta_22+"; "beta_22-"]
  | get_pc => ["x_pc"; "y_pc"] | get_pc_p => ["x11_pc"; "y22_pc"]
  | get_s => ["sxx"; "syy"] | get_mp => ["mp_xx"; "mp_yy"]
  | get_sp => ["s11"; "s22"] | get_mp_p => ["mp_11"; "mp_22"]
  | get_sf => ["sf_xx+"; "sf_xx-"; "sf_yy+"; "sf_yy-"] | get_sf_p => ["sf_11+"; "sf_11-"; "sf_22+"; "sf_22-"]
  end.
(** Names in display_transformed_results: a modulus-weighted value, divided by the reference modulus, has the name of the geometric one. *)
Definition transformed_names (x : getter) : list string :=
  match x with
  | get_area => ["geom area"] | get_ea => ["a"]
  | get_eq => names get_q | get_eig => names get_ig | get_eic => names get_ic | get_ez => names get_z | get_eip => names get_ip
  | get_ezp => names get_zp | get_ej => names get_j | get_egamma => names get_gamma | get_eas => names get_as | get_eas_p => names get_as_p
  | get_q | get_ig | get_ic | get_z | get_ip | get_zp | get_j | get_gamma | get_as | get_as_p | get_s | get_sp => []
  | _ => names x
  end.
(** The value [v] is listed under [name] by the naming [f]: some getter returns it in that place. *)
Definition listed (l : libs) (query : R * R -> list nat) (w : world) (e : e_ref) (f : getter -> list string) (name : string) (v : R) : Prop :=
  exists x k vs, nth_error (f x) k = Some name /\ returns l query w x e vs /\ nth_error vs k = Some v.
