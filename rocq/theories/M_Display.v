(** Model of Section.display_results and display_transformed_results and of display_mesh_info: post/post.py 548-938, 941-1233 and section.py 1847-1904. A table is the list of its rows, name and value; the text of the value (the format [fmt]) is not modelled.
    Definitions only. *)
From Coq Require Import String Reals List Bool Arith DecimalString.
From Verif Require Import Base M_Init M_State M_Draw.
Import ListNotations.
Local Open Scope string_scope.
Local Open Scope R_scope.

Definition rows : Type := list (string * R).
(** section.get_...() with the default e_ref *)
Definition call_getter (w : world) (x : getter) : result (list R) := snd (run_getter (is_composite (s_mats (w_sec w))) x (ENum 1) (w_props w)).
(** try: a, b, ... = section.get_...(); table.add_row(name, a); ... except RuntimeError: pass *)
Definition show (w : world) (x : getter) (names : list string) : result rows := attempt (call_getter w x) (fun v => combine names v).
(** the same with a / er, b / er, ... *)
Definition show_over (e : e_ref) (w : world) (x : getter) (names : list string) : result rows :=
  attempt (call_getter w x) (fun v => combine names (map (fun a => a / e_value e) v)).
(** post.py 752-761, 1094-1102: three getters in one try *)
Definition show_eff (w : world) : result rows :=
  attempt (bind (call_getter w get_e_eff) (fun e_eff => bind (call_getter w get_g_eff) (fun g_eff => bind (call_getter w get_nu_eff) (fun nu_eff => Ok (e_eff ++ g_eff ++ nu_eff)%list))))
    (fun v => combine ["e_eff"; "g_eff"; "nu_eff"] v).
(** rows added one after the other; an exception that is not caught ends the printing *)
Fixpoint table (l : list (result rows)) : result rows :=
  match l with [] => Ok [] | r :: rest => bind r (fun a => bind (table rest) (fun b => Ok (a ++ b)%list)) end.

(** post.py 548-938: print_results *)
Definition print_results (w : world) : result rows :=
  let comp := is_composite (s_mats (w_sec w)) in
  table (concat [
   [show w get_area ["area"]];  (* 565-568 *)
   [show w get_perimeter ["perimeter"]];  (* 572-575 *)
   if comp then [show w get_mass ["mass"]] else [];  (* 580-583 *)
   if comp then [show w get_ea ["e.a"]] else [];  (* 588-591 *)
   if comp then [] else [show w get_q ["qx"; "qy"]];  (* 596-600 *)
   if comp then [show w get_eq ["e.qx"; "e.qy"]] else [];  (* 603-607 *)
   if comp then [] else [show w get_ig ["ixx_g"; "iyy_g"; "ixy_g"]];  (* 612-617 *)
   if comp then [show w get_eig ["e.ixx_g"; "e.iyy_g"; "e.ixy_g"]] else [];  (* 620-625 *)
   [show w get_c ["cx"; "cy"]];  (* 629-633 *)
   if comp then [] else [show w get_ic ["ixx_c"; "iyy_c"; "ixy_c"]];  (* 638-643 *)
   if comp then [show w get_eic ["e.ixx_c"; "e.iyy_c"; "e.ixy_c"]] else [];  (* 646-651 *)
   if comp then [] else [show w get_z ["zxx+"; "zxx-"; "zyy+"; "zyy-"]];  (* 656-662 *)
   if comp then [show w get_ez ["e.zxx+"; "e.zxx-"; "e.zyy+"; "e.zyy-"]] else [];  (* 665-671 *)
   if comp then [show w get_my ["my_xx"; "my_yy"]] else [];  (* 676-680 *)
   [show w get_rc ["rx"; "ry"]];  (* 684-688 *)
   if comp then [] else [show w get_ip ["i11_c"; "i22_c"]];  (* 693-697 *)
   if comp then [show w get_eip ["e.i11_c"; "e.i22_c"]] else [];  (* 700-704 *)
   [show w get_phi ["phi"]];  (* 708-711 *)
   if comp then [] else [show w get_zp ["z11+"; "z11-"; "z22+"; "z22-"]];  (* 716-722 *)
   if comp then [show w get_ezp ["e.z11+"; "e.z11-"; "e.z22+"; "e.z22-"]] else [];  (* 725-731 *)
   if comp then [show w get_my_p ["my_11"; "my_22"]] else [];  (* 736-740 *)
   [show w get_rp ["r11"; "r22"]];  (* 744-748 *)
   if comp then [show_eff w] else [];  (* 753-760 *)
   if comp then [] else [show w get_j ["j"]];  (* 765-768 *)
   if comp then [show w get_ej ["e.j"]] else [];  (* 771-774 *)
   [show w get_sc ["x_se"; "y_se"]];  (* 778-782 *)
   [show w get_sc_p ["x1_se"; "y2_se"]];  (* 786-790 *)
   [show w get_sc_t ["x_st"; "y_st"]];  (* 794-798 *)
   if comp then [] else [show w get_gamma ["gamma"]];  (* 803-806 *)
   if comp then [show w get_egamma ["e.gamma"]] else [];  (* 809-812 *)
   if comp then [] else [show w get_as ["a_sx"; "a_sy"]];  (* 817-821 *)
   if comp then [show w get_eas ["e.a_sx"; "e.a_sy"]] else [];  (* 824-828 *)
   if comp then [] else [show w get_as_p ["a_s11"; "a_s22"]];  (* 833-837 *)
   if comp then [show w get_eas_p ["e.a_s11"; "e.a_s22"]] else [];  (* 840-844 *)
   [show w get_beta ["beta_x+"; "beta_x-"; "beta_y+"; "beta_y-"]];  (* 848-854 *)
   [show w get_beta_p ["beta_11+"; "beta_11-"; "beta_22+"; "beta_22-"]];  (* 858-864 *)
   [show w get_pc ["x_pc"; "y_pc"]];  (* 868-872 *)
   [show w get_pc_p ["x11_pc"; "y22_pc"]];  (* 876-880 *)
   if comp then [] else [show w get_s ["sxx"; "syy"]];  (* 885-889 *)
   if comp then [show w get_mp ["mp_xx"; "mp_yy"]] else [];  (* 892-897 *)
   if comp then [] else [show w get_sp ["s11"; "s22"]];  (* 902-906 *)
   if comp then [show w get_mp_p ["mp_11"; "mp_22"]] else [];  (* 909-913 *)
   [show w get_sf ["sf_xx+"; "sf_xx-"; "sf_yy+"; "sf_yy-"]];  (* 917-923 *)
   [show w get_sf_p ["sf_11+"; "sf_11-"; "sf_22+"; "sf_22-"]]  (* 927-933 *)]).

(** post.py 941-1233: print_transformed_results *)
Definition print_transformed_results (w : world) (e : e_ref) : result rows :=
  table (concat [
   [show w get_area ["geom area"]];  (* 962-965 *)
   [show w get_perimeter ["perimeter"]];  (* 969-972 *)
   [show w get_mass ["mass"]];  (* 976-979 *)
   [Ok [("e_ref", e_value e)]];  (* 983 *)
   [show_over e w get_ea ["a"]];  (* 986-989 *)
   [show_over e w get_eq ["qx"; "qy"]];  (* 993-997 *)
   [show_over e w get_eig ["ixx_g"; "iyy_g"; "ixy_g"]];  (* 1001-1006 *)
   [show w get_c ["cx"; "cy"]];  (* 1010-1014 *)
   [show_over e w get_eic ["ixx_c"; "iyy_c"; "ixy_c"]];  (* 1018-1023 *)
   [show_over e w get_ez ["zxx+"; "zxx-"; "zyy+"; "zyy-"]];  (* 1027-1033 *)
   [show w get_my ["my_xx"; "my_yy"]];  (* 1037-1041 *)
   [show w get_rc ["rx"; "ry"]];  (* 1045-1049 *)
   [show_over e w get_eip ["i11_c"; "i22_c"]];  (* 1053-1057 *)
   [show w get_phi ["phi"]];  (* 1061-1064 *)
   [show_over e w get_ezp ["z11+"; "z11-"; "z22+"; "z22-"]];  (* 1068-1074 *)
   [show w get_my_p ["my_11"; "my_22"]];  (* 1078-1082 *)
   [show w get_rp ["r11"; "r22"]];  (* 1086-1090 *)
   [show_eff w];  (* 1094-1101 *)
   [show_over e w get_ej ["j"]];  (* 1105-1108 *)
   [show w get_sc ["x_se"; "y_se"]];  (* 1112-1116 *)
   [show w get_sc_p ["x1_se"; "y2_se"]];  (* 1120-1124 *)
   [show w get_sc_t ["x_st"; "y_st"]];  (* 1128-1132 *)
   [show_over e w get_egamma ["gamma"]];  (* 1136-1139 *)
   [show_over e w get_eas ["a_sx"; "a_sy"]];  (* 1143-1147 *)
   [show_over e w get_eas_p ["a_s11"; "a_s22"]];  (* 1151-1155 *)
   [show w get_beta ["beta_x+"; "beta_x-"; "beta_y+"; "beta_y-"]];  (* 1159-1165 *)
   [show w get_beta_p ["beta_11+"; "beta_11-"; "beta_22+"; "beta_22-"]];  (* 1169-1175 *)
   [show w get_pc ["x_pc"; "y_pc"]];  (* 1179-1183 *)
   [show w get_pc_p ["x11_pc"; "y22_pc"]];  (* 1187-1191 *)
   [show w get_mp ["mp_xx"; "mp_yy"]];  (* 1195-1200 *)
   [show w get_mp_p ["mp_11"; "mp_22"]];  (* 1204-1208 *)
   [show w get_sf ["sf_xx+"; "sf_xx-"; "sf_yy+"; "sf_yy-"]];  (* 1212-1218 *)
   [show w get_sf_p ["sf_11+"; "sf_11-"; "sf_22+"; "sf_22-"]]  (* 1222-1228 *)]).

(** section.py 1864-1874: display_results *)
Definition display_results (w : world) : result rows := print_results w.
(** section.py 1876-1904: display_transformed_results *)
Definition display_transformed_results (w : world) (e : e_ref) : result rows :=
  if is_composite (s_mats (w_sec w)) then print_transformed_results w e else Err RuntimeError.

(** the digits of a number in an f-string *)
Definition digits (n : nat) : string := NilZero.string_of_uint (Nat.to_uint n).
(** section.py 1847-1862: display_mesh_info, the printed lines (without their styles); [m] is the mesh that the section was made of, whose
    attributes the section keeps (102-104) *)
Definition display_mesh_info (m : raw_mesh) (s : section_obj) : list string :=
  let regions := (list_max (rm_attributes m) + 1)%nat in
  let text := "- " ++ digits regions ++ " region" in
  let text := if Nat.ltb 1 regions then text ++ "s" else text in
  ["Mesh Statistics:"; "- " ++ digits (length (s_nodes s)) ++ " nodes"; "- " ++ digits (length (s_els s)) ++ " elements"; text; ""].
