(** Model of the attributes of SectionProperties (src/sectionproperties/post/post.py 27-216) and of methods that
    update them. Definitions only. *)
From Coq Require Import Reals List Bool.
From Verif Require Import Base.
Import ListNotations.
Local Open Scope R_scope.

(** post.py 139-216: the numeric attributes of SectionProperties *)
Inductive prop : Type :=
| p_area | p_perimeter | p_mass | p_ea | p_ga | p_nu_eff | p_e_eff | p_g_eff | p_qx | p_qy
| p_ixx_g | p_iyy_g | p_ixy_g | p_cx | p_cy | p_ixx_c | p_iyy_c | p_ixy_c
| p_zxx_plus | p_zxx_minus | p_zyy_plus | p_zyy_minus | p_rx_c | p_ry_c
| p_i11_c | p_i22_c | p_phi | p_z11_plus | p_z11_minus | p_z22_plus | p_z22_minus | p_r11_c | p_r22_c
| p_j | p_my_xx | p_my_yy | p_my_11 | p_my_22
| p_delta_s | p_x_se | p_y_se | p_x11_se | p_y22_se | p_x_st | p_y_st | p_gamma
| p_a_sx | p_a_sy | p_a_sxy | p_a_s11 | p_a_s22
| p_beta_x_plus | p_beta_x_minus | p_beta_y_plus | p_beta_y_minus
| p_beta_11_plus | p_beta_11_minus | p_beta_22_plus | p_beta_22_minus
| p_x_pc | p_y_pc | p_x11_pc | p_y22_pc | p_sxx | p_syy
| p_sf_xx_plus | p_sf_xx_minus | p_sf_yy_plus | p_sf_yy_minus | p_s11 | p_s22
| p_sf_11_plus | p_sf_11_minus | p_sf_22_plus | p_sf_22_minus.

Definition prop_eq_dec (a b : prop) : {a = b} + {a <> b}.
Proof. decide equality. Defined.

(** post.py 177-179: the array attributes *)
Inductive arr : Type := a_omega | a_psi_shear | a_phi_shear.
Definition arr_eq_dec (a b : arr) : {a = b} + {a <> b}.
Proof. decide equality. Defined.

(** The state of a SectionProperties object; None is Python's None. *)
Record props : Type := mkProps { num : prop -> option R; vec : arr -> option (nat -> R) }.

(** post.py 139-216: all attributes default to None *)
Definition no_props : props := mkProps (fun _ => None) (fun _ => None).

(** Assignments to attributes. *)
Inductive write : Type := WNum (p : prop) (v : R) | WVec (a : arr) (u : nat -> R).
Definition apply_write (s : props) (w : write) : props :=
  match w with
  | WNum p v => mkProps (fun q => if prop_eq_dec q p then Some v else num s q) (vec s)
  | WVec a u => mkProps (num s) (fun b => if arr_eq_dec b a then Some u else vec s b)
  end.
Definition apply_writes (s : props) (l : list write) : props := fold_left apply_write l s.

(** A method: the assignments it performs, in order, and its return value or exception. The assignments made
    before an exception stay. *)
Definition W (A : Type) : Type := (list write * result A)%type.
Definition wret {A} (a : A) : W A := ([], Ok a).
Definition wraise {A} (e : exn) : W A := ([], Err e).
Definition wlift {A} (r : result A) : W A := ([], r).
Definition tell (l : list write) : W unit := (l, Ok tt).
Definition wbind {A B} (m : W A) (f : A -> W B) : W B :=
  match snd m with
  | Ok a => (fst m ++ fst (f a), snd (f a))
  | Err e => (fst m, Err e)
  end.

(** Python truth value of an attribute: neither None nor zero. *)
Definition truthy (x : option R) : bool :=
  match x with Some v => if Req_EM_T v 0 then false else true | None => false end.
Definition value (x : option R) : R := match x with Some v => v | None => 0 end.
