(** Specification notions for the stresses of two sections of which one is the image of the other. *)
From Coq Require Import Reals List Permutation.
From Verif Require Import Base S_Integral M_Fea S_Fem M_Post M_Section M_Stress S_Section S_Post S_Warp S_Stress S_Similar.
Import ListNotations.
Local Open Scope R_scope.

(** The scale of a similarity, and its rotation or reflection: vectors keep their length *)
Definition scale (m : similarity) : R := sqrt (scale2 m).
Definition rot_x (m : similarity) (x y : R) : R := lin_x m x y / scale m.
Definition rot_y (m : similarity) (x y : R) : R := lin_y m x y / scale m.

(** The stress resultants that cause the same stresses in the image: forces are turned and scaled with the area. Moments have one more power of
    the scale. The vector (int sig x, int sig y) of the moments about the global axes is (- myy, mxx) and is turned; the twisting moment
    changes its sense in a reflection; the principal bending moments change their signs with the senses of the principal axes, [sg] for the
    11-axis. *)
Definition moved_actions (m : similarity) (sg : R) (a : actions) : actions :=
  let k := scale m in
  mkActions (k ^ 2 * a_n a) (k ^ 2 * rot_x m (a_vx a) (a_vy a)) (k ^ 2 * rot_y m (a_vx a) (a_vy a))
    (k ^ 3 * rot_y m (- a_myy a) (a_mxx a)) (- (k ^ 3 * rot_x m (- a_myy a) (a_mxx a)))
    (sg * s_e m * k ^ 3 * a_m11 a) (sg * k ^ 3 * a_m22 a) (s_e m * k ^ 3 * a_mzz a).

(** The principal axes of the image are the images of the principal axes: the directions (cos phi, sin phi) of the 11-axes correspond, up to the
    sense [sg]. *)
Definition axes_follow (m : similarity) (sg : R) (els els' : list tri6) : Prop :=
  let phi := p_phi (centroidal_of (section_totals els)) * PI / 180 in let phi' := p_phi (centroidal_of (section_totals els')) * PI / 180 in
  (sg = 1 \/ sg = -1) /\ cos phi' = sg * rot_x m (cos phi) (sin phi) /\ sin phi' = sg * rot_y m (cos phi) (sin phi).

(** An image with the nodes of every element listed in the same order *)
Definition plain_image (m : similarity) (p : nat -> nat) (els els' : list tri6) : Prop := Permutation (map (move_el m p) els) els'.

(** The stresses at node [i'] of the image are those at node [i] of the original up to [eps]: normal stresses are the same, shear stresses are
    turned with the section. *)
Definition close (eps x y : R) : Prop := Rabs (x - y) <= eps.
Definition stress_follows (m : similarity) (eps : R) (s s' : nodal_stress) (i i' : nat) : Prop :=
  ns_zz_n s' i' = ns_zz_n s i /\
  close eps (ns_zz_mxx s' i' + ns_zz_myy s' i') (ns_zz_mxx s i + ns_zz_myy s i) /\
  close eps (ns_zz_m11 s' i') (ns_zz_m11 s i) /\ close eps (ns_zz_m22 s' i') (ns_zz_m22 s i) /\
  close eps (ns_zx_mzz s' i') (rot_x m (ns_zx_mzz s i) (ns_zy_mzz s i)) /\
  close eps (ns_zy_mzz s' i') (rot_y m (ns_zx_mzz s i) (ns_zy_mzz s i)) /\
  close eps (ns_zx_vx s' i' + ns_zx_vy s' i') (rot_x m (ns_zx_vx s i + ns_zx_vy s i) (ns_zy_vx s i + ns_zy_vy s i)) /\
  close eps (ns_zy_vx s' i' + ns_zy_vy s' i') (rot_y m (ns_zx_vx s i + ns_zx_vy s i) (ns_zy_vx s i + ns_zy_vy s i)).
(** The same for the combined stresses: principal and von Mises stresses and the magnitude of the shear stress are the same. *)
Definition combined_follows (m : similarity) (s s' : combined) : Prop :=
  cb_zz_m s' = cb_zz_m s /\ cb_zz s' = cb_zz s /\ cb_zx s' = rot_x m (cb_zx s) (cb_zy s) /\ cb_zy s' = rot_y m (cb_zx s) (cb_zy s) /\
  cb_zxy s' = cb_zxy s /\ cb_zxy_mzz s' = cb_zxy_mzz s /\ cb_zxy_v s' = cb_zxy_v s /\ cb_11 s' = cb_11 s /\ cb_33 s' = cb_33 s /\ cb_vm s' = cb_vm s.

(** At the six integration points of the elements of a group no stress caused by bending, by torsion or by shear exceeds M. *)
Definition stress_bound (M : R) (a : actions) (p : stress_par) (om ps ph : nat -> R) (gels : list tri6) : Prop :=
  forall el g, In el gels -> In g gps6 ->
    let s := element_stress_gp el a p (gather om (el_ids el)) (gather ps (el_ids el)) (gather ph (el_ids el)) g in
    Rabs (sg_zz_mxx s + sg_zz_myy s) <= M /\ Rabs (sg_zz_m11 s) <= M /\ Rabs (sg_zz_m22 s) <= M /\
    sg_zx_mzz s ^ 2 + sg_zy_mzz s ^ 2 <= M ^ 2 /\ (sg_zx_vx s + sg_zx_vy s) ^ 2 + (sg_zy_vx s + sg_zy_vy s) ^ 2 <= M ^ 2.
(** The same for every group of a section *)
Definition stresses_below (M : R) (composite : bool) (els : list tri6) (w : warping) (a : actions) (groups : list (material * list tri6)) : Prop :=
  0 <= M /\ forall p om ps ph g, stress_parameters composite (section_totals els) (centroidal_of (section_totals els)) (Some w) a = Ok (p, om, ps, ph) ->
    In g groups -> stress_bound M a p om ps ph (snd g).
(** The groups of the image, in the same order *)
Definition moved_groups (img : list tri6 -> list tri6 -> Prop) (els : list tri6) (groups groups' : list (material * list tri6)) : Prop :=
  Forall2 (fun g g' => incl (snd g) els /\ img (snd g) (snd g')) groups groups'.

(** The stresses of an analysed section: one result per group *)
Definition stresses (composite : bool) (els : list tri6) (w : warping) (a : actions) (groups : list (material * list tri6)) :
  result (list (nodal_stress * (nat -> combined))) :=
  calc_stress composite (section_totals els) (centroidal_of (section_totals els)) (Some w) a groups.

(** Stresses at arbitrary points: [o'] is the answer for the image of the point. *)
Definition point_follows (m : similarity) (o o' : option (R * R * R)) : Prop :=
  match o, o' with
  | Some (zz, zx, zy), Some (zz', zx', zy') => zz' = zz /\ zx' = rot_x m zx zy /\ zy' = rot_y m zx zy
  | None, None => True
  | _, _ => False
  end.
