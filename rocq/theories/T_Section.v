(** Properties of the geometric and frame analyses. *)
From Coq Require Import Reals List Lra Permutation.
From Verif Require Import Base S_Integral M_Fea S_Fem M_Post M_Section S_Section S_Post
  P_Section P_Totals P_Post P_Yield T_Fea.
Import ListNotations.
Local Open Scope R_scope.

(** ** C05 *)

Theorem C05_totals_are_integrals : forall els, valid_mesh els ->
  let t := section_totals els in
  t_area t = mesh_int (fun _ => 1) (fun _ _ => 1) els /\
  t_mass t = mesh_int m_rho (fun _ _ => 1) els /\
  t_ea t = mesh_int m_E (fun _ _ => 1) els /\
  t_ga t = mesh_int shear_modulus (fun _ _ => 1) els /\
  t_qx t = mesh_int m_E (fun _ y => y) els /\
  t_qy t = mesh_int m_E (fun x _ => x) els /\
  t_ixx_g t = mesh_int m_E (fun _ y => y * y) els /\
  t_iyy_g t = mesh_int m_E (fun x _ => x * x) els /\
  t_ixy_g t = mesh_int m_E (fun x y => x * y) els.
Proof. intros els Hv t. unfold t. rewrite (section_totals_int els Hv). repeat split. Qed.

Theorem C05_order_independent : forall l l', Permutation l l' -> section_totals l = section_totals l'.
Proof. exact section_totals_perm. Qed.

Theorem C05_join : forall l l', section_totals (l ++ l') = add_totals (section_totals l) (section_totals l').
Proof. exact section_totals_app. Qed.

(** ** C06 *)

Theorem C06_mesh_independence : forall els els',
  valid_mesh els -> valid_mesh els' -> same_boundary (mesh_edges els) (mesh_edges els') ->
  section_totals els = section_totals els' /\
  centroidal_of (section_totals els) = centroidal_of (section_totals els').
Proof.
  intros els els' H1 H2 H3. pose proof (section_totals_same_boundary els els' H1 H2 H3) as E.
  split; [exact E|rewrite E; reflexivity].
Qed.

Theorem C06_boundary_formulas : forall els outline,
  valid_mesh els -> same_boundary (mesh_edges els) outline ->
  section_totals els =
  mkTotals (boundary_sum (fun _ => 1) b_area outline) (boundary_sum m_rho b_area outline)
    (boundary_sum m_E b_area outline) (boundary_sum shear_modulus b_area outline)
    (boundary_sum m_E b_qx outline) (boundary_sum m_E b_qy outline)
    (boundary_sum m_E b_ixx outline) (boundary_sum m_E b_iyy outline) (boundary_sum m_E b_ixy outline).
Proof. exact section_totals_boundary. Qed.

(** ** C07 *)

Theorem C07_translation_totals : forall dx dy els,
  let t := section_totals els in
  section_totals (map (translate_el dx dy) els) =
  mkTotals (t_area t) (t_mass t) (t_ea t) (t_ga t)
    (t_qx t + dy * t_ea t) (t_qy t + dx * t_ea t)
    (t_ixx_g t + 2 * dy * t_qx t + dy ^ 2 * t_ea t)
    (t_iyy_g t + 2 * dx * t_qy t + dx ^ 2 * t_ea t)
    (t_ixy_g t + dx * t_qx t + dy * t_qy t + dx * dy * t_ea t).
Proof. intros dx dy els t. rewrite totals_translate. unfold affine_totals. fold t. f_equal; ring. Qed.

Theorem C07_translation_centroidal : forall dx dy els, t_ea (section_totals els) <> 0 ->
  let c := centroidal_of (section_totals els) in
  centroidal_of (section_totals (map (translate_el dx dy) els)) =
  mkCentroidal (p_cx c + dx) (p_cy c + dy) (p_ixx_c c) (p_iyy_c c) (p_ixy_c c) (p_i11_c c) (p_i22_c c) (p_phi c).
Proof. exact translate_centroidal. Qed.

(** ** C08 *)

Theorem C08_rotation : forall a els, t_ea (section_totals els) <> 0 ->
  let c := centroidal_of (section_totals els) in
  let c' := centroidal_of (section_totals (map (rotate_el a) els)) in
  t_area (section_totals (map (rotate_el a) els)) = t_area (section_totals els) /\
  p_cx c' = cos a * p_cx c - sin a * p_cy c /\
  p_cy c' = sin a * p_cx c + cos a * p_cy c /\
  p_ixx_c c' = rot_ixx (p_ixx_c c) (p_iyy_c c) (p_ixy_c c) (- a) /\
  p_iyy_c c' = rot_iyy (p_ixx_c c) (p_iyy_c c) (p_ixy_c c) (- a) /\
  p_ixy_c c' = rot_ixy (p_ixx_c c) (p_iyy_c c) (p_ixy_c c) (- a) /\
  p_i11_c c' = p_i11_c c /\ p_i22_c c' = p_i22_c c.
Proof.
  intros a els He c c'. split; [|exact (rotate_centroidal a els He)].
  rewrite totals_rotate. unfold affine_totals. cbn [t_area]. ring.
Qed.

Theorem C08_mirror_x : forall els, t_ea (section_totals els) <> 0 ->
  let c := centroidal_of (section_totals els) in
  let c' := centroidal_of (section_totals (map mirror_x_el els)) in
  t_area (section_totals (map mirror_x_el els)) = t_area (section_totals els) /\
  p_cx c' = p_cx c /\ p_cy c' = - p_cy c /\ p_ixx_c c' = p_ixx_c c /\ p_iyy_c c' = p_iyy_c c /\
  p_ixy_c c' = - p_ixy_c c /\ p_i11_c c' = p_i11_c c /\ p_i22_c c' = p_i22_c c.
Proof.
  intros els He c c'. split; [|exact (mirror_x_centroidal els He)].
  rewrite totals_mirror_x. unfold affine_totals. cbn [t_area]. ring.
Qed.

Theorem C08_mirror_y : forall els, t_ea (section_totals els) <> 0 ->
  let c := centroidal_of (section_totals els) in
  let c' := centroidal_of (section_totals (map mirror_y_el els)) in
  t_area (section_totals (map mirror_y_el els)) = t_area (section_totals els) /\
  p_cx c' = - p_cx c /\ p_cy c' = p_cy c /\ p_ixx_c c' = p_ixx_c c /\ p_iyy_c c' = p_iyy_c c /\
  p_ixy_c c' = - p_ixy_c c /\ p_i11_c c' = p_i11_c c /\ p_i22_c c' = p_i22_c c.
Proof.
  intros els He c c'. split; [|exact (mirror_y_centroidal els He)].
  rewrite totals_mirror_y. unfold affine_totals. cbn [t_area]. ring.
Qed.

Theorem C08_scale : forall k els, 0 < k -> t_ea (section_totals els) <> 0 ->
  let c := centroidal_of (section_totals els) in
  t_area (section_totals (map (scale_el k) els)) = k ^ 2 * t_area (section_totals els) /\
  centroidal_of (section_totals (map (scale_el k) els)) =
  mkCentroidal (k * p_cx c) (k * p_cy c) (k ^ 4 * p_ixx_c c) (k ^ 4 * p_iyy_c c) (k ^ 4 * p_ixy_c c)
    (k ^ 4 * p_i11_c c) (k ^ 4 * p_i22_c c) (p_phi c).
Proof.
  intros k els Hk He c. split; [|exact (scale_centroidal k els Hk He)].
  rewrite totals_scale. unfold affine_totals. cbn [t_area]. ring.
Qed.

(** ** C09 *)

Theorem C09_positivity : forall els, els <> [] -> valid_mesh els -> pos_moduli els ->
  let t := section_totals els in
  let c := centroidal_of t in
  0 < t_area t /\ 0 < t_ea t /\ 0 < p_ixx_c c /\ 0 < p_iyy_c c /\
  0 < p_ixx_c c * p_iyy_c c - p_ixy_c c ^ 2 /\ 0 < p_i11_c c /\ 0 < p_i22_c c.
Proof.
  intros els Hn Hv Hp t c. split; [exact (area_pos els Hn Hv)|]. split; [exact (ea_pos els Hn Hv Hp)|].
  exact (det_pos els Hn Hv Hp).
Qed.

(** ** C10 *)

Theorem C10_centroid : forall els, valid_mesh els -> t_ea (section_totals els) <> 0 ->
  let c := centroidal_of (section_totals els) in
  mesh_int m_E (fun x _ => x - p_cx c) els = 0 /\
  mesh_int m_E (fun _ y => y - p_cy c) els = 0 /\
  p_ixx_c c = mesh_int m_E (fun _ y => (y - p_cy c) ^ 2) els /\
  p_iyy_c c = mesh_int m_E (fun x _ => (x - p_cx c) ^ 2) els /\
  p_ixy_c c = mesh_int m_E (fun x y => (x - p_cx c) * (y - p_cy c)) els.
Proof. exact centroid_integrals. Qed.

(** ** C11 *)

Theorem C11_principal_values : forall ixx iyy ixy,
  let i11 := principal_i11 ixx iyy ixy in
  let i22 := principal_i22 ixx iyy ixy in
  i22 <= i11 /\ i11 + i22 = ixx + iyy /\ i11 * i22 = ixx * iyy - ixy ^ 2 /\
  (forall t, i22 <= rot_ixx ixx iyy ixy t <= i11).
Proof.
  intros ixx iyy ixy i11 i22. split.
  - unfold i11, i22, principal_i11, principal_i22. pose proof (delta_nonneg ixx iyy ixy). lra.
  - split; [apply principal_sum|]. split; [apply principal_prod|]. apply rot_bounds.
Qed.

(** In the exact branch the axes are principal; in the tolerance branch (phi = 0) the deviation is bounded. *)
Theorem C11_principal_axes : forall els, els <> [] -> valid_mesh els -> pos_moduli els ->
  let c := centroidal_of (section_totals els) in
  let prod := mesh_int m_E (fun x y => fst (pr11 c (x, y)) * snd (pr11 c (x, y))) els in
  let about11 := mesh_int m_E (fun x y => snd (pr11 c (x, y)) ^ 2) els in
  let about22 := mesh_int m_E (fun x y => fst (pr11 c (x, y)) ^ 2) els in
  -180 < p_phi c <= 0 /\
  (prod = 0 /\ about11 = p_i11_c c /\ about22 = p_i22_c c \/
   p_phi c = 0 /\ Rabs prod <= 1 / 10 ^ 6 * p_i11_c c /\ Rabs (about11 - p_i11_c c) <= 1 / 10 ^ 12 * p_i11_c c /\
   Rabs (about22 - p_i22_c c) <= 1 / 10 ^ 12 * p_i11_c c).
Proof. exact principal_axes_mesh. Qed.

Theorem C11_exact_branch : forall ixx iyy ixy,
  let i11 := principal_i11 ixx iyy ixy in
  0 < i11 -> 1 / 10 ^ 12 * i11 <= i11 - ixx ->
  let t := principal_phi ixx ixy i11 * PI / 180 in
  rot_ixy ixx iyy ixy t = 0 /\ rot_ixx ixx iyy ixy t = i11 /\ rot_iyy ixx iyy ixy t = principal_i22 ixx iyy ixy.
Proof.
  intros ixx iyy ixy i11 Hi Hb t.
  assert (N : ~ Rabs (ixx - i11) < 1 / 10 ^ 12 * i11).
  { intros H. rewrite Rabs_left1 in H; lra. }
  destruct (phi_axes ixx iyy ixy N Hi) as [H1 [H2 [H3 _]]]. auto.
Qed.

Theorem C11_all_directions : forall els t, valid_mesh els -> t_ea (section_totals els) <> 0 ->
  let c := centroidal_of (section_totals els) in
  p_i22_c c <= mesh_int m_E (fun x y => ((y - p_cy c) * cos t - (x - p_cx c) * sin t) ^ 2) els <= p_i11_c c.
Proof. exact principal_extreme_mesh. Qed.

(** ** C13 *)

Theorem C13_radii : forall els nodes m, els <> [] -> valid_mesh els -> pos_moduli els ->
  let t := section_totals els in
  let c := centroidal_of t in
  moduli_of t c nodes = Ok m ->
  z_rx m ^ 2 * t_ea t = p_ixx_c c /\ z_ry m ^ 2 * t_ea t = p_iyy_c c /\
  z_r11 m ^ 2 * t_ea t = p_i11_c c /\ z_r22 m ^ 2 * t_ea t = p_i22_c c /\
  0 <= z_rx m /\ 0 <= z_ry m /\ 0 <= z_r11 m /\ 0 <= z_r22 m.
Proof.
  intros els nodes m Hn Hv Hp t c H. destruct (det_pos els Hn Hv Hp) as [A [B [D [E F]]]].
  pose proof (ea_pos els Hn Hv Hp). fold t in H0. fold t c in A, B, E, F.
  apply (radii_spec t c nodes m H); lra.
Qed.

(** ** C14 *)

(** Each modulus is the second moment over the distance to a node attaining the extreme on that side. *)
Theorem C14_section_moduli : forall t c nodes m, moduli_of t c nodes = Ok m ->
  (exists p, attains_max snd nodes p /\ z_xx_plus m = p_ixx_c c / Rabs (snd p - p_cy c)) /\
  (exists p, attains_max (fun q => - snd q) nodes p /\ z_xx_minus m = p_ixx_c c / Rabs (snd p - p_cy c)) /\
  (exists p, attains_max fst nodes p /\ z_yy_plus m = p_iyy_c c / Rabs (fst p - p_cx c)) /\
  (exists p, attains_max (fun q => - fst q) nodes p /\ z_yy_minus m = p_iyy_c c / Rabs (fst p - p_cx c)) /\
  (exists p, attains_max (fun q => snd (pr11 c q)) nodes p /\ z_11_plus m = p_i11_c c / Rabs (snd (pr11 c p))) /\
  (exists p, attains_max (fun q => - snd (pr11 c q)) nodes p /\ z_11_minus m = p_i11_c c / Rabs (snd (pr11 c p))) /\
  (exists p, attains_max (fun q => fst (pr11 c q)) nodes p /\ z_22_plus m = p_i22_c c / Rabs (fst (pr11 c p))) /\
  (exists p, attains_max (fun q => - fst (pr11 c q)) nodes p /\ z_22_minus m = p_i22_c c / Rabs (fst (pr11 c p))).
Proof. exact moduli_spec. Qed.

(** The centroid is strictly between the extreme fibres, so no modulus divides by zero. *)
Theorem C14_extreme_fibres : forall els nodes, els <> [] -> valid_mesh els -> pos_moduli els -> mesh_nodes_in els nodes ->
  let c := centroidal_of (section_totals els) in
  (forall p, attains_max snd nodes p -> p_cy c < snd p) /\
  (forall p, attains_max (fun q => - snd q) nodes p -> snd p < p_cy c) /\
  (forall p, attains_max fst nodes p -> p_cx c < fst p) /\
  (forall p, attains_max (fun q => - fst q) nodes p -> fst p < p_cx c) /\
  (forall p, attains_max (fun q => snd (pr11 c q)) nodes p -> 0 < snd (pr11 c p)) /\
  (forall p, attains_max (fun q => - snd (pr11 c q)) nodes p -> snd (pr11 c p) < 0) /\
  (forall p, attains_max (fun q => fst (pr11 c q)) nodes p -> 0 < fst (pr11 c p)) /\
  (forall p, attains_max (fun q => - fst (pr11 c q)) nodes p -> fst (pr11 c p) < 0).
Proof. exact extreme_sides. Qed.

Theorem C14_succeeds : forall t c nodes,
  (nodes <> [] -> exists m, moduli_of t c nodes = Ok m) /\ moduli_of t c [] = Err ValueError.
Proof.
  intros t c nodes. split; [|reflexivity]. destruct nodes as [|n ns]; [contradiction|].
  intros _. eexists. reflexivity.
Qed.

(** ** C15 *)

Theorem C15_yield_moment : forall els groups, els <> [] -> valid_mesh els -> pos_moduli els ->
  groups_ok groups els -> (forall el, In el els -> 0 < m_fy (el_mat el)) ->
  let c := centroidal_of (section_totals els) in
  let my := yield_moments c groups in
  is_yield_moment els (bend_xx c) (q_xx my) /\
  is_yield_moment els (bend_yy c) (q_yy my) /\
  is_yield_moment els (bend_11 c) (q_11 my) /\
  is_yield_moment els (bend_22 c) (q_22 my).
Proof. exact yield_all. Qed.

(** ** C16 *)

Theorem C16_frame_agrees : forall n solve composite els w,
  (composite = false -> forall el, In el els -> m_E (el_mat el) = 1) ->
  let t := section_totals els in
  let c := centroidal_of t in
  warping_analysis n solve composite t c els = Ok w ->
  frame_analysis n solve composite els =
  Ok (mkFrame (t_area t) (p_ixx_c c) (p_iyy_c c) (p_ixy_c c) (w_j w) (p_phi c)).
Proof. exact frame_warping. Qed.

Theorem C16_frame_fails : forall n solve composite els e,
  (composite = false -> forall el, In el els -> m_E (el_mat el) = 1) ->
  frame_analysis n solve composite els = Err e ->
  warping_analysis n solve composite (section_totals els) (centroidal_of (section_totals els)) els = Err e.
Proof. exact frame_fails. Qed.

(** ** C18 *)

Theorem C18_half_planes : forall els u v k,
  els <> [] -> valid_mesh els -> pos_moduli els -> (u <> 0 \/ v <> 0) ->
  (forall el p, In el els -> In p [corner_a el; corner_b el; corner_c el] -> 0 <= u * fst p + v * snd p + k) ->
  let c := centroidal_of (section_totals els) in
  0 < u * p_cx c + v * p_cy c + k.
Proof. exact centroid_half_plane. Qed.

(** ** C66, C68 *)

Theorem C66_homogeneous_effective_moduli : forall els m,
  els <> [] -> valid_mesh els -> (forall el, In el els -> el_mat el = m) ->
  m_E m <> 0 -> 1 + m_nu m <> 0 ->
  let t := section_totals els in
  nu_eff t = m_nu m /\ e_eff t = m_E m /\ g_eff t = m_E m / (2 * (1 + m_nu m)).
Proof. exact homogeneous_effective. Qed.

Theorem C68_effective_moduli_bounds : forall els lo hi, els <> [] -> valid_mesh els ->
  ((forall el, In el els -> lo <= m_E (el_mat el) <= hi) -> lo <= e_eff (section_totals els) <= hi) /\
  ((forall el, In el els -> lo <= m_E (el_mat el) / (2 * (1 + m_nu (el_mat el))) <= hi) ->
     lo <= g_eff (section_totals els) <= hi) /\
  (pos_moduli els -> -1 < lo -> (forall el, In el els -> lo <= m_nu (el_mat el) <= hi) ->
     lo <= nu_eff (section_totals els) <= hi).
Proof.
  intros els lo hi Hn Hv. split; [apply e_eff_between; assumption|]. split; [apply g_eff_between; assumption|].
  apply nu_eff_between; assumption.
Qed.

Theorem C68_area_weighted_means : forall els, els <> [] -> valid_mesh els ->
  let area := mesh_int (fun _ => 1) (fun _ _ => 1) els in
  e_eff (section_totals els) = mesh_int m_E (fun _ _ => 1) els / area /\
  g_eff (section_totals els) = mesh_int (fun m => m_E m / (2 * (1 + m_nu m))) (fun _ _ => 1) els / area.
Proof. intros els Hn Hv area. unfold e_eff, g_eff. rewrite (section_totals_int els Hv). split; reflexivity. Qed.

(** ** C70 *)

Theorem C70_scale_moduli : forall k els, 0 < k -> t_ea (section_totals els) <> 0 ->
  let t := section_totals els in
  let c := centroidal_of t in
  let els' := map (scale_E k) els in
  section_totals els' =
    mkTotals (t_area t) (t_mass t) (k * t_ea t) (k * t_ga t) (k * t_qx t) (k * t_qy t)
      (k * t_ixx_g t) (k * t_iyy_g t) (k * t_ixy_g t) /\
  centroidal_of (section_totals els') =
    mkCentroidal (p_cx c) (p_cy c) (k * p_ixx_c c) (k * p_iyy_c c) (k * p_ixy_c c)
      (k * p_i11_c c) (k * p_i22_c c) (p_phi c).
Proof.
  intros k els Hk He t c els'. split; [exact (scale_E_totals k els)|exact (scale_E_centroidal k els Hk He)].
Qed.

(** ** The hypotheses are satisfiable *)

Definition ex_mat2 : material := mkMat 70 (1/3) 150 (27/10).
Definition mk_el (m : material) (ids : conn6) (a b c : point) : tri6 :=
  mkTri (side_nodes (fst a) (fst b) (fst c)) (side_nodes (snd a) (snd b) (snd c)) ids m.

(** A 4 x 2 rectangle in two elements of two materials. *)
Definition ex_mesh : list tri6 :=
  [ mk_el ex_mat (mkConn 0 1 2 4 5 6) (0,0) (4,0) (4,2);
    mk_el ex_mat2 (mkConn 0 2 3 6 7 8) (0,0) (4,2) (0,2) ].

Lemma mk_el_valid m ids a b c : 0 < orient a b c -> valid_el (mk_el m ids a b c).
Proof.
  intros H. unfold valid_el, straight, corner_a, corner_b, corner_c, mk_el, side_nodes.
  destruct a, b, c. cbn [el_x el_y v0 v1 v2 fst snd] in *. auto.
Qed.

Example ex_mesh_valid : ex_mesh <> [] /\ valid_mesh ex_mesh /\ pos_moduli ex_mesh /\
  (forall el, In el ex_mesh -> 0 < m_fy (el_mat el)).
Proof.
  split; [discriminate|]. split; [|split].
  - intros el [<-|[<-|[]]]; apply mk_el_valid; unfold orient; cbn [fst snd]; lra.
  - intros el [<-|[<-|[]]]; cbn [mk_el el_mat m_E ex_mat ex_mat2]; lra.
  - intros el [<-|[<-|[]]]; cbn [mk_el el_mat m_fy ex_mat ex_mat2]; lra.
Qed.

Example ex_groups : groups_ok (map (fun el => (el_mat el, [el])) ex_mesh) ex_mesh.
Proof.
  split.
  - intros m l el [H|[H|[]]] Hin; injection H as <- <-; destruct Hin as [<-|[]]; cbn [ex_mesh In]; auto.
  - intros el [<-|[<-|[]]]; eexists; (split; [cbn [ex_mesh map In]; first [left; reflexivity|right; left; reflexivity]|left; reflexivity]).
Qed.

(** The same square cut along the other diagonal, and its outline. *)
Definition ex_square : list tri6 :=
  [ mk_el ex_mat (mkConn 0 1 2 4 5 6) (0,0) (2,0) (2,2); mk_el ex_mat (mkConn 0 2 3 6 7 8) (0,0) (2,2) (0,2) ].
Definition ex_square' : list tri6 :=
  [ mk_el ex_mat (mkConn 0 1 3 4 5 6) (0,0) (2,0) (0,2); mk_el ex_mat (mkConn 1 2 3 7 8 5) (2,0) (2,2) (0,2) ].
Definition ex_outline : list edge := ring_edges ex_mat [(0,0); (2,0); (2,2); (0,2)].

Example ex_square_outline : valid_mesh ex_square /\ same_boundary (mesh_edges ex_square) ex_outline.
Proof.
  split; [intros el [<-|[<-|[]]]; apply mk_el_valid; unfold orient; cbn [fst snd]; lra|].
  change (mesh_edges ex_square) with
    [ (ex_mat, (0,0), (2,0)); (ex_mat, (2,0), (2,2)); (ex_mat, (2,2), (0,0));
      (ex_mat, (0,0), (2,2)); (ex_mat, (2,2), (0,2)); (ex_mat, (0,2), (0,0)) ].
  change ex_outline with [ (ex_mat, (0,0), (2,0)); (ex_mat, (2,0), (2,2)); (ex_mat, (2,2), (0,2)); (ex_mat, (0,2), (0,0)) ].
  eapply sb_trans; [apply sb_perm|apply sb_cancel with (m := ex_mat) (p := (2,2)) (q := (0,0))].
  change [(ex_mat, (0, 0), (2, 0)); (ex_mat, (2, 0), (2, 2)); (ex_mat, (2, 2), (0, 0));
          (ex_mat, (0, 0), (2, 2)); (ex_mat, (2, 2), (0, 2)); (ex_mat, (0, 2), (0, 0))]
    with ([(ex_mat, (0, 0), (2, 0)); (ex_mat, (2, 0), (2, 2))] ++
          [(ex_mat, (2, 2), (0, 0)); (ex_mat, (0, 0), (2, 2))] ++
          [(ex_mat, (2, 2), (0, 2)); (ex_mat, (0, 2), (0, 0))]).
  rewrite app_assoc.
  eapply Permutation_trans; [apply Permutation_app_tail, Permutation_app_comm|]. apply Permutation_refl.
Qed.

Lemma ex_perm (e1 e2 e3 e4 e5 e6 : edge) : Permutation [e1; e2; e3; e4; e5; e6] [e2; e6; e1; e4; e5; e3].
Proof.
  eapply Permutation_trans; [apply perm_swap|]. apply perm_skip.
  eapply Permutation_trans; [apply (Permutation_app_comm [e1; e3; e4; e5] [e6])|]. cbn [app].
  apply perm_skip. apply perm_skip. apply (Permutation_app_comm [e3] [e4; e5]).
Qed.

Example ex_square_outline' : valid_mesh ex_square' /\ same_boundary (mesh_edges ex_square') ex_outline.
Proof.
  split; [intros el [<-|[<-|[]]]; apply mk_el_valid; unfold orient; cbn [fst snd]; lra|].
  change (mesh_edges ex_square') with
    [ (ex_mat, (0,0), (2,0)); (ex_mat, (2,0), (0,2)); (ex_mat, (0,2), (0,0));
      (ex_mat, (2,0), (2,2)); (ex_mat, (2,2), (0,2)); (ex_mat, (0,2), (2,0)) ].
  change ex_outline with [ (ex_mat, (0,0), (2,0)); (ex_mat, (2,0), (2,2)); (ex_mat, (2,2), (0,2)); (ex_mat, (0,2), (0,0)) ].
  eapply sb_trans; [apply sb_perm|apply sb_cancel with (m := ex_mat) (p := (2,0)) (q := (0,2))].
  apply ex_perm.
Qed.

Example ex_square_meshes_agree : section_totals ex_square = section_totals ex_square'.
Proof.
  destruct ex_square_outline as [V B]. destruct ex_square_outline' as [V' B'].
  apply C06_mesh_independence; [exact V|exact V'|].
  eapply sb_trans; [exact B|apply sb_sym; exact B'].
Qed.

Example ex_square_area : t_area (section_totals ex_square) = 4.
Proof.
  destruct ex_square_outline as [V B]. rewrite (C06_boundary_formulas _ _ V B). cbn [t_area].
  unfold boundary_sum, ex_outline, ring_edges, path_edges, sumf, Rsum, b_area, cross. cbn [map fold_right fst snd]. field.
Qed.

Example ex_exact_branch : let i11 := principal_i11 2 5 1 in 0 < i11 /\ 1 / 10 ^ 12 * i11 <= i11 - 2.
Proof.
  cbv zeta. pose proof (delta_sq 2 5 1) as H. pose proof (delta_nonneg 2 5 1) as H'.
  unfold principal_i11. set (d := principal_delta 2 5 1) in *. nra.
Qed.

(** A solver that returns the zero vector: the analyses succeed. *)
Example ex_warping_ok : exists w,
  warping_analysis 9 (fun _ _ => Ok (fun _ => 0)) true (section_totals ex_mesh) (centroidal_of (section_totals ex_mesh)) ex_mesh = Ok w.
Proof.
  unfold warping_analysis. destruct (assemble_torsion _ _) as [k f]. cbn [bind].
  destruct (assemble_shear_load _ _ _ _ _) as [fp fh]. cbn [bind].
  destruct (principal_coordinate _ _ _) as [x1 y2]. destruct (shear_deformation _ _ _ _ _ _ _) as [[kx ky] kxy].
  eexists. reflexivity.
Qed.

Print Assumptions C05_totals_are_integrals.
Print Assumptions C05_order_independent.
Print Assumptions C05_join.
Print Assumptions C06_mesh_independence.
Print Assumptions C06_boundary_formulas.
Print Assumptions C07_translation_totals.
Print Assumptions C07_translation_centroidal.
Print Assumptions C08_rotation.
Print Assumptions C08_mirror_x.
Print Assumptions C08_mirror_y.
Print Assumptions C08_scale.
Print Assumptions C09_positivity.
Print Assumptions C10_centroid.
Print Assumptions C11_principal_values.
Print Assumptions C11_principal_axes.
Print Assumptions C11_exact_branch.
Print Assumptions C11_all_directions.
Print Assumptions C13_radii.
Print Assumptions C14_section_moduli.
Print Assumptions C14_extreme_fibres.
Print Assumptions C14_succeeds.
Print Assumptions C15_yield_moment.
Print Assumptions C16_frame_agrees.
Print Assumptions C16_frame_fails.
Print Assumptions C18_half_planes.
Print Assumptions C66_homogeneous_effective_moduli.
Print Assumptions C68_effective_moduli_bounds.
Print Assumptions C68_area_weighted_means.
Print Assumptions C70_scale_moduli.
