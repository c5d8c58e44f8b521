(** Theorems: closed forms of the principal plastic moduli of sections whose principal axes are x and y: C89. *)
From Coquelicot Require Import Coquelicot.
From Coq Require Import String Reals List Permutation Lra Lia.
From Verif Require Import Base S_Integral M_Fea S_Fem M_Section S_Section M_Bisect M_Plastic S_Plastic S_Shape M_Init M_Props M_State S_State M_Geometry S_Geometry P_Geom P_Geometry P_Geometry3 P_Section P_Plastic P_Plastic2 P_Plastic4 P_Plastic6 P_Plastic7 P_State P_State3 P_State4 P_State5 P_Geometry6 P_Geometry8 M_Library S_Library P_Library8 P_Library2.
From Verif Require Import S_Outline P_Outline P_Outline2 P_Outline3 S_PlasticForms P_PlasticForms P_PlasticForms2 P_PlasticForms3 T_Section T_Init T_Plastic T_State T_Outline T_PlasticForms.
From Verif Require Import M_Post.
Import ListNotations.
Local Open Scope list_scope.
Local Open Scope R_scope.

(** A line and the same line seen from its other side *)
Lemma beyond_flip a b d s q : beyond (a, b) d s q -> beyond (- a, - b) (- d) (- s) q.
Proof. intros (W & H & V). split; [exact W|split; [exact H|]]. intros v Hv. specialize (V v Hv). unfold height in *. cbn [fst snd] in *. lra. Qed.
Lemma cut_flip E a b d up dn : cut_at E (a, b) d up dn ->
  cut_at E (- a, - b) (- d) dn up /\ parts_moment (- a, - b) (- d) dn up = parts_moment (a, b) d up dn.
Proof.
  intros (U & D & B & F). split.
  - split; [|split; [|split]].
    + eapply Forall_impl; [|exact D]. intros q Hq. replace 1 with (- (-1)) by ring. apply beyond_flip. exact Hq.
    + eapply Forall_impl; [|exact U]. intros q Hq. replace (-1) with (- (1)) by ring. apply beyond_flip. exact Hq.
    + eapply sb_trans; [exact B|]. apply parts_perm, Permutation_app_comm.
    + symmetry. exact F.
  - unfold parts_moment. rewrite Rplus_comm. f_equal; apply sumf_ext; intros; unfold part_arm, height; cbn [fst snd]; ring.
Qed.
Lemma dir_0 : direction 0 axis_11 = (0, 1) /\ direction 0 axis_22 = (1, 0).
Proof. unfold direction. replace (0 * PI / 180) with 0 by field. rewrite sin_0, cos_0. split; [rewrite Ropp_0|]; reflexivity. Qed.
Lemma dir_90 : direction (-90) axis_11 = (1, 0) /\ direction (-90) axis_22 = (- 0, - (1)).
Proof. unfold direction. replace (-90 * PI / 180) with (- (PI / 2)) by field. rewrite sin_neg, cos_neg, sin_PI2, cos_PI2. split; f_equal; ring. Qed.

Lemma polygon_principal l query g s st h1 h2 shapes tol m p phi n1 n2 dx up dn dy rt lf : plastic_done l query g s st h1 h2 shapes tol -> fills_centred (concat shapes) m p ->
  gives l query g s (h1 ++ CPlastic :: h2) get_phi [phi] -> direction phi axis_11 = n1 -> direction phi axis_22 = n2 ->
  cut_at (poly_edges m p) n1 dx up dn -> cut_at (poly_edges m p) n2 dy rt lf -> (forall q, In q (up ++ dn ++ rt ++ lf) -> 0 <= m_fy (fst q)) ->
  gives_near l query g s (h1 ++ CPlastic :: h2) (modulus_getter_p s) (sumf part_force (up ++ dn) * tol) [parts_moment n1 dx up dn; parts_moment n2 dy rt lf].
Proof.
  intros D B G <- <- X Y F. set (c := poly_centroid p) in *.
  destruct (cut_moved _ _ _ dx c up dn B X) as [X' Mx]. destruct (cut_moved _ _ _ dy c rt lf B Y) as [Y' My].
  rewrite <- Mx, <- My. replace (sumf part_force (up ++ dn)) with (sumf part_force (map (moved_part c) up ++ map (moved_part c) dn)).
  - apply (C89_parts_principal l query g s st h1 h2 shapes tol phi _ _ _ _ _ _ D G X' Y'). intros q Hq. rewrite <- !map_app in Hq. apply in_map_iff in Hq. destruct Hq as (r & <- & Hr). exact (F r Hr).
  - rewrite <- map_app, sumf_map. apply sumf_ext. intros; apply force_moved.
Qed.

(** A polygon with principal axes along x and y: the principal plastic moduli are those about x and y when get_phi returns 0, and the same two in the
    opposite order when it returns -90. *)
Theorem C89_aligned l query g s st h1 h2 shapes tol m p dx up dn dy rt lf : plastic_done l query g s st h1 h2 shapes tol -> fills_centred (concat shapes) m p ->
  cut_at (poly_edges m p) (0, 1) dx up dn -> cut_at (poly_edges m p) (1, 0) dy rt lf -> (forall q, In q (up ++ dn ++ rt ++ lf) -> 0 <= m_fy (fst q)) ->
  let about_x := parts_moment (0, 1) dx up dn in let about_y := parts_moment (1, 0) dy rt lf in let h := h1 ++ CPlastic :: h2 in
  (gives l query g s h get_phi [0] -> gives_near l query g s h (modulus_getter_p s) (sumf part_force (up ++ dn) * tol) [about_x; about_y]) /\
  (gives l query g s h get_phi [-90] -> gives_near l query g s h (modulus_getter_p s) (sumf part_force (rt ++ lf) * tol) [about_y; about_x]).
Proof.
  intros D B X Y F about_x about_y h. split; intros G.
  - exact (polygon_principal l query g s st h1 h2 shapes tol m p 0 _ _ _ _ _ _ _ _ D B G (proj1 dir_0) (proj2 dir_0) X Y F).
  - destruct (cut_flip _ _ _ _ _ _ X) as [X' Mx]. unfold about_x. rewrite <- Mx.
    apply (polygon_principal l query g s st h1 h2 shapes tol m p (-90) _ _ _ _ _ _ _ _ D B G (proj1 dir_90) (proj2 dir_90) Y X').
    intros q Hq. apply F. rewrite !in_app_iff in *. tauto.
Qed.

(** ** Library sections of the default material: get_sp in closed form *)

(** A rectangle: b d^2 / 4 and b^2 d / 4, the larger first. *)
Theorem C89_rectangle_principal l query g s st h1 h2 shapes tol sh d b gm : plastic_done l query g s st h1 h2 shapes tol -> rectangular_section sh d b default_material = Ok gm ->
  is_composite (s_mats s) = false -> fills (s_tris s) (mo_val default_material) (gm_poly gm) -> fills_centred (concat shapes) (mo_val default_material) (gm_poly gm) ->
  0 < d -> 0 < b -> on_grid 12 d -> on_grid 12 b ->
  (b <= d -> gives_near l query g s (h1 ++ CPlastic :: h2) get_sp (b * d * tol) [b * d ^ 2 / 4; b ^ 2 * d / 4]) /\
  (d ^ 2 <= (1 - 1 / 10 ^ 12) * b ^ 2 -> gives_near l query g s (h1 ++ CPlastic :: h2) get_sp (b * d * tol) [b ^ 2 * d / 4; b * d ^ 2 / 4]).
Proof.
  intros D E N F B Hd Hb Gd Gb. pose proof D as (Hbt & U & Hg & Hok & C & _).
  assert (A : analysed g s st (h1 ++ CPlastic :: h2)) by (split; [exact Hbt|split; [exact U|split; [apply in_or_app; left; exact Hg|exact N]]]).
  destruct (rectangle_case sh d b _ gm E Hd Hb Gd Gb) as [M Na]. destruct (plates_centroidal _ _ M Na) as (Cc & XX & YY & XY).
  assert (P : 0 < b * d) by (apply Rmult_lt_0_compat; assumption).
  assert (Cx : plates_cx [rect 0 0 b d] = b / 2) by (unfold plates_cx; unring; field; nra). assert (Cy : plates_cy [rect 0 0 b d] = d / 2) by (unfold plates_cy; unring; field; nra). rewrite Cx, Cy in *.
  assert (XX' : poly_ixx_c (gm_poly gm) = b * d / 12 * d ^ 2) by (rewrite XX; unring; field). assert (YY' : poly_iyy_c (gm_poly gm) = b * d / 12 * b ^ 2) by (rewrite YY; unring; field). assert (XY' : poly_ixy_c (gm_poly gm) = 0) by (rewrite XY; unring; field).
  destruct (principal_case l query g s st _ _ A F Na XY') as (_ & _ & _ & _ & K1 & K2). rewrite XX', YY' in K1, K2.
  pose proof (rect_out sh d b (mo_val default_material) default_material gm E Hd Hb Gd Gb) as O.
  destruct (C89_aligned l query g s st h1 h2 shapes tol (mo_val default_material) (gm_poly gm) _ _ _ _ _ _ D B (rect_cut_x _ _ b d Hb Hd O) (rect_cut_y _ _ b d Hb Hd O)) as [R1 R2].
  { apply (one_mat (mo_val default_material)); [cbn; lra|repeat constructor]. }
  assert (Mg : modulus_getter_p s = get_sp) by (unfold modulus_getter_p; rewrite N; reflexivity). rewrite Mg in R1, R2.
  split; intros L.
  - eapply near_eq; [| |apply R1, K1].
    + cbn [app]. forces. change (m_fy (mo_val default_material)) with 1. field.
    + change (m_fy (mo_val default_material)) with 1. two; change (m_fy (mo_val default_material)) with 1; field.
    + apply Rmult_le_compat_l; [lra|]. apply pow_incr. lra.
  - eapply near_eq; [| |apply R2, K2].
    + cbn [app]. forces. change (m_fy (mo_val default_material)) with 1. field.
    + two; change (m_fy (mo_val default_material)) with 1; field.
    + replace ((1 - 1 / 10 ^ 12) * (b * d / 12 * b ^ 2)) with (b * d / 12 * ((1 - 1 / 10 ^ 12) * b ^ 2)) by ring. apply Rmult_le_compat_l; [lra|exact L].
Qed.

(** The I-section with sharp corners, with the moments of inertia ixx and iyy of its plates *)
Theorem C89_i_section_principal l query g s st h1 h2 shapes tol sh d b t_f t_w n_r gm : plastic_done l query g s st h1 h2 shapes tol -> i_section sh d b t_f t_w 0 n_r default_material = Ok gm ->
  is_composite (s_mats s) = false -> fills (s_tris s) (mo_val default_material) (gm_poly gm) -> fills_centred (concat shapes) (mo_val default_material) (gm_poly gm) ->
  0 < t_f -> 0 < t_w -> 2 * t_f < d -> t_w <= b -> on_grid 12 d -> on_grid 12 b -> on_grid 12 t_f -> on_grid 12 ((b - t_w) / 2) ->
  let ixx := (b * d ^ 3 - (b - t_w) * (d - 2 * t_f) ^ 3) / 12 in let iyy := (2 * t_f * b ^ 3 + (d - 2 * t_f) * t_w ^ 3) / 12 in
  let zx := b * t_f * (d - t_f) + t_w * (d - 2 * t_f) ^ 2 / 4 in let zy := t_f * b ^ 2 / 2 + (d - 2 * t_f) * t_w ^ 2 / 4 in
  let slack := (2 * b * t_f + (d - 2 * t_f) * t_w) * tol in
  (iyy <= ixx -> gives_near l query g s (h1 ++ CPlastic :: h2) get_sp slack [zx; zy]) /\
  (ixx <= (1 - 1 / 10 ^ 12) * iyy -> gives_near l query g s (h1 ++ CPlastic :: h2) get_sp slack [zy; zx]).
Proof.
  intros D E N F B H1 H2 H3 H4 Gd Gb Gf Gw ixx iyy zx zy slack. pose proof D as (Hbt & U & Hg & Hok & C & _).
  assert (A : analysed g s st (h1 ++ CPlastic :: h2)) by (split; [exact Hbt|split; [exact U|split; [apply in_or_app; left; exact Hg|exact N]]]).
  destruct (i_case sh d b t_f t_w n_r _ gm E H1 H2 H3 H4 Gd Gb Gf Gw) as [M Na]. destruct (plates_centroidal _ _ M Na) as (Cc & XX & YY & XY).
  set (ps := [rect 0 0 b t_f; rect ((b - t_w) / 2) t_f ((b + t_w) / 2) (d - t_f); rect 0 (d - t_f) b d]) in *.
  assert (P : 0 < b * t_f * 2 + (d - 2 * t_f) * t_w) by (assert (0 < b * t_f) by (apply Rmult_lt_0_compat; lra); assert (0 < (d - 2 * t_f) * t_w) by (apply Rmult_lt_0_compat; lra); lra).
  assert (Cx : plates_cx ps = b / 2) by (unfold plates_cx, ps; unring; field; lra). assert (Cy : plates_cy ps = d / 2) by (unfold plates_cy, ps; unring; field; lra). rewrite Cx, Cy in *.
  assert (XX' : poly_ixx_c (gm_poly gm) = ixx) by (rewrite XX; unfold ps, ixx; unring; field). assert (YY' : poly_iyy_c (gm_poly gm) = iyy) by (rewrite YY; unfold ps, iyy; unring; field). assert (XY' : poly_ixy_c (gm_poly gm) = 0) by (rewrite XY; unfold ps; unring; field).
  destruct (principal_case l query g s st _ _ A F Na XY') as (_ & _ & _ & _ & K1 & K2). rewrite XX', YY' in K1, K2.
  pose proof (i_out sh d b t_f t_w n_r (mo_val default_material) default_material gm E H1 H2 H3 H4 Gd Gb Gf Gw) as O.
  destruct (C89_aligned l query g s st h1 h2 shapes tol (mo_val default_material) (gm_poly gm) _ _ _ _ _ _ D B
    (i_cut_x _ _ b d t_f ((b - t_w) / 2) (b - (b - t_w) / 2) ltac:(lra) H1 H3 ltac:(lra) O) (i_cut_y _ _ b d t_f ((b - t_w) / 2) (b - (b - t_w) / 2) ltac:(lra) H1 H3 ltac:(lra) ltac:(lra) O)) as [R1 R2].
  { apply (one_mat (mo_val default_material)); [cbn; lra|repeat constructor]. }
  assert (Mg : modulus_getter_p s = get_sp) by (unfold modulus_getter_p; rewrite N; reflexivity). rewrite Mg in R1, R2. unfold slack, zx, zy.
  split; intros L.
  - eapply near_eq; [| |apply R1, K1, L].
    + cbn [app]. forces. change (m_fy (mo_val default_material)) with 1. field.
    + two; change (m_fy (mo_val default_material)) with 1; field.
  - eapply near_eq; [| |apply R2, K2, L].
    + cbn [app]. forces. change (m_fy (mo_val default_material)) with 1. field.
    + two; change (m_fy (mo_val default_material)) with 1; field.
Qed.

(** ** A case: the 4 x 2 rectangle lies flat, so its principal axes are turned by -90 degrees and the principal moduli come in the opposite order *)
Example C89_principal_met : exists l query s h, gives l query ex_geometry s h get_s [4; 8] /\ gives l query ex_geometry s h get_sp [8; 4].
Proof.
  destruct C89_met as (l & query & s & h1 & h2 & shapes & gm & D & E & N & F & Sp & B & G & _). exists l, query, s, (h1 ++ CPlastic :: h2). split; [exact G|].
  destruct (C89_rectangle_principal l query ex_geometry s "direct" h1 h2 shapes 0 toy 2 4 gm D E N F B ltac:(lra) ltac:(lra) (int_grid 12 2) (int_grid 12 4)) as [_ K].
  destruct K as (ws & Gs & Ws); [lra|].
  inversion Ws as [|? w1 ? ws' W1 Ws']; subst. inversion Ws' as [|? w2 ? ws'' W2 Ws'']; subst. inversion Ws''; subst.
  replace w1 with 8 in Gs by lra. replace w2 with 4 in Gs by lra. exact Gs.
Qed.

Print Assumptions C89_aligned.
Print Assumptions C89_rectangle_principal.
Print Assumptions C89_i_section_principal.
Print Assumptions C89_principal_met.
