(** Property theorems on the finite element kernel (C01-C04, C12, C35, C37). *)
From Coq Require Import Reals List Lra Lia ZArith.
From Coquelicot Require Import Coquelicot.
From Verif Require Import Base S_Integral M_Fea S_Fem P_Fea P_Geom P_Elem.
Import ListNotations.
Local Open Scope R_scope.

(** C01: the shape functions sum to one and shape_function_only agrees with shape_function. *)
Theorem C01_partition_of_unity (xs ys : V6) (g : gp) :
  g_eta g + g_xi g + g_zeta g = 1 ->
  sum6 (sh_n (shape_function xs ys g)) = 1 /\
  sh_n (shape_function xs ys g) = shape_function_only (g_eta g, g_xi g, g_zeta g).
Proof. intros H. split; [exact (shape_sum_one xs ys g H) | exact (shape_only_eq xs ys g)]. Qed.

(** C01: at node i exactly the i-th shape function is one. *)
Theorem C01_kronecker (i : nat) : (i < 6)%nat ->
  shape_function_only (nth i node_coords (0, 0, 0)) = unit6 i.
Proof. exact (shape_kronecker i). Qed.

(** C02: interpolation of a quadratic field on a straight-sided element is exact: position, value and
    both partial derivatives. *)
Theorem C02_quadratic_reproduction (el : tri6) (a b c : point) (w eta xi zeta k0 k1 k2 k3 k4 k5 : R) :
  straight el a b c -> orient a b c <> 0 -> eta + xi + zeta = 1 ->
  let s := shape_function (el_x el) (el_y el) (mkGp w eta xi zeta) in
  let q := quad k0 k1 k2 k3 k4 k5 in
  let x := eta * fst a + xi * fst b + zeta * fst c in
  let y := eta * snd a + xi * snd b + zeta * snd c in
  sh_nx s = x /\ sh_ny s = y /\
  dot6 (sh_n s) (nodal q el) = q x y /\
  is_derive (fun t => q t y) x (dot6 (sh_b0 s) (nodal q el)) /\
  is_derive (fun t => q x t) y (dot6 (sh_b1 s) (nodal q el)).
Proof.
  intros Hst Ho Hs s q x y.
  destruct (straight_corners _ _ _ _ Hst) as [Ea [Eb Ec]].
  pose proof (interp_position el a b c Hst Ho w eta xi zeta Hs) as P.
  pose proof (interp_value el a b c Hst Ho w eta xi zeta Hs k0 k1 k2 k3 k4 k5) as V.
  pose proof (interp_dx el a b c Hst Ho w eta xi zeta Hs k0 k1 k2 k3 k4 k5) as DX.
  pose proof (interp_dy el a b c Hst Ho w eta xi zeta Hs k0 k1 k2 k3 k4 k5) as DY.
  unfold el_point in *. rewrite Ea, Eb, Ec in *. cbn [fst snd] in *.
  fold s q x y in P, V, DX, DY. injection P as Px Py.
  rewrite DX, DY. split; [exact Px|]. split; [exact Py|]. split; [exact V|].
  split; [apply quad_dx|apply quad_dy].
Qed.

(** C02: a zero-area element gets B = 0. *)
Theorem C02_zero_area (el : tri6) (a b c : point) (g : gp) :
  straight el a b c -> orient a b c = 0 -> g_eta g + g_xi g + g_zeta g = 1 ->
  sh_b0 (shape_function (el_x el) (el_y el) g) = zero6 /\
  sh_b1 (shape_function (el_x el) (el_y el) g) = zero6.
Proof. exact (zero_area_b el a b c g). Qed.

(** C03: each rule integrates polynomials up to its degree exactly on every triangle. *)
Theorem C03_quadrature_exact (n : Z) (gps : list gp) (d : nat) (f : R -> R -> R) (a b c : point) :
  gauss_points n = Ok gps ->
  In (n, d) [(1%Z, 1%nat); (3%Z, 2%nat); (4%Z, 3%nat); (6%Z, 4%nat)] ->
  poly_deg d f ->
  sumf (fun g => g_w g * (Rabs (orient a b c) / 2) *
      f (g_eta g * fst a + g_xi g * fst b + g_zeta g * fst c)
        (g_eta g * snd a + g_xi g * snd b + g_zeta g * snd c)) gps
  = tri_int a b c f.
Proof.
  intros Hn Hd Hf. apply (gauss_exact n gps f a b c Hn).
  cbn [In] in Hd. repeat destruct Hd as [E | Hd]; try contradiction;
    injection E as <- <-; exact Hf.
Qed.

(** C03: weights sum to one; all points are inside the triangle. *)
Theorem C03_weights_and_points (n : Z) (gps : list gp) :
  gauss_points n = Ok gps ->
  sumf g_w gps = 1 /\
  forall g, In g gps -> 0 < g_eta g /\ 0 < g_xi g /\ 0 < g_zeta g /\ g_eta g + g_xi g + g_zeta g = 1.
Proof.
  intros H. split; [exact (gauss_weights n gps H)|]. intros g Hg.
  destruct (gauss_inside n gps H g Hg) as [A [B C]].
  repeat split; auto. exact (gauss_sum1 n gps H g Hg).
Qed.

(** C03: exactly the four documented rules exist; every other n is a ValueError. *)
Theorem C03_supported (n : Z) :
  match gauss_points n with
  | Ok gps => In n [1; 3; 4; 6]%Z /\ Z.of_nat (length gps) = n
  | Err e => e = ValueError /\ ~ In n [1; 3; 4; 6]%Z
  end.
Proof.
  unfold gauss_points.
  destruct (Z.eqb_spec n 1); [subst; cbn; auto|].
  destruct (Z.eqb_spec n 3); [subst; cbn; auto|].
  destruct (Z.eqb_spec n 4); [subst; cbn; auto|].
  destruct (Z.eqb_spec n 6); [subst; cbn; auto 10|].
  split; [reflexivity|]. cbn. intuition congruence.
Qed.

(** C03: the stated degree of the 4-point rule cannot be raised. *)
Theorem C03_four_point_rule_degree4_refuted :
  exists f : R -> R -> R, poly_deg 4 f /\
  sumf (fun g => g_w g * (Rabs (orient (0,0) (1,0) (0,1)) / 2) *
      f (g_eta g * 0 + g_xi g * 1 + g_zeta g * 0) (g_eta g * 0 + g_xi g * 0 + g_zeta g * 1)) gps4
  <> tri_int (0,0) (1,0) (0,1) f.
Proof. exact gps4_not_degree4. Qed.

(** C04: geometric_properties returns the exact integrals over the triangle. *)
Theorem C04_element_properties (el : tri6) : valid_el el ->
  let o := geometric_properties el in
  ge_area o = el_int el (fun _ _ => 1) /\
  ge_qx o = el_int el (fun _ y => y) /\
  ge_qy o = el_int el (fun x _ => x) /\
  ge_ixx o = el_int el (fun _ y => y * y) /\
  ge_iyy o = el_int el (fun x _ => x * x) /\
  ge_ixy o = el_int el (fun x y => x * y) /\
  ge_e o = m_E (el_mat el) /\
  ge_g o = m_E (el_mat el) / (2 * (1 + m_nu (el_mat el))) /\
  ge_rho o = m_rho (el_mat el).
Proof.
  intros Hv. cbv zeta. rewrite (geometric_properties_exact el Hv). cbn. repeat split; reflexivity.
Qed.

(** C12 *)
Theorem C12_principal_global_inverse (phi x y : R) :
  (let p := principal_coordinate phi x y in global_coordinate phi (fst p) (snd p) = (x, y)) /\
  (let p := global_coordinate phi x y in principal_coordinate phi (fst p) (snd p) = (x, y)).
Proof. split; [exact (principal_global_inv phi x y) | exact (global_principal_inv phi x y)]. Qed.

Theorem C12_isometry (phi x y x' y' : R) :
  let p := principal_coordinate phi x y in
  let p' := principal_coordinate phi x' y' in
  (fst p - fst p') ^ 2 + (snd p - snd p') ^ 2 = (x - x') ^ 2 + (y - y') ^ 2.
Proof. exact (principal_isometry phi x y x' y'). Qed.

(** C35: extrapolating the six Gauss point values of a quadratic field gives its nodal values up to
    2e-14 of the largest one. *)
Theorem C35_extrapolation (el : tri6) (k0 k1 k2 k3 k4 k5 M : R) (i : nat) :
  valid_el el -> (i < 6)%nat ->
  let q := quad k0 k1 k2 k3 k4 k5 in
  (forall j, (j < 6)%nat -> Rabs (nth6 (nodal q el) j) <= M) ->
  Rabs (nth6 (extrapolate_to_nodes (at_gauss6 el q)) i - nth6 (nodal q el) i) <= 2 / 10 ^ 14 * M.
Proof. exact (extrapolate_close el k0 k1 k2 k3 k4 k5 M i). Qed.

(** C37: local coordinates sum to one and reproduce the point. *)
Theorem C37_local_coord (el : tri6) (p : point) :
  orient (corner_a el) (corner_b el) (corner_c el) <> 0 ->
  let '(eta, xi, zeta) := local_coord el p in
  eta + xi + zeta = 1 /\ el_point el eta xi zeta = p.
Proof. exact (local_coord_spec el p). Qed.

(** C37: the containment test is exact membership in the closed triangle. *)
Theorem C37_point_within (el : tri6) (p : point) :
  orient (corner_a el) (corner_b el) (corner_c el) <> 0 ->
  (point_within_element el p = true <-> in_triangle (corner_a el) (corner_b el) (corner_c el) p).
Proof. exact (point_within_spec el p). Qed.

(** ** Non-vacuity: a concrete element meets the hypotheses above. *)

Definition ex_mat : material := mkMat 200 (3/10) 500 8.
Definition ex_el : tri6 :=
  mkTri (side_nodes 0 4 1) (side_nodes 0 1 3) (mkConn 0 1 2 3 4 5) ex_mat.

Example ex_el_valid : valid_el ex_el.
Proof.
  unfold valid_el, straight, corner_a, corner_b, corner_c, ex_el, orient, side_nodes.
  cbn [el_x el_y v0 v1 v2 fst snd]. repeat split; lra.
Qed.

Example ex_el_area : ge_area (geometric_properties ex_el) = 11 / 2.
Proof.
  rewrite (geometric_properties_valid ex_el ex_el_valid). unfold el_q4, sumf, Rsum, gps4.
  unfold corner_a, corner_b, corner_c, ex_el, orient, side_nodes.
  cbn [ge_area map fold_right g_w el_x el_y v0 v1 v2 fst snd]. field.
Qed.

Example ex_degenerate : straight (mkTri (side_nodes 0 1 2) (side_nodes 0 1 2) (mkConn 0 1 2 3 4 5) ex_mat)
  (0,0) (1,1) (2,2) /\ orient (0,0) (1,1) (2,2) = 0.
Proof. unfold straight, orient. cbn [el_x el_y fst snd]. repeat split; ring. Qed.

Example ex_poly : poly_deg 3 (fun x y => x * (x * y) + 2).
Proof.
  apply poly_plus; [|apply poly_c].
  apply (poly_mul 1 2 (fun x _ => x)); [apply poly_x|].
  apply (poly_mul 1 1 (fun x _ => x) (fun _ y => y)); [apply poly_x|apply poly_y].
Qed.

Example ex_rule : gauss_points 4 = Ok gps4. Proof. reflexivity. Qed.

Example ex_extrapolation_bound : forall j, (j < 6)%nat ->
  Rabs (nth6 (nodal (quad 1 0 0 1 0 0) ex_el) j) <= 17.
Proof.
  intros j Hj. unfold nodal, quad, zip6, ex_el, side_nodes. cbn [el_x el_y v0 v1 v2 v3 v4 v5].
  do 6 (destruct j as [|j]; [cbn [nth6 v0 v1 v2 v3 v4 v5]; apply Rabs_le; lra|]). lia.
Qed.

Example ex_within : point_within_element ex_el (1, 1) = true.
Proof.
  apply C37_point_within.
  - pose proof ex_el_valid as [_ H]. lra.
  - exists (6/11), (2/11), (3/11). unfold corner_a, corner_b, corner_c, ex_el, side_nodes.
    cbn [el_x el_y v0 v1 v2 fst snd]. repeat split; lra.
Qed.

(** ** C76: side of a line *)
(** point_above_line answers True exactly for the points strictly on the left of the line with direction u through (px, py): to the
    left of a line means along its normal (-u1, u0). *)
Theorem C76_point_above_line : forall u px py x y, u <> (0, 0) ->
  (point_above_line u px py x y = true <-> exists s t, 0 < t /\ x = px + s * fst u + t * - snd u /\ y = py + s * snd u + t * fst u).
Proof.
  intros [a b] px py x y N. unfold point_above_line. cbn [fst snd]. assert (Q : 0 < a * a + b * b).
  { destruct (Req_dec a 0) as [->|A]; [|pose proof (Rsqr_pos_lt a A) as S; pose proof (Rle_0_sqr b) as T; unfold Rsqr in S, T; lra].
    destruct (Req_dec b 0) as [->|B]; [contradiction N; reflexivity|]. pose proof (Rsqr_pos_lt b B) as S. unfold Rsqr in S. lra. }
  destruct (Rlt_dec 0 ((px - x) * b - (py - y) * a)) as [L|L]; split; try discriminate; intros H; [|reflexivity|].
  - exists (((x - px) * a + (y - py) * b) / (a * a + b * b)), (((px - x) * b - (py - y) * a) / (a * a + b * b)). split; [apply Rdiv_lt_0_compat; lra|]. split; field; lra.
  - exfalso. destruct H as (s & t & T & -> & ->). apply L. replace ((px - (px + s * a + t * - b)) * b - (py - (py + s * b + t * a)) * a) with (t * (a * a + b * b)) by ring. apply Rmult_lt_0_compat; assumption.
Qed.
(** If the line runs from left to right, that is above it. *)
Theorem C76_above : forall u px py x y, 0 < fst u -> (point_above_line u px py x y = true <-> py + (x - px) * (snd u / fst u) < y).
Proof.
  intros [a b] px py x y N. unfold point_above_line. cbn [fst snd] in *.
  assert (E : (px - x) * b - (py - y) * a = a * (y - (py + (x - px) * (b / a)))) by (field; lra).
  destruct (Rlt_dec 0 ((px - x) * b - (py - y) * a)) as [L|L]; split; try discriminate; try reflexivity; intros H.
  - rewrite E in L. apply (Rmult_lt_reg_l a); [exact N|]. apply Rminus_lt_0. lra.
  - exfalso. apply L. rewrite E. apply Rmult_lt_0_compat; lra.
Qed.
Example ex_above : point_above_line (1, 1) 0 0 1 2 = true /\ point_above_line (1, 1) 0 0 2 1 = false /\ point_above_line (1, 1) 0 0 2 2 = false.
Proof. unfold point_above_line. cbn [fst snd]. repeat split; destruct (Rlt_dec _ _); try reflexivity; lra. Qed.

Print Assumptions C01_partition_of_unity.
Print Assumptions C01_kronecker.
Print Assumptions C02_quadratic_reproduction.
Print Assumptions C02_zero_area.
Print Assumptions C03_quadrature_exact.
Print Assumptions C03_weights_and_points.
Print Assumptions C03_supported.
Print Assumptions C03_four_point_rule_degree4_refuted.
Print Assumptions C04_element_properties.
Print Assumptions C12_principal_global_inverse.
Print Assumptions C12_isometry.
Print Assumptions C35_extrapolation.
Print Assumptions C37_local_coord.
Print Assumptions C37_point_within.
Print Assumptions C76_point_above_line.
Print Assumptions C76_above.
