(** Proofs about the error of the shear centre: the moment of the error of the shear stresses is bounded by its square. *)
From Coquelicot Require Import Coquelicot.
From Coq Require Import Reals List Permutation Bool Arith Lra Lia.
From Verif Require Import Base S_Integral M_Fea S_Fem M_Post M_Section S_Section S_Post S_Warp M_Init S_Init P_Integral P_Fea P_Geom P_Elem P_Section P_Totals P_Post
  P_Warp P_Warp2 P_Warp3 P_Warp4 P_Warp5 S_Plastic P_Plastic P_Fibre S_Refine P_Refine S_Prandtl P_Green P_Prandtl P_Prandtl2 M_Stress S_Stress S_Shear P_Shear P_Shear2 S_Error P_Error.
Import ListNotations.
Local Open Scope R_scope.

Lemma discriminant e d p : 0 <= p -> (forall l, 0 <= e - 2 * l * d + l ^ 2 * p) -> d ^ 2 <= e * p.
Proof.
  intros [Hp|Hp] H.
  - specialize (H (d / p)). replace (e - 2 * (d / p) * d + (d / p) ^ 2 * p) with ((e * p - d ^ 2) / p) in H by (field; lra).
    apply (Rmult_le_compat_r p) in H; [|lra]. replace ((e * p - d ^ 2) / p * p) with (e * p - d ^ 2) in H by (field; lra). lra.
  - subst p. destruct (Req_dec d 0) as [->|Hd]; [lra|]. specialize (H ((e + 1) / (2 * d))).
    replace (e - 2 * ((e + 1) / (2 * d)) * d + ((e + 1) / (2 * d)) ^ 2 * 0) with (-1) in H by (field; exact Hd). lra.
Qed.

(** The moment about (cx, cy) of the gradient of a finite element function. *)
Definition slope_moment (cx cy : R) (els : list tri6) (v : nat -> R) : R :=
  field_int (fun el s t => (loc_x el s t - cx) * ddy v el s t - (loc_y el s t - cy) * ddx v el s t) els.

Section Moment.
Context (n : nat) (X Y : nat -> R) (els : list tri6) (cx cy : R).
Hypothesis Hm : mesh_on n X Y els.

Lemma slope_moment_lin k1 k2 u v : slope_moment cx cy els (fun i => k1 * u i + k2 * v i) = k1 * slope_moment cx cy els u + k2 * slope_moment cx cy els v.
Proof.
  unfold slope_moment, field_int. rewrite <- !sumf_scal, <- sumf_plus. apply sumf_ext. intros el I. destruct (Hm el I) as (V & _).
  destruct (el_quad n X Y els Hm el u I) as (a0 & a1 & a2 & a3 & a4 & a5 & Nu & _). destruct (el_quad n X Y els Hm el v I) as (b0 & b1 & b2 & b3 & b4 & b5 & Nv & _).
  set (f := fun x y => (x - cx) * (a2 + a4 * x + 2 * a5 * y) - (y - cy) * (a1 + 2 * a3 * x + a4 * y)). set (g := fun x y => (x - cx) * (b2 + b4 * x + 2 * b5 * y) - (y - cy) * (b1 + 2 * b3 * x + b4 * y)).
  assert (Cf : cont2 f) by (unfold f; intros x y; cont2_tac). assert (Cg : cont2 g) by (unfold g; intros x y; cont2_tac).
  assert (Ef : loc_int el (fun s t => (loc_x el s t - cx) * ddy u el s t - (loc_y el s t - cy) * ddx u el s t) = el_int el f).
  { rewrite <- (loc_el_int el f V). apply loc_int_ext. intros s t. unfold ddx, ddy. rewrite Nu. destruct (quad_field el a0 a1 a2 a3 a4 a5 s t V) as [-> ->]. unfold f. ring. }
  assert (Eg : loc_int el (fun s t => (loc_x el s t - cx) * ddy v el s t - (loc_y el s t - cy) * ddx v el s t) = el_int el g).
  { rewrite <- (loc_el_int el g V). apply loc_int_ext. intros s t. unfold ddx, ddy. rewrite Nv. destruct (quad_field el b0 b1 b2 b3 b4 b5 s t V) as [-> ->]. unfold g. ring. }
  rewrite Ef, Eg, <- (el_int_lin el f g k1 k2 Cf Cg), <- (loc_el_int el _ V). apply loc_int_ext. intros s t.
  destruct (G_shift 0 0 (fun i => k1 * u i + k2 * v i) el s t V) as [<- <-]. rewrite Gx_lin, Gy_lin. destruct (G_shift 0 0 u el s t V) as [-> ->]. destruct (G_shift 0 0 v el s t V) as [-> ->].
  unfold ddx, ddy. rewrite Nu, Nv. destruct (quad_field el a0 a1 a2 a3 a4 a5 s t V) as [-> ->]. destruct (quad_field el b0 b1 b2 b3 b4 b5 s t V) as [-> ->]. unfold f, g. ring.
Qed.

Lemma polar_nonneg : 0 <= mesh_int (fun _ => 1) (fun x y => (x - cx) ^ 2 + (y - cy) ^ 2) els.
Proof.
  assert (Cr : cont2 (fun x y => (x - cx) ^ 2 + (y - cy) ^ 2)) by (apply (cont2_ext (fun x y => (x - cx) * (x - cx) + (y - cy) * (y - cy))); [intros; ring|intros x y; cont2_tac]).
  assert (C0 : cont2 (fun _ _ => 0)) by (intros x y; apply continuity_2d_pt_const). assert (Z0 : forall el, el_int el (fun _ _ => 0) = 0) by (intros el; rewrite (el_int_ext el _ (fun x y => 0 * 0 + 0 * 0)) by (intros; ring); rewrite (el_int_lin el (fun _ _ => 0) (fun _ _ => 0)) by assumption; ring).
  unfold mesh_int. apply sumf_nonneg. intros el _. rewrite Rmult_1_l, <- (Z0 el). apply el_int_le; [exact C0|exact Cr|]. intros x y. pose proof (pow2_ge_0 (x - cx)). pose proof (pow2_ge_0 (y - cy)). lra.
Qed.
Lemma moment_gap p q v : cont2 p -> cont2 q ->
  (slope_moment cx cy els v - mesh_int (fun _ => 1) (fun x y => (x - cx) * q x y - (y - cy) * p x y) els) ^ 2 <=
  square_error els (ddx v) (ddy v) p q * mesh_int (fun _ => 1) (fun x y => (x - cx) ^ 2 + (y - cy) ^ 2) els.
Proof.
  intros Cp Cq. assert (Cr : cont2 (fun x y => (x - cx) ^ 2 + (y - cy) ^ 2)) by (apply (cont2_ext (fun x y => (x - cx) * (x - cx) + (y - cy) * (y - cy))); [intros; ring|intros x y; cont2_tac]).
  assert (C0 : cont2 (fun _ _ => 0)) by (intros x y; apply continuity_2d_pt_const). assert (Z0 : forall el, el_int el (fun _ _ => 0) = 0) by (intros el; rewrite (el_int_ext el _ (fun x y => 0 * 0 + 0 * 0)) by (intros; ring); rewrite (el_int_lin el (fun _ _ => 0) (fun _ _ => 0)) by assumption; ring).
  apply discriminant.
  - apply polar_nonneg.
  - intros l.
    assert (K : forall el, In el els -> 0 <= loc_int el (fun s t => (ddx v el s t - p (loc_x el s t) (loc_y el s t)) ^ 2 + (ddy v el s t - q (loc_x el s t) (loc_y el s t)) ^ 2) +
      -2 * l * loc_int el (fun s t => (loc_x el s t - cx) * ddy v el s t - (loc_y el s t - cy) * ddx v el s t) + 2 * l * (1 * el_int el (fun x y => (x - cx) * q x y - (y - cy) * p x y)) +
      l ^ 2 * (1 * el_int el (fun x y => (x - cx) ^ 2 + (y - cy) ^ 2))).
    { intros el I. destruct (Hm el I) as (V & _). destruct (el_quad n X Y els Hm el v I) as (k0 & k1 & k2 & k3 & k4 & k5 & N & _).
      set (gx := fun x y => k1 + 2 * k3 * x + k4 * y). set (gy := fun x y => k2 + k4 * x + 2 * k5 * y).
      assert (Cgx : cont2 gx) by (unfold gx; intros x y; cont2_tac). assert (Cgy : cont2 gy) by (unfold gy; intros x y; cont2_tac).
      set (e := fun x y => (gx x y - p x y) ^ 2 + (gy x y - q x y) ^ 2). set (f := fun x y => (x - cx) * gy x y - (y - cy) * gx x y). set (g := fun x y => (x - cx) * q x y - (y - cy) * p x y). set (r := fun x y => (x - cx) ^ 2 + (y - cy) ^ 2).
      assert (Ce : cont2 e).
      { apply (cont2_ext (fun x y => (gx x y + -1 * p x y) * (gx x y + -1 * p x y) + (gy x y + -1 * q x y) * (gy x y + -1 * q x y))); [intros; unfold e; ring|].
        assert (cont2 (fun x y => gx x y + -1 * p x y)) by (apply cont2_plus; [exact Cgx|apply cont2_scal, Cp]). assert (cont2 (fun x y => gy x y + -1 * q x y)) by (apply cont2_plus; [exact Cgy|apply cont2_scal, Cq]).
        apply cont2_plus; apply cont2_mult; assumption. }
      assert (Cf : cont2 f) by (unfold f, gx, gy; intros x y; cont2_tac). assert (Cg : cont2 g) by (unfold g; intros x y; cont2_tac; (apply Cp || apply Cq)).
      assert (Ee : loc_int el (fun s t => (ddx v el s t - p (loc_x el s t) (loc_y el s t)) ^ 2 + (ddy v el s t - q (loc_x el s t) (loc_y el s t)) ^ 2) = el_int el e).
      { rewrite <- (loc_el_int el e V). apply loc_int_ext. intros s t. unfold ddx, ddy. rewrite N. destruct (quad_field el k0 k1 k2 k3 k4 k5 s t V) as [-> ->]. unfold e, gx, gy. ring. }
      assert (Ef : loc_int el (fun s t => (loc_x el s t - cx) * ddy v el s t - (loc_y el s t - cy) * ddx v el s t) = el_int el f).
      { rewrite <- (loc_el_int el f V). apply loc_int_ext. intros s t. unfold ddx, ddy. rewrite N. destruct (quad_field el k0 k1 k2 k3 k4 k5 s t V) as [-> ->]. unfold f, gx, gy. ring. }
      rewrite Ee, Ef. fold g r.
      replace (el_int el e + -2 * l * el_int el f + 2 * l * (1 * el_int el g) + l ^ 2 * (1 * el_int el r)) with (1 * (1 * el_int el e + -2 * l * el_int el f) + 1 * (2 * l * el_int el g + l ^ 2 * el_int el r)) by ring.
      rewrite <- (el_int_lin el e f), <- (el_int_lin el g r) by assumption. rewrite <- (el_int_lin el (fun x y => 1 * e x y + -2 * l * f x y) (fun x y => 2 * l * g x y + l ^ 2 * r x y)) by (apply cont2_plus; apply cont2_scal; assumption).
      rewrite <- (Z0 el). apply el_int_le; [exact C0|apply cont2_plus; apply cont2_scal; apply cont2_plus; apply cont2_scal; assumption|]. intros x y.
      replace (1 * (1 * e x y + -2 * l * f x y) + 1 * (2 * l * g x y + l ^ 2 * r x y)) with ((gx x y - p x y + l * (y - cy)) ^ 2 + (gy x y - q x y - l * (x - cx)) ^ 2) by (unfold e, f, g, r; ring).
      pose proof (pow2_ge_0 (gx x y - p x y + l * (y - cy))). pose proof (pow2_ge_0 (gy x y - q x y - l * (x - cx))). lra. }
    pose proof (sumf_nonneg _ els K) as S. eapply Rle_trans; [exact S|]. right. unfold square_error, slope_moment, field_int, mesh_int. rewrite !sumf_plus, !sumf_scal.
    ring.
Qed.
End Moment.

(** The moment of the shear stresses of the code is that of the force acting at the reported shear centre. *)
Lemma dir_moment n X Y els solve w co si : analysed n X Y els solve false w -> let c := centroidal_of (section_totals els) in
  slope_moment (p_cx c) (p_cy c) els (dir_warp w co si) = w_x_se w * si - w_y_se w * co.
Proof.
  intros HA c. pose proof HA as (Hm & _ & _ & U & _). specialize (U eq_refl). set (a := mkActions 0 1 1 0 0 0 0 0).
  assert (E : exists p om ps ph, stress_parameters false (section_totals els) c (Some w) a = Ok (p, om, ps, ph)) by (unfold stress_parameters; destruct (needs_warping a); do 4 eexists; reflexivity).
  destruct E as (p & om & ps & ph & HP).
  destruct (shear_resultants n X Y els solve false w HA a p om ps ph HP) as [[_ [_ A]] [_ [_ B]]]; [unfold nu_used; lra|].
  assert (M1 : / w_delta_s w * slope_moment (p_cx c) (p_cy c) els (w_psi w) = - w_y_se w).
  { transitivity (slope_moment (p_cx c) (p_cy c) els (fun i => / w_delta_s w * w_psi w i + 0 * w_psi w i)); [rewrite (slope_moment_lin n X Y els _ _ Hm); ring|].
    transitivity (- (a_vx a * w_y_se w)); [|cbn [a a_vx]; ring]. rewrite <- A. unfold slope_moment, field_int. apply sumf_ext. intros el I. destruct (Hm el I) as (V & _). apply loc_int_ext. intros s u.
    destruct (sg_vx n X Y els solve false w HA a p om ps ph HP el s u) as [-> ->]. rewrite (U el I). destruct (G_shift (p_cx c) (p_cy c) (fun i => / w_delta_s w * w_psi w i + 0 * w_psi w i) el s u V) as [<- <-].
    rewrite Gx_lin, Gy_lin. unfold p1, p2. cbn [a a_vx]. fold c. unfold Rdiv. ring. }
  assert (M2 : / w_delta_s w * slope_moment (p_cx c) (p_cy c) els (w_phi w) = w_x_se w).
  { transitivity (slope_moment (p_cx c) (p_cy c) els (fun i => / w_delta_s w * w_phi w i + 0 * w_phi w i)); [rewrite (slope_moment_lin n X Y els _ _ Hm); ring|].
    transitivity (a_vy a * w_x_se w); [|cbn [a a_vy]; ring]. rewrite <- B. unfold slope_moment, field_int. apply sumf_ext. intros el I. destruct (Hm el I) as (V & _). apply loc_int_ext. intros s u.
    destruct (sg_vy n X Y els solve false w HA a p om ps ph HP el s u) as [-> ->]. rewrite (U el I). destruct (G_shift (p_cx c) (p_cy c) (fun i => / w_delta_s w * w_phi w i + 0 * w_phi w i) el s u V) as [<- <-].
    rewrite Gx_lin, Gy_lin. unfold h1, h2. cbn [a a_vy]. fold c. unfold Rdiv. ring. }
  unfold dir_warp. rewrite (slope_moment_lin n X Y els _ _ Hm).
  replace (/ w_delta_s w * co * slope_moment (p_cx c) (p_cy c) els (w_psi w)) with (co * (/ w_delta_s w * slope_moment (p_cx c) (p_cy c) els (w_psi w))) by ring.
  replace (/ w_delta_s w * si * slope_moment (p_cx c) (p_cy c) els (w_phi w)) with (si * (/ w_delta_s w * slope_moment (p_cx c) (p_cy c) els (w_phi w))) by ring. rewrite M1, M2. ring.
Qed.

(** The square of the moment of the error is at most that of the stresses times the polar moment. *)
Lemma centre_gap n X Y els solve w co si ar p q : analysed n X Y els solve false w -> force_direction els w co si ar -> equilibrium X Y els co si p q ->
  let c := centroidal_of (section_totals els) in
  (w_x_se w * si - w_y_se w * co - mesh_int (fun _ => 1) (fun x y => (x - p_cx c) * q x y - (y - p_cy c) * p x y) els) ^ 2 <=
  (mesh_int (fun _ => 1) (fun x y => p x y ^ 2 + q x y ^ 2) els - / ar) * mesh_int (fun _ => 1) (fun x y => (x - p_cx c) ^ 2 + (y - p_cy c) ^ 2) els.
Proof.
  intros HA D E c. pose proof HA as (Hm & _ & _ & U & _). specialize (U eq_refl). pose proof E as (px & py & qx & qy & free & Sp & Sq & _). destruct (smooth_cont _ _ _ Sp) as (Cp & _). destruct (smooth_cont _ _ _ Sq) as (Cq & _).
  rewrite <- (dir_moment n X Y els solve w co si HA). eapply Rle_trans; [apply (moment_gap n X Y els _ _ Hm p q (dir_warp w co si) Cp Cq)|]. right. f_equal.
  pose proof (shear_distance n X Y els co si p q (dir_warp w co si) 1 Hm U E) as S. rewrite (dir_area n X Y els solve w HA co si ar D) in S.
  transitivity (1 ^ 2 * (mesh_int (fun _ => 1) (fun x y => p x y ^ 2 + q x y ^ 2) els - / ar)); [|ring]. rewrite <- S. unfold square_error, field_int. apply sumf_ext. intros el _. apply loc_int_ext. intros s t. ring.
Qed.

(** ** Rectangles *)
Section Rectangle.
Context (x0 y0 b d : R) (m : material) (els : list tri6) (co si : R).
Hypothesis Hb : 0 < b.
Hypothesis Hd : 0 < d.
Hypothesis V : valid_mesh els.
Hypothesis B : same_boundary (mesh_edges els) (S_Section.ring_edges m (rectangle x0 y0 b d)).

Lemma par_moment : mesh_int (fun _ => 1) (fun x y => (x - (x0 + b / 2)) * par_y y0 b d si x y - (y - (y0 + d / 2)) * par_x x0 b d co x y) els = 0.
Proof.
  set (k := co * (6 / (b ^ 3 * d))). set (h := si * (6 / (b * d ^ 3))).
  set (Q := fun x => b / 2 * ((x - x0) * (x - x0)) - / 3 * ((x - x0) * (x - x0) * (x - x0))). set (P := fun x => / 2 * ((x - x0) * (x - x0)) - b / 2 * (x - x0)).
  rewrite (rectangle_green x0 y0 b d m els V B _ (fun x y => h * P x * ((y - y0) * (y0 + d - y)) + - k * Q x * (y - (y0 + d / 2)))
    (fun x y => h * (x - (x0 + b / 2)) * ((y - y0) * (y0 + d - y)) + - k * ((x - x0) * (x0 + b - x)) * (y - (y0 + d / 2)))
    (fun x y => h * P x * (d - 2 * (y - y0)) + - k * Q x)
    (k * (b ^ 3 / 6) * (d ^ 2 / 2)) (- (k * (b ^ 3 / 6) * d ^ 2)) 0 0 0).
  - field.
  - intros x y. unfold P, Q. split; [auto_derive; [exact I|field]|]. split; [auto_derive; [exact I|ring]|]. split; cont2_tac.
  - intros x y. unfold par_x, par_y. fold k h. ring.
  - intros y. unfold P, Q. ring.
  - intros l. unfold P, Q. field.
Qed.
Lemma polar_moment : mesh_int (fun _ => 1) (fun x y => (x - (x0 + b / 2)) ^ 2 + (y - (y0 + d / 2)) ^ 2) els = b * d * (b ^ 2 + d ^ 2) / 12.
Proof.
  set (Q := fun x => / 3 * ((x - x0) * (x - x0) * (x - x0)) - b / 2 * ((x - x0) * (x - x0)) + b * b / 4 * (x - x0)).
  rewrite (rectangle_green x0 y0 b d m els V B _ (fun x y => Q x + (x - x0) * ((y - (y0 + d / 2)) * (y - (y0 + d / 2))))
    (fun x y => (x - (x0 + b / 2)) * (x - (x0 + b / 2)) + (y - (y0 + d / 2)) * (y - (y0 + d / 2)))
    (fun x y => (x - x0) * (2 * (y - (y0 + d / 2))))
    (b ^ 3 / 12 * d + b * d ^ 3 / 4) (- (b * d ^ 3)) (b * d ^ 3) 0 0).
  - field.
  - intros x y. unfold Q. split; [auto_derive; [exact I|field]|]. split; [auto_derive; [exact I|field]|]. split; cont2_tac.
  - intros x y. ring.
  - intros y. unfold Q. ring.
  - intros l. unfold Q. field.
Qed.
End Rectangle.
