(** Proofs about the error of the shear stresses: it is the error of the torsion constant or of the shear area. *)
From Coquelicot Require Import Coquelicot.
From Coq Require Import Reals List Permutation Bool Arith Lra Lia.
From Verif Require Import Base S_Integral M_Fea S_Fem M_Post M_Section S_Section S_Post S_Warp M_Init S_Init P_Integral P_Fea P_Geom P_Elem P_Section P_Totals P_Post
  P_Warp P_Warp2 P_Warp3 P_Warp4 P_Warp5 S_Plastic P_Plastic P_Fibre S_Refine P_Refine S_Prandtl P_Green P_Prandtl P_Prandtl2 M_Stress S_Stress S_Shear P_Shear P_Shear2 S_Error.
Import ListNotations.
Local Open Scope R_scope.

Lemma cont2_plus f g : cont2 f -> cont2 g -> cont2 (fun x y => f x y + g x y).
Proof. intros F G x y. apply continuity_2d_pt_plus; auto. Qed.
Lemma cont2_mult f g : cont2 f -> cont2 g -> cont2 (fun x y => f x y * g x y).
Proof. intros F G x y. apply continuity_2d_pt_mult; auto. Qed.
Lemma cont2_scal k f : cont2 f -> cont2 (fun x y => k * f x y).
Proof. intros F. apply cont2_mult; [intros x y; apply continuity_2d_pt_const|exact F]. Qed.
Lemma cont2_affine a b c : cont2 (fun x y => a + b * x + c * y).
Proof. intros x y. cont2_tac. Qed.
Lemma cont2_ext f g : (forall x y, f x y = g x y) -> cont2 f -> cont2 g.
Proof. intros E F x y. apply (continuity_2d_pt_ext f); auto. Qed.

(** ** Torsion *)
Lemma twist_distance n X Y els f fx fy free u cx cy k c : mesh_on n X Y els -> unit_moduli els -> elastic_stress f fx fy -> free_sides els free -> zero_on X Y free f ->
  square_error els (fun el s t => k * (ddx u el s t - (loc_y el s t - cy))) (fun el s t => k * (ddy u el s t + (loc_x el s t - cx))) (fun x y => c * fy x y) (fun x y => - c * fx x y) =
  k ^ 2 * twist_energy cx cy els u + (c ^ 2 - 2 * k * c) * (2 * sumf (fun el => el_int el f) els).
Proof.
  intros Hm U E Hf Zf. pose proof (elastic_energy n X Y els f fx fy free Hm E Hf Zf) as EE. pose proof E as (fxx & fxy & fyx & fyy & Sf & _). destruct (smooth_cont _ _ _ Sf) as (Cf & Cfx & Cfy).
  pose proof (against_fe n X Y els f fx fy free Hm Sf Hf Zf u) as F. pose proof (against_rotation n X Y els f fx fy free Hm Sf Hf Zf cx cy) as G.
  assert (K : square_error els (fun el s t => k * (ddx u el s t - (loc_y el s t - cy))) (fun el s t => k * (ddy u el s t + (loc_x el s t - cx))) (fun x y => c * fy x y) (fun x y => - c * fx x y) =
    k ^ 2 * sumf (el_energy cx cy u) els + -2 * k * c * sumf (fun el => loc_int el (fun s t => fy (loc_x el s t) (loc_y el s t) * ddx u el s t - fx (loc_x el s t) (loc_y el s t) * ddy u el s t)) els +
    2 * k * c * sumf (fun el => el_int el (fun x y => fx x y * (x - cx) + fy x y * (y - cy))) els + c ^ 2 * sumf (fun el => el_int el (fun x y => fx x y ^ 2 + fy x y ^ 2)) els).
  { unfold square_error, field_int. rewrite <- !sumf_scal, <- !sumf_plus. apply sumf_ext. intros el I. destruct (Hm el I) as (V & _). destruct (el_quad n X Y els Hm el u I) as (k0 & k1 & k2 & k3 & k4 & k5 & N & Q).
    set (gx := fun x y => k1 + 2 * k3 * x + k4 * y). set (gy := fun x y => k2 + k4 * x + 2 * k5 * y).
    set (a := fun x y => (gx x y - (y - cy)) * (gx x y - (y - cy)) + (gy x y + (x - cx)) * (gy x y + (x - cx))).
    set (b := fun x y => fy x y * gx x y - fx x y * gy x y). set (r := fun x y => fx x y * (x - cx) + fy x y * (y - cy)). set (d := fun x y => fx x y ^ 2 + fy x y ^ 2).
    assert (Ca : cont2 a) by (unfold a, gx, gy; intros x y; cont2_tac).
    assert (Cb : cont2 b) by (unfold b, gx, gy; intros x y; cont2_tac; (apply Cfx || apply Cfy)).
    assert (Cr : cont2 r) by (unfold r; intros x y; cont2_tac; (apply Cfx || apply Cfy)).
    assert (Cd : cont2 d) by (unfold d; apply (cont2_ext (fun x y => fx x y * fx x y + fy x y * fy x y)); [intros; ring|intros x y; cont2_tac; (apply Cfx || apply Cfy)]).
    assert (Ea : el_energy cx cy u el = el_int el a).
    { rewrite <- (loc_el_int el a V). unfold el_energy. apply loc_int_ext. intros s t. rewrite (U el I). unfold ddx, ddy. rewrite N. destruct (quad_field el k0 k1 k2 k3 k4 k5 s t V) as [-> ->]. unfold a, gx, gy. ring. }
    assert (Eb : loc_int el (fun s t => fy (loc_x el s t) (loc_y el s t) * ddx u el s t - fx (loc_x el s t) (loc_y el s t) * ddy u el s t) = el_int el b).
    { rewrite <- (loc_el_int el b V). apply loc_int_ext. intros s t. unfold ddx, ddy. rewrite N. destruct (quad_field el k0 k1 k2 k3 k4 k5 s t V) as [-> ->]. unfold b, gx, gy. ring. }
    rewrite Ea, Eb. fold r d.
    transitivity (el_int el (fun x y => 1 * (k ^ 2 * a x y + -2 * k * c * b x y) + 1 * (2 * k * c * r x y + c ^ 2 * d x y))).
    - rewrite <- (loc_el_int el _ V). apply loc_int_ext. intros s t. unfold ddx, ddy. rewrite N. destruct (quad_field el k0 k1 k2 k3 k4 k5 s t V) as [-> ->]. unfold a, b, r, d, gx, gy. ring.
    - rewrite (el_int_lin el (fun x y => k ^ 2 * a x y + -2 * k * c * b x y) (fun x y => 2 * k * c * r x y + c ^ 2 * d x y) 1 1) by (apply cont2_plus; apply cont2_scal; assumption).
      rewrite (el_int_lin el a b), (el_int_lin el r d) by assumption. ring. }
  rewrite K, F, G, EE, twist_sum. ring.
Qed.

(** ** Shear *)
Lemma shear_distance n X Y els co si p q v k : mesh_on n X Y els -> unit_moduli els -> equilibrium X Y els co si p q ->
  square_error els (fun el s t => k * ddx v el s t) (fun el s t => k * ddy v el s t) (fun x y => k * p x y) (fun x y => k * q x y) =
  k ^ 2 * (mesh_int (fun _ => 1) (fun x y => p x y ^ 2 + q x y ^ 2) els - shear_work els co si v).
Proof.
  intros Hm U (px & py & qx & qy & free & Sp & Sq & D & Hf & Zf). destruct (smooth_cont _ _ _ Sp) as (Cp & Cpx & _). destruct (smooth_cont _ _ _ Sq) as (Cq & _ & Cqy).
  assert (K : square_error els (fun el s t => k * ddx v el s t) (fun el s t => k * ddy v el s t) (fun x y => k * p x y) (fun x y => k * q x y) =
    k ^ 2 * sumf (fun el => 1 * el_int el (fun x y => p x y ^ 2 + q x y ^ 2)) els + - k ^ 2 * sumf (el_work els co si v) els + -2 * k ^ 2 * sumf (fun el => sumf (flux_term X Y p q v) (turned_sides el)) els).
  { unfold square_error, field_int. rewrite <- !sumf_scal, <- !sumf_plus. apply sumf_ext. intros el I. destruct (Hm el I) as (V & _). destruct (el_quad n X Y els Hm el v I) as (k0 & k1 & k2 & k3 & k4 & k5 & N & Q).
    rewrite <- (balance_el n X Y els p px py q qx qy Hm Sp Sq el v k0 k1 k2 k3 k4 k5 I Q), (el_work_quad els co si v el k0 k1 k2 k3 k4 k5 V N), (U el I).
    set (gx := fun x y => k1 + 2 * k3 * x + k4 * y). set (gy := fun x y => k2 + k4 * x + 2 * k5 * y). set (h := quad k0 k1 k2 k3 k4 k5).
    assert (Ch : cont2 h) by apply (smooth_cont _ _ _ (smooth_quad k0 k1 k2 k3 k4 k5)). assert (Cgx : cont2 gx) by (unfold gx; intros x y; cont2_tac). assert (Cgy : cont2 gy) by (unfold gy; intros x y; cont2_tac).
    set (e := fun x y => p x y ^ 2 + q x y ^ 2). set (b := fun x y => (p x y * gx x y + q x y * gy x y) + (px x y + qy x y) * h x y). set (o := fun x y => 1 * work_quad els co si k0 k1 k2 k3 k4 k5 x y).
    assert (Ce : cont2 e) by (unfold e; apply (cont2_ext (fun x y => p x y * p x y + q x y * q x y)); [intros; ring|intros x y; cont2_tac; (apply Cp || apply Cq)]).
    assert (Cb : cont2 b) by (unfold b; apply cont2_plus; [apply cont2_plus; apply cont2_mult; assumption|apply cont2_mult; [apply cont2_plus; assumption|assumption]]).
    assert (Co : cont2 o).
    { apply (cont2_ext (fun x y => -2 * ((px x y + qy x y) * h x y) + -1 * (gx x y * gx x y + gy x y * gy x y))); [intros x y; unfold o, work_quad; rewrite D; fold h; unfold gx, gy; ring|].
      apply cont2_plus; apply cont2_scal; [apply cont2_mult; [apply cont2_plus; assumption|assumption]|apply cont2_plus; apply cont2_mult; assumption]. }
    transitivity (el_int el (fun x y => 1 * (k ^ 2 * e x y + - k ^ 2 * o x y) + -2 * k ^ 2 * b x y)).
    - rewrite <- (loc_el_int el _ V). apply loc_int_ext. intros s t. unfold ddx, ddy. rewrite N. destruct (quad_field el k0 k1 k2 k3 k4 k5 s t V) as [-> ->]. unfold e, o, b, work_quad. rewrite D. fold h. unfold gx, gy. ring.
    - rewrite (el_int_lin el (fun x y => k ^ 2 * e x y + - k ^ 2 * o x y) b 1 (-2 * k ^ 2)) by (try assumption; apply cont2_plus; apply cont2_scal; assumption).
      rewrite (el_int_lin el e o) by assumption. transitivity (k ^ 2 * (1 * el_int el e) + - k ^ 2 * el_int el o + -2 * k ^ 2 * el_int el b); [ring|reflexivity]. }
  rewrite K, (sides_vanish (flux_term X Y p q v) els free (flux_flip X Y p px py q qx qy Sp Sq v) (flux_free X Y p q free Zf v) Hf), work_sum. unfold mesh_int. ring.
Qed.

(** ** The fields of the code *)
Section Fields.
Context (n : nat) (X Y : nat -> R) (els : list tri6) (solve : lg_solver) (w : warping).
Hypothesis HA : analysed n X Y els solve false w.
Let t := section_totals els.
Let c := centroidal_of t.
Context (a : actions) (p : stress_par) (om ps ph : nat -> R).
Hypothesis HP : stress_parameters false t c (Some w) a = Ok (p, om, ps, ph).
Let Hm : mesh_on n X Y els. Proof. apply HA. Qed.
Let U : unit_moduli els. Proof. apply HA. reflexivity. Qed.

Lemma field_mzz el s u : In el els -> sg_zx_mzz (field_at el a p om ps ph s u) = a_mzz a / w_j w * (ddx (w_omega w) el s u - (loc_y el s u - p_cy c)) /\
  sg_zy_mzz (field_at el a p om ps ph s u) = a_mzz a / w_j w * (ddy (w_omega w) el s u + (loc_x el s u - p_cx c)).
Proof.
  intros I. destruct (sg_mzz n X Y els solve false w HA a p om ps ph HP el s u) as [E1 E2]. unfold sg in E1, E2. unfold field_at. rewrite E1, E2, (U el I). unfold tx, ty. destruct (Hm el I) as (V & _).
  destruct (G_shift (p_cx c) (p_cy c) (w_omega w) el s u V) as [G1 G2]. destruct (pos_shift (p_cx c) (p_cy c) el s u V) as [P1 P2]. fold t. fold c. rewrite G1, G2, P1, P2. split; ring.
Qed.
Definition dir_warp (co si : R) (i : nat) : R := / w_delta_s w * co * w_psi w i + / w_delta_s w * si * w_phi w i.
Lemma field_v el s u V co si : In el els -> a_vx a = V * co -> a_vy a = V * si ->
  sg_zx_vx (field_at el a p om ps ph s u) + sg_zx_vy (field_at el a p om ps ph s u) = V * ddx (dir_warp co si) el s u /\
  sg_zy_vx (field_at el a p om ps ph s u) + sg_zy_vy (field_at el a p om ps ph s u) = V * ddy (dir_warp co si) el s u.
Proof.
  intros I EX EY. destruct (sg_vx n X Y els solve false w HA a p om ps ph HP el s u) as [E1 E2]. destruct (sg_vy n X Y els solve false w HA a p om ps ph HP el s u) as [E3 E4].
  unfold sg in E1, E2, E3, E4. unfold field_at. rewrite E1, E2, E3, E4, (U el I), EX, EY. destruct (Hm el I) as (Ve & _).
  destruct (G_shift (p_cx c) (p_cy c) (dir_warp co si) el s u Ve) as [<- <-]. unfold p1, p2, h1, h2, dir_warp. rewrite Gx_lin, Gy_lin. fold t. fold c. unfold Rdiv. split; ring.
Qed.
Lemma dir_work co si : shear_work els co si (dir_warp co si) = B (map (shift_el (p_cx c) (p_cy c)) els) (chi w co si) (chi w co si) / (w_delta_s w) ^ 2.
Proof.
  assert (H0 : nu_used false els = 0) by reflexivity. pose proof (det_p n X Y els solve false w HA) as D. pose proof (ds_eq n X Y els solve false w HA H0) as S. fold t in D, S. fold c in D, S.
  rewrite (work_form n X Y els solve false w HA H0 co si (dir_warp co si)). fold t. fold c. set (wels := map _ els). set (d := p_ixx_c c * p_iyy_c c - p_ixy_c c ^ 2) in *.
  assert (E : forall v, B wels (dir_warp co si) v = / w_delta_s w * B wels (chi w co si) v) by (intros v; unfold dir_warp, chi; rewrite !B_lin; ring).
  rewrite (B_sym wels (chi w co si) (dir_warp co si)), !E, (B_sym wels (chi w co si) (dir_warp co si)), E, S. field. lra.
Qed.
Lemma dir_area co si ar : force_direction els w co si ar -> shear_work els co si (dir_warp co si) = / ar.
Proof.
  assert (H0 : nu_used false els = 0) by reflexivity. intros D. rewrite dir_work. pose proof (areas n X Y els solve false w HA H0) as Ar. cbv zeta in Ar. pose proof (ds_eq n X Y els solve false w HA H0) as S. pose proof (det_p n X Y els solve false w HA) as Dp. rewrite S. fold t in Ar, Dp |- *. fold c in Ar, Dp |- *.
  set (phi := p_phi c * PI / 180) in *. assert (Hcs : cos phi ^ 2 + sin phi ^ 2 = 1) by (pose proof (sin2_cos2 phi) as H; unfold Rsqr in H; lra).
  assert (P : forall co si, co ^ 2 + si ^ 2 = 1 -> 0 < B (map (shift_el (p_cx c) (p_cy c)) els) (chi w co si) (chi w co si)) by (intros co' si' H; exact (chi_pos n X Y els solve false w HA H0 co' si' H)).
  assert (G : forall b d, 0 < b -> 0 < d -> b / (2 * d) ^ 2 = / ((2 * d) ^ 2 / b)) by (intros b d Hb Hd; field; lra).
  destruct Ar as (A1 & A2 & A3 & A4). unfold force_direction in D. fold t in D. fold c in D. cbv zeta in D. fold phi in D.
  destruct D as [D|[D|[D|[D|[]]]]]; apply pair_equal_spec in D; destruct D as [D <-]; apply pair_equal_spec in D; destruct D as [<- <-];
    rewrite ?A1, ?A2, ?A3, ?A4; apply G; try exact Dp; apply P; try ring; [exact Hcs|rewrite <- Hcs; ring].
Qed.

Lemma error_torsion f fx fy free : elastic_stress f fx fy -> free_sides els free -> zero_on X Y free f ->
  let j := 2 * mesh_int (fun _ => 1) f els in 0 < j -> 0 < w_j w -> w_j w = twist_energy (p_cx c) (p_cy c) els (w_omega w) ->
  square_error els (fun el s u => sg_zx_mzz (field_at el a p om ps ph s u)) (fun el s u => sg_zy_mzz (field_at el a p om ps ph s u))
    (fun x y => a_mzz a / j * fy x y) (fun x y => - (a_mzz a / j * fx x y)) = a_mzz a ^ 2 * (/ j - / w_j w).
Proof.
  intros E Hf Zf j Hj Hw Tw. pose proof (twist_distance n X Y els f fx fy free (w_omega w) (p_cx c) (p_cy c) (a_mzz a / w_j w) (a_mzz a / j) Hm U E Hf Zf) as D.
  assert (J : 2 * sumf (fun el => el_int el f) els = j) by (unfold j, mesh_int; f_equal; apply sumf_ext; intros; ring). rewrite J, <- Tw in D.
  transitivity ((a_mzz a / w_j w) ^ 2 * w_j w + ((a_mzz a / j) ^ 2 - 2 * (a_mzz a / w_j w) * (a_mzz a / j)) * j); [|field; lra]. rewrite <- D.
  unfold square_error, field_int. apply sumf_ext. intros el I. apply loc_int_ext. intros s u. destruct (field_mzz el s u I) as [-> ->]. ring.
Qed.
Lemma error_shear q1 q2 V co si ar : force_direction els w co si ar -> a_vx a = V * co -> a_vy a = V * si -> equilibrium X Y els co si q1 q2 ->
  square_error els (fun el s u => sg_zx_vx (field_at el a p om ps ph s u) + sg_zx_vy (field_at el a p om ps ph s u)) (fun el s u => sg_zy_vx (field_at el a p om ps ph s u) + sg_zy_vy (field_at el a p om ps ph s u))
    (fun x y => V * q1 x y) (fun x y => V * q2 x y) = V ^ 2 * (mesh_int (fun _ => 1) (fun x y => q1 x y ^ 2 + q2 x y ^ 2) els - / ar).
Proof.
  intros D EX EY E. rewrite <- (dir_area co si ar D), <- (shear_distance n X Y els co si q1 q2 (dir_warp co si) V Hm U E). unfold square_error, field_int. apply sumf_ext. intros el I.
  apply loc_int_ext. intros s u. destruct (field_v el s u V co si I EX EY) as [-> ->]. ring.
Qed.
End Fields.
