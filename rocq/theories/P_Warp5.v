(** Consequences for analysed sections: energy, stress resultants, constants, warping constant. *)
From Coq Require Import Reals List Lra Lia Bool.
From Coquelicot Require Import Coquelicot.
From Verif Require Import Base S_Integral M_Fea S_Fem M_Post M_Section S_Section S_Post S_Warp M_Stress
  P_Integral P_Fea P_Geom P_Elem P_Section P_Totals P_Post P_Yield P_Warp P_Warp2 P_Warp3 P_Warp4.
Import ListNotations.
Local Open Scope R_scope.

Section Analysed.
Context (n : nat) (X Y : nat -> R) (els : list tri6) (solve : lg_solver) (composite : bool) (w : warping).
Context (HA : analysed n X Y els solve composite w).
Let t := section_totals els.
Let c := centroidal_of t.
Let wels := map (shift_el (p_cx c) (p_cy c)) els.
Let sh := shift_el (p_cx c) (p_cy c).
Let nu := nu_used composite els.

Lemma a_on : mesh_on n X Y els. Proof. apply HA. Qed.
Lemma a_ne : els <> []. Proof. apply HA. Qed.
Lemma a_pos : pos_moduli els. Proof. apply HA. Qed.
Lemma a_unit : composite = false -> unit_moduli els. Proof. apply HA. Qed.
Lemma a_ex : exact_solver n solve. Proof. apply HA. Qed.
Lemma a_w : warping_analysis n solve composite t c els = Ok w. Proof. apply HA. Qed.
Lemma a_val : valid_mesh els. Proof. apply (on_valid n X Y els a_on). Qed.
Lemma a_ea : (if composite then t_ea t else t_area t) = t_ea t.
Proof. pose proof a_unit as U. destruct composite; [reflexivity|]. symmetry. apply unit_ea. apply U. reflexivity. Qed.
Lemma a_wval : valid_mesh wels. Proof. apply (on_valid _ _ _ _ (Hmw n X Y els a_on)). Qed.

Lemma energy_twist v : energy wels v = twist_energy (p_cx c) (p_cy c) els v.
Proof.
  unfold energy, twist_energy. apply MQ_E_int.
  - apply a_val.
  - intros el Hel. pose proof (a_val el Hel) as Hv. apply (pdeg_weaken 2); [lia|]. apply pdeg_plus.
    + apply (pdeg_mul 1 1); apply pdeg_minus; auto using d_Gx, d_py.
    + apply (pdeg_mul 1 1); apply pdeg_plus; auto using d_Gy, d_px.
  - intros el s u Hel. pose proof (a_val el Hel) as Hv. destruct (G_shift (p_cx c) (p_cy c) v el s u Hv) as [-> ->].
    destruct (pos_shift (p_cx c) (p_cy c) el s u Hv) as [-> ->]. ring.
Qed.

(** ** Stress fields *)

Context (a : actions) (p : stress_par) (om ps ph : nat -> R).
Context (HP : stress_parameters composite t c (Some w) a = Ok (p, om, ps, ph)).
Definition sg (el : tri6) (s u : R) : stress_gp :=
  element_stress_gp el a p (gather om (el_ids el)) (gather ps (el_ids el)) (gather ph (el_ids el)) (loc s u).

Lemma sp_cx : st_cx p = p_cx c /\ st_cy p = p_cy c /\ st_ixx p = p_ixx_c c /\ st_iyy p = p_iyy_c c /\ st_ixy p = p_ixy_c c /\
   st_i11 p = p_i11_c c /\ st_i22 p = p_i22_c c /\ st_phi p = p_phi c /\ st_ea p = t_ea t.
Proof.
  unfold stress_parameters in HP. destruct (needs_warping a); injection HP as <- <- <- <-;
  cbn [st_cx st_cy st_ixx st_iyy st_ixy st_i11 st_i22 st_phi st_ea]; repeat split; apply a_ea.
Qed.

Lemma sp_w : needs_warping a = true -> st_j p = w_j w /\ st_nu p = nu /\ st_delta_s p = w_delta_s w /\ om = w_omega w /\ ps = w_psi w /\ ph = w_phi w.
Proof.
  intros H. unfold stress_parameters in HP. rewrite H in HP. injection HP as <- <- <- <-.
  cbn [st_j st_nu st_delta_s]. repeat split.
Qed.
Lemma nw_mzz : a_mzz a <> 0 -> needs_warping a = true.
Proof. intros H. unfold needs_warping. destruct (Req_EM_T (a_mzz a) 0); [contradiction|]. rewrite !orb_true_r. reflexivity. Qed.
Lemma nw_vx : a_vx a <> 0 -> needs_warping a = true.
Proof. intros H. unfold needs_warping. destruct (Req_EM_T (a_vx a) 0); [contradiction|]. reflexivity. Qed.
Lemma nw_vy : a_vy a <> 0 -> needs_warping a = true.
Proof. intros H. unfold needs_warping. destruct (Req_EM_T (a_vy a) 0); [contradiction|]. rewrite !orb_true_r. reflexivity. Qed.

(** code fields on shifted elements *)
Lemma sg_shape el : mkTri (map6 (fun x => x - st_cx p) (el_x el)) (map6 (fun y => y - st_cy p) (el_y el)) (el_ids el) (el_mat el) = sh el.
Proof. destruct sp_cx as [-> [-> _]]. reflexivity. Qed.

Definition tx : field := fun el g => Gx (w_omega w) el g - py el g.
Definition ty : field := fun el g => Gy (w_omega w) el g + px el g.

Lemma sg_mzz el s u : sg_zx_mzz (sg el s u) = a_mzz a / w_j w * (m_E (el_mat el) * tx (sh el) (loc s u)) /\
  sg_zy_mzz (sg el s u) = a_mzz a / w_j w * (m_E (el_mat el) * ty (sh el) (loc s u)).
Proof.
  unfold sg, element_stress_gp. cbv zeta.
  destruct (principal_coordinate _ _ _) as [q1 q2]. cbn [sg_zx_mzz sg_zy_mzz].
  destruct (Req_EM_T (a_mzz a) 0) as [Z|Z].
  - rewrite Z. unfold Rdiv. split; ring.
  - destruct (sp_w (nw_mzz Z)) as [W1 [_ [_ [W2 _]]]]. rewrite W1, W2. destruct sp_cx as [-> [-> _]].
    unfold tx, ty, Gx, Gy, gx, gy, px, py, shp, sh, shift_el. cbn [el_x el_y el_ids]. split; unfold Rdiv; ring.
Qed.

Lemma sg_vx el s u : sg_zx_vx (sg el s u) = a_vx a / w_delta_s w * (m_E (el_mat el) * p1 els composite w (sh el) (loc s u)) /\
  sg_zy_vx (sg el s u) = a_vx a / w_delta_s w * (m_E (el_mat el) * p2 els composite w (sh el) (loc s u)).
Proof.
  unfold sg, element_stress_gp. cbv zeta.
  destruct (principal_coordinate _ _ _) as [q1 q2]. cbn [sg_zx_vx sg_zy_vx].
  destruct (Req_EM_T (a_vx a) 0) as [Z|Z].
  - rewrite Z. unfold Rdiv. split; ring.
  - destruct (sp_w (nw_vx Z)) as [_ [W1 [W2 [_ [W3 _]]]]]. rewrite W1, W2, W3. destruct sp_cx as [-> [-> [-> [-> [-> _]]]]].
    unfold p1, p2, Gx, Gy, gx, gy, spar, px, py, shp, sh, shift_el. cbn [el_x el_y el_ids]. unfold nu, nu_used. fold t c. split; unfold Rdiv; ring.
Qed.
Lemma sg_vy el s u : sg_zx_vy (sg el s u) = a_vy a / w_delta_s w * (m_E (el_mat el) * h1 els composite w (sh el) (loc s u)) /\
  sg_zy_vy (sg el s u) = a_vy a / w_delta_s w * (m_E (el_mat el) * h2 els composite w (sh el) (loc s u)).
Proof.
  unfold sg, element_stress_gp. cbv zeta.
  destruct (principal_coordinate _ _ _) as [q1 q2]. cbn [sg_zx_vy sg_zy_vy].
  destruct (Req_EM_T (a_vy a) 0) as [Z|Z].
  - rewrite Z. unfold Rdiv. split; ring.
  - destruct (sp_w (nw_vy Z)) as [_ [W1 [W2 [_ [_ W3]]]]]. rewrite W1, W2, W3. destruct sp_cx as [-> [-> [-> [-> [-> _]]]]].
    unfold h1, h2, Gx, Gy, gx, gy, spar, px, py, shp, sh, shift_el. cbn [el_x el_y el_ids]. unfold nu, nu_used. fold t c. split; unfold Rdiv; ring.
Qed.

(** field_int of a multiple of E times a code field of degree three *)
Lemma fint (F : field) (k : R) (S : tri6 -> R -> R -> R) :
  (forall el, In el els -> pdeg 3 (F (sh el))) ->
  (forall el s u, In el els -> S el s u = k * (m_E (el_mat el) * F (sh el) (loc s u))) ->
  field_int S els = k * MQ wels F.
Proof.
  intros Hd He. unfold wels. rewrite (MQ_E_int (p_cx c) (p_cy c) F (fun el s u => F (sh el) (loc s u)) els); [|apply a_val|exact Hd|reflexivity].
  transitivity (E_int (fun el s u => k * F (sh el) (loc s u) + 0 * F (sh el) (loc s u)) els).
  - unfold E_int. apply field_int_ext. intros el s u Hel. rewrite He by exact Hel. ring.
  - rewrite E_int_lin4; [ring|]. intros el Hel. destruct (Hd el Hel) as [P _]. split; apply (poly_weaken 3); (exact P || lia).
Qed.

Lemma d_tx el : In el els -> pdeg 1 (tx (sh el)) /\ pdeg 1 (ty (sh el)).
Proof.
  intros Hel. pose proof (a_val el Hel) as Hv. unfold tx, ty. split; [apply pdeg_minus|apply pdeg_plus];
  unfold sh; auto using d_Gx, d_Gy, d_px, d_py.
Qed.

Lemma d_sp el (f : shear_par -> R) : In el els -> (f = sp_d1 \/ f = sp_d2 \/ f = sp_h1 \/ f = sp_h2) ->
  pdeg 2 (fun g => f (spar (p_ixx_c c) (p_iyy_c c) (p_ixy_c c) (sh el) g)).
Proof.
  intros Hel Hf. pose proof (a_val el Hel) as Hv.
  assert (Q : forall k1 k2, pdeg 2 (fun g => k1 * (px (sh el) g * px (sh el) g - py (sh el) g * py (sh el) g) + k2 * (px (sh el) g * py (sh el) g))).
  { intros k1 k2. apply pdeg_plus; apply pdeg_scal; [apply pdeg_minus|]; apply (pdeg_mul 1 1); unfold sh; auto using d_px, d_py. }
  destruct Hf as [->|[->|[->| ->]]]; unfold spar, shear_parameter; cbn [sp_d1 sp_d2 sp_h1 sp_h2].
  - apply (pdeg_ext 2 _ _ (fun g => eq_refl)). eapply pdeg_ext; [|apply (Q (p_ixx_c c) (- 2 * p_ixy_c c))]. intros; cbv beta; ring.
  - eapply pdeg_ext; [|apply (Q (p_ixy_c c) (2 * p_ixx_c c))]. intros; cbv beta; ring.
  - eapply pdeg_ext; [|apply (Q (- p_ixy_c c) (2 * p_iyy_c c))]. intros; cbv beta; ring.
  - eapply pdeg_ext; [|apply (Q (- p_iyy_c c) (- 2 * p_ixy_c c))]. intros; cbv beta; ring.
Qed.

Lemma d_p el : In el els -> pdeg 2 (p1 els composite w (sh el)) /\ pdeg 2 (p2 els composite w (sh el)) /\
  pdeg 2 (h1 els composite w (sh el)) /\ pdeg 2 (h2 els composite w (sh el)).
Proof.
  intros Hel. pose proof (a_val el Hel) as Hv.
  assert (W : forall F, pdeg 1 F -> pdeg 2 F) by (intros; apply (pdeg_weaken 1); [lia|assumption]).
  unfold p1, p2, h1, h2. fold t c. repeat match goal with |- _ /\ _ => split end;
    (apply pdeg_minus; [apply W; unfold sh; auto using d_Gx, d_Gy|apply pdeg_scal; apply d_sp; auto]).
Qed.

Lemma torsion_resultants :
  field_int (fun el s u => sg_zx_mzz (sg el s u)) els = 0 /\
  field_int (fun el s u => sg_zy_mzz (sg el s u)) els = 0 /\
  field_int (fun el s u => (loc_x el s u - p_cx c) * sg_zy_mzz (sg el s u) - (loc_y el s u - p_cy c) * sg_zx_mzz (sg el s u)) els = a_mzz a.
Proof.
  destruct (tau_res n X Y els solve composite w a_on a_ne a_pos a_ex a_w) as [T1 T2].
  pose proof (tau_moment n X Y els solve composite w a_on a_ne a_pos a_ex a_w) as T3.
  pose proof (j_pos n X Y els solve composite w a_on a_ne a_pos a_ex a_w) as J.
  repeat split.
  - rewrite (fint tx (a_mzz a / w_j w)).
    + unfold tx. unfold wels, c, t. rewrite T1. ring.
    + intros el Hel. apply (pdeg_weaken 1); [lia|]. apply d_tx, Hel.
    + intros. apply sg_mzz.
  - rewrite (fint ty (a_mzz a / w_j w)).
    + unfold ty. unfold wels, c, t. rewrite T2. ring.
    + intros el Hel. apply (pdeg_weaken 1); [lia|]. apply d_tx, Hel.
    + intros. apply sg_mzz.
  - rewrite (fint (fun el g => px el g * ty el g - py el g * tx el g) (a_mzz a / w_j w)).
    + unfold tx, ty. unfold wels, c, t. rewrite T3. field. lra.
    + intros el Hel. pose proof (a_val el Hel) as Hv. destruct (d_tx el Hel). apply (pdeg_weaken 2); [lia|].
      apply pdeg_minus; apply (pdeg_mul 1 1); try assumption; unfold sh; auto using d_px, d_py.
    + intros el s u Hel. pose proof (a_val el Hel) as Hv. destruct (sg_mzz el s u) as [-> ->].
      destruct (pos_shift (p_cx c) (p_cy c) el s u Hv) as [E1 E2]. cbv beta. unfold sh. rewrite E1, E2. ring.
Qed.

Context (Hnu : 1 + nu <> 0).

Lemma shear_resultants :
  (field_int (fun el s u => sg_zx_vx (sg el s u)) els = a_vx a /\
   field_int (fun el s u => sg_zy_vx (sg el s u)) els = 0 /\
   field_int (fun el s u => (loc_x el s u - p_cx c) * sg_zy_vx (sg el s u) - (loc_y el s u - p_cy c) * sg_zx_vx (sg el s u)) els = - (a_vx a * w_y_se w)) /\
  (field_int (fun el s u => sg_zx_vy (sg el s u)) els = 0 /\
   field_int (fun el s u => sg_zy_vy (sg el s u)) els = a_vy a /\
   field_int (fun el s u => (loc_x el s u - p_cx c) * sg_zy_vy (sg el s u) - (loc_y el s u - p_cy c) * sg_zx_vy (sg el s u)) els = a_vy a * w_x_se w).
Proof.
  destruct (p_res n X Y els solve composite w a_on a_ne a_pos a_ex a_w) as [T1 T2].
  destruct (h_res n X Y els solve composite w a_on a_ne a_pos a_ex a_w) as [U1 U2].
  pose proof (p_moment n X Y els solve composite w a_on a_ne a_pos a_w Hnu) as T3.
  pose proof (h_moment n X Y els solve composite w a_on a_ne a_pos a_w Hnu) as U3.
  pose proof (delta_ne n X Y els solve composite w a_on a_ne a_pos a_w Hnu) as D.
  assert (W : forall F, pdeg 2 F -> pdeg 3 F) by (intros; apply (pdeg_weaken 2); [lia|assumption]).
  split; repeat split.
  - rewrite (fint (p1 els composite w) (a_vx a / w_delta_s w)).
    + unfold wels, c, t. rewrite T1. field. exact D.
    + intros el Hel. apply W, d_p, Hel.
    + intros. apply sg_vx.
  - rewrite (fint (p2 els composite w) (a_vx a / w_delta_s w)).
    + unfold wels, c, t. rewrite T2. ring.
    + intros el Hel. apply W, d_p, Hel.
    + intros. apply sg_vx.
  - rewrite (fint (fun el g => px el g * p2 els composite w el g - py el g * p1 els composite w el g) (a_vx a / w_delta_s w)).
    + unfold wels, c, t. rewrite T3. field. exact D.
    + intros el Hel. pose proof (a_val el Hel) as Hv. destruct (d_p el Hel) as [D1 [D2 _]].
      apply pdeg_minus; apply (pdeg_mul 1 2); try assumption; unfold sh; auto using d_px, d_py.
    + intros el s u Hel. pose proof (a_val el Hel) as Hv. destruct (sg_vx el s u) as [-> ->].
      destruct (pos_shift (p_cx c) (p_cy c) el s u Hv) as [E1 E2]. cbv beta. unfold sh. rewrite E1, E2. ring.
  - rewrite (fint (h1 els composite w) (a_vy a / w_delta_s w)).
    + unfold wels, c, t. rewrite U1. ring.
    + intros el Hel. apply W, d_p, Hel.
    + intros. apply sg_vy.
  - rewrite (fint (h2 els composite w) (a_vy a / w_delta_s w)).
    + unfold wels, c, t. rewrite U2. field. exact D.
    + intros el Hel. apply W, d_p, Hel.
    + intros. apply sg_vy.
  - rewrite (fint (fun el g => px el g * h2 els composite w el g - py el g * h1 els composite w el g) (a_vy a / w_delta_s w)).
    + unfold wels, c, t. rewrite U3. field. exact D.
    + intros el Hel. pose proof (a_val el Hel) as Hv. destruct (d_p el Hel) as [_ [_ [D1 D2]]].
      apply pdeg_minus; apply (pdeg_mul 1 2); try assumption; unfold sh; auto using d_px, d_py.
    + intros el s u Hel. pose proof (a_val el Hel) as Hv. destruct (sg_vy el s u) as [-> ->].
      destruct (pos_shift (p_cx c) (p_cy c) el s u Hv) as [E1 E2]. cbv beta. unfold sh. rewrite E1, E2. ring.
Qed.
End Analysed.
