(** Warping: properties of the results of warping_analysis for exact solvers. *)
From Coq Require Import Reals List Lra Lia.
From Coquelicot Require Import Coquelicot.
From Verif Require Import Base S_Integral M_Fea S_Fem M_Post M_Section S_Section S_Post S_Warp
  P_Integral P_Fea P_Geom P_Elem P_Section P_Totals P_Post P_Yield P_Warp P_Warp2.
Import ListNotations.
Local Open Scope R_scope.

Lemma shift_translate cx cy el : shift_el cx cy el = translate_el (- cx) (- cy) el.
Proof. reflexivity. Qed.

(** shifting leaves corners shifted, validity and numbering unchanged *)
Lemma shift_valid cx cy el : valid_el el -> valid_el (shift_el cx cy el).
Proof.
  intros [[Hx Hy] Ho]. unfold valid_el, straight, corner_a, corner_b, corner_c, orient in *. unfold shift_el.
  cbn [el_x el_y map6 v0 v1 v2 v3 v4 v5 fst snd] in *. repeat split.
  - rewrite Hx. unfold side_nodes, map6. cbn [v0 v1 v2 v3 v4 v5]. f_equal; field.
  - rewrite Hy. unfold side_nodes, map6. cbn [v0 v1 v2 v3 v4 v5]. f_equal; field.
  - lra.
Qed.

Lemma shift_mesh_on n X Y els cx cy : mesh_on n X Y els ->
  mesh_on n (fun i => X i - cx) (fun i => Y i - cy) (map (shift_el cx cy) els).
Proof.
  intros H el Hel. apply in_map_iff in Hel. destruct Hel as [e [<- He]]. destruct (H e He) as [Hv [A [B0 [Ex Ey]]]].
  split; [apply shift_valid, Hv|]. unfold shift_el. cbn [el_ids el_x el_y]. rewrite Ex, Ey.
  repeat split; try assumption.
Qed.

Lemma shift_mesh_q w f cx cy els :
  mesh_q w f (map (shift_el cx cy) els) = mesh_q w (fun x y => f (x - cx) (y - cy)) els.
Proof.
  rewrite (map_ext (shift_el cx cy) (map_el (fun x y => 1 * x + 0 * y + - cx) (fun x y => 0 * x + 1 * y + - cy))).
  - rewrite affine_mesh_q. rewrite (mesh_q_ext w _ (fun x y => f (x - cx) (y - cy))).
    + ring.
    + intros x y. f_equal; ring.
  - intros el. rewrite shift_translate. apply map_el_ext; intros; ring.
Qed.

(** The components of the result of warping_analysis. *)
Lemma warping_spec n solve composite t c els w :
  warping_analysis n solve composite t c els = Ok w ->
  let wels := map (shift_el (p_cx c) (p_cy c)) els in
  let K := fst (assemble_torsion n wels) in
  let ft := snd (assemble_torsion n wels) in
  let nu := if composite then nu_eff t else 0 in
  let ixx := p_ixx_c c in let iyy := p_iyy_c c in let ixy := p_ixy_c c in
  let fp := fst (assemble_shear_load ixx iyy ixy nu wels) in
  let fh := snd (assemble_shear_load ixx iyy ixy nu wels) in
  let wi := sc_warping_integrals ixx iyy ixy (w_omega w) wels in
  let ea := if composite then t_ea t else t_area t in
  let kap := shear_deformation ixx iyy ixy nu (w_psi w) (w_phi w) wels in
  let co := cos (p_phi c * PI / 180) in let si := sin (p_phi c * PI / 180) in
  let m := mono_integrals (p_phi c) wels in
  (solve K ft = Ok (w_omega w) /\ solve K fp = Ok (w_psi w) /\ solve K fh = Ok (w_phi w)) /\
  w_j w = ixx + iyy - dotn n (w_omega w) ft /\
  w_delta_s w = 2 * (1 + nu) * (ixx * iyy - ixy ^ 2) /\
  w_x_se w = 1 / w_delta_s w * (nu / 2 * wi_scx wi - dotn n ft (w_phi w)) /\
  w_y_se w = 1 / w_delta_s w * (nu / 2 * wi_scy wi + dotn n ft (w_psi w)) /\
  (w_x11_se w, w_y22_se w) = principal_coordinate (p_phi c) (w_x_se w) (w_y_se w) /\
  w_x_st w = (ixy * wi_ix wi - iyy * wi_iy wi) / (ixx * iyy - ixy ^ 2) /\
  w_y_st w = (ixx * wi_ix wi - ixy * wi_iy wi) / (ixx * iyy - ixy ^ 2) /\
  w_gamma w = wi_i wi - wi_q wi ^ 2 / ea - w_y_se w * wi_ix wi + w_x_se w * wi_iy wi /\
  (w_a_sx w = w_delta_s w ^ 2 / fst (fst kap) /\ w_a_sy w = w_delta_s w ^ 2 / snd (fst kap) /\
   w_a_sxy w = w_delta_s w ^ 2 / snd kap) /\
  (let a := t_area t in
   let axx := fst (fst kap) * a / w_delta_s w ^ 2 in
   let ayy := snd (fst kap) * a / w_delta_s w ^ 2 in
   let axy := snd kap * a / w_delta_s w ^ 2 in
   w_a_s11 w = a / ((co * axx + si * axy) * co + (co * axy + si * ayy) * si) /\
   w_a_s22 w = a / ((- si * axx + co * axy) * - si + (- si * axy + co * ayy) * co)) /\
  (w_beta_x_plus w = - mi_x m / ixx + 2 * w_y_se w /\ w_beta_x_minus w = mi_x m / ixx - 2 * w_y_se w /\
   w_beta_y_plus w = - mi_y m / iyy + 2 * w_x_se w /\ w_beta_y_minus w = mi_y m / iyy - 2 * w_x_se w /\
   w_beta_11_plus w = - mi_11 m / p_i11_c c + 2 * w_y22_se w /\ w_beta_11_minus w = mi_11 m / p_i11_c c - 2 * w_y22_se w /\
   w_beta_22_plus w = - mi_22 m / p_i22_c c + 2 * w_x11_se w /\ w_beta_22_minus w = mi_22 m / p_i22_c c - 2 * w_x11_se w).
Proof.
  intros H wels K ft nu ixx iyy ixy fp fh wi ea kap co si m. unfold warping_analysis in H. fold wels in H.
  unfold K, ft. destruct (assemble_torsion n wels) as [k f] eqn:Ea. cbn [fst snd] in *.
  destruct (solve k f) as [om|e] eqn:Eo; [|discriminate]. cbn [bind] in H. fold nu in H. fold ixx iyy ixy in H.
  unfold fp, fh. destruct (assemble_shear_load ixx iyy ixy nu wels) as [f1 f2] eqn:El. cbn [fst snd] in *.
  destruct (solve k f1) as [ps|e] eqn:Ep; [|discriminate]. cbn [bind] in H.
  destruct (solve k f2) as [ph|e] eqn:Eh; [|discriminate]. cbn [bind] in H.
  cbv zeta in H.
  match type of H with context [principal_coordinate ?a ?b ?d] => destruct (principal_coordinate a b d) as [x11 y22] eqn:Ec end.
  destruct (shear_deformation ixx iyy ixy nu ps ph wels) as [[kx ky] kxy] eqn:Ek.
  injection H as <-. unfold wi, kap.
  cbn [w_omega w_psi w_phi w_j w_delta_s w_x_se w_y_se w_x11_se w_y22_se w_x_st w_y_st w_gamma w_a_sx w_a_sy w_a_sxy w_a_s11 w_a_s22
    w_beta_x_plus w_beta_x_minus w_beta_y_plus w_beta_y_minus w_beta_11_plus w_beta_11_minus w_beta_22_plus w_beta_22_minus].
  rewrite Ek. cbn [fst snd]. fold ea co si m. 
  repeat match goal with |- _ /\ _ => split end;
  match goal with |- solve _ _ = _ => assumption | |- (_, _) = _ => symmetry; exact Ec | |- _ => reflexivity end.
Qed.

Section Warping.
Context (n : nat) (X Y : nat -> R) (els : list tri6) (solve : lg_solver) (composite : bool) (w : warping).
Context (Hm : mesh_on n X Y els) (Hn : els <> []) (Hp : pos_moduli els).
Context (Hs : exact_solver n solve).
Let t := section_totals els.
Let c := centroidal_of t.
Let wels := map (shift_el (p_cx c) (p_cy c)) els.
Context (Hw : warping_analysis n solve composite t c els = Ok w).
Let nu := if composite then nu_eff t else 0.
Let X' i := X i - p_cx c.
Let Y' i := Y i - p_cy c.
Let K := fst (assemble_torsion n wels).
Let ft := snd (assemble_torsion n wels).
Let ixx := p_ixx_c c.
Let iyy := p_iyy_c c.
Let ixy := p_ixy_c c.

Lemma Hmw : mesh_on n X' Y' wels.
Proof. apply shift_mesh_on, Hm. Qed.
Lemma Hvm : valid_mesh els. Proof. apply (on_valid n X Y els Hm). Qed.
Lemma Hpw : forall el, In el wels -> 0 < m_E (el_mat el).
Proof. intros el Hel. apply in_map_iff in Hel. destruct Hel as [e [<- He]]. apply (Hp e He). Qed.
Lemma Hnw : wels <> [].
Proof. unfold wels. destruct els; [contradiction|]. discriminate. Qed.
Lemma Hea : 0 < t_ea t. Proof. apply ea_pos; auto using Hvm. Qed.
Lemma Hdet : 0 < ixx /\ 0 < iyy /\ 0 < ixx * iyy - ixy ^ 2 /\ 0 < p_i11_c c /\ 0 < p_i22_c c.
Proof. apply det_pos; auto using Hvm. Qed.

(** integrals of quadratic functions of position about the centroid *)
Lemma MQ_quad k0 k1 k2 k3 k4 k5 :
  MQ wels (fun el g => quad k0 k1 k2 k3 k4 k5 (px el g) (py el g)) = k0 * t_ea t + k3 * iyy + k4 * ixy + k5 * ixx.
Proof.
  rewrite (MQ_pos wels (quad k0 k1 k2 k3 k4 k5)). unfold wels. rewrite shift_mesh_q.
  apply mesh_q_centred. pose proof Hea. fold t. lra.
Qed.
Lemma MQ_quad_ext (F : field) k0 k1 k2 k3 k4 k5 : (forall el g, In el wels -> In g gps4 -> F el g = quad k0 k1 k2 k3 k4 k5 (px el g) (py el g)) ->
  MQ wels F = k0 * t_ea t + k3 * iyy + k4 * ixy + k5 * ixx.
Proof. intros H. rewrite <- MQ_quad with (k1 := k1) (k2 := k2). apply MQ_ext. exact H. Qed.

Lemma MQ_one : MQ wels (fun _ _ => 1) = t_ea t.
Proof. rewrite (MQ_quad_ext _ 1 0 0 0 0 0); [ring|]. intros. unfold quad. ring. Qed.

Lemma K_lam f u lam : solves n K f u lam -> dotn n (fun _ => 1) f = 0 -> lam = 0 /\ (forall v, B wels u v = dotn n v f) /\ Mn wels u = 0.
Proof.
  intros H Hf. destruct (weak n X' Y' wels Hmw f u lam H) as [H1 H2].
  pose proof (H1 (fun _ => 1)) as E. rewrite (B_const n X' Y' wels Hmw), (Mn_const n X' Y' wels Hmw), MQ_one, Hf in E.
  pose proof Hea. assert (lam = 0) by (apply (Rmult_eq_reg_r (t_ea t)); lra). subst lam.
  split; [reflexivity|]. split; [|exact H2]. intros v. rewrite <- (H1 v). ring.
Qed.

Lemma ft_sum : dotn n (fun _ => 1) ft = 0.
Proof. unfold ft. rewrite (L_form n X' Y' wels Hmw). apply (L_const n X' Y' wels Hmw). Qed.

Lemma omega_weak : forall v, B wels (w_omega w) v = L wels v.
Proof.
  destruct (warping_spec _ _ _ _ _ _ _ Hw) as [[Ho _] _]. destruct (Hs _ _ _ Ho) as [lam Hl].
  destruct (K_lam _ _ _ Hl ft_sum) as [_ [H _]]. intros v. rewrite H. apply (L_form n X' Y' wels Hmw).
Qed.
Lemma omega_mean : Mn wels (w_omega w) = 0.
Proof.
  destruct (warping_spec _ _ _ _ _ _ _ Hw) as [[Ho _] _]. destruct (Hs _ _ _ Ho) as [lam Hl].
  destruct (K_lam _ _ _ Hl ft_sum) as [_ [_ H]]. exact H.
Qed.

Lemma j_energy : w_j w = energy wels (w_omega w).
Proof.
  destruct (warping_spec _ _ _ _ _ _ _ Hw) as [_ [Hj _]]. rewrite Hj. rewrite energy_eq, omega_weak.
  fold wels. rewrite (L_form n X' Y' wels Hmw). rewrite (MQ_quad_ext _ 0 0 0 1 0 1).
  - unfold ixx, iyy. ring.
  - intros. unfold quad. ring.
Qed.
Lemma j_pos : 0 < w_j w.
Proof. rewrite j_energy. apply (energy_pos n X' Y' wels Hmw Hpw _ Hnw). Qed.
Lemma j_le : w_j w <= ixx + iyy.
Proof.
  destruct (warping_spec _ _ _ _ _ _ _ Hw) as [_ [Hj _]]. rewrite Hj. fold wels.
  rewrite (L_form n X' Y' wels Hmw), <- omega_weak. pose proof (B_nonneg n X' Y' wels Hmw Hpw (w_omega w)).
  unfold ixx, iyy. lra.
Qed.
Lemma B_lin_r a b u v x : B wels x (fun i => a * u i + b * v i) = a * B wels x u + b * B wels x v.
Proof. rewrite B_sym, B_lin, (B_sym wels u x), (B_sym wels v x). reflexivity. Qed.
Lemma j_min v : w_j w <= energy wels v.
Proof.
  rewrite j_energy, !energy_eq, <- !omega_weak.
  pose proof (B_nonneg n X' Y' wels Hmw Hpw (fun i => 1 * w_omega w i + (-1) * v i)) as N.
  rewrite B_lin, !B_lin_r in N.
  rewrite (B_sym wels v (w_omega w)) in N. lra.
Qed.

(** ** Shear functions *)

Let fp := fst (assemble_shear_load ixx iyy ixy nu wels).
Let fh := snd (assemble_shear_load ixx iyy ixy nu wels).
Let sp := spar ixx iyy ixy.

Lemma fp_form v : dotn n v fp = MQ wels (fun el g => nu / 2 * (Gx v el g * sp_d1 (sp el g) + Gy v el g * sp_d2 (sp el g))
     + 2 * (1 + nu) * (ixx * px el g - ixy * py el g) * Vl v el g).
Proof.
  pose proof (shear_load_form n wels ixx iyy ixy nu v (on_wf n X' Y' wels Hmw)) as H. unfold fp.
  destruct (assemble_shear_load ixx iyy ixy nu wels) as [f h]. apply H.
Qed.
Lemma fh_form v : dotn n v fh = MQ wels (fun el g => nu / 2 * (Gx v el g * sp_h1 (sp el g) + Gy v el g * sp_h2 (sp el g))
     + 2 * (1 + nu) * (iyy * py el g - ixy * px el g) * Vl v el g).
Proof.
  pose proof (shear_load_form n wels ixx iyy ixy nu v (on_wf n X' Y' wels Hmw)) as H. unfold fh.
  destruct (assemble_shear_load ixx iyy ixy nu wels) as [f h]. apply H.
Qed.
Lemma fp_sum : dotn n (fun _ => 1) fp = 0.
Proof.
  rewrite fp_form. rewrite (MQ_quad_ext _ 0 (2 * (1 + nu) * ixx) (- (2 * (1 + nu) * ixy)) 0 0 0); [ring|].
  intros el g Hel Hg. destruct (const_fields n X' Y' wels Hmw 1 el g Hel (sum1_4 g Hg)) as [-> [-> ->]]. unfold quad. ring.
Qed.
Lemma fh_sum : dotn n (fun _ => 1) fh = 0.
Proof.
  rewrite fh_form. rewrite (MQ_quad_ext _ 0 (- (2 * (1 + nu) * ixy)) (2 * (1 + nu) * iyy) 0 0 0); [ring|].
  intros el g Hel Hg. destruct (const_fields n X' Y' wels Hmw 1 el g Hel (sum1_4 g Hg)) as [-> [-> ->]]. unfold quad. ring.
Qed.

(** the shear stress fields *)
Definition p1 : field := fun el g => Gx (w_psi w) el g - nu / 2 * sp_d1 (sp el g).
Definition p2 : field := fun el g => Gy (w_psi w) el g - nu / 2 * sp_d2 (sp el g).
Definition h1 : field := fun el g => Gx (w_phi w) el g - nu / 2 * sp_h1 (sp el g).
Definition h2 : field := fun el g => Gy (w_phi w) el g - nu / 2 * sp_h2 (sp el g).

Lemma psi_weak v : MQ wels (fun el g => p1 el g * Gx v el g + p2 el g * Gy v el g) =
  MQ wels (fun el g => 2 * (1 + nu) * (ixx * px el g - ixy * py el g) * Vl v el g).
Proof.
  destruct (warping_spec _ _ _ _ _ _ _ Hw) as [[_ [Ho _]] _]. destruct (Hs _ _ _ Ho) as [lam Hl].
  destruct (K_lam _ _ _ Hl fp_sum) as [_ [H _]]. specialize (H v).
  fold wels nu in H. fold ixx iyy ixy in H. fold fp in H. rewrite fp_form in H. unfold B in H.
  transitivity (1 * MQ wels (fun el g => Gx (w_psi w) el g * Gx v el g + Gy (w_psi w) el g * Gy v el g)
    + (- (nu / 2)) * MQ wels (fun el g => Gx v el g * sp_d1 (sp el g) + Gy v el g * sp_d2 (sp el g))).
  - rewrite <- MQ_lin2. apply MQ_ext. intros. unfold p1, p2. ring.
  - rewrite H. rewrite MQ_plus. rewrite MQ_scal. ring.
Qed.
Lemma phi_weak v : MQ wels (fun el g => h1 el g * Gx v el g + h2 el g * Gy v el g) =
  MQ wels (fun el g => 2 * (1 + nu) * (iyy * py el g - ixy * px el g) * Vl v el g).
Proof.
  destruct (warping_spec _ _ _ _ _ _ _ Hw) as [[_ [_ Ho]] _]. destruct (Hs _ _ _ Ho) as [lam Hl].
  destruct (K_lam _ _ _ Hl fh_sum) as [_ [H _]]. specialize (H v).
  fold wels nu in H. fold ixx iyy ixy in H. fold fh in H. rewrite fh_form in H. unfold B in H.
  transitivity (1 * MQ wels (fun el g => Gx (w_phi w) el g * Gx v el g + Gy (w_phi w) el g * Gy v el g)
    + (- (nu / 2)) * MQ wels (fun el g => Gx v el g * sp_h1 (sp el g) + Gy v el g * sp_h2 (sp el g))).
  - rewrite <- MQ_lin2. apply MQ_ext. intros. unfold h1, h2. ring.
  - rewrite H. rewrite MQ_plus. rewrite MQ_scal. ring.
Qed.

Lemma delta_eq : w_delta_s w = 2 * (1 + nu) * (ixx * iyy - ixy ^ 2).
Proof. destruct (warping_spec _ _ _ _ _ _ _ Hw) as [_ [_ [H _]]]. exact H. Qed.

(** resultants of the shear fields *)
Lemma p_res : MQ wels p1 = w_delta_s w /\ MQ wels p2 = 0.
Proof.
  rewrite delta_eq. split.
  - transitivity (MQ wels (fun el g => p1 el g * Gx X' el g + p2 el g * Gy X' el g)).
    { apply MQ_ext. intros el g Hel Hg. destruct (mem_fields n X' Y' wels Hmw el g Hel (sum1_4 g Hg)) as [[-> [-> _]] _]. ring. }
    rewrite psi_weak. rewrite (MQ_quad_ext _ 0 0 0 (2 * (1 + nu) * ixx) (- (2 * (1 + nu) * ixy)) 0); [ring|].
    intros el g Hel Hg. destruct (mem_fields n X' Y' wels Hmw el g Hel (sum1_4 g Hg)) as [[_ [_ ->]] _]. unfold quad. ring.
  - transitivity (MQ wels (fun el g => p1 el g * Gx Y' el g + p2 el g * Gy Y' el g)).
    { apply MQ_ext. intros el g Hel Hg. destruct (mem_fields n X' Y' wels Hmw el g Hel (sum1_4 g Hg)) as [_ [-> [-> _]]]. ring. }
    rewrite psi_weak. rewrite (MQ_quad_ext _ 0 0 0 0 (2 * (1 + nu) * ixx) (- (2 * (1 + nu) * ixy))); [ring|].
    intros el g Hel Hg. destruct (mem_fields n X' Y' wels Hmw el g Hel (sum1_4 g Hg)) as [_ [_ [_ ->]]]. unfold quad. ring.
Qed.
Lemma h_res : MQ wels h1 = 0 /\ MQ wels h2 = w_delta_s w.
Proof.
  rewrite delta_eq. split.
  - transitivity (MQ wels (fun el g => h1 el g * Gx X' el g + h2 el g * Gy X' el g)).
    { apply MQ_ext. intros el g Hel Hg. destruct (mem_fields n X' Y' wels Hmw el g Hel (sum1_4 g Hg)) as [[-> [-> _]] _]. ring. }
    rewrite phi_weak. rewrite (MQ_quad_ext _ 0 0 0 (- (2 * (1 + nu) * ixy)) (2 * (1 + nu) * iyy) 0); [ring|].
    intros el g Hel Hg. destruct (mem_fields n X' Y' wels Hmw el g Hel (sum1_4 g Hg)) as [[_ [_ ->]] _]. unfold quad. ring.
  - transitivity (MQ wels (fun el g => h1 el g * Gx Y' el g + h2 el g * Gy Y' el g)).
    { apply MQ_ext. intros el g Hel Hg. destruct (mem_fields n X' Y' wels Hmw el g Hel (sum1_4 g Hg)) as [_ [-> [-> _]]]. ring. }
    rewrite phi_weak. rewrite (MQ_quad_ext _ 0 0 0 0 (- (2 * (1 + nu) * ixy)) (2 * (1 + nu) * iyy)); [ring|].
    intros el g Hel Hg. destruct (mem_fields n X' Y' wels Hmw el g Hel (sum1_4 g Hg)) as [_ [_ [_ ->]]]. unfold quad. ring.
Qed.

(** torsion field: orthogonal to every gradient, in particular no resultant *)
Lemma tau_res : MQ wels (fun el g => Gx (w_omega w) el g - py el g) = 0 /\
  MQ wels (fun el g => Gy (w_omega w) el g + px el g) = 0.
Proof.
  pose proof (omega_weak X') as HX. pose proof (omega_weak Y') as HY. unfold B, L in HX, HY. split.
  - transitivity (1 * MQ wels (fun el g => Gx (w_omega w) el g * Gx X' el g + Gy (w_omega w) el g * Gy X' el g)
      + (-1) * MQ wels (fun el g => Gx X' el g * py el g - Gy X' el g * px el g)); [|rewrite HX; ring].
    rewrite <- MQ_lin2. apply MQ_ext. intros el g Hel Hg.
    destruct (mem_fields n X' Y' wels Hmw el g Hel (sum1_4 g Hg)) as [[-> [-> _]] _]. ring.
  - transitivity (1 * MQ wels (fun el g => Gx (w_omega w) el g * Gx Y' el g + Gy (w_omega w) el g * Gy Y' el g)
      + (-1) * MQ wels (fun el g => Gx Y' el g * py el g - Gy Y' el g * px el g)); [|rewrite HY; ring].
    rewrite <- MQ_lin2. apply MQ_ext. intros el g Hel Hg.
    destruct (mem_fields n X' Y' wels Hmw el g Hel (sum1_4 g Hg)) as [_ [-> [-> _]]]. ring.
Qed.
Lemma tau_moment : MQ wels (fun el g => px el g * (Gy (w_omega w) el g + px el g) - py el g * (Gx (w_omega w) el g - py el g)) = w_j w.
Proof.
  rewrite j_energy, energy_eq, omega_weak.
  transitivity (1 * MQ wels (fun el g => px el g * px el g + py el g * py el g) + (-1) * L wels (w_omega w)); [|ring].
  unfold L. rewrite <- MQ_lin2. apply MQ_ext. intros. ring.
Qed.

(** moments of the shear fields: the shear centre *)
Lemma wi_eq : sc_warping_integrals ixx iyy ixy (w_omega w) wels =
  mkWarpInt
    (MQ wels (fun el g => (iyy * px el g + ixy * py el g) * (px el g ^ 2 + py el g ^ 2)))
    (MQ wels (fun el g => (ixx * py el g + ixy * px el g) * (px el g ^ 2 + py el g ^ 2)))
    (MQ wels (Vl (w_omega w))) (MQ wels (fun el g => Vl (w_omega w) el g ^ 2))
    (MQ wels (fun el g => px el g * Vl (w_omega w) el g)) (MQ wels (fun el g => py el g * Vl (w_omega w) el g)).
Proof. apply sc_warping_form. Qed.

Lemma dotn_comm u v : dotn n u v = dotn n v u.
Proof. apply sumn_ext. intros. ring. Qed.

Context (Hnu : 1 + nu <> 0).
Lemma delta_ne : w_delta_s w <> 0.
Proof. rewrite delta_eq. destruct Hdet as [_ [_ [H _]]]. apply Rmult_integral_contrapositive_currified; [|lra]. lra. Qed.

Lemma p_moment : MQ wels (fun el g => px el g * p2 el g - py el g * p1 el g) = - (w_delta_s w * w_y_se w).
Proof.
  destruct (warping_spec _ _ _ _ _ _ _ Hw) as [_ [_ [_ [_ [Hy _]]]]].
  fold wels nu in Hy. fold ixx iyy ixy in Hy. rewrite wi_eq in Hy. cbn [wi_scy] in Hy.
  rewrite dotn_comm in Hy. rewrite (L_form n X' Y' wels Hmw) in Hy.
  transitivity ((-1) * L wels (w_psi w) + (- (nu / 2)) * MQ wels (fun el g => (ixx * py el g + ixy * px el g) * (px el g ^ 2 + py el g ^ 2))).
  - unfold L. rewrite <- MQ_lin2. apply MQ_ext. intros. unfold p1, p2, sp, spar, shear_parameter. cbn [sp_d1 sp_d2]. field.
  - rewrite Hy. pose proof delta_ne. field. assumption.
Qed.
Lemma h_moment : MQ wels (fun el g => px el g * h2 el g - py el g * h1 el g) = w_delta_s w * w_x_se w.
Proof.
  destruct (warping_spec _ _ _ _ _ _ _ Hw) as [_ [_ [_ [Hx _]]]].
  fold wels nu in Hx. fold ixx iyy ixy in Hx. rewrite wi_eq in Hx. cbn [wi_scx] in Hx.
  rewrite dotn_comm in Hx. rewrite (L_form n X' Y' wels Hmw) in Hx.
  transitivity ((-1) * L wels (w_phi w) + (nu / 2) * MQ wels (fun el g => (iyy * px el g + ixy * py el g) * (px el g ^ 2 + py el g ^ 2))).
  - unfold L. rewrite <- MQ_lin2. apply MQ_ext. intros. unfold h1, h2, sp, spar, shear_parameter. cbn [sp_h1 sp_h2]. field.
  - rewrite Hx. pose proof delta_ne. field. assumption.
Qed.

(** ** Zero effective Poisson's ratio *)
Section NuZero.
Context (H0 : nu = 0).

Lemma trefftz : w_x_se w = w_x_st w /\ w_y_se w = w_y_st w.
Proof.
  destruct (warping_spec _ _ _ _ _ _ _ Hw) as [_ [_ [_ [Hx [Hy [_ [Hxt [Hyt _]]]]]]]].
  fold wels nu in Hx, Hy, Hxt, Hyt. fold ixx iyy ixy in Hx, Hy, Hxt, Hyt. rewrite wi_eq in Hx, Hy, Hxt, Hyt.
  cbn [wi_scx wi_scy wi_ix wi_iy] in *.
  rewrite dotn_comm, (L_form n X' Y' wels Hmw), <- omega_weak, B_sym in Hx, Hy.
  pose proof (psi_weak (w_omega w)) as HP. pose proof (phi_weak (w_omega w)) as HH.
  assert (EP : B wels (w_psi w) (w_omega w) = 2 * (ixx * MQ wels (fun el g => px el g * Vl (w_omega w) el g) - ixy * MQ wels (fun el g => py el g * Vl (w_omega w) el g))).
  { transitivity (MQ wels (fun el g => p1 el g * Gx (w_omega w) el g + p2 el g * Gy (w_omega w) el g)).
    - unfold B. apply MQ_ext. intros. unfold p1, p2. rewrite H0. field.
    - rewrite HP. transitivity (2 * ixx * MQ wels (fun el g => px el g * Vl (w_omega w) el g) + (- 2 * ixy) * MQ wels (fun el g => py el g * Vl (w_omega w) el g)); [|ring].
      rewrite <- MQ_lin2. apply MQ_ext. intros. rewrite H0. ring. }
  assert (EH : B wels (w_phi w) (w_omega w) = 2 * (iyy * MQ wels (fun el g => py el g * Vl (w_omega w) el g) - ixy * MQ wels (fun el g => px el g * Vl (w_omega w) el g))).
  { transitivity (MQ wels (fun el g => h1 el g * Gx (w_omega w) el g + h2 el g * Gy (w_omega w) el g)).
    - unfold B. apply MQ_ext. intros. unfold h1, h2. rewrite H0. field.
    - rewrite HH. transitivity (2 * iyy * MQ wels (fun el g => py el g * Vl (w_omega w) el g) + (- 2 * ixy) * MQ wels (fun el g => px el g * Vl (w_omega w) el g)); [|ring].
      rewrite <- MQ_lin2. apply MQ_ext. intros. rewrite H0. ring. }
  rewrite Hx, Hy, Hxt, Hyt, EP, EH, delta_eq, H0. destruct Hdet as [_ [_ [D _]]].
  split; field; lra.
Qed.

Lemma p_lin3 el : In el wels -> lin3 (p1 el) /\ lin3 (p2 el).
Proof.
  intros Hel. pose proof (on_valid n X' Y' wels Hmw el Hel) as Hv. unfold p1, p2. rewrite H0. split.
  - destruct (lin3_gx el Hv (gather (w_psi w) (el_ids el))) as [a [b [d H]]]. exists a, b, d. intros g Hg. unfold Gx. rewrite (H g Hg). field.
  - destruct (lin3_gy el Hv (gather (w_psi w) (el_ids el))) as [a [b [d H]]]. exists a, b, d. intros g Hg. unfold Gy. rewrite (H g Hg). field.
Qed.
Lemma h_lin3 el : In el wels -> lin3 (h1 el) /\ lin3 (h2 el).
Proof.
  intros Hel. pose proof (on_valid n X' Y' wels Hmw el Hel) as Hv. unfold h1, h2. rewrite H0. split.
  - destruct (lin3_gx el Hv (gather (w_phi w) (el_ids el))) as [a [b [d H]]]. exists a, b, d. intros g Hg. unfold Gx. rewrite (H g Hg). field.
  - destruct (lin3_gy el Hv (gather (w_phi w) (el_ids el))) as [a [b [d H]]]. exists a, b, d. intros g Hg. unfold Gy. rewrite (H g Hg). field.
Qed.

Let kap := shear_deformation ixx iyy ixy nu (w_psi w) (w_phi w) wels.
Lemma kap_eq : kap =
  (MQ wels (fun el g => p1 el g * p1 el g + p2 el g * p2 el g),
   MQ wels (fun el g => h1 el g * h1 el g + h2 el g * h2 el g),
   MQ wels (fun el g => p1 el g * h1 el g + p2 el g * h2 el g)).
Proof. apply shear_deformation_form. Qed.

Lemma delta_pos : 0 < w_delta_s w.
Proof. rewrite delta_eq, H0. destruct Hdet as [_ [_ [H _]]]. lra. Qed.

(** the shear energy in direction (co, si) dominates delta_s^2 / EA *)
Lemma kappa_dir (co si : R) : co ^ 2 + si ^ 2 = 1 ->
  w_delta_s w ^ 2 <= (co ^ 2 * fst (fst kap) + 2 * co * si * snd kap + si ^ 2 * snd (fst kap)) * t_ea t.
Proof.
  intros Hcs.
  pose proof (cauchy n X' Y' wels Hmw Hpw (fun el g => co * p1 el g + si * h1 el g) (fun el g => co * p2 el g + si * h2 el g) co si) as H.
  rewrite MQ_one in H.
  assert (Hl : forall el, In el wels -> lin3 (fun g => co * p1 el g + si * h1 el g) /\ lin3 (fun g => co * p2 el g + si * h2 el g)).
  { intros el Hel. destruct (p_lin3 el Hel), (h_lin3 el Hel). split; apply lin3_plus; apply lin3_scal; assumption. }
  specialize (H Hl Hcs Hea).
  destruct p_res as [P1 P2]. destruct h_res as [Q1 Q2].
  assert (E : MQ wels (fun el g => co * (co * p1 el g + si * h1 el g) + si * (co * p2 el g + si * h2 el g)) = w_delta_s w).
  { transitivity (co ^ 2 * MQ wels p1 + (co * si) * MQ wels h1 + (si * co) * MQ wels p2 + si ^ 2 * MQ wels h2).
    - rewrite <- MQ_lin3, <- MQ_scal, <- MQ_plus. apply MQ_ext. intros. ring.
    - rewrite P1, P2, Q1, Q2. transitivity ((co ^ 2 + si ^ 2) * w_delta_s w); [ring|]. rewrite Hcs. ring. }
  rewrite E in H.
  assert (E2 : MQ wels (fun el g => (co * p1 el g + si * h1 el g) * (co * p1 el g + si * h1 el g) + (co * p2 el g + si * h2 el g) * (co * p2 el g + si * h2 el g))
    = co ^ 2 * fst (fst kap) + 2 * co * si * snd kap + si ^ 2 * snd (fst kap)).
  { rewrite kap_eq. cbn [fst snd]. rewrite <- MQ_lin3. apply MQ_ext. intros. ring. }
  rewrite E2 in H. exact H.
Qed.

Lemma kappa_pos_dir (co si : R) : co ^ 2 + si ^ 2 = 1 ->
  0 < co ^ 2 * fst (fst kap) + 2 * co * si * snd kap + si ^ 2 * snd (fst kap).
Proof.
  intros Hcs. pose proof (kappa_dir co si Hcs) as H. pose proof delta_pos as Hd. pose proof Hea as He.
  assert (0 < w_delta_s w ^ 2) by (apply pow_lt; exact Hd).
  apply (Rmult_lt_reg_r (t_ea t)); [exact He|]. lra.
Qed.

Lemma kappa_xy_cs : snd kap ^ 2 <= fst (fst kap) * snd (fst kap).
Proof.
  pose proof (kappa_pos_dir 1 0 ltac:(ring)) as Kx. 
  set (kx := fst (fst kap)) in *. set (ky := snd (fst kap)) in *. set (kxy := snd kap) in *.
  assert (Kx' : 0 < kx) by lra.
  (* direction (-kxy, kx) normalised *)
  set (r := sqrt (kxy ^ 2 + kx ^ 2)).
  assert (Hr2 : r * r = kxy ^ 2 + kx ^ 2) by (apply sqrt_sqrt; pose proof (pow2_ge_0 kxy); pose proof (pow2_ge_0 kx); lra).
  assert (Hr : 0 < r) by (apply sqrt_lt_R0; pose proof (pow2_ge_0 kxy); pose proof (pow_lt kx 2 Kx'); lra).
  pose proof (kappa_pos_dir (- kxy / r) (kx / r)) as H. fold kx ky kxy in H.
  assert (Hu : (- kxy / r) ^ 2 + (kx / r) ^ 2 = 1).
  { replace ((- kxy / r) ^ 2 + (kx / r) ^ 2) with ((kxy ^ 2 + kx ^ 2) / (r * r)) by (field; lra). rewrite <- Hr2. field. lra. }
  specialize (H Hu).
  replace ((- kxy / r) ^ 2 * kx + 2 * (- kxy / r) * (kx / r) * kxy + (kx / r) ^ 2 * ky)
    with (kx * (kx * ky - kxy ^ 2) / (r * r)) in H by (field; lra).
  apply (Rmult_lt_compat_r (r * r)) in H; [|apply Rmult_lt_0_compat; assumption].
  replace (kx * (kx * ky - kxy ^ 2) / (r * r) * (r * r)) with (kx * (kx * ky - kxy ^ 2)) in H by (field; lra).
  rewrite Rmult_0_l in H. assert (0 < kx * ky - kxy ^ 2); [|lra].
  apply (Rmult_lt_reg_l kx); [exact Kx'|]. lra.
Qed.

Lemma area_bound (k : R) : 0 < k -> w_delta_s w ^ 2 <= k * t_ea t -> 0 < w_delta_s w ^ 2 / k <= t_ea t.
Proof.
  intros Hk H. assert (0 < w_delta_s w ^ 2) by (apply pow_lt, delta_pos). split.
  - apply Rdiv_lt_0_compat; assumption.
  - apply (Rmult_le_reg_r k); [exact Hk|]. replace (w_delta_s w ^ 2 / k * k) with (w_delta_s w ^ 2) by (field; lra). lra.
Qed.

Lemma shear_areas : 0 < w_a_sx w <= t_ea t /\ 0 < w_a_sy w <= t_ea t /\
  0 < w_a_s11 w <= t_ea t /\ 0 < w_a_s22 w <= t_ea t.
Proof.
  destruct (warping_spec _ _ _ _ _ _ _ Hw) as [_ [_ [_ [_ [_ [_ [_ [_ [_ [[Ax [Ay _]] [[A1 A2] _]]]]]]]]]]].
  fold wels nu in Ax, Ay, A1, A2. fold ixx iyy ixy in Ax, Ay, A1, A2. fold kap in Ax, Ay, A1, A2.
  set (co := cos (p_phi c * PI / 180)) in *. set (si := sin (p_phi c * PI / 180)) in *.
  assert (Hcs : co ^ 2 + si ^ 2 = 1).
  { pose proof (sin2_cos2 (p_phi c * PI / 180)) as H. unfold Rsqr in H. fold co si in H. lra. }
  assert (Ha : 0 < t_area t) by (apply area_pos; auto using Hvm).
  pose proof delta_ne as Dn.
  pose proof (kappa_dir 1 0 ltac:(ring)) as B1. pose proof (kappa_pos_dir 1 0 ltac:(ring)) as C1.
  pose proof (kappa_dir 0 1 ltac:(ring)) as B2. pose proof (kappa_pos_dir 0 1 ltac:(ring)) as C2.
  pose proof (kappa_dir co si Hcs) as B3. pose proof (kappa_pos_dir co si Hcs) as C3.
  pose proof (kappa_dir (- si) co ltac:(rewrite <- Hcs; ring)) as B4. pose proof (kappa_pos_dir (- si) co ltac:(rewrite <- Hcs; ring)) as C4.
  set (kx := fst (fst kap)) in *. set (ky := snd (fst kap)) in *. set (kxy := snd kap) in *.
  set (k3 := co ^ 2 * kx + 2 * co * si * kxy + si ^ 2 * ky) in *.
  set (k4 := (- si) ^ 2 * kx + 2 * - si * co * kxy + co ^ 2 * ky) in *.
  assert (E3 : w_a_s11 w = w_delta_s w ^ 2 / k3).
  { rewrite A1. cbv zeta. replace ((co * (kx * t_area t / w_delta_s w ^ 2) + si * (kxy * t_area t / w_delta_s w ^ 2)) * co +
       (co * (kxy * t_area t / w_delta_s w ^ 2) + si * (ky * t_area t / w_delta_s w ^ 2)) * si) with (k3 * t_area t / w_delta_s w ^ 2)
       by (unfold k3; field; exact Dn). field. repeat split; lra. }
  assert (E4 : w_a_s22 w = w_delta_s w ^ 2 / k4).
  { rewrite A2. cbv zeta. replace ((- si * (kx * t_area t / w_delta_s w ^ 2) + co * (kxy * t_area t / w_delta_s w ^ 2)) * - si +
       (- si * (kxy * t_area t / w_delta_s w ^ 2) + co * (ky * t_area t / w_delta_s w ^ 2)) * co) with (k4 * t_area t / w_delta_s w ^ 2)
       by (unfold k4; field; exact Dn). field. repeat split; lra. }
  rewrite Ax, Ay, E3, E4. repeat split; try (apply area_bound; lra).
Qed.

End NuZero.
End Warping.
