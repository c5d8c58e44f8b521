(** Proofs about shear areas: extremal property, refinement, stress fields in equilibrium. *)
From Coquelicot Require Import Coquelicot.
From Coq Require Import Reals List Permutation Bool Arith Lra Lia.
From Verif Require Import Base S_Integral M_Fea S_Fem M_Post M_Section S_Section S_Post S_Warp M_Init S_Init P_Integral P_Fea P_Geom P_Elem P_Section P_Totals P_Post
  P_Warp P_Warp2 P_Warp3 P_Warp4 P_Warp5 S_Plastic P_Plastic P_Fibre S_Refine P_Refine S_Prandtl P_Green P_Prandtl P_Prandtl2 S_Shear.
Import ListNotations.
Local Open Scope R_scope.

(** ** The extremal property *)
Section Extremal.
Context (n : nat) (X Y : nat -> R) (els : list tri6) (solve : lg_solver) (composite : bool) (w : warping).
Hypothesis HA : analysed n X Y els solve composite w.
Hypothesis H0 : nu_used composite els = 0.
Let t := section_totals els.
Let c := centroidal_of t.
Let wels := map (shift_el (p_cx c) (p_cy c)) els.
Let ixx := p_ixx_c c.
Let iyy := p_iyy_c c.
Let ixy := p_ixy_c c.
Let det := ixx * iyy - ixy ^ 2.
Let Hm : mesh_on n X Y els. Proof. apply HA. Qed.
Let Hn : els <> []. Proof. apply HA. Qed.
Let Hp : pos_moduli els. Proof. apply HA. Qed.
Let Hs : exact_solver n solve. Proof. apply HA. Qed.
Let Hw : warping_analysis n solve composite t c els = Ok w. Proof. apply HA. Qed.
Let Hnu : (if composite then nu_eff t else 0) = 0. Proof. exact H0. Qed.

Lemma det_p : 0 < det. Proof. destruct (Hdet n X Y els Hm Hn Hp) as (_ & _ & H & _). exact H. Qed.
Lemma ds_eq : w_delta_s w = 2 * det.
Proof. pose proof (delta_eq n els solve composite w Hw) as D. fold t in D. rewrite Hnu in D. rewrite D. unfold det, ixx, iyy, ixy, c. ring. Qed.
Definition chi (co si : R) (i : nat) : R := co * w_psi w i + si * w_phi w i.
Lemma chi_weak co si v : B wels (chi co si) v = MQ wels (fun el g => 2 * ((co * ixx - si * ixy) * px el g + (si * iyy - co * ixy) * py el g) * Vl v el g).
Proof.
  pose proof (psi_weak n X Y els solve composite w Hm Hn Hp Hs Hw v) as P. pose proof (phi_weak n X Y els solve composite w Hm Hn Hp Hs Hw v) as Q.
  fold t in P, Q. fold c in P, Q. fold wels ixx iyy ixy in P, Q. rewrite Hnu in P, Q.
  unfold chi. rewrite B_lin.
  replace (B wels (w_psi w) v) with (MQ wels (fun el g => p1 els composite w el g * Gx v el g + p2 els composite w el g * Gy v el g)).
  2:{ unfold B. apply MQ_ext. intros. unfold p1, p2. fold t. rewrite Hnu. field. }
  replace (B wels (w_phi w) v) with (MQ wels (fun el g => h1 els composite w el g * Gx v el g + h2 els composite w el g * Gy v el g)).
  2:{ unfold B. apply MQ_ext. intros. unfold h1, h2. fold t. rewrite Hnu. field. }
  rewrite P, Q. rewrite <- MQ_lin2. apply MQ_ext. intros. ring.
Qed.
Lemma work_form co si v : shear_work els co si v = / det * B wels (chi co si) v - B wels v v.
Proof.
  pose proof det_p as D. rewrite chi_weak. unfold B, shear_work.
  transitivity (MQ wels (fun el g => 2 * ((co * ixx - si * ixy) / det * px el g + (si * iyy - co * ixy) / det * py el g) * Vl v el g - (Gx v el g * Gx v el g + Gy v el g * Gy v el g))).
  - symmetry. apply MQ_E_int.
    + apply (on_valid _ _ _ _ Hm).
    + intros el I. pose proof (on_valid _ _ _ _ Hm el I) as V. apply pdeg_minus.
      * apply (pdeg_mul 1 2); [|apply d_Vl, V]. apply (pdeg_ext 1 (fun g => (2 * ((co * ixx - si * ixy) / det)) * px (shift_el (p_cx c) (p_cy c) el) g + (2 * ((si * iyy - co * ixy) / det)) * py (shift_el (p_cx c) (p_cy c) el) g)); [intros; ring|].
        apply pdeg_plus; apply pdeg_scal; [apply d_px, V|apply d_py, V].
      * apply (pdeg_weaken 2); [lia|]. apply pdeg_plus; apply (pdeg_mul 1 1); (apply d_Gx || apply d_Gy); exact V.
    + intros el s u I. pose proof (on_valid _ _ _ _ Hm el I) as V. destruct (G_shift (p_cx c) (p_cy c) v el s u V) as [-> ->].
      destruct (pos_shift (p_cx c) (p_cy c) el s u V) as [-> ->]. rewrite V_shift. unfold bending_rate. fold t. fold c. fold ixx iyy ixy. fold det. ring.
  - transitivity (/ det * MQ wels (fun el g => 2 * ((co * ixx - si * ixy) * px el g + (si * iyy - co * ixy) * py el g) * Vl v el g) + -1 * MQ wels (fun el g => Gx v el g * Gx v el g + Gy v el g * Gy v el g)); [|ring].
    rewrite <- MQ_lin2. apply MQ_ext. intros. field. lra.
Qed.
Lemma work_greatest co si : greatest (shear_work els co si) (B wels (chi co si) (chi co si) / (2 * det) ^ 2).
Proof.
  pose proof det_p as D. split.
  - exists (fun i => / (2 * det) * chi co si i + 0 * 0). rewrite work_form.
    pose proof (B_lin wels (/ (2 * det)) 0 (chi co si) (fun _ => 0)) as L. cbv beta in L. rewrite L. rewrite (B_sym wels (chi co si)), L. rewrite (B_sym wels (fun _ => 0)).
    rewrite (B_sym wels (fun _ => 0)). rewrite (B_sym wels (chi co si) (fun i => _)), L. field. lra.
  - intros v. rewrite work_form. pose proof (B_nonneg n _ _ wels (Hmw n X Y els Hm) (Hpw els Hp) (fun i => / (2 * det) * chi co si i + -1 * v i)) as Q.
    rewrite B_lin, (B_sym wels (chi co si)), (B_sym wels v), !B_lin in Q. rewrite (B_sym wels v) in Q.
    assert (E : B wels (chi co si) (chi co si) / (2 * det) ^ 2 - (/ det * B wels (chi co si) v - B wels v v) = / (2 * det) * (/ (2 * det) * B wels (chi co si) (chi co si) + -1 * B wels (chi co si) v) + -1 * (/ (2 * det) * B wels (chi co si) v + -1 * B wels v v)) by (field; lra).
    lra.
Qed.
Lemma kap_chi co si : let kap := shear_deformation ixx iyy ixy (if composite then nu_eff t else 0) (w_psi w) (w_phi w) wels in
  co ^ 2 * fst (fst kap) + 2 * co * si * snd kap + si ^ 2 * snd (fst kap) = B wels (chi co si) (chi co si).
Proof.
  intros kap. pose proof (kap_eq els composite w) as K. cbv zeta in K. fold t in K. fold c in K. fold wels ixx iyy ixy in K. unfold kap. rewrite K. cbn [fst snd].
  rewrite <- MQ_lin3. unfold B. apply MQ_ext. intros. unfold chi. rewrite Gx_lin, Gy_lin. unfold p1, p2, h1, h2. fold t. rewrite Hnu. field.
Qed.
Lemma areas : let phi := p_phi c * PI / 180 in
  w_a_sx w = (2 * det) ^ 2 / B wels (chi 1 0) (chi 1 0) /\ w_a_sy w = (2 * det) ^ 2 / B wels (chi 0 1) (chi 0 1) /\
  w_a_s11 w = (2 * det) ^ 2 / B wels (chi (cos phi) (sin phi)) (chi (cos phi) (sin phi)) /\
  w_a_s22 w = (2 * det) ^ 2 / B wels (chi (- sin phi) (cos phi)) (chi (- sin phi) (cos phi)).
Proof.
  intros phi. destruct (warping_spec _ _ _ _ _ _ _ Hw) as [_ [_ [_ [_ [_ [_ [_ [_ [_ [[Ax [Ay _]] [[A1 A2] _]]]]]]]]]]].
  fold wels in Ax, Ay, A1, A2. fold ixx iyy ixy in Ax, Ay, A1, A2. fold phi in A1, A2.
  assert (Ha : 0 < t_area t) by (apply area_pos; [exact Hn|apply (on_valid _ _ _ _ Hm)]).
  assert (Hne : 1 + (if composite then nu_eff t else 0) <> 0) by (rewrite Hnu; lra).
  assert (Hcs : cos phi ^ 2 + sin phi ^ 2 = 1) by (pose proof (sin2_cos2 phi) as H; unfold Rsqr in H; lra).
  pose proof (kappa_pos_dir n X Y els solve composite w Hm Hn Hp Hs Hw Hne Hnu (cos phi) (sin phi) Hcs) as P3.
  pose proof (kappa_pos_dir n X Y els solve composite w Hm Hn Hp Hs Hw Hne Hnu (- sin phi) (cos phi) ltac:(rewrite <- Hcs; ring)) as P4.
  fold t in P3, P4. fold c in P3, P4. fold wels ixx iyy ixy in P3, P4.
  rewrite <- !kap_chi, <- ds_eq. set (kap := shear_deformation _ _ _ _ _ _ _) in *.
  assert (Dn : w_delta_s w <> 0) by (rewrite ds_eq; pose proof det_p; lra).
  set (kx := fst (fst kap)) in *. set (ky := snd (fst kap)) in *. set (kxy := snd kap) in *. set (co := cos phi) in *. set (si := sin phi) in *.
  split; [|split; [|split]].
  - rewrite Ax. f_equal. ring.
  - rewrite Ay. f_equal. ring.
  - rewrite A1. cbv zeta. replace ((co * (kx * t_area t / w_delta_s w ^ 2) + si * (kxy * t_area t / w_delta_s w ^ 2)) * co +
       (co * (kxy * t_area t / w_delta_s w ^ 2) + si * (ky * t_area t / w_delta_s w ^ 2)) * si) with ((co ^ 2 * kx + 2 * co * si * kxy + si ^ 2 * ky) * t_area t / w_delta_s w ^ 2)
       by (field; exact Dn). field. repeat split; lra.
  - rewrite A2. cbv zeta. replace ((- si * (kx * t_area t / w_delta_s w ^ 2) + co * (kxy * t_area t / w_delta_s w ^ 2)) * - si +
       (- si * (kxy * t_area t / w_delta_s w ^ 2) + co * (ky * t_area t / w_delta_s w ^ 2)) * co) with (((- si) ^ 2 * kx + 2 * - si * co * kxy + co ^ 2 * ky) * t_area t / w_delta_s w ^ 2)
       by (field; exact Dn). field. repeat split; lra.
Qed.
Lemma chi_pos co si : co ^ 2 + si ^ 2 = 1 -> 0 < B wels (chi co si) (chi co si).
Proof.
  intros H. rewrite <- kap_chi. assert (Hne : 1 + (if composite then nu_eff t else 0) <> 0) by (rewrite Hnu; lra).
  exact (kappa_pos_dir n X Y els solve composite w Hm Hn Hp Hs Hw Hne Hnu co si H).
Qed.
Lemma area_greatest : let phi := p_phi c * PI / 180 in
  greatest (shear_work els 1 0) (/ w_a_sx w) /\ greatest (shear_work els 0 1) (/ w_a_sy w) /\
  greatest (shear_work els (cos phi) (sin phi)) (/ w_a_s11 w) /\ greatest (shear_work els (- sin phi) (cos phi)) (/ w_a_s22 w).
Proof.
  intros phi. destruct areas as (A & B' & C & D). fold phi in C, D. pose proof det_p as Dp.
  assert (Hcs : cos phi ^ 2 + sin phi ^ 2 = 1) by (pose proof (sin2_cos2 phi) as H; unfold Rsqr in H; lra).
  assert (G : forall co si a, co ^ 2 + si ^ 2 = 1 -> a = (2 * det) ^ 2 / B wels (chi co si) (chi co si) -> greatest (shear_work els co si) (/ a)).
  { intros co si a H ->. pose proof (chi_pos co si H) as P. replace (/ ((2 * det) ^ 2 / B wels (chi co si) (chi co si))) with (B wels (chi co si) (chi co si) / (2 * det) ^ 2) by (field; lra). apply work_greatest. }
  split; [apply (G 1 0); [ring|exact A]|]. split; [apply (G 0 1); [ring|exact B']|]. split; [apply (G _ _ _ Hcs C)|apply (G (- sin phi) (cos phi)); [rewrite <- Hcs; ring|exact D]].
Qed.
End Extremal.

(** ** Element by element *)
Definition el_work (els : list tri6) (co si : R) (v : nat -> R) (el : tri6) : R :=
  loc_int el (fun s t => m_E (el_mat el) * (2 * bending_rate els co si (loc_x el s t) (loc_y el s t) * val v el s t - (ddx v el s t ^ 2 + ddy v el s t ^ 2))).
Lemma work_sum els co si v : shear_work els co si v = sumf (el_work els co si v) els.
Proof. reflexivity. Qed.
Definition work_quad (els : list tri6) (co si k0 k1 k2 k3 k4 k5 : R) (x y : R) : R :=
  2 * bending_rate els co si x y * quad k0 k1 k2 k3 k4 k5 x y - ((k1 + 2 * k3 * x + k4 * y) ^ 2 + (k2 + k4 * x + 2 * k5 * y) ^ 2).
Lemma el_work_quad els co si v el k0 k1 k2 k3 k4 k5 : valid_el el -> gather v (el_ids el) = nodal (quad k0 k1 k2 k3 k4 k5) el ->
  el_work els co si v el = el_int el (fun x y => m_E (el_mat el) * work_quad els co si k0 k1 k2 k3 k4 k5 x y).
Proof.
  intros V N. rewrite <- (loc_el_int el _ V). apply loc_int_ext. intros s t. unfold ddx, ddy, val. rewrite N. destruct (quad_field el k0 k1 k2 k3 k4 k5 s t V) as [-> ->].
  rewrite <- (vl_fe el). destruct V as [S O]. assert (O' : orient (corner_a el) (corner_b el) (corner_c el) <> 0) by lra.
  unfold vl, shp, loc. pose proof (interp_value el _ _ _ S O' 0 (1 - s - t) s t ltac:(lra) k0 k1 k2 k3 k4 k5) as E.
  assert (E' : dot6 (sh_n (shape_function (el_x el) (el_y el) (mkGp 0 (1 - s - t) s t))) (nodal (quad k0 k1 k2 k3 k4 k5) el) = quad k0 k1 k2 k3 k4 k5 (loc_x el s t) (loc_y el s t)) by (etransitivity; [exact E|reflexivity]).
  rewrite E'. unfold work_quad. ring.
Qed.

(** ** Refinement *)
Definition cub (a0 a1 a2 k0 k1 k2 k3 k4 k5 q0 q1 q2 q3 q4 q5 : R) (x y : R) : R := (a0 + a1 * x + a2 * y) * quad k0 k1 k2 k3 k4 k5 x y + quad q0 q1 q2 q3 q4 q5 x y.
Definition cub_int (a0 a1 a2 k0 k1 k2 k3 k4 k5 q0 q1 q2 q3 q4 q5 : R) (x y : R) : R :=
  let c0 y := (a0 + a2 * y) * (k0 + k2 * y + k5 * (y * y)) + (q0 + q2 * y + q5 * (y * y)) in
  let c1 y := (a0 + a2 * y) * (k1 + k4 * y) + a1 * (k0 + k2 * y + k5 * (y * y)) + (q1 + q4 * y) in
  let c2 y := (a0 + a2 * y) * k3 + a1 * (k1 + k4 * y) + q3 in
  c0 y * x + c1 y * (x * x) / 2 + c2 y * (x * x * x) / 3 + a1 * k3 * (x * x * x * x) / 4.
Definition cub_int_y (a0 a1 a2 k0 k1 k2 k3 k4 k5 q0 q1 q2 q3 q4 q5 : R) (x y : R) : R :=
  let c0 y := a2 * (k0 + k2 * y + k5 * (y * y)) + (a0 + a2 * y) * (k2 + k5 * (2 * y)) + (q2 + q5 * (2 * y)) in
  let c1 y := a2 * (k1 + k4 * y) + (a0 + a2 * y) * k4 + a1 * (k2 + k5 * (2 * y)) + q4 in
  let c2 y := a2 * k3 + a1 * k4 in
  c0 y * x + c1 y * (x * x) * / 2 + c2 y * (x * x * x) * / 3.
Lemma cub_smooth a0 a1 a2 k0 k1 k2 k3 k4 k5 q0 q1 q2 q3 q4 q5 : smooth (cub_int a0 a1 a2 k0 k1 k2 k3 k4 k5 q0 q1 q2 q3 q4 q5) (cub a0 a1 a2 k0 k1 k2 k3 k4 k5 q0 q1 q2 q3 q4 q5) (cub_int_y a0 a1 a2 k0 k1 k2 k3 k4 k5 q0 q1 q2 q3 q4 q5).
Proof.
  intros x y. split; [|split; [|split]].
  - unfold cub_int, cub, quad. auto_derive; [exact I|field].
  - unfold cub_int, cub_int_y. auto_derive; [exact I|field].
  - apply (continuity_2d_pt_ext (fun x y => (a0 + a1 * x + a2 * y) * (k0 + k1 * x + k2 * y + k3 * (x * x) + k4 * (x * y) + k5 * (y * y)) + (q0 + q1 * x + q2 * y + q3 * (x * x) + q4 * (x * y) + q5 * (y * y)))); [intros; unfold cub, quad; ring|cont2_tac].
  - unfold cub_int_y. cont2_tac.
Qed.
Lemma tiles_cub el ch a0 a1 a2 k0 k1 k2 k3 k4 k5 q0 q1 q2 q3 q4 q5 : valid_el el -> valid_mesh ch -> tiles el ch ->
  sumf (fun c => el_int c (cub a0 a1 a2 k0 k1 k2 k3 k4 k5 q0 q1 q2 q3 q4 q5)) ch = el_int el (cub a0 a1 a2 k0 k1 k2 k3 k4 k5 q0 q1 q2 q3 q4 q5).
Proof.
  intros V Vc [B _]. pose proof (cub_smooth a0 a1 a2 k0 k1 k2 k3 k4 k5 q0 q1 q2 q3 q4 q5) as S.
  assert (E : forall c, el_int c (cub a0 a1 a2 k0 k1 k2 k3 k4 k5 q0 q1 q2 q3 q4 q5) = el_int c (fun x y => cub a0 a1 a2 k0 k1 k2 k3 k4 k5 q0 q1 q2 q3 q4 q5 x y + 0)) by (intros; apply el_int_ext; intros; ring).
  rewrite E, (green_el el _ _ _ _ _ _ V S (smooth_const 0)). rewrite (sumf_ext _ _ _ (fun c _ => E c)).
  pose proof (mesh_green (fun _ => 1) ch _ _ _ _ _ _ _ Vc B S (smooth_const 0)) as G. unfold mesh_int, boundary_sum, el_edges in G. rewrite !sumf_cons, sumf_nil in G.
  etransitivity; [|etransitivity; [exact G|ring]]. apply sumf_ext. intros. ring.
Qed.
Lemma work_cub els co si k0 k1 k2 k3 k4 k5 : exists a0 a1 a2 q0 q1 q2 q3 q4 q5, forall x y, work_quad els co si k0 k1 k2 k3 k4 k5 x y = cub a0 a1 a2 k0 k1 k2 k3 k4 k5 q0 q1 q2 q3 q4 q5 x y.
Proof.
  set (c := centroidal_of (section_totals els)). set (det := p_ixx_c c * p_iyy_c c - p_ixy_c c ^ 2).
  set (a := (co * p_ixx_c c - si * p_ixy_c c) / det). set (b := (si * p_iyy_c c - co * p_ixy_c c) / det).
  exists (- 2 * (a * p_cx c + b * p_cy c)), (2 * a), (2 * b), (- (k1 ^ 2 + k2 ^ 2)), (- (4 * k1 * k3 + 2 * k2 * k4)), (- (2 * k1 * k4 + 4 * k2 * k5)), (- (4 * k3 ^ 2 + k4 ^ 2)), (- (4 * k3 * k4 + 4 * k4 * k5)), (- (k4 ^ 2 + 4 * k5 ^ 2)).
  intros x y. unfold work_quad, cub, bending_rate. fold c. fold det. fold a b. unfold quad. ring.
Qed.
Lemma refined_work n X Y els n' X' Y' els' co si u : mesh_on n X Y els -> mesh_on n' X' Y' els' -> conforming X Y els -> refines els els' ->
  section_totals els' = section_totals els /\ exists u', shear_work els' co si u' = shear_work els co si u.
Proof.
  intros Hm Hm' Hc (cuts & Hf & Hp & Ht). assert (T : section_totals els' = section_totals els).
  { apply section_totals_same_boundary; [apply (on_valid _ _ _ _ Hm')|apply (on_valid _ _ _ _ Hm)|]. apply (refined_boundary els els' cuts Hf Hp Ht). }
  split; [exact T|]. exists (fine X' Y' cuts u). rewrite !work_sum. transitivity (sumf (el_work els co si u) (map fst cuts)); [|rewrite Hf; reflexivity]. rewrite <- (sumf_perm _ _ _ Hp), sumf_concat, !sumf_map. apply sumf_ext. intros [el ch] I. cbn [fst snd].
  assert (J : In el els) by (rewrite <- Hf; apply (in_map fst _ _ I)). destruct (Hm el J) as (V & _).
  destruct (el_quad n X Y els Hm el u J) as (k0 & k1 & k2 & k3 & k4 & k5 & N & Q).
  assert (W : forall e v, el_work els' co si v e = el_work els co si v e) by (intros e v; unfold el_work; apply loc_int_ext; intros; unfold bending_rate; rewrite T; reflexivity).
  rewrite (el_work_quad els co si u el k0 k1 k2 k3 k4 k5 V N).
  pose proof (Ht el ch I) as Tl. assert (Vc : valid_mesh ch) by (intros c Hc'; apply (Hm' c), (child_in els els' cuts Hf Hp el ch c I Hc')).
  destruct (work_cub els co si k0 k1 k2 k3 k4 k5) as (a0 & a1 & a2 & q0 & q1 & q2 & q3 & q4 & q5 & C).
  assert (M : forall e, el_int e (fun x y => m_E (el_mat el) * work_quad els co si k0 k1 k2 k3 k4 k5 x y) = m_E (el_mat el) * el_int e (cub a0 a1 a2 k0 k1 k2 k3 k4 k5 q0 q1 q2 q3 q4 q5)).
  { intros e. pose proof (smooth_cont _ _ _ (cub_smooth a0 a1 a2 k0 k1 k2 k3 k4 k5 q0 q1 q2 q3 q4 q5)) as (_ & Cc & _).
    rewrite <- (Rplus_0_r (_ * el_int e (cub _ _ _ _ _ _ _ _ _ _ _ _ _ _ _))), <- (Rmult_0_l (el_int e (fun _ _ => 0))), <- (el_int_lin e _ (fun _ _ => 0) _ 0 Cc); [|intros x y; apply continuity_2d_pt_const].
    apply el_int_ext. intros. rewrite C. ring. }
  rewrite M, <- (tiles_cub el ch _ _ _ _ _ _ _ _ _ _ _ _ _ _ _ V Vc Tl), <- sumf_scal. apply sumf_ext. intros c Hc'. destruct Tl as [_ Tl]. destruct (Tl c Hc') as (Mt & _).
  rewrite W, <- M, <- Mt. apply (el_work_quad els co si (fine X' Y' cuts u) c k0 k1 k2 k3 k4 k5 (Vc c Hc')).
  destruct (child_in els els' cuts Hf Hp el ch c I Hc') as [_ J']. destruct (Hm' c J') as (_ & _ & _ & EX & EY). unfold nodal. rewrite EX, EY. unfold gather, zip6. cbn [v0 v1 v2 v3 v4 v5].
  rewrite !(fine_val n X Y els n' X' Y' els' cuts u Hm Hm' Hc Hf Hp Ht el ch c) by (try exact I; try exact Hc'; cbn [ids_list In]; tauto). unfold field_on. rewrite !Q. reflexivity.
Qed.
Lemma greatest_le {A B : Type} (f : A -> R) (g : B -> R) a b : greatest f a -> greatest g b -> (forall x, exists y, g y = f x) -> a <= b.
Proof. intros [[x <-] _] [_ H] K. destruct (K x) as [y <-]. apply H. Qed.
