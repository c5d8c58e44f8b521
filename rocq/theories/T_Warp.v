(** Properties of the warping analysis. *)
From Coq Require Import Reals List Lra Lia Permutation.
From Coquelicot Require Import Coquelicot.
From Verif Require Import Base S_Integral M_Fea S_Fem M_Post M_Section M_Stress S_Section S_Post S_Warp S_Stress
  P_Section P_Totals P_Post P_Warp P_Warp2 P_Warp3 P_Warp4 P_Warp5 P_Warp6 P_Warp7 P_Warp8 P_Warp9 P_Warp10 P_WarpEx T_Fea T_Section.
Import ListNotations.
Local Open Scope R_scope.

(** ** C19: the stiffness matrix *)

Theorem C19_stiffness : forall n X Y els, mesh_on n X Y els -> pos_moduli els ->
  let K := fst (assemble_torsion n els) in
  (forall i j, (i < n)%nat -> (j < n)%nat -> K i j = K j i) /\
  (forall u, sumn n (fun i => u i * mulv n K u i) = E_int (fun el s t => ddx u el s t ^ 2 + ddy u el s t ^ 2) els) /\
  (forall u, 0 <= sumn n (fun i => u i * mulv n K u i)) /\
  (forall k i, (i < n)%nat -> mulv n K (fun _ => k) i = 0) /\
  sumn n (snd (assemble_torsion n els)) = 0.
Proof.
  intros n X Y els Hm Hp K. split; [|split; [|split; [|split]]].
  - intros i j Hi Hj. unfold K. rewrite !(entry_int n X Y els Hm) by assumption. unfold E_int. apply field_int_ext. intros. ring.
  - intros u. unfold K. rewrite (B_form n X Y els Hm), (B_int n X Y els Hm). unfold E_int. apply field_int_ext. intros. ring.
  - apply (energy_nonneg n X Y els Hm Hp).
  - apply (kernel_const n X Y els Hm).
  - apply (load_sum n X Y els Hm).
Qed.

Theorem C19_kernel_is_constants : forall n X Y els u, mesh_on n X Y els -> els <> [] -> pos_moduli els -> connected els ->
  (forall i, (i < n)%nat -> mulv n (fst (assemble_torsion n els)) u i = 0) ->
  exists k, forall el i, In el els -> In i (ids_list (el_ids el)) -> u i = k.
Proof.
  intros n X Y els u Hm Hn Hp Hc Hz. destruct (kernel_only n X Y els Hm Hp u Hc Hn Hz) as [k Hk].
  exists k. intros el i Hel. apply (Hk el Hel).
Qed.

(** ** C20: entries of the bordered system *)

Theorem C20_entries : forall n X Y els, mesh_on n X Y els ->
  let K := fst (assemble_torsion n els) in let f := snd (assemble_torsion n els) in
  let phi := unit_node in
  (forall i j, (i < n)%nat -> (j < n)%nat ->
     K i j = E_int (fun el s t => ddx (phi i) el s t * ddx (phi j) el s t + ddy (phi i) el s t * ddy (phi j) el s t) els) /\
  (forall i, (i < n)%nat ->
     f i = E_int (fun el s t => ddx (phi i) el s t * loc_y el s t - ddy (phi i) el s t * loc_x el s t) els) /\
  (forall i, (i < n)%nat -> K i n = E_int (val (phi i)) els /\ K n i = E_int (val (phi i)) els) /\
  K n n = 0 /\
  sumn n (fun i => K i n) = t_ea (section_totals els).
Proof.
  intros n X Y els Hm K f phi. split; [|split; [|split; [|split]]].
  - apply (entry_int n X Y els Hm).
  - apply (load_int n X Y els Hm).
  - apply (border_int n X Y els Hm).
  - apply (corner_zero n X Y els Hm).
  - apply (border_sum n X Y els Hm).
Qed.

(** ** C21: the multiplier *)

Theorem C21_multiplier : forall n X Y els f u lam, mesh_on n X Y els ->
  solves n (fst (assemble_torsion n els)) f u lam -> lam * t_ea (section_totals els) = sumn n f.
Proof. intros n X Y els f u lam Hm. apply (multiplier n X Y els Hm). Qed.

Theorem C21_vanishes : forall n X Y els ixx iyy ixy nu, mesh_on n X Y els -> els <> [] -> pos_moduli els ->
  let c := centroidal_of (section_totals els) in
  let wels := map (shift_el (p_cx c) (p_cy c)) els in
  let K := fst (assemble_torsion n wels) in
  let fs := assemble_shear_load ixx iyy ixy nu wels in
  forall f, In f [snd (assemble_torsion n wels); fst fs; snd fs] ->
  forall u lam, solves n K f u lam ->
    lam = 0 /\ (forall i, (i < n)%nat -> mulv n K u i = f i) /\ E_int (val u) wels = 0.
Proof.
  intros n X Y els ixx iyy ixy nu Hm Hn Hp c wels K fs f Hf u lam H.
  pose proof (Hmw n X Y els Hm) as Hm'. fold c in Hm'. cbv zeta in Hm'. fold wels in Hm'.
  assert (S : sumn n f = 0).
  { destruct (shear_loads_sum n X Y els ixx iyy ixy nu Hm Hn Hp) as [A B].
    destruct Hf as [<-|[<-|[<-|[]]]]; [apply (load_sum n _ _ wels Hm')|exact A|exact B]. }
  pose proof (multiplier n _ _ wels Hm' f u lam H) as E. rewrite S in E.
  unfold wels in E. rewrite shift_ea in E.
  pose proof (ea_pos els Hn (on_valid n X Y els Hm) Hp).
  assert (lam = 0) by (apply (Rmult_eq_reg_r (t_ea (section_totals els))); lra). subst lam.
  split; [reflexivity|]. split.
  - intros i Hi. destruct H as [H _]. rewrite <- (H i Hi). unfold K. ring.
  - rewrite <- (Mn_int n _ _ wels Hm'). apply (weak n _ _ wels Hm' f u 0 H).
Qed.

(** ** C22: torsion constant *)

Theorem C22_torsion_constant : forall n X Y els solve composite w, analysed n X Y els solve composite w ->
  let c := centroidal_of (section_totals els) in
  0 < w_j w <= p_ixx_c c + p_iyy_c c /\
  w_j w = twist_energy (p_cx c) (p_cy c) els (w_omega w) /\
  (forall v, w_j w <= twist_energy (p_cx c) (p_cy c) els v).
Proof.
  intros n X Y els solve composite w HA c. pose proof HA as [Hm [Hn [Hp [_ [Hs Hw]]]]].
  split; [split; [apply (j_pos n X Y els solve composite w Hm Hn Hp Hs Hw)|apply (j_le n X Y els solve composite w Hm Hn Hp Hs Hw)]|].
  split; [|intros v]; rewrite <- (energy_twist n X Y els solve composite w HA);
    [apply (j_energy n X Y els solve composite w Hm Hn Hp Hs Hw)|apply (j_min n X Y els solve composite w Hm Hn Hp Hs Hw)].
Qed.

(** ** C23 *)

Theorem C23_shear_loads_balanced : forall n X Y els ixx iyy ixy nu, mesh_on n X Y els -> els <> [] -> pos_moduli els ->
  let c := centroidal_of (section_totals els) in
  let fs := assemble_shear_load ixx iyy ixy nu (map (shift_el (p_cx c) (p_cy c)) els) in
  sumn n (fst fs) = 0 /\ sumn n (snd fs) = 0.
Proof. intros n X Y els ixx iyy ixy nu Hm Hn Hp. apply (shear_loads_sum n X Y els ixx iyy ixy nu Hm Hn Hp). Qed.

(** ** C24 *)

Theorem C24_trefftz : forall n X Y els solve composite w, analysed n X Y els solve composite w ->
  nu_used composite els = 0 -> w_x_se w = w_x_st w /\ w_y_se w = w_y_st w.
Proof.
  intros n X Y els solve composite w [Hm [Hn [Hp [_ [Hs Hw]]]]] H0.
  apply (trefftz n X Y els solve composite w Hm Hn Hp Hs Hw); [|exact H0]. unfold nu_used in H0. rewrite H0. lra.
Qed.

(** ** C25 *)

Theorem C25_shear_areas : forall n X Y els solve composite w, analysed n X Y els solve composite w ->
  nu_used composite els = 0 ->
  let ea := t_ea (section_totals els) in
  0 < w_a_sx w <= ea /\ 0 < w_a_sy w <= ea /\ 0 < w_a_s11 w <= ea /\ 0 < w_a_s22 w <= ea.
Proof.
  intros n X Y els solve composite w [Hm [Hn [Hp [_ [Hs Hw]]]]] H0.
  apply (shear_areas n X Y els solve composite w Hm Hn Hp Hs Hw); [|exact H0]. unfold nu_used in H0. rewrite H0. lra.
Qed.

Theorem C25_coupling : forall n X Y els solve composite w, analysed n X Y els solve composite w -> physical_nu els ->
  nu_used composite els = 0 -> w_a_sxy w <> 0 -> w_a_sx w * w_a_sy w <= w_a_sxy w ^ 2.
Proof. exact kxy_bound. Qed.

(** With a non-zero effective Poisson's ratio the four-point rule can make the shear areas negative. *)
Theorem C25_composite_refuted : exists n X Y els solve w,
  analysed n X Y els solve true w /\ physical_nu els /\ connected els /\ all_used n els /\
  nu_used true els = 3 / 10 /\ w_a_sx w < 0 /\ w_a_sy w < 0.
Proof.
  destruct x_analysed as [w HA]. exists 6%nat, xX, xY, [xe], (best_solver 6), w.
  destruct (x_results (best_solver 6) w HA) as [A [B _]].
  split; [exact HA|]. split; [intros el [<-|[]]; cbn [xe el_mat xm m_nu]; lra|].
  split; [exact xconn|]. split; [exact xused|]. split; [exact xnu|]. auto.
Qed.

(** ** C26 *)

Theorem C26_constants_do_not_matter : forall n X Y els solve composite w k, analysed n X Y els solve composite w ->
  exists w', warping_analysis n (shift_solver k solve) composite (section_totals els) (centroidal_of (section_totals els)) els = Ok w' /\
    same_results w w'.
Proof.
  intros n X Y els solve composite w k HA. destruct (shift_result n X Y els solve composite w k HA) as [w' H].
  exists w'. split; [exact H|]. apply (shift_same n X Y els solve composite w k HA w' H).
Qed.

(** With zero Poisson's ratio, gamma would be the integral of a square if omega^2 were integrated exactly:
    [int_sq] is the exact integral, [rule] the value of the four-point rule. *)
Theorem C26_gamma : forall n X Y els solve composite w, analysed n X Y els solve composite w ->
  nu_used composite els = 0 ->
  let c := centroidal_of (section_totals els) in
  let rule := wi_i (sc_warping_integrals (p_ixx_c c) (p_iyy_c c) (p_ixy_c c) (w_omega w) (map (shift_el (p_cx c) (p_cy c)) els)) in
  let int_sq := E_int (fun el s t => val (w_omega w) el s t ^ 2) els in
  w_gamma w + (int_sq - rule) =
    E_int (fun el s t => (val (w_omega w) el s t - w_y_st w * (loc_x el s t - p_cx c) + w_x_st w * (loc_y el s t - p_cy c)) ^ 2) els /\
  0 <= w_gamma w + (int_sq - rule).
Proof.
  intros n X Y els solve composite w HA H0 c rule int_sq.
  assert (E : rule = MQ (map (shift_el (p_cx c) (p_cy c)) els) (om_sq w)).
  { unfold rule. rewrite sc_warping_form. cbn [wi_i]. reflexivity. }
  rewrite E. split; [apply (gamma_form n X Y els solve composite w HA H0)|apply (gamma_exact_nonneg n X Y els solve composite w HA H0)].
Qed.

Theorem C26_composite_refuted : exists n X Y els solve w,
  analysed n X Y els solve true w /\ physical_nu els /\ connected els /\ all_used n els /\ w_gamma w < 0.
Proof.
  destruct x_analysed as [w HA]. exists 6%nat, xX, xY, [xe], (best_solver 6), w.
  destruct (x_results (best_solver 6) w HA) as [_ [_ G]].
  split; [exact HA|]. split; [intros el [<-|[]]; cbn [xe el_mat xm m_nu]; lra|].
  split; [exact xconn|]. split; [exact xused|exact G].
Qed.

(** ** C27 *)

Theorem C27_opposite : forall n solve composite t c els w, warping_analysis n solve composite t c els = Ok w ->
  w_beta_x_minus w = - w_beta_x_plus w /\ w_beta_y_minus w = - w_beta_y_plus w /\
  w_beta_11_minus w = - w_beta_11_plus w /\ w_beta_22_minus w = - w_beta_22_plus w.
Proof.
  intros n solve composite t c els w Hw. pose proof (warping_spec _ _ _ _ _ _ _ Hw) as Sp. cbv zeta in Sp.
  destruct Sp as [_ [_ [_ [_ [_ [_ [_ [_ [_ [_ [_ [-> [-> [-> [-> [-> [-> [-> ->]]]]]]]]]]]]]]]]]]. unfold Rdiv.
  repeat match goal with |- _ /\ _ => split end; ring.
Qed.

Theorem C27_integrals : forall n solve composite els w, valid_mesh els ->
  let c := centroidal_of (section_totals els) in
  warping_analysis n solve composite (section_totals els) c els = Ok w ->
  let pr x y := principal_coordinate (p_phi c) (x - p_cx c) (y - p_cy c) in
  let int f := mesh_int m_E (fun x y => f (x - p_cx c) (y - p_cy c)) els in
  let int_p f := mesh_int m_E (fun x y => f (fst (pr x y)) (snd (pr x y))) els in
  w_beta_x_plus w = - int (fun x y => x ^ 2 * y + y ^ 3) / p_ixx_c c + 2 * w_y_se w /\
  w_beta_y_plus w = - int (fun x y => y ^ 2 * x + x ^ 3) / p_iyy_c c + 2 * w_x_se w /\
  w_beta_11_plus w = - int_p (fun x y => x ^ 2 * y + y ^ 3) / p_i11_c c + 2 * w_y22_se w /\
  w_beta_22_plus w = - int_p (fun x y => y ^ 2 * x + x ^ 3) / p_i22_c c + 2 * w_x11_se w.
Proof.
  intros n solve composite els w Hv c Hw pr int int_p. pose proof (warping_spec _ _ _ _ _ _ _ Hw) as Sp. cbv zeta in Sp.
  rewrite (mono_exact els (p_cx c) (p_cy c) (p_phi c) Hv) in Sp. cbv zeta in Sp. cbn [mi_x mi_y mi_11 mi_22] in Sp.
  destruct Sp as [_ [_ [_ [_ [_ [_ [_ [_ [_ [_ [_ [-> [_ [-> [_ [-> [_ [-> _]]]]]]]]]]]]]]]]]]. 
  repeat match goal with |- _ /\ _ => split end; reflexivity.
Qed.

(** A section whose outline (with materials) is mirror symmetric about the centroidal x-axis. *)
Theorem C27_mirror : forall n solve composite els w, valid_mesh els ->
  let c := centroidal_of (section_totals els) in
  let wels := map (shift_el (p_cx c) (p_cy c)) els in
  warping_analysis n solve composite (section_totals els) c els = Ok w ->
  (same_boundary (mesh_edges (map mirror_x_el wels)) (mesh_edges wels) -> w_beta_x_plus w = 2 * w_y_se w) /\
  (same_boundary (mesh_edges (map mirror_y_el wels)) (mesh_edges wels) -> w_beta_y_plus w = 2 * w_x_se w).
Proof.
  intros n solve composite els w Hv c wels Hw. pose proof (warping_spec _ _ _ _ _ _ _ Hw) as Sp. cbv zeta in Sp.
  destruct Sp as [_ [_ [_ [_ [_ [_ [_ [_ [_ [_ [_ [-> [_ [-> _]]]]]]]]]]]]]].
  assert (Hvw : valid_mesh wels).
  { intros e He. apply in_map_iff in He. destruct He as [el [<- Hel]]. apply shift_valid, Hv, Hel. }
  fold wels. split; intros H.
  - rewrite (mono_mirror_x wels (p_phi c) Hvw H). unfold Rdiv. ring.
  - rewrite (mono_mirror_y wels (p_phi c) Hvw H). unfold Rdiv. ring.
Qed.

(** When the principal axes are the x- and y-axis, the constants for the principal axes are those for x and y. *)
Theorem C27_aligned : forall n solve composite t c els w, warping_analysis n solve composite t c els = Ok w ->
  p_phi c = 0 -> p_i11_c c = p_ixx_c c -> p_i22_c c = p_iyy_c c ->
  w_beta_11_plus w = w_beta_x_plus w /\ w_beta_22_plus w = w_beta_y_plus w.
Proof.
  intros n solve composite t c els w Hw P0 E1 E2. pose proof (warping_spec _ _ _ _ _ _ _ Hw) as Sp. cbv zeta in Sp.
  destruct Sp as [_ [_ [_ [_ [_ [Hp [_ [_ [_ [_ [_ [-> [_ [-> [_ [-> [_ [-> _]]]]]]]]]]]]]]]]]].
  rewrite P0 in *. destruct (mono_phi0 (map (shift_el (p_cx c) (p_cy c)) els)) as [-> ->].
  unfold principal_coordinate in Hp. replace (0 * PI / 180) with 0 in Hp by field. rewrite cos_0, sin_0 in Hp.
  apply (f_equal fst) in Hp as Hp1. apply (f_equal snd) in Hp as Hp2. cbn [fst snd] in Hp1, Hp2. rewrite Hp1, Hp2, E1, E2. split; ring.
Qed.

(** ** C31, C32, C72: resultants of the shear stresses *)

Theorem C31_torsion_resultants : forall n X Y els solve composite w a p om ps ph,
  analysed n X Y els solve composite w ->
  let t := section_totals els in let c := centroidal_of t in
  stress_parameters composite t c (Some w) a = Ok (p, om, ps, ph) ->
  let zx el s u := sg_zx_mzz (field_at el a p om ps ph s u) in
  let zy el s u := sg_zy_mzz (field_at el a p om ps ph s u) in
  field_int zx els = 0 /\ field_int zy els = 0 /\
  field_int (fun el s u => (loc_x el s u - p_cx c) * zy el s u - (loc_y el s u - p_cy c) * zx el s u) els = a_mzz a.
Proof.
  intros n X Y els solve composite w a p om ps ph HA t c HP.
  exact (torsion_resultants n X Y els solve composite w HA a p om ps ph HP).
Qed.

Theorem C32_shear_resultants : forall n X Y els solve composite w a p om ps ph,
  analysed n X Y els solve composite w -> physical_nu els ->
  let t := section_totals els in let c := centroidal_of t in
  stress_parameters composite t c (Some w) a = Ok (p, om, ps, ph) ->
  let g el s u := field_at el a p om ps ph s u in
  field_int (fun el s u => sg_zx_vx (g el s u)) els = a_vx a /\ field_int (fun el s u => sg_zy_vx (g el s u)) els = 0 /\
  field_int (fun el s u => sg_zx_vy (g el s u)) els = 0 /\ field_int (fun el s u => sg_zy_vy (g el s u)) els = a_vy a.
Proof.
  intros n X Y els solve composite w a p om ps ph HA Hph t c HP.
  pose proof HA as [Hm [Hn [Hp _]]].
  pose proof (nu_ok composite els Hn (on_valid n X Y els Hm) Hp Hph) as Hnu.
  destruct (shear_resultants n X Y els solve composite w HA a p om ps ph HP) as [[A1 [A2 _]] [B1 [B2 _]]]; [unfold nu_used in Hnu; apply Rgt_not_eq; exact Hnu|].
  exact (conj A1 (conj A2 (conj B1 B2))).
Qed.

(** The moment of the shear stresses about the centroid is that of the shear forces acting at the reported
    (elasticity) shear centre. *)
Theorem C72_shear_centre : forall n X Y els solve composite w a p om ps ph,
  analysed n X Y els solve composite w -> physical_nu els ->
  let t := section_totals els in let c := centroidal_of t in
  stress_parameters composite t c (Some w) a = Ok (p, om, ps, ph) ->
  let g el s u := field_at el a p om ps ph s u in
  let moment zx zy := field_int (fun el s u => (loc_x el s u - p_cx c) * zy (g el s u) - (loc_y el s u - p_cy c) * zx (g el s u)) els in
  moment sg_zx_vx sg_zy_vx = w_x_se w * 0 - w_y_se w * a_vx a /\
  moment sg_zx_vy sg_zy_vy = w_x_se w * a_vy a - w_y_se w * 0.
Proof.
  intros n X Y els solve composite w a p om ps ph HA Hph t c HP g moment.
  pose proof HA as [Hm [Hn [Hp _]]].
  pose proof (nu_ok composite els Hn (on_valid n X Y els Hm) Hp Hph) as Hnu.
  destruct (shear_resultants n X Y els solve composite w HA a p om ps ph HP) as [[_ [_ A]] [_ [_ B]]]; [unfold nu_used in Hnu; apply Rgt_not_eq; exact Hnu|].
  split.
  - transitivity (- (a_vx a * w_y_se w)); [exact A|ring].
  - transitivity (a_vy a * w_x_se w); [exact B|ring].
Qed.

(** ** C70: scaling all moduli *)

Theorem C70_scale_warping : forall n X Y els solve solve' composite w w' k, 0 < k -> physical_nu els ->
  analysed n X Y els solve composite w -> analysed n X Y (map (scale_E k) els) solve' composite w' ->
  scaled_results k w w' /\ (connected els -> scaled_warping_moments k w w').
Proof.
  intros n X Y els solve solve' composite w w' k Hk Hph HA HA'. pose proof HA as [Hm [Hn [Hp _]]].
  pose proof (nu_ok composite els Hn (on_valid n X Y els Hm) Hp Hph) as Hnu. unfold nu_used in Hnu.
  split; [|intros Hc].
  - apply (scale_results n X Y els solve solve' composite w w' k Hk HA HA'). apply Rgt_not_eq; exact Hnu.
  - apply (scale_moments n X Y els solve solve' composite w w' k Hk HA HA'); [apply Rgt_not_eq; exact Hnu|exact Hc].
Qed.

(** ** C73: every exact solver gives the same results *)

Theorem C73_solver_independent : forall n X Y els solve solve' composite w w', physical_nu els ->
  analysed n X Y els solve composite w -> analysed n X Y els solve' composite w' ->
  scaled_results 1 w w' /\ (connected els -> scaled_warping_moments 1 w w').
Proof.
  intros n X Y els solve solve' composite w w' Hph HA HA'.
  rewrite <- (scale_one els) in HA'. apply (C70_scale_warping n X Y els solve solve' composite w w' 1 Rlt_0_1 Hph HA HA').
Qed.

(** ** C75: the warping problem is well posed exactly for connected meshes *)

Theorem C75_unique_solution : forall n X Y els f, mesh_on n X Y els -> els <> [] -> pos_moduli els ->
  connected els -> all_used n els ->
  let K := fst (assemble_torsion n els) in
  (exists u lam, solves n K f u lam) /\
  (forall u lam u' lam', solves n K f u lam -> solves n K f u' lam' -> lam' = lam /\ forall i, (i < n)%nat -> u' i = u i).
Proof.
  intros n X Y els f Hm Hn Hp Hc Hu K. split.
  - apply (bordered_solvable n X Y els Hm Hp f Hc Hn Hu).
  - intros u lam u' lam'. apply (bordered_unique n X Y els Hm Hp f u u' lam lam' Hc Hn Hu).
Qed.

Theorem C75_analysis_exists : forall n X Y els composite, mesh_on n X Y els -> els <> [] -> pos_moduli els ->
  (composite = false -> unit_moduli els) -> connected els -> all_used n els ->
  exists solve w, analysed n X Y els solve composite w.
Proof.
  intros n X Y els composite Hm Hn Hp Hu Hc Ha. destruct (analysis_exists n X Y els composite Hm Hn Hp Hc Ha) as [w Hw].
  exists (best_solver n), w. repeat match goal with |- _ /\ _ => split | |- analysed _ _ _ _ _ _ _ => unfold analysed end; try assumption. apply best_exact.
Qed.

Theorem C75_disjoint_singular : forall n X Y els els1 els2, mesh_on n X Y els -> pos_moduli els -> falls_apart els els1 els2 ->
  exists u i, (i < n)%nat /\ u i <> 0 /\ solves n (fst (assemble_torsion n els)) (fun _ => 0) u 0.
Proof. intros n X Y els els1 els2 Hm Hp. apply (apart_singular n X Y els Hm Hp). Qed.

(** ** The hypotheses are satisfiable *)

Definition ex_X (i : nat) : R := nth i [0; 4; 4; 0; 2; 4; 2; 2; 0] 0.
Definition ex_Y (i : nat) : R := nth i [0; 0; 2; 2; 0; 1; 1; 2; 1] 0.

Lemma two_nodup : NoDup [0;1;2;4;5;6]%nat /\ NoDup [0;2;3;6;7;8]%nat.
Proof. split; repeat (apply NoDup_cons; [cbn [In]; lia|]); apply NoDup_nil. Qed.

Example ex_mesh_on : mesh_on 9 ex_X ex_Y ex_mesh.
Proof.
  intros el [<-|[<-|[]]]; (split; [apply mk_el_valid; unfold orient; cbn [fst snd]; lra|]); (split; [apply two_nodup|]).
  - split; [intros k; change (In k [0;1;2;4;5;6]%nat -> (k < 9)%nat); cbn [In]; lia|].
    unfold mk_el, side_nodes, gather, ex_X, ex_Y. cbn [el_x el_y el_ids c0 c1 c2 c3 c4 c5 nth fst snd]. split; f_equal; lra.
  - split; [intros k; change (In k [0;2;3;6;7;8]%nat -> (k < 9)%nat); cbn [In]; lia|].
    unfold mk_el, side_nodes, gather, ex_X, ex_Y. cbn [el_x el_y el_ids c0 c1 c2 c3 c4 c5 nth fst snd]. split; f_equal; lra.
Qed.

Example ex_mesh_connected : connected ex_mesh /\ all_used 9 ex_mesh /\ physical_nu ex_mesh.
Proof.
  split; [|split].
  - intros a b Ha Hb. exists []. split; [intros e []|]. exists 0%nat.
    assert (Z : forall e, In e ex_mesh -> In 0%nat (ids_list (el_ids e))) by (intros e [<-|[<-|[]]]; left; reflexivity).
    split; apply Z; assumption.
  - intros i Hi.
    assert (C : In i [0;1;2;4;5;6]%nat \/ In i [0;2;3;6;7;8]%nat) by (cbn [In]; lia).
    destruct C as [C|C]; [exists (mk_el ex_mat (mkConn 0 1 2 4 5 6) (0,0) (4,0) (4,2))|exists (mk_el ex_mat2 (mkConn 0 2 3 6 7 8) (0,0) (4,2) (0,2))];
      (split; [first [left; reflexivity|right; left; reflexivity]|exact C]).
  - intros el [<-|[<-|[]]]; unfold mk_el, ex_mat, ex_mat2; cbn [el_mat m_nu]; lra.
Qed.

(** Two elements with different materials; and a single default-material triangle (composite = false). *)
Example ex_analysed : exists solve w, analysed 9 ex_X ex_Y ex_mesh solve true w /\ nu_used true ex_mesh <> 0.
Proof.
  destruct ex_mesh_valid as [Hn [_ [Hp _]]]. destruct ex_mesh_connected as [Hc [Hu _]].
  destruct (C75_analysis_exists 9 ex_X ex_Y ex_mesh true ex_mesh_on Hn Hp ltac:(discriminate) Hc Hu) as [s [w H]].
  exists s, w. split; [exact H|].
  destruct (C68_effective_moduli_bounds ex_mesh (3/10) (1/3) Hn (on_valid 9 ex_X ex_Y ex_mesh ex_mesh_on)) as [_ [_ B]].
  unfold nu_used. assert (3/10 <= nu_eff (section_totals ex_mesh) <= 1/3); [|lra]. apply B; [exact Hp|lra|].
  intros el [<-|[<-|[]]]; unfold mk_el, ex_mat, ex_mat2; cbn [el_mat m_nu]; lra.
Qed.

Example ex_analysed_default : exists solve w, analysed 6 xX xY [mk_el (mkMat 1 0 1 1) (mkConn 0 1 2 3 4 5) xa xb xc] solve false w /\
  nu_used false [mk_el (mkMat 1 0 1 1) (mkConn 0 1 2 3 4 5) xa xb xc] = 0.
Proof.
  set (e := mk_el (mkMat 1 0 1 1) (mkConn 0 1 2 3 4 5) xa xb xc).
  destruct (C75_analysis_exists 6 xX xY [e] false) as [s [w H]].
  - intros el [<-|[]]. exact (xmesh xe (or_introl eq_refl)).
  - discriminate.
  - intros el [<-|[]]. cbn [e mk_el el_mat m_E]. lra.
  - intros _ el [<-|[]]. reflexivity.
  - intros a b [<-|[]] [<-|[]]. exists []. split; [intros x []|]. exists 0%nat. split; left; reflexivity.
  - intros i Hi. exists e. split; [left; reflexivity|]. change (In i [0;1;2;3;4;5]%nat). cbn [In]. lia.
  - exists s, w. split; [exact H|reflexivity].
Qed.

(** Two triangles without a common node. *)
Example ex_apart : exists n X Y els els1 els2, mesh_on n X Y els /\ pos_moduli els /\ falls_apart els els1 els2.
Proof.
  set (e1 := mk_el ex_mat (mkConn 0 1 2 3 4 5) (0,0) (2,0) (0,2)). set (e2 := mk_el ex_mat (mkConn 6 7 8 9 10 11) (10,0) (12,0) (10,2)).
  exists 12%nat, (fun i => nth i [0;2;0;1;1;0;10;12;10;11;11;10] 0), (fun i => nth i [0;0;2;0;1;1;0;0;2;0;1;1] 0), [e1; e2], [e1], [e2].
  split; [|split; [|split; [|split; [|split]]]]; try discriminate.
  - intros el [<-|[<-|[]]]; (split; [apply mk_el_valid; unfold orient; cbn [fst snd]; lra|]).
    + split; [change (NoDup [0;1;2;3;4;5]%nat); repeat (apply NoDup_cons; [cbn [In]; lia|]); apply NoDup_nil|].
      split; [intros k; change (In k [0;1;2;3;4;5]%nat -> (k < 12)%nat); cbn [In]; lia|].
      unfold e1, mk_el, side_nodes, gather. cbn [el_x el_y el_ids c0 c1 c2 c3 c4 c5 nth fst snd]. split; f_equal; lra.
    + split; [change (NoDup [6;7;8;9;10;11]%nat); repeat (apply NoDup_cons; [cbn [In]; lia|]); apply NoDup_nil|].
      split; [intros k; change (In k [6;7;8;9;10;11]%nat -> (k < 12)%nat); cbn [In]; lia|].
      unfold e2, mk_el, side_nodes, gather. cbn [el_x el_y el_ids c0 c1 c2 c3 c4 c5 nth fst snd]. split; f_equal; lra.
  - intros el [<-|[<-|[]]]; unfold e1, e2, mk_el, ex_mat; cbn [el_mat m_E]; lra.
  - cbn [app]. apply Permutation_refl.
  - intros a b [<-|[]] [<-|[]] [i [H1 H2]]. change (In i [0;1;2;3;4;5]%nat) in H1. change (In i [6;7;8;9;10;11]%nat) in H2.
    cbn [In] in H1, H2. lia.
Qed.

(** Stress resultants of every kind can be requested after a warping analysis. *)
Example ex_stress_parameters : forall els w a, exists r,
  stress_parameters true (section_totals els) (centroidal_of (section_totals els)) (Some w) a = Ok r.
Proof. intros els w a. unfold stress_parameters. destruct (needs_warping a); eexists; reflexivity. Qed.

Print Assumptions C19_stiffness.
Print Assumptions C19_kernel_is_constants.
Print Assumptions C20_entries.
Print Assumptions C21_multiplier.
Print Assumptions C21_vanishes.
Print Assumptions C22_torsion_constant.
Print Assumptions C23_shear_loads_balanced.
Print Assumptions C24_trefftz.
Print Assumptions C25_shear_areas.
Print Assumptions C25_coupling.
Print Assumptions C25_composite_refuted.
Print Assumptions C26_constants_do_not_matter.
Print Assumptions C26_gamma.
Print Assumptions C26_composite_refuted.
Print Assumptions C27_opposite.
Print Assumptions C27_integrals.
Print Assumptions C27_mirror.
Print Assumptions C27_aligned.
Print Assumptions C31_torsion_resultants.
Print Assumptions C32_shear_resultants.
Print Assumptions C72_shear_centre.
Print Assumptions C70_scale_warping.
Print Assumptions C73_solver_independent.
Print Assumptions C75_unique_solution.
Print Assumptions C75_analysis_exists.
Print Assumptions C75_disjoint_singular.
