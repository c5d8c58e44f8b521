(** Properties of the stress analysis. *)
From Coq Require Import Reals List Lra Lia ClassicalDescription.
From Coquelicot Require Import Coquelicot.
From Verif Require Import Base S_Integral M_Fea S_Fem M_Post M_Section M_Stress S_Section S_Post S_Warp S_Stress
  P_Integral P_Geom P_Section P_Totals P_Post P_Warp4 P_Stress P_Stress2 T_Fea T_Section T_Warp.
Import ListNotations.
Local Open Scope R_scope.

(** ** C28: superposition *)

Theorem C28_superposition : forall composite t c w a b k l groups ra rb,
  calc_stress composite t c w a groups = Ok ra -> calc_stress composite t c w b groups = Ok rb ->
  exists rc, calc_stress composite t c w (lin_actions k a l b) groups = Ok rc /\ length rc = length groups /\
  forall g sa ca sb cb sc cc, nth_error ra g = Some (sa, ca) -> nth_error rb g = Some (sb, cb) -> nth_error rc g = Some (sc, cc) ->
  (forall ns so act i, In (ns, so, act) components -> ns sc i = k * ns sa i + l * ns sb i) /\
  (forall i, cb_zz (cc i) = k * cb_zz (ca i) + l * cb_zz (cb i) /\ cb_zx (cc i) = k * cb_zx (ca i) + l * cb_zx (cb i) /\
     cb_zy (cc i) = k * cb_zy (ca i) + l * cb_zy (cb i)).
Proof. exact superposition. Qed.

(** A component depends only on the resultant that causes it. *)
Theorem C28_no_coupling : forall composite t c w a b groups ra rb g sa ca sb cb ns so act i,
  calc_stress composite t c w a groups = Ok ra -> calc_stress composite t c w b groups = Ok rb ->
  nth_error ra g = Some (sa, ca) -> nth_error rb g = Some (sb, cb) -> In (ns, so, act) components -> act a = act b ->
  ns sa i = ns sb i.
Proof. exact no_coupling. Qed.

(** ** C29: resultants of the normal stresses *)

Lemma field_section (F : tri6 -> R -> R -> R) els : valid_mesh els ->
  field_int (fun el s u => F el (loc_x el s u) (loc_y el s u)) els = section_int F els.
Proof.
  intros Hv. unfold field_int, section_int. apply sumf_ext. intros el Hel. unfold loc_int, el_int, tri_int.
  rewrite (Rabs_pos_eq (orient _ _ _)) by (apply Rlt_le; exact (proj2 (Hv el Hel))). f_equal. apply simplex_int_ext.
  intros s u. unfold loc_x, loc_y, el_point. cbn [fst snd]. f_equal; ring.
Qed.

(** The axial stress of an element is the same at its six nodes; the bending stresses inside an element are
    given by field_at. The section has centroid (cx, cy); force, moment about x and moment about y: *)
Theorem C29_resultants : forall els composite w a p om ps ph,
  els <> [] -> valid_mesh els -> pos_moduli els -> (composite = false -> unit_moduli els) ->
  let t := section_totals els in let c := centroidal_of t in
  stress_parameters composite t c w a = Ok (p, om, ps, ph) ->
  let g el s u := field_at el a p om ps ph s u in
  let axial el := v0 (so_zz_n (element_stress el a p (gather om (el_ids el)) (gather ps (el_ids el)) (gather ph (el_ids el)))) in
  let y el s u := loc_y el s u - p_cy c in let x el s u := loc_x el s u - p_cx c in
  let resultants (f : tri6 -> R -> R -> R) := (field_int f els,
     field_int (fun el s u => f el s u * y el s u) els, field_int (fun el s u => f el s u * x el s u) els) in
  resultants (fun el _ _ => axial el) = (a_n a, 0, 0) /\
  resultants (fun el s u => sg_zz_mxx (g el s u)) = (0, a_mxx a, 0) /\
  resultants (fun el s u => sg_zz_myy (g el s u)) = (0, 0, - a_myy a).
Proof.
  intros els composite w a p om ps ph Hn Hv Hp Hu t c HP g axial y x resultants.
  destruct (sp_fields _ _ _ _ _ _ _ _ _ HP) as [F1 [F2 [F3 [F4 [F5 [F6 [F7 [F8 F9]]]]]]]].
  assert (GB : forall el s u, In el els ->
     sg_zz_mxx (g el s u) = bend_xx c (m_E (el_mat el)) (a_mxx a) (loc_x el s u, loc_y el s u) /\
     sg_zz_myy (g el s u) = bend_yy c (m_E (el_mat el)) (a_myy a) (loc_x el s u, loc_y el s u)).
  { intros el s u Hel. destruct (gp_bend el (Hv el Hel) a p om ps ph c s u F1 F2 F3 F4 F5 F6 F7 F8) as [A [B _]].
    split; [exact A|exact B]. }
  pose proof (bending_resultants els composite (a_n a) 0 0 Hn Hv Hp Hu) as R1. cbv zeta in R1.
  pose proof (bending_resultants els composite 0 (a_mxx a) 0 Hn Hv Hp Hu) as R2. cbv zeta in R2.
  pose proof (bending_resultants els composite 0 0 (a_myy a) Hn Hv Hp Hu) as R3. cbv zeta in R3.
  fold t in R1, R2, R3. fold c in R1, R2, R3.
  assert (Z : forall n mxx myy (f : tri6 -> R -> R -> R),
    (forall el s u, In el els -> f el s u = beam_zz (if composite then t_ea t else t_area t) c (m_E (el_mat el)) n mxx myy (loc_x el s u, loc_y el s u)) ->
    resultants f = (section_int (fun el x y => beam_zz (if composite then t_ea t else t_area t) c (m_E (el_mat el)) n mxx myy (x, y)) els,
      section_int (fun el x y => beam_zz (if composite then t_ea t else t_area t) c (m_E (el_mat el)) n mxx myy (x, y) * (y - p_cy c)) els,
      section_int (fun el x y => beam_zz (if composite then t_ea t else t_area t) c (m_E (el_mat el)) n mxx myy (x, y) * (x - p_cx c)) els)).
  { intros n mxx myy f Hf. unfold resultants. rewrite <- !field_section by exact Hv. f_equal; [f_equal|]; apply field_int_ext; intros el s u Hel; rewrite Hf by exact Hel; reflexivity. }
  split; [|split].
  - rewrite (Z (a_n a) 0 0).
    + destruct R1 as [-> [-> ->]]. rewrite Ropp_0. reflexivity.
    + intros el s u Hel. unfold axial, element_stress, beam_zz, bend_xx, bend_yy. cbn [so_zz_n]. unfold const6. cbn [v0]. rewrite F9. unfold Rdiv. ring.
  - rewrite (Z 0 (a_mxx a) 0).
    + destruct R2 as [-> [-> ->]]. rewrite Ropp_0. reflexivity.
    + intros el s u Hel. destruct (GB el s u Hel) as [-> _]. unfold beam_zz, bend_yy, Rdiv. ring.
  - rewrite (Z 0 0 (a_myy a)).
    + destruct R3 as [-> [-> ->]]. reflexivity.
    + intros el s u Hel. destruct (GB el s u Hel) as [_ ->]. unfold beam_zz, bend_xx, Rdiv. ring.
Qed.

(** ** C30: principal bending *)

(** Moments about the principal axes, resolved onto the x- and y-axis, cause the same stress at every point,
    whenever phi is computed by the exact branch. *)
Theorem C30_principal_bending : forall els w composite a p om ps ph el s u,
  els <> [] -> valid_mesh els -> pos_moduli els -> In el els ->
  let t := section_totals els in let c := centroidal_of t in
  1 / 10 ^ 12 * p_i11_c c <= p_i11_c c - p_ixx_c c ->
  stress_parameters composite t c w a = Ok (p, om, ps, ph) ->
  let th := p_phi c * PI / 180 in
  let g := field_at el a p om ps ph s u in
  let E := m_E (el_mat el) in let P := (loc_x el s u, loc_y el s u) in
  sg_zz_m11 g + sg_zz_m22 g =
  bend_xx c E (a_m11 a * cos th - a_m22 a * sin th) P + bend_yy c E (a_m11 a * sin th + a_m22 a * cos th) P.
Proof.
  intros els w composite a p om ps ph el s u Hn Hv Hp Hel t c Hb HP th g E P.
  destruct (sp_fields _ _ _ _ _ _ _ _ _ HP) as [F1 [F2 [F3 [F4 [F5 [F6 [F7 [F8 F9]]]]]]]].
  destruct (gp_bend el (Hv el Hel) a p om ps ph c s u F1 F2 F3 F4 F5 F6 F7 F8) as [_ [_ [A B]]].
  change (sg_zz_m11 g = bend_11 c E (a_m11 a) P) in A. change (sg_zz_m22 g = bend_22 c E (a_m22 a) P) in B. rewrite A, B.
  destruct (C09_positivity els Hn Hv Hp) as [_ [_ [_ [_ [_ [I1 I2]]]]]]. fold t in I1, I2. fold c in I1, I2.
  destruct (C11_exact_branch (p_ixx_c c) (p_iyy_c c) (p_ixy_c c) I1 Hb) as [Q1 [Q2 Q3]].
  apply (principal_bending c E (a_m11 a) (a_m22 a) P); [lra|lra|exact Q1|exact Q2|exact Q3].
Qed.

Lemma aligned_principal ixx iyy ixy : ixy = 0 -> iyy <= ixx ->
  principal_i11 ixx iyy ixy = ixx /\ principal_i22 ixx iyy ixy = iyy.
Proof.
  intros -> H. unfold principal_i11, principal_i22, principal_delta.
  replace (((ixx - iyy) / 2) ^ 2 + 0 ^ 2) with (((ixx - iyy) / 2) * ((ixx - iyy) / 2)) by ring.
  rewrite sqrt_square by lra. split; lra.
Qed.

(** The same for sections aligned with the axes (ixy = 0, ixx >= iyy), where phi = 0. *)
Theorem C30_aligned : forall els w composite a p om ps ph el s u,
  els <> [] -> valid_mesh els -> pos_moduli els -> In el els ->
  let t := section_totals els in let c := centroidal_of t in
  p_ixy_c c = 0 -> p_iyy_c c <= p_ixx_c c ->
  stress_parameters composite t c w a = Ok (p, om, ps, ph) ->
  let g := field_at el a p om ps ph s u in
  let E := m_E (el_mat el) in let P := (loc_x el s u, loc_y el s u) in
  sg_zz_m11 g = bend_xx c E (a_m11 a) P /\ sg_zz_m22 g = bend_yy c E (a_m22 a) P.
Proof.
  intros els w composite a p om ps ph el s u Hn Hv Hp Hel t c H0 Hle HP g E P.
  destruct (sp_fields _ _ _ _ _ _ _ _ _ HP) as [F1 [F2 [F3 [F4 [F5 [F6 [F7 [F8 F9]]]]]]]].
  destruct (gp_bend el (Hv el Hel) a p om ps ph c s u F1 F2 F3 F4 F5 F6 F7 F8) as [_ [_ [A B]]].
  change (sg_zz_m11 g = bend_11 c E (a_m11 a) P) in A. change (sg_zz_m22 g = bend_22 c E (a_m22 a) P) in B. rewrite A, B.
  destruct (C09_positivity els Hn Hv Hp) as [_ [_ [_ [_ [_ [I1 I2]]]]]]. fold t in I1, I2. fold c in I1, I2.
  assert (J1 : p_i11_c c = p_ixx_c c /\ p_i22_c c = p_iyy_c c).
  { apply (aligned_principal (p_ixx_c c) (p_iyy_c c) (p_ixy_c c) H0 Hle). }
  destruct J1 as [J1 J2].
  assert (Jp : p_phi c = 0).
  { change (principal_phi (p_ixx_c c) (p_ixy_c c) (p_i11_c c) = 0). unfold principal_phi. rewrite J1.
    destruct (Rlt_dec _ _) as [Y|N]; [reflexivity|]. exfalso. apply N. rewrite Rminus_eq_0, Rabs_R0. rewrite J1 in I1.
    apply Rmult_lt_0_compat; [|exact I1]. apply Rdiv_lt_0_compat; [lra|apply pow_lt; lra]. }
  assert (Dn : p_ixx_c c * p_iyy_c c <> 0) by (rewrite <- J1, <- J2; apply Rgt_not_eq, Rmult_gt_0_compat; assumption).
  assert (D1 : p_ixx_c c <> 0) by (rewrite <- J1; lra). assert (D2 : p_iyy_c c <> 0) by (rewrite <- J2; lra).
  unfold bend_11, bend_22, bend_xx, bend_yy, principal_coordinate. rewrite Jp, J1, J2, H0.
  replace (0 * PI / 180) with 0 by field. rewrite cos_0, sin_0. cbn [fst snd P]. split; field; repeat split; assumption.
Qed.

(** Resultants of the stress caused by moments about the principal axes. *)
Theorem C29_principal : forall els w composite a p om ps ph,
  els <> [] -> valid_mesh els -> pos_moduli els -> (composite = false -> unit_moduli els) ->
  let t := section_totals els in let c := centroidal_of t in
  1 / 10 ^ 12 * p_i11_c c <= p_i11_c c - p_ixx_c c ->
  stress_parameters composite t c w a = Ok (p, om, ps, ph) ->
  let th := p_phi c * PI / 180 in
  let f el s u := let g := field_at el a p om ps ph s u in sg_zz_m11 g + sg_zz_m22 g in
  field_int f els = 0 /\
  field_int (fun el s u => f el s u * (loc_y el s u - p_cy c)) els = a_m11 a * cos th - a_m22 a * sin th /\
  field_int (fun el s u => f el s u * (loc_x el s u - p_cx c)) els = - (a_m11 a * sin th + a_m22 a * cos th).
Proof.
  intros els w composite a p om ps ph Hn Hv Hp Hu t c Hb HP th f.
  pose proof (bending_resultants els composite 0 (a_m11 a * cos th - a_m22 a * sin th) (a_m11 a * sin th + a_m22 a * cos th) Hn Hv Hp Hu) as Q.
  cbv zeta in Q. fold t in Q. fold c in Q.
  assert (F : forall el s u, In el els -> f el s u = beam_zz (if composite then t_ea t else t_area t) c (m_E (el_mat el)) 0
      (a_m11 a * cos th - a_m22 a * sin th) (a_m11 a * sin th + a_m22 a * cos th) (loc_x el s u, loc_y el s u)).
  { intros el s u Hel. pose proof (C30_principal_bending els w composite a p om ps ph el s u Hn Hv Hp Hel Hb HP) as Z. cbv zeta in Z.
    fold t in Z. fold c in Z. fold th in Z. unfold f. rewrite Z. unfold beam_zz, Rdiv. ring. }
  destruct Q as [Q1 [Q2 Q3]]. rewrite <- field_section in Q1, Q2, Q3 by exact Hv.
  split; [|split]; [eapply eq_trans; [|exact Q1]|eapply eq_trans; [|exact Q2]|eapply eq_trans; [|exact Q3]];
    apply field_int_ext; intros el s u Hel; rewrite F by exact Hel; reflexivity.
Qed.

(** ** C33: combined stresses *)

Theorem C33_combined : forall s i, let b := combine_node s i in
  (cb_zz b = ns_zz_n s i + ns_zz_mxx s i + ns_zz_myy s i + ns_zz_m11 s i + ns_zz_m22 s i /\
   cb_zx b = ns_zx_mzz s i + ns_zx_vx s i + ns_zx_vy s i /\ cb_zy b = ns_zy_mzz s i + ns_zy_vx s i + ns_zy_vy s i) /\
  (cb_zxy b ^ 2 = cb_zx b ^ 2 + cb_zy b ^ 2 /\ 0 <= cb_zxy b) /\
  (is_principal (cb_11 b) (cb_zz b) (cb_zx b) (cb_zy b) /\ is_principal (cb_33 b) (cb_zz b) (cb_zx b) (cb_zy b) /\
   is_principal 0 (cb_zz b) (cb_zx b) (cb_zy b) /\
   (forall e, is_principal e (cb_zz b) (cb_zx b) (cb_zy b) -> e = cb_11 b \/ e = 0 \/ e = cb_33 b) /\
   cb_33 b <= 0 <= cb_11 b /\ cb_11 b + cb_33 b = cb_zz b) /\
  (cb_vm b ^ 2 = cb_zz b ^ 2 + 3 * (cb_zx b ^ 2 + cb_zy b ^ 2) /\
   cb_vm b ^ 2 = cb_11 b ^ 2 - cb_11 b * cb_33 b + cb_33 b ^ 2 /\
   0 <= cb_vm b /\ (cb_vm b = 0 <-> cb_zz b = 0 /\ cb_zx b = 0 /\ cb_zy b = 0)).
Proof.
  intros s i b. destruct (combined_facts s i) as [A1 [A2 [A3 [A4 [A5 [A6 [A7 [A8 [A9 [A10 [A11 A12]]]]]]]]]]].
  split; [unfold b, combine_node; cbn [cb_zz cb_zx cb_zy]; repeat split; ring|].
  fold b in A1, A2, A3, A4, A5, A6, A7, A8, A9, A10, A11, A12. tauto.
Qed.

(** ** C34: nodal averaging *)

Theorem C34_averaging : forall composite t c w a groups res k s cb m els p om ps ph,
  stress_parameters composite t c w a = Ok (p, om, ps, ph) ->
  calc_stress composite t c w a groups = Ok res -> nth_error res k = Some (s, cb) -> nth_error groups k = Some (m, els) ->
  distinct_ids els ->
  forall ns so act i, In (ns, so, act) components ->
  let h el := so (element_stress el a p (gather om (el_ids el)) (gather ps (el_ids el)) (gather ph (el_ids el))) in
  (in_group els i ->
    ns s i = weighted_mean (contributions h els i) /\ (forall q, In q (contributions h els i) -> 0 < fst q) /\
    ((forall el j, In el els -> has_node el j i -> (j < 3)%nat) \/ (forall el j, In el els -> has_node el j i -> (3 <= j)%nat) ->
     ns s i = mean (map snd (contributions h els i)))) /\
  (~ in_group els i -> ns s i = 0).
Proof. exact averaging. Qed.

(** The result of a group depends only on that group. *)
Theorem C34_groups_separate : forall composite t c w a groups groups' res res' k k',
  calc_stress composite t c w a groups = Ok res -> calc_stress composite t c w a groups' = Ok res' ->
  nth_error groups k = nth_error groups' k' -> nth_error res k = nth_error res' k'.
Proof. exact groups_separate. Qed.

(** ** C38: stress at points *)

Theorem C38_one_per_point : forall els query agg composite t c w a pts res,
  stress_at_points els query agg composite t c w a pts = Ok res -> length res = length pts.
Proof. intros els query agg composite t c w a pts res H. apply (points_shape _ _ _ _ _ _ _ _ _ _ H). Qed.

Theorem C38_none_outside : forall els query agg composite t c w a pts res k pt,
  exact_query els query -> stress_at_points els query agg composite t c w a pts = Ok res -> nth_error pts k = Some pt ->
  exists r, nth_error res k = Some r /\ (r = None <-> forall el, In el els -> ~ contains el pt).
Proof. exact points_none. Qed.

(** Inside one material the normal stress is that of beam theory, up to the rounding of the extrapolation
    matrix; for points on several elements any aggregation within the range of its arguments. *)
Theorem C38_normal_stress : forall els query agg composite t c w a pts res k pt zz zx zy E M,
  valid_mesh els -> exact_query els query -> within_range agg ->
  stress_at_points els query agg composite t c w a pts = Ok res ->
  nth_error pts k = Some pt -> nth_error res k = Some (Some (zz, zx, zy)) ->
  (forall el, In el els -> contains el pt -> m_E (el_mat el) = E) ->
  (forall el q, In el els -> contains el pt -> In q (el_nodes el) -> Rabs (beam_bending c E a q) <= M) ->
  Rabs (zz - beam_total (if composite then t_ea t else t_area t) c E a pt) <= 12 / 10 ^ 14 * M.
Proof. exact points_normal. Qed.

(** All three components in one element: the stress field of the element at the point. *)
Theorem C38_interpolation : forall el a p om ps ph pt eta xi zeta M Mx My, valid_el el ->
  local_coord el pt = (eta, xi, zeta) -> 0 <= eta -> 0 <= xi -> 0 <= zeta ->
  node_bound (field_bend el a p om ps ph) M -> node_bound (field_zx el a p om ps ph) Mx -> node_bound (field_zy el a p om ps ph) My ->
  let '(zz, zx, zy) := local_element_stress el pt a p (gather om (el_ids el)) (gather ps (el_ids el)) (gather ph (el_ids el)) in
  Rabs (zz - (a_n a * m_E (el_mat el) / st_ea p + field_bend el a p om ps ph xi zeta)) <= 12 / 10 ^ 14 * M /\
  Rabs (zx - field_zx el a p om ps ph xi zeta) <= 12 / 10 ^ 14 * Mx /\
  Rabs (zy - field_zy el a p om ps ph xi zeta) <= 12 / 10 ^ 14 * My.
Proof. intros el a p om ps ph pt eta xi zeta M Mx My Hv. apply (point_stress el Hv). Qed.

(** ** C74: reported nodal stresses against beam theory and the element fields *)

Theorem C74_nodal_normal : forall composite t c w a groups res k s cb m els n X Y i,
  calc_stress composite t c w a groups = Ok res -> nth_error res k = Some (s, cb) -> nth_error groups k = Some (m, els) ->
  mesh_on n X Y els -> (forall el, In el els -> el_mat el = m) -> in_group els i ->
  ns_zz_n s i = a_n a * m_E m / (if composite then t_ea t else t_area t) /\
  forall ns act sig M, In (ns, act, sig) bending ->
    (forall el q, In el els -> In q (el_nodes el) -> Rabs (sig c (m_E m) (act a) q) <= M) ->
    Rabs (ns s i - sig c (m_E m) (act a) (X i, Y i)) <= 2 / 10 ^ 14 * M.
Proof. exact nodal_normal. Qed.

Theorem C74_element_values : forall el a p om ps ph so sg j M, valid_el el ->
  In (so, sg) extrapolated -> (j < 6)%nat ->
  node_bound (fun s t => sg (field_at el a p om ps ph s t)) M ->
  Rabs (nth6 (so (element_stress el a p (gather om (el_ids el)) (gather ps (el_ids el)) (gather ph (el_ids el)))) j
        - sg (field_at el a p om ps ph (fst (local_node j)) (snd (local_node j)))) <= 2 / 10 ^ 14 * M.
Proof. exact el_value_close. Qed.

(** ** The hypotheses are satisfiable *)

Definition ex_actions : actions := mkActions 100 7 (-3) 50 20 11 (-8) 40.
Definition ex_groups_list : list (material * list tri6) := map (fun el => (el_mat el, [el])) ex_mesh.

Example ex_calc : forall w, exists res,
  calc_stress true (section_totals ex_mesh) (centroidal_of (section_totals ex_mesh)) (Some w) ex_actions ex_groups_list = Ok res /\
  length res = 2%nat.
Proof.
  intros w. unfold calc_stress. destruct (ex_stress_parameters ex_mesh w ex_actions) as [[[[p om] ps] ph] ->]. cbn [bind].
  eexists. split; [reflexivity|]. rewrite map_length. reflexivity.
Qed.

(** Without torsion and shear no warping analysis is needed. *)
Example ex_calc_axial : exists res,
  calc_stress true (section_totals ex_mesh) (centroidal_of (section_totals ex_mesh)) None (mkActions 5 0 0 2 3 0 0 0) ex_groups_list = Ok res.
Proof.
  unfold calc_stress, stress_parameters.
  replace (needs_warping (mkActions 5 0 0 2 3 0 0 0)) with false; [eexists; reflexivity|].
  unfold needs_warping, nonzero. cbn [a_n a_vx a_vy a_mxx a_myy a_m11 a_m22 a_mzz].
  repeat destruct (Req_EM_T _ _); try lra; reflexivity.
Qed.

Example ex_distinct : distinct_ids ex_mesh /\ in_group ex_mesh 5.
Proof.
  split.
  - intros el [<-|[<-|[]]]; [exact (proj1 two_nodup)|exact (proj2 two_nodup)].
  - exists (mk_el ex_mat (mkConn 0 1 2 4 5 6) (0,0) (4,0) (4,2)). split; [left; reflexivity|]. change (In 5%nat [0;1;2;4;5;6]%nat). cbn [In]. lia.
Qed.

(** An exact spatial index exists for every mesh (here by classical decision of membership). *)
Example ex_query : forall els, exists query, exact_query els query.
Proof.
  intros els.
  set (dec := fun pt i => match ClassicalDescription.excluded_middle_informative (exists el, nth_error els i = Some el /\ contains el pt) with left _ => true | right _ => false end).
  exists (fun pt => filter (dec pt) (seq 0 (length els))). intros pt i. rewrite filter_In, in_seq. unfold dec.
  destruct (ClassicalDescription.excluded_middle_informative _) as [H|H]; split.
  - intros _. exact H.
  - intros _. split; [|reflexivity]. destruct H as [el [H _]]. assert (i < length els)%nat by (apply nth_error_Some; congruence). lia.
  - intros [_ F]. discriminate F.
  - intros F. contradiction.
Qed.

(** The default aggregation, the mean, and the maximum stay within the range. *)
Example ex_mean : within_range mean.
Proof.
  intros l lo hi Hn H. unfold mean.
  assert (L : 0 < INR (length l)) by (apply lt_0_INR; destruct l; [congruence|cbn [length]; lia]).
  assert (B : lo * INR (length l) <= sumf (fun x => x) l <= hi * INR (length l)).
  { clear Hn L. induction l as [|x l IH]; [cbn [length INR]; unfold sumf; cbn [map Rsum fold_right]; lra|].
    rewrite sumf_cons. change (length (x :: l)) with (S (length l)). rewrite S_INR.
    assert (I1 : forall y, In y l -> lo <= y <= hi) by (intros y Hy; apply H; right; exact Hy).
    specialize (IH I1). pose proof (H x (or_introl eq_refl)). lra. }
  split; [apply Rle_div_r; lra|apply Rle_div_l; lra].
Qed.

(** The two branches of C30: a section with iyy > ixx, and one aligned with the axes. *)
(** The hypotheses of C30: a right-angled triangle (exact branch) and an isosceles one (aligned). *)
Definition ex_right : list tri6 := [ mk_el ex_mat (mkConn 0 1 2 3 4 5) (0,0) (4,0) (0,2) ].
Definition ex_isosceles : list tri6 := [ mk_el ex_mat (mkConn 0 1 2 3 4 5) (-1,0) (1,0) (0,4) ].

Lemma tri_totals m ids a b c : 0 < orient a b c ->
  section_totals [mk_el m ids a b c] =
  let outline := ring_edges m [a; b; c] in
  mkTotals (boundary_sum (fun _ => 1) b_area outline) (boundary_sum m_rho b_area outline)
    (boundary_sum m_E b_area outline) (boundary_sum shear_modulus b_area outline)
    (boundary_sum m_E b_qx outline) (boundary_sum m_E b_qy outline)
    (boundary_sum m_E b_ixx outline) (boundary_sum m_E b_iyy outline) (boundary_sum m_E b_ixy outline).
Proof.
  intros H. cbv zeta. apply C06_boundary_formulas.
  - intros el [<-|[]]. apply mk_el_valid. exact H.
  - destruct a, b, c. apply sb_refl.
Qed.

Ltac tri_inertia := unfold centroidal_of; cbn [p_ixx_c p_iyy_c p_ixy_c t_ea t_qx t_qy t_ixx_g t_iyy_g t_ixy_g];
  unfold boundary_sum, ring_edges, path_edges, sumf, Rsum, b_area, b_qx, b_qy, b_ixx, b_iyy, b_ixy, cross;
  cbn [map fold_right fst snd app m_E ex_mat]; field.

Example ex_right_exact : let c := centroidal_of (section_totals ex_right) in
  1 / 10 ^ 12 * p_i11_c c <= p_i11_c c - p_ixx_c c.
Proof.
  intros c.
  assert (T := tri_totals ex_mat (mkConn 0 1 2 3 4 5) (0,0) (4,0) (0,2) ltac:(unfold orient; cbn [fst snd]; lra)).
  assert (E1 : p_ixx_c c = 1600 / 9) by (unfold c, ex_right; rewrite T; cbv zeta; tri_inertia).
  assert (E2 : p_iyy_c c = 6400 / 9) by (unfold c, ex_right; rewrite T; cbv zeta; tri_inertia).
  change (1 / 10 ^ 12 * principal_i11 (p_ixx_c c) (p_iyy_c c) (p_ixy_c c) <= principal_i11 (p_ixx_c c) (p_iyy_c c) (p_ixy_c c) - p_ixx_c c).
  rewrite E1, E2. pose proof (delta_sq (1600/9) (6400/9) (p_ixy_c c)) as H. pose proof (delta_nonneg (1600/9) (6400/9) (p_ixy_c c)) as H'.
  unfold principal_i11. set (d := principal_delta _ _ _) in *. lra.
Qed.

Example ex_isosceles_aligned : let c := centroidal_of (section_totals ex_isosceles) in
  p_ixy_c c = 0 /\ p_iyy_c c <= p_ixx_c c.
Proof.
  intros c.
  assert (T := tri_totals ex_mat (mkConn 0 1 2 3 4 5) (-1,0) (1,0) (0,4) ltac:(unfold orient; cbn [fst snd]; lra)).
  assert (E1 : p_ixx_c c = 6400 / 9) by (unfold c, ex_isosceles; rewrite T; cbv zeta; tri_inertia).
  assert (E2 : p_iyy_c c = 400 / 3) by (unfold c, ex_isosceles; rewrite T; cbv zeta; tri_inertia).
  assert (E3 : p_ixy_c c = 0) by (unfold c, ex_isosceles; rewrite T; cbv zeta; tri_inertia).
  rewrite E1, E2, E3. lra.
Qed.

Print Assumptions C28_superposition.
Print Assumptions C28_no_coupling.
Print Assumptions C29_resultants.
Print Assumptions C29_principal.
Print Assumptions C30_principal_bending.
Print Assumptions C30_aligned.
Print Assumptions C33_combined.
Print Assumptions C34_averaging.
Print Assumptions C34_groups_separate.
Print Assumptions C38_one_per_point.
Print Assumptions C38_none_outside.
Print Assumptions C38_normal_stress.
Print Assumptions C38_interpolation.
Print Assumptions C74_nodal_normal.
Print Assumptions C74_element_values.
