(** Remaining facts used by the warping theorems. *)
From Coq Require Import Reals List Lra Lia Bool Permutation.
From Coquelicot Require Import Coquelicot.
From Verif Require Import Base S_Integral M_Fea S_Fem M_Post M_Section S_Section S_Post S_Warp M_Stress
  P_Integral P_Fea P_Geom P_Elem P_Section P_Totals P_Post P_Yield P_Warp P_Warp2 P_Warp3 P_Warp4 P_Warp5 P_Warp6 P_Warp7 P_Warp8 P_Warp9.
Import ListNotations.
Local Open Scope R_scope.

Lemma nu_ok composite els : els <> [] -> valid_mesh els -> pos_moduli els -> physical_nu els -> 0 < 1 + nu_used composite els.
Proof.
  intros Hn Hv Hp Hnu. unfold nu_used. destruct composite; [|lra].
  pose proof (ea_pos els Hn Hv Hp) as HE.
  assert (HG : 0 < t_ga (section_totals els)).
  { rewrite section_totals_q. cbn [t_ga]. unfold mesh_q. apply sumf_pos; [exact Hn|].
    intros el Hel. apply Rmult_lt_0_compat; [|apply el_q_one_pos, Hv, Hel]. unfold shear_modulus. pose proof (Hp el Hel). pose proof (Hnu el Hel).
    apply Rdiv_lt_0_compat; lra. }
  unfold nu_eff. replace (1 + (t_ea (section_totals els) / (2 * t_ga (section_totals els)) - 1)) with (t_ea (section_totals els) / (2 * t_ga (section_totals els))) by ring.
  apply Rdiv_lt_0_compat; lra.
Qed.

(** Shear loads sum to zero for every Poisson's ratio and every inertia values, about the centroid. *)
Lemma shear_loads_sum n X Y els ixx iyy ixy nu : mesh_on n X Y els -> els <> [] -> pos_moduli els ->
  let c := centroidal_of (section_totals els) in
  let fs := assemble_shear_load ixx iyy ixy nu (map (shift_el (p_cx c) (p_cy c)) els) in
  sumn n (fst fs) = 0 /\ sumn n (snd fs) = 0.
Proof.
  intros Hm Hn Hp c fs. pose proof (Hmw n X Y els Hm) as Hm'. fold c in Hm'.
  set (wels := map (shift_el (p_cx c) (p_cy c)) els) in *.
  pose proof (shear_load_form n wels ixx iyy ixy nu (fun _ => 1) (on_wf n _ _ wels Hm')) as H. fold fs in H.
  destruct fs as [f h]. cbn [fst snd]. cbv zeta in H. destruct H as [H1 H2].
  assert (Hs : forall g, sumn n g = dotn n (fun _ => 1) g) by (intros g; unfold dotn; apply sumn_ext; intros; ring).
  rewrite !Hs, H1, H2.
  split.
  - rewrite (MQ_quad_ext n X Y els Hm Hn Hp _ 0 (2 * (1 + nu) * ixx) (- (2 * (1 + nu) * ixy)) 0 0 0); [ring|].
    intros el g Hel Hg. destruct (const_fields n _ _ wels Hm' 1 el g Hel (sum1_4 g Hg)) as [-> [-> ->]]. unfold quad. ring.
  - rewrite (MQ_quad_ext n X Y els Hm Hn Hp _ 0 (- (2 * (1 + nu) * ixy)) (2 * (1 + nu) * iyy) 0 0 0); [ring|].
    intros el g Hel Hg. destruct (const_fields n _ _ wels Hm' 1 el g Hel (sum1_4 g Hg)) as [-> [-> ->]]. unfold quad. ring.
Qed.

(** Total EA does not change when the mesh is shifted. *)
Lemma shift_ea cx cy els : t_ea (section_totals (map (shift_el cx cy) els)) = t_ea (section_totals els).
Proof. rewrite !section_totals_q. cbn [t_ea]. rewrite shift_mesh_q. reflexivity. Qed.

Lemma scale_one els : map (scale_E 1) els = els.
Proof.
  rewrite <- (map_id els) at 2. apply map_ext. intros [x y i [E nu fy rho]]. unfold scale_E. cbn [el_x el_y el_ids el_mat m_E m_nu m_fy m_rho].
  rewrite Rmult_1_l. reflexivity.
Qed.

Section Analysed.
Context (n : nat) (X Y : nat -> R) (els : list tri6) (solve : lg_solver) (composite : bool) (w : warping).
Context (HA : analysed n X Y els solve composite w).
Let t := section_totals els.
Let c := centroidal_of t.
Let wels := map (shift_el (p_cx c) (p_cy c)) els.

Lemma kxy_bound : physical_nu els -> nu_used composite els = 0 -> w_a_sxy w <> 0 -> w_a_sx w * w_a_sy w <= w_a_sxy w ^ 2.
Proof.
  intros Hph H0 Hne. destruct HA as [Hm [Hn [Hp [_ [Hs Hw]]]]].
  pose proof (nu_ok composite els Hn (on_valid n X Y els Hm) Hp Hph) as Hnu.
  assert (Hnu' : 1 + (if composite then nu_eff (section_totals els) else 0) <> 0) by (unfold nu_used in Hnu; lra).
  pose proof (kappa_xy_cs n X Y els solve composite w Hm Hn Hp Hs Hw Hnu' H0) as CS.
  pose proof (shear_areas n X Y els solve composite w Hm Hn Hp Hs Hw Hnu' H0) as [[PX _] [[PY _] _]].
  pose proof (delta_pos n X Y els solve composite w Hm Hn Hp Hw Hnu' H0) as PD.
  pose proof (warping_spec _ _ _ _ _ _ _ Hw) as Sp. cbv zeta in Sp.
  destruct Sp as [_ [_ [_ [_ [_ [_ [_ [_ [_ [[Ex [Ey Exy]] _]]]]]]]]]].
  cbv zeta in CS.
  set (S := shear_deformation _ _ _ _ _ _ _) in *. clearbody S.
  set (d := w_delta_s w) in *. clearbody d. rewrite Ex in *. rewrite Ey in *. rewrite Exy in *.
  destruct S as [[kx ky] kxy]. cbn [fst snd] in *.
  assert (kx <> 0) by (intros ->; unfold Rdiv in PX; rewrite Rinv_0 in PX; lra).
  assert (ky <> 0) by (intros ->; unfold Rdiv in PY; rewrite Rinv_0 in PY; lra).
  assert (kxy <> 0) by (intros ->; apply Hne; unfold Rdiv; rewrite Rinv_0; ring).
  assert (D2 : 0 < d ^ 2) by (apply pow_lt; exact PD).
  assert (0 < kx). { destruct (Rlt_or_le 0 kx) as [|L]; [assumption|exfalso]. assert (kx < 0) by lra. pose proof (Rinv_lt_0_compat kx ltac:(lra)). unfold Rdiv in PX. nra. }
  assert (0 < ky). { destruct (Rlt_or_le 0 ky) as [|L]; [assumption|exfalso]. assert (ky < 0) by lra. pose proof (Rinv_lt_0_compat ky ltac:(lra)). unfold Rdiv in PY. nra. }
  assert (0 < kxy ^ 2) by (apply pow2_gt_0; assumption).
  replace (d ^ 2 / kx * (d ^ 2 / ky)) with ((d ^ 2) ^ 2 * / (kx * ky)) by (field; auto).
  replace ((d ^ 2 / kxy) ^ 2) with ((d ^ 2) ^ 2 * / (kxy ^ 2)) by (field; auto).
  apply Rmult_le_compat_l; [apply pow2_ge_0|]. apply Rinv_le_contravar; [assumption|exact CS].
Qed.
End Analysed.
