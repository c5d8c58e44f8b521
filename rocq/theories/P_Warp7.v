(** Uniqueness of the solutions up to constants, scaling of the moduli, warping constant. *)
From Coq Require Import Reals List Lra Lia Bool.
From Coquelicot Require Import Coquelicot.
From Verif Require Import Base S_Integral M_Fea S_Fem M_Post M_Section S_Section S_Post S_Warp M_Stress
  P_Integral P_Fea P_Geom P_Elem P_Section P_Totals P_Post P_Yield P_Warp P_Warp2 P_Warp3 P_Warp4 P_Warp5 P_Warp6.
Import ListNotations.
Local Open Scope R_scope.

Section Unique.
Context (n : nat) (X Y : nat -> R) (els : list tri6) (Hm : mesh_on n X Y els).
Context (HE : forall el, In el els -> 0 < m_E (el_mat el)).

Lemma grad_unique u u' : (forall v, B els u v = B els u' v) ->
  forall el g, In el els -> sum1 g -> Gx u el g = Gx u' el g /\ Gy u el g = Gy u' el g.
Proof.
  intros H el g Hel Hg. set (d := fun i => 1 * u i + (-1) * u' i).
  assert (Z : B els d d = 0) by (unfold d at 1; rewrite B_lin, H; ring).
  destruct (MQ_sq_zero n X Y els Hm HE (Gx d) (Gy d)) with (el := el) (g := g) as [Zx Zy]; [|exact Z|exact Hel|exact Hg|].
  - intros e He. split; [apply lin3_gx|apply lin3_gy]; apply (on_valid n X Y els Hm e He).
  - unfold d in Zx, Zy. rewrite Gx_lin in Zx. rewrite Gy_lin in Zy. lra.
Qed.

(** a finite element function with zero gradient is constant on the element *)
Lemma flat_const el (u : V6) : valid_el el -> (forall s t, fe_dx el u s t = 0 /\ fe_dy el u s t = 0) ->
  v1 u = v0 u /\ v2 u = v0 u /\ v3 u = v0 u /\ v4 u = v0 u /\ v5 u = v0 u.
Proof.
  intros [_ Ho] H.
  assert (Z : forall s t, fe_ds u s t = 0 /\ fe_dt u s t = 0).
  { intros s t. destruct (H s t) as [Hx Hy]. unfold fe_dx, fe_dy, orient in *.
    destruct (corner_a el) as [xa ya], (corner_b el) as [xb yb], (corner_c el) as [xc yc]. cbn [fst snd] in *.
    set (p := fe_ds u s t) in *. set (q := fe_dt u s t) in *. set (D := (xb - xa) * (yc - ya) - (xc - xa) * (yb - ya)) in *.
    assert (A : p * (yc - ya) - q * (yb - ya) = 0) by (apply (Rmult_eq_reg_r (/ D)); [rewrite Rmult_0_l; exact Hx|apply Rinv_neq_0_compat; lra]).
    assert (A' : q * (xb - xa) - p * (xc - xa) = 0) by (apply (Rmult_eq_reg_r (/ D)); [rewrite Rmult_0_l; exact Hy|apply Rinv_neq_0_compat; lra]).
    split; apply (Rmult_eq_reg_r D); try lra; unfold D.
    - transitivity ((xb - xa) * (p * (yc - ya) - q * (yb - ya)) + (yb - ya) * (q * (xb - xa) - p * (xc - xa))); [ring|]. rewrite A, A'. ring.
    - transitivity ((xc - xa) * (p * (yc - ya) - q * (yb - ya)) + (yc - ya) * (q * (xb - xa) - p * (xc - xa))); [ring|]. rewrite A, A'. ring. }
  pose proof (Z 0 0) as [A1 A2]. pose proof (Z 1 0) as [B1 B2]. pose proof (Z 0 1) as [C1 C2].
  rewrite fe_ds_eq in A1, B1, C1. rewrite fe_dt_eq in A2, B2, C2. repeat split; lra.
Qed.

Lemma unique_el u u' : (forall v, B els u v = B els u' v) ->
  forall el, In el els -> exists k, forall i, In i (ids_list (el_ids el)) -> u' i = u i + k.
Proof.
  intros H el Hel. pose proof (on_valid n X Y els Hm el Hel) as Hv.
  set (d := fun i => 1 * u' i + (-1) * u i).
  destruct (flat_const el (gather d (el_ids el)) Hv) as [E1 [E2 [E3 [E4 E5]]]].
  - intros s t. destruct (gxy_fe el (gather d (el_ids el)) s t Hv) as [<- <-].
    change (gx el (gather d (el_ids el)) (loc s t)) with (Gx d el (loc s t)).
    change (gy el (gather d (el_ids el)) (loc s t)) with (Gy d el (loc s t)).
    unfold d. rewrite Gx_lin, Gy_lin. destruct (grad_unique u u' H el (loc s t) Hel (sum1_loc s t)) as [-> ->]. split; ring.
  - unfold gather, d in E1, E2, E3, E4, E5. cbn [v0 v1 v2 v3 v4 v5] in *. exists (u' (c0 (el_ids el)) - u (c0 (el_ids el))).
    intros i Hi. unfold ids_list in Hi. cbn [In] in Hi.
    destruct Hi as [<-|[<-|[<-|[<-|[<-|[<-|[]]]]]]]; lra.
Qed.

Lemma unique_connected u u' : connected els -> els <> [] -> (forall v, B els u v = B els u' v) ->
  exists k, forall el, In el els -> forall i, In i (ids_list (el_ids el)) -> u' i = u i + k.
Proof.
  intros Hc Hne H. destruct els as [|e0 rest] eqn:E; [contradiction|]. rewrite <- E in *.
  assert (H0 : In e0 els) by (rewrite E; left; reflexivity).
  destruct (unique_el u u' H e0 H0) as [k Hk]. exists k. intros el Hel.
  destruct (Hc e0 el H0 Hel) as [path [Hp Hchain]].
  assert (G : forall l a, (forall e, In e l -> In e els) -> In a els -> (forall i, In i (ids_list (el_ids a)) -> u' i = u i + k) ->
    (fix chain (a : tri6) (l : list tri6) : Prop :=
         match l with [] => share_node a el | b :: l' => share_node a b /\ chain b l' end) a l ->
    forall i, In i (ids_list (el_ids el)) -> u' i = u i + k).
  { clear path Hp Hchain.
    assert (S : forall a b, In b els -> (forall i, In i (ids_list (el_ids a)) -> u' i = u i + k) -> share_node a b ->
      forall i, In i (ids_list (el_ids b)) -> u' i = u i + k).
    { intros a b Hb Ha [j [J1 J2]] i Hi. destruct (unique_el u u' H b Hb) as [k' Hk']. rewrite (Hk' i Hi).
      pose proof (Ha j J1). pose proof (Hk' j J2). lra. }
    induction l as [|b l IH]; intros a Hl Ha Hka Hch.
    - apply (S a el Hel Hka Hch).
    - destruct Hch as [Hab Hch]. apply (IH b); [intros e He; apply Hl; right; exact He|apply Hl; left; reflexivity| |exact Hch].
      apply (S a b); [apply Hl; left; reflexivity|exact Hka|exact Hab]. }
  exact (G path e0 Hp H0 Hk Hchain).
Qed.
End Unique.

(** ** Scaling the moduli *)

Lemma MQ_scale k els F : MQ (map (scale_E k) els) F = k * MQ els (fun el g => F (scale_E k el) g).
Proof.
  unfold MQ. rewrite sumf_map, <- sumf_scal. apply sumf_ext. intros el _. unfold Q, Qr. rewrite <- sumf_scal. apply sumf_ext.
  intros g _. unfold shp, scale_E. cbn [el_x el_y el_mat m_E]. ring.
Qed.

Section Scale.
Context (n : nat) (X Y : nat -> R) (els : list tri6) (solve solve' : lg_solver) (composite : bool) (w w' : warping) (k : R).
Context (Hk : 0 < k).
Let els' := map (scale_E k) els.
Context (HA : analysed n X Y els solve composite w).
Context (HA' : analysed n X Y els' solve' composite w').
Let t := section_totals els.
Let c := centroidal_of t.
Let t' := section_totals els'.
Let c' := centroidal_of t'.
Let wels := map (shift_el (p_cx c) (p_cy c)) els.
Let nu := nu_used composite els.
Let on := a_on _ _ _ _ _ _ _ HA.
Let ne := a_ne _ _ _ _ _ _ _ HA.
Let pos := a_pos _ _ _ _ _ _ _ HA.
Let on' := a_on _ _ _ _ _ _ _ HA'.
Let ne' := a_ne _ _ _ _ _ _ _ HA'.
Let pos' := a_pos _ _ _ _ _ _ _ HA'.
Let Hm' := Hmw n X Y els on.
Let HE' := Hpw els pos.

Lemma s_ea : 0 < t_ea t. Proof. apply (Hea n X Y els); assumption. Qed.
Lemma s_c : c' = mkCentroidal (p_cx c) (p_cy c) (k * p_ixx_c c) (k * p_iyy_c c) (k * p_ixy_c c)
    (k * p_i11_c c) (k * p_i22_c c) (p_phi c).
Proof. apply scale_E_centroidal; [exact Hk|]. fold t. pose proof s_ea. lra. Qed.
Lemma s_t : t' = mkTotals (t_area t) (t_mass t) (k * t_ea t) (k * t_ga t) (k * t_qx t) (k * t_qy t)
    (k * t_ixx_g t) (k * t_iyy_g t) (k * t_ixy_g t).
Proof. apply scale_E_totals. Qed.
Lemma s_wels : map (shift_el (p_cx c') (p_cy c')) els' = map (scale_E k) wels.
Proof. rewrite s_c. cbn [p_cx p_cy]. unfold els', wels. rewrite !map_map. reflexivity. Qed.
Lemma s_nu : (if composite then nu_eff t' else 0) = nu.
Proof.
  unfold nu, nu_used. destruct composite; [|reflexivity]. rewrite s_t. unfold nu_eff. cbn [t_ea t_ga]. fold t.
  unfold Rdiv. rewrite !Rinv_mult. set (g := / t_ga t). clearbody g. f_equal. field. lra.
Qed.
Lemma s_B u v : B (map (scale_E k) wels) u v = k * B wels u v.
Proof. unfold B. rewrite MQ_scale. reflexivity. Qed.
Lemma s_L v : L (map (scale_E k) wels) v = k * L wels v.
Proof. unfold L. rewrite MQ_scale. reflexivity. Qed.

Let sp' := warping_spec _ _ _ _ _ _ _ (a_w _ _ _ _ _ _ _ HA').
Let sp0 := warping_spec _ _ _ _ _ _ _ (a_w _ _ _ _ _ _ _ HA).

Lemma om_grad el g : In el wels -> sum1 g -> Gx (w_omega w') el g = Gx (w_omega w) el g /\ Gy (w_omega w') el g = Gy (w_omega w) el g.
Proof.
  apply (grad_unique n _ _ wels Hm' HE'). intros v.
  pose proof (omega_weak n X Y els solve composite w on ne pos (a_ex _ _ _ _ _ _ _ HA) (a_w _ _ _ _ _ _ _ HA) v) as H.
  pose proof (omega_weak n X Y els' solve' composite w' on' ne' pos' (a_ex _ _ _ _ _ _ _ HA') (a_w _ _ _ _ _ _ _ HA') v) as H'.
  fold t' in H'. fold c' in H'. rewrite s_wels, s_B, s_L in H'. fold t c wels in H.
  apply (Rmult_eq_reg_l k); [|lra]. rewrite H', H. reflexivity.
Qed.

Lemma s_spar el g : spar (k * p_ixx_c c) (k * p_iyy_c c) (k * p_ixy_c c) el g =
  let s := spar (p_ixx_c c) (p_iyy_c c) (p_ixy_c c) el g in
  mkShearPar (sp_r s) (sp_q s) (k * sp_d1 s) (k * sp_d2 s) (k * sp_h1 s) (k * sp_h2 s).
Proof. unfold spar, shear_parameter. cbn [sp_r sp_q sp_d1 sp_d2 sp_h1 sp_h2]. f_equal; ring. Qed.

Lemma psi_B v : B wels (w_psi w) v = dotn n v (fst (assemble_shear_load (p_ixx_c c) (p_iyy_c c) (p_ixy_c c) nu wels)).
Proof.
  destruct sp0 as [[_ [Ho _]] _]. destruct (a_ex _ _ _ _ _ _ _ HA _ _ _ Ho) as [lam Hl].
  destruct (K_lam n X Y els on ne pos _ _ _ Hl (fp_sum n X Y els composite on ne pos)) as [_ [H _]]. apply H.
Qed.
Lemma phi_B v : B wels (w_phi w) v = dotn n v (snd (assemble_shear_load (p_ixx_c c) (p_iyy_c c) (p_ixy_c c) nu wels)).
Proof.
  destruct sp0 as [[_ [_ Ho]] _]. destruct (a_ex _ _ _ _ _ _ _ HA _ _ _ Ho) as [lam Hl].
  destruct (K_lam n X Y els on ne pos _ _ _ Hl (fh_sum n X Y els composite on ne pos)) as [_ [H _]]. apply H.
Qed.

(** the fields of the scaled problem *)
Let Hm2 : mesh_on n (fun i => X i - p_cx c) (fun i => Y i - p_cy c) wels := Hm'.

Lemma fp_scaled v : dotn n v (fst (assemble_shear_load (k * p_ixx_c c) (k * p_iyy_c c) (k * p_ixy_c c) nu (map (scale_E k) wels))) =
  k * k * dotn n v (fst (assemble_shear_load (p_ixx_c c) (p_iyy_c c) (p_ixy_c c) nu wels)) /\
  dotn n v (snd (assemble_shear_load (k * p_ixx_c c) (k * p_iyy_c c) (k * p_ixy_c c) nu (map (scale_E k) wels))) =
  k * k * dotn n v (snd (assemble_shear_load (p_ixx_c c) (p_iyy_c c) (p_ixy_c c) nu wels)).
Proof.
  assert (W : wf_ids n wels) by (apply (on_wf n _ _ wels Hm2)).
  assert (W' : wf_ids n (map (scale_E k) wels)).
  { intros el Hel. apply in_map_iff in Hel. destruct Hel as [e [<- He]]. apply (W e He). }
  pose proof (shear_load_form n wels (p_ixx_c c) (p_iyy_c c) (p_ixy_c c) nu v W) as F.
  pose proof (shear_load_form n (map (scale_E k) wels) (k * p_ixx_c c) (k * p_iyy_c c) (k * p_ixy_c c) nu v W') as F'.
  destruct (assemble_shear_load (p_ixx_c c) (p_iyy_c c) (p_ixy_c c) nu wels) as [f h].
  destruct (assemble_shear_load (k * p_ixx_c c) (k * p_iyy_c c) (k * p_ixy_c c) nu (map (scale_E k) wels)) as [f' h'].
  cbv zeta in F, F'. destruct F as [F1 F2]. destruct F' as [F1' F2']. cbn [fst snd]. rewrite F1, F2, F1', F2', !MQ_scale. split.
  - rewrite Rmult_assoc. f_equal. rewrite <- MQ_scal. apply MQ_ext. intros el g _ _. rewrite s_spar. cbv zeta. cbn [sp_d1 sp_d2].
    change (Gx v (scale_E k el) g) with (Gx v el g). change (Gy v (scale_E k el) g) with (Gy v el g).
    change (Vl v (scale_E k el) g) with (Vl v el g). change (px (scale_E k el) g) with (px el g). change (py (scale_E k el) g) with (py el g).
    change (spar (p_ixx_c c) (p_iyy_c c) (p_ixy_c c) (scale_E k el) g) with (spar (p_ixx_c c) (p_iyy_c c) (p_ixy_c c) el g). ring.
  - rewrite Rmult_assoc. f_equal. rewrite <- MQ_scal. apply MQ_ext. intros el g _ _. rewrite s_spar. cbv zeta. cbn [sp_h1 sp_h2].
    change (Gx v (scale_E k el) g) with (Gx v el g). change (Gy v (scale_E k el) g) with (Gy v el g).
    change (Vl v (scale_E k el) g) with (Vl v el g). change (px (scale_E k el) g) with (px el g). change (py (scale_E k el) g) with (py el g).
    change (spar (p_ixx_c c) (p_iyy_c c) (p_ixy_c c) (scale_E k el) g) with (spar (p_ixx_c c) (p_iyy_c c) (p_ixy_c c) el g). ring.
Qed.

Lemma psi_B' v : B wels (w_psi w') v = B wels (fun i => k * w_psi w i + 0 * w_psi w i) v.
Proof.
  rewrite B_lin. rewrite psi_B.
  destruct sp' as [[_ [Ho _]] _]. destruct (a_ex _ _ _ _ _ _ _ HA' _ _ _ Ho) as [lam Hl].
  destruct (K_lam n X Y els' on' ne' pos' _ _ _ Hl (fp_sum n X Y els' composite on' ne' pos')) as [_ [H _]]. specialize (H v).
  fold t' in H. fold c' in H. rewrite s_wels, s_B, s_nu in H. rewrite s_c in H. cbn [p_ixx_c p_iyy_c p_ixy_c] in H.
  destruct (fp_scaled v) as [E _]. apply (Rmult_eq_reg_l k); [|lra]. rewrite H, E. ring.
Qed.
Lemma phi_B' v : B wels (w_phi w') v = B wels (fun i => k * w_phi w i + 0 * w_phi w i) v.
Proof.
  rewrite B_lin. rewrite phi_B.
  destruct sp' as [[_ [_ Ho]] _]. destruct (a_ex _ _ _ _ _ _ _ HA' _ _ _ Ho) as [lam Hl].
  destruct (K_lam n X Y els' on' ne' pos' _ _ _ Hl (fh_sum n X Y els' composite on' ne' pos')) as [_ [H _]]. specialize (H v).
  fold t' in H. fold c' in H. rewrite s_wels, s_B, s_nu in H. rewrite s_c in H. cbn [p_ixx_c p_iyy_c p_ixy_c] in H.
  destruct (fp_scaled v) as [_ E]. apply (Rmult_eq_reg_l k); [|lra]. rewrite H, E. ring.
Qed.
Lemma psi_grad el g : In el wels -> sum1 g -> Gx (w_psi w') el g = k * Gx (w_psi w) el g /\ Gy (w_psi w') el g = k * Gy (w_psi w) el g.
Proof.
  intros Hel Hg. destruct (grad_unique n _ _ wels Hm2 HE' _ _ psi_B' el g Hel Hg) as [-> ->]. rewrite Gx_lin, Gy_lin. split; ring.
Qed.
Lemma phi_grad el g : In el wels -> sum1 g -> Gx (w_phi w') el g = k * Gx (w_phi w) el g /\ Gy (w_phi w') el g = k * Gy (w_phi w) el g.
Proof.
  intros Hel Hg. destruct (grad_unique n _ _ wels Hm2 HE' _ _ phi_B' el g Hel Hg) as [-> ->]. rewrite Gx_lin, Gy_lin. split; ring.
Qed.

Lemma L_of_grad u u' a : (forall el g, In el wels -> sum1 g -> Gx u' el g = a * Gx u el g /\ Gy u' el g = a * Gy u el g) ->
  L wels u' = a * L wels u.
Proof.
  intros H. unfold L. rewrite <- MQ_scal. apply MQ_ext. intros el g Hel Hg. destruct (H el g Hel (sum1_4 g Hg)) as [-> ->]. ring.
Qed.
Let ft := snd (assemble_torsion n wels).
Let ft' := snd (assemble_torsion n (map (scale_E k) wels)).
Lemma ft_scaled v : dotn n v ft' = k * L wels v.
Proof.
  unfold ft'. rewrite <- s_L. rewrite <- s_wels. rewrite (L_form n _ _ _ (Hmw n X Y els' on')). fold t' c'. rewrite s_wels. reflexivity.
Qed.
Lemma ft_form v : dotn n v ft = L wels v. Proof. apply (L_form n _ _ wels Hm2). Qed.

(** shear deformation coefficients *)
Lemma sd_scaled : let K0 := shear_deformation (p_ixx_c c) (p_iyy_c c) (p_ixy_c c) nu (w_psi w) (w_phi w) wels in
  shear_deformation (k * p_ixx_c c) (k * p_iyy_c c) (k * p_ixy_c c) nu (w_psi w') (w_phi w') (map (scale_E k) wels) =
  (k ^ 3 * fst (fst K0), k ^ 3 * snd (fst K0), k ^ 3 * snd K0).
Proof.
  cbv zeta. rewrite !shear_deformation_form. cbv zeta. cbn [fst snd]. rewrite !MQ_scale.
  assert (E : forall F F' : field, (forall el g, In el wels -> In g gps4 -> F el g = k ^ 2 * F' el g) ->
     k * MQ wels F = k ^ 3 * MQ wels F').
  { intros F F' H. replace (k ^ 3 * MQ wels F') with (k * (k ^ 2 * MQ wels F')) by ring. f_equal. rewrite <- MQ_scal. apply MQ_ext. exact H. }
  assert (G : forall el g, In el wels -> In g gps4 ->
     Gx (w_psi w') (scale_E k el) g = k * Gx (w_psi w) el g /\ Gy (w_psi w') (scale_E k el) g = k * Gy (w_psi w) el g /\
     Gx (w_phi w') (scale_E k el) g = k * Gx (w_phi w) el g /\ Gy (w_phi w') (scale_E k el) g = k * Gy (w_phi w) el g).
  { intros el g Hel Hg. destruct (psi_grad el g Hel (sum1_4 g Hg)). destruct (phi_grad el g Hel (sum1_4 g Hg)). auto. }
  f_equal; [f_equal|]; apply E; intros el g Hel Hg; destruct (G el g Hel Hg) as [G1 [G2 [G3 G4]]]; rewrite ?G1, ?G2, ?G3, ?G4;
    rewrite s_spar; cbv zeta; cbn [sp_d1 sp_d2 sp_h1 sp_h2];
    change (spar (p_ixx_c c) (p_iyy_c c) (p_ixy_c c) (scale_E k el) g) with (spar (p_ixx_c c) (p_iyy_c c) (p_ixy_c c) el g); ring.
Qed.

Lemma wi_scaled : let a := sc_warping_integrals (p_ixx_c c) (p_iyy_c c) (p_ixy_c c) (w_omega w) wels in
  let a' := sc_warping_integrals (k * p_ixx_c c) (k * p_iyy_c c) (k * p_ixy_c c) (w_omega w') (map (scale_E k) wels) in
  wi_scx a' = k ^ 2 * wi_scx a /\ wi_scy a' = k ^ 2 * wi_scy a.
Proof.
  cbv zeta. rewrite !sc_warping_form. cbn [wi_scx wi_scy]. rewrite !MQ_scale.
  split; (match goal with |- _ = k ^ 2 * ?z => replace (k ^ 2 * z) with (k * (k * z)) by ring end); f_equal; rewrite <- MQ_scal; apply MQ_ext; intros el g _ _;
    change (px (scale_E k el) g) with (px el g); change (py (scale_E k el) g) with (py el g); ring.
Qed.
Lemma mono_scaled phi : let a := mono_integrals phi wels in let a' := mono_integrals phi (map (scale_E k) wels) in
  mi_x a' = k * mi_x a /\ mi_y a' = k * mi_y a /\ mi_11 a' = k * mi_11 a /\ mi_22 a' = k * mi_22 a.
Proof. cbv zeta. rewrite !mono_form. cbn [mi_x mi_y mi_11 mi_22]. rewrite !MQ_scale. repeat match goal with |- _ /\ _ => split end; reflexivity. Qed.


Context (Hnu : 1 + nu <> 0).

Lemma scale_results : scaled_results k w w'.
Proof.
  pose proof sp0 as S. pose proof sp' as S'. cbv zeta in S, S'. fold t' in S'. fold c' in S'. rewrite s_wels in S'.
  assert (EA' := a_ea _ _ _ _ _ _ _ HA'). assert (EA := a_ea _ _ _ _ _ _ _ HA). fold els' t' in EA'. fold t in EA.
  rewrite s_nu in S'. rewrite s_c in S'. cbn [p_cx p_cy p_ixx_c p_iyy_c p_ixy_c p_i11_c p_i22_c p_phi] in S'.
  rewrite sd_scaled in S'. fold t in S. fold c in S. fold wels in S.
  change (if composite then nu_eff t else 0) with nu in S. fold ft in S. fold ft' in S'.
  destruct wi_scaled as [W1 W2]. rewrite W1, W2 in S'.
  destruct (mono_scaled (p_phi c)) as [M1 [M2 [M3 M4]]]. rewrite M1, M2, M3, M4 in S'. clear W1 W2 M1 M2 M3 M4.
  rewrite (dotn_comm n ft' (w_phi w')), (dotn_comm n ft' (w_psi w')), !ft_scaled in S'.
  rewrite (dotn_comm n ft (w_phi w)), (dotn_comm n ft (w_psi w)), !ft_form in S.
  rewrite (L_of_grad _ _ 1 (fun el g He Hg => ltac:(rewrite !Rmult_1_l; exact (om_grad el g He Hg)))) in S'.
  rewrite (L_of_grad _ _ k psi_grad), (L_of_grad _ _ k phi_grad) in S'.
  set (lo := L wels (w_omega w)) in *. set (lp := L wels (w_psi w)) in *. set (lh := L wels (w_phi w)) in *.
  set (K0 := shear_deformation (p_ixx_c c) (p_iyy_c c) (p_ixy_c c) nu (w_psi w) (w_phi w) wels) in *.
  set (WI := sc_warping_integrals (p_ixx_c c) (p_iyy_c c) (p_ixy_c c) (w_omega w) wels) in *.
  set (M := mono_integrals (p_phi c) wels) in *.
  rewrite s_t in S'. cbn [t_area t_ea] in S'.
  destruct (Hdet n X Y els on ne pos) as [D1 [D2 [D3 [D4 D5]]]]. fold t c in D1, D2, D3, D4, D5.
  assert (Dn := delta_ne n X Y els solve composite w on ne pos (a_w _ _ _ _ _ _ _ HA) Hnu).
  destruct S as [_ [S2 [S3 [S4 [S5 [S6 [S7 [S8 [S9 [[S10 [S11 S12]] [[S13 S14] [B1 [B2 [B3 [B4 [B5 [B6 [B7 B8]]]]]]]]]]]]]]]]]].
  destruct S' as [_ [R2 [R3 [R4 [R5 [R6 [R7 [R8 [R9 [[R10 [R11 R12]] [[R13 R14] [C1 [C2 [C3 [C4 [C5 [C6 [C7 C8]]]]]]]]]]]]]]]]]].
  cbn [fst snd] in R10, R11, R12, R13, R14.
  assert (ED : w_delta_s w' = k ^ 2 * w_delta_s w) by (rewrite R3, S3; ring). rewrite ED in *. clear R3 S3.
  assert (EX : w_x_se w' = w_x_se w) by (rewrite R4, S4; field; split; [exact Dn|lra]).
  assert (EY : w_y_se w' = w_y_se w) by (rewrite R5, S5; field; split; [exact Dn|lra]).
  clear R4 S4 R5 S5 R7 R8 R9 S7 S8 S9. rewrite EX, EY in *. rewrite <- S6 in R6. injection R6 as E11 E22. rewrite E11, E22 in *.
  assert (K1 : forall x, (k ^ 2 * w_delta_s w) ^ 2 / (k ^ 3 * x) = k * (w_delta_s w ^ 2 / x)).
  { intros x. unfold Rdiv. rewrite Rinv_mult. set (ix := / x). field. lra. }
  assert (K2 : forall x a, k ^ 3 * x * a / (k ^ 2 * w_delta_s w) ^ 2 = / k * (x * a / w_delta_s w ^ 2)).
  { intros x a. field. split; [exact Dn|lra]. }
  rewrite !K1 in R10, R11, R12. rewrite !K2 in R13, R14.
  unfold scaled_results. repeat match goal with |- _ /\ _ => split end; try congruence.
  - rewrite R2, S2. ring.
  - rewrite R13, S13. set (al := fst (fst K0) * t_area t / w_delta_s w ^ 2). set (be := snd (fst K0) * t_area t / w_delta_s w ^ 2).
    set (ga := snd K0 * t_area t / w_delta_s w ^ 2). clearbody al be ga.
    match goal with |- t_area t / ?x = k * (t_area t / ?y) => replace x with (/ k * y) by ring; generalize y end. intros y.
    unfold Rdiv. rewrite Rinv_mult, Rinv_inv. ring.
  - rewrite R14, S14. set (al := fst (fst K0) * t_area t / w_delta_s w ^ 2). set (be := snd (fst K0) * t_area t / w_delta_s w ^ 2).
    set (ga := snd K0 * t_area t / w_delta_s w ^ 2). clearbody al be ga.
    match goal with |- t_area t / ?x = k * (t_area t / ?y) => replace x with (/ k * y) by ring; generalize y end. intros y.
    unfold Rdiv. rewrite Rinv_mult, Rinv_inv. ring.
  - rewrite C1, B1. field. lra.
  - rewrite C2, B2. field. lra.
  - rewrite C3, B3. field. lra.
  - rewrite C4, B4. field. lra.
  - rewrite C5, B5. field. lra.
  - rewrite C6, B6. field. lra.
  - rewrite C7, B7. field. lra.
  - rewrite C8, B8. field. lra.
Qed.

(** connected sections: the warping function itself is the same *)
Context (Hc : connected els).

Lemma wels_connected : connected wels.
Proof.
  unfold wels. intros a b Ha Hb. apply in_map_iff in Ha. apply in_map_iff in Hb. destruct Ha as [a0 [<- Ha]]. destruct Hb as [b0 [<- Hb]].
  destruct (Hc a0 b0 Ha Hb) as [path [Hp Hch]]. exists (map (shift_el (p_cx c) (p_cy c)) path). split.
  - intros e He. apply in_map_iff in He. destruct He as [e0 [<- He]]. apply in_map, Hp, He.
  - clear Ha Hb Hp. revert a0 Hch. induction path as [|p path IH]; intros a0 Hch; [exact Hch|]. destruct Hch as [H1 H2]. split; [exact H1|].
    apply IH, H2.
Qed.

Lemma om_same : forall el, In el wels -> forall i, In i (ids_list (el_ids el)) -> w_omega w' i = w_omega w i.
Proof.
  destruct (unique_connected n _ _ wels Hm2 HE' (w_omega w) (w_omega w') wels_connected (Hnw n X Y els solve composite w on ne pos (a_w _ _ _ _ _ _ _ HA))) as [d Hd].
  { intros v. unfold B. apply MQ_ext. intros el g Hel Hg. destruct (om_grad el g Hel (sum1_4 g Hg)) as [-> ->]. reflexivity. }
  assert (V : forall el g, In el wels -> In g gps4 -> Vl (w_omega w') el g = Vl (w_omega w) el g + d).
  { intros el g Hel Hg. destruct (const_fields _ _ _ _ Hm2 1 el g Hel (sum1_4 g Hg)) as [_ [_ C3]].
    transitivity (Vl (fun i => 1 * w_omega w i + d * (fun _ => 1) i) el g).
    - unfold Vl. f_equal. specialize (Hd el Hel). unfold ids_list in Hd. cbn [In] in Hd. unfold gather.
      rewrite !Hd by tauto. f_equal; ring.
    - rewrite Vl_lin, C3. ring. }
  assert (Z : Mn wels (w_omega w') = Mn wels (w_omega w) + d * MQ wels (fun _ _ => 1)).
  { unfold Mn. transitivity (1 * MQ wels (Vl (w_omega w)) + d * MQ wels (fun _ _ => 1)); [|ring]. rewrite <- MQ_lin2. apply MQ_ext.
    intros el g Hel Hg. rewrite V by assumption. ring. }
  assert (M0 : Mn wels (w_omega w) = 0) by (apply (omega_mean n X Y els solve composite w on ne pos (a_ex _ _ _ _ _ _ _ HA) (a_w _ _ _ _ _ _ _ HA))).
  assert (M1 : Mn wels (w_omega w') = 0).
  { pose proof (omega_mean n X Y els' solve' composite w' on' ne' pos' (a_ex _ _ _ _ _ _ _ HA') (a_w _ _ _ _ _ _ _ HA')) as E.
    fold t' in E. fold c' in E. rewrite s_wels in E. unfold Mn in E. rewrite MQ_scale in E.
    apply (Rmult_eq_reg_l k); [|lra]. rewrite Rmult_0_r. exact E. }
  pose proof (MQ_one n X Y els on ne pos) as M2. fold t in M2. fold c in M2. fold wels in M2.
  rewrite M0, M1, M2 in Z. pose proof s_ea.
  assert (d = 0) by (apply (Rmult_eq_reg_r (t_ea t)); lra). subst d.
  intros el Hel i Hi. rewrite (Hd el Hel i Hi). ring.
Qed.

Lemma scale_moments : scaled_warping_moments k w w'.
Proof.
  pose proof sp0 as S. pose proof sp' as S'. cbv zeta in S, S'. fold t' in S'. fold c' in S'. rewrite s_wels in S'.
  assert (EA' := a_ea _ _ _ _ _ _ _ HA'). assert (EA := a_ea _ _ _ _ _ _ _ HA). fold els' t' in EA'. fold t in EA.
  rewrite s_c in S'. cbn [p_cx p_cy p_ixx_c p_iyy_c p_ixy_c p_i11_c p_i22_c p_phi] in S'.
  fold t in S. fold c in S. fold wels in S. rewrite EA in S. rewrite EA' in S'. rewrite s_t in S'. cbn [t_ea] in S'.
  assert (V : forall el g, In el wels -> Vl (w_omega w') (scale_E k el) g = Vl (w_omega w) el g).
  { intros el g Hel. change (Vl (w_omega w') (scale_E k el) g) with (Vl (w_omega w') el g). unfold Vl. f_equal. unfold gather.
    pose proof (om_same el Hel) as H. unfold ids_list in H. cbn [In] in H. rewrite !H by tauto. reflexivity. }
  rewrite sc_warping_form in S. rewrite sc_warping_form in S'. cbn [wi_ix wi_iy wi_i wi_q] in S, S'. rewrite !MQ_scale in S'.
  assert (E : forall F F' : field, (forall el g, In el wels -> In g gps4 -> F el g = F' el g) -> k * MQ wels F = k * MQ wels F').
  { intros. f_equal. apply MQ_ext. assumption. }
  destruct S as [_ [_ [_ [_ [_ [_ [S7 [S8 [S9 _]]]]]]]]]. destruct S' as [_ [_ [_ [_ [_ [_ [R7 [R8 [R9 _]]]]]]]]].
  rewrite (E (fun el g => px (scale_E k el) g * Vl (w_omega w') (scale_E k el) g) (fun el g => px el g * Vl (w_omega w) el g)) in R7, R8, R9
    by (intros; rewrite V by assumption; reflexivity).
  rewrite (E (fun el g => py (scale_E k el) g * Vl (w_omega w') (scale_E k el) g) (fun el g => py el g * Vl (w_omega w) el g)) in R7, R8, R9
    by (intros; rewrite V by assumption; reflexivity).
  rewrite (E (fun el g => Vl (w_omega w') (scale_E k el) g) (fun el g => Vl (w_omega w) el g)) in R9 by (intros; rewrite V by assumption; reflexivity).
  rewrite (E (fun el g => Vl (w_omega w') (scale_E k el) g ^ 2) (fun el g => Vl (w_omega w) el g ^ 2)) in R9 by (intros; rewrite V by assumption; reflexivity).
  destruct scale_results as [_ [EX [EY _]]]. rewrite EX, EY in R9.
  destruct (Hdet n X Y els on ne pos) as [D1 [D2 [D3 [D4 D5]]]]. fold t c in D1, D2, D3, D4, D5. pose proof s_ea.
  unfold scaled_warping_moments. repeat match goal with |- _ /\ _ => split end.
  - rewrite R7, S7. replace (k * p_ixx_c c * (k * p_iyy_c c) - (k * p_ixy_c c) ^ 2) with (k ^ 2 * (p_ixx_c c * p_iyy_c c - p_ixy_c c ^ 2)) by ring.
    set (d := p_ixx_c c * p_iyy_c c - p_ixy_c c ^ 2) in *. field. split; lra.
  - rewrite R8, S8. replace (k * p_ixx_c c * (k * p_iyy_c c) - (k * p_ixy_c c) ^ 2) with (k ^ 2 * (p_ixx_c c * p_iyy_c c - p_ixy_c c ^ 2)) by ring.
    set (d := p_ixx_c c * p_iyy_c c - p_ixy_c c ^ 2) in *. field. split; lra.
  - rewrite R9, S9. change (fun (el : tri6) (g : gp) => Vl (w_omega w) el g) with (Vl (w_omega w)). field. split; lra.
Qed.
End Scale.
