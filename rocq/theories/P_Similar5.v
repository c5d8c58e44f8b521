(** Proofs: the stresses of a section and of its image. *)
From Coq Require Import Reals List Permutation Bool Arith Lra Lia.
From Verif Require Import Base S_Integral M_Fea S_Fem M_Post M_Section M_Stress S_Section S_Post S_Warp S_Stress S_Similar S_StressImage
  P_Integral P_Fea P_Geom P_Elem P_Section P_Totals P_Post P_Yield P_Warp P_Warp2 P_Warp3 P_Warp5 P_Warp7 P_Similar P_Similar2 P_Stress P_Similar4.
Import ListNotations.
Local Open Scope R_scope.

(** ** The stress inside an element in terms of the fields *)
Section Form.
Context (composite : bool) (t : totals) (c : centroidal) (w : warping) (a : actions) (P : stress_par) (om ps ph : nat -> R).
Context (HP : stress_parameters composite t c (Some w) a = Ok (P, om, ps, ph)).
Let nu := if composite then nu_eff t else 0.
Lemma gp_form el g : let W := shift_el (p_cx c) (p_cy c) el in let E := m_E (el_mat el) in let x := px W g in let y := py W g in
  let co := cos (p_phi c * PI / 180) in let si := sin (p_phi c * PI / 180) in let det := p_ixx_c c * p_iyy_c c - p_ixy_c c ^ 2 in
  let S := element_stress_gp el a P (gather om (el_ids el)) (gather ps (el_ids el)) (gather ph (el_ids el)) g in
  let sp := spar (p_ixx_c c) (p_iyy_c c) (p_ixy_c c) W g in
  sg_zz_mxx S + sg_zz_myy S = E / det * (- (p_ixy_c c * a_mxx a + p_ixx_c c * a_myy a) * x + (p_iyy_c c * a_mxx a + p_ixy_c c * a_myy a) * y) /\
  sg_zz_m11 S = E * a_m11 a / p_i11_c c * (y * co - x * si) /\ sg_zz_m22 S = E * - a_m22 a / p_i22_c c * (x * co + y * si) /\
  sg_zx_mzz S = E * a_mzz a / w_j w * (Gx (w_omega w) W g - y) /\ sg_zy_mzz S = E * a_mzz a / w_j w * (Gy (w_omega w) W g + x) /\
  sg_zx_vx S + sg_zx_vy S = E / w_delta_s w * (a_vx a * (Gx (w_psi w) W g - nu / 2 * sp_d1 sp) + a_vy a * (Gx (w_phi w) W g - nu / 2 * sp_h1 sp)) /\
  sg_zy_vx S + sg_zy_vy S = E / w_delta_s w * (a_vx a * (Gy (w_psi w) W g - nu / 2 * sp_d2 sp) + a_vy a * (Gy (w_phi w) W g - nu / 2 * sp_h2 sp)).
Proof.
  cbv zeta. unfold stress_parameters in HP. unfold needs_warping in HP.
  assert (Z : forall x y z : R, x = 0 -> 0 = y * x / z) by (intros x y z ->; unfold Rdiv; ring).
  unfold element_stress_gp. unfold principal_coordinate, spar, px, py, Gx, Gy, gx, gy, shp. cbn [el_x el_y el_ids el_mat shift_el].
  destruct (Req_EM_T (a_vx a) 0) as [V|V]; destruct (Req_EM_T (a_vy a) 0) as [V'|V']; destruct (Req_EM_T (a_mzz a) 0) as [M|M]; cbn [orb] in HP; injection HP as <- <- <- <-;
    cbn [st_ea st_cx st_cy st_ixx st_iyy st_ixy st_i11 st_i22 st_phi st_j st_nu st_delta_s sg_zz_mxx sg_zz_myy sg_zz_m11 sg_zz_m22 sg_zx_mzz sg_zy_mzz sg_zx_vx sg_zx_vy sg_zy_vx sg_zy_vy];
    rewrite ?V, ?V', ?M; fold nu; (split; [unfold Rdiv; ring|]); (split; [unfold Rdiv; ring|]); (split; [unfold Rdiv; ring|]); repeat split; unfold Rdiv; ring.
Qed.
End Form.

(** ** The stresses at corresponding points *)
Section Points.
Context (n : nat) (m : similarity) (Hs : proper_sim m) (p q : nat -> nat) (Hpq : renumbering n p q).
Context (X Y X' Y' : nat -> R) (els els' : list tri6) (solve solve' : lg_solver) (composite : bool) (w w' : warping).
Context (HI : mesh_image m p els els').
Context (HA : analysed n X Y els solve composite w) (HA' : analysed n X' Y' els' solve' composite w').
Context (Hnu : 1 + nu_used composite els <> 0).
Let t := section_totals els.
Let c := centroidal_of t.
Let t' := section_totals els'.
Let c' := centroidal_of t'.
Context (sg : R) (A : actions) (P P' : stress_par) (om ps ph om' ps' ph' : nat -> R).
Context (Hax : (a_m11 A = 0 /\ a_m22 A = 0) \/ axes_follow m sg els els').
Context (HP : stress_parameters composite t c (Some w) A = Ok (P, om, ps, ph)).
Context (HP' : stress_parameters composite t' c' (Some w') (moved_actions m sg A) = Ok (P', om', ps', ph')).
Let a := s_a m. Let b := s_b m. Let e := s_e m. Let k2 := scale2 m. Let k := scale m.
Let St el g := element_stress_gp el A P (gather om (el_ids el)) (gather ps (el_ids el)) (gather ph (el_ids el)) g.
Let St' el g := element_stress_gp el (moved_actions m sg A) P' (gather om' (el_ids el)) (gather ps' (el_ids el)) (gather ph' (el_ids el)) g.

Lemma k_pos : 0 < k /\ k ^ 2 = k2 /\ k2 = a ^ 2 + b ^ 2 /\ k <> 0.
Proof.
  destruct (sim_det m Hs) as [K _]. fold k2 in K. assert (0 < k) by (apply sqrt_lt_R0; exact K). repeat split; [assumption| |lra].
  unfold k, scale. rewrite pow2_sqrt by (fold k2; lra). reflexivity.
Qed.
Lemma gp_image el el' s : In el els -> el_mat el' = el_mat el ->
  tracks (linear m) p (shift_el (p_cx c) (p_cy c) el) (shift_el (p_cx c') (p_cy c') el') s -> forall g, sum1 g ->
  sg_zz_mxx (St' el' (s g)) + sg_zz_myy (St' el' (s g)) = sg_zz_mxx (St el g) + sg_zz_myy (St el g) /\
  sg_zz_m11 (St' el' (s g)) = sg_zz_m11 (St el g) /\ sg_zz_m22 (St' el' (s g)) = sg_zz_m22 (St el g) /\
  sg_zx_mzz (St' el' (s g)) = rot_x m (sg_zx_mzz (St el g)) (sg_zy_mzz (St el g)) /\
  sg_zy_mzz (St' el' (s g)) = rot_y m (sg_zx_mzz (St el g)) (sg_zy_mzz (St el g)) /\
  sg_zx_vx (St' el' (s g)) + sg_zx_vy (St' el' (s g)) = rot_x m (sg_zx_vx (St el g) + sg_zx_vy (St el g)) (sg_zy_vx (St el g) + sg_zy_vy (St el g)) /\
  sg_zy_vx (St' el' (s g)) + sg_zy_vy (St' el' (s g)) = rot_y m (sg_zx_vx (St el g) + sg_zx_vy (St el g)) (sg_zy_vx (St el g) + sg_zy_vy (St el g)).
Proof.
  intros Hel Hmat K g Hg. set (W := shift_el (p_cx c) (p_cy c) el) in *. set (W' := shift_el (p_cx c') (p_cy c') el') in *.
  pose proof (gp_form composite t c w A P om ps ph HP el g) as F. pose proof (gp_form composite t' c' w' _ P' om' ps' ph' HP' el' (s g)) as F'. cbv zeta in F, F'.
  fold W in F. fold W' in F'. fold (St el g) in F. fold (St' el' (s g)) in F'. rewrite Hmat in F'.
  assert (In W (map (shift_el (p_cx c) (p_cy c)) els)) as HW by (apply in_map, Hel).
  rewrite !(t_gx m p _ W W' s g K Hg), !(t_gy m p _ W W' s g K Hg) in F'.
  destruct (om_g n m Hs p q Hpq X Y X' Y' els els' solve solve' composite w w' HI HA HA' W g HW Hg) as [O1 O2]. rewrite O1, O2 in F'.
  destruct (psi_g n m Hs p q Hpq X Y X' Y' els els' solve solve' composite w w' HI HA HA' W g HW Hg) as (S1 & S2 & S3 & S4). rewrite S1, S2, S3, S4 in F'.
  destruct (v_par n m Hs p X Y X' Y' els els' solve solve' composite w w' HI HA HA' W W' s g K Hg) as (V1 & V2 & V3 & V4).
  change (centroidal_of (section_totals els')) with c' in V1, V2, V3, V4. change (centroidal_of (section_totals els)) with c in V1, V2, V3, V4. rewrite V1, V2, V3, V4 in F'.
  rewrite (t_px m p W W' s g K Hg), (t_py m p W W' s g K Hg) in F'.
  destruct (image_results n m Hs p q Hpq X Y X' Y' els els' solve solve' composite w w' HI HA HA' Hnu) as (J & D & _). rewrite J, D in F'.
  destruct (i11_image n m Hs p X Y X' Y' els els' solve solve' composite w w' HI HA HA') as (I1 & I2). change (centroidal_of (section_totals els')) with c' in I1, I2. change (centroidal_of (section_totals els)) with c in I1, I2. rewrite I1, I2 in F'.
  pose proof (det_image n m Hs p X Y X' Y' els els' solve solve' composite w w' HI HA HA') as DI. change (centroidal_of (section_totals els')) with c' in DI. change (centroidal_of (section_totals els)) with c in DI. rewrite DI in F'.
  pose proof (v_nu n m Hs p X Y X' Y' els els' solve solve' composite w w' HI HA HA') as N. change (if composite then nu_eff t' else 0) with (nu_used composite els') in F'. rewrite N in F'.
  change (if composite then nu_eff t else 0) with (nu_used composite els) in F.
  destruct (v_c n m Hs p X Y X' Y' els els' solve solve' composite w w' HI HA HA') as (_ & _ & C3 & C4 & C5). change (centroidal_of (section_totals els')) with c' in C3, C4, C5. change (centroidal_of (section_totals els)) with c in C3, C4, C5. rewrite C3, C4, C5 in F'.
  clear O1 O2 S1 S2 S3 S4 V1 V2 V3 V4 J D I1 I2 DI N C3 C4 C5.
  unfold axes_follow in Hax. cbv zeta in Hax. fold t in Hax. fold t' in Hax. fold c in Hax. fold c' in Hax.
  destruct k_pos as (Kp & K2 & K2e & Kn). fold k2 in F'. fold a b e in F'.
  cbn [moved_actions a_n a_vx a_vy a_mxx a_myy a_m11 a_m22 a_mzz] in F'. fold k e in F'. unfold rot_x, rot_y in F', Hax |- *. unfold lin_x, lin_y in F', Hax |- *. fold k in F', Hax |- *. fold a b e in F', Hax |- *.
  destruct F as (F1 & F2 & F3 & F4 & F5 & F6 & F7). destruct F' as (G1 & G2 & G3 & G4 & G5 & G6 & G7).
  rewrite F1, F2, F3, F4, F5, F6, F7, G1, G2, G3, G4, G5, G6, G7. clear F1 F2 F3 F4 F5 F6 F7 G1 G2 G3 G4 G5 G6 G7.
  generalize (Gx (w_omega w) W g) (Gy (w_omega w) W g) (Gx (w_psi w) W g) (Gy (w_psi w) W g) (Gx (w_phi w) W g) (Gy (w_phi w) W g) (px W g) (py W g).
  generalize (sp_d1 (spar (p_ixx_c c) (p_iyy_c c) (p_ixy_c c) W g)) (sp_d2 (spar (p_ixx_c c) (p_iyy_c c) (p_ixy_c c) W g)) (sp_h1 (spar (p_ixx_c c) (p_iyy_c c) (p_ixy_c c) W g)) (sp_h2 (spar (p_ixx_c c) (p_iyy_c c) (p_ixy_c c) W g)).
  revert Hax.
  generalize (cos (p_phi c * PI / 180)) (sin (p_phi c * PI / 180)) (cos (p_phi c' * PI / 180)) (sin (p_phi c' * PI / 180)). intros co si co' si' Hax d1 d2 h1 h2 o1 o2 s1 s2 f1 f2 x y.
  generalize (nu_used composite els). intros nu. generalize (m_E (el_mat el)). intros E.
  assert (Q2 : a ^ 2 = k ^ 2 - b ^ 2) by lra. rewrite <- K2. clear K2e.
  assert (M4 : forall z, / ((k ^ 2) ^ 4 * z) = / k ^ 8 * / z) by (intros z; rewrite Rinv_mult; do 2 f_equal; ring).
  assert (M2 : forall z, / ((k ^ 2) ^ 2 * z) = / k ^ 4 * / z) by (intros z; rewrite Rinv_mult; do 2 f_equal; ring).
  assert (He : e = 1 \/ e = -1) by exact (proj1 Hs).
  clearbody a b e k.
  repeat match goal with |- _ /\ _ => split end.
  - unfold Rdiv at 1. rewrite M4. unfold Rdiv. set (z := / (_ - _)). clearbody z. destruct He as [-> | ->]; field [Q2]; exact Kn.
  - unfold Rdiv at 1. rewrite M2. unfold Rdiv. set (z := / p_i11_c c). clearbody z. destruct Hax as [[-> _]|([-> | ->] & -> & ->)]; [ring| |]; destruct He as [-> | ->]; field [Q2]; exact Kn.
  - unfold Rdiv at 1. rewrite M2. unfold Rdiv. set (z := / p_i22_c c). clearbody z. destruct Hax as [[_ ->]|([-> | ->] & -> & ->)]; [ring| |]; destruct He as [-> | ->]; field [Q2]; exact Kn.
  - unfold Rdiv at 1. rewrite M2. unfold Rdiv. set (z := / w_j w). clearbody z. destruct He as [-> | ->]; field [Q2]; exact Kn.
  - unfold Rdiv at 1. rewrite M2. unfold Rdiv. set (z := / w_j w). clearbody z. destruct He as [-> | ->]; field [Q2]; exact Kn.
  - unfold Rdiv at 1. rewrite M4. unfold Rdiv. set (z := / w_delta_s w). clearbody z. destruct He as [-> | ->]; field [Q2]; exact Kn.
  - unfold Rdiv at 1. rewrite M4. unfold Rdiv. set (z := / w_delta_s w). clearbody z. destruct He as [-> | ->]; field [Q2]; exact Kn.
Qed.

Lemma el_tracks el el' T Tc s Te : In el els -> listing T Tc s Te -> el' = Te (move_el m p el) ->
  el_mat el' = el_mat el /\ tracks (linear m) p (shift_el (p_cx c) (p_cy c) el) (shift_el (p_cx c') (p_cy c') el') s.
Proof.
  intros Hel L ->. split; [rewrite (l_mat _ _ _ _ L); reflexivity|]. rewrite (l_shift _ _ _ _ L).
  destruct (v_c n m Hs p X Y X' Y' els els' solve solve' composite w w' HI HA HA') as (C1 & C2 & _).
  change (centroidal_of (section_totals els')) with c' in C1, C2. change (centroidal_of (section_totals els)) with c in C1, C2. rewrite C1, C2.
  replace (shift_el _ _ (move_el m p el)) with (move_el (linear m) p (shift_el (p_cx c) (p_cy c) el))
    by (unfold shift_el, move_el, linear, sim_x, sim_y, zip6, map6; cbn [el_x el_y el_ids el_mat v0 v1 v2 v3 v4 v5 s_a s_b s_e s_dx s_dy]; f_equal; f_equal; ring).
  assert (O : ok_el (shift_el (p_cx c) (p_cy c) el)).
  { apply valid_ok. apply (on_valid n _ _ _ (Hmw n X Y els (a_on _ _ _ _ _ _ _ HA))). apply (in_map (shift_el (p_cx c) (p_cy c)) els el Hel). }
  destruct (move_tracks (linear m) p _ (linear_proper m Hs) O) as [O1 K]. apply (l_tracks _ _ _ _ L _ _ _ _ _ K O1).
Qed.

(** ** The nodal stresses of a group of elements *)
Context (gels gels' : list tri6) (Hin : incl gels els) (i : nat) (Hi : (i < n)%nat).
Definition ext_of (F : gp -> R) : V6 := extrapolate_to_nodes (atg F).
Definition avg (F : tri6 -> gp -> R) (l : list tri6) (j : nat) : R := average (num (fun el => ext_of (F el)) l) (den l) j.
Lemma avg_lin F G u v l j : avg (fun el g => u * F el g + v * G el g) l j = u * avg F l j + v * avg G l j.
Proof.
  unfold avg. apply average_lin. intros el _. unfold ext_of, extrapolate_to_nodes, mulM6, add6, scal6, map6, zip6, atg. rewrite !col6_at. 
  unfold dot6. cbn [v0 v1 v2 v3 v4 v5]. f_equal; ring.
Qed.
Lemma ids_nodup el : In el gels -> NoDup (ids_list (map_conn p (el_ids el))).
Proof.
  intros He. destruct (a_on _ _ _ _ _ _ _ HA el (Hin el He)) as (_ & D & Hb & _).
  change (ids_list (map_conn p (el_ids el))) with (map p (ids_list (el_ids el))). revert D Hb. induction (ids_list (el_ids el)) as [|x l IH]; intros D Hb; constructor.
  - intros Hx. apply in_map_iff in Hx. destruct Hx as (y & E & Hy). inversion D as [|? ? N D']. apply N. destruct (Hpq x (Hb x (or_introl eq_refl))) as [_ <-]. rewrite <- E. destruct (Hpq y (Hb y (or_intror Hy))) as [_ ->]. exact Hy.
  - inversion D as [|? ? N D']. apply IH; [exact D'|]. intros k0 Hk. apply Hb. right. exact Hk.
Qed.
Lemma ids_eqb el j : In el gels -> In j (ids_list (el_ids el)) -> Nat.eqb (p i) (p j) = Nat.eqb i j.
Proof.
  intros He Hj. destruct (a_on _ _ _ _ _ _ _ HA el (Hin el He)) as (_ & _ & Hb & _). destruct (Nat.eqb_spec i j) as [->|D]; [apply Nat.eqb_refl|].
  apply Nat.eqb_neq. intros E. apply D. rewrite <- (proj2 (Hpq i Hi)), E. apply (Hpq j (Hb j Hj)).
Qed.
Lemma atg_ext F G : (forall g, In g gps6 -> F g = G g) -> atg F = atg G.
Proof. intros H. unfold atg. rewrite !col6_at. f_equal; apply H; unfold gps6; cbn [In nth]; tauto. Qed.
Lemma atg_within F M : (forall g, In g gps6 -> Rabs (F g) <= M) -> within (atg F) M.
Proof. intros H. apply within6. unfold atg. rewrite col6_at. cbn [v0 v1 v2 v3 v4 v5]. repeat split; apply H; unfold gps6; cbn [In nth]; tauto. Qed.
Lemma avg_image (F F' : tri6 -> gp -> R) M : mesh_image m p gels gels' -> 0 <= M ->
  (forall el g, In el gels -> In g gps6 -> Rabs (F el g) <= M) ->
  (forall el el' s, In el gels -> el_mat el' = el_mat el -> tracks (linear m) p (shift_el (p_cx c) (p_cy c) el) (shift_el (p_cx c') (p_cy c') el') s ->
     forall g, sum1 g -> F' el' (s g) = F el g) ->
  Rabs (avg F' gels' (p i) - avg F gels i) <= 2 / 10 ^ 15 * M.
Proof.
  intros HG HM HB HF. assert (0 < 2 / 10 ^ 15) by (apply Rdiv_lt_0_compat; [lra|apply pow_lt; lra]). unfold avg.
  apply (image_average m p gels gels' HG i ids_nodup ids_eqb); [nra|apply den_nonneg|].
  intros el el' T Tc s Te He _ L E _. destruct (el_tracks el el' T Tc s Te (Hin el He) L E) as [Em K].
  unfold ext_of at 1. rewrite (l_at _ _ _ _ L). rewrite (atg_ext (fun g => F' el' (s g)) (F el)) by (intros g Hg; apply (HF el el' s He Em K); apply gps6_sum1, Hg).
  apply (l_extra _ _ _ _ L). apply atg_within. intros g Hg. apply HB; assumption.
Qed.
Lemma plain_mesh : plain_image m p gels gels' -> mesh_image m p gels gels'.
Proof. intros H. exists (map (move_el m p) gels). split; [exact H|]. clear H. induction gels as [|x l IH]; constructor; [apply rl_same|]. apply IH. intros z Hz. apply Hin. right. exact Hz. Qed.
Lemma avg_plain (F F' : tri6 -> gp -> R) : plain_image m p gels gels' ->
  (forall el el' s, In el gels -> el_mat el' = el_mat el -> tracks (linear m) p (shift_el (p_cx c) (p_cy c) el) (shift_el (p_cx c') (p_cy c') el') s ->
     forall g, sum1 g -> F' el' (s g) = F el g) ->
  avg F' gels' (p i) = avg F gels i.
Proof.
  intros HG HF. unfold avg. assert (D := image_den m p gels gels' (plain_mesh HG) i ids_nodup ids_eqb). unfold average. rewrite D.
  assert (N : num (fun el => ext_of (F' el)) gels' (p i) = num (fun el => ext_of (F el)) gels i); [|rewrite N; reflexivity].
  unfold num. rewrite <- (sumf_perm _ _ _ HG), sumf_map. apply sumf_ext. intros el He.
  destruct (el_tracks el (move_el m p el) _ _ _ _ (Hin el He) listing_id eq_refl) as [Em K]. unfold ext_of. rewrite (atg_ext (F' (move_el m p el)) (F el)) by (intros g Hg; apply (HF el (move_el m p el) _ He Em K); apply gps6_sum1, Hg).
  cbn [move_el el_ids]. apply pick_move. intros j. apply ids_eqb, He.
Qed.

Lemma rot_norm u v : rot_x m u v ^ 2 + rot_y m u v ^ 2 = u ^ 2 + v ^ 2.
Proof.
  destruct k_pos as (Kp & K2 & K2e & Kn). unfold rot_x, rot_y. fold k. unfold lin_x, lin_y. fold a b e. rewrite K2e in K2. assert (Q2 : a ^ 2 = k ^ 2 - b ^ 2) by lra.
  assert (He : e = 1 \/ e = -1) by exact (proj1 Hs). clearbody a b e k. destruct He as [-> | ->]; field [Q2]; exact Kn.
Qed.
Lemma rot_bound u v M : 0 <= M -> u ^ 2 + v ^ 2 <= M ^ 2 -> Rabs (rot_x m u v) <= M /\ Rabs (rot_y m u v) <= M.
Proof.
  intros HM H. rewrite <- rot_norm in H. pose proof (pow2_ge_0 (rot_x m u v)). pose proof (pow2_ge_0 (rot_y m u v)).
  split; apply Rabs_le; split; nra.
Qed.

Let S0 := group_stress A P om ps ph gels.
Let S1 := group_stress (moved_actions m sg A) P' om' ps' ph' gels'.
Ltac form c0 o0 a0 := first [exact (group_form A P om ps ph gels c0 o0 a0 ltac:(cbn [In components]; tauto) i)
  | exact (group_form (moved_actions m sg A) P' om' ps' ph' gels' c0 o0 a0 ltac:(cbn [In components]; tauto) (p i))].
Lemma form0 : 
  ns_zz_mxx S0 i = avg (fun el g => sg_zz_mxx (St el g)) gels i /\ ns_zz_myy S0 i = avg (fun el g => sg_zz_myy (St el g)) gels i /\
  ns_zz_m11 S0 i = avg (fun el g => sg_zz_m11 (St el g)) gels i /\ ns_zz_m22 S0 i = avg (fun el g => sg_zz_m22 (St el g)) gels i /\
  ns_zx_mzz S0 i = avg (fun el g => sg_zx_mzz (St el g)) gels i /\ ns_zy_mzz S0 i = avg (fun el g => sg_zy_mzz (St el g)) gels i /\
  ns_zx_vx S0 i = avg (fun el g => sg_zx_vx (St el g)) gels i /\ ns_zy_vx S0 i = avg (fun el g => sg_zy_vx (St el g)) gels i /\
  ns_zx_vy S0 i = avg (fun el g => sg_zx_vy (St el g)) gels i /\ ns_zy_vy S0 i = avg (fun el g => sg_zy_vy (St el g)) gels i.
Proof.
  split; [form ns_zz_mxx so_zz_mxx a_mxx|]. split; [form ns_zz_myy so_zz_myy a_myy|]. split; [form ns_zz_m11 so_zz_m11 a_m11|]. split; [form ns_zz_m22 so_zz_m22 a_m22|].
  split; [form ns_zx_mzz so_zx_mzz a_mzz|]. split; [form ns_zy_mzz so_zy_mzz a_mzz|]. split; [form ns_zx_vx so_zx_vx a_vx|]. split; [form ns_zy_vx so_zy_vx a_vx|].
  split; [form ns_zx_vy so_zx_vy a_vy|form ns_zy_vy so_zy_vy a_vy].
Qed.
Lemma form1 : 
  ns_zz_mxx S1 (p i) = avg (fun el g => sg_zz_mxx (St' el g)) gels' (p i) /\ ns_zz_myy S1 (p i) = avg (fun el g => sg_zz_myy (St' el g)) gels' (p i) /\
  ns_zz_m11 S1 (p i) = avg (fun el g => sg_zz_m11 (St' el g)) gels' (p i) /\ ns_zz_m22 S1 (p i) = avg (fun el g => sg_zz_m22 (St' el g)) gels' (p i) /\
  ns_zx_mzz S1 (p i) = avg (fun el g => sg_zx_mzz (St' el g)) gels' (p i) /\ ns_zy_mzz S1 (p i) = avg (fun el g => sg_zy_mzz (St' el g)) gels' (p i) /\
  ns_zx_vx S1 (p i) = avg (fun el g => sg_zx_vx (St' el g)) gels' (p i) /\ ns_zy_vx S1 (p i) = avg (fun el g => sg_zy_vx (St' el g)) gels' (p i) /\
  ns_zx_vy S1 (p i) = avg (fun el g => sg_zx_vy (St' el g)) gels' (p i) /\ ns_zy_vy S1 (p i) = avg (fun el g => sg_zy_vy (St' el g)) gels' (p i).
Proof.
  split; [form ns_zz_mxx so_zz_mxx a_mxx|]. split; [form ns_zz_myy so_zz_myy a_myy|]. split; [form ns_zz_m11 so_zz_m11 a_m11|]. split; [form ns_zz_m22 so_zz_m22 a_m22|].
  split; [form ns_zx_mzz so_zx_mzz a_mzz|]. split; [form ns_zy_mzz so_zy_mzz a_mzz|]. split; [form ns_zx_vx so_zx_vx a_vx|]. split; [form ns_zy_vx so_zy_vx a_vx|].
  split; [form ns_zx_vy so_zx_vy a_vy|form ns_zy_vy so_zy_vy a_vy].
Qed.
Lemma avg_sum F G l j : avg F l j + avg G l j = avg (fun el g => F el g + G el g) l j.
Proof.
  transitivity (1 * avg F l j + 1 * avg G l j); [ring|]. rewrite <- avg_lin. unfold avg, average, num.
  assert (E : forall el, ext_of (fun g => 1 * F el g + 1 * G el g) = ext_of (fun g => F el g + G el g)) by (intros el; unfold ext_of; f_equal; apply atg_ext; intros; ring).
  destruct (Req_EM_T _ _); [|f_equal]; apply sumf_ext; intros el _; rewrite E; reflexivity.
Qed.
Lemma avg_rot F G l j : rot_x m (avg F l j) (avg G l j) = avg (fun el g => rot_x m (F el g) (G el g)) l j /\ rot_y m (avg F l j) (avg G l j) = avg (fun el g => rot_y m (F el g) (G el g)) l j.
Proof.
  split.
  - transitivity (a / k * avg F l j + (- (e * b) / k) * avg G l j); [unfold rot_x, lin_x; fold k a b e; unfold Rdiv; ring|]. rewrite <- avg_lin. unfold avg, average, num.
    assert (E : forall el, ext_of (fun g => a / k * F el g + - (e * b) / k * G el g) = ext_of (fun g => rot_x m (F el g) (G el g))) by (intros el; unfold ext_of; f_equal; apply atg_ext; intros; unfold rot_x, lin_x; fold k a b e; unfold Rdiv; ring).
    destruct (Req_EM_T _ _); [|f_equal]; apply sumf_ext; intros el _; rewrite E; reflexivity.
  - transitivity (b / k * avg F l j + ((e * a) / k) * avg G l j); [unfold rot_y, lin_y; fold k a b e; unfold Rdiv; ring|]. rewrite <- avg_lin. unfold avg, average, num.
    assert (E : forall el, ext_of (fun g => b / k * F el g + (e * a) / k * G el g) = ext_of (fun g => rot_y m (F el g) (G el g))) by (intros el; unfold ext_of; f_equal; apply atg_ext; intros; unfold rot_y, lin_y; fold k a b e; unfold Rdiv; ring).
    destruct (Req_EM_T _ _); [|f_equal]; apply sumf_ext; intros el _; rewrite E; reflexivity.
Qed.
Lemma axial : mesh_image m p gels gels' -> ns_zz_n S1 (p i) = ns_zz_n S0 i.
Proof.
  intros HG. unfold S0, S1. rewrite (group_form A P om ps ph gels ns_zz_n so_zz_n a_n ltac:(cbn [In components]; tauto) i), (group_form (moved_actions m sg A) P' om' ps' ph' gels' ns_zz_n so_zz_n a_n ltac:(cbn [In components]; tauto) (p i)).
  apply Rminus_diag_uniq. apply Rle_antisym; [|apply Ropp_le_cancel; rewrite Ropp_0].
  all: match goal with |- ?x => assert (Z : Rabs (average (num (fun el => so_zz_n (element_stress el (moved_actions m sg A) P' (gather om' (el_ids el)) (gather ps' (el_ids el)) (gather ph' (el_ids el)))) gels') (den gels') (p i) -
    average (num (fun el => so_zz_n (element_stress el A P (gather om (el_ids el)) (gather ps (el_ids el)) (gather ph (el_ids el)))) gels) (den gels) i) <= 0); [|apply abs_bet in Z; lra] end.
  all: apply (image_average m p gels gels' HG i ids_nodup ids_eqb); [lra|apply den_nonneg|].
  all: intros el el' T Tc s Te He _ L E _; cbn [so_zz_n element_stress]; rewrite (l_const _ _ _ _ L).
  all: destruct (el_tracks el el' T Tc s Te (Hin el He) L E) as [-> _].
  all: destruct (params_cases composite t c (Some w) A P om ps ph HP) as [[E0 _] _]; destruct (params_cases composite t' c' (Some w') _ P' om' ps' ph' HP') as [[E1 _] _]; rewrite E0, E1.
  all: assert (Q : a_n (moved_actions m sg A) * 1 * m_E (el_mat el) / st_ea (full_par composite t' c' (Some w')) = a_n A * 1 * m_E (el_mat el) / st_ea (full_par composite t c (Some w)));
    [|rewrite Q; apply within6; unfold sub6, zip6, const6; cbn [v0 v1 v2 v3 v4 v5]; rewrite Rminus_eq_0, Rabs_R0; repeat split; apply Rle_refl].
  all: destruct (image_totals m Hs p els els' (on_valid _ _ _ _ (a_on _ _ _ _ _ _ _ HA)) (on_valid _ _ _ _ (a_on _ _ _ _ _ _ _ HA')) HI) as (T1 & _ & T3 & _); fold t t' in T1, T3.
  all: destruct k_pos as (Kp & K2 & K2e & Kn); cbn [full_par st_ea moved_actions a_n]; fold k; rewrite K2; destruct composite; rewrite ?T1, ?T3; fold k2; unfold Rdiv; rewrite Rinv_mult; rewrite <- K2; (match goal with |- _ = _ * / ?z => set (iz := / z); clearbody iz end); field; exact Kn.
Qed.
Theorem group_follows M : mesh_image m p gels gels' -> 0 <= M -> stress_bound M A P om ps ph gels -> stress_follows m (2 / 10 ^ 15 * M) S0 S1 i (p i).
Proof.
  intros HG HM HB. unfold stress_follows. split; [exact (axial HG)|].
  destruct form0 as (-> & -> & -> & -> & -> & -> & -> & -> & -> & ->). destruct form1 as (-> & -> & -> & -> & -> & -> & -> & -> & -> & ->). rewrite !avg_sum.
  destruct (avg_rot (fun el g => sg_zx_mzz (St el g)) (fun el g => sg_zy_mzz (St el g)) gels i) as [-> ->].
  destruct (avg_rot (fun el g => sg_zx_vx (St el g) + sg_zx_vy (St el g)) (fun el g => sg_zy_vx (St el g) + sg_zy_vy (St el g)) gels i) as [-> ->].
  assert (B : forall el g, In el gels -> In g gps6 -> let S := St el g in Rabs (sg_zz_mxx S + sg_zz_myy S) <= M /\ Rabs (sg_zz_m11 S) <= M /\ Rabs (sg_zz_m22 S) <= M /\
    sg_zx_mzz S ^ 2 + sg_zy_mzz S ^ 2 <= M ^ 2 /\ (sg_zx_vx S + sg_zx_vy S) ^ 2 + (sg_zy_vx S + sg_zy_vy S) ^ 2 <= M ^ 2).
  { intros el g He Hg. exact (HB el g He Hg). }
  unfold close. repeat match goal with |- _ /\ _ => split end; (apply avg_image; [exact HG|exact HM| |]).
  all: try (intros el el' s He Em K g Hg; apply (gp_image el el' s (Hin el He) Em K g Hg)).
  all: intros el g He Hg; destruct (B el g He Hg) as (B1 & B2 & B3 & B4 & B5); try assumption; apply rot_bound; assumption.
Qed.
Theorem group_same : plain_image m p gels gels' -> stress_follows m 0 S0 S1 i (p i).
Proof.
  intros HG. unfold stress_follows. split; [exact (axial (plain_mesh HG))|].
  destruct form0 as (-> & -> & -> & -> & -> & -> & -> & -> & -> & ->). destruct form1 as (-> & -> & -> & -> & -> & -> & -> & -> & -> & ->). rewrite !avg_sum.
  destruct (avg_rot (fun el g => sg_zx_mzz (St el g)) (fun el g => sg_zy_mzz (St el g)) gels i) as [-> ->].
  destruct (avg_rot (fun el g => sg_zx_vx (St el g) + sg_zx_vy (St el g)) (fun el g => sg_zy_vx (St el g) + sg_zy_vy (St el g)) gels i) as [-> ->].
  unfold close. repeat match goal with |- _ /\ _ => split end; (match goal with |- Rabs (?x - ?y) <= 0 => assert (Q : x = y); [|rewrite Q, Rminus_eq_0, Rabs_R0; apply Rle_refl] end);
    (apply avg_plain; [exact HG|]; intros el el' s He Em K g Hg; apply (gp_image el el' s (Hin el He) Em K g Hg)).
Qed.
Lemma combined_same s s' j j' : stress_follows m 0 s s' j j' -> combined_follows m (combine_node s j) (combine_node s' j').
Proof.
  intros (H0 & H1 & H2 & H3 & H4 & H5 & H6 & H7). assert (Z : forall x y, close 0 x y -> x = y) by (intros x y Q; apply abs_bet in Q; lra).
  apply Z in H1, H2, H3, H4, H5, H6, H7. clear Z.
  assert (N1 : ns_zx_mzz s' j' ^ 2 + ns_zy_mzz s' j' ^ 2 = ns_zx_mzz s j ^ 2 + ns_zy_mzz s j ^ 2) by (rewrite H4, H5; apply rot_norm).
  assert (N2 : (ns_zx_vx s' j' + ns_zx_vy s' j') ^ 2 + (ns_zy_vx s' j' + ns_zy_vy s' j') ^ 2 = (ns_zx_vx s j + ns_zx_vy s j) ^ 2 + (ns_zy_vx s j + ns_zy_vy s j) ^ 2) by (rewrite H6, H7; apply rot_norm).
  assert (N3 : (ns_zx_mzz s' j' + (ns_zx_vx s' j' + ns_zx_vy s' j')) ^ 2 + (ns_zy_mzz s' j' + (ns_zy_vx s' j' + ns_zy_vy s' j')) ^ 2 =
    (ns_zx_mzz s j + (ns_zx_vx s j + ns_zx_vy s j)) ^ 2 + (ns_zy_mzz s j + (ns_zy_vx s j + ns_zy_vy s j)) ^ 2).
  { rewrite H4, H5, H6, H7. etransitivity; [|apply rot_norm]. f_equal; f_equal; unfold rot_x, rot_y, lin_x, lin_y, Rdiv; ring. }
  unfold combined_follows, combine_node. cbn [cb_zz_m cb_zz cb_zx cb_zy cb_zxy cb_zxy_mzz cb_zxy_v cb_11 cb_33 cb_vm].
  rewrite N1, N2, N3, H0, H1, H2, H3. rewrite H4, H5, H6, H7. repeat split; unfold rot_x, rot_y, lin_x, lin_y, Rdiv; ring.
Qed.

(** ** The stress at a point of an element *)
Definition img (pt : R * R) : R * R := (sim_x m (fst pt) (snd pt), sim_y m (fst pt) (snd pt)).
Definition follows (o o' : R * R * R) : Prop := fst (fst o') = fst (fst o) /\ snd (fst o') = rot_x m (snd (fst o)) (snd o) /\ snd o' = rot_y m (snd (fst o)) (snd o).
Lemma local_image el pt : local_coord (move_el m p el) (img pt) = local_coord el pt.
Proof.
  destruct k_pos as (Kp & K2 & K2e & Kn). rewrite K2e in K2. clear K2e.
  unfold local_coord, move_el, img, sim_x, sim_y, zip6. cbn [el_x el_y v0 v1 v2 v3 v4 v5 fst snd]. fold a b e.
  generalize (v0 (el_x el)) (v0 (el_y el)) (v1 (el_x el)) (v1 (el_y el)) (v2 (el_x el)) (v2 (el_y el)) (fst pt) (snd pt) (s_dx m) (s_dy m). intros x0 y0 x1 y1 x2 y2 x y dx dy.
  set (d := (x0 - x2) * (y1 - y2) - (x1 - x2) * (y0 - y2)).
  match goal with |- (_ / ?D * _ + _, _, _) = _ => assert (ED : D = e * k ^ 2 * d) by (unfold d; rewrite K2; destruct (proj1 Hs) as [E|E]; fold e in E; rewrite E; ring) end. rewrite ED. clear ED.
  assert (He : e <> 0) by (destruct (proj1 Hs) as [E|E]; fold e in E; rewrite E; lra).
  assert (Ee : / e = e) by (destruct (proj1 Hs) as [E|E]; fold e in E; rewrite E; field; lra). assert (E2 : e * e = 1) by (destruct (proj1 Hs) as [E|E]; fold e in E; rewrite E; ring).
  assert (Q2 : a ^ 2 = k ^ 2 - b ^ 2) by lra. unfold Rdiv. rewrite !Rinv_mult, Ee. set (z := / d). clearbody z. clear d. clearbody a b e k.
  assert (A1 : forall u v u' v', (e * (b * u + e * a * v) * / k ^ 2 * z) * (a * u' - e * b * v') + - (e * (a * u - e * b * v) * / k ^ 2 * z) * (b * u' + e * a * v') = (v * z * u' - u * z * v')).
  { intros. assert (E3 : e ^ 2 = 1) by lra. field [Q2 E3]. exact Kn. }
  match goal with |- (?A, ?B, 1 - ?A - ?B) = (?C, ?D, 1 - ?C - ?D) => assert (H1 : A = C); [|assert (H2 : B = D); [|rewrite H1, H2; reflexivity]] end.
  - transitivity ((y1 - y2) * z * (x - x2) - (x1 - x2) * z * (y - y2)); [|ring]. rewrite <- A1. ring.
  - transitivity (- ((y0 - y2) * z * (x - x2) - (x0 - x2) * z * (y - y2))); [|ring]. rewrite <- A1. ring.
Qed.
Let ES el := element_stress el A P (gather om (el_ids el)) (gather ps (el_ids el)) (gather ph (el_ids el)).
Let ES' el := element_stress el (moved_actions m sg A) P' (gather om' (el_ids el)) (gather ps' (el_ids el)) (gather ph' (el_ids el)).
Lemma ext_add F G : add6 (ext_of F) (ext_of G) = ext_of (fun g => F g + G g).
Proof. unfold ext_of, extrapolate_to_nodes, mulM6, add6, zip6, atg. rewrite !col6_at. unfold dot6. cbn [v0 v1 v2 v3 v4 v5]. f_equal; ring. Qed.
Lemma ext_rot F G : ext_of (fun g => rot_x m (F g) (G g)) = zip6 (rot_x m) (ext_of F) (ext_of G) /\ ext_of (fun g => rot_y m (F g) (G g)) = zip6 (rot_y m) (ext_of F) (ext_of G).
Proof. unfold ext_of, extrapolate_to_nodes, mulM6, zip6, atg. rewrite !col6_at. unfold dot6, rot_x, rot_y, lin_x, lin_y, Rdiv. cbn [v0 v1 v2 v3 v4 v5]. split; f_equal; ring. Qed.
Lemma dot_add u v x : dot6 (add6 u v) x = dot6 u x + dot6 v x.
Proof. unfold dot6, add6, zip6. cbn [v0 v1 v2 v3 v4 v5]. ring. Qed.
Lemma dot_rot u v x : dot6 (zip6 (rot_x m) u v) x = rot_x m (dot6 u x) (dot6 v x) /\ dot6 (zip6 (rot_y m) u v) x = rot_y m (dot6 u x) (dot6 v x).
Proof. unfold dot6, zip6, rot_x, rot_y, lin_x, lin_y, Rdiv. cbn [v0 v1 v2 v3 v4 v5]. split; ring. Qed.
Lemma ext_eq F G : (forall g, sum1 g -> F g = G g) -> ext_of F = ext_of G.
Proof. intros H. unfold ext_of. f_equal. apply atg_ext. intros g Hg. apply H, gps6_sum1, Hg. Qed.
Lemma const_image el : In el els -> so_zz_n (ES' (move_el m p el)) = so_zz_n (ES el).
Proof.
  intros He. unfold ES, ES'. cbn [so_zz_n element_stress move_el el_mat]. f_equal.
  destruct (params_cases composite t c (Some w) A P om ps ph HP) as [[E0 _] _]; destruct (params_cases composite t' c' (Some w') _ P' om' ps' ph' HP') as [[E1 _] _]; rewrite E0, E1.
  destruct (image_totals m Hs p els els' (on_valid _ _ _ _ (a_on _ _ _ _ _ _ _ HA)) (on_valid _ _ _ _ (a_on _ _ _ _ _ _ _ HA')) HI) as (T1 & _ & T3 & _); fold t t' in T1, T3.
  destruct k_pos as (Kp & K2 & K2e & Kn); cbn [full_par st_ea moved_actions a_n]; fold k; rewrite K2; destruct composite; rewrite ?T1, ?T3; fold k2; unfold Rdiv; rewrite Rinv_mult; rewrite <- K2; (match goal with |- _ = _ * / ?z => set (iz := / z); clearbody iz end); field; exact Kn.
Qed.
Lemma point_image el pt : In el els ->
  follows (local_element_stress el pt A P (gather om (el_ids el)) (gather ps (el_ids el)) (gather ph (el_ids el)))
    (local_element_stress (move_el m p el) (img pt) (moved_actions m sg A) P' (gather om' (el_ids (move_el m p el))) (gather ps' (el_ids (move_el m p el))) (gather ph' (el_ids (move_el m p el)))).
Proof.
  intros He. unfold local_element_stress. rewrite local_image. fold (ES el). fold (ES' (move_el m p el)). cbv zeta. set (N := shape_function_only (local_coord el pt)). unfold follows. cbn [fst snd].
  rewrite (const_image el He). destruct (el_tracks el (move_el m p el) _ _ _ _ He listing_id eq_refl) as [Em K]. pose proof (gp_image el (move_el m p el) _ He Em K) as G. cbv beta in G. set (el1 := move_el m p el) in *.
  assert (Z1 : add6 (so_zz_mxx (ES' el1)) (so_zz_myy (ES' el1)) = add6 (so_zz_mxx (ES el)) (so_zz_myy (ES el))).
  { change (add6 (ext_of (fun g => sg_zz_mxx (St' el1 g))) (ext_of (fun g => sg_zz_myy (St' el1 g))) = add6 (ext_of (fun g => sg_zz_mxx (St el g))) (ext_of (fun g => sg_zz_myy (St el g)))). rewrite !ext_add. apply ext_eq. intros g Hg. apply (G g Hg). }
  assert (Z2 : so_zz_m11 (ES' el1) = so_zz_m11 (ES el)).
  { change (ext_of (fun g => sg_zz_m11 (St' el1 g)) = ext_of (fun g => sg_zz_m11 (St el g))). apply ext_eq. intros g Hg. apply (G g Hg). }
  assert (Z3 : so_zz_m22 (ES' el1) = so_zz_m22 (ES el)).
  { change (ext_of (fun g => sg_zz_m22 (St' el1 g)) = ext_of (fun g => sg_zz_m22 (St el g))). apply ext_eq. intros g Hg. apply (G g Hg). }
  assert (Z4 : so_zx_mzz (ES' el1) = zip6 (rot_x m) (so_zx_mzz (ES el)) (so_zy_mzz (ES el)) /\ so_zy_mzz (ES' el1) = zip6 (rot_y m) (so_zx_mzz (ES el)) (so_zy_mzz (ES el))).
  { destruct (ext_rot (fun g => sg_zx_mzz (St el g)) (fun g => sg_zy_mzz (St el g))) as [R1 R2]. split; (etransitivity; [|first [exact R1|exact R2]]).
    - change (ext_of (fun g => sg_zx_mzz (St' el1 g)) = ext_of (fun g => rot_x m (sg_zx_mzz (St el g)) (sg_zy_mzz (St el g)))). apply ext_eq. intros g Hg. apply (G g Hg).
    - change (ext_of (fun g => sg_zy_mzz (St' el1 g)) = ext_of (fun g => rot_y m (sg_zx_mzz (St el g)) (sg_zy_mzz (St el g)))). apply ext_eq. intros g Hg. apply (G g Hg). }
  assert (Z5 : add6 (so_zx_vx (ES' el1)) (so_zx_vy (ES' el1)) = zip6 (rot_x m) (add6 (so_zx_vx (ES el)) (so_zx_vy (ES el))) (add6 (so_zy_vx (ES el)) (so_zy_vy (ES el))) /\
               add6 (so_zy_vx (ES' el1)) (so_zy_vy (ES' el1)) = zip6 (rot_y m) (add6 (so_zx_vx (ES el)) (so_zx_vy (ES el))) (add6 (so_zy_vx (ES el)) (so_zy_vy (ES el)))).
  { destruct (ext_rot (fun g => sg_zx_vx (St el g) + sg_zx_vy (St el g)) (fun g => sg_zy_vx (St el g) + sg_zy_vy (St el g))) as [R1 R2]. rewrite <- !ext_add in R1, R2. split; (etransitivity; [|first [exact R1|exact R2]]).
    - change (add6 (ext_of (fun g => sg_zx_vx (St' el1 g))) (ext_of (fun g => sg_zx_vy (St' el1 g))) = ext_of (fun g => rot_x m (sg_zx_vx (St el g) + sg_zx_vy (St el g)) (sg_zy_vx (St el g) + sg_zy_vy (St el g)))). rewrite ext_add. apply ext_eq. intros g Hg. apply (G g Hg).
    - change (add6 (ext_of (fun g => sg_zy_vx (St' el1 g))) (ext_of (fun g => sg_zy_vy (St' el1 g))) = ext_of (fun g => rot_y m (sg_zx_vx (St el g) + sg_zx_vy (St el g)) (sg_zy_vx (St el g) + sg_zy_vy (St el g)))). rewrite ext_add. apply ext_eq. intros g Hg. apply (G g Hg). }
  destruct Z4 as [Z4 Z6]. destruct Z5 as [Z5 Z7]. 
  apply (f_equal (fun v => dot6 v N)) in Z1, Z5, Z7. rewrite dot_add in Z1, Z5, Z7.
  rewrite Z2, Z3, Z4, Z6, Z1, Z5, Z7. clear Z1 Z2 Z3 Z4 Z5 Z6 Z7.
  repeat match goal with |- context [dot6 (zip6 (rot_x m) ?u ?v) ?x] => rewrite (proj1 (dot_rot u v x)) | |- context [dot6 (zip6 (rot_y m) ?u ?v) ?x] => rewrite (proj2 (dot_rot u v x)) end. rewrite !dot_add.
  repeat split; unfold rot_x, rot_y, lin_x, lin_y, Rdiv; ring.
Qed.
End Points.
