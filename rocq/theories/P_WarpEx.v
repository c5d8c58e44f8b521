(** A concrete warping analysis: one slender triangle with Poisson's ratio 3/10. *)
From Coq Require Import Reals List Lra Lia Bool.
From Coquelicot Require Import Coquelicot.
From Verif Require Import Base S_Integral M_Fea S_Fem M_Post M_Section S_Section S_Post S_Warp M_Stress
  P_Integral P_Fea P_Geom P_Elem P_Section P_Totals P_Post P_Yield P_Warp P_Warp2 P_Warp3 P_Warp4 P_Warp5 P_Warp6 P_Warp7 P_Warp8 P_Warp9.
Import ListNotations.
Local Open Scope R_scope.

Definition xm : material := mkMat 1 (3/10) 1 1.
Definition xa : point := (0, 0).
Definition xb : point := (3, 0).
Definition xc : point := (15, 3).
Definition xe : tri6 :=
  mkTri (side_nodes (fst xa) (fst xb) (fst xc)) (side_nodes (snd xa) (snd xb) (snd xc)) (mkConn 0 1 2 3 4 5) xm.
Definition xX (i : nat) : R := nth i [0; 3; 15; 3/2; 9; 15/2] 0.
Definition xY (i : nat) : R := nth i [0; 0; 3; 0; 3/2; 3/2] 0.

Lemma xe_valid : valid_el xe.
Proof.
  unfold valid_el, straight, corner_a, corner_b, corner_c, xe, side_nodes, xa, xb, xc, orient. cbn [el_x el_y v0 v1 v2 fst snd]. split; [auto|lra].
Qed.

Lemma xmesh : mesh_on 6 xX xY [xe].
Proof.
  intros el [<-|[]]. split; [apply xe_valid|]. split; [change (NoDup [0;1;2;3;4;5]%nat); repeat (apply NoDup_cons; [cbn [In]; lia|]); apply NoDup_nil|].
  split; [intros k; change (In k [0;1;2;3;4;5]%nat -> (k < 6)%nat); cbn [In]; lia|].
  unfold xe, side_nodes, gather, xa, xb, xc, xX, xY. cbn [el_x el_y el_ids c0 c1 c2 c3 c4 c5 nth fst snd].
  split; f_equal; lra.
Qed.

Lemma xpos : pos_moduli [xe].
Proof. intros el [<-|[]]. cbn [xe el_mat xm m_E]. lra. Qed.
Lemma xconn : connected [xe].
Proof. intros a b [<-|[]] [<-|[]]. exists []. split; [intros e []|]. exists 0%nat. split; left; reflexivity. Qed.
Lemma xused : all_used 6 [xe].
Proof. intros i Hi. exists xe. split; [left; reflexivity|]. change (In i [0;1;2;3;4;5]%nat). cbn [In]. lia. Qed.

Lemma xq w f : mesh_q w f [xe] = w xm * el_q4 xe f.
Proof. unfold mesh_q, sumf. cbn [map fold_right]. change (el_mat xe) with xm. rewrite (el_q_valid xe f xe_valid). cbn [Rsum fold_right map]. ring. Qed.

Lemma xtotals : section_totals [xe] = mkTotals (9/2) (9/2) (9/2) (45/26) (9/2) 27 (27/4) (837/4) (297/8).
Proof.
  rewrite section_totals_q. rewrite !xq. unfold el_q4, gps4, sumf, el_point, corner_a, corner_b, corner_c, xe, side_nodes, orient, xa, xb, xc, shear_modulus, one_w, xm.
  cbn [map Rsum fold_right el_x el_y v0 v1 v2 fst snd g_w g_eta g_xi g_zeta m_E m_rho m_nu].
  f_equal; field.
Qed.

Lemma xc_centroid : let c := centroidal_of (section_totals [xe]) in
  p_cx c = 6 /\ p_cy c = 1 /\ p_ixx_c c = 9/4 /\ p_iyy_c c = 189/4 /\ p_ixy_c c = 81/8.
Proof.
  rewrite xtotals. unfold centroidal_of. cbn [p_cx p_cy p_ixx_c p_iyy_c p_ixy_c t_ea t_qx t_qy t_ixx_g t_iyy_g t_ixy_g].
  repeat match goal with |- _ /\ _ => split end; field.
Qed.

Lemma xnu : nu_eff (section_totals [xe]) = 3/10.
Proof. rewrite xtotals. unfold nu_eff. cbn [t_ea t_ga]. field. Qed.

Definition xs : tri6 := shift_el 6 1 xe.
Definition xpsi (i : nat) : R := nth i [-40257/2200; -275157/35200; 13851/2200; -1871343/140800; 550719/140800; 82539/8800] 0.
Definition xphi (i : nat) : R := nth i [15957/550; 42201/35200; 57267/550; 2160189/140800; 2055699/140800; -263493/8800] 0.
Definition xom (i : nat) : R := nth i [75/44; -12/11; -27/44; -27/176; 75/176; -3/11] 0.

Lemma xs_valid : valid_el xs.
Proof. apply shift_valid, xe_valid. Qed.
Lemma xsmesh : mesh_on 6 (fun i => xX i - 6) (fun i => xY i - 1) [xs].
Proof. apply (shift_mesh_on 6 xX xY [xe] 6 1 xmesh). Qed.

(** Position, gradient and value at a local point. *)
Lemma xs_corners : corner_a xs = (-6, -1) /\ corner_b xs = (-3, -1) /\ corner_c xs = (9, 2).
Proof.
  unfold corner_a, corner_b, corner_c, xs, shift_el, xe, side_nodes, map6, xa, xb, xc. cbn [el_x el_y v0 v1 v2 fst snd].
  repeat split; f_equal; ring.
Qed.

Lemma xs_pos g : sum1 g -> px xs g = - 6 * g_eta g - 3 * g_xi g + 9 * g_zeta g /\ py xs g = - g_eta g - g_xi g + 2 * g_zeta g.
Proof.
  intros Hg. unfold px, py, shp. rewrite (valid_shape xs xs_valid g Hg). cbn [sh_nx sh_ny].
  unfold el_point. destruct xs_corners as [-> [-> ->]]. cbn [fst snd]. split; ring.
Qed.

Lemma xs_grad u g : sum1 g ->
  gx xs u g = (let '(a, b, c) := gcoef (- (1 / 3)) (1 / 3) 0 u in a * g_eta g + b * g_xi g + c * g_zeta g) /\
  gy xs u g = (let '(a, b, c) := gcoef (4 / 3) (- (5 / 3)) (1 / 3) u in a * g_eta g + b * g_xi g + c * g_zeta g).
Proof.
  intros Hg. rewrite (gx_lin xs xs_valid u g Hg), (gy_lin xs xs_valid u g Hg). unfold orient. destruct xs_corners as [-> [-> ->]]. cbn [fst snd].
  unfold gcoef. split; field.
Qed.

Lemma xs_val u g : sum1 g -> vl xs u g =
  v0 u * (g_eta g * (2 * g_eta g - 1)) + v1 u * (g_xi g * (2 * g_xi g - 1)) + v2 u * (g_zeta g * (2 * g_zeta g - 1))
  + v3 u * (4 * g_eta g * g_xi g) + v4 u * (4 * g_xi g * g_zeta g) + v5 u * (4 * g_eta g * g_zeta g).
Proof.
  intros Hg. unfold vl, shp. rewrite (valid_shape xs xs_valid g Hg). cbn [sh_n]. unfold shape_n, dot6. cbn [v0 v1 v2 v3 v4 v5]. ring.
Qed.

Lemma xs_Q F : MQ [xs] F =
  9 / 2 * (- 27 / 48 * F xs (mkGp (-27/48) (1/3) (1/3) (1/3)) + 25 / 48 * F xs (mkGp (25/48) (6/10) (2/10) (2/10))
   + 25 / 48 * F xs (mkGp (25/48) (2/10) (6/10) (2/10)) + 25 / 48 * F xs (mkGp (25/48) (2/10) (2/10) (6/10))).
Proof.
  unfold MQ, sumf. cbn [map Rsum fold_right]. rewrite (Q_valid xs xs_valid). unfold orient. destruct xs_corners as [-> [-> ->]]. cbn [fst snd].
  change (el_mat xs) with xm. cbn [xm m_E]. unfold sumf, gps4. cbn [map Rsum fold_right g_w]. field.
Qed.

(** The shear functions and the warping function of the example. *)
Lemma xs_gather u : gather u (el_ids xs) = mkV6 (u 0%nat) (u 1%nat) (u 2%nat) (u 3%nat) (u 4%nat) (u 5%nat).
Proof. reflexivity. Qed.

Definition xg (u : nat -> R) (g : gp) : R * R * R :=
  let e := g_eta g in let x := g_xi g in let z := g_zeta g in
  let w := gather u (el_ids xs) in
  ((let '(a, b, c) := gcoef (- (1 / 3)) (1 / 3) 0 w in a * e + b * x + c * z),
   (let '(a, b, c) := gcoef (4 / 3) (- (5 / 3)) (1 / 3) w in a * e + b * x + c * z),
   v0 w * (e * (2 * e - 1)) + v1 w * (x * (2 * x - 1)) + v2 w * (z * (2 * z - 1))
     + v3 w * (4 * e * x) + v4 w * (4 * x * z) + v5 w * (4 * e * z)).

Lemma xg_ok u g : sum1 g -> Gx u xs g = fst (fst (xg u g)) /\ Gy u xs g = snd (fst (xg u g)) /\ Vl u xs g = snd (xg u g).
Proof.
  intros Hg. unfold Gx, Gy, Vl. destruct (xs_grad (gather u (el_ids xs)) g Hg) as [-> ->]. rewrite (xs_val _ g Hg). auto.
Qed.

(** Value of a sum over the four points, for a field that depends on position, gradients and values. *)
Lemma MQ_subst (F G : field) : (forall g, sum1 g -> F xs g = G xs g) -> MQ [xs] F = MQ [xs] G.
Proof. intros H. apply MQ_ext. intros el g [<-|[]] Hg. apply H, sum1_4, Hg. Qed.

Definition xp (g : gp) : R * R := (- 6 * g_eta g - 3 * g_xi g + 9 * g_zeta g, - g_eta g - g_xi g + 2 * g_zeta g).

Ltac crunch := 
  rewrite xs_Q; unfold xg, xp, gcoef; rewrite ?xs_gather; cbn [fst snd v0 v1 v2 v3 v4 v5 g_eta g_xi g_zeta g_w];
  unfold xpsi, xphi, xom; cbn [nth].

Lemma x_mean : Mn [xs] xpsi = 0 /\ Mn [xs] xphi = 0 /\ Mn [xs] xom = 0.
Proof.
  unfold Mn. repeat match goal with |- _ /\ _ => split end;
  (match goal with |- MQ [xs] (Vl ?u) = 0 => rewrite (MQ_subst (Vl u) (fun _ g => snd (xg u g))) by (intros g Hg; apply (xg_ok u g Hg)) end);
  crunch; field.
Qed.

Lemma x_B u v : B [xs] u v = MQ [xs] (fun _ g => fst (fst (xg u g)) * fst (fst (xg v g)) + snd (fst (xg u g)) * snd (fst (xg v g))).
Proof.
  unfold B. apply MQ_subst. intros g Hg. destruct (xg_ok u g Hg) as [-> [-> _]]. destruct (xg_ok v g Hg) as [-> [-> _]]. reflexivity.
Qed.

Lemma xs_wf : wf_ids 6 [xs].
Proof. exact (on_wf 6 _ _ [xs] xsmesh). Qed.

Definition xsp (g : gp) : shear_par := shear_parameter (fst (xp g)) (snd (xp g)) (9/4) (189/4) (81/8).
Lemma xsp_ok g : sum1 g -> spar (9/4) (189/4) (81/8) xs g = xsp g /\ px xs g = fst (xp g) /\ py xs g = snd (xp g).
Proof. intros Hg. unfold spar, xsp. destruct (xs_pos g Hg) as [-> ->]. auto. Qed.

Lemma x_loads v :
  dotn 6 v (snd (assemble_torsion 6 [xs])) = MQ [xs] (fun _ g => fst (fst (xg v g)) * snd (xp g) - snd (fst (xg v g)) * fst (xp g)) /\
  dotn 6 v (fst (assemble_shear_load (9/4) (189/4) (81/8) (3/10) [xs])) =
   MQ [xs] (fun _ g => 3 / 10 / 2 * (fst (fst (xg v g)) * sp_d1 (xsp g) + snd (fst (xg v g)) * sp_d2 (xsp g))
     + 2 * (1 + 3 / 10) * (9 / 4 * fst (xp g) - 81 / 8 * snd (xp g)) * snd (xg v g)) /\
  dotn 6 v (snd (assemble_shear_load (9/4) (189/4) (81/8) (3/10) [xs])) =
   MQ [xs] (fun _ g => 3 / 10 / 2 * (fst (fst (xg v g)) * sp_h1 (xsp g) + snd (fst (xg v g)) * sp_h2 (xsp g))
     + 2 * (1 + 3 / 10) * (189 / 4 * snd (xp g) - 81 / 8 * fst (xp g)) * snd (xg v g)).
Proof.
  split; [|].
  - rewrite (L_form 6 _ _ [xs] xsmesh). unfold L. apply MQ_subst. intros g Hg.
    destruct (xg_ok v g Hg) as [-> [-> _]]. destruct (xsp_ok g Hg) as [_ [-> ->]]. reflexivity.
  - pose proof (shear_load_form 6 [xs] (9/4) (189/4) (81/8) (3/10) v xs_wf) as H.
    destruct (assemble_shear_load (9/4) (189/4) (81/8) (3/10) [xs]) as [f h]. cbn [fst snd]. cbv zeta in H. destruct H as [-> ->].
    split; apply MQ_subst; intros g Hg; destruct (xg_ok v g Hg) as [-> [-> ->]]; destruct (xsp_ok g Hg) as [-> [-> ->]]; reflexivity.
Qed.

Ltac crunch2 := unfold xsp, shear_parameter; cbn [sp_d1 sp_d2 sp_h1 sp_h2]; crunch.

Lemma x_solves :
  let K := fst (assemble_torsion 6 [xs]) in
  solves 6 K (snd (assemble_torsion 6 [xs])) xom 0 /\
  solves 6 K (fst (assemble_shear_load (9/4) (189/4) (81/8) (3/10) [xs])) xpsi 0 /\
  solves 6 K (snd (assemble_shear_load (9/4) (189/4) (81/8) (3/10) [xs])) xphi 0.
Proof.
  destruct x_mean as [M1 [M2 M3]].
  split; [|split]; apply (weak_solves 6 _ _ [xs] xsmesh); try assumption; intros v; destruct (x_loads v) as [L1 [L2 L3]];
    [rewrite L1|rewrite L2|rewrite L3]; rewrite x_B, Rmult_0_l, Rplus_0_r;
    rewrite !xs_Q; unfold xsp, shear_parameter, xg, xp, gcoef; rewrite ?xs_gather;
    cbn [sp_d1 sp_d2 sp_h1 sp_h2 fst snd v0 v1 v2 v3 v4 v5 g_eta g_xi g_zeta g_w]; unfold xpsi, xphi, xom; cbn [nth];
    generalize (v 0%nat), (v 1%nat), (v 2%nat), (v 3%nat), (v 4%nat), (v 5%nat); intros; field.
Qed.

Section Result.
Context (solve : lg_solver) (w : warping) (HA : analysed 6 xX xY [xe] solve true w).

Lemma x_funs : forall i, (i < 6)%nat -> w_omega w i = xom i /\ w_psi w i = xpsi i /\ w_phi w i = xphi i.
Proof.
  destruct HA as [_ [_ [_ [_ [Hex Hw]]]]].
  pose proof (warping_spec _ _ _ _ _ _ _ Hw) as Sp. cbv zeta in Sp. destruct Sp as [[S1 [S2 S3]] _].
  rewrite xnu in *. destruct xc_centroid as [C1 [C2 [C3 [C4 C5]]]]. cbv zeta in C1, C2, C3, C4, C5. rewrite C1, C2, C3, C4, C5 in *.
  change (map (shift_el 6 1) [xe]) with [xs] in *.
  destruct (Hex _ _ _ S1) as [l1 T1]. destruct (Hex _ _ _ S2) as [l2 T2]. destruct (Hex _ _ _ S3) as [l3 T3].
  destruct x_solves as [U1 [U2 U3]].
  assert (Uq : forall f u l u' l', solves 6 (fst (assemble_torsion 6 [xs])) f u l -> solves 6 (fst (assemble_torsion 6 [xs])) f u' l' ->
     forall i, (i < 6)%nat -> u' i = u i).
  { intros f u l u' l' A1 A2. apply (bordered_unique 6 _ _ [xs] xsmesh) with (g := f) (lam := l) (lam' := l'); auto.
    - intros el [<-|[]]. cbn. lra.
    - apply (shift_connected 6 1 [xe] xconn).
    - discriminate.
    - apply (shift_used 6 6 1 [xe] xused). }
  intros i Hi. split; [apply (Uq _ _ _ _ _ U1 T1 i Hi)|]. split; [apply (Uq _ _ _ _ _ U2 T2 i Hi)|apply (Uq _ _ _ _ _ U3 T3 i Hi)].
Qed.

Lemma x_results : w_a_sx w < 0 /\ w_a_sy w < 0 /\ w_gamma w < 0.
Proof.
  pose proof x_funs as HF.
  destruct HA as [_ [_ [_ [_ [Hex Hw]]]]].
  pose proof (warping_spec _ _ _ _ _ _ _ Hw) as Sp. cbv zeta in Sp.
  rewrite xnu in *. destruct xc_centroid as [C1 [C2 [C3 [C4 C5]]]]. cbv zeta in C1, C2, C3, C4, C5. rewrite C1, C2, C3, C4, C5 in *.
  change (map (shift_el 6 1) [xe]) with [xs] in *.
  destruct Sp as [_ [_ [Hds [Hx [Hy [_ [_ [_ [Hg [[Hax [Hay _]] _]]]]]]]]]].
  assert (Eom : gather (w_omega w) (el_ids xs) = gather xom (el_ids xs)).
  { rewrite !xs_gather. f_equal; apply HF; lia. }
  assert (Eps : gather (w_psi w) (el_ids xs) = gather xpsi (el_ids xs)).
  { rewrite !xs_gather. f_equal; apply HF; lia. }
  assert (Eph : gather (w_phi w) (el_ids xs) = gather xphi (el_ids xs)).
  { rewrite !xs_gather. f_equal; apply HF; lia. }
  assert (SD : shear_deformation (9/4) (189/4) (81/8) (3/10) (w_psi w) (w_phi w) [xs] = shear_deformation (9/4) (189/4) (81/8) (3/10) xpsi xphi [xs]).
  { unfold shear_deformation. cbn [fold_left]. unfold shear_deformation_step. rewrite Eps, Eph. reflexivity. }
  assert (WI : sc_warping_integrals (9/4) (189/4) (81/8) (w_omega w) [xs] = sc_warping_integrals (9/4) (189/4) (81/8) xom [xs]).
  { unfold sc_warping_integrals. cbn [fold_left]. unfold sc_warping_step. rewrite Eom. reflexivity. }
  assert (D1 : forall u, dotn 6 (snd (assemble_torsion 6 [xs])) u = dotn 6 u (snd (assemble_torsion 6 [xs]))).
  { intros u. unfold dotn. apply sumn_ext. intros; ring. }
  assert (D2 : forall u u', (forall i, (i < 6)%nat -> u i = u' i) -> dotn 6 u (snd (assemble_torsion 6 [xs])) = dotn 6 u' (snd (assemble_torsion 6 [xs]))).
  { intros u u' E. unfold dotn. apply sumn_ext. intros i Hi. rewrite E by exact Hi. reflexivity. }
  rewrite D1 in Hx, Hy. rewrite (D2 (w_phi w) xphi) in Hx by (intros; apply HF; assumption). rewrite (D2 (w_psi w) xpsi) in Hy by (intros; apply HF; assumption).
  rewrite SD in Hax, Hay. rewrite WI in Hx, Hy, Hg.
  assert (Vd : w_delta_s w = 3159/320) by (rewrite Hds; field).
  destruct (x_loads xphi) as [Lp _]. destruct (x_loads xpsi) as [Ls _]. rewrite Lp in Hx. rewrite Ls in Hy. clear Lp Ls D1 D2.
  rewrite (shear_deformation_form [xs] (9/4) (189/4) (81/8) (3/10) xpsi xphi) in Hax, Hay. cbv zeta in Hax, Hay. cbn [fst snd] in Hax, Hay.
  rewrite (sc_warping_form [xs] (9/4) (189/4) (81/8) xom) in Hx, Hy, Hg. cbn [wi_scx wi_scy wi_q wi_i wi_ix wi_iy] in Hx, Hy, Hg.
  assert (Vx : w_x_se w = - 4959/2860).
  { rewrite Hx, Vd. rewrite (MQ_subst (fun el g => (189/4 * px el g + 81/8 * py el g) * (px el g ^ 2 + py el g ^ 2))
      (fun _ g => (189/4 * fst (xp g) + 81/8 * snd (xp g)) * (fst (xp g) ^ 2 + snd (xp g) ^ 2))) by (intros g G; destruct (xsp_ok g G) as [_ [-> ->]]; reflexivity).
    rewrite !xs_Q. unfold xg, xp, gcoef. rewrite ?xs_gather. cbn [fst snd v0 v1 v2 v3 v4 v5 g_eta g_xi g_zeta g_w]. unfold xphi. cbn [nth]. field. }
  assert (Vy : w_y_se w = - 1189/2860).
  { rewrite Hy, Vd. rewrite (MQ_subst (fun el g => (9/4 * py el g + 81/8 * px el g) * (px el g ^ 2 + py el g ^ 2))
      (fun _ g => (9/4 * snd (xp g) + 81/8 * fst (xp g)) * (fst (xp g) ^ 2 + snd (xp g) ^ 2))) by (intros g G; destruct (xsp_ok g G) as [_ [-> ->]]; reflexivity).
    rewrite !xs_Q. unfold xg, xp, gcoef. rewrite ?xs_gather. cbn [fst snd v0 v1 v2 v3 v4 v5 g_eta g_xi g_zeta g_w]. unfold xpsi. cbn [nth]. field. }
  rewrite Vx, Vy in Hg. rewrite Vd in Hax, Hay.
  split; [|split].
  - rewrite Hax.
    rewrite (MQ_subst _ (fun _ g => (fst (fst (xg xpsi g)) - 3/10/2 * sp_d1 (xsp g)) * (fst (fst (xg xpsi g)) - 3/10/2 * sp_d1 (xsp g))
       + (snd (fst (xg xpsi g)) - 3/10/2 * sp_d2 (xsp g)) * (snd (fst (xg xpsi g)) - 3/10/2 * sp_d2 (xsp g))))
      by (intros g G; destruct (xg_ok xpsi g G) as [-> [-> _]]; destruct (xsp_ok g G) as [-> _]; reflexivity).
    match goal with |- _ / ?k < 0 => assert (Ek : k = - 6231657483/14080000) end.
    { rewrite xs_Q. unfold xsp, shear_parameter, xg, xp, gcoef. rewrite ?xs_gather. cbn [sp_d1 sp_d2 fst snd v0 v1 v2 v3 v4 v5 g_eta g_xi g_zeta g_w]. unfold xpsi. cbn [nth]. field. }
    rewrite Ek. lra.
  - rewrite Hay.
    rewrite (MQ_subst _ (fun _ g => (fst (fst (xg xphi g)) - 3/10/2 * sp_h1 (xsp g)) * (fst (fst (xg xphi g)) - 3/10/2 * sp_h1 (xsp g))
       + (snd (fst (xg xphi g)) - 3/10/2 * sp_h2 (xsp g)) * (snd (fst (xg xphi g)) - 3/10/2 * sp_h2 (xsp g))))
      by (intros g G; destruct (xg_ok xphi g G) as [-> [-> _]]; destruct (xsp_ok g G) as [-> _]; reflexivity).
    match goal with |- _ / ?k < 0 => assert (Ek : k = - 139439706093/14080000) end.
    { rewrite xs_Q. unfold xsp, shear_parameter, xg, xp, gcoef. rewrite ?xs_gather. cbn [sp_h1 sp_h2 fst snd v0 v1 v2 v3 v4 v5 g_eta g_xi g_zeta g_w]. unfold xphi. cbn [nth]. field. }
    rewrite Ek. lra.
  - rewrite Hg. rewrite xtotals. cbn [t_ea].
    rewrite (MQ_subst (fun el g => Vl xom el g ^ 2) (fun _ g => snd (xg xom g) ^ 2)) by (intros g G; destruct (xg_ok xom g G) as [_ [_ ->]]; reflexivity).
    rewrite (MQ_subst (Vl xom) (fun _ g => snd (xg xom g))) by (intros g G; destruct (xg_ok xom g G) as [_ [_ ->]]; reflexivity).
    rewrite (MQ_subst (fun el g => px el g * Vl xom el g) (fun _ g => fst (xp g) * snd (xg xom g))) by (intros g G; destruct (xg_ok xom g G) as [_ [_ ->]]; destruct (xsp_ok g G) as [_ [-> _]]; reflexivity).
    rewrite (MQ_subst (fun el g => py el g * Vl xom el g) (fun _ g => snd (xp g) * snd (xg xom g))) by (intros g G; destruct (xg_ok xom g G) as [_ [_ ->]]; destruct (xsp_ok g G) as [_ [_ ->]]; reflexivity).
    rewrite !xs_Q. unfold xg, xp, gcoef. rewrite ?xs_gather. cbn [fst snd v0 v1 v2 v3 v4 v5 g_eta g_xi g_zeta g_w]. unfold xom. cbn [nth].
    match goal with |- ?k < 0 => assert (Ek : k = - 2997/96800) by field end. rewrite Ek. lra.
Qed.
End Result.

Lemma x_analysed : exists w, analysed 6 xX xY [xe] (best_solver 6) true w.
Proof.
  destruct (analysis_exists 6 xX xY [xe] true xmesh) as [w Hw]; [discriminate|apply xpos|apply xconn|apply xused|].
  exists w. split; [apply xmesh|]. split; [discriminate|]. split; [apply xpos|]. split; [discriminate|]. split; [apply best_exact|exact Hw].
Qed.
