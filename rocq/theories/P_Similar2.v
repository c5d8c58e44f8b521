(** Similar meshes: sums over the elements, totals, centroid, and the warping analysis. *)
From Coq Require Import Reals List Lra Lia Permutation.
From Coquelicot Require Import Coquelicot.
From Verif Require Import Base S_Integral M_Fea S_Fem M_Post M_Section S_Section S_Post S_Warp S_Similar
  P_Integral P_Fea P_Geom P_Elem P_Section P_Totals P_Post P_Yield P_Warp P_Warp2 P_Warp3 P_Warp5 P_Warp7 P_Similar.
Import ListNotations.
Local Open Scope R_scope.

Section Image.
Context (m : similarity) (Hm : proper_sim m) (p : nat -> nat) (els els' : list tri6).
Context (Hv : valid_mesh els) (Hv' : valid_mesh els') (HI : mesh_image m p els els').
Let k2 := scale2 m.

Lemma image_sum (f f' : tri6 -> R) (c : R) :
  (forall el el', In el els -> In el' els' -> relisted (move_el m p el) el' -> f' el' = c * f el) -> sumf f' els' = c * sumf f els.
Proof.
  intros H. destruct HI as (l & P & F). rewrite <- (sumf_perm f' l els' P). assert (Q' : forall x, In x l -> In x els') by (intros x Hx; apply (Permutation_in x P Hx)).
  clear P Hv Hv' HI. induction F as [|a b s l E F IH]; [unfold sumf, Rsum; cbn; ring|]. rewrite !sumf_cons, IH, (H a b); [ring|left; reflexivity|apply Q'; left; reflexivity|exact E| |].
  - intros x y Hx Hy. apply H; [right; exact Hx|exact Hy].
  - intros x Hx. apply Q'. right. exact Hx.
Qed.
Lemma image_mesh_q w f : mesh_q w f els' = k2 * mesh_q w (fun x y => f (sim_x m x y) (sim_y m x y)) els.
Proof.
  unfold mesh_q. apply image_sum. intros el el' H H' R'. destruct (image_tracks m p el el' Hm (Hv el H) (Hv' el' H') R') as (M & s & K & E).
  rewrite M. unfold el_q, el_qr. cbv zeta. change (fun g => g_w g * sh_j (shape_function (el_x el') (el_y el') g) * f (sh_nx (shape_function (el_x el') (el_y el') g)) (sh_ny (shape_function (el_x el') (el_y el') g)))
    with (fun g => g_w g * sh_j (shp el' g) * f (px el' g) (py el' g)).
  rewrite (E (fun g => f (sim_x m (px el g) (py el g)) (sim_y m (px el g) (py el g)))); [unfold k2, px, py, shp; ring|].
  intros g Hg. rewrite (tk_px _ _ _ _ _ K g Hg), (tk_py _ _ _ _ _ K g Hg). reflexivity.
Qed.
Lemma image_MQ (F F' : field) : (forall el el' s g, In el els -> In el' els' -> tracks m p el el' s -> sum1 g -> F' el' (s g) = F el g) -> MQ els' F' = k2 * MQ els F.
Proof.
  intros H. unfold MQ. apply image_sum. intros el el' I I' R'. destruct (image_tracks m p el el' Hm (Hv el I) (Hv' el' I') R') as (M & s & K & E).
  unfold Q, Qr. rewrite M. transitivity (m_E (el_mat el) * sumf (fun g => g_w g * sh_j (shp el' g) * F' el' g) gps4); [rewrite <- sumf_scal; apply sumf_ext; intros; ring|].
  rewrite (E (F el)); [|intros g Hg; apply (H el el' s g I I' K Hg)]. rewrite <- !sumf_scal. apply sumf_ext. intros. unfold k2. ring.
Qed.

(** totals *)
Lemma image_totals : let t := section_totals els in let t' := section_totals els' in
  t_area t' = k2 * t_area t /\ t_mass t' = k2 * t_mass t /\ t_ea t' = k2 * t_ea t /\ t_ga t' = k2 * t_ga t /\
  t_qx t' = k2 * (s_b m * t_qy t + s_e m * s_a m * t_qx t + s_dy m * t_ea t) /\ t_qy t' = k2 * (s_a m * t_qy t - s_e m * s_b m * t_qx t + s_dx m * t_ea t).
Proof.
  cbv zeta. rewrite !section_totals_q. cbn [t_area t_mass t_ea t_ga t_qx t_qy]. rewrite !image_mesh_q. repeat (split; [reflexivity|]).
  split.
  - f_equal. rewrite (mesh_q_ext _ _ (quad (s_dy m) (s_b m) (s_e m * s_a m) 0 0 0)) by (intros; unfold sim_y, quad; ring). rewrite mesh_q_quad. ring.
  - f_equal. rewrite (mesh_q_ext _ _ (quad (s_dx m) (s_a m) (- (s_e m * s_b m)) 0 0 0)) by (intros; unfold sim_x, quad; ring). rewrite mesh_q_quad. ring.
Qed.
Lemma image_centroid : t_ea (section_totals els) <> 0 -> let c := centroidal_of (section_totals els) in let c' := centroidal_of (section_totals els') in
  p_cx c' = sim_x m (p_cx c) (p_cy c) /\ p_cy c' = sim_y m (p_cx c) (p_cy c) /\
  p_ixx_c c' = k2 * (s_a m ^ 2 * p_ixx_c c + 2 * s_e m * s_a m * s_b m * p_ixy_c c + s_b m ^ 2 * p_iyy_c c) /\
  p_iyy_c c' = k2 * (s_b m ^ 2 * p_ixx_c c - 2 * s_e m * s_a m * s_b m * p_ixy_c c + s_a m ^ 2 * p_iyy_c c) /\
  p_ixy_c c' = k2 * (s_e m * (s_a m ^ 2 - s_b m ^ 2) * p_ixy_c c + s_a m * s_b m * (p_iyy_c c - p_ixx_c c)).
Proof.
  intros N c c'. destruct image_totals as (_ & _ & TE & _ & TX & TY). destruct (sim_det m Hm) as [S E]. fold k2 in S.
  assert (C1 : p_cx c' = sim_x m (p_cx c) (p_cy c)) by (unfold c', c, centroidal_of; cbn [p_cx p_cy]; rewrite TE, TY; unfold sim_x; field; split; [exact N|lra]).
  assert (C2 : p_cy c' = sim_y m (p_cx c) (p_cy c)) by (unfold c', c, centroidal_of; cbn [p_cx p_cy]; rewrite TE, TX; unfold sim_y; field; split; [exact N|lra]).
  assert (N' : t_ea (section_totals els') <> 0) by (rewrite TE; apply Rmult_integral_contrapositive_currified; [lra|exact N]).
  assert (Z : forall k3 k4 k5, k3 * p_iyy_c c' + k4 * p_ixy_c c' + k5 * p_ixx_c c' =
    k2 * ((k3 * s_a m ^ 2 + k4 * s_a m * s_b m + k5 * s_b m ^ 2) * p_iyy_c c + s_e m * (- 2 * k3 * s_a m * s_b m + k4 * (s_a m ^ 2 - s_b m ^ 2) + 2 * k5 * s_a m * s_b m) * p_ixy_c c
      + (k3 * s_b m ^ 2 - k4 * s_a m * s_b m + k5 * s_a m ^ 2) * p_ixx_c c)).
  { intros k3 k4 k5. pose proof (mesh_q_centred els' 0 0 0 k3 k4 k5 N') as Q1. cbv zeta in Q1. fold c' in Q1. rewrite image_mesh_q, C1, C2 in Q1.
    rewrite (mesh_q_ext _ _ (fun x y => quad 0 0 0 (k3 * s_a m ^ 2 + k4 * s_a m * s_b m + k5 * s_b m ^ 2)
       (s_e m * (- 2 * k3 * s_a m * s_b m + k4 * (s_a m ^ 2 - s_b m ^ 2) + 2 * k5 * s_a m * s_b m))
       (k3 * s_b m ^ 2 - k4 * s_a m * s_b m + k5 * s_a m ^ 2) (x - p_cx c) (y - p_cy c))) in Q1.
    - rewrite (mesh_q_centred els _ _ _ _ _ _ N) in Q1. fold c in Q1. lra.
    - intros x y. unfold quad, sim_x, sim_y. destruct (proj1 Hm) as [-> | ->]; ring. }
  split; [exact C1|]. split; [exact C2|]. split; [|split].
  - specialize (Z 0 0 1). lra.
  - specialize (Z 1 0 0). lra.
  - specialize (Z 0 1 0). lra.
Qed.
End Image.

(** Shifting both meshes to their centroids leaves the linear part. *)
Definition linear (m : similarity) : similarity := mkSim (s_a m) (s_b m) (s_e m) 0 0.
Lemma linear_proper m : proper_sim m -> proper_sim (linear m). Proof. exact (fun H => H). Qed.
Lemma relisted_shift e e' c d : relisted e e' -> relisted (shift_el c d e) (shift_el c d e').
Proof. intros H. induction H as [|x H IH|x H IH]; [apply rl_same|apply (rl_turn _ _ IH)|apply (rl_flip _ _ IH)]. Qed.
Lemma shift_image m p els els' cx cy : mesh_image m p els els' ->
  mesh_image (linear m) p (map (shift_el cx cy) els) (map (shift_el (sim_x m cx cy) (sim_y m cx cy)) els').
Proof.
  intros (l & P & F). exists (map (shift_el (sim_x m cx cy) (sim_y m cx cy)) l). split; [apply Permutation_map, P|]. clear P.
  induction F as [|a b s l E F IH]; constructor; [|exact IH].
  replace (move_el (linear m) p (shift_el cx cy a)) with (shift_el (sim_x m cx cy) (sim_y m cx cy) (move_el m p a)); [apply relisted_shift, E|].
  unfold shift_el, move_el, linear, sim_x, sim_y, zip6, map6. cbn [el_x el_y el_ids el_mat v0 v1 v2 v3 v4 v5 s_a s_b s_e s_dx s_dy]. f_equal; f_equal; ring.
Qed.

Section Warp.
Context (n : nat) (m : similarity) (Hs : proper_sim m) (p q : nat -> nat) (Hpq : renumbering n p q).
Context (X Y X' Y' : nat -> R) (els els' : list tri6) (solve solve' : lg_solver) (composite : bool) (w w' : warping).
Context (HI : mesh_image m p els els').
Context (HA : analysed n X Y els solve composite w) (HA' : analysed n X' Y' els' solve' composite w').
Let t := section_totals els.
Let c := centroidal_of t.
Let t' := section_totals els'.
Let c' := centroidal_of t'.
Let wels := map (shift_el (p_cx c) (p_cy c)) els.
Let wels' := map (shift_el (p_cx c') (p_cy c')) els'.
Let nu := nu_used composite els.
Let on := a_on _ _ _ _ _ _ _ HA.
Let ne := a_ne _ _ _ _ _ _ _ HA.
Let pos := a_pos _ _ _ _ _ _ _ HA.
Let on' := a_on _ _ _ _ _ _ _ HA'.
Let ne' := a_ne _ _ _ _ _ _ _ HA'.
Let pos' := a_pos _ _ _ _ _ _ _ HA'.
Let Hmw1 := Hmw n X Y els on.
Let Hmw2 := Hmw n X' Y' els' on'.
Let HE := Hpw els pos.
Let a := s_a m. Let b := s_b m. Let e := s_e m. Let k2 := scale2 m.

Lemma v_ea : 0 < t_ea t. Proof. apply (Hea n X Y els); assumption. Qed.
Lemma v_k2 : 0 < k2 /\ e * e = 1. Proof. exact (sim_det m Hs). Qed.
Lemma v_c : p_cx c' = sim_x m (p_cx c) (p_cy c) /\ p_cy c' = sim_y m (p_cx c) (p_cy c) /\
  p_ixx_c c' = k2 * (a ^ 2 * p_ixx_c c + 2 * e * a * b * p_ixy_c c + b ^ 2 * p_iyy_c c) /\
  p_iyy_c c' = k2 * (b ^ 2 * p_ixx_c c - 2 * e * a * b * p_ixy_c c + a ^ 2 * p_iyy_c c) /\
  p_ixy_c c' = k2 * (e * (a ^ 2 - b ^ 2) * p_ixy_c c + a * b * (p_iyy_c c - p_ixx_c c)).
Proof. apply (image_centroid m Hs p els els' (on_valid n X Y els on) (on_valid n X' Y' els' on') HI). pose proof v_ea. unfold t in *. lra. Qed.
Lemma v_wels : mesh_image (linear m) p wels wels'.
Proof. unfold wels'. destruct v_c as (-> & -> & _). apply shift_image, HI. Qed.
Lemma v_nu : nu_used composite els' = nu.
Proof.
  unfold nu, nu_used. destruct composite; [|reflexivity]. destruct (image_totals m Hs p els els' (on_valid n X Y els on) (on_valid n X' Y' els' on') HI) as (_ & _ & E & G & _).
  unfold nu_eff. rewrite E, G. destruct v_k2 as [K _]. fold k2. unfold Rdiv. rewrite !Rinv_mult. set (z := / t_ga _). clearbody z. f_equal. field. lra.
Qed.

(** pulling back a function on the second mesh *)
Definition back (u : nat -> R) : nat -> R := fun i => u (p i).
Let trk := tracks (linear m) p.
Lemma w_MQ (F F' : field) : (forall el el' s g, In el wels -> In el' wels' -> trk el el' s -> sum1 g -> F' el' (s g) = F el g) -> MQ wels' F' = k2 * MQ wels F.
Proof. apply (image_MQ (linear m) (linear_proper m Hs) p wels wels' (on_valid _ _ _ _ Hmw1) (on_valid _ _ _ _ Hmw2) v_wels). Qed.
Lemma t_px el el' s g : trk el el' s -> sum1 g -> px el' (s g) = a * px el g - e * b * py el g.
Proof. intros K H. rewrite (tk_px _ _ _ _ _ K g H). unfold sim_x, linear, a, b, e. cbn [s_a s_b s_e s_dx]. ring. Qed.
Lemma t_py el el' s g : trk el el' s -> sum1 g -> py el' (s g) = b * px el g + e * a * py el g.
Proof. intros K H. rewrite (tk_py _ _ _ _ _ K g H). unfold sim_y, linear, a, b, e. cbn [s_a s_b s_e s_dy]. ring. Qed.
Lemma t_gx u el el' s g : trk el el' s -> sum1 g -> Gx u el' (s g) = (a * Gx (back u) el g - e * b * Gy (back u) el g) / k2.
Proof. intros K H. rewrite (tk_gx _ _ _ _ _ K u g H). reflexivity. Qed.
Lemma t_gy u el el' s g : trk el el' s -> sum1 g -> Gy u el' (s g) = (b * Gx (back u) el g + e * a * Gy (back u) el g) / k2.
Proof. intros K H. rewrite (tk_gy _ _ _ _ _ K u g H). reflexivity. Qed.
Lemma t_v u el el' s g : trk el el' s -> sum1 g -> Vl u el' (s g) = Vl (back u) el g.
Proof. intros K H. apply (tk_v _ _ _ _ _ K u g H). Qed.
(** every function on the first mesh is the pull-back of one on the second *)
Lemma gather_back v el : In el wels -> gather (back (fun j => v (q j))) (el_ids el) = gather v (el_ids el).
Proof.
  intros H. destruct (Hmw1 el H) as (_ & _ & L0 & _). unfold gather, back. unfold ids_list in L0. cbn [In] in L0.
  rewrite !(fun i Hi => proj2 (Hpq i Hi)) by (apply L0; tauto). reflexivity.
Qed.
Lemma k2_eq : k2 = a ^ 2 + b ^ 2. Proof. reflexivity. Qed.
Ltac sq := destruct v_k2 as [Kp Ke]; rewrite ?k2_eq in *.

Lemma v_B u v : B wels' u v = B wels (back u) (back v).
Proof.
  unfold B. rewrite (w_MQ (fun el g => / k2 * (Gx (back u) el g * Gx (back v) el g + Gy (back u) el g * Gy (back v) el g))).
  - rewrite MQ_scal. destruct v_k2. field. lra.
  - intros el el' s g _ _ K H. rewrite !(t_gx _ _ _ _ _ K H), !(t_gy _ _ _ _ _ K H). destruct (proj1 Hs) as [E|E]; fold e in E; rewrite E; rewrite k2_eq; destruct v_k2 as [Kp _]; rewrite k2_eq in Kp; field; lra.
Qed.
Lemma v_L v : L wels' v = e * k2 * L wels (back v).
Proof.
  unfold L. rewrite (w_MQ (fun el g => e * (Gx (back v) el g * py el g - Gy (back v) el g * px el g))).
  - rewrite MQ_scal. ring.
  - intros el el' s g _ _ K H. rewrite !(t_gx _ _ _ _ _ K H), !(t_gy _ _ _ _ _ K H), (t_px _ _ _ _ K H), (t_py _ _ _ _ K H).
    destruct (proj1 Hs) as [E|E]; fold e in E; rewrite E; rewrite k2_eq; destruct v_k2 as [Kp _]; rewrite k2_eq in Kp; field; lra.
Qed.
Lemma B_gather u v v' : (forall el, In el wels -> gather v (el_ids el) = gather v' (el_ids el)) -> B wels u v = B wels u v'.
Proof. intros H. unfold B. apply MQ_ext. intros el g Hel _. unfold Gx, Gy. rewrite (H el Hel). reflexivity. Qed.
Lemma L_gather v v' : (forall el, In el wels -> gather v (el_ids el) = gather v' (el_ids el)) -> L wels v = L wels v'.
Proof. intros H. unfold L. apply MQ_ext. intros el g Hel _. unfold Gx, Gy. rewrite (H el Hel). reflexivity. Qed.

(** the warping function *)
Lemma om_B v : B wels (back (w_omega w')) v = B wels (fun i => e * k2 * w_omega w i + 0 * w_omega w i) v.
Proof.
  rewrite B_lin.
  pose proof (omega_weak n X Y els solve composite w on ne pos (a_ex _ _ _ _ _ _ _ HA) (a_w _ _ _ _ _ _ _ HA) v) as H.
  pose proof (omega_weak n X' Y' els' solve' composite w' on' ne' pos' (a_ex _ _ _ _ _ _ _ HA') (a_w _ _ _ _ _ _ _ HA') (fun j => v (q j))) as H'.
  fold t' in H'. fold c' wels' in H'. rewrite v_B, v_L, (B_gather _ _ v (gather_back v)), (L_gather _ v (gather_back v)) in H'. fold t c wels in H. rewrite H', H. ring.
Qed.
Lemma om_g el g : In el wels -> sum1 g -> Gx (back (w_omega w')) el g = e * k2 * Gx (w_omega w) el g /\ Gy (back (w_omega w')) el g = e * k2 * Gy (w_omega w) el g.
Proof. intros Hel Hg. destruct (grad_unique n _ _ wels Hmw1 HE _ _ om_B el g Hel Hg) as [-> ->]. rewrite Gx_lin, Gy_lin. split; ring. Qed.

(** the shear functions *)
Let sp0 := warping_spec _ _ _ _ _ _ _ (a_w _ _ _ _ _ _ _ HA).
Let sp' := warping_spec _ _ _ _ _ _ _ (a_w _ _ _ _ _ _ _ HA').
Let xx := p_ixx_c c. Let yy := p_iyy_c c. Let xy := p_ixy_c c.
Let xx' := p_ixx_c c'. Let yy' := p_iyy_c c'. Let xy' := p_ixy_c c'.
Definition Fd (v : nat -> R) := MQ wels (fun el g => nu / 2 * (Gx v el g * sp_d1 (spar xx yy xy el g) + Gy v el g * sp_d2 (spar xx yy xy el g))
     + 2 * (1 + nu) * (xx * px el g - xy * py el g) * Vl v el g).
Definition Fh (v : nat -> R) := MQ wels (fun el g => nu / 2 * (Gx v el g * sp_h1 (spar xx yy xy el g) + Gy v el g * sp_h2 (spar xx yy xy el g))
     + 2 * (1 + nu) * (yy * py el g - xy * px el g) * Vl v el g).
Lemma psi_F v : B wels (w_psi w) v = Fd v /\ B wels (w_phi w) v = Fh v.
Proof.
  pose proof (shear_load_form n wels xx yy xy nu v (on_wf n _ _ wels Hmw1)) as F.
  destruct sp0 as [[_ [Ho Hp]] _]. destruct (a_ex _ _ _ _ _ _ _ HA _ _ _ Ho) as [lam Hl]. destruct (a_ex _ _ _ _ _ _ _ HA _ _ _ Hp) as [lam2 Hl2].
  destruct (K_lam n X Y els on ne pos _ _ _ Hl (fp_sum n X Y els composite on ne pos)) as [_ [H _]].
  destruct (K_lam n X Y els on ne pos _ _ _ Hl2 (fh_sum n X Y els composite on ne pos)) as [_ [H2 _]].
  specialize (H v). specialize (H2 v). fold t in H, H2. fold c in H, H2. fold wels in H, H2. fold xx yy xy in H, H2. change (if composite then nu_eff t else 0) with nu in H, H2.
  destruct (assemble_shear_load xx yy xy nu wels) as [f h]. cbn [fst snd] in *. cbv zeta in F. destruct F as [F1 F2].
  rewrite H, H2, F1, F2. split; reflexivity.
Qed.
(** the vectors of the particular solutions *)
Lemma v_par el el' s g : trk el el' s -> sum1 g ->
  let P := spar xx yy xy el g in let P' := spar xx' yy' xy' el' (s g) in
  let D1 := a * sp_d1 P - e * b * sp_h1 P in let D2 := a * sp_d2 P - e * b * sp_h2 P in
  let H1 := b * sp_d1 P + e * a * sp_h1 P in let H2 := b * sp_d2 P + e * a * sp_h2 P in
  sp_d1 P' = k2 ^ 2 * (a * D1 - e * b * D2) /\ sp_d2 P' = k2 ^ 2 * (b * D1 + e * a * D2) /\
  sp_h1 P' = k2 ^ 2 * (a * H1 - e * b * H2) /\ sp_h2 P' = k2 ^ 2 * (b * H1 + e * a * H2).
Proof.
  intros K H. cbv zeta. unfold spar. rewrite (t_px _ _ _ _ K H), (t_py _ _ _ _ K H). unfold xx', yy', xy'. destruct v_c as (_ & _ & -> & -> & ->). fold xx yy xy.
  unfold shear_parameter. cbn [sp_d1 sp_d2 sp_h1 sp_h2]. rewrite k2_eq. destruct (proj1 Hs) as [E|E]; fold e in E; rewrite E; repeat split; ring.
Qed.
Lemma v_s el el' s g : trk el el' s -> sum1 g ->
  xx' * px el' (s g) - xy' * py el' (s g) = k2 ^ 2 * (a * (xx * px el g - xy * py el g) - e * b * (yy * py el g - xy * px el g)) /\
  yy' * py el' (s g) - xy' * px el' (s g) = k2 ^ 2 * (b * (xx * px el g - xy * py el g) + e * a * (yy * py el g - xy * px el g)).
Proof.
  intros K H. rewrite (t_px _ _ _ _ K H), (t_py _ _ _ _ K H). unfold xx', yy', xy'. destruct v_c as (_ & _ & -> & -> & ->). fold xx yy xy.
  rewrite k2_eq. destruct (proj1 Hs) as [E|E]; fold e in E; rewrite E; split; ring.
Qed.
(** gradients against particular vectors: the products of M u / k2 and M w *)
Lemma dotM u1 u2 w1 w2 : (a * u1 - e * b * u2) / k2 * (k2 ^ 2 * (a * w1 - e * b * w2)) + (b * u1 + e * a * u2) / k2 * (k2 ^ 2 * (b * w1 + e * a * w2)) = k2 ^ 2 * (u1 * w1 + u2 * w2).
Proof. rewrite k2_eq. destruct v_k2 as [Kp _]. rewrite k2_eq in Kp. destruct (proj1 Hs) as [E|E]; fold e in E; rewrite E; field; lra. Qed.
Lemma psi_F' v : B wels' (w_psi w') v = k2 ^ 3 * (a * Fd (back v) - e * b * Fh (back v)) /\ B wels' (w_phi w') v = k2 ^ 3 * (b * Fd (back v) + e * a * Fh (back v)).
Proof.
  pose proof (shear_load_form n wels' xx' yy' xy' nu v (on_wf n _ _ wels' Hmw2)) as F.
  destruct sp' as [[_ [Ho Hp]] _]. destruct (a_ex _ _ _ _ _ _ _ HA' _ _ _ Ho) as [lam Hl]. destruct (a_ex _ _ _ _ _ _ _ HA' _ _ _ Hp) as [lam2 Hl2].
  destruct (K_lam n X' Y' els' on' ne' pos' _ _ _ Hl (fp_sum n X' Y' els' composite on' ne' pos')) as [_ [H _]].
  destruct (K_lam n X' Y' els' on' ne' pos' _ _ _ Hl2 (fh_sum n X' Y' els' composite on' ne' pos')) as [_ [H2 _]].
  specialize (H v). specialize (H2 v). fold t' in H, H2. fold c' in H, H2. fold wels' in H, H2. fold xx' yy' xy' in H, H2.
  change (if composite then nu_eff t' else 0) with (nu_used composite els') in H, H2. rewrite v_nu in H, H2.
  destruct (assemble_shear_load xx' yy' xy' nu wels') as [f h]. cbn [fst snd] in *. cbv zeta in F. destruct F as [F1 F2].
  rewrite H, H2, F1, F2. clear H H2 F1 F2 f h Ho Hp Hl Hl2 lam lam2. unfold Fd, Fh.
  split; (etransitivity; [eapply w_MQ; intros el el' s g _ _ K Hg; rewrite (t_gx _ _ _ _ _ K Hg), (t_gy _ _ _ _ _ K Hg), (t_v _ _ _ _ _ K Hg);
    destruct (v_s _ _ _ _ K Hg) as [V1 V2]; destruct (v_par _ _ _ _ K Hg) as (P1 & P2 & P3 & P4); rewrite ?V1, ?V2, ?P1, ?P2, ?P3, ?P4, dotM; reflexivity|]).
  - transitivity (k2 ^ 3 * (a * Fd (back v) + (- (e * b)) * Fh (back v))); [|unfold Fd, Fh; ring]. unfold Fd, Fh. rewrite <- MQ_lin2, <- !MQ_scal. apply MQ_ext. intros. ring.
  - transitivity (k2 ^ 3 * (b * Fd (back v) + (e * a) * Fh (back v))); [|unfold Fd, Fh; ring]. unfold Fd, Fh. rewrite <- MQ_lin2, <- !MQ_scal. apply MQ_ext. intros. ring.
Qed.
Lemma Fd_gather v v' : (forall el, In el wels -> gather v (el_ids el) = gather v' (el_ids el)) -> Fd v = Fd v' /\ Fh v = Fh v'.
Proof. intros H. unfold Fd, Fh. split; apply MQ_ext; intros el g Hel _; unfold Gx, Gy, Vl; rewrite (H el Hel); reflexivity. Qed.
Lemma psi_g el g : In el wels -> sum1 g ->
  Gx (back (w_psi w')) el g = k2 ^ 3 * (a * Gx (w_psi w) el g - e * b * Gx (w_phi w) el g) /\ Gy (back (w_psi w')) el g = k2 ^ 3 * (a * Gy (w_psi w) el g - e * b * Gy (w_phi w) el g) /\
  Gx (back (w_phi w')) el g = k2 ^ 3 * (b * Gx (w_psi w) el g + e * a * Gx (w_phi w) el g) /\ Gy (back (w_phi w')) el g = k2 ^ 3 * (b * Gy (w_psi w) el g + e * a * Gy (w_phi w) el g).
Proof.
  intros Hel Hg.
  assert (U1 : forall v, B wels (back (w_psi w')) v = B wels (fun i => (k2 ^ 3 * a) * w_psi w i + (- (k2 ^ 3 * (e * b))) * w_phi w i) v).
  { intros v. rewrite B_lin. destruct (psi_F v) as [-> ->]. destruct (psi_F' (fun j => v (q j))) as [E _]. rewrite v_B, (B_gather _ _ v (gather_back v)) in E.
    destruct (Fd_gather _ v (gather_back v)) as [G1 G2]. rewrite G1, G2 in E. rewrite E. ring. }
  assert (U2 : forall v, B wels (back (w_phi w')) v = B wels (fun i => (k2 ^ 3 * b) * w_psi w i + (k2 ^ 3 * (e * a)) * w_phi w i) v).
  { intros v. rewrite B_lin. destruct (psi_F v) as [-> ->]. destruct (psi_F' (fun j => v (q j))) as [_ E]. rewrite v_B, (B_gather _ _ v (gather_back v)) in E.
    destruct (Fd_gather _ v (gather_back v)) as [G1 G2]. rewrite G1, G2 in E. rewrite E. ring. }
  destruct (grad_unique n _ _ wels Hmw1 HE _ _ U1 el g Hel Hg) as [-> ->]. destruct (grad_unique n _ _ wels Hmw1 HE _ _ U2 el g Hel Hg) as [-> ->].
  rewrite !Gx_lin, !Gy_lin. repeat split; ring.
Qed.

(** loads against the solutions *)
Lemma L_back_om : L wels (back (w_omega w')) = e * k2 * L wels (w_omega w).
Proof. unfold L. rewrite <- MQ_scal. apply MQ_ext. intros el g Hel Hg. destruct (om_g el g Hel (sum1_4 g Hg)) as [-> ->]. ring. Qed.
Lemma L_back_psi : L wels (back (w_psi w')) = k2 ^ 3 * (a * L wels (w_psi w) - e * b * L wels (w_phi w)) /\ L wels (back (w_phi w')) = k2 ^ 3 * (b * L wels (w_psi w) + e * a * L wels (w_phi w)).
Proof.
  split.
  - transitivity ((k2 ^ 3 * a) * L wels (w_psi w) + (- (k2 ^ 3 * (e * b))) * L wels (w_phi w)); [|ring]. unfold L. rewrite <- MQ_lin2. apply MQ_ext. intros el g Hel Hg.
    destruct (psi_g el g Hel (sum1_4 g Hg)) as (-> & -> & _ & _). ring.
  - transitivity ((k2 ^ 3 * b) * L wels (w_psi w) + (k2 ^ 3 * (e * a)) * L wels (w_phi w)); [|ring]. unfold L. rewrite <- MQ_lin2. apply MQ_ext. intros el g Hel Hg.
    destruct (psi_g el g Hel (sum1_4 g Hg)) as (_ & _ & -> & ->). ring.
Qed.
Lemma ft_eq u : dotn n u (snd (assemble_torsion n wels)) = L wels u. Proof. apply (L_form n _ _ wels Hmw1). Qed.
Lemma ft_eq' u : dotn n u (snd (assemble_torsion n wels')) = e * k2 * L wels (back u). Proof. rewrite <- v_L. apply (L_form n _ _ wels' Hmw2). Qed.

(** shear deformation coefficients *)
Let KP := shear_deformation xx yy xy nu (w_psi w) (w_phi w) wels.
Let kx := fst (fst KP). Let ky := snd (fst KP). Let kxy := snd KP.
Lemma kap_image : shear_deformation xx' yy' xy' nu (w_psi w') (w_phi w') wels' =
  (k2 ^ 6 * (a ^ 2 * kx - 2 * e * a * b * kxy + b ^ 2 * ky), k2 ^ 6 * (b ^ 2 * kx + 2 * e * a * b * kxy + a ^ 2 * ky),
   k2 ^ 6 * (a * b * (kx - ky) + e * (a ^ 2 - b ^ 2) * kxy)).
Proof.
  unfold kx, ky, kxy, KP. rewrite !shear_deformation_form. cbv zeta. cbn [fst snd].
  set (P1 := fun (el : tri6) g => Gx (w_psi w) el g - nu / 2 * sp_d1 (spar xx yy xy el g)). set (P2 := fun (el : tri6) g => Gy (w_psi w) el g - nu / 2 * sp_d2 (spar xx yy xy el g)).
  set (H1 := fun (el : tri6) g => Gx (w_phi w) el g - nu / 2 * sp_h1 (spar xx yy xy el g)). set (H2 := fun (el : tri6) g => Gy (w_phi w) el g - nu / 2 * sp_h2 (spar xx yy xy el g)).
  assert (V : forall el el' s g, In el wels -> trk el el' s -> sum1 g ->
    let D1 := a * P1 el g - e * b * H1 el g in let D2 := a * P2 el g - e * b * H2 el g in let E1 := b * P1 el g + e * a * H1 el g in let E2 := b * P2 el g + e * a * H2 el g in
    Gx (w_psi w') el' (s g) - nu / 2 * sp_d1 (spar xx' yy' xy' el' (s g)) = k2 ^ 2 * (a * D1 - e * b * D2) /\
    Gy (w_psi w') el' (s g) - nu / 2 * sp_d2 (spar xx' yy' xy' el' (s g)) = k2 ^ 2 * (b * D1 + e * a * D2) /\
    Gx (w_phi w') el' (s g) - nu / 2 * sp_h1 (spar xx' yy' xy' el' (s g)) = k2 ^ 2 * (a * E1 - e * b * E2) /\
    Gy (w_phi w') el' (s g) - nu / 2 * sp_h2 (spar xx' yy' xy' el' (s g)) = k2 ^ 2 * (b * E1 + e * a * E2)).
  { intros el el' s g Hel K Hg. cbv zeta. rewrite !(t_gx _ _ _ _ _ K Hg), !(t_gy _ _ _ _ _ K Hg). destruct (psi_g el g Hel Hg) as (-> & -> & -> & ->).
    destruct (v_par _ _ _ _ K Hg) as (-> & -> & -> & ->). unfold P1, P2, H1, H2. destruct v_k2 as [Kp _]. repeat split; field; lra. }
  assert (N2 : forall u1 u2 w1 w2, k2 ^ 2 * (a * u1 - e * b * u2) * (k2 ^ 2 * (a * w1 - e * b * w2)) + k2 ^ 2 * (b * u1 + e * a * u2) * (k2 ^ 2 * (b * w1 + e * a * w2)) = k2 ^ 5 * (u1 * w1 + u2 * w2)).
  { intros. rewrite k2_eq. destruct (proj1 Hs) as [E|E]; fold e in E; rewrite E; ring. }
  f_equal; [f_equal|]; (etransitivity; [eapply w_MQ; intros el el' s g Hel _ K Hg; destruct (V _ _ _ _ Hel K Hg) as (V1 & V2 & V3 & V4); rewrite ?V1, ?V2, ?V3, ?V4, N2; reflexivity|]).
  - transitivity (k2 ^ 6 * (1 * (a ^ 2 * MQ wels (fun el g => P1 el g * P1 el g + P2 el g * P2 el g) + (- 2 * e * a * b) * MQ wels (fun el g => P1 el g * H1 el g + P2 el g * H2 el g))
      + b ^ 2 * MQ wels (fun el g => H1 el g * H1 el g + H2 el g * H2 el g))); [|unfold P1, P2, H1, H2; ring].
    rewrite <- !MQ_lin2, <- !MQ_scal. apply MQ_ext. intros. destruct (proj1 Hs) as [E|E]; fold e in E; rewrite E; ring.
  - transitivity (k2 ^ 6 * (1 * (b ^ 2 * MQ wels (fun el g => P1 el g * P1 el g + P2 el g * P2 el g) + (2 * e * a * b) * MQ wels (fun el g => P1 el g * H1 el g + P2 el g * H2 el g))
      + a ^ 2 * MQ wels (fun el g => H1 el g * H1 el g + H2 el g * H2 el g))); [|unfold P1, P2, H1, H2; ring].
    rewrite <- !MQ_lin2, <- !MQ_scal. apply MQ_ext. intros. destruct (proj1 Hs) as [E|E]; fold e in E; rewrite E; ring.
  - transitivity (k2 ^ 6 * (1 * (a * b * MQ wels (fun el g => P1 el g * P1 el g + P2 el g * P2 el g) + (e * (a ^ 2 - b ^ 2)) * MQ wels (fun el g => P1 el g * H1 el g + P2 el g * H2 el g))
      + (- (a * b)) * MQ wels (fun el g => H1 el g * H1 el g + H2 el g * H2 el g))); [|unfold P1, P2, H1, H2; ring].
    rewrite <- !MQ_lin2, <- !MQ_scal. apply MQ_ext. intros. destruct (proj1 Hs) as [E|E]; fold e in E; rewrite E; ring.
Qed.
Lemma wi_image : let A := sc_warping_integrals xx yy xy (w_omega w) wels in let A' := sc_warping_integrals xx' yy' xy' (w_omega w') wels' in
  wi_scx A' = k2 ^ 4 * (a * wi_scx A - e * b * wi_scy A) /\ wi_scy A' = k2 ^ 4 * (b * wi_scx A + e * a * wi_scy A).
Proof.
  cbv zeta. rewrite !sc_warping_form. cbn [wi_scx wi_scy].
  set (F := fun (el : tri6) g => (yy * px el g + xy * py el g) * (px el g ^ 2 + py el g ^ 2)). set (G := fun (el : tri6) g => (xx * py el g + xy * px el g) * (px el g ^ 2 + py el g ^ 2)).
  assert (V : forall el el' s g, trk el el' s -> sum1 g -> (yy' * px el' (s g) + xy' * py el' (s g)) * (px el' (s g) ^ 2 + py el' (s g) ^ 2) = k2 ^ 3 * (a * F el g - e * b * G el g) /\
    (xx' * py el' (s g) + xy' * px el' (s g)) * (px el' (s g) ^ 2 + py el' (s g) ^ 2) = k2 ^ 3 * (b * F el g + e * a * G el g)).
  { intros el el' s g K H. rewrite (t_px _ _ _ _ K H), (t_py _ _ _ _ K H). unfold xx', yy', xy'. destruct v_c as (_ & _ & -> & -> & ->). fold xx yy xy. unfold F, G.
    rewrite k2_eq. destruct (proj1 Hs) as [E|E]; fold e in E; rewrite E; split; ring. }
  split; (etransitivity; [eapply w_MQ; intros el el' s g Hel _ K Hg; destruct (V _ _ _ _ K Hg) as (V1 & V2); rewrite ?V1, ?V2; reflexivity|]).
  - transitivity (k2 ^ 4 * (a * MQ wels F + (- (e * b)) * MQ wels G)); [|ring]. rewrite <- MQ_lin2, <- !MQ_scal. apply MQ_ext. intros. ring.
  - transitivity (k2 ^ 4 * (b * MQ wels F + (e * a) * MQ wels G)); [|ring]. rewrite <- MQ_lin2, <- !MQ_scal. apply MQ_ext. intros. ring.
Qed.
Lemma det_image : xx' * yy' - xy' ^ 2 = k2 ^ 4 * (xx * yy - xy ^ 2).
Proof. unfold xx', yy', xy'. destruct v_c as (_ & _ & -> & -> & ->). fold xx yy xy. rewrite k2_eq. destruct (proj1 Hs) as [E|E]; fold e in E; rewrite E; ring. Qed.

Context (Hnu : 1 + nu <> 0).
Lemma image_results : w_j w' = k2 ^ 2 * w_j w /\ w_delta_s w' = k2 ^ 4 * w_delta_s w /\
  w_x_se w' = a * w_x_se w - e * b * w_y_se w /\ w_y_se w' = b * w_x_se w + e * a * w_y_se w /\
  k2 ^ 2 * / w_a_sx w' = a ^ 2 * / w_a_sx w - 2 * e * a * b * / w_a_sxy w + b ^ 2 * / w_a_sy w /\
  k2 ^ 2 * / w_a_sy w' = b ^ 2 * / w_a_sx w + 2 * e * a * b * / w_a_sxy w + a ^ 2 * / w_a_sy w /\
  k2 ^ 2 * / w_a_sxy w' = a * b * (/ w_a_sx w - / w_a_sy w) + e * (a ^ 2 - b ^ 2) * / w_a_sxy w.
Proof.
  pose proof sp0 as S. pose proof sp' as S'. cbv zeta in S, S'. fold t' in S'. fold c' in S'. fold wels' xx' yy' xy' in S'. fold t in S. fold c in S. fold wels xx yy xy in S.
  change (if composite then nu_eff t else 0) with nu in S. change (if composite then nu_eff t' else 0) with (nu_used composite els') in S'. rewrite v_nu in S'. fold KP in S.
  rewrite kap_image in S'. cbn [fst snd] in S'. rewrite (dotn_comm n _ (w_phi w')), (dotn_comm n _ (w_psi w')), !ft_eq' in S'. rewrite (dotn_comm n _ (w_phi w)), (dotn_comm n _ (w_psi w)), !ft_eq in S.
  rewrite L_back_om in S'. destruct L_back_psi as [LP LH]. rewrite LP, LH in S'. destruct wi_image as [W1 W2]. rewrite W1, W2 in S'. clear LP LH W1 W2.
  destruct S as [_ [S2 [S3 [S4 [S5 [_ [_ [_ [_ [[S10 [S11 S12]] _]]]]]]]]]]. destruct S' as [_ [R2 [R3 [R4 [R5 [_ [_ [_ [_ [[R10 [R11 R12]] _]]]]]]]]]]. fold kx ky kxy in S10, S11, S12.
  rewrite det_image in R3. assert (ED : w_delta_s w' = k2 ^ 4 * w_delta_s w) by (rewrite R3, S3; ring).
  destruct v_k2 as [Kp Ke]. assert (Dn := delta_ne n X Y els solve composite w on ne pos (a_w _ _ _ _ _ _ _ HA) Hnu).
  assert (I : forall x y, / (x ^ 2 / y) = / x ^ 2 * y) by (intros x y; unfold Rdiv; rewrite Rinv_mult, Rinv_inv; reflexivity).
  split; [|split; [exact ED|]].
  - rewrite R2, S2. unfold xx', yy'. destruct v_c as (_ & _ & -> & -> & _). fold xx yy xy. rewrite k2_eq. destruct (proj1 Hs) as [E|E]; fold e in E; rewrite E; ring.
  - split; [|split; [|split; [|split]]].
    + rewrite R4, ED, S4, S5. set (lp := L wels (w_psi w)). set (lh := L wels (w_phi w)). destruct (proj1 Hs) as [E|E]; fold e in E; rewrite E; field; (split; [exact Dn|lra]).
    + rewrite R5, ED, S4, S5. set (lp := L wels (w_psi w)). set (lh := L wels (w_phi w)). destruct (proj1 Hs) as [E|E]; fold e in E; rewrite E; field; (split; [exact Dn|lra]).
    + rewrite R10, S10, S11, S12, ED, !I. field. split; [exact Dn|lra].
    + rewrite R11, S10, S11, S12, ED, !I. field. split; [exact Dn|lra].
    + rewrite R12, S10, S11, S12, ED, !I. field. split; [exact Dn|lra].
Qed.

(** the integrals of the monosymmetry constants *)
Lemma mono_image phi phi' : let M := mono_integrals phi wels in let M' := mono_integrals phi' wels' in
  mi_x M' = k2 ^ 2 * (b * mi_y M + e * a * mi_x M) /\ mi_y M' = k2 ^ 2 * (a * mi_y M - e * b * mi_x M).
Proof.
  cbv zeta. rewrite !mono_form. cbn [mi_x mi_y].
  set (F := fun (el : tri6) g => px el g ^ 2 * py el g + py el g ^ 3). set (G := fun (el : tri6) g => py el g ^ 2 * px el g + px el g ^ 3).
  assert (V : forall el el' s g, trk el el' s -> sum1 g -> px el' (s g) ^ 2 * py el' (s g) + py el' (s g) ^ 3 = k2 * (b * G el g + e * a * F el g) /\
     py el' (s g) ^ 2 * px el' (s g) + px el' (s g) ^ 3 = k2 * (a * G el g - e * b * F el g)).
  { intros el el' s g K H. rewrite (t_px _ _ _ _ K H), (t_py _ _ _ _ K H). unfold F, G. rewrite k2_eq. destruct (proj1 Hs) as [E|E]; fold e in E; rewrite E; split; ring. }
  split; (etransitivity; [eapply w_MQ; intros el el' s g Hel _ K Hg; destruct (V _ _ _ _ K Hg) as (V1 & V2); first [exact V1|exact V2]|]).
  - transitivity (k2 ^ 2 * (b * MQ wels G + (e * a) * MQ wels F)); [|ring]. rewrite <- MQ_lin2, <- !MQ_scal. apply MQ_ext. intros. ring.
  - transitivity (k2 ^ 2 * (a * MQ wels G + (- (e * b)) * MQ wels F)); [|ring]. rewrite <- MQ_lin2, <- !MQ_scal. apply MQ_ext. intros. ring.
Qed.
(** (beta_y + .. ) as a vector: ixx beta_x and iyy beta_y *)
Lemma image_beta : w_beta_x_minus w' = - w_beta_x_plus w' /\ w_beta_y_minus w' = - w_beta_y_plus w' /\
  xx' * (2 * w_y_se w' - w_beta_x_plus w') = k2 ^ 2 * (b * (yy * (2 * w_x_se w - w_beta_y_plus w)) + e * a * (xx * (2 * w_y_se w - w_beta_x_plus w))) /\
  yy' * (2 * w_x_se w' - w_beta_y_plus w') = k2 ^ 2 * (a * (yy * (2 * w_x_se w - w_beta_y_plus w)) - e * b * (xx * (2 * w_y_se w - w_beta_x_plus w))).
Proof.
  destruct (mono_image (p_phi c) (p_phi c')) as [M1 M2].
  pose proof sp0 as S. pose proof sp' as S'. cbv zeta in S, S'. fold t' in S'. fold c' in S'. fold wels' xx' yy' xy' in S'. fold t in S. fold c in S. fold wels xx yy xy in S.
  destruct S as [_ [_ [_ [_ [_ [_ [_ [_ [_ [_ [_ (S1 & _ & S3 & _)]]]]]]]]]]]. destruct S' as [_ [_ [_ [_ [_ [_ [_ [_ [_ [_ [_ (R1 & R2 & R3 & R4 & _)]]]]]]]]]]].
  destruct (Hdet n X Y els on ne pos) as (D1 & D2 & _). fold t in D1, D2. fold c in D1, D2. fold xx yy in D1, D2.
  destruct (Hdet n X' Y' els' on' ne' pos') as (D3 & D4 & _). fold t' in D3, D4. fold c' in D3, D4. fold xx' yy' in D3, D4.
  rewrite R1, R2, R3, R4, S1, S3. split; [unfold Rdiv; ring|]. split; [unfold Rdiv; ring|]. split.
  - replace (xx' * _) with (mi_x (mono_integrals (p_phi c') wels')) by (field; lra). rewrite M1. field. split; lra.
  - replace (yy' * _) with (mi_y (mono_integrals (p_phi c') wels')) by (field; lra). rewrite M2. field. split; lra.
Qed.

(** principal axes *)
Let k := sqrt k2.
Lemma v_k : 0 < k /\ k * k = k2.
Proof. destruct v_k2 as [K _]. split; [apply sqrt_lt_R0; exact K|apply sqrt_sqrt; lra]. Qed.
Lemma i11_image : p_i11_c c' = k2 ^ 2 * p_i11_c c /\ p_i22_c c' = k2 ^ 2 * p_i22_c c.
Proof.
  change (p_i11_c c') with (principal_i11 xx' yy' xy'). change (p_i22_c c') with (principal_i22 xx' yy' xy').
  change (p_i11_c c) with (principal_i11 xx yy xy). change (p_i22_c c) with (principal_i22 xx yy xy).
  destruct v_k2 as [K _].
  assert (D : principal_delta xx' yy' xy' = k2 ^ 2 * principal_delta xx yy xy).
  { unfold principal_delta. rewrite <- sqrt_scale; [|nra|pose proof (pow2_ge_0 ((xx - yy) / 2)); pose proof (pow2_ge_0 xy); lra]. f_equal.
    unfold xx', yy', xy'. destruct v_c as (_ & _ & -> & -> & ->). fold xx yy xy. rewrite k2_eq. destruct (proj1 Hs) as [E|E]; fold e in E; rewrite E; field. }
  assert (T : xx' + yy' = k2 ^ 2 * (xx + yy)) by (unfold xx', yy'; destruct v_c as (_ & _ & -> & -> & _); fold xx yy xy; rewrite k2_eq; destruct (proj1 Hs) as [E|E]; fold e in E; rewrite E; ring).
  unfold principal_i11, principal_i22. rewrite D, T. split; field.
Qed.
Let co := cos (p_phi c * PI / 180). Let si := sin (p_phi c * PI / 180).
Let co' := cos (p_phi c' * PI / 180). Let si' := sin (p_phi c' * PI / 180).
Definition same_axes (sg : R) : Prop := (sg = 1 \/ sg = -1) /\ k * co' = sg * (a * co - e * b * si) /\ k * si' = sg * (b * co + e * a * si).
Lemma axes_general : axes_found els -> axes_found els' -> exists sg, same_axes sg.
Proof.
  intros N N'. unfold axes_found in N, N'. fold t in N. fold c in N. fold t' in N'. fold c' in N'.
  destruct (Hdet n X Y els on ne pos) as (D1 & D2 & D3 & D4 & D5). fold t in D1, D2, D3, D4, D5. fold c in D1, D2, D3, D4, D5.
  destruct (Hdet n X' Y' els' on' ne' pos') as (D1' & D2' & D3' & D4' & D5'). fold t' in D1', D2', D3', D4', D5'. fold c' in D1', D2', D3', D4', D5'.
  destruct (phi_axes (p_ixx_c c) (p_iyy_c c) (p_ixy_c c) N D4) as (A1 & A2 & A3 & _). change (principal_phi (p_ixx_c c) (p_ixy_c c) _) with (p_phi c) in A1, A2, A3.
  destruct (phi_axes (p_ixx_c c') (p_iyy_c c') (p_ixy_c c') N' D4') as (B1 & B2 & B3 & _). change (principal_phi (p_ixx_c c') (p_ixy_c c') _) with (p_phi c') in B1, B2, B3.
  change (principal_i11 _ _ _) with (p_i11_c c) in A2 at 1. change (principal_i22 (p_ixx_c c) _ _) with (p_i22_c c) in A3.
  change (principal_i11 (p_ixx_c c') _ _) with (p_i11_c c') in B2. change (principal_i22 (p_ixx_c c') _ _) with (p_i22_c c') in B3.
  assert (G : p_i22_c c < p_i11_c c).
  { destruct (i11_ge (p_ixx_c c) (p_iyy_c c) (p_ixy_c c)) as [G1 G2]. change (principal_i11 _ _ _) with (p_i11_c c) in G1, G2.
    pose proof (principal_sum (p_ixx_c c) (p_iyy_c c) (p_ixy_c c)) as PS. change (principal_i11 _ _ _) with (p_i11_c c) in PS. change (principal_i22 _ _ _) with (p_i22_c c) in PS.
    destruct (Req_dec (p_ixx_c c) (p_i11_c c)) as [Q|Q]; [exfalso; apply N; rewrite Q, Rminus_diag_eq, Rabs_R0 by reflexivity; lra|]. lra. }
  destruct i11_image as [I1 I2]. destruct v_k as [Kp Kk]. destruct v_k2 as [K2 Ke].
  pose proof (sin2_cos2 (p_phi c * PI / 180)) as Q1. pose proof (sin2_cos2 (p_phi c' * PI / 180)) as Q2. unfold Rsqr in Q1, Q2.
  unfold rot_ixx, rot_iyy, rot_ixy in *. fold co si in A1, A2, A3, Q1. fold co' si' in B1, B2, B3, Q2. fold xx yy xy in A1, A2, A3. fold xx' yy' xy' in B1, B2, B3.
  rewrite I1 in B2. rewrite I2 in B3. set (i1 := p_i11_c c) in *. set (i2 := p_i22_c c) in *.
  set (U1 := a * co - e * b * si). set (U2 := b * co + e * a * si).
  assert (E1 : yy * co + xy * si = i2 * co).
  { transitivity ((yy * co + xy * si) * (si * si + co * co)); [rewrite Q1; ring|]. transitivity (co * i2 - si * 0); [|ring]. rewrite <- A3, <- A1. ring. }
  assert (E2 : xy * co + xx * si = i2 * si).
  { transitivity ((xy * co + xx * si) * (si * si + co * co)); [rewrite Q1; ring|]. transitivity (si * i2 + co * 0); [|ring]. rewrite <- A3, <- A1. ring. }
  assert (F1 : - yy' * si' + xy' * co' = - (k2 ^ 2 * i1) * si').
  { transitivity ((- yy' * si' + xy' * co') * (si' * si' + co' * co')); [rewrite Q2; ring|]. transitivity (- si' * (k2 ^ 2 * i1) + co' * 0); [|ring]. rewrite <- B2, <- B1. ring. }
  assert (F2 : - xy' * si' + xx' * co' = (k2 ^ 2 * i1) * co').
  { transitivity ((- xy' * si' + xx' * co') * (si' * si' + co' * co')); [rewrite Q2; ring|]. transitivity (co' * (k2 ^ 2 * i1) + si' * 0); [|ring]. rewrite <- B2, <- B1. ring. }
  assert (G1 : yy' * U1 + xy' * U2 = k2 ^ 2 * i2 * U1 /\ xy' * U1 + xx' * U2 = k2 ^ 2 * i2 * U2).
  { assert (H1 : yy' * U1 + xy' * U2 = k2 ^ 2 * (a * (yy * co + xy * si) - e * b * (xy * co + xx * si)) /\ xy' * U1 + xx' * U2 = k2 ^ 2 * (b * (yy * co + xy * si) + e * a * (xy * co + xx * si))).
    { unfold xx', yy', xy', U1, U2. destruct v_c as (_ & _ & -> & -> & ->). fold xx yy xy. rewrite k2_eq. destruct (proj1 Hs) as [E|E]; fold e in E; rewrite E; split; ring. }
    destruct H1 as [-> ->]. rewrite E1, E2. unfold U1, U2. split; ring. }
  destruct G1 as [G1 G2].
  assert (Z : - si' * U1 + co' * U2 = 0).
  { assert (Z : k2 ^ 2 * i1 * (- si' * U1 + co' * U2) = k2 ^ 2 * i2 * (- si' * U1 + co' * U2)).
    { transitivity ((- (k2 ^ 2 * i1) * si') * U1 + ((k2 ^ 2 * i1) * co') * U2); [ring|]. rewrite <- F1, <- F2.
      transitivity (- si' * (yy' * U1 + xy' * U2) + co' * (xy' * U1 + xx' * U2)); [ring|]. rewrite G1, G2. ring. }
    assert (NZ : k2 ^ 2 * (i1 - i2) <> 0) by (apply Rmult_integral_contrapositive_currified; [apply pow_nonzero; lra|lra]).
    apply (Rmult_eq_reg_l (k2 ^ 2 * (i1 - i2))); [|exact NZ]. lra. }
  set (l := co' * U1 + si' * U2).
  assert (L1 : U1 = l * co') by (transitivity (U1 * (si' * si' + co' * co')); [rewrite Q2; ring|]; transitivity (co' * l - si' * (- si' * U1 + co' * U2)); [unfold l; ring|rewrite Z; ring]).
  assert (L2 : U2 = l * si') by (transitivity (U2 * (si' * si' + co' * co')); [rewrite Q2; ring|]; transitivity (si' * l + co' * (- si' * U1 + co' * U2)); [unfold l; ring|rewrite Z; ring]).
  assert (L3 : l * l = k * k).
  { rewrite Kk. transitivity (U1 * U1 + U2 * U2).
    - rewrite L1, L2. transitivity (l * l * (si' * si' + co' * co')); [rewrite Q2; ring|ring].
    - transitivity (k2 * (si * si + co * co)); [|rewrite Q1; ring]. unfold U1, U2. rewrite k2_eq. destruct (proj1 Hs) as [E|E]; fold e in E; rewrite E; ring. }
  assert (L4 : (l - k) * (l + k) = 0) by lra. apply Rmult_integral in L4. fold U1 U2.
  destruct L4 as [L4|L4].
  - exists 1. unfold same_axes. fold U1 U2. rewrite L1, L2. replace l with k by lra. split; [left; reflexivity|]. split; ring.
  - exists (-1). unfold same_axes. fold U1 U2. rewrite L1, L2. replace l with (- k) by lra. split; [right; reflexivity|]. split; ring.
Qed.
Lemma axes_straight : b = 0 -> exists sg, same_axes sg.
Proof.
  intros B0. destruct i11_image as [I1 _]. destruct v_k as [Kp Kk]. destruct v_k2 as [K2 _].
  assert (Q2 : 0 < k2 ^ 2) by nra.
  assert (EX : p_ixx_c c' = k2 ^ 2 * p_ixx_c c) by (destruct v_c as (_ & _ & -> & _ & _); rewrite k2_eq, B0; ring).
  destruct (Rlt_dec (Rabs (p_ixx_c c - p_i11_c c)) (1 / 10 ^ 12 * p_i11_c c)) as [T|T].
  - assert (T' : Rabs (p_ixx_c c' - p_i11_c c') < 1 / 10 ^ 12 * p_i11_c c').
    { rewrite EX, I1, <- Rmult_minus_distr_l, Rabs_mult, (Rabs_right (k2 ^ 2)) by lra. apply (Rmult_lt_compat_l (k2 ^ 2)) in T; lra. }
    assert (P0 : p_phi c = 0) by (change (p_phi c) with (principal_phi (p_ixx_c c) (p_ixy_c c) (p_i11_c c)); unfold principal_phi; destruct (Rlt_dec _ _) as [_|N]; [reflexivity|contradiction]).
    assert (P1 : p_phi c' = 0) by (change (p_phi c') with (principal_phi (p_ixx_c c') (p_ixy_c c') (p_i11_c c')); unfold principal_phi; destruct (Rlt_dec _ _) as [_|N]; [reflexivity|contradiction]).
    unfold same_axes, co, si, co', si'. rewrite P0, P1. replace (0 * PI / 180) with 0 by field. rewrite cos_0, sin_0, B0.
    assert (L4 : (a - k) * (a + k) = 0) by (assert (k * k = a ^ 2) by (rewrite Kk, k2_eq, B0; ring); lra). apply Rmult_integral in L4. destruct L4 as [L4|L4].
    + exists 1. split; [left; reflexivity|]. split; lra.
    + exists (-1). split; [right; reflexivity|]. split; lra.
  - apply axes_general; unfold axes_found; [exact T|]. fold t'. fold c'. intros T'. apply T. rewrite EX, I1, <- Rmult_minus_distr_l, Rabs_mult, (Rabs_right (k2 ^ 2)) in T' by lra.
    apply (Rmult_lt_reg_l (k2 ^ 2)); lra.
Qed.
Lemma axes_scaled : b = 0 -> e = 1 -> 0 < a -> same_axes 1.
Proof.
  intros B0 E1 A0. destruct i11_image as [I1 _]. destruct v_k as [Kp Kk]. destruct v_k2 as [K2 _].
  assert (Q2 : 0 < k2 ^ 2) by nra.
  assert (EX : p_ixx_c c' = k2 ^ 2 * p_ixx_c c /\ p_ixy_c c' = k2 ^ 2 * p_ixy_c c) by (destruct v_c as (_ & _ & -> & _ & ->); rewrite k2_eq, B0, E1; split; ring).
  assert (EP : p_phi c' = p_phi c).
  { change (p_phi c') with (principal_phi (p_ixx_c c') (p_ixy_c c') (p_i11_c c')). rewrite I1. destruct EX as [-> ->]. apply principal_phi_scale, Q2. }
  assert (k = a). { assert (L4 : (a - k) * (a + k) = 0) by (assert (k * k = a ^ 2) by (rewrite Kk, k2_eq, B0; ring); lra). apply Rmult_integral in L4. lra. }
  unfold same_axes, co', si'. rewrite EP. fold co si. rewrite B0, E1. split; [left; reflexivity|]. split; rewrite H; ring.
Qed.
Definition principal_image (sg : R) : Prop := w_x11_se w' = sg * k * w_x11_se w /\ w_y22_se w' = sg * e * k * w_y22_se w /\ w_a_s11 w' = k2 * w_a_s11 w /\ w_a_s22 w' = k2 * w_a_s22 w /\
  w_beta_11_plus w' = sg * e * k * w_beta_11_plus w /\ w_beta_11_minus w' = sg * e * k * w_beta_11_minus w /\
  w_beta_22_plus w' = sg * k * w_beta_22_plus w /\ w_beta_22_minus w' = sg * k * w_beta_22_minus w.
Lemma image_principal0 sg : same_axes sg -> principal_image sg.
Proof.
  intros (Sg & C1 & C2).
  destruct image_results as (_ & ED & EX & EY & _). destruct i11_image as [I1 I2].
  pose proof sp0 as S. pose proof sp' as S'. cbv zeta in S, S'. fold t' in S'. fold c' in S'. fold wels' xx' yy' xy' in S'. fold t in S. fold c in S. fold wels xx yy xy in S.
  change (if composite then nu_eff t else 0) with nu in S. change (if composite then nu_eff t' else 0) with (nu_used composite els') in S'. rewrite v_nu in S'. fold KP in S.
  rewrite kap_image in S'. cbn [fst snd] in S'. fold kx ky kxy in S.
  destruct S as [_ [_ [_ [_ [_ [S6 [_ [_ [_ [_ [[S13 S14] (_ & _ & _ & _ & B1 & B2 & B3 & B4)]]]]]]]]]]]. destruct S' as [_ [_ [_ [_ [_ [R6 [_ [_ [_ [_ [[R13 R14] (_ & _ & _ & _ & D1 & D2 & D3 & D4)]]]]]]]]]]].
  unfold principal_coordinate in S6, R6. cbv zeta in S6, R6. fold co si in S6, S13, S14. fold co' si' in R6, R13, R14. injection S6 as S61 S62. injection R6 as R61 R62.
  destruct v_k as [Kp Kk]. destruct v_k2 as [K2 Ke].
  assert (C1' : co' = sg * (a * co - e * b * si) / k) by (apply (Rmult_eq_reg_l k); [rewrite C1; field; lra|lra]).
  assert (C2' : si' = sg * (b * co + e * a * si) / k) by (apply (Rmult_eq_reg_l k); [rewrite C2; field; lra|lra]).
  assert (PX : forall x y, (a * x - e * b * y) * co' + (b * x + e * a * y) * si' = sg * k * (x * co + y * si)).
  { intros x y. rewrite C1', C2'. transitivity (sg * k2 / k * (x * co + y * si)); [|rewrite <- Kk; field; lra]. rewrite k2_eq. destruct (proj1 Hs) as [E|E]; fold e in E; rewrite E; field; lra. }
  assert (PY : forall x y, (b * x + e * a * y) * co' - (a * x - e * b * y) * si' = sg * e * k * (y * co - x * si)).
  { intros x y. rewrite C1', C2'. transitivity (sg * e * k2 / k * (y * co - x * si)); [|rewrite <- Kk; field; lra]. rewrite k2_eq. destruct (proj1 Hs) as [E|E]; fold e in E; rewrite E; field; lra. }
  assert (X11 : w_x11_se w' = sg * k * w_x11_se w) by (rewrite R61, S61, EX, EY; apply PX).
  assert (Y22 : w_y22_se w' = sg * e * k * w_y22_se w) by (rewrite R62, S62, EX, EY; apply PY).
  assert (SG : sg * sg = 1) by (destruct Sg as [-> | ->]; ring).
  assert (M11 : mi_11 (mono_integrals (p_phi c') wels') = k2 ^ 2 * (sg * e * k) * mi_11 (mono_integrals (p_phi c) wels) /\
                mi_22 (mono_integrals (p_phi c') wels') = k2 ^ 2 * (sg * k) * mi_22 (mono_integrals (p_phi c) wels)).
  { rewrite !mono_form. cbn [mi_11 mi_22]. unfold principal_coordinate. cbv zeta. cbn [fst snd]. fold co si co' si'.
    split.
    - etransitivity; [eapply w_MQ; intros el el' s g Hel _ K Hg; rewrite (t_px _ _ _ _ K Hg), (t_py _ _ _ _ K Hg), PX, PY; reflexivity|]. rewrite <- !MQ_scal. apply MQ_ext. intros.
      replace (k2 ^ 2) with (k2 * (k * k)) by (rewrite Kk; ring). destruct Sg as [-> | ->]; destruct (proj1 Hs) as [E|E]; fold e in E; rewrite E; ring.
    - etransitivity; [eapply w_MQ; intros el el' s g Hel _ K Hg; rewrite (t_px _ _ _ _ K Hg), (t_py _ _ _ _ K Hg), PX, PY; reflexivity|]. rewrite <- !MQ_scal. apply MQ_ext. intros.
      replace (k2 ^ 2) with (k2 * (k * k)) by (rewrite Kk; ring). destruct Sg as [-> | ->]; destruct (proj1 Hs) as [E|E]; fold e in E; rewrite E; ring. }
  destruct M11 as [M1 M2].
  destruct (Hdet n X Y els on ne pos) as (_ & _ & _ & P4 & P5). fold t in P4, P5. fold c in P4, P5.
  assert (Dn := delta_ne n X Y els solve composite w on ne pos (a_w _ _ _ _ _ _ _ HA) Hnu).
  destruct (image_totals m Hs p els els' (on_valid n X Y els on) (on_valid n X' Y' els' on') HI) as (TA & _). fold t t' in TA. fold k2 in TA.
  split; [exact X11|]. split; [exact Y22|].
  assert (AD : forall x y, k2 * t_area t / x = k2 * (t_area t / y) <-> k2 * (t_area t / x) = k2 * (t_area t / y)) by (intros; unfold Rdiv; rewrite !Rmult_assoc; tauto).
  split; [|split].
  - rewrite R13, S13, TA, ED. apply AD. f_equal. f_equal.
    rewrite C1', C2'. set (A0 := t_area t). set (d := w_delta_s w) in *.
    transitivity ((sg * sg) * (k2 * k2) / (k * k) / k2 * ((co * (kx * A0 / d ^ 2) + si * (kxy * A0 / d ^ 2)) * co + (co * (kxy * A0 / d ^ 2) + si * (ky * A0 / d ^ 2)) * si));
      [|rewrite SG, Kk; field; lra]. rewrite !k2_eq in *. destruct (proj1 Hs) as [E|E]; fold e in E; rewrite E; field; repeat split; lra.
  - rewrite R14, S14, TA, ED. apply AD. f_equal. f_equal.
    rewrite C1', C2'. set (A0 := t_area t). set (d := w_delta_s w) in *.
    transitivity ((sg * sg) * (k2 * k2) / (k * k) / k2 * ((- si * (kx * A0 / d ^ 2) + co * (kxy * A0 / d ^ 2)) * - si + (- si * (kxy * A0 / d ^ 2) + co * (ky * A0 / d ^ 2)) * co));
      [|rewrite SG, Kk; field; lra]. rewrite !k2_eq in *. destruct (proj1 Hs) as [E|E]; fold e in E; rewrite E; field; repeat split; lra.
  - rewrite D1, D2, D3, D4, B1, B2, B3, B4, M1, M2, I1, I2, X11, Y22. repeat split; field; lra.
Qed.
Lemma image_principal : b = 0 \/ axes_found els /\ axes_found els' -> exists sg, (sg = 1 \/ sg = -1) /\ principal_image sg.
Proof.
  intros HX. assert (HS : exists sg, same_axes sg) by (destruct HX as [HX|[HX HY]]; [apply axes_straight, HX|apply axes_general; assumption]).
  destruct HS as (sg & HS). exists sg. split; [apply HS|apply image_principal0, HS].
Qed.

(** connected sections *)
Context (Hc : connected els).
Lemma om_back : forall el, In el wels -> forall i, In i (ids_list (el_ids el)) -> back (w_omega w') i = e * k2 * w_omega w i.
Proof.
  assert (Hcw : connected wels) by (apply (wels_connected els Hc)).
  destruct (unique_connected n _ _ wels Hmw1 HE (fun i => e * k2 * w_omega w i + 0 * w_omega w i) (back (w_omega w')) Hcw (Hnw n X Y els solve composite w on ne pos (a_w _ _ _ _ _ _ _ HA))) as [d Hd].
  { intros v. symmetry. apply om_B. }
  assert (V : forall el g, In el wels -> In g gps4 -> Vl (back (w_omega w')) el g = e * k2 * Vl (w_omega w) el g + d).
  { intros el g Hel Hg. destruct (const_fields _ _ _ _ Hmw1 1 el g Hel (sum1_4 g Hg)) as [_ [_ C3]].
    transitivity (Vl (fun i => e * k2 * w_omega w i + d * (fun _ => 1) i) el g).
    - unfold Vl. f_equal. specialize (Hd el Hel). unfold ids_list in Hd. cbn [In] in Hd. unfold gather.
      rewrite !Hd by tauto. f_equal; ring.
    - rewrite Vl_lin, C3. ring. }
  assert (Z : Mn wels (back (w_omega w')) = e * k2 * Mn wels (w_omega w) + d * MQ wels (fun _ _ => 1)).
  { unfold Mn. rewrite <- MQ_lin2. apply MQ_ext. intros el g Hel Hg. rewrite V by assumption. ring. }
  assert (M0 : Mn wels (w_omega w) = 0) by (apply (omega_mean n X Y els solve composite w on ne pos (a_ex _ _ _ _ _ _ _ HA) (a_w _ _ _ _ _ _ _ HA))).
  assert (M1 : Mn wels (back (w_omega w')) = 0).
  { pose proof (omega_mean n X' Y' els' solve' composite w' on' ne' pos' (a_ex _ _ _ _ _ _ _ HA') (a_w _ _ _ _ _ _ _ HA')) as E.
    fold t' in E. fold c' in E. fold wels' in E. unfold Mn in E. rewrite (w_MQ (Vl (back (w_omega w')))) in E by (intros; apply t_v; assumption).
    apply (Rmult_eq_reg_l k2); [|destruct v_k2; lra]. rewrite Rmult_0_r. exact E. }
  pose proof (MQ_one n X Y els on ne pos) as M2. fold t in M2. fold c in M2. fold wels in M2.
  rewrite M0, M1, M2 in Z. pose proof v_ea.
  assert (d = 0) by (apply (Rmult_eq_reg_r (t_ea t)); lra). subst d.
  intros el Hel i Hi. rewrite (Hd el Hel i Hi). ring.
Qed.
Lemma image_moments : w_x_st w' = a * w_x_st w - e * b * w_y_st w /\ w_y_st w' = b * w_x_st w + e * a * w_y_st w /\ w_gamma w' = k2 ^ 3 * w_gamma w.
Proof.
  pose proof sp0 as S. pose proof sp' as S'. cbv zeta in S, S'. fold t' in S'. fold c' in S'. fold wels' xx' yy' xy' in S'. fold t in S. fold c in S. fold wels xx yy xy in S.
  assert (EA' := a_ea _ _ _ _ _ _ _ HA'). assert (EA := a_ea _ _ _ _ _ _ _ HA). fold t' in EA'. fold t in EA. rewrite EA in S. rewrite EA' in S'.
  destruct (image_totals m Hs p els els' (on_valid n X Y els on) (on_valid n X' Y' els' on') HI) as (_ & _ & TE & _). fold t t' in TE. fold k2 in TE.
  destruct S as [_ [_ [_ [_ [_ [_ [S7 [S8 [S9 _]]]]]]]]]. destruct S' as [_ [_ [_ [_ [_ [_ [R7 [R8 [R9 _]]]]]]]]].
  rewrite sc_warping_form in S7, S8, S9, R7, R8, R9. cbn [wi_ix wi_iy wi_i wi_q] in *. rewrite TE in R9.
  assert (V : forall el el' s g, In el wels -> trk el el' s -> sum1 g -> Vl (w_omega w') el' (s g) = e * k2 * Vl (w_omega w) el g).
  { intros el el' s g Hel K Hg. rewrite (t_v _ _ _ _ _ K Hg). transitivity (Vl (fun i => e * k2 * w_omega w i + 0 * w_omega w i) el g); [|rewrite Vl_lin; ring].
    unfold Vl. f_equal. unfold gather. pose proof (om_back el Hel) as H. unfold ids_list in H. cbn [In] in H. rewrite !H by tauto. f_equal; ring. }
  set (Z := Vl (w_omega w)) in *. set (wx := MQ wels (fun el g => px el g * Z el g)) in *. set (wy := MQ wels (fun el g => py el g * Z el g)) in *.
  assert (E1 : MQ wels' (fun el g => px el g * Vl (w_omega w') el g) = e * k2 ^ 2 * (a * wx - e * b * wy)).
  { etransitivity; [eapply w_MQ; intros el el' s g Hel _ K Hg; rewrite (V _ _ _ _ Hel K Hg), (t_px _ _ _ _ K Hg); reflexivity|].
    transitivity (e * k2 ^ 2 * (a * wx + (- (e * b)) * wy)); [|ring]. unfold wx, wy. rewrite <- MQ_lin2, <- !MQ_scal. apply MQ_ext. intros. fold Z. ring. }
  assert (E2 : MQ wels' (fun el g => py el g * Vl (w_omega w') el g) = e * k2 ^ 2 * (b * wx + e * a * wy)).
  { etransitivity; [eapply w_MQ; intros el el' s g Hel _ K Hg; rewrite (V _ _ _ _ Hel K Hg), (t_py _ _ _ _ K Hg); reflexivity|].
    unfold wx, wy. rewrite <- MQ_lin2, <- !MQ_scal. apply MQ_ext. intros. fold Z. ring. }
  assert (E3 : MQ wels' (Vl (w_omega w')) = e * k2 ^ 2 * MQ wels Z).
  { etransitivity; [eapply w_MQ; intros el el' s g Hel _ K Hg; rewrite (V _ _ _ _ Hel K Hg); reflexivity|]. rewrite <- !MQ_scal. apply MQ_ext. intros. fold Z. ring. }
  assert (E4 : MQ wels' (fun el g => Vl (w_omega w') el g ^ 2) = k2 ^ 3 * MQ wels (fun el g => Z el g ^ 2)).
  { etransitivity; [eapply w_MQ; intros el el' s g Hel _ K Hg; rewrite (V _ _ _ _ Hel K Hg); reflexivity|]. rewrite <- !MQ_scal. apply MQ_ext. intros. fold Z.
    destruct (proj1 Hs) as [E|E]; fold e in E; rewrite E; ring. }
  rewrite E1, E2, det_image in R7, R8. rewrite E1, E2, E3, E4 in R9. clear E1 E2 E3 E4.
  destruct (Hdet n X Y els on ne pos) as [_ [_ [D3 _]]]. fold t in D3. fold c in D3. fold xx yy xy in D3. destruct v_k2 as [Kp Ke]. pose proof v_ea as EAp.
  destruct image_results as (_ & _ & EX & EY & _).
  split; [|split].
  - rewrite R7, S7, S8. unfold xx', yy', xy'. destruct v_c as (_ & _ & Cx & Cy & Cxy). rewrite ?Cx, ?Cy, ?Cxy. fold xx yy xy. set (D := xx * yy - xy ^ 2) in *.
    replace (_ / (k2 ^ 4 * D)) with ((k2 ^ 4 * (a * (xy * wx - yy * wy) - e * b * (xx * wx - xy * wy))) / (k2 ^ 4 * D)).
    + field. split; lra.
    + f_equal. rewrite k2_eq. destruct (proj1 Hs) as [E|E]; fold e in E; rewrite E; ring.
  - rewrite R8, S7, S8. unfold xx', yy', xy'. destruct v_c as (_ & _ & Cx & Cy & Cxy). rewrite ?Cx, ?Cy, ?Cxy. fold xx yy xy. set (D := xx * yy - xy ^ 2) in *.
    replace (_ / (k2 ^ 4 * D)) with ((k2 ^ 4 * (b * (xy * wx - yy * wy) + e * a * (xx * wx - xy * wy))) / (k2 ^ 4 * D)).
    + field. split; lra.
    + f_equal. rewrite k2_eq. destruct (proj1 Hs) as [E|E]; fold e in E; rewrite E; ring.
  - rewrite R9, S9, EX, EY.
    replace ((e * k2 ^ 2 * MQ wels Z) ^ 2 / (k2 * t_ea t)) with (k2 ^ 3 * (MQ wels Z ^ 2 / t_ea t)).
    + set (A1 := MQ wels (fun el g => Z el g ^ 2)). set (A2 := MQ wels Z ^ 2 / t_ea t). clearbody A1 A2. rewrite k2_eq. destruct (proj1 Hs) as [E|E]; fold e in E; rewrite E; ring.
    + destruct (proj1 Hs) as [E|E]; fold e in E; rewrite E; field; split; lra.
Qed.
End Warp.
