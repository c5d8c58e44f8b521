(** C102: the shear stresses converge under refinement of the mesh. *)
From Coquelicot Require Import Coquelicot.
From Coq Require Import Reals List Permutation ClassicalEpsilon Lra Lia.
From Verif Require Import Base S_Integral M_Fea S_Fem M_Post M_Section S_Section S_Post S_Warp P_Integral P_Fea P_Geom P_Elem P_Section P_Totals P_Post P_Warp P_Warp2 P_Warp3 P_Warp4 P_Warp5 P_Warp9 P_WarpEx P_PlasticForms P_PlasticForms2 T_Warp S_Refine P_Refine T_Refine S_Prandtl P_Green P_Prandtl P_Prandtl2 T_Prandtl
  M_Stress S_Stress S_Shear P_Shear P_Shear2 T_Shear S_Converge P_Converge P_Converge2 T_Converge S_Grid P_Grid S_Grid2 P_Grid2 T_Converge2 S_Error P_Error.
Import ListNotations.
Local Open Scope R_scope.

(** ** Torsion *)
(** The squared error of the torsion stresses is that of the reciprocal of the torsion constant. *)
Theorem C102_torsion : forall n X Y els solve w a p om ps ph f fx fy free, analysed n X Y els solve false w ->
  stress_parameters false (section_totals els) (centroidal_of (section_totals els)) (Some w) a = Ok (p, om, ps, ph) ->
  elastic_stress f fx fy -> free_sides els free -> zero_on X Y free f ->
  let exact := 2 * mesh_int (fun _ => 1) f els in 0 < exact ->
  square_error els (fun el s u => sg_zx_mzz (field_at el a p om ps ph s u)) (fun el s u => sg_zy_mzz (field_at el a p om ps ph s u))
    (fun x y => a_mzz a / exact * fy x y) (fun x y => - (a_mzz a / exact * fx x y)) = a_mzz a ^ 2 * (/ exact - / w_j w).
Proof.
  intros n X Y els solve w a p om ps ph f fx fy free A HP E Hf Zf exact Hj. destruct (C22_torsion_constant _ _ _ _ _ _ _ A) as ([Pj _] & Tw & _).
  exact (error_torsion n X Y els solve w A a p om ps ph HP f fx fy free E Hf Zf Hj Pj Tw).
Qed.
(** It is at most a multiple of the fourth power of the element size. *)
Theorem C102_torsion_bound : forall n X Y els solve w a p om ps ph f fx fy W Wx Wy free h sigma M, analysed n X Y els solve false w ->
  stress_parameters false (section_totals els) (centroidal_of (section_totals els)) (Some w) a = Ok (p, om, ps, ph) ->
  same_stresses f fx fy W Wx Wy -> third_at_most M els W Wx Wy -> free_sides els free -> zero_on X Y free f -> fine_mesh_of h sigma els ->
  let exact := 2 * mesh_int (fun _ => 1) f els in let area := mesh_int (fun _ => 1) (fun _ _ => 1) els in 0 < exact ->
  0 <= square_error els (fun el s u => sg_zx_mzz (field_at el a p om ps ph s u)) (fun el s u => sg_zy_mzz (field_at el a p om ps ph s u))
    (fun x y => a_mzz a / exact * fy x y) (fun x y => - (a_mzz a / exact * fx x y)) <= a_mzz a ^ 2 / exact ^ 2 * (2 * (4 + 144 * sigma) ^ 2 * M ^ 2 * area) * h ^ 4.
Proof.
  intros n X Y els solve w a p om ps ph f fx fy W Wx Wy free h sigma M A HP SS T3 Hf Zf Fm exact area Hj.
  pose proof (C102_torsion n X Y els solve w a p om ps ph f fx fy free A HP (warping_elastic M els f fx fy W Wx Wy SS T3) Hf Zf Hj) as T. cbv zeta in T. fold exact in T. rewrite T. clear T.
  destruct (C100_error n X Y els solve w f fx fy W Wx Wy free h sigma M A SS T3 Hf Zf Fm) as [L Up]. fold exact in L, Up. fold area in Up.
  set (j := w_j w) in *. set (K := 2 * (4 + 144 * sigma) ^ 2 * M ^ 2 * area) in *. assert (Pj : 0 < j) by lra.
  replace (/ exact - / j) with ((j - exact) / (exact * j)) by (field; lra). split.
  - apply Rmult_le_pos; [apply pow2_ge_0|]. apply Rdiv_le_0_compat; [lra|apply Rmult_lt_0_compat; assumption].
  - replace (a_mzz a ^ 2 / exact ^ 2 * K * h ^ 4) with (a_mzz a ^ 2 * (K * h ^ 4 / (exact * exact))) by (field; lra). apply Rmult_le_compat_l; [apply pow2_ge_0|].
    unfold Rdiv. apply Rmult_le_compat; [lra|left; apply Rinv_0_lt_compat, Rmult_lt_0_compat; assumption|lra|]. apply Rinv_le_contravar; [apply Rmult_lt_0_compat; assumption|apply Rmult_le_compat_l; lra].
Qed.

(** ** Shear forces *)
(** The squared error of the stresses of a shear force V in one of the four directions is that of the reciprocal of the shear area. *)
Theorem C102_shear : forall n X Y els solve w a p om ps ph V co si ar q r, analysed n X Y els solve false w ->
  stress_parameters false (section_totals els) (centroidal_of (section_totals els)) (Some w) a = Ok (p, om, ps, ph) ->
  force_direction els w co si ar -> a_vx a = V * co -> a_vy a = V * si -> equilibrium X Y els co si q r ->
  square_error els (fun el s u => sg_zx_vx (field_at el a p om ps ph s u) + sg_zx_vy (field_at el a p om ps ph s u))
    (fun el s u => sg_zy_vx (field_at el a p om ps ph s u) + sg_zy_vy (field_at el a p om ps ph s u)) (fun x y => V * q x y) (fun x y => V * r x y) =
  V ^ 2 * (mesh_int (fun _ => 1) (fun x y => q x y ^ 2 + r x y ^ 2) els - / ar).
Proof.
  intros n X Y els solve w a p om ps ph V co si ar q r A HP D EX EY E. exact (error_shear n X Y els solve w A a p om ps ph HP q r V co si ar D EX EY E).
Qed.
(** It is at most a multiple of the fourth power of the element size. *)
Theorem C102_shear_bound : forall n X Y els solve w a p om ps ph V co si ar q r W h sigma M, analysed n X Y els solve false w ->
  stress_parameters false (section_totals els) (centroidal_of (section_totals els)) (Some w) a = Ok (p, om, ps, ph) ->
  force_direction els w co si ar -> a_vx a = V * co -> a_vy a = V * si -> equilibrium X Y els co si q r -> third_at_most M els W q r -> fine_mesh_of h sigma els ->
  let area := mesh_int (fun _ => 1) (fun _ _ => 1) els in
  0 <= square_error els (fun el s u => sg_zx_vx (field_at el a p om ps ph s u) + sg_zx_vy (field_at el a p om ps ph s u))
    (fun el s u => sg_zy_vx (field_at el a p om ps ph s u) + sg_zy_vy (field_at el a p om ps ph s u)) (fun x y => V * q x y) (fun x y => V * r x y) <=
  V ^ 2 * (2 * (4 + 144 * sigma) ^ 2 * M ^ 2 * area) * h ^ 4.
Proof.
  intros n X Y els solve w a p om ps ph V co si ar q r W h sigma M A HP D EX EY E T3 Fm area. rewrite (C102_shear n X Y els solve w a p om ps ph V co si ar q r A HP D EX EY E).
  assert (N : near_exact els q r h sigma M ar).
  { destruct (C101_error n X Y els solve w q r W h sigma M A T3 Fm) as (E1 & E2 & E3 & E4). unfold force_direction in D. cbv zeta in D.
    destruct D as [D|[D|[D|[D|[]]]]]; apply pair_equal_spec in D; destruct D as [D <-]; apply pair_equal_spec in D; destruct D as [<- <-]; auto. }
  destruct N as (_ & Lo & Up). fold area in Lo. set (en := mesh_int _ (fun x y => q x y ^ 2 + r x y ^ 2) els) in *. split.
  - apply Rmult_le_pos; [apply pow2_ge_0|lra].
  - rewrite Rmult_assoc. apply Rmult_le_compat_l; [apply pow2_ge_0|lra].
Qed.

(** Any mesh of a rectangle: against the parabolic shear stresses of a force V in the direction (co, si). *)
Theorem C102_rectangle : forall n X Y els solve w a p om ps ph V co si ar x0 y0 b d m free h sigma, analysed n X Y els solve false w ->
  stress_parameters false (section_totals els) (centroidal_of (section_totals els)) (Some w) a = Ok (p, om, ps, ph) ->
  force_direction els w co si ar -> a_vx a = V * co -> a_vy a = V * si -> 0 < b -> 0 < d ->
  same_boundary (mesh_edges els) (ring_edges m (rectangle x0 y0 b d)) ->
  free_sides els free -> (forall i j k, In (i, j, k) free -> on_rectangle_side x0 y0 b d (X i, Y i) (X j, Y j)) -> fine_mesh_of h sigma els ->
  0 <= square_error els (fun el s u => sg_zx_vx (field_at el a p om ps ph s u) + sg_zx_vy (field_at el a p om ps ph s u))
    (fun el s u => sg_zy_vx (field_at el a p om ps ph s u) + sg_zy_vy (field_at el a p om ps ph s u))
    (fun x _ => V * co * (6 * ((x - x0) * (x0 + b - x)) / (b ^ 3 * d))) (fun _ y => V * si * (6 * ((y - y0) * (y0 + d - y)) / (b * d ^ 3))) <=
  V ^ 2 * (2 * (4 + 144 * sigma) ^ 2 * (12 / (b ^ 3 * d) + 12 / (b * d ^ 3)) ^ 2 * (b * d)) * h ^ 4.
Proof.
  intros n X Y els solve w a p om ps ph V co si ar x0 y0 b d m free h sigma A HP D EX EY Hb Hd B Hf Hs Fm. pose proof A as (Hm & _ & _ & U & _). specialize (U eq_refl). pose proof (on_valid _ _ _ _ Hm) as Va.
  destruct (rectangle_centroid x0 y0 b d m els Hb Hd Va B U) as (_ & _ & Ea).
  assert (Ear : mesh_int (fun _ => 1) (fun _ _ => 1) els = b * d) by (rewrite <- Ea; symmetry; apply (unit_area els Va U)).
  assert (Ecs : co ^ 2 + si ^ 2 = 1).
  { unfold force_direction in D. cbv zeta in D. set (phi := p_phi _ * PI / 180) in D. assert (Hcs : cos phi ^ 2 + sin phi ^ 2 = 1) by (pose proof (sin2_cos2 phi) as H; unfold Rsqr in H; lra).
    destruct D as [D|[D|[D|[D|[]]]]]; apply pair_equal_spec in D; destruct D as [D <-]; apply pair_equal_spec in D; destruct D as [<- <-]; lra. }
  assert (Ab : Rabs co <= 1 /\ Rabs si <= 1) by (pose proof (pow2_ge_0 co); pose proof (pow2_ge_0 si); split; rewrite <- (Rabs_pos_eq 1) by lra; apply Rsqr_le_abs_0; unfold Rsqr; lra).
  destruct Ab as [A1 A2].
  pose proof (C102_shear_bound n X Y els solve w a p om ps ph V co si ar _ _ _ h sigma _ A HP D EX EY (par_equilibrium X Y x0 y0 b d m els free co si Hb Hd Va B U Hf Hs) (par_warp_third x0 y0 b d co si Hb Hd A1 A2 els) Fm) as K.
  cbv zeta in K. rewrite Ear in K. unfold par_third in K.
  match goal with |- 0 <= ?u <= _ => match type of K with 0 <= ?v <= _ => replace u with v; [exact K|] end end.
  unfold square_error, field_int. apply sumf_ext. intros el _. apply loc_int_ext. intros s u. unfold par_x, par_y. f_equal; f_equal; f_equal; field; lra.
Qed.

(** Any mesh of an equilateral triangle with the side b: against the exact torsion stresses. *)
Theorem C102_equilateral : forall n X Y els solve w a p om ps ph b m free h sigma, analysed n X Y els solve false w ->
  stress_parameters false (section_totals els) (centroidal_of (section_totals els)) (Some w) a = Ok (p, om, ps, ph) -> 0 < b ->
  same_boundary (mesh_edges els) (ring_edges m (equilateral b)) ->
  free_sides els free -> (forall i j k, In (i, j, k) free -> on_equilateral_side b (X i, Y i) (X j, Y j)) -> fine_mesh_of h sigma els ->
  let rate := a_mzz a / (sqrt 3 * b ^ 4 / 80) in
  0 <= square_error els (fun el s u => sg_zx_mzz (field_at el a p om ps ph s u)) (fun el s u => sg_zy_mzz (field_at el a p om ps ph s u))
    (fun x y => rate * (sqrt 3 * (x * (b - x) + y ^ 2) / b - 2 * y)) (fun x y => - (rate * (sqrt 3 * (y * (b - 2 * x)) / b))) <= rate ^ 2 * (6 * sqrt 3 * (4 + 144 * sigma) ^ 2) * h ^ 4.
Proof.
  intros n X Y els solve w a p om ps ph b m free h sigma A HP Hb B Hf Hs Fm rate. pose proof A as (Hm & _). pose proof (on_valid _ _ _ _ Hm) as Va.
  assert (S3 : 0 < sqrt 3) by (apply sqrt_lt_R0; lra). assert (Pj : 0 < sqrt 3 * b ^ 4 / 80) by (assert (0 < b ^ 4) by (apply pow_lt; exact Hb); assert (0 < sqrt 3 * b ^ 4) by (apply Rmult_lt_0_compat; assumption); lra).
  assert (Ev : 2 * mesh_int (fun _ => 1) (cubic b) els = sqrt 3 * b ^ 4 / 80) by (rewrite (cubic_volume b m els Hb Va B); field).
  pose proof (C102_torsion_bound n X Y els solve w a p om ps ph _ _ _ _ _ _ free h sigma _ A HP (tri_warp_stresses b Hb) (tri_warp_third b Hb els) Hf (cubic_zero b Hb X Y free Hs) Fm) as K. cbv zeta in K.
  rewrite Ev, (equilateral_area b m els Va B) in K. specialize (K Pj). fold rate in K.
  match goal with |- 0 <= ?u <= ?z => match type of K with 0 <= ?v <= ?z' => replace u with v; [replace z with z'; [exact K|]|] end end.
  - replace (rate ^ 2) with (a_mzz a ^ 2 / (sqrt 3 * b ^ 4 / 80) ^ 2) by (unfold rate; field; split; lra). rewrite !Rmult_assoc. f_equal.
    replace (2 * ((4 + 144 * sigma) ^ 2 * ((2 * sqrt 3 / b) ^ 2 * (sqrt 3 * b ^ 2 / 4 * h ^ 4)))) with (2 * (sqrt 3 * sqrt 3) * sqrt 3 * (4 + 144 * sigma) ^ 2 * h ^ 4) by (field; lra). rewrite sqrt_sqrt by lra. ring.
  - unfold square_error, field_int. apply sumf_ext. intros el _. apply loc_int_ext. intros s u. unfold cubic_x, cubic_y. f_equal; f_equal; f_equal; field; lra.
Qed.

(** ** Refined meshes *)
Lemma fade u K h : 0 <= K -> 0 <= h -> (forall k, 0 <= u k <= K * (h / INR (S k)) ^ 4) -> is_lim_seq u 0.
Proof.
  intros HK Hh H. apply (is_lim_seq_le_le (fun _ => 0) u (fun k => K * h ^ 4 * / INR (S k))).
  - intros k. destruct (H k) as [L Up]. split; [exact L|]. eapply Rle_trans; [exact Up|]. rewrite Rmult_assoc. apply Rmult_le_compat_l; [exact HK|].
    assert (N : 1 <= INR (S k)) by (change 1 with (INR 1); apply le_INR; lia). replace ((h / INR (S k)) ^ 4) with (h ^ 4 * ((/ INR (S k)) ^ 3 * / INR (S k))) by (field; lra).
    apply Rmult_le_compat_l; [apply pow_le; exact Hh|]. assert (0 < / INR (S k) <= 1) as [Q1 Q2] by (split; [apply Rinv_0_lt_compat; lra|rewrite <- Rinv_1; apply Rinv_le_contravar; lra]).
    assert (Q3 : (/ INR (S k)) ^ 3 <= 1 ^ 3) by (apply pow_incr; lra). rewrite pow1 in Q3. apply (Rmult_le_compat_r (/ INR (S k))) in Q3; lra.
  - apply is_lim_seq_const.
  - replace (Finite 0) with (Rbar_mult (K * h ^ 4) 0) by (cbn; f_equal; ring). apply is_lim_seq_scal_l. apply (is_lim_seq_incr_1 (fun k => / INR k)).
    replace (Finite 0) with (Rbar_inv p_infty) by reflexivity. apply is_lim_seq_inv; [apply is_lim_seq_INR|discriminate].
Qed.
(** The uniform meshes of a rectangle: the squared error of the shear stresses tends to zero. *)
Theorem C102_uniform_rectangle : forall x0 y0 b d m a V co si (solve : nat -> lg_solver) (w : nat -> warping) p om ps ph ar, 0 < b -> 0 < d ->
  let els k := box_grid x0 y0 b d m k in
  (forall k, analysed (box_size k) (box_x x0 b k) (box_y y0 d k) (els k) (solve k) false (w k)) ->
  (forall k, stress_parameters false (section_totals (els k)) (centroidal_of (section_totals (els k))) (Some (w k)) a = Ok (p k, om k, ps k, ph k)) ->
  (forall k, force_direction (els k) (w k) co si (ar k)) -> a_vx a = V * co -> a_vy a = V * si ->
  is_lim_seq (fun k => square_error (els k)
    (fun el s u => sg_zx_vx (field_at el a (p k) (om k) (ps k) (ph k) s u) + sg_zx_vy (field_at el a (p k) (om k) (ps k) (ph k) s u))
    (fun el s u => sg_zy_vx (field_at el a (p k) (om k) (ps k) (ph k) s u) + sg_zy_vy (field_at el a (p k) (om k) (ps k) (ph k) s u))
    (fun x _ => V * co * (6 * ((x - x0) * (x0 + b - x)) / (b ^ 3 * d))) (fun _ y => V * si * (6 * ((y - y0) * (y0 + d - y)) / (b * d ^ 3)))) 0.
Proof.
  intros x0 y0 b d m a V co si solve w p om ps ph ar Hb Hd els A HP D EX EY. assert (Pbd : 0 < b * d) by (apply Rmult_lt_0_compat; assumption). pose (h := b + d). pose (sigma := 2 * h ^ 2 / (b * d)).
  assert (Sg : h ^ 2 <= sigma * (b * d / 2)) by (right; unfold sigma; field; lra).
  apply (fade _ (V ^ 2 * (2 * (4 + 144 * sigma) ^ 2 * (12 / (b ^ 3 * d) + 12 / (b * d ^ 3)) ^ 2 * (b * d))) h); [|unfold h; lra|].
  - replace (2 * (4 + 144 * sigma) ^ 2 * (12 / (b ^ 3 * d) + 12 / (b * d ^ 3)) ^ 2 * (b * d)) with (2 * (b * d) * ((4 + 144 * sigma) * (12 / (b ^ 3 * d) + 12 / (b * d ^ 3))) ^ 2) by ring.
    apply Rmult_le_pos; [apply pow2_ge_0|]. apply Rmult_le_pos; [lra|apply pow2_ge_0].
  - intros k. apply (C102_rectangle _ _ _ _ _ (w k) a _ _ _ _ V co si (ar k) x0 y0 b d m (box_free k) _ sigma (A k) (HP k) (D k) EX EY Hb Hd (box_boundary x0 y0 b d m k Hb Hd) (box_free_sides x0 y0 b d m k) (box_free_in x0 y0 b d k)).
    intros el I. destruct (box_fine x0 y0 b d m k Hb Hd h sigma ltac:(unfold h; lra) ltac:(unfold h; lra) Sg el I) as (e & He & R1 & R2). exists e. split; [lra|split; assumption].
Qed.
(** The uniform meshes of an equilateral triangle: the squared error of the torsion stresses tends to zero. *)
Theorem C102_uniform_equilateral : forall b m a (solve : nat -> lg_solver) (w : nat -> warping) p om ps ph, 0 < b ->
  let c := (b / 2, sqrt 3 * b / 2) in let els k := grid (0, 0) (b, 0) c m k in
  (forall k, analysed (grid_size k) (grid_x (0, 0) (b, 0) c k) (grid_y (0, 0) (b, 0) c k) (els k) (solve k) false (w k)) ->
  (forall k, stress_parameters false (section_totals (els k)) (centroidal_of (section_totals (els k))) (Some (w k)) a = Ok (p k, om k, ps k, ph k)) ->
  let rate := a_mzz a / (sqrt 3 * b ^ 4 / 80) in
  is_lim_seq (fun k => square_error (els k) (fun el s u => sg_zx_mzz (field_at el a (p k) (om k) (ps k) (ph k) s u)) (fun el s u => sg_zy_mzz (field_at el a (p k) (om k) (ps k) (ph k) s u))
    (fun x y => rate * (sqrt 3 * (x * (b - x) + y ^ 2) / b - 2 * y)) (fun x y => - (rate * (sqrt 3 * (y * (b - 2 * x)) / b)))) 0.
Proof.
  intros b m a solve w p om ps ph Ha c els A HP rate. assert (S3 : 3 / 2 <= sqrt 3 <= 2) by (split; [apply Rsqr_incr_0_var; [unfold Rsqr; rewrite sqrt_sqrt; lra|apply sqrt_pos]|apply Rsqr_incr_0_var; [unfold Rsqr; rewrite sqrt_sqrt; lra|lra]]).
  assert (Sa : 3 / 2 * b <= sqrt 3 * b <= 2 * b) by (split; apply Rmult_le_compat_r; lra).
  assert (O : 0 < orient (0, 0) (b, 0) c) by (unfold orient, c; cbn [fst snd]; replace ((b - 0) * (sqrt 3 * b / 2 - 0) - (b / 2 - 0) * (0 - 0)) with (b * (sqrt 3 * b) / 2) by field; assert (0 < b * (sqrt 3 * b)) by (apply Rmult_lt_0_compat; lra); lra).
  assert (Wi : within b (0, 0) (b, 0) c) by (unfold within, c; cbn [fst snd]; repeat split; apply Rabs_le; lra).
  assert (Sh : b ^ 2 <= 4 * (orient (0, 0) (b, 0) c / 2)) by (unfold orient, c; cbn [fst snd]; replace (4 * (((b - 0) * (sqrt 3 * b / 2 - 0) - (b / 2 - 0) * (0 - 0)) / 2)) with (b * (sqrt 3 * b)) by field; replace (b ^ 2) with (b * b) by ring; apply Rmult_le_compat_l; lra).
  apply (fade _ (rate ^ 2 * (6 * sqrt 3 * (4 + 144 * 4) ^ 2)) b); [|lra|].
  - apply Rmult_le_pos; [apply pow2_ge_0|]. apply Rmult_le_pos; [lra|apply pow2_ge_0].
  - intros k. apply (C102_equilateral _ _ _ _ _ (w k) a _ _ _ _ b m (grid_free k) _ 4 (A k) (HP k) Ha (grid_boundary (0, 0) (b, 0) c m k O) (grid_free_sides (0, 0) (b, 0) c m k)).
    + intros i j s I. destruct (grid_free_in (0, 0) (b, 0) c k i j s I) as (l & l' & _ & [H|[H|H]]); cbv zeta in H; unfold c in H; cbn [fst snd] in H; destruct H as (E1 & E2 & E3 & E4); unfold on_equilateral_side; cbn [fst snd]; fold c in E1, E2, E3, E4; rewrite E1, E2, E3, E4; [left|right; right|right; left]; split; field.
    + intros el I. destruct (grid_fine (0, 0) (b, 0) c m k b 4 Wi Sh el I) as (e & He & R1 & R2). exists e. split; [lra|split; assumption].
Qed.

(** ** The hypotheses are met *)
(** The stress parameters exist for every analysed section and all actions. *)
Lemma parameters_exist t c w a : exists p om ps ph, stress_parameters false t c (Some w) a = Ok (p, om, ps, ph).
Proof. unfold stress_parameters. destruct (needs_warping a); do 4 eexists; reflexivity. Qed.
Example C102_uniform_met : forall x0 y0 b d a, 0 < b -> 0 < d -> exists (solve : nat -> lg_solver) (w : nat -> warping) p om ps ph,
  let els k := box_grid x0 y0 b d xm k in
  (forall k, analysed (box_size k) (box_x x0 b k) (box_y y0 d k) (els k) (solve k) false (w k)) /\
  (forall k, stress_parameters false (section_totals (els k)) (centroidal_of (section_totals (els k))) (Some (w k)) a = Ok (p k, om k, ps k, ph k)) /\
  (forall k, force_direction (els k) (w k) 1 0 (w_a_sx (w k))).
Proof.
  intros x0 y0 b d a Hb Hd. destruct (C101_uniform_met x0 y0 b d Hb Hd) as (solve & w & A). exists solve, w. pose (els := fun k => box_grid x0 y0 b d xm k).
  destruct (choice (fun k (q : stress_par * (nat -> R) * (nat -> R) * (nat -> R)) => stress_parameters false (section_totals (els k)) (centroidal_of (section_totals (els k))) (Some (w k)) a = Ok q)) as [q Q].
  { intros k. destruct (parameters_exist (section_totals (els k)) (centroidal_of (section_totals (els k))) (w k) a) as (p & om & ps & ph & E). eexists. exact E. }
  exists (fun k => fst (fst (fst (q k)))), (fun k => snd (fst (fst (q k)))), (fun k => snd (fst (q k))), (fun k => snd (q k)).
  split; [exact A|]. split; [|intros k; left; reflexivity]. intros k. fold (els k). rewrite (Q k). destruct (q k) as [[[? ?] ?] ?]. reflexivity.
Qed.
Example C102_torsion_met : exists w p om ps ph, let a := mkActions 0 0 0 0 0 0 0 1 in analysed 6 tX tY [t1] (best_solver 6) false w /\
  stress_parameters false (section_totals [t1]) (centroidal_of (section_totals [t1])) (Some w) a = Ok (p, om, ps, ph) /\
  elastic_stress (cubic 2) (cubic_x 2) (cubic_y 2) /\ free_sides [t1] tri_free /\ zero_on tX tY tri_free (cubic 2) /\ 0 < 2 * mesh_int (fun _ => 1) (cubic 2) [t1].
Proof.
  destruct C97_equilateral_met as (w & A & B & F & S & E & Z & _). exists w. destruct (parameters_exist (section_totals [t1]) (centroidal_of (section_totals [t1])) w (mkActions 0 0 0 0 0 0 0 1)) as (p & om & ps & ph & HP).
  exists p, om, ps, ph. split; [exact A|]. split; [exact HP|]. split; [exact E|]. split; [exact F|]. split; [exact Z|].
  pose proof A as (Hm & _). rewrite (cubic_volume 2 xm [t1] ltac:(lra) (on_valid _ _ _ _ Hm) B). assert (S3 : 0 < sqrt 3) by (apply sqrt_lt_R0; lra). lra.
Qed.

Print Assumptions C102_torsion.
Print Assumptions C102_torsion_bound.
Print Assumptions C102_shear.
Print Assumptions C102_shear_bound.
Print Assumptions C102_rectangle.
Print Assumptions C102_equilateral.
Print Assumptions C102_uniform_rectangle.
Print Assumptions C102_uniform_equilateral.
