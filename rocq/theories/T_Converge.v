(** C100: convergence of the torsion constant under refinement of the mesh. *)
From Coquelicot Require Import Coquelicot.
From Coq Require Import Reals List Permutation ClassicalEpsilon Lra Lia.
From Verif Require Import Base S_Integral M_Fea S_Fem M_Post M_Section S_Section S_Post S_Warp P_Integral P_Fea P_Geom P_Elem P_Section P_Totals P_Post P_Warp P_Warp2 P_Warp3 P_Warp4 P_Warp5 P_Warp9 P_WarpEx P_PlasticForms P_PlasticForms2 T_Warp S_Refine P_Refine T_Refine S_Prandtl P_Green P_Prandtl P_Prandtl2 T_Prandtl S_Converge P_Converge S_Grid P_Grid.
Import ListNotations.
Local Open Scope R_scope.

(** The torsion constant is never below that of elasticity theory, and above it by no more than a multiple of the fourth power of the element size. *)
Theorem C100_error : forall n X Y els solve w f fx fy om omx omy free h sigma M, analysed n X Y els solve false w ->
  same_stresses f fx fy om omx omy -> third_at_most M els om omx omy -> free_sides els free -> zero_on X Y free f -> fine_mesh_of h sigma els ->
  let exact := 2 * mesh_int (fun _ => 1) f els in let area := mesh_int (fun _ => 1) (fun _ _ => 1) els in
  exact <= w_j w <= exact + 2 * (4 + 144 * sigma) ^ 2 * M ^ 2 * area * h ^ 4.
Proof.
  intros n X Y els solve w f fx fy om omx omy free h sigma M A SS T3 Hf Zf Fm exact area. pose proof A as (Hm & Hn & _ & U & _). specialize (U eq_refl).
  split; [exact (C97_elastic n X Y els solve w f fx fy free A (warping_elastic M els f fx fy om omx omy SS T3) Hf Zf)|].
  destruct (C22_torsion_constant _ _ _ _ _ _ _ A) as (_ & _ & Mi). set (c := centroidal_of (section_totals els)) in *.
  destruct (warping_energy n X Y els f fx fy om omx omy free h sigma M (p_cx c) (p_cy c) Hm U SS T3 Fm Hf Zf (fine_sigma n X Y els h sigma Hm Hn Fm)) as [u Hu].
  eapply Rle_trans; [apply (Mi u)|]. eapply Rle_trans; [exact Hu|]. right. unfold exact, area. ring.
Qed.

(** Any mesh of an equilateral triangle *)
Theorem C100_equilateral : forall n X Y els solve w a m free h sigma, analysed n X Y els solve false w -> 0 < a ->
  same_boundary (mesh_edges els) (ring_edges m (equilateral a)) ->
  free_sides els free -> (forall i j k, In (i, j, k) free -> on_equilateral_side a (X i, Y i) (X j, Y j)) -> fine_mesh_of h sigma els ->
  sqrt 3 * a ^ 4 / 80 <= w_j w <= sqrt 3 * a ^ 4 / 80 + 6 * sqrt 3 * (4 + 144 * sigma) ^ 2 * h ^ 4.
Proof.
  intros n X Y els solve w a m free h sigma A Ha B Hf Hs Fm. pose proof A as (Hm & _). pose proof (on_valid _ _ _ _ Hm) as V.
  pose proof (C100_error n X Y els solve w _ _ _ _ _ _ free h sigma _ A (tri_warp_stresses a Ha) (tri_warp_third a Ha els) Hf (cubic_zero a Ha X Y free Hs) Fm) as E. cbv zeta in E.
  rewrite (cubic_volume a m els Ha V B), (equilateral_area a m els V B) in E. destruct E as [L Up]. split; [lra|]. eapply Rle_trans; [exact Up|]. right.
  replace (2 * (4 + 144 * sigma) ^ 2 * (2 * sqrt 3 / a) ^ 2 * (sqrt 3 * a ^ 2 / 4) * h ^ 4) with (2 * (sqrt 3 * sqrt 3) * sqrt 3 * (4 + 144 * sigma) ^ 2 * h ^ 4) by (field; lra). rewrite sqrt_sqrt by lra. field.
Qed.

(** The torsion constants computed with finer and finer meshes of not too thin elements tend to that of elasticity theory. *)
Theorem C100_limit : forall a sigma eps, 0 < a -> 0 < eps -> exists h0, 0 < h0 /\
  forall n X Y els solve w m free, analysed n X Y els solve false w -> same_boundary (mesh_edges els) (ring_edges m (equilateral a)) ->
  free_sides els free -> (forall i j k, In (i, j, k) free -> on_equilateral_side a (X i, Y i) (X j, Y j)) -> fine_mesh_of h0 sigma els ->
  Rabs (w_j w - sqrt 3 * a ^ 4 / 80) <= eps.
Proof.
  intros a sigma eps Ha He. pose (K := 6 * sqrt 3 * (4 + 144 * sigma) ^ 2 + 1).
  assert (HK : 0 < K) by (assert (0 <= 6 * sqrt 3 * (4 + 144 * sigma) ^ 2) by (apply Rmult_le_pos; [pose proof (sqrt_pos 3); lra|apply pow2_ge_0]); unfold K; lra).
  exists (Rmin 1 (eps / K)). assert (Hq : 0 < eps / K) by (apply Rdiv_lt_0_compat; assumption). assert (Hh : 0 < Rmin 1 (eps / K)) by (apply Rmin_glb_lt; lra). split; [exact Hh|].
  intros n X Y els solve w m free A B Hf Hs Fm. destruct (C100_equilateral n X Y els solve w a m free _ sigma A Ha B Hf Hs Fm) as [L Up].
  set (h := Rmin 1 (eps / K)) in *. assert (H1 : h <= 1) by apply Rmin_l. assert (H2 : h <= eps / K) by apply Rmin_r.
  assert (H4 : h ^ 4 <= h) by (assert (h ^ 3 <= 1 ^ 3) by (apply pow_incr; lra); replace (h ^ 4) with (h * h ^ 3) by ring; rewrite <- (Rmult_1_r h) at 3; apply Rmult_le_compat_l; lra).
  assert (P4 : 0 <= h ^ 4) by (apply pow_le; lra).
  assert (G : K * h ^ 4 <= eps) by (replace eps with (K * (eps / K)) by (field; lra); apply Rmult_le_compat_l; lra). unfold K in G.
  rewrite Rabs_pos_eq by lra. lra.
Qed.

(** The uniform meshes of an equilateral triangle with k + 1 segments on every side: the torsion constants tend to the exact one. *)
Theorem C100_uniform : forall a m (solve : nat -> lg_solver) (w : nat -> warping), 0 < a -> let c := (a / 2, sqrt 3 * a / 2) in
  (forall k, analysed (grid_size k) (grid_x (0, 0) (a, 0) c k) (grid_y (0, 0) (a, 0) c k) (grid (0, 0) (a, 0) c m k) (solve k) false (w k)) ->
  is_lim_seq (fun k => w_j (w k)) (sqrt 3 * a ^ 4 / 80).
Proof.
  intros a m solve w Ha c A. assert (S3 : 3 / 2 <= sqrt 3 <= 2) by (split; [apply Rsqr_incr_0_var; [unfold Rsqr; rewrite sqrt_sqrt; lra|apply sqrt_pos]|apply Rsqr_incr_0_var; [unfold Rsqr; rewrite sqrt_sqrt; lra|lra]]).
  assert (Sa : 3 / 2 * a <= sqrt 3 * a <= 2 * a) by (split; apply Rmult_le_compat_r; lra).
  assert (O : 0 < orient (0, 0) (a, 0) c) by (unfold orient, c; cbn [fst snd]; replace ((a - 0) * (sqrt 3 * a / 2 - 0) - (a / 2 - 0) * (0 - 0)) with (a * (sqrt 3 * a) / 2) by field; assert (0 < a * (sqrt 3 * a)) by (apply Rmult_lt_0_compat; lra); lra).
  assert (Wi : within a (0, 0) (a, 0) c) by (unfold within, c; cbn [fst snd]; repeat split; apply Rabs_le; lra).
  assert (Sh : a ^ 2 <= 4 * (orient (0, 0) (a, 0) c / 2)) by (unfold orient, c; cbn [fst snd]; replace (4 * (((a - 0) * (sqrt 3 * a / 2 - 0) - (a / 2 - 0) * (0 - 0)) / 2)) with (a * (sqrt 3 * a)) by field; replace (a ^ 2) with (a * a) by ring; apply Rmult_le_compat_l; lra).
  apply is_lim_seq_spec. intros eps. destruct (C100_limit a 4 (eps / 2) Ha) as (h0 & Hh & L); [destruct eps as [e He]; cbn [pos]; lra|].
  destruct (archimed_cor1 (h0 / a)) as (n0 & N1 & N2); [apply Rdiv_lt_0_compat; assumption|]. exists n0. intros k Hk.
  apply Rle_lt_trans with (eps / 2); [|destruct eps as [e He]; cbn [pos]; lra].
  apply (L _ _ _ _ _ _ m (grid_free k) (A k)); [exact (grid_boundary (0, 0) (a, 0) c m k O)|exact (grid_free_sides (0, 0) (a, 0) c m k)| |].
  - intros i j s I. destruct (grid_free_in (0, 0) (a, 0) c k i j s I) as (l & l' & _ & [H|[H|H]]); cbv zeta in H; unfold c in H; cbn [fst snd] in H; destruct H as (E1 & E2 & E3 & E4); unfold on_equilateral_side; cbn [fst snd]; fold c in E1, E2, E3, E4; rewrite E1, E2, E3, E4; [left|right; right|right; left]; split; field.
  - intros el I. destruct (grid_fine (0, 0) (a, 0) c m k a 4 Wi Sh el I) as (d & Hd & R1 & R2). exists d. split; [|split; assumption]. split; [lra|]. apply Rle_trans with (a / INR (S k)); [lra|].
    assert (Nk : INR n0 <= INR (S k)) by (apply le_INR; lia). assert (Np : 0 < INR n0) by (apply lt_0_INR; lia).
    apply (Rmult_le_reg_r (INR (S k))); [lra|]. unfold Rdiv. rewrite Rmult_assoc, Rinv_l, Rmult_1_r by lra.
    apply (Rmult_lt_compat_r (INR n0)) in N1; [|lra]. rewrite Rinv_l in N1 by lra. apply (Rmult_lt_compat_r a) in N1; [|lra]. replace (h0 / a * INR n0 * a) with (h0 * INR n0) in N1 by (field; lra).
    apply Rle_trans with (h0 * INR n0); [lra|]. apply Rmult_le_compat_l; lra.
Qed.

(** ** The hypotheses are met *)
(** All the uniform meshes can be analysed *)
Example C100_uniform_met : forall a, 0 < a -> let c := (a / 2, sqrt 3 * a / 2) in
  exists (solve : nat -> lg_solver) (w : nat -> warping), forall k, analysed (grid_size k) (grid_x (0, 0) (a, 0) c k) (grid_y (0, 0) (a, 0) c k) (grid (0, 0) (a, 0) c xm k) (solve k) false (w k).
Proof.
  intros a Ha c. assert (S3 : 0 < sqrt 3) by (apply sqrt_lt_R0; lra).
  assert (O : 0 < orient (0, 0) (a, 0) c) by (unfold orient, c; cbn [fst snd]; replace ((a - 0) * (sqrt 3 * a / 2 - 0) - (a / 2 - 0) * (0 - 0)) with (sqrt 3 * (a * a) / 2) by field; assert (0 < sqrt 3 * (a * a)) by (apply Rmult_lt_0_compat; [exact S3|apply Rmult_lt_0_compat; lra]); lra).
  destruct (choice _ (fun k => grid_analysed (0, 0) (a, 0) c xm k O eq_refl)) as [w W].
  exists (fun k => best_solver (grid_size k)), w. exact W.
Qed.
Example C100_one_element_met : exists w, analysed 6 tX tY [t1] (best_solver 6) false w /\ same_boundary (mesh_edges [t1]) (ring_edges xm (equilateral 2)) /\ free_sides [t1] tri_free /\
  (forall i j k, In (i, j, k) tri_free -> on_equilateral_side 2 (tX i, tY i) (tX j, tY j)) /\ fine_mesh_of 2 4 [t1].
Proof.
  destruct C97_equilateral_met as (w & A & B & F & S & _). exists w. do 4 (split; [assumption|]). intros el [<-|[]]. exists 2. split; [lra|].
  assert (S3 : 3 / 2 <= sqrt 3 <= 2) by (split; [apply Rsqr_incr_0_var; [unfold Rsqr; rewrite sqrt_sqrt; lra|apply sqrt_pos]|apply Rsqr_incr_0_var; [unfold Rsqr; rewrite sqrt_sqrt; lra|lra]]).
  unfold within, orient, corner_a, corner_b, corner_c, t1, gather, tX, tY. cbn [el_x el_y c0 c1 c2 v0 v1 v2 nth fst snd]. split; [repeat split; apply Rabs_le; lra|lra].
Qed.

Print Assumptions C100_error.
Print Assumptions C100_equilateral.
Print Assumptions C100_limit.
Print Assumptions C100_uniform.
