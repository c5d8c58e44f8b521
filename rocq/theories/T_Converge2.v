(** C101: convergence of the shear areas under refinement of the mesh. *)
From Coquelicot Require Import Coquelicot.
From Coq Require Import Reals List Permutation ClassicalEpsilon Lra Lia.
From Verif Require Import Base S_Integral M_Fea S_Fem M_Post M_Section S_Section S_Post S_Warp P_Integral P_Fea P_Geom P_Elem P_Section P_Totals P_Post P_Warp P_Warp2 P_Warp3 P_Warp4 P_Warp5 P_Warp9 P_WarpEx P_PlasticForms P_PlasticForms2 T_Warp S_Refine P_Refine T_Refine S_Prandtl P_Green P_Prandtl P_Prandtl2 T_Prandtl
  S_Shear P_Shear P_Shear2 T_Shear S_Converge P_Converge P_Converge2 P_Grid S_Grid2 P_Grid2.
Import ListNotations.
Local Open Scope R_scope.

(** The exact shear stresses (p, q) are in equilibrium with the shear force and are the derivatives of a warping function W. *)
Theorem C101_error : forall n X Y els solve w p q W h sigma M, analysed n X Y els solve false w -> third_at_most M els W p q -> fine_mesh_of h sigma els ->
  let phi := p_phi (centroidal_of (section_totals els)) * PI / 180 in
  (equilibrium X Y els 1 0 p q -> near_exact els p q h sigma M (w_a_sx w)) /\ (equilibrium X Y els 0 1 p q -> near_exact els p q h sigma M (w_a_sy w)) /\
  (equilibrium X Y els (cos phi) (sin phi) p q -> near_exact els p q h sigma M (w_a_s11 w)) /\ (equilibrium X Y els (- sin phi) (cos phi) p q -> near_exact els p q h sigma M (w_a_s22 w)).
Proof.
  intros n X Y els solve w p q W h sigma M A T3 Fm phi. pose proof A as (Hm & Hn & _ & U & _). specialize (U eq_refl). assert (H0 : nu_used false els = 0) by reflexivity.
  destruct (C98_extremal _ _ _ _ _ _ _ A H0) as (E1 & E2 & E3 & E4). destruct (C25_shear_areas _ _ _ _ _ _ _ A H0) as ([P1 _] & [P2 _] & [P3 _] & [P4 _]).
  destruct (C98_lower n X Y els solve w p q A) as (L1 & L2 & L3 & L4). cbv zeta in *. fold phi in E3, E4, L3, L4.
  assert (K : forall co si a, 0 < a -> greatest (shear_work els co si) (/ a) -> (equilibrium X Y els co si p q -> 1 <= a * mesh_int (fun _ => 1) (fun x y => p x y ^ 2 + q x y ^ 2) els) -> equilibrium X Y els co si p q -> near_exact els p q h sigma M a).
  { intros co si a Pa (_ & G) L E. specialize (L E). split; [exact Pa|]. destruct (shear_lower n X Y els co si p q W h sigma M Hm U E T3 Fm (fine_sigma n X Y els h sigma Hm Hn Fm)) as [v Hv].
    split; [eapply Rle_trans; [|apply (G v)]; eapply Rle_trans; [|exact Hv]; right; ring|].
    apply (Rmult_le_reg_l a); [exact Pa|]. rewrite Rinv_r by lra. exact L. }
  split; [exact (K _ _ _ P1 E1 L1)|]. split; [exact (K _ _ _ P2 E2 L2)|]. split; [exact (K _ _ _ P3 E3 L3)|exact (K _ _ _ P4 E4 L4)].
Qed.

(** Any mesh of a rectangle: the shear areas are at least 5/6 b d, and above it by no more than a multiple of the fourth power of the element size. *)
Theorem C101_rectangle : forall n X Y els solve w x0 y0 b d m free h sigma, analysed n X Y els solve false w -> 0 < b -> 0 < d ->
  same_boundary (mesh_edges els) (ring_edges m (rectangle x0 y0 b d)) ->
  free_sides els free -> (forall i j k, In (i, j, k) free -> on_rectangle_side x0 y0 b d (X i, Y i) (X j, Y j)) -> fine_mesh_of h sigma els ->
  forall a, In a [w_a_sx w; w_a_sy w; w_a_s11 w; w_a_s22 w] -> 5 / 6 * (b * d) <= a <= 5 / 6 * (b * d) + rectangle_rate b d sigma * h ^ 4.
Proof.
  intros n X Y els solve w x0 y0 b d m free h sigma A Hb Hd B Hf Hs Fm. pose proof A as (Hm & _ & _ & U & _). specialize (U eq_refl). pose proof (on_valid _ _ _ _ Hm) as V.
  set (phi := p_phi (centroidal_of (section_totals els)) * PI / 180). assert (Hcs : cos phi ^ 2 + sin phi ^ 2 = 1) by (pose proof (sin2_cos2 phi) as H; unfold Rsqr in H; lra).
  assert (Pbd : 0 < b * d) by (apply Rmult_lt_0_compat; assumption). destruct (rectangle_centroid x0 y0 b d m els Hb Hd V B U) as (_ & _ & Ea).
  assert (Ear : mesh_int (fun _ => 1) (fun _ _ => 1) els = b * d) by (rewrite <- Ea; symmetry; apply (unit_area els V U)).
  assert (K : forall co si a, co ^ 2 + si ^ 2 = 1 -> 5 / 6 * (b * d) <= a <= b * d ->
     (equilibrium X Y els co si (par_x x0 b d co) (par_y y0 b d si) -> near_exact els (par_x x0 b d co) (par_y y0 b d si) h sigma (par_third b d) a) -> 5 / 6 * (b * d) <= a <= 5 / 6 * (b * d) + rectangle_rate b d sigma * h ^ 4).
  { intros co si a E [La Ua] L. destruct (L (par_equilibrium X Y x0 y0 b d m els free co si Hb Hd V B U Hf Hs)) as (Pa & Lo & _). split; [exact La|].
    rewrite (par_energy x0 y0 b d m els co si Hb Hd V B), E, Ear in Lo. set (K2 := 2 * (4 + 144 * sigma) ^ 2 * par_third b d ^ 2 * (b * d) * h ^ 4) in Lo.
    assert (HK : 0 <= K2) by (unfold K2; replace (2 * (4 + 144 * sigma) ^ 2 * par_third b d ^ 2 * (b * d) * h ^ 4) with (2 * (b * d) * ((4 + 144 * sigma) * par_third b d * h ^ 2) ^ 2) by ring; apply Rmult_le_pos; [lra|apply pow2_ge_0]).
    apply (Rmult_le_compat_l (5 / 6 * (b * d) * a)) in Lo; [|apply Rmult_le_pos; lra].
    replace (5 / 6 * (b * d) * a * / a) with (5 / 6 * (b * d)) in Lo by (field; lra).
    replace (5 / 6 * (b * d) * a * (6 / (5 * (b * d)) * 1 - K2)) with (a - a * (5 / 6 * (b * d) * K2)) in Lo by (field; lra).
    assert (G : a * (5 / 6 * (b * d) * K2) <= b * d * (5 / 6 * (b * d) * K2)) by (apply Rmult_le_compat_r; [apply Rmult_le_pos; lra|exact Ua]).
    assert (F : rectangle_rate b d sigma * h ^ 4 = b * d * (5 / 6 * (b * d) * K2)) by (unfold rectangle_rate, K2, par_third; field; lra). lra. }
  destruct (C98_rectangle _ _ _ _ _ _ x0 y0 b d m free A Hb Hd B Hf Hs) as (Q1 & Q2 & Q3 & Q4).
  assert (Ab : forall co si, co ^ 2 + si ^ 2 = 1 -> Rabs co <= 1 /\ Rabs si <= 1).
  { intros co si E. pose proof (pow2_ge_0 co). pose proof (pow2_ge_0 si). split; rewrite <- (Rabs_pos_eq 1) by lra; apply Rsqr_le_abs_0; unfold Rsqr; lra. }
  assert (T : forall co si, co ^ 2 + si ^ 2 = 1 -> third_at_most (par_third b d) els (par_warp x0 y0 b d co si) (par_x x0 b d co) (par_y y0 b d si)) by (intros co si E; destruct (Ab co si E); apply par_warp_third; assumption).
  assert (D1 : 1 ^ 2 + 0 ^ 2 = 1) by ring. assert (D2 : 0 ^ 2 + 1 ^ 2 = 1) by ring. assert (D4 : (- sin phi) ^ 2 + cos phi ^ 2 = 1) by (rewrite <- Hcs; ring).
  intros a [<-|[<-|[<-|[<-|[]]]]].
  - apply (K 1 0); [exact D1|exact Q1|]. apply (C101_error n X Y els solve w _ _ _ h sigma _ A (T 1 0 D1) Fm).
  - apply (K 0 1); [exact D2|exact Q2|]. apply (C101_error n X Y els solve w _ _ _ h sigma _ A (T 0 1 D2) Fm).
  - apply (K (cos phi) (sin phi)); [exact Hcs|exact Q3|]. apply (C101_error n X Y els solve w _ _ _ h sigma _ A (T _ _ Hcs) Fm).
  - apply (K (- sin phi) (cos phi)); [exact D4|exact Q4|]. apply (C101_error n X Y els solve w _ _ _ h sigma _ A (T _ _ D4) Fm).
Qed.

(** The shear areas computed with finer and finer meshes of not too thin elements tend to 5/6 b d. *)
Theorem C101_limit : forall x0 y0 b d sigma eps, 0 < b -> 0 < d -> 0 < eps -> exists h0, 0 < h0 /\
  forall n X Y els solve w m free, analysed n X Y els solve false w -> same_boundary (mesh_edges els) (ring_edges m (rectangle x0 y0 b d)) ->
  free_sides els free -> (forall i j k, In (i, j, k) free -> on_rectangle_side x0 y0 b d (X i, Y i) (X j, Y j)) -> fine_mesh_of h0 sigma els ->
  forall a, In a [w_a_sx w; w_a_sy w; w_a_s11 w; w_a_s22 w] -> Rabs (a - 5 / 6 * (b * d)) <= eps.
Proof.
  intros x0 y0 b d sigma eps Hb Hd He. assert (Pbd : 0 < b * d) by (apply Rmult_lt_0_compat; assumption). pose (K := rectangle_rate b d sigma + 1).
  assert (HK : 0 < K) by (assert (0 <= rectangle_rate b d sigma) by (unfold rectangle_rate; apply Rmult_le_pos; [|apply pow2_ge_0]; apply Rmult_le_pos; [|apply pow2_ge_0]; apply Rmult_le_pos; [lra|apply pow_le; lra]); unfold K; lra).
  exists (Rmin 1 (eps / K)). assert (Hq : 0 < eps / K) by (apply Rdiv_lt_0_compat; assumption). assert (Hh : 0 < Rmin 1 (eps / K)) by (apply Rmin_glb_lt; lra). split; [exact Hh|].
  intros n X Y els solve w m free A B Hf Hs Fm a Ia. destruct (C101_rectangle n X Y els solve w x0 y0 b d m free _ sigma A Hb Hd B Hf Hs Fm a Ia) as [L Up].
  set (h := Rmin 1 (eps / K)) in *. assert (H1 : h <= 1) by apply Rmin_l. assert (H2 : h <= eps / K) by apply Rmin_r.
  assert (H4 : h ^ 4 <= h) by (assert (h ^ 3 <= 1 ^ 3) by (apply pow_incr; lra); replace (h ^ 4) with (h * h ^ 3) by ring; rewrite <- (Rmult_1_r h) at 3; apply Rmult_le_compat_l; lra).
  assert (P4 : 0 <= h ^ 4) by (apply pow_le; lra).
  assert (G : K * h ^ 4 <= eps) by (replace eps with (K * (eps / K)) by (field; lra); apply Rmult_le_compat_l; lra). unfold K in G.
  rewrite Rabs_pos_eq by lra. lra.
Qed.

(** The uniform meshes of a rectangle with k + 1 segments on every side: all four shear areas tend to 5/6 b d. *)
Theorem C101_uniform : forall x0 y0 b d m (solve : nat -> lg_solver) (w : nat -> warping) area, 0 < b -> 0 < d ->
  (forall k, analysed (box_size k) (box_x x0 b k) (box_y y0 d k) (box_grid x0 y0 b d m k) (solve k) false (w k)) ->
  In area [w_a_sx; w_a_sy; w_a_s11; w_a_s22] -> is_lim_seq (fun k => area (w k)) (5 / 6 * (b * d)).
Proof.
  intros x0 y0 b d m solve w area Hb Hd A Ia. assert (Pbd : 0 < b * d) by (apply Rmult_lt_0_compat; assumption). pose (h := b + d). pose (sigma := 2 * h ^ 2 / (b * d)).
  assert (Sg : h ^ 2 <= sigma * (b * d / 2)) by (right; unfold sigma; field; lra).
  apply is_lim_seq_spec. intros eps. destruct (C101_limit x0 y0 b d sigma (eps / 2) Hb Hd) as (h0 & Hh & L); [destruct eps as [e He]; cbn [pos]; lra|].
  assert (Hp : 0 < h) by (unfold h; lra). destruct (archimed_cor1 (h0 / h)) as (n0 & N1 & N2); [apply Rdiv_lt_0_compat; assumption|]. exists n0. intros k Hk.
  apply Rle_lt_trans with (eps / 2); [|destruct eps as [e He]; cbn [pos]; lra].
  apply (L _ _ _ _ _ (w k) m (box_free k) (A k)); [exact (box_boundary x0 y0 b d m k Hb Hd)|exact (box_free_sides x0 y0 b d m k)|exact (box_free_in x0 y0 b d k)| |].
  - intros el I. destruct (box_fine x0 y0 b d m k Hb Hd h sigma ltac:(unfold h; lra) ltac:(unfold h; lra) Sg el I) as (e & He & R1 & R2). exists e. split; [|split; assumption]. split; [lra|]. apply Rle_trans with (h / INR (S k)); [lra|].
    assert (Nk : INR n0 <= INR (S k)) by (apply le_INR; lia). assert (Np : 0 < INR n0) by (apply lt_0_INR; lia).
    apply (Rmult_le_reg_r (INR (S k))); [lra|]. unfold Rdiv. rewrite Rmult_assoc, Rinv_l, Rmult_1_r by lra.
    apply (Rmult_lt_compat_r (INR n0)) in N1; [|lra]. rewrite Rinv_l in N1 by lra. apply (Rmult_lt_compat_r h) in N1; [|lra]. replace (h0 / h * INR n0 * h) with (h0 * INR n0) in N1 by (field; lra).
    apply Rle_trans with (h0 * INR n0); [lra|]. apply Rmult_le_compat_l; lra.
  - destruct Ia as [<-|[<-|[<-|[<-|[]]]]]; cbn [In]; tauto.
Qed.

(** ** The hypotheses are met *)
(** All the uniform meshes can be analysed *)
Example C101_uniform_met : forall x0 y0 b d, 0 < b -> 0 < d ->
  exists (solve : nat -> lg_solver) (w : nat -> warping), forall k, analysed (box_size k) (box_x x0 b k) (box_y y0 d k) (box_grid x0 y0 b d xm k) (solve k) false (w k).
Proof.
  intros x0 y0 b d Hb Hd. destruct (choice _ (fun k => box_analysed x0 y0 b d xm k Hb Hd eq_refl)) as [w W]. exists (fun k => best_solver (box_size k)), w. exact W.
Qed.
Example C101_rectangle_met : exists w, analysed 9 qX qY [q1; q2] (best_solver 9) false w /\ fine_mesh_of 2 2 [q1; q2] /\ 10 / 3 <= w_a_sx w <= 10 / 3 + rectangle_rate 2 2 2 * 2 ^ 4.
Proof.
  destruct C97_rectangle_met as (w & W & B & F & S & _). exists w. split; [exact W|].
  assert (Fm : fine_mesh_of 2 2 [q1; q2]).
  { intros el [<-|[<-|[]]]; exists 2; (split; [lra|]); split; unfold within, orient; cbn; try (repeat split; apply Rabs_le; lra); lra. }
  split; [exact Fm|]. pose proof (C101_rectangle _ _ _ _ _ _ 0 0 2 2 xm square_free 2 2 W ltac:(lra) ltac:(lra) B F S Fm (w_a_sx w) ltac:(now left)). lra.
Qed.

Print Assumptions C101_error.
Print Assumptions C101_rectangle.
Print Assumptions C101_limit.
Print Assumptions C101_uniform.
