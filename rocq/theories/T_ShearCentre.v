(** C103: the shear centre converges under refinement of the mesh. *)
From Coquelicot Require Import Coquelicot.
From Coq Require Import Reals List Permutation ClassicalEpsilon Lra Lia.
From Verif Require Import Base S_Integral M_Fea S_Fem M_Post M_Section S_Section S_Post S_Warp P_Integral P_Fea P_Geom P_Elem P_Section P_Totals P_Post P_Warp P_Warp2 P_Warp3 P_Warp4 P_Warp5 P_Warp9 P_WarpEx P_PlasticForms P_PlasticForms2 T_Warp S_Refine P_Refine T_Refine S_Prandtl P_Green P_Prandtl P_Prandtl2 T_Prandtl
  M_Stress S_Stress S_Shear P_Shear P_Shear2 T_Shear S_Converge P_Converge P_Converge2 T_Converge S_Grid P_Grid S_Grid2 P_Grid2 T_Converge2 S_Error P_Error T_Error P_ShearCentre.
Import ListNotations.
Local Open Scope R_scope.

(** The shear centre is where a shear force has the moment of its shear stresses about the centroid. With (p, q) the exact stresses of the unit
    force (co, si), which balance the bending stresses and are tangent to the boundary, the moment of this force at the reported shear centre
    differs from the exact moment by at most the square root of the error of the shear area times the polar moment of the area. *)
Theorem C103_gap : forall n X Y els solve w co si ar p q, analysed n X Y els solve false w -> force_direction els w co si ar -> equilibrium X Y els co si p q ->
  let c := centroidal_of (section_totals els) in
  let moment := mesh_int (fun _ => 1) (fun x y => (x - p_cx c) * q x y - (y - p_cy c) * p x y) els in
  let polar := mesh_int (fun _ => 1) (fun x y => (x - p_cx c) ^ 2 + (y - p_cy c) ^ 2) els in
  (w_x_se w * si - w_y_se w * co - moment) ^ 2 <= (mesh_int (fun _ => 1) (fun x y => p x y ^ 2 + q x y ^ 2) els - / ar) * polar.
Proof. intros. eapply centre_gap; eassumption. Qed.

(** When the exact stresses are the slopes of a warping function with third derivatives of at most M, the error of the shear centre is at most a
    multiple of the square of the element size. *)
Theorem C103_bound : forall n X Y els solve w co si ar p q W h sigma M, analysed n X Y els solve false w -> force_direction els w co si ar ->
  equilibrium X Y els co si p q -> third_at_most M els W p q -> fine_mesh_of h sigma els ->
  let c := centroidal_of (section_totals els) in
  let moment := mesh_int (fun _ => 1) (fun x y => (x - p_cx c) * q x y - (y - p_cy c) * p x y) els in
  let polar := mesh_int (fun _ => 1) (fun x y => (x - p_cx c) ^ 2 + (y - p_cy c) ^ 2) els in
  let area := mesh_int (fun _ => 1) (fun _ _ => 1) els in
  (w_x_se w * si - w_y_se w * co - moment) ^ 2 <= 2 * (4 + 144 * sigma) ^ 2 * M ^ 2 * area * polar * (h ^ 2) ^ 2.
Proof.
  intros n X Y els solve w co si ar p q W h sigma M A D E T3 Fm c moment polar area. eapply Rle_trans; [exact (C103_gap n X Y els solve w co si ar p q A D E)|]. fold c. fold polar.
  assert (N : near_exact els p q h sigma M ar).
  { destruct (C101_error n X Y els solve w p q W h sigma M A T3 Fm) as (E1 & E2 & E3 & E4). unfold force_direction in D. cbv zeta in D.
    destruct D as [D|[D|[D|[D|[]]]]]; apply pair_equal_spec in D; destruct D as [D <-]; apply pair_equal_spec in D; destruct D as [<- <-]; auto. }
  destruct N as (_ & Lo & Up). fold area in Lo. set (en := mesh_int _ (fun x y => p x y ^ 2 + q x y ^ 2) els) in *.
  replace (2 * (4 + 144 * sigma) ^ 2 * M ^ 2 * area * polar * (h ^ 2) ^ 2) with (2 * (4 + 144 * sigma) ^ 2 * M ^ 2 * area * h ^ 4 * polar) by ring. apply Rmult_le_compat_r; [|lra].
  apply polar_nonneg.
Qed.

(** Any mesh of a rectangle: the reported shear centre is near the centroid, which is the exact one. *)
Theorem C103_rectangle : forall n X Y els solve w x0 y0 b d m free h sigma, analysed n X Y els solve false w -> 0 < b -> 0 < d ->
  same_boundary (mesh_edges els) (ring_edges m (rectangle x0 y0 b d)) ->
  free_sides els free -> (forall i j k, In (i, j, k) free -> on_rectangle_side x0 y0 b d (X i, Y i) (X j, Y j)) -> fine_mesh_of h sigma els ->
  let K := 2 * (4 + 144 * sigma) ^ 2 * (12 / (b ^ 3 * d) + 12 / (b * d ^ 3)) ^ 2 * (b * d) * (b * d * (b ^ 2 + d ^ 2) / 12) in
  w_x_se w ^ 2 <= K * (h ^ 2) ^ 2 /\ w_y_se w ^ 2 <= K * (h ^ 2) ^ 2.
Proof.
  intros n X Y els solve w x0 y0 b d m free h sigma A Hb Hd B Hf Hs Fm K. pose proof A as (Hm & _ & _ & U & _). specialize (U eq_refl). pose proof (on_valid _ _ _ _ Hm) as Va.
  destruct (rectangle_centroid x0 y0 b d m els Hb Hd Va B U) as (Ex & Ey & Ea).
  assert (Ear : mesh_int (fun _ => 1) (fun _ _ => 1) els = b * d) by (rewrite <- Ea; symmetry; apply (unit_area els Va U)).
  assert (G : forall co si ar, Rabs co <= 1 -> Rabs si <= 1 -> force_direction els w co si ar -> (w_x_se w * si - w_y_se w * co) ^ 2 <= K * (h ^ 2) ^ 2).
  { intros co si ar A1 A2 D. pose proof (C103_bound n X Y els solve w co si ar _ _ _ h sigma _ A D (par_equilibrium X Y x0 y0 b d m els free co si Hb Hd Va B U Hf Hs) (par_warp_third x0 y0 b d co si Hb Hd A1 A2 els) Fm) as T.
    cbv zeta in T. rewrite Ex, Ey, Ear, (par_moment x0 y0 b d m els co si Va B), (polar_moment x0 y0 b d m els Va B) in T. unfold par_third in T. fold K in T. rewrite Rminus_0_r in T. exact T. }
  assert (R1 : Rabs 1 <= 1) by (rewrite Rabs_R1; lra). assert (R0 : Rabs 0 <= 1) by (rewrite Rabs_R0; lra).
  split.
  - replace (w_x_se w ^ 2) with ((w_x_se w * 1 - w_y_se w * 0) ^ 2) by ring. apply (G 0 1 (w_a_sy w)); [assumption|assumption|]. right. left. reflexivity.
  - replace (w_y_se w ^ 2) with ((w_x_se w * 0 - w_y_se w * 1) ^ 2) by ring. apply (G 1 0 (w_a_sx w)); [assumption|assumption|]. left. reflexivity.
Qed.

Lemma square_fade u K h : 0 <= K -> 0 <= h -> (forall k, u k ^ 2 <= K * ((h / INR (S k)) ^ 2) ^ 2) -> is_lim_seq u 0.
Proof.
  intros HK Hh H. apply is_lim_seq_abs_0. apply (is_lim_seq_ext (fun k => sqrt (u k ^ 2))); [intros k; replace (u k ^ 2) with (Rsqr (u k)) by (unfold Rsqr; ring); apply sqrt_Rsqr_abs|].
  rewrite <- sqrt_0. apply (is_lim_seq_continuous sqrt (fun k => u k ^ 2) 0); [apply continuity_pt_sqrt; lra|].
  apply (fade _ K h HK Hh). intros k. split; [apply pow2_ge_0|]. eapply Rle_trans; [apply H|]. right. ring.
Qed.
(** The uniform meshes of a rectangle: the coordinates of the shear centre relative to the centroid tend to zero. *)
Theorem C103_uniform : forall x0 y0 b d m (solve : nat -> lg_solver) (w : nat -> warping), 0 < b -> 0 < d ->
  (forall k, analysed (box_size k) (box_x x0 b k) (box_y y0 d k) (box_grid x0 y0 b d m k) (solve k) false (w k)) ->
  is_lim_seq (fun k => w_x_se (w k)) 0 /\ is_lim_seq (fun k => w_y_se (w k)) 0.
Proof.
  intros x0 y0 b d m solve w Hb Hd A. assert (Pbd : 0 < b * d) by (apply Rmult_lt_0_compat; assumption). pose (h := b + d). pose (sigma := 2 * h ^ 2 / (b * d)).
  assert (Sg : h ^ 2 <= sigma * (b * d / 2)) by (right; unfold sigma; field; lra).
  set (K := 2 * (4 + 144 * sigma) ^ 2 * (12 / (b ^ 3 * d) + 12 / (b * d ^ 3)) ^ 2 * (b * d) * (b * d * (b ^ 2 + d ^ 2) / 12)).
  assert (HK : 0 <= K).
  { unfold K. replace (2 * (4 + 144 * sigma) ^ 2 * (12 / (b ^ 3 * d) + 12 / (b * d ^ 3)) ^ 2 * (b * d) * (b * d * (b ^ 2 + d ^ 2) / 12)) with (((4 + 144 * sigma) * (12 / (b ^ 3 * d) + 12 / (b * d ^ 3)) * (b * d)) ^ 2 * ((b ^ 2 + d ^ 2) / 6)) by (field; lra).
    apply Rmult_le_pos; [apply pow2_ge_0|]. pose proof (pow2_ge_0 b). pose proof (pow2_ge_0 d). lra. }
  assert (G : forall k, w_x_se (w k) ^ 2 <= K * ((h / INR (S k)) ^ 2) ^ 2 /\ w_y_se (w k) ^ 2 <= K * ((h / INR (S k)) ^ 2) ^ 2).
  { intros k. apply (C103_rectangle _ _ _ _ _ (w k) x0 y0 b d m (box_free k) _ sigma (A k) Hb Hd (box_boundary x0 y0 b d m k Hb Hd) (box_free_sides x0 y0 b d m k) (box_free_in x0 y0 b d k)).
    intros el I. destruct (box_fine x0 y0 b d m k Hb Hd h sigma ltac:(unfold h; lra) ltac:(unfold h; lra) Sg el I) as (e & He & R1 & R2). exists e. split; [lra|split; assumption]. }
  split; apply (square_fade _ K h HK); try (unfold h; lra); intros k; apply G.
Qed.
(** The analyses of the uniform meshes exist. *)
Example C103_uniform_met : forall x0 y0 b d, 0 < b -> 0 < d -> exists (solve : nat -> lg_solver) (w : nat -> warping),
  forall k, analysed (box_size k) (box_x x0 b k) (box_y y0 d k) (box_grid x0 y0 b d xm k) (solve k) false (w k).
Proof. exact C101_uniform_met. Qed.

Print Assumptions C103_gap.
Print Assumptions C103_bound.
Print Assumptions C103_rectangle.
Print Assumptions C103_uniform.
