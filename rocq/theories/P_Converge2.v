(** Proofs about the convergence of the shear areas. *)
From Coquelicot Require Import Coquelicot.
From Coq Require Import Reals List Permutation Bool Arith Lra Lia.
From Verif Require Import Base S_Integral M_Fea S_Fem M_Post M_Section S_Section S_Post S_Warp M_Init S_Init P_Integral P_Fea P_Geom P_Elem P_Section P_Totals P_Post
  P_Warp P_Warp2 P_Warp3 P_Warp4 P_Warp5 S_Plastic P_Plastic P_Fibre S_Refine P_Refine S_Prandtl P_Green P_Prandtl P_Prandtl2 S_Shear P_Shear P_Shear2 S_Converge P_Converge.
Import ListNotations.
Local Open Scope R_scope.

(** The gradient of the interpolated function on the elements of a mesh *)
Lemma mesh_interpolation n X Y els W Wx Wy h sigma M el k0 k1 k2 k3 k4 k5 : mesh_on n X Y els -> third_at_most M els W Wx Wy -> fine_mesh_of h sigma els -> 0 <= sigma -> In el els ->
  gather (fun i => W (X i) (Y i)) (el_ids el) = nodal (quad k0 k1 k2 k3 k4 k5) el -> let e := (4 + 144 * sigma) * M * h ^ 2 in
  forall x y, in_el el (x, y) -> ((k1 + 2 * k3 * x + k4 * y) - Wx x y) ^ 2 <= e ^ 2 /\ ((k2 + k4 * x + 2 * k5 * y) - Wy x y) ^ 2 <= e ^ 2.
Proof.
  intros Hm T3 Fm Hs I N e x y J. destruct (Hm el I) as (V & _ & _ & EX & EY). destruct (Fm el I) as (k & Hk & Wi & Sh).
  assert (Te : third_at_most M [el] W Wx Wy).
  { destruct T3 as (oxx & oxy & oyy & a1 & a2 & a3 & a4 & a5 & a6 & S1 & S2 & S3 & S4 & S5 & S6 & FB). exists oxx, oxy, oyy, a1, a2, a3, a4, a5, a6. repeat (split; [assumption|]).
    apply Forall_forall. intros g Hg el' x' y' [<-|[]] Hi. exact (proj1 (Forall_forall _ _) FB g Hg el x' y' I Hi). }
  assert (Nd : nodal W el = nodal (quad k0 k1 k2 k3 k4 k5) el) by (rewrite <- N; unfold nodal; rewrite EX, EY; reflexivity).
  destruct (interpolation el W _ _ k0 k1 k2 k3 k4 k5 k sigma M V Te (proj1 Hk) Wi Sh Nd x y J) as [Bx By].
  assert (HM : 0 <= M).
  { destruct T3 as (oxx & oxy & oyy & a1 & a2 & a3 & a4 & a5 & a6 & _ & _ & _ & _ & _ & _ & FB). eapply Rle_trans; [apply Rabs_pos|]. exact (proj1 (Forall_forall _ _) FB a1 (or_introl eq_refl) el x y I J). }
  assert (Be : (4 + 144 * sigma) * M * k ^ 2 <= e) by (unfold e; apply Rmult_le_compat_l; [apply Rmult_le_pos; lra|apply pow_incr; lra]).
  split; [exact (sq_le _ _ (Rle_trans _ _ _ Bx Be))|exact (sq_le _ _ (Rle_trans _ _ _ By Be))].
Qed.

(** The work of the interpolated warping function of a shear force *)
Lemma shear_lower n X Y els co si p q W h sigma M : mesh_on n X Y els -> unit_moduli els -> equilibrium X Y els co si p q -> third_at_most M els W p q -> fine_mesh_of h sigma els -> 0 <= sigma ->
  exists v, mesh_int (fun _ => 1) (fun x y => p x y ^ 2 + q x y ^ 2) els - 2 * ((4 + 144 * sigma) * M * h ^ 2) ^ 2 * mesh_int (fun _ => 1) (fun _ _ => 1) els <= shear_work els co si v.
Proof.
  intros Hm U (px & py & qx & qy & free & Sp & Sq & D & Hf & Zf) T3 Fm Hs. exists (fun i => W (X i) (Y i)). set (v := fun i => W (X i) (Y i)). set (e := (4 + 144 * sigma) * M * h ^ 2).
  destruct (smooth_cont _ _ _ Sp) as (Cp & Cpx & _). destruct (smooth_cont _ _ _ Sq) as (Cq & _ & Cqy).
  apply Rle_trans with (sumf (fun el => (1 * el_int el (fun x y => p x y ^ 2 + q x y ^ 2) + - (2 * e ^ 2) * el_int el (fun _ _ => 1)) + -2 * sumf (flux_term X Y p q v) (turned_sides el)) els).
  { right. rewrite sumf_plus, sumf_scal, (sides_vanish (flux_term X Y p q v) els free (flux_flip X Y p px py q qx qy Sp Sq v) (flux_free X Y p q free Zf v) Hf), sumf_plus2. unfold mesh_int. rewrite !sumf_scal. ring. }
  rewrite work_sum. apply sumf_le. intros el I. destruct (Hm el I) as (V & _). destruct (el_quad n X Y els Hm el v I) as (k0 & k1 & k2 & k3 & k4 & k5 & N & Q).
  rewrite <- (balance_el n X Y els p px py q qx qy Hm Sp Sq el v k0 k1 k2 k3 k4 k5 I Q), (el_work_quad els co si v el k0 k1 k2 k3 k4 k5 V N), (U el I).
  set (gx := fun x y => k1 + 2 * k3 * x + k4 * y). set (gy := fun x y => k2 + k4 * x + 2 * k5 * y). set (g := quad k0 k1 k2 k3 k4 k5).
  assert (Ch : cont2 g) by apply (smooth_cont _ _ _ (smooth_quad k0 k1 k2 k3 k4 k5)). assert (Cgx : cont2 gx) by (unfold gx; intros x y; cont2_tac). assert (Cgy : cont2 gy) by (unfold gy; intros x y; cont2_tac).
  assert (C0 : cont2 (fun _ _ => 1)) by (intros x y; apply continuity_2d_pt_const).
  assert (C1 : cont2 (fun x y => p x y ^ 2 + q x y ^ 2)).
  { intros x y. apply (continuity_2d_pt_ext (fun x y => p x y * p x y + q x y * q x y)); [intros; ring|]. apply continuity_2d_pt_plus; apply continuity_2d_pt_mult; (apply Cp || apply Cq). }
  assert (C2 : cont2 (fun x y => (p x y * gx x y + q x y * gy x y) + (px x y + qy x y) * g x y)).
  { intros x y. apply continuity_2d_pt_plus; [apply continuity_2d_pt_plus; apply continuity_2d_pt_mult; (apply Cp || apply Cq || apply Cgx || apply Cgy)|apply continuity_2d_pt_mult; [apply continuity_2d_pt_plus; [apply Cpx|apply Cqy]|apply Ch]]. }
  assert (C3 : cont2 (fun x y => 1 * (p x y ^ 2 + q x y ^ 2) + - (2 * e ^ 2) * 1)) by (intros x y; apply continuity_2d_pt_plus; (apply continuity_2d_pt_mult; [apply continuity_2d_pt_const|]); [apply C1|apply C0]).
  pose proof (el_int_lin el _ _ 1 (- (2 * e ^ 2)) C1 C0) as L1. pose proof (el_int_lin el _ _ 1 (-2) C3 C2) as L2. rewrite L1 in L2.
  apply Rle_trans with (1 * (1 * el_int el (fun x y => p x y ^ 2 + q x y ^ 2) + - (2 * e ^ 2) * el_int el (fun _ _ => 1)) + -2 * el_int el (fun x y => (p x y * gx x y + q x y * gy x y) + (px x y + qy x y) * g x y)); [right; unfold gx, gy, g; ring|].
  rewrite <- L2. apply el_int_le_in.
  - intros x y. apply continuity_2d_pt_plus; (apply continuity_2d_pt_mult; [apply continuity_2d_pt_const|]); [apply C3|apply C2].
  - destruct (work_cub els co si k0 k1 k2 k3 k4 k5) as (a0 & a1 & a2 & q0 & q1 & q2 & q3 & q4 & q5 & C). intros x y.
    apply (continuity_2d_pt_ext (cub a0 a1 a2 k0 k1 k2 k3 k4 k5 q0 q1 q2 q3 q4 q5)); [intros; rewrite C; ring|]. apply (smooth_cont _ _ _ (cub_smooth a0 a1 a2 k0 k1 k2 k3 k4 k5 q0 q1 q2 q3 q4 q5)).
  - intros x y J. destruct (mesh_interpolation n X Y els W p q h sigma M el k0 k1 k2 k3 k4 k5 Hm T3 Fm Hs I N x y J) as [Bx By]. fold e in Bx, By. fold (gx x y) in Bx. fold (gy x y) in By.
    unfold work_quad. fold g. rewrite D. change (k1 + 2 * k3 * x + k4 * y) with (gx x y). change (k2 + k4 * x + 2 * k5 * y) with (gy x y).
    assert (Id : 1 * (2 * bending_rate els co si x y * g x y - (gx x y ^ 2 + gy x y ^ 2)) = 1 * (1 * (p x y ^ 2 + q x y ^ 2) + - (2 * e ^ 2) * 1) + -2 * (p x y * gx x y + q x y * gy x y + - bending_rate els co si x y * g x y) + (2 * e ^ 2 - (gx x y - p x y) ^ 2 - (gy x y - q x y) ^ 2)) by ring.
    lra.
Qed.

(** The area of a section without materials *)
Lemma unit_area els : valid_mesh els -> unit_moduli els -> t_ea (section_totals els) = mesh_int (fun _ => 1) (fun _ _ => 1) els.
Proof. intros V U. rewrite (section_totals_int els V). cbn [t_ea]. unfold mesh_int. apply sumf_ext. intros el I. rewrite (U el I). reflexivity. Qed.

(** The warping function of a rectangle with the parabolic shear stresses *)
Section Parabolic.
Variables (x0 y0 b d co si : R).
Hypotheses (Hb : 0 < b) (Hd : 0 < d) (Hco : Rabs co <= 1) (Hsi : Rabs si <= 1).
Definition par_warp (x y : R) : R :=
  co * (6 / (b ^ 3 * d)) * (b * (x - x0) ^ 2 / 2 - (x - x0) ^ 3 / 3) + si * (6 / (b * d ^ 3)) * (d * (y - y0) ^ 2 / 2 - (y - y0) ^ 3 / 3).
Definition par_third : R := 12 / (b ^ 3 * d) + 12 / (b * d ^ 3).
Lemma par_warp_third els : third_at_most par_third els par_warp (par_x x0 b d co) (par_y y0 b d si).
Proof.
  assert (P1 : 0 < 12 / (b ^ 3 * d)) by (apply Rdiv_lt_0_compat; [lra|apply Rmult_lt_0_compat; [apply pow_lt|]; assumption]).
  assert (P2 : 0 < 12 / (b * d ^ 3)) by (apply Rdiv_lt_0_compat; [lra|apply Rmult_lt_0_compat; [|apply pow_lt]; assumption]).
  set (k := co * (6 / (b ^ 3 * d))). set (l := si * (6 / (b * d ^ 3))).
  exists (fun x _ => k * (b - 2 * (x - x0))), (fun _ _ => 0), (fun _ y => l * (d - 2 * (y - y0))), (fun _ _ => -2 * k), (fun _ _ => 0), (fun _ _ => 0), (fun _ _ => 0), (fun _ _ => 0), (fun _ _ => -2 * l).
  split; [intros x y; unfold par_warp, par_x, par_y; fold k l; split; [auto_derive; [exact I|field]|]; split; [auto_derive; [exact I|field]|]; split; cont2_tac|].
  split; [intros x y; unfold par_x; fold k; split; [auto_derive; [exact I|ring]|]; split; [auto_derive; [exact I|ring]|]; split; cont2_tac|].
  split; [intros x y; unfold par_y; fold l; split; [auto_derive; [exact I|ring]|]; split; [auto_derive; [exact I|ring]|]; split; cont2_tac|].
  split; [intros x y; split; [auto_derive; [exact I|ring]|]; split; [auto_derive; [exact I|ring]|]; split; cont2_tac|].
  split; [intros x y; split; [auto_derive; [exact I|ring]|]; split; [auto_derive; [exact I|ring]|]; split; cont2_tac|].
  split; [intros x y; split; [auto_derive; [exact I|ring]|]; split; [auto_derive; [exact I|ring]|]; split; cont2_tac|].
  assert (Kc : forall c u, Rabs c <= 1 -> 0 < u -> Rabs (-2 * (c * (u / 2))) <= u).
  { intros c u Hc Hu. replace (-2 * (c * (u / 2))) with (- (c * u)) by field. rewrite Rabs_Ropp, Rabs_mult, (Rabs_pos_eq u) by lra. rewrite <- (Rmult_1_l u) at 2. apply Rmult_le_compat_r; lra. }
  assert (K1 : Rabs (-2 * k) <= 12 / (b ^ 3 * d)) by (unfold k; replace (6 / (b ^ 3 * d)) with (12 / (b ^ 3 * d) / 2) by (field; lra); apply Kc; assumption).
  assert (K2 : Rabs (-2 * l) <= 12 / (b * d ^ 3)) by (unfold l; replace (6 / (b * d ^ 3)) with (12 / (b * d ^ 3) / 2) by (field; lra); apply Kc; assumption).
  unfold par_third. repeat apply Forall_cons; try apply Forall_nil; intros el x y _ _; try (rewrite Rabs_R0); lra.
Qed.
End Parabolic.
