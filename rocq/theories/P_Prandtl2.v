(** Proofs about stress functions: the rectangle. *)
From Coquelicot Require Import Coquelicot.
From Coq Require Import Reals List Permutation Bool Arith Lra Lia.
From Verif Require Import Base S_Integral M_Fea S_Fem M_Post M_Section S_Section S_Post S_Warp M_Init S_Init P_Integral P_Fea P_Geom P_Elem P_Section P_Totals P_Post
  P_Warp P_Warp2 P_Warp3 P_Warp4 P_Warp5 S_Plastic P_Plastic P_Fibre S_Refine P_Refine S_Prandtl P_Green P_Prandtl.
Import ListNotations.
Local Open Scope R_scope.

Lemma int_poly4 a0 a1 a2 a3 a4 : RInt (fun l => a0 + a1 * l + a2 * l ^ 2 + a3 * l ^ 3 + a4 * l ^ 4) 0 1 = a0 + a1 / 2 + a2 / 3 + a3 / 4 + a4 / 5.
Proof.
  assert (H : is_RInt (fun l => a0 + a1 * l + a2 * l ^ 2 + a3 * l ^ 3 + a4 * l ^ 4) 0 1 (minus (a0 * 1 + a1 * 1 ^ 2 / 2 + a2 * 1 ^ 3 / 3 + a3 * 1 ^ 4 / 4 + a4 * 1 ^ 5 / 5) (a0 * 0 + a1 * 0 ^ 2 / 2 + a2 * 0 ^ 3 / 3 + a3 * 0 ^ 4 / 4 + a4 * 0 ^ 5 / 5))).
  { apply (is_RInt_derive (fun l => a0 * l + a1 * l ^ 2 / 2 + a2 * l ^ 3 / 3 + a3 * l ^ 4 / 4 + a4 * l ^ 5 / 5)).
    - intros l _. auto_derive; [exact I|]. cbn [pred INR]. field.
    - intros l _. apply (ex_derive_continuous (fun l => a0 + a1 * l + a2 * l ^ 2 + a3 * l ^ 3 + a4 * l ^ 4)). auto_derive. exact I. }
  rewrite (is_RInt_unique (V := R_CompleteNormedModule) _ _ _ _ H). match goal with |- minus ?u ?v = ?w => change (u - v = w) end. field.
Qed.

(** Integrals of quadratic functions over a mesh are sums over its outline *)
Lemma mesh_quad_outline els l k0 k1 k2 k3 k4 k5 : valid_mesh els -> same_boundary (mesh_edges els) l ->
  mesh_int (fun _ => 1) (quad k0 k1 k2 k3 k4 k5) els = boundary_sum (fun _ => 1) (b_quad k0 k1 k2 k3 k4 k5) l.
Proof.
  intros V B. rewrite <- (boundary_sum_same (fun _ => 1) _ _ _ (edge_fun_quad k0 k1 k2 k3 k4 k5) B).
  unfold mesh_int, boundary_sum, mesh_edges. rewrite sumf_concat, sumf_map. apply sumf_ext. intros el I. rewrite (el_int_quad el _ _ _ _ _ _ (V el I)). unfold el_edges. rewrite !sumf_cons, sumf_nil. ring.
Qed.
Lemma unit_int els f : unit_moduli els -> mesh_int m_E f els = mesh_int (fun _ => 1) f els /\ mesh_int (fun m => / m_E m) f els = mesh_int (fun _ => 1) f els.
Proof. intros U. split; apply sumf_ext; intros el I; rewrite (U el I); [reflexivity|rewrite Rinv_1; reflexivity]. Qed.

Section Rectangle.
Context (x0 y0 b d : R) (m : material) (els : list tri6).
Hypothesis Hb : 0 < b.
Hypothesis Hd : 0 < d.
Hypothesis V : valid_mesh els.
Hypothesis B : same_boundary (mesh_edges els) (S_Section.ring_edges m (rectangle x0 y0 b d)).
Hypothesis U : unit_moduli els.

Lemma rectangle_quad k0 k1 k2 k3 k4 k5 : mesh_int m_E (quad k0 k1 k2 k3 k4 k5) els =
  b * d * (k0 + k1 * (x0 + b / 2) + k2 * (y0 + d / 2) + k3 * (x0 ^ 2 + x0 * b + b ^ 2 / 3) + k4 * ((x0 + b / 2) * (y0 + d / 2)) + k5 * (y0 ^ 2 + y0 * d + d ^ 2 / 3)).
Proof.
  rewrite (proj1 (unit_int els _ U)), (mesh_quad_outline els _ _ _ _ _ _ _ V B). unfold boundary_sum, rectangle. cbn [S_Section.ring_edges path_edges]. rewrite !sumf_cons, sumf_nil.
  unfold b_quad, b_area, b_qx, b_qy, b_ixx, b_iyy, b_ixy, S_Section.cross. cbn [fst snd]. field.
Qed.
Lemma rectangle_centroidal : let c := centroidal_of (section_totals els) in p_ixx_c c = b * d ^ 3 / 12 /\ p_iyy_c c = b ^ 3 * d / 12 /\ p_ixy_c c = 0.
Proof.
  rewrite (section_totals_int els V). unfold centroidal_of. cbn [t_ea t_qx t_qy t_ixx_g t_iyy_g t_ixy_g p_ixx_c p_iyy_c p_ixy_c].
  assert (Q : forall f k0 k1 k2 k3 k4 k5, (forall x y, f x y = quad k0 k1 k2 k3 k4 k5 x y) -> mesh_int m_E f els = b * d * (k0 + k1 * (x0 + b / 2) + k2 * (y0 + d / 2) + k3 * (x0 ^ 2 + x0 * b + b ^ 2 / 3) + k4 * ((x0 + b / 2) * (y0 + d / 2)) + k5 * (y0 ^ 2 + y0 * d + d ^ 2 / 3))).
  { intros f k0 k1 k2 k3 k4 k5 E. rewrite <- rectangle_quad. apply mesh_int_ext, E. }
  rewrite (Q (fun _ _ => 1) 1 0 0 0 0 0), (Q (fun _ y => y) 0 0 1 0 0 0), (Q (fun x _ => x) 0 1 0 0 0 0), (Q (fun _ y => y * y) 0 0 0 0 0 1), (Q (fun x _ => x * x) 0 0 0 1 0 0), (Q (fun x y => x * y) 0 0 0 0 1 0) by (intros; unfold quad; ring).
  repeat split; field; lra.
Qed.

Definition bubble (x y : R) : R := ((x - x0) * (x0 + b - x)) * ((y - y0) * (y0 + d - y)).
Definition bubble_x (x y : R) : R := (b - 2 * (x - x0)) * ((y - y0) * (y0 + d - y)).
Definition bubble_y (x y : R) : R := ((x - x0) * (x0 + b - x)) * (d - 2 * (y - y0)).
Lemma bubble_smooth : smooth bubble bubble_x bubble_y.
Proof.
  intros x y. unfold bubble, bubble_x, bubble_y. split; [auto_derive; [exact I|ring]|]. split; [auto_derive; [exact I|ring]|]. split; cont2_tac.
Qed.
Lemma bubble_zero X Y free : (forall a c k, In (a, c, k) free -> on_rectangle_side x0 y0 b d (X a, Y a) (X c, Y c)) -> zero_on X Y free bubble.
Proof.
  intros H a c k l I _. unfold bubble. destruct (H a c k I) as [[P Q]|[[P Q]|[[P Q]|[P Q]]]]; cbn [fst snd] in P, Q; rewrite P, Q; ring.
Qed.
Lemma rectangle_green f F Fx Fy a0 a1 a2 a3 a4 : smooth F Fx Fy -> (forall x y, Fx x y = f x y) -> (forall y, F x0 y = 0) ->
  (forall l, F (x0 + b) (y0 + l * d) * d = a0 + a1 * l + a2 * l ^ 2 + a3 * l ^ 3 + a4 * l ^ 4) -> mesh_int (fun _ => 1) f els = a0 + a1 / 2 + a2 / 3 + a3 / 4 + a4 / 5.
Proof.
  intros S E Z P. rewrite <- (int_poly4 a0 a1 a2 a3 a4).
  pose proof (mesh_green (fun _ => 1) els F Fx Fy (fun _ _ => 0) (fun _ _ => 0) (fun _ _ => 0) _ V B S (smooth_const 0)) as G. cbv beta in G.
  transitivity (mesh_int (fun _ => 1) (fun x y => Fx x y + 0) els); [apply mesh_int_ext; intros; rewrite E; ring|]. rewrite G. clear G.
  unfold boundary_sum, rectangle. cbn [S_Section.ring_edges path_edges]. rewrite !sumf_cons, sumf_nil. unfold edge_int. cbn [fst snd].
  assert (Z0 : forall h : R -> R, (forall l, h l = 0) -> RInt h 0 1 = 0). { intros h Hh. transitivity (RInt (fun _ : R => 0) 0 1); [apply RInt_ext; intros; apply Hh|rewrite RInt_const; cbn; unfold mult; cbn; ring]. }
  rewrite (Z0 (fun l => F (x0 + l * (x0 + b - x0)) (y0 + l * (y0 - y0)) * (y0 - y0) - 0 * (x0 + b - x0))) by (intros; ring).
  rewrite (Z0 (fun l => F (x0 + b + l * (x0 - (x0 + b))) (y0 + d + l * (y0 + d - (y0 + d))) * (y0 + d - (y0 + d)) - 0 * (x0 - (x0 + b)))) by (intros; ring).
  rewrite (Z0 (fun l => F (x0 + l * (x0 - x0)) (y0 + d + l * (y0 - (y0 + d))) * (y0 - (y0 + d)) - 0 * (x0 - x0))) by (intros l; replace (x0 + l * (x0 - x0)) with x0 by ring; rewrite Z; ring).
  rewrite (RInt_ext _ (fun l => a0 + a1 * l + a2 * l ^ 2 + a3 * l ^ 3 + a4 * l ^ 4)); [ring|].
  intros l _. match goal with |- ?u = ?v => change (@eq R u v) end. rewrite <- P. replace (x0 + b + l * (x0 + b - (x0 + b))) with (x0 + b) by ring. replace (y0 + l * (y0 + d - y0)) with (y0 + l * d) by ring. ring.
Qed.
Lemma bubble_volume : mesh_int (fun _ => 1) bubble els = b ^ 3 * d ^ 3 / 36.
Proof.
  rewrite (rectangle_green bubble (fun x y => ((b / 2 - / 3 * (x - x0)) * ((x - x0) * (x - x0))) * ((y - y0) * (y0 + d - y))) bubble
    (fun x y => ((b / 2 - / 3 * (x - x0)) * ((x - x0) * (x - x0))) * (d - 2 * (y - y0))) 0 (b ^ 3 / 6 * d ^ 3) (- (b ^ 3 / 6 * d ^ 3)) 0 0).
  - field.
  - intros x y. unfold bubble. split; [auto_derive; [exact I|field]|]. split; [auto_derive; [exact I|ring]|]. split; cont2_tac.
  - reflexivity.
  - intros y. ring.
  - intros l. field.
Qed.
Lemma bubble_slopes : mesh_int (fun _ => 1) (fun x y => bubble_x x y ^ 2 + bubble_y x y ^ 2) els = b ^ 3 * d ^ 3 * (b ^ 2 + d ^ 2) / 90.
Proof.
  set (P := fun x => (b * b) * (x - x0) - 2 * b * ((x - x0) * (x - x0)) + 4 / 3 * ((x - x0) * (x - x0) * (x - x0))).
  set (Q := fun x => b * b / 3 * ((x - x0) * (x - x0) * (x - x0)) - b / 2 * ((x - x0) * (x - x0) * (x - x0) * (x - x0)) + / 5 * ((x - x0) * (x - x0) * (x - x0) * (x - x0) * (x - x0))).
  rewrite (rectangle_green _ (fun x y => P x * (((y - y0) * (y0 + d - y)) * ((y - y0) * (y0 + d - y))) + Q x * ((d - 2 * (y - y0)) * (d - 2 * (y - y0))))
    (fun x y => (b - 2 * (x - x0)) * (b - 2 * (x - x0)) * (((y - y0) * (y0 + d - y)) * ((y - y0) * (y0 + d - y))) + ((x - x0) * (x0 + b - x)) * ((x - x0) * (x0 + b - x)) * ((d - 2 * (y - y0)) * (d - 2 * (y - y0))))
    (fun x y => P x * (2 * (d - 2 * (y - y0)) * ((y - y0) * (y0 + d - y))) + Q x * (-4 * (d - 2 * (y - y0))))
    (b ^ 5 / 30 * d ^ 3) (b ^ 5 / 30 * (- 4 * d ^ 3)) (b ^ 3 / 3 * d ^ 5 + b ^ 5 / 30 * (4 * d ^ 3)) (b ^ 3 / 3 * (- 2 * d ^ 5)) (b ^ 3 / 3 * d ^ 5)).
  - field.
  - intros x y. unfold P, Q. split; [auto_derive; [exact I|field]|]. split; [auto_derive; [exact I|field]|]. split; cont2_tac.
  - intros x y. unfold bubble_x, bubble_y. ring.
  - intros y. unfold P, Q. field.
  - intros l. unfold P, Q. field.
Qed.
End Rectangle.

(** ** Elastic stress functions *)
Lemma elastic_energy n X Y els f fx fy free : mesh_on n X Y els -> elastic_stress f fx fy -> free_sides els free -> zero_on X Y free f ->
  sumf (fun el => el_int el (fun x y => fx x y ^ 2 + fy x y ^ 2)) els = 2 * sumf (fun el => el_int el f) els.
Proof.
  intros Hm (fxx & fxy & fyx & fyy & Sf & Sx & Sy & L) Hf Zf. destruct (smooth_cont _ _ _ Sf) as (Cf & Cfx & Cfy).
  pose (g := fun (a b m : nat) (l : R) => fx (X a + l * (X b - X a)) (Y a + l * (Y b - Y a)) * (Y b - Y a) - fy (X a + l * (X b - X a)) (Y a + l * (Y b - Y a)) * (X b - X a)).
  assert (K : sumf (fun el => el_int el (fun x y => (fx x y * fx x y + f x y * fxx x y) + (fy x y * fy x y + f x y * fyy x y))) els = 0).
  { transitivity (sumf (fun el => sumf (side_term X Y f g) (turned_sides el)) els); [|apply (sides_cancel X Y f g) with (free := free); [exact Cf| | |exact Hf|exact Zf]].
    - apply sumf_ext. intros el I. destruct (Hm el I) as (V & _ & _ & EX & EY).
      pose proof (green_el el _ _ _ _ _ _ V (smooth_mult _ _ _ _ _ _ Sf Sx) (smooth_mult _ _ _ _ _ _ Sf Sy)) as G. cbv beta in G. etransitivity; [exact G|].
      destruct (corners_at X Y el EX EY) as (A & B & C). rewrite A, B, C. unfold turned_sides. rewrite !sumf_cons, sumf_nil.
      assert (E : forall a b m, edge_int (fun x y => f x y * fx x y) (fun x y => f x y * fy x y) (X a, Y a) (X b, Y b) = side_term X Y f g (a, b, m)).
      { intros a b m. unfold edge_int, side_term. cbn [fst snd]. apply RInt_ext. intros l _. unfold g. match goal with |- ?u = ?v => change (@eq R u v) end. ring. }
      rewrite (E _ _ (c3 (el_ids el))), (E _ _ (c4 (el_ids el))), (E _ _ (c5 (el_ids el))). ring.
    - intros a b m l. exact (edge_cont fx fy Cfx Cfy (X a, Y a) (X b, Y b) l).
    - intros a b m l. unfold g. replace (X b + (1 - l) * (X a - X b)) with (X a + l * (X b - X a)) by ring. replace (Y b + (1 - l) * (Y a - Y b)) with (Y a + l * (Y b - Y a)) by ring. ring. }
  assert (Cs : cont2 (fun x y => fx x y ^ 2 + fy x y ^ 2)) by (intros x y; apply (continuity_2d_pt_ext (fun x y => fx x y * fx x y + fy x y * fy x y)); [intros; ring|cont2_tac; (apply Cfx || apply Cfy)]).
  assert (J : sumf (fun el => 1 * el_int el (fun x y => fx x y ^ 2 + fy x y ^ 2) + -2 * el_int el f) els = 0).
  { rewrite <- K. apply sumf_ext. intros el _. rewrite <- (el_int_lin el _ _ 1 (-2) Cs Cf). apply el_int_ext. intros x y. rewrite <- (L x y). ring. }
  rewrite sumf_plus2 in J. lra.
Qed.

(** ** The equilateral triangle *)
Section Equilateral.
Context (a : R) (m : material) (els : list tri6).
Hypothesis Ha : 0 < a.
Hypothesis V : valid_mesh els.
Hypothesis B : same_boundary (mesh_edges els) (S_Section.ring_edges m (equilateral a)).
Let s := sqrt 3.
Lemma s_sq : s * s = 3. Proof. apply sqrt_sqrt. lra. Qed.
Lemma s_pos : 0 < s. Proof. apply sqrt_lt_R0. lra. Qed.
Definition cubic (x y : R) : R := (y * (s * x - y) * (s * (a - x) - y)) / (s * a).
Definition cubic_x (x y : R) : R := s * (y * (a - 2 * x)) / a.
Definition cubic_y (x y : R) : R := s * (x * (a - x)) / a - 2 * y + s * (y * y) / a.
Lemma cubic_form x y : cubic x y = s * (y * (x * (a - x))) / a - y * y + s * (y * y * y) / (3 * a).
Proof. unfold cubic. pose proof s_sq. pose proof s_pos. apply (Rmult_eq_reg_r (3 * s * a)); [|nra]. field_simplify; [|lra..]. replace (s ^ 2) with 3 by (rewrite <- s_sq; ring). ring. Qed.
Lemma cubic_elastic : elastic_stress cubic cubic_x cubic_y.
Proof.
  exists (fun _ y => - (2 * s * y) / a), (fun x _ => s * (a - 2 * x) / a), (fun x _ => s * (a - 2 * x) / a), (fun _ y => - 2 + 2 * s * y / a).
  split; [|split; [|split; [|intros; field; lra]]].
  - apply (smooth_ext (fun x y => s * (y * (x * (a - x))) / a - y * y + s * (y * y * y) / (3 * a)) cubic_x cubic_y); [intros; symmetry; apply cubic_form|reflexivity|reflexivity|].
    intros x y. unfold cubic_x, cubic_y, Rdiv. split; [auto_derive; [exact I|field; lra]|]. split; [auto_derive; [exact I|field; lra]|]. split; cont2_tac.
  - intros x y. unfold cubic_x, Rdiv. split; [auto_derive; [exact I|field; lra]|]. split; [auto_derive; [exact I|field; lra]|]. split; cont2_tac.
  - intros x y. unfold cubic_y, Rdiv. split; [auto_derive; [exact I|field; lra]|]. split; [auto_derive; [exact I|field; lra]|]. split; cont2_tac.
Qed.
Lemma cubic_zero X Y free : (forall i j k, In (i, j, k) free -> on_equilateral_side a (X i, Y i) (X j, Y j)) -> zero_on X Y free cubic.
Proof.
  intros H i j k l I _. unfold cubic, s. pose proof s_pos. destruct (H i j k I) as [[P Q]|[[P Q]|[P Q]]]; cbn [fst snd] in P, Q; rewrite P, Q; unfold s in *; field; lra.
Qed.
Lemma cubic_volume : mesh_int (fun _ => 1) cubic els = s * a ^ 4 / 160.
Proof.
  pose proof s_sq as S2. pose proof s_pos as S0.
  set (F := fun x y => s * (y * (a / 2 * (x * x) - / 3 * (x * x * x))) / a - x * (y * y) + s * (x * (y * y * y)) / (3 * a)).
  assert (SF : smooth F (fun x y => s * (y * (x * (a - x))) / a - y * y + s * (y * y * y) / (3 * a)) (fun x y => s * (a / 2 * (x * x) - / 3 * (x * x * x)) / a - 2 * (x * y) + s * (x * (y * y)) / a)).
  { intros x y. unfold F, Rdiv. split; [auto_derive; [exact I|field; lra]|]. split; [auto_derive; [exact I|field; lra]|]. split; cont2_tac. }
  pose proof (mesh_green (fun _ => 1) els F _ _ (fun _ _ => 0) (fun _ _ => 0) (fun _ _ => 0) _ V B SF (smooth_const 0)) as G. cbv beta in G.
  etransitivity; [|etransitivity; [exact G|]]; [apply mesh_int_ext; intros; rewrite cubic_form; ring|]. clear G.
  unfold boundary_sum, equilateral. cbn [S_Section.ring_edges path_edges]. rewrite !sumf_cons, sumf_nil. unfold edge_int. cbn [fst snd]. fold s.
  assert (E : forall h a0 a1 a2 a3 a4, (forall l, h l = a0 + a1 * l + a2 * l ^ 2 + a3 * l ^ 3 + a4 * l ^ 4) -> RInt h 0 1 = a0 + a1 / 2 + a2 / 3 + a3 / 4 + a4 / 5) by (intros h a0 a1 a2 a3 a4 Hh; rewrite <- int_poly4; apply RInt_ext; intros; apply Hh).
  assert (S3 : s ^ 2 = 3) by (rewrite <- S2; ring).
  rewrite (E (fun l => F (0 + l * (a - 0)) (0 + l * (0 - 0)) * (0 - 0) - 0 * (a - 0)) 0 0 0 0 0) by (intros; ring).
  set (q := a ^ 4 * s).
  assert (FZ : forall x z, F x (s * z) = 3 * (z * (a / 2 * (x * x) - / 3 * (x * x * x))) / a - 3 * (x * (z * z)) + 3 * (x * (z * z * z)) / a).
  { intros x z. unfold F. replace (s * (s * z * (a / 2 * (x * x) - / 3 * (x * x * x)))) with ((s * s) * (z * (a / 2 * (x * x) - / 3 * (x * x * x)))) by ring. replace (x * (s * z * (s * z))) with ((s * s) * (x * (z * z))) by ring.
    replace (s * (x * (s * z * (s * z) * (s * z)))) with ((s * s) * (s * s) * (x * (z * z * z))) by ring. rewrite S2. field. lra. }
  rewrite (E (fun l => F (a + l * (a / 2 - a)) (0 + l * (s * a / 2 - 0)) * (s * a / 2 - 0) - 0 * (a / 2 - a)) 0 (q / 8) (- 3 * q / 8) (9 / 32 * q) (- q / 16)).
  2:{ intros l. replace (0 + l * (s * a / 2 - 0)) with (s * (l * a / 2)) by field. rewrite FZ. unfold q. field. lra. }
  rewrite (E (fun l => F (a / 2 + l * (0 - a / 2)) (s * a / 2 + l * (0 - s * a / 2)) * (0 - s * a / 2) - 0 * (0 - a / 2)) (q / 32) (- q / 32) (- 3 * q / 32) (5 * q / 32) (- q / 16)).
  2:{ intros l. replace (s * a / 2 + l * (0 - s * a / 2)) with (s * ((1 - l) * a / 2)) by field. rewrite FZ. unfold q. field. lra. }
  unfold q. field.
Qed.
End Equilateral.

(** ** Multiples of a stress function *)
Lemma prandtl_scaled n X Y els f fx fy cx cy u k : mesh_on n X Y els -> pos_moduli els -> stress_function X Y els f fx fy ->
  4 * (k * mesh_int (fun _ => 1) f els) - k ^ 2 * mesh_int (fun m => / m_E m) (fun x y => fx x y ^ 2 + fy x y ^ 2) els <= twist_energy cx cy els u.
Proof.
  intros Hm Hp [Sf [free [Hf Zf]]]. destruct (smooth_cont _ _ _ Sf) as (Cf & Cfx & Cfy).
  assert (Sk : smooth (fun x y => k * f x y) (fun x y => k * fx x y) (fun x y => k * fy x y)).
  { eapply smooth_ext; [| | |exact (smooth_lin _ _ _ _ _ _ k 0 Sf (smooth_const 0))]; intros; cbv beta; ring. }
  assert (P : stress_function X Y els (fun x y => k * f x y) (fun x y => k * fx x y) (fun x y => k * fy x y)).
  { split; [exact Sk|]. exists free. split; [exact Hf|]. intros a b m l I J. cbv beta. rewrite (Zf a b m l I J). ring. }
  eapply Rle_trans; [|exact (prandtl_lower n X Y els _ _ _ cx cy u Hm Hp P)]. right.
  assert (Cs : cont2 (fun x y => fx x y ^ 2 + fy x y ^ 2)) by (intros x y; apply (continuity_2d_pt_ext (fun x y => fx x y * fx x y + fy x y * fy x y)); [intros; ring|cont2_tac; (apply Cfx || apply Cfy)]).
  assert (C0 : cont2 (fun _ _ => 0)) by (intros x y; apply continuity_2d_pt_const).
  unfold mesh_int. rewrite <- !sumf_scal. unfold Rminus. f_equal; [|f_equal]; apply sumf_ext; intros el _.
  - rewrite (el_int_ext el (fun x y => k * f x y) (fun x y => k * f x y + 0 * 0)) by (intros; ring). rewrite (el_int_lin el f (fun _ _ => 0) k 0 Cf C0). ring.
  - rewrite (el_int_ext el (fun x y => (k * fx x y) ^ 2 + (k * fy x y) ^ 2) (fun x y => k ^ 2 * (fx x y ^ 2 + fy x y ^ 2) + 0 * 0)) by (intros; ring). rewrite (el_int_lin el (fun x y => fx x y ^ 2 + fy x y ^ 2) (fun _ _ => 0) (k ^ 2) 0 Cs C0). ring.
Qed.
Lemma best_multiple v s j : 0 <= s -> (forall k, 4 * (k * v) - k ^ 2 * s <= j) -> 4 * v ^ 2 <= j * s.
Proof.
  intros H L. destruct (Rle_lt_or_eq_dec 0 s H) as [P|<-].
  - specialize (L (2 * v / s)). apply (Rmult_le_compat_r s) in L; [|lra]. eapply Rle_trans; [|exact L]. right. field. lra.
  - destruct (Req_dec v 0) as [->|N]; [right; ring|]. exfalso. specialize (L ((j + 1) / (4 * v))). replace (4 * ((j + 1) / (4 * v) * v)) with (j + 1) in L by (field; exact N). lra.
Qed.
Lemma slopes_nonneg els f fx fy : smooth f fx fy -> pos_moduli els -> 0 <= mesh_int (fun m => / m_E m) (fun x y => fx x y ^ 2 + fy x y ^ 2) els.
Proof.
  intros Sf Hp. destruct (smooth_cont _ _ _ Sf) as (Cf & Cfx & Cfy).
  assert (Cs : cont2 (fun x y => fx x y ^ 2 + fy x y ^ 2)) by (intros x y; apply (continuity_2d_pt_ext (fun x y => fx x y * fx x y + fy x y * fy x y)); [intros; ring|cont2_tac; (apply Cfx || apply Cfy)]).
  apply sumf_nonneg. intros el I. apply Rmult_le_pos; [left; apply Rinv_0_lt_compat, Hp, I|].
  assert (C0 : cont2 (fun _ _ => 0)) by (intros x y; apply continuity_2d_pt_const).
  apply Rle_trans with (el_int el (fun _ _ => 0)); [right; rewrite (el_int_ext el (fun _ _ => 0) (fun _ _ => 0 * 0 + 0 * 0)) by (intros; ring); rewrite (el_int_lin el (fun _ _ => 0) (fun _ _ => 0) 0 0 C0 C0); ring|].
  apply el_int_le; [exact C0|exact Cs|]. intros x y. apply Rplus_le_le_0_compat; apply pow2_ge_0.
Qed.
