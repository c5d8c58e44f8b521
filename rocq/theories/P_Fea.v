(** Lemmas on the element model: straight-sided elements, quadrature. *)
From Coq Require Import Reals List Lra Lia Psatz ZArith.
From Coquelicot Require Import Coquelicot.
From Verif Require Import Base S_Integral M_Fea S_Fem P_Integral.
Import ListNotations.
Local Open Scope R_scope.

Lemma V6_eq (a0 a1 a2 a3 a4 a5 b0 b1 b2 b3 b4 b5 : R) :
  a0 = b0 -> a1 = b1 -> a2 = b2 -> a3 = b3 -> a4 = b4 -> a5 = b5 ->
  mkV6 a0 a1 a2 a3 a4 a5 = mkV6 b0 b1 b2 b3 b4 b5.
Proof. intros; subst; reflexivity. Qed.

(** ** Shape functions *)

Lemma solve_col_correct (m : M3) (a0 a1 a2 : R) :
  det3 m <> 0 ->
  exists z, j00 m * z + j01 m * solve_row1 m a0 a1 a2 + j02 m * solve_row2 m a0 a1 a2 = a0 /\
            j10 m * z + j11 m * solve_row1 m a0 a1 a2 + j12 m * solve_row2 m a0 a1 a2 = a1 /\
            j20 m * z + j21 m * solve_row1 m a0 a1 a2 + j22 m * solve_row2 m a0 a1 a2 = a2.
Proof.
  intros Hd.
  exists ((a0 * (j11 m * j22 m - j12 m * j21 m)
   - j01 m * (a1 * j22 m - j12 m * a2)
   + j02 m * (a1 * j21 m - j11 m * a2)) / det3 m).
  unfold solve_row1, solve_row2, det3 in *.
  repeat split; field; exact Hd.
Qed.

(** Gradients of the area coordinates of the triangle a b c, times orient a b c. *)
Definition gxa (a b c : point) : R := snd b - snd c.
Definition gya (a b c : point) : R := fst c - fst b.

Section Straight.
Context (a b c : point) (eta xi zeta w : R).
Context (Hsum : eta + xi + zeta = 1).
Let xs := side_nodes (fst a) (fst b) (fst c).
Let ys := side_nodes (snd a) (snd b) (snd c).
Let D := orient a b c.
Let ex := (snd b - snd c) / D.  Let ey := (fst c - fst b) / D.
Let kx := (snd c - snd a) / D.  Let ky := (fst a - fst c) / D.
Let zx := (snd a - snd b) / D.  Let zy := (fst b - fst a) / D.

Lemma det_straight : det3 (jac xs ys eta xi zeta) = D.
Proof.
  replace zeta with (1 - eta - xi) by lra.
  unfold det3, jac, xs, ys, D, orient, side_nodes, dot6, b_iso0, b_iso1, b_iso2.
  cbn [v0 v1 v2 v3 v4 v5 j00 j01 j02 j10 j11 j12 j20 j21 j22]. field.
Qed.

Lemma shape_j_straight : sh_j (shape_function xs ys (mkGp w eta xi zeta)) = D / 2.
Proof.
  unfold shape_function. cbn [g_eta g_xi g_zeta sh_j]. rewrite det_straight. field.
Qed.

Lemma shape_nx_straight :
  sh_nx (shape_function xs ys (mkGp w eta xi zeta)) = eta * fst a + xi * fst b + zeta * fst c.
Proof.
  unfold shape_function. cbn [g_eta g_xi g_zeta sh_nx].
  replace zeta with (1 - eta - xi) by lra.
  unfold dot6, shape_n, xs, side_nodes. cbn [v0 v1 v2 v3 v4 v5]. field.
Qed.

Lemma shape_ny_straight :
  sh_ny (shape_function xs ys (mkGp w eta xi zeta)) = eta * snd a + xi * snd b + zeta * snd c.
Proof.
  unfold shape_function. cbn [g_eta g_xi g_zeta sh_ny].
  replace zeta with (1 - eta - xi) by lra.
  unfold dot6, shape_n, ys, side_nodes. cbn [v0 v1 v2 v3 v4 v5]. field.
Qed.

Lemma shape_n_straight : sh_n (shape_function xs ys (mkGp w eta xi zeta)) = shape_n eta xi zeta.
Proof. reflexivity. Qed.

Definition grad6 (dx0 dx1 dx2 : R) : V6 :=
  mkV6 ((4 * eta - 1) * dx0) ((4 * xi - 1) * dx1) ((4 * zeta - 1) * dx2)
       (4 * (eta * dx1 + xi * dx0)) (4 * (xi * dx2 + zeta * dx1)) (4 * (eta * dx2 + zeta * dx0)).

Lemma shape_b0_straight : D <> 0 ->
  sh_b0 (shape_function xs ys (mkGp w eta xi zeta)) = grad6 ex kx zx.
Proof.
  intros HD. unfold shape_function. cbn [g_eta g_xi g_zeta sh_b0].
  rewrite det_straight.
  destruct (Req_EM_T (1/2 * D) 0) as [H|_]; [lra|].
  unfold solve_rows, solve_row1, grad6. rewrite det_straight.
  unfold ex, kx, zx.
  replace zeta with (1 - eta - xi) by lra.
  apply V6_eq; unfold jac, xs, ys, side_nodes, dot6, b_iso0, b_iso1, b_iso2;
   cbn [v0 v1 v2 v3 v4 v5 j00 j01 j02 j10 j11 j12 j20 j21 j22]; field; exact HD.
Qed.

Lemma shape_b1_straight : D <> 0 ->
  sh_b1 (shape_function xs ys (mkGp w eta xi zeta)) = grad6 ey ky zy.
Proof.
  intros HD. unfold shape_function. cbn [g_eta g_xi g_zeta sh_b1].
  rewrite det_straight.
  destruct (Req_EM_T (1/2 * D) 0) as [H|_]; [lra|].
  unfold solve_rows, solve_row2, grad6. rewrite det_straight.
  unfold ey, ky, zy.
  replace zeta with (1 - eta - xi) by lra.
  apply V6_eq; unfold jac, xs, ys, side_nodes, dot6, b_iso0, b_iso1, b_iso2;
   cbn [v0 v1 v2 v3 v4 v5 j00 j01 j02 j10 j11 j12 j20 j21 j22]; field; exact HD.
Qed.

End Straight.

(** The whole output of shape_function on a straight-sided element. *)
Lemma shape_straight (a b c : point) (eta xi zeta w : R) :
  eta + xi + zeta = 1 -> orient a b c <> 0 ->
  shape_function (side_nodes (fst a) (fst b) (fst c)) (side_nodes (snd a) (snd b) (snd c))
    (mkGp w eta xi zeta) =
  mkShape (shape_n eta xi zeta)
    (grad6 eta xi zeta ((snd b - snd c) / orient a b c) ((snd c - snd a) / orient a b c)
           ((snd a - snd b) / orient a b c))
    (grad6 eta xi zeta ((fst c - fst b) / orient a b c) ((fst a - fst c) / orient a b c)
           ((fst b - fst a) / orient a b c))
    (orient a b c / 2)
    (eta * fst a + xi * fst b + zeta * fst c)
    (eta * snd a + xi * snd b + zeta * snd c).
Proof.
  intros Hs HD.
  pose proof (shape_j_straight a b c eta xi zeta w Hs) as H1.
  pose proof (shape_nx_straight a b c eta xi zeta w Hs) as H2.
  pose proof (shape_ny_straight a b c eta xi zeta w Hs) as H3.
  pose proof (shape_b0_straight a b c eta xi zeta w Hs HD) as H4.
  pose proof (shape_b1_straight a b c eta xi zeta w Hs HD) as H5.
  cbv zeta in *.
  destruct (shape_function _ _ _) as [n b0 b1 j nx ny] eqn:E.
  cbn [sh_n sh_b0 sh_b1 sh_j sh_nx sh_ny] in *. subst.
  f_equal. unfold shape_function in E. injection E; intros; subst. reflexivity.
Qed.

(** ** Quadrature rules *)

(** Sum over a rule of weight times value. *)
Definition qsum (gps : list gp) (f : R -> R -> R -> R) : R :=
  sumf (fun g => g_w g * f (g_eta g) (g_xi g) (g_zeta g)) gps.

Definition coef := (nat -> nat -> R)%type.

Definition P4c (k : coef) (s t : R) : R :=
  P4 (k 0 0)%nat (k 1 0)%nat (k 0 1)%nat (k 2 0)%nat (k 1 1)%nat (k 0 2)%nat
     (k 3 0)%nat (k 2 1)%nat (k 1 2)%nat (k 0 3)%nat
     (k 4 0)%nat (k 3 1)%nat (k 2 2)%nat (k 1 3)%nat (k 0 4)%nat s t.

Definition P4c_val (k : coef) : R :=
  simplex_val (k 0 0)%nat (k 1 0)%nat (k 0 1)%nat (k 2 0)%nat (k 1 1)%nat (k 0 2)%nat
     (k 3 0)%nat (k 2 1)%nat (k 1 2)%nat (k 0 3)%nat
     (k 4 0)%nat (k 3 1)%nat (k 2 2)%nat (k 1 3)%nat (k 0 4)%nat.

Definition deg_le (d : nat) (k : coef) : Prop := forall i j, (d < i + j)%nat -> k i j = 0.

Lemma simplex_int_P4c (k : coef) : simplex_int (P4c k) = P4c_val k.
Proof. apply simplex_int_P4. Qed.

(** A polynomial of degree <= d <= 4 composed with an affine map is a P4c of degree <= d. *)
Lemma poly_affine (d : nat) (f : R -> R -> R) :
  poly_deg d f -> (d <= 4)%nat ->
  forall x0 x1 x2 y0 y1 y2, exists k, deg_le d k /\
    forall s t, f (x0 + s * x1 + t * x2) (y0 + s * y1 + t * y2) = P4c k s t.
Proof.
  intros H. induction H as [d c f Hf | d f g h Hf IHf Hg IHg Hh | d r f h Hf IHf Hh
    | d f h Hf IHf Hh | d f h Hf IHf Hh]; intros Hd x0 x1 x2 y0 y1 y2.
  - exists (fun i j => match i, j with O, O => c | _, _ => 0 end). split.
    + intros i j Hij. destruct i, j; try reflexivity; lia.
    + intros s t. rewrite Hf. unfold P4c, P4. ring.
  - destruct (IHf Hd x0 x1 x2 y0 y1 y2) as [k1 [Hk1 E1]].
    destruct (IHg Hd x0 x1 x2 y0 y1 y2) as [k2 [Hk2 E2]].
    exists (fun i j => k1 i j + k2 i j). split.
    + intros i j Hij. rewrite (Hk1 i j Hij), (Hk2 i j Hij). ring.
    + intros s t. rewrite Hh, E1, E2. unfold P4c, P4. ring.
  - destruct (IHf Hd x0 x1 x2 y0 y1 y2) as [k1 [Hk1 E1]].
    exists (fun i j => r * k1 i j). split.
    + intros i j Hij. rewrite (Hk1 i j Hij). ring.
    + intros s t. rewrite Hh, E1. unfold P4c, P4. ring.
  - destruct (IHf ltac:(lia) x0 x1 x2 y0 y1 y2) as [k1 [Hk1 E1]].
    exists (fun i j => x0 * k1 i j + x1 * (match i with O => 0 | S i' => k1 i' j end)
                       + x2 * (match j with O => 0 | S j' => k1 i j' end)). split.
    + intros i j Hij. rewrite (Hk1 i j) by lia.
      destruct i, j; rewrite ?Hk1 by lia; ring.
    + intros s t. rewrite Hh, E1. unfold P4c, P4.
      rewrite (Hk1 4%nat 0%nat), (Hk1 3%nat 1%nat), (Hk1 2%nat 2%nat), (Hk1 1%nat 3%nat), (Hk1 0%nat 4%nat) by lia.
      ring.
  - destruct (IHf ltac:(lia) x0 x1 x2 y0 y1 y2) as [k1 [Hk1 E1]].
    exists (fun i j => y0 * k1 i j + y1 * (match i with O => 0 | S i' => k1 i' j end)
                       + y2 * (match j with O => 0 | S j' => k1 i j' end)). split.
    + intros i j Hij. rewrite (Hk1 i j) by lia.
      destruct i, j; rewrite ?Hk1 by lia; ring.
    + intros s t. rewrite Hh, E1. unfold P4c, P4.
      rewrite (Hk1 4%nat 0%nat), (Hk1 3%nat 1%nat), (Hk1 2%nat 2%nat), (Hk1 1%nat 3%nat), (Hk1 0%nat 4%nat) by lia.
      ring.
Qed.

Ltac unfold_qsum :=
  unfold qsum, sumf, Rsum; cbn [map fold_right g_w g_eta g_xi g_zeta gps1 gps3 gps4 gps6].

(** Here s is the coordinate xi and t the coordinate zeta (corner a is the origin). *)
Lemma gps1_exact (k : coef) : deg_le 1 k -> qsum gps1 (fun _ s t => P4c k s t) = 2 * P4c_val k.
Proof.
  intros H. unfold_qsum. unfold P4c, P4c_val, P4, simplex_val.
  rewrite (H 2 0)%nat, (H 1 1)%nat, (H 0 2)%nat, (H 3 0)%nat, (H 2 1)%nat, (H 1 2)%nat, (H 0 3)%nat,
    (H 4 0)%nat, (H 3 1)%nat, (H 2 2)%nat, (H 1 3)%nat, (H 0 4)%nat by lia. field.
Qed.

Lemma gps3_exact (k : coef) : deg_le 2 k -> qsum gps3 (fun _ s t => P4c k s t) = 2 * P4c_val k.
Proof.
  intros H. unfold_qsum. unfold P4c, P4c_val, P4, simplex_val.
  rewrite (H 3 0)%nat, (H 2 1)%nat, (H 1 2)%nat, (H 0 3)%nat,
    (H 4 0)%nat, (H 3 1)%nat, (H 2 2)%nat, (H 1 3)%nat, (H 0 4)%nat by lia. field.
Qed.

Lemma gps4_exact (k : coef) : deg_le 3 k -> qsum gps4 (fun _ s t => P4c k s t) = 2 * P4c_val k.
Proof.
  intros H. unfold_qsum. unfold P4c, P4c_val, P4, simplex_val.
  rewrite (H 4 0)%nat, (H 3 1)%nat, (H 2 2)%nat, (H 1 3)%nat, (H 0 4)%nat by lia. field.
Qed.

(** The nested radicals of the six point rule live in Q(r, s) with r = sqrt 10 and
    s = sqrt(38 - 44 sqrt(2/5)). *)
Definition rad_r : R := sqrt 10.
Definition rad_s : R := sqrt (38 - 44 * sqrt (2 / 5)).

Lemma rad_r2 : rad_r * rad_r = 10.
Proof. apply sqrt_sqrt. lra. Qed.

Lemma rad_r_bounds : 3.16 < rad_r < 3.17.
Proof.
  unfold rad_r. split.
  - rewrite <- (sqrt_square 3.16) by lra. apply sqrt_lt_1; lra.
  - rewrite <- (sqrt_square 3.17) by lra. apply sqrt_lt_1; lra.
Qed.

Lemma sqrt_2_5 : sqrt (2/5) = rad_r / 5.
Proof.
  unfold rad_r. replace (2/5) with (10 / (5*5)) by field.
  rewrite sqrt_div_alt by lra. rewrite sqrt_square by lra. reflexivity.
Qed.

Lemma rad_s2 : rad_s * rad_s = 38 - 44 * rad_r / 5.
Proof.
  unfold rad_s. rewrite sqrt_2_5. pose proof rad_r_bounds.
  replace (44 * (rad_r / 5)) with (44 * rad_r / 5) by field.
  apply sqrt_sqrt. lra.
Qed.

Lemma rad_s_pos : 0 <= rad_s.
Proof. apply sqrt_pos. Qed.

Lemma rad_u : sqrt (213125 - 53320 * sqrt 10) = rad_s * ((45/2) * rad_r - 5).
Proof.
  pose proof rad_r_bounds. pose proof rad_s_pos. pose proof rad_s2 as H2. pose proof rad_r2 as Hr.
  fold rad_r.
  apply sqrt_lem_1.
  - lra.
  - apply Rmult_le_pos; lra.
  - transitivity ((rad_s * rad_s) * (((45/2) * rad_r - 5)*((45/2) * rad_r - 5))); [ring|].
    rewrite H2.
    transitivity ((38 - 44 * rad_r / 5) * ((2025/4) * (rad_r*rad_r) - 225 * rad_r + 25)); [field|].
    rewrite Hr. 
    transitivity (38 * ((2025/4) * 10 + 25) - (38*225 + 44/5 * ((2025/4)*10+25)) * rad_r + 44 * 225 / 5 * (rad_r * rad_r)); [field|].
    rewrite Hr. field.
Qed.

Lemma rad_r_pow2 : rad_r ^ 2 = 10. Proof. pose proof rad_r2; lra. Qed.
Lemma rad_s_pow2 : rad_s ^ 2 = 38 - 44 * rad_r / 5. Proof. pose proof rad_s2; lra. Qed.

Lemma g6_g1_alt : g6_g1 = (8 - rad_r + rad_s) / 18. Proof. unfold g6_g1, rad_r, rad_s. field. Qed.
Lemma g6_g2_alt : g6_g2 = (8 - rad_r - rad_s) / 18. Proof. unfold g6_g2, rad_r, rad_s. field. Qed.
Lemma g6_w1_alt : g6_w1 = (620 + rad_s * ((45/2) * rad_r - 5)) / 3720.
Proof. unfold g6_w1. rewrite rad_u. reflexivity. Qed.
Lemma g6_w2_alt : g6_w2 = (620 - rad_s * ((45/2) * rad_r - 5)) / 3720.
Proof. unfold g6_w2. rewrite rad_u. reflexivity. Qed.

(** Power sums of the six point rule: w1*g1^k + w2*g2^k for k = 0..4. *)
Definition m6 (k : nat) : R := g6_w1 * g6_g1 ^ k + g6_w2 * g6_g2 ^ k.

Lemma g6_quadratic (g : R) : g = g6_g1 \/ g = g6_g2 ->
  g * g = (8 - rad_r) / 9 * g + (rad_r / 45 - 1 / 9).
Proof.
  pose proof rad_r2 as Hr. pose proof rad_s2 as Hs.
  intros [-> | ->]; rewrite ?g6_g1_alt, ?g6_g2_alt.
  - transitivity ((64 + rad_r*rad_r + rad_s*rad_s - 16*rad_r + 16*rad_s - 2*rad_r*rad_s)/324); [field|].
    rewrite Hs, Hr.
    transitivity ((64 - 16 * rad_r + 8 * rad_s + rad_r*rad_r - rad_r*rad_s)/162 + 
      (64 + 10 + (38 - 44 * rad_r / 5) - 16*rad_r + 16*rad_s - 2*rad_r*rad_s)/324
      - (64 - 16 * rad_r + 8 * rad_s + 10 - rad_r*rad_s)/162); [rewrite Hr; field|].
    field.
  - transitivity ((64 + rad_r*rad_r + rad_s*rad_s - 16*rad_r - 16*rad_s + 2*rad_r*rad_s)/324); [field|].
    rewrite Hs, Hr.
    transitivity ((64 - 16 * rad_r - 8 * rad_s + rad_r*rad_r + rad_r*rad_s)/162 + 
      (64 + 10 + (38 - 44 * rad_r / 5) - 16*rad_r - 16*rad_s + 2*rad_r*rad_s)/324
      - (64 - 16 * rad_r - 8 * rad_s + 10 + rad_r*rad_s)/162); [rewrite Hr; field|].
    field.
Qed.

Lemma m6_0 : m6 0 = 1 / 3.
Proof. unfold m6. rewrite g6_w1_alt, g6_w2_alt. cbn [pow]. field. Qed.

Lemma m6_1 : m6 1 = 1 / 12 + rad_r / 120.
Proof.
  unfold m6. rewrite g6_w1_alt, g6_w2_alt, g6_g1_alt, g6_g2_alt. cbn [pow].
  pose proof rad_r2 as Hr. pose proof rad_s2 as Hs.
  transitivity (2 * (620 * (8 - rad_r) + (rad_s * rad_s) * ((45/2) * rad_r - 5)) / (3720 * 18)); [field|].
  rewrite Hs.
  transitivity (2 * (620 * (8 - rad_r) + 38 * ((45/2) * rad_r - 5) - 44/5 * (45/2) * (rad_r * rad_r) + 44 * rad_r) / (3720 * 18)); [field|].
  rewrite Hr. field.
Qed.

Lemma m6_rec (k : nat) : m6 (S (S k)) = (8 - rad_r) / 9 * m6 (S k) + (rad_r / 45 - 1 / 9) * m6 k.
Proof.
  unfold m6.
  pose proof (g6_quadratic g6_g1 (or_introl eq_refl)) as H1.
  pose proof (g6_quadratic g6_g2 (or_intror eq_refl)) as H2.
  rewrite <- !tech_pow_Rmult.
  replace (g6_w1 * (g6_g1 * (g6_g1 * g6_g1 ^ k))) with (g6_w1 * (g6_g1 * g6_g1) * g6_g1 ^ k) by ring.
  replace (g6_w2 * (g6_g2 * (g6_g2 * g6_g2 ^ k))) with (g6_w2 * (g6_g2 * g6_g2) * g6_g2 ^ k) by ring.
  rewrite H1, H2. ring.
Qed.

Lemma m6_2 : m6 2 = 1 / 36 + rad_r / 180.
Proof.
  rewrite m6_rec, m6_1, m6_0. pose proof rad_r2 as Hr.
  transitivity ((8 / 12 + 8 * rad_r/120 - rad_r / 12 - (rad_r * rad_r)/120)/9 + (rad_r / 45 - 1/9)/3); [field|].
  rewrite Hr. field.
Qed.

Lemma m6_3 : m6 3 = 1 / 90 + rad_r / 360.
Proof.
  rewrite m6_rec, m6_2, m6_1. pose proof rad_r2 as Hr.
  transitivity ((8 / 36 + 8 * rad_r/180 - rad_r / 36 - (rad_r * rad_r)/180)/9 +
     (rad_r / 45 / 12 - 1/9/12 + (rad_r*rad_r)/(45*120) - rad_r / (9*120))); [field|].
  rewrite Hr. field.
Qed.

Lemma m6_4 : m6 4 = 2 / 405 + rad_r / 810.
Proof.
  rewrite m6_rec, m6_3, m6_2. pose proof rad_r2 as Hr.
  transitivity ((8 / 90 + 8 * rad_r/360 - rad_r / 90 - (rad_r * rad_r)/360)/9 +
     (rad_r / 45 / 36 - 1/9/36 + (rad_r*rad_r)/(45*180) - rad_r / (9*180))); [field|].
  rewrite Hr. field.
Qed.

Lemma gps6_exact (k : coef) : qsum gps6 (fun _ s t => P4c k s t) = 2 * P4c_val k.
Proof.
  pose proof m6_0 as H0. pose proof m6_1 as H1. pose proof m6_2 as H2. pose proof m6_3 as H3.
  pose proof m6_4 as H4.
  unfold_qsum. unfold P4c, P4c_val, P4, simplex_val.
  unfold m6 in *.
  set (w1 := g6_w1) in *. set (w2 := g6_w2) in *. set (g1 := g6_g1) in *. set (g2 := g6_g2) in *.
  set (M0 := w1 * g1 ^ 0 + w2 * g2 ^ 0) in *.
  set (M1 := w1 * g1 ^ 1 + w2 * g2 ^ 1) in *.
  set (M2 := w1 * g1 ^ 2 + w2 * g2 ^ 2) in *.
  set (M3 := w1 * g1 ^ 3 + w2 * g2 ^ 3) in *.
  set (M4 := w1 * g1 ^ 4 + w2 * g2 ^ 4) in *.
  transitivity (
    k 0%nat 0%nat * (3 * M0) + (k 1%nat 0%nat + k 0%nat 1%nat) * M0
    + (k 2%nat 0%nat + k 0%nat 2%nat) * (6 * M2 - 4 * M1 + M0)
    + k 1%nat 1%nat * (2 * M1 - 3 * M2)
    + (k 3%nat 0%nat + k 0%nat 3%nat) * (- 6 * M3 + 12 * M2 - 6 * M1 + M0)
    + (k 2%nat 1%nat + k 1%nat 2%nat) * (3 * M3 - 3 * M2 + M1)
    + (k 4%nat 0%nat + k 0%nat 4%nat) * (18 * M4 - 32 * M3 + 24 * M2 - 8 * M1 + M0)
    + (k 3%nat 1%nat + k 1%nat 3%nat) * (- 9 * M4 + 13 * M3 - 6 * M2 + M1)
    + k 2%nat 2%nat * (9 * M4 - 8 * M3 + 2 * M2)).
  - unfold M0, M1, M2, M3, M4. cbn [pow]. ring.
  - rewrite H0, H1, H2, H3, H4. field.
Qed.
