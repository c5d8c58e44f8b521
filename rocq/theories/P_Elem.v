(** Element level lemmas: interpolation, gradients, extrapolation, point location. *)
From Coq Require Import Reals List Lra Lia ZArith.
From Coquelicot Require Import Coquelicot.
From Verif Require Import Base S_Integral M_Fea S_Fem P_Integral P_Fea P_Geom P_Extrap.
Import ListNotations.
Local Open Scope R_scope.

Lemma shape_sum_one (xs ys : V6) (g : gp) : g_eta g + g_xi g + g_zeta g = 1 ->
  sum6 (sh_n (shape_function xs ys g)) = 1.
Proof.
  intros H. unfold shape_function, sum6, shape_n. cbn.
  replace (g_zeta g) with (1 - g_eta g - g_xi g) by lra. ring.
Qed.

Lemma shape_only_eq (xs ys : V6) (g : gp) :
  sh_n (shape_function xs ys g) = shape_function_only (g_eta g, g_xi g, g_zeta g).
Proof. reflexivity. Qed.

Lemma shape_kronecker (i : nat) : (i < 6)%nat ->
  shape_function_only (nth i node_coords (0, 0, 0)) = unit6 i.
Proof.
  intros H. do 6 (destruct i as [|i]; [unfold node_coords, shape_function_only, unit6; cbn [nth Nat.eqb]; cbv zeta; cbn [Nat.eqb]; apply V6_eq; lra|]). lia.
Qed.

Lemma straight_corners (el : tri6) (a b c : point) : straight el a b c ->
  corner_a el = a /\ corner_b el = b /\ corner_c el = c.
Proof.
  intros [Hx Hy]. unfold corner_a, corner_b, corner_c. rewrite Hx, Hy.
  destruct a, b, c. cbn. auto.
Qed.

Section Interp.
Context (el : tri6) (a b c : point) (Hst : straight el a b c) (Ho : orient a b c <> 0).
Context (w eta xi zeta : R) (Hs : eta + xi + zeta = 1).
Context (k0 k1 k2 k3 k4 k5 : R).
Let q := quad k0 k1 k2 k3 k4 k5.
Let s := shape_function (el_x el) (el_y el) (mkGp w eta xi zeta).

Lemma interp_position : (sh_nx s, sh_ny s) = el_point el eta xi zeta.
Proof.
  destruct (straight_corners _ _ _ _ Hst) as [Ea [Eb Ec]].
  destruct Hst as [Hx Hy]. unfold s, el_point. rewrite Ea, Eb, Ec, Hx, Hy.
  rewrite (shape_straight a b c eta xi zeta w Hs Ho). reflexivity.
Qed.

Lemma interp_value : dot6 (sh_n s) (nodal q el) =
  q (fst (el_point el eta xi zeta)) (snd (el_point el eta xi zeta)).
Proof.
  destruct (straight_corners _ _ _ _ Hst) as [Ea [Eb Ec]].
  destruct Hst as [Hx Hy]. unfold s, el_point, nodal. rewrite Ea, Eb, Ec, Hx, Hy.
  rewrite (shape_straight a b c eta xi zeta w Hs Ho).
  cbn [sh_n fst snd]. unfold dot6, zip6, shape_n, side_nodes, q, quad. cbn [v0 v1 v2 v3 v4 v5].
  replace zeta with (1 - eta - xi) by lra. field.
Qed.

Lemma interp_dx : dot6 (sh_b0 s) (nodal q el) =
  k1 + 2 * k3 * fst (el_point el eta xi zeta) + k4 * snd (el_point el eta xi zeta).
Proof.
  destruct (straight_corners _ _ _ _ Hst) as [Ea [Eb Ec]].
  destruct Hst as [Hx Hy]. unfold s, el_point, nodal. rewrite Ea, Eb, Ec, Hx, Hy.
  rewrite (shape_straight a b c eta xi zeta w Hs Ho).
  cbn [sh_b0 fst snd]. unfold dot6, zip6, grad6, side_nodes, q, quad. cbn [v0 v1 v2 v3 v4 v5].
  replace zeta with (1 - eta - xi) by lra. unfold orient in *. field. exact Ho.
Qed.

Lemma interp_dy : dot6 (sh_b1 s) (nodal q el) =
  k2 + k4 * fst (el_point el eta xi zeta) + 2 * k5 * snd (el_point el eta xi zeta).
Proof.
  destruct (straight_corners _ _ _ _ Hst) as [Ea [Eb Ec]].
  destruct Hst as [Hx Hy]. unfold s, el_point, nodal. rewrite Ea, Eb, Ec, Hx, Hy.
  rewrite (shape_straight a b c eta xi zeta w Hs Ho).
  cbn [sh_b1 fst snd]. unfold dot6, zip6, grad6, side_nodes, q, quad. cbn [v0 v1 v2 v3 v4 v5].
  replace zeta with (1 - eta - xi) by lra. unfold orient in *. field. exact Ho.
Qed.
End Interp.

Lemma quad_dx (k0 k1 k2 k3 k4 k5 x y : R) :
  is_derive (fun x => quad k0 k1 k2 k3 k4 k5 x y) x (k1 + 2 * k3 * x + k4 * y).
Proof. unfold quad. auto_derive; [exact I|]. ring. Qed.

Lemma quad_dy (k0 k1 k2 k3 k4 k5 x y : R) :
  is_derive (fun y => quad k0 k1 k2 k3 k4 k5 x y) y (k2 + k4 * x + 2 * k5 * y).
Proof. unfold quad. auto_derive; [exact I|]. ring. Qed.

Lemma zero_area_b (el : tri6) (a b c : point) (g : gp) :
  straight el a b c -> orient a b c = 0 -> g_eta g + g_xi g + g_zeta g = 1 ->
  sh_b0 (shape_function (el_x el) (el_y el) g) = zero6 /\
  sh_b1 (shape_function (el_x el) (el_y el) g) = zero6.
Proof.
  intros [Hx Hy] Ho Hs. rewrite Hx, Hy. destruct g as [w eta xi zeta]. cbn in Hs.
  unfold shape_function. cbn [g_eta g_xi g_zeta sh_b0 sh_b1].
  rewrite (det_straight a b c eta xi zeta Hs). rewrite Ho.
  destruct (Req_EM_T (1/2*0) 0) as [_|n]; [auto|]. exfalso. apply n. ring.
Qed.

(** The 4-point rule is not exact for degree 4. *)
Lemma gps4_not_degree4 :
  exists f : R -> R -> R, poly_deg 4 f /\
  sumf (fun g => g_w g * (Rabs (orient (0,0) (1,0) (0,1)) / 2) *
      f (g_eta g * 0 + g_xi g * 1 + g_zeta g * 0) (g_eta g * 0 + g_xi g * 0 + g_zeta g * 1)) gps4
  <> tri_int (0,0) (1,0) (0,1) f.
Proof.
  exists (fun x _ => x * (x * (x * x))). split.
  - apply (poly_mul 1 3 (fun x _ => x)); [apply poly_x|].
    apply (poly_mul 1 2 (fun x _ => x)); [apply poly_x|].
    apply (poly_mul 1 1 (fun x _ => x)); apply poly_x.
  - assert (E : tri_int (0,0) (1,0) (0,1) (fun x _ => x * (x * (x * x))) =
       sumf (fun g => g_w g * (Rabs (orient (0,0) (1,0) (0,1)) / 2) *
       (fun x _ => x * (x * (x * x))) (g_eta g * 0 + g_xi g * 1 + g_zeta g * 0) (g_eta g * 0 + g_xi g * 0 + g_zeta g * 1)) gps6).
    { rewrite <- (gauss_exact 6 gps6); [reflexivity|reflexivity|].
      cbn. apply (poly_mul 1 3 (fun x _ => x)); [apply poly_x|].
      apply (poly_mul 1 2 (fun x _ => x)); [apply poly_x|].
      apply (poly_mul 1 1 (fun x _ => x)); apply poly_x. }
    unfold tri_int in *.
    replace (orient (0,0) (1,0) (0,1)) with 1 by (unfold orient; cbn; ring).
    rewrite Rabs_R1.
    rewrite (simplex_int_ext _ (P4c (fun i j => if (Nat.eqb i 4 && Nat.eqb j 0)%bool then 1 else 0))).
    2:{ intros s t. unfold P4c, P4. cbn. ring. }
    rewrite simplex_int_P4c. unfold P4c_val, simplex_val. cbn [Nat.eqb andb].
    unfold sumf, Rsum, gps4. cbn [map fold_right g_w g_eta g_xi g_zeta]. lra.
Qed.

(** The values of a function at the points of the six point rule of an element. *)
Definition at_gauss6 (el : tri6) (f : R -> R -> R) : V6 :=
  col6 (fun g => f (fst (el_point el (g_eta g) (g_xi g) (g_zeta g)))
                   (snd (el_point el (g_eta g) (g_xi g) (g_zeta g))))
       (at_gps6 (mkGp 0 0 0 0) (fun g => g)).

Definition shape_table (j : nat) : V6 :=
  col6 (fun g => nth6 (shape_n (g_eta g) (g_xi g) (g_zeta g)) j) (at_gps6 (mkGp 0 0 0 0) (fun g => g)).

Lemma at_gauss6_table (el : tri6) (k0 k1 k2 k3 k4 k5 : R) : valid_el el ->
  let q := quad k0 k1 k2 k3 k4 k5 in
  at_gauss6 el q =
  let u := nodal q el in
  add6 (add6 (add6 (add6 (add6 (scal6 (v0 u) (shape_table 0)) (scal6 (v1 u) (shape_table 1)))
    (scal6 (v2 u) (shape_table 2))) (scal6 (v3 u) (shape_table 3))) (scal6 (v4 u) (shape_table 4)))
    (scal6 (v5 u) (shape_table 5)).
Proof.
  intros [Hst Ho] q. set (u := nodal q el).
  assert (E : forall g, In g gps6 -> q (fst (el_point el (g_eta g) (g_xi g) (g_zeta g)))
    (snd (el_point el (g_eta g) (g_xi g) (g_zeta g))) =
    dot6 (shape_n (g_eta g) (g_xi g) (g_zeta g)) u).
  { intros g Hg. unfold q. rewrite <- (interp_value el _ _ _ Hst ltac:(lra) (g_w g)
      (g_eta g) (g_xi g) (g_zeta g) (gps6_sum1 g Hg) k0 k1 k2 k3 k4 k5).
    destruct Hst as [Hx Hy]. rewrite Hx at 1. rewrite Hy at 1.
    rewrite (shape_straight _ _ _ _ _ _ _ (gps6_sum1 g Hg)) by lra. reflexivity. }
  unfold at_gauss6, at_gps6, gps6. cbn [map col6].
  rewrite !E by (unfold gps6; cbn [In]; tauto).
  unfold shape_table, at_gps6, gps6. cbn [map col6]. clearbody u. clear.
  repeat match goal with |- context [shape_n ?a ?b ?c] => let s := fresh "s" in generalize (shape_n a b c); intro s end.
  destruct u as [u0 u1 u2 u3 u4 u5]. unfold add6, scal6, zip6, map6, dot6. cbn [v0 v1 v2 v3 v4 v5 nth6].
  apply V6_eq; ring.
Qed.

Lemma dot6_add6 (h x y : V6) : dot6 h (add6 x y) = dot6 h x + dot6 h y.
Proof. unfold dot6, add6, zip6. cbn [v0 v1 v2 v3 v4 v5]. ring. Qed.
Lemma dot6_scal6 (h x : V6) (k : R) : dot6 h (scal6 k x) = k * dot6 h x.
Proof. unfold dot6, scal6, map6. cbn [v0 v1 v2 v3 v4 v5]. ring. Qed.

Lemma extrapolate_row (el : tri6) (k0 k1 k2 k3 k4 k5 M : R) (i : nat) : valid_el el -> (i < 6)%nat ->
  let q := quad k0 k1 k2 k3 k4 k5 in
  (forall j, (j < 6)%nat -> Rabs (nth6 (nodal q el) j) <= M) ->
  Rabs (dot6 (m6_row h_inv i) (at_gauss6 el q) - nth6 (nodal q el) i) <= 2 / 10 ^ 14 * M.
Proof.
  intros Hv Hi q HM. unfold q at 1. rewrite at_gauss6_table by exact Hv. fold q.
  cbv zeta. set (u := nodal q el) in *. rewrite !dot6_add6, !dot6_scal6.
  set (h := m6_row h_inv i).
  assert (Hd : forall j, (j < 6)%nat -> dot6 h (shape_table j) = err_row i h j + nth6 (unit6 i) j).
  { intros j _. unfold err_row. fold (shape_table j). ring. }
  rewrite (Hd 0%nat), (Hd 1%nat), (Hd 2%nat), (Hd 3%nat), (Hd 4%nat), (Hd 5%nat) by lia.
  replace (v0 u * (err_row i h 0 + nth6 (unit6 i) 0) + v1 u * (err_row i h 1 + nth6 (unit6 i) 1) +
     v2 u * (err_row i h 2 + nth6 (unit6 i) 2) + v3 u * (err_row i h 3 + nth6 (unit6 i) 3) +
     v4 u * (err_row i h 4 + nth6 (unit6 i) 4) + v5 u * (err_row i h 5 + nth6 (unit6 i) 5) - nth6 u i)
  with (err_row i h 0 * v0 u + err_row i h 1 * v1 u + err_row i h 2 * v2 u + err_row i h 3 * v3 u +
        err_row i h 4 * v4 u + err_row i h 5 * v5 u).
  - replace (2 / 10 ^ 14 * M) with (6 * (1 / 10 ^ 14 / 3) * M) by field.
    apply lin_comb_bound; try (apply err_row_small; lia);
    first [ apply (HM 0%nat); lia | apply (HM 1%nat); lia | apply (HM 2%nat); lia
          | apply (HM 3%nat); lia | apply (HM 4%nat); lia | apply (HM 5%nat); lia].
  - clear Hd. clearbody h u. clear - Hi.
    do 6 (destruct i as [|i]; [unfold unit6, nth6; cbv zeta; cbn [v0 v1 v2 v3 v4 v5 Nat.eqb]; ring|]). lia.
Qed.

Lemma extrapolate_close (el : tri6) (k0 k1 k2 k3 k4 k5 M : R) (i : nat) : valid_el el -> (i < 6)%nat ->
  let q := quad k0 k1 k2 k3 k4 k5 in
  (forall j, (j < 6)%nat -> Rabs (nth6 (nodal q el) j) <= M) ->
  Rabs (nth6 (extrapolate_to_nodes (at_gauss6 el q)) i - nth6 (nodal q el) i) <= 2 / 10 ^ 14 * M.
Proof.
  intros Hv Hi q HM. pose proof (extrapolate_row el k0 k1 k2 k3 k4 k5 M i Hv Hi HM) as H.
  fold q in H.
  assert (E : nth6 (extrapolate_to_nodes (at_gauss6 el q)) i = dot6 (m6_row h_inv i) (at_gauss6 el q)).
  { unfold extrapolate_to_nodes, mulM6. clear - Hi.
    do 6 (destruct i as [|i]; [reflexivity|]). lia. }
  rewrite E. exact H.
Qed.

(** ** Coordinates *)

Lemma principal_global_inv (phi x y : R) :
  let p := principal_coordinate phi x y in global_coordinate phi (fst p) (snd p) = (x, y).
Proof.
  unfold principal_coordinate, global_coordinate. cbn [fst snd].
  set (t := phi * PI / 180). pose proof (sin2_cos2 t) as H. unfold Rsqr in H.
  f_equal.
  - transitivity (x * (sin t * sin t + cos t * cos t)); [ring|rewrite H; ring].
  - transitivity (y * (sin t * sin t + cos t * cos t)); [ring|rewrite H; ring].
Qed.

Lemma global_principal_inv (phi x y : R) :
  let p := global_coordinate phi x y in principal_coordinate phi (fst p) (snd p) = (x, y).
Proof.
  unfold principal_coordinate, global_coordinate. cbn [fst snd].
  set (t := phi * PI / 180). pose proof (sin2_cos2 t) as H. unfold Rsqr in H.
  f_equal.
  - transitivity (x * (sin t * sin t + cos t * cos t)); [ring|rewrite H; ring].
  - transitivity (y * (sin t * sin t + cos t * cos t)); [ring|rewrite H; ring].
Qed.

Lemma principal_isometry (phi x y x' y' : R) :
  let p := principal_coordinate phi x y in
  let p' := principal_coordinate phi x' y' in
  (fst p - fst p') ^ 2 + (snd p - snd p') ^ 2 = (x - x') ^ 2 + (y - y') ^ 2.
Proof.
  unfold principal_coordinate. cbn [fst snd].
  set (t := phi * PI / 180). pose proof (sin2_cos2 t) as H. unfold Rsqr in H.
  transitivity (((x - x') ^ 2 + (y - y') ^ 2) * (sin t * sin t + cos t * cos t)); [ring|rewrite H; ring].
Qed.

(** ** Local coordinates *)

Lemma local_coord_spec (el : tri6) (p : point) :
  orient (corner_a el) (corner_b el) (corner_c el) <> 0 ->
  let '(eta, xi, zeta) := local_coord el p in
  eta + xi + zeta = 1 /\ el_point el eta xi zeta = p.
Proof.
  intros Ho. unfold local_coord, el_point, corner_a, corner_b, corner_c, orient in *. cbn [fst snd] in *.
  set (xa := v0 (el_x el)) in *. set (ya := v0 (el_y el)) in *.
  set (xb := v1 (el_x el)) in *. set (yb := v1 (el_y el)) in *.
  set (xc := v2 (el_x el)) in *. set (yc := v2 (el_y el)) in *.
  destruct p as [px py]. cbn [fst snd].
  assert (D : (xa - xc) * (yb - yc) - (xb - xc) * (ya - yc) <> 0).
  { intro E. apply Ho. rewrite <- E. ring. }
  split; [ring|]. f_equal; field; exact D.
Qed.

Lemma point_within_spec (el : tri6) (p : point) :
  orient (corner_a el) (corner_b el) (corner_c el) <> 0 ->
  (point_within_element el p = true <-> in_triangle (corner_a el) (corner_b el) (corner_c el) p).
Proof.
  intros Ho. unfold point_within_element, in_triangle, corner_a, corner_b, corner_c, orient in *.
  cbn [fst snd] in *.
  set (xa := v0 (el_x el)) in *. set (ya := v0 (el_y el)) in *.
  set (xb := v1 (el_x el)) in *. set (yb := v1 (el_y el)) in *.
  set (xc := v2 (el_x el)) in *. set (yc := v2 (el_y el)) in *.
  destruct p as [px py]. cbn [fst snd].
  set (den := (yb - yc) * (xa - xc) + (xc - xb) * (ya - yc)).
  assert (D : den <> 0) by (intro E; apply Ho; rewrite <- E; unfold den; ring).
  set (al := ((yb - yc) * (px - xc) + (xc - xb) * (py - yc)) / den).
  set (be := ((yc - ya) * (px - xc) + (xa - xc) * (py - yc)) / den).
  split.
  - destruct (Rle_dec 0 al) as [Ha|]; [|discriminate].
    destruct (Rle_dec 0 be) as [Hb|]; [|discriminate].
    destruct (Rle_dec 0 (1 - al - be)) as [Hc|]; [|discriminate]. intros _.
    exists al, be, (1 - al - be). repeat split; try assumption; try ring.
    + unfold al, be, den. field. exact D.
    + unfold al, be, den. field. exact D.
  - intros [eta [xi [zeta [H1 [H2 [H3 [Hs [Ex Ey]]]]]]]].
    assert (Ea : al = eta).
    { unfold al. rewrite Ex, Ey. replace zeta with (1 - eta - xi) by lra. unfold den. field. exact D. }
    assert (Eb : be = xi).
    { unfold be. rewrite Ex, Ey. replace zeta with (1 - eta - xi) by lra. unfold den. field. exact D. }
    rewrite Ea, Eb. destruct (Rle_dec 0 eta); [|lra]. destruct (Rle_dec 0 xi); [|lra].
    destruct (Rle_dec 0 (1 - eta - xi)); [reflexivity|lra].
Qed.
