(** Proofs about the convergence of the torsion constant: interpolation errors. *)
From Coquelicot Require Import Coquelicot.
From Coq Require Import Reals List Permutation Bool Arith Lra Lia.
From Verif Require Import Base S_Integral M_Fea S_Fem M_Post M_Section S_Section S_Post S_Warp M_Init S_Init P_Integral P_Fea P_Geom P_Elem P_Section P_Totals P_Post
  P_Warp P_Warp2 P_Warp3 P_Warp4 P_Warp5 S_Plastic P_Plastic P_Fibre S_Refine P_Refine S_Prandtl P_Green P_Prandtl P_Prandtl2 S_Shear P_Shear P_Shear2 S_Converge.
Import ListNotations.
Local Open Scope R_scope.

(** ** Taylor's formula from a corner of a triangle *)
Lemma mean_value F Fx Fy p q (N : R) : smooth F Fx Fy ->
  (forall l, 0 <= l <= 1 -> let x := fst p + l * (fst q - fst p) in let y := snd p + l * (snd q - snd p) in Rabs (Fx x y) <= N /\ Rabs (Fy x y) <= N) ->
  Rabs (F (fst q) (snd q) - F (fst p) (snd p)) <= N * (Rabs (fst q - fst p) + Rabs (snd q - snd p)).
Proof.
  intros S B. pose (g := fun l => F (fst p + l * (fst q - fst p)) (snd p + l * (snd q - snd p))).
  pose (g' := fun l => Fx (fst p + l * (fst q - fst p)) (snd p + l * (snd q - snd p)) * (fst q - fst p) + Fy (fst p + l * (fst q - fst p)) (snd p + l * (snd q - snd p)) * (snd q - snd p)).
  assert (D : forall l, is_derive g l (g' l)) by (intros l; exact (line_derive F Fx Fy (fst p) (fst q - fst p) (snd p) (snd q - snd p) l S)).
  destruct (MVT_gen g 0 1 g') as (l & L & E).
  - intros x _. apply D.
  - intros x _. apply continuity_pt_filterlim. apply (ex_derive_continuous g). exists (g' x). apply D.
  - rewrite Rmin_left, Rmax_right in L by lra. unfold g at 1 2 in E. replace (fst p + 1 * (fst q - fst p)) with (fst q) in E by ring. replace (snd p + 1 * (snd q - snd p)) with (snd q) in E by ring.
    replace (fst p + 0 * (fst q - fst p)) with (fst p) in E by ring. replace (snd p + 0 * (snd q - snd p)) with (snd p) in E by ring. rewrite E. replace (g' l * (1 - 0)) with (g' l) by ring.
    destruct (B l L) as [B1 B2]. unfold g'. eapply Rle_trans; [apply Rabs_triang|]. rewrite !Rabs_mult, Rmult_plus_distr_l. apply Rplus_le_compat; apply Rmult_le_compat_r; try apply Rabs_pos; assumption.
Qed.
(** The same on a set that contains the segments from p *)
Lemma mean_value_star F Fx Fy p (S : point -> Prop) L N : smooth F Fx Fy -> 0 <= N ->
  (forall q l, S q -> 0 <= l <= 1 -> S (fst p + l * (fst q - fst p), snd p + l * (snd q - snd p))) -> (forall q, S q -> Rabs (fst q - fst p) + Rabs (snd q - snd p) <= L) ->
  (forall q, S q -> Rabs (Fx (fst q) (snd q)) <= N /\ Rabs (Fy (fst q) (snd q)) <= N) -> forall q, S q -> Rabs (F (fst q) (snd q) - F (fst p) (snd p)) <= N * L.
Proof.
  intros Sm HN St Le B q Q. eapply Rle_trans; [apply (mean_value F Fx Fy p q N Sm)|].
  - intros l Hl x y. exact (B (x, y) (St q l Q Hl)).
  - apply Rmult_le_compat_l; [exact HN|apply Le, Q].
Qed.
(** Subtracting a quadratic function *)
Lemma smooth_minus_quad F Fx Fy k0 k1 k2 k3 k4 k5 : smooth F Fx Fy ->
  smooth (fun x y => F x y - quad k0 k1 k2 k3 k4 k5 x y) (fun x y => Fx x y - (k1 + 2 * k3 * x + k4 * y)) (fun x y => Fy x y - (k2 + k4 * x + 2 * k5 * y)).
Proof. intros S. eapply smooth_ext; [| | |exact (smooth_lin _ _ _ _ _ _ 1 (- 1) S (smooth_quad k0 k1 k2 k3 k4 k5))]; intros; cbv beta; ring. Qed.

Section Taylor.
Context (W Wx Wy wxx wxy wyy a1 a2 a3 a4 a5 a6 : R -> R -> R) (p : point) (S : point -> Prop) (L M : R).
Hypothesis SW : smooth W Wx Wy.
Hypothesis Sx : smooth Wx wxx wxy.
Hypothesis Sy : smooth Wy wxy wyy.
Hypothesis Sxx : smooth wxx a1 a2.
Hypothesis Sxy : smooth wxy a3 a4.
Hypothesis Syy : smooth wyy a5 a6.
Hypothesis HM : 0 <= M.
Hypothesis HL : 0 <= L.
Hypothesis St : forall q l, S q -> 0 <= l <= 1 -> S (fst p + l * (fst q - fst p), snd p + l * (snd q - snd p)).
Hypothesis Le : forall q, S q -> Rabs (fst q - fst p) + Rabs (snd q - snd p) <= L.
Hypothesis B : forall q, S q -> let x := fst q in let y := snd q in (Rabs (a1 x y) <= M /\ Rabs (a2 x y) <= M) /\ (Rabs (a3 x y) <= M /\ Rabs (a4 x y) <= M) /\ (Rabs (a5 x y) <= M /\ Rabs (a6 x y) <= M).

(** The quadratic function with the value and the first and second derivatives of W at p *)
Let A := wxx (fst p) (snd p).
Let Bc := wxy (fst p) (snd p).
Let C := wyy (fst p) (snd p).
Definition tc1 : R := Wx (fst p) (snd p) - A * fst p - Bc * snd p.
Definition tc2 : R := Wy (fst p) (snd p) - Bc * fst p - C * snd p.
Definition tc0 : R := W (fst p) (snd p) - (tc1 * fst p + tc2 * snd p + A / 2 * (fst p * fst p) + Bc * (fst p * snd p) + C / 2 * (snd p * snd p)).
Lemma taylor : exists k0 k1 k2 k3 k4 k5, forall q, S q -> let x := fst q in let y := snd q in
  Rabs (W x y - quad k0 k1 k2 k3 k4 k5 x y) <= M * L ^ 3 /\ Rabs (Wx x y - (k1 + 2 * k3 * x + k4 * y)) <= M * L ^ 2 /\ Rabs (Wy x y - (k2 + k4 * x + 2 * k5 * y)) <= M * L ^ 2.
Proof.
  exists tc0, tc1, tc2, (A / 2), Bc, (C / 2).
  assert (L1 : 0 <= M * L) by (apply Rmult_le_pos; assumption). assert (L2 : 0 <= M * L * L) by (apply Rmult_le_pos; assumption).
  assert (Gxx : forall q, S q -> Rabs (wxx (fst q) (snd q) - A) <= M * L) by (intros q Q; apply (mean_value_star wxx a1 a2 p S L M Sxx HM St Le); [intros r Hr; apply B, Hr|exact Q]).
  assert (Gxy : forall q, S q -> Rabs (wxy (fst q) (snd q) - Bc) <= M * L) by (intros q Q; apply (mean_value_star wxy a3 a4 p S L M Sxy HM St Le); [intros r Hr; apply (B r Hr)|exact Q]).
  assert (Gyy : forall q, S q -> Rabs (wyy (fst q) (snd q) - C) <= M * L) by (intros q Q; apply (mean_value_star wyy a5 a6 p S L M Syy HM St Le); [intros r Hr; apply (B r Hr)|exact Q]).
  assert (Hx : forall q, S q -> Rabs (Wx (fst q) (snd q) - (tc1 + 2 * (A / 2) * fst q + Bc * snd q)) <= M * L * L).
  { intros q Q. pose proof (mean_value_star _ _ _ p S L (M * L) (smooth_minus_quad Wx wxx wxy tc1 A Bc 0 0 0 Sx) L1 St Le) as G. cbv beta in G.
    specialize (G ltac:(intros r Hr; split; [replace (wxx (fst r) (snd r) - (A + 2 * 0 * fst r + 0 * snd r)) with (wxx (fst r) (snd r) - A) by ring; apply Gxx, Hr|replace (wxy (fst r) (snd r) - (Bc + 0 * fst r + 2 * 0 * snd r)) with (wxy (fst r) (snd r) - Bc) by ring; apply Gxy, Hr]) q Q).
    eapply Rle_trans; [right|exact G]. f_equal. unfold quad, tc1. field. }
  assert (Hy : forall q, S q -> Rabs (Wy (fst q) (snd q) - (tc2 + Bc * fst q + 2 * (C / 2) * snd q)) <= M * L * L).
  { intros q Q. pose proof (mean_value_star _ _ _ p S L (M * L) (smooth_minus_quad Wy wxy wyy tc2 Bc C 0 0 0 Sy) L1 St Le) as G. cbv beta in G.
    specialize (G ltac:(intros r Hr; split; [replace (wxy (fst r) (snd r) - (Bc + 2 * 0 * fst r + 0 * snd r)) with (wxy (fst r) (snd r) - Bc) by ring; apply Gxy, Hr|replace (wyy (fst r) (snd r) - (C + 0 * fst r + 2 * 0 * snd r)) with (wyy (fst r) (snd r) - C) by ring; apply Gyy, Hr]) q Q).
    eapply Rle_trans; [right|exact G]. f_equal. unfold quad, tc2. field. }
  intros q Q x y. split; [|split; [eapply Rle_trans; [exact (Hx q Q)|right; ring]|eapply Rle_trans; [exact (Hy q Q)|right; ring]]].
  pose proof (mean_value_star _ _ _ p S L (M * L * L) (smooth_minus_quad W Wx Wy tc0 tc1 tc2 (A / 2) Bc (C / 2) SW) L2 St Le) as G. cbv beta in G. specialize (G ltac:(intros r Hr; split; [apply Hx, Hr|apply Hy, Hr]) q Q).
  eapply Rle_trans; [right|eapply Rle_trans; [exact G|right; ring]]. f_equal. unfold quad, tc0, x, y. field.
Qed.
End Taylor.

(** ** A quadratic function that is small at the nodes of a triangle has a small gradient *)
Lemma small_gradient k0 k1 k2 k3 k4 k5 (a b c : point) h e s t : let Q := quad k0 k1 k2 k3 k4 k5 in
  let mid (p q : point) := Q ((fst p + fst q) / 2) ((snd p + snd q) / 2) in
  0 < orient a b c -> within h a b c -> 0 <= s -> 0 <= t -> s + t <= 1 ->
  Rabs (Q (fst a) (snd a)) <= e -> Rabs (Q (fst b) (snd b)) <= e -> Rabs (Q (fst c) (snd c)) <= e -> Rabs (mid a b) <= e -> Rabs (mid b c) <= e -> Rabs (mid a c) <= e ->
  let x := fst a + s * (fst b - fst a) + t * (fst c - fst a) in let y := snd a + s * (snd b - snd a) + t * (snd c - snd a) in
  Rabs (k1 + 2 * k3 * x + k4 * y) <= 36 * e * h / orient a b c /\ Rabs (k2 + k4 * x + 2 * k5 * y) <= 36 * e * h / orient a b c.
Proof.
  intros Q mid O (W1 & W2 & W3 & W4 & _) Hs Ht Hst Ea Eb Ec Eab Ebc Eac x y.
  set (gx := k1 + 2 * k3 * x + k4 * y). set (gy := k2 + k4 * x + 2 * k5 * y).
  set (ps := gx * (fst b - fst a) + gy * (snd b - snd a)). set (pt := gx * (fst c - fst a) + gy * (snd c - snd a)).
  assert (E0 : 0 <= e) by (eapply Rle_trans; [apply Rabs_pos|exact Ea]).
  assert (T : forall v z n, Rabs v <= e -> - n <= z <= n -> Rabs (v * z) <= e * n) by (intros v z n Hv Hz; rewrite Rabs_mult; apply Rmult_le_compat; try apply Rabs_pos; [exact Hv|apply Rabs_le; lra]).
  assert (Ps : ps = Q (fst a) (snd a) * (4 * s + 4 * t - 3) + Q (fst b) (snd b) * (4 * s - 1) + mid a b * (4 - 8 * s - 4 * t) + mid b c * (4 * t) + mid a c * (- (4 * t))) by (unfold ps, gx, gy, mid, Q, quad, x, y; field).
  assert (Pt : pt = Q (fst a) (snd a) * (4 * s + 4 * t - 3) + Q (fst c) (snd c) * (4 * t - 1) + mid a c * (4 - 8 * t - 4 * s) + mid b c * (4 * s) + mid a b * (- (4 * s))) by (unfold pt, gx, gy, mid, Q, quad, x, y; field).
  assert (Bs : Rabs ps <= 18 * e).
  { rewrite Ps. pose proof (T _ (4 * s + 4 * t - 3) 3 Ea ltac:(lra)). pose proof (T _ (4 * s - 1) 3 Eb ltac:(lra)). pose proof (T _ (4 - 8 * s - 4 * t) 4 Eab ltac:(lra)). pose proof (T _ (4 * t) 4 Ebc ltac:(lra)). pose proof (T _ (- (4 * t)) 4 Eac ltac:(lra)).
    eapply Rle_trans; [apply Rabs_triang|]. eapply Rle_trans; [apply Rplus_le_compat_r, Rabs_triang|]. eapply Rle_trans; [apply Rplus_le_compat_r, Rplus_le_compat_r, Rabs_triang|]. eapply Rle_trans; [apply Rplus_le_compat_r, Rplus_le_compat_r, Rplus_le_compat_r, Rabs_triang|]. lra. }
  assert (Bt : Rabs pt <= 18 * e).
  { rewrite Pt. pose proof (T _ (4 * s + 4 * t - 3) 3 Ea ltac:(lra)). pose proof (T _ (4 * t - 1) 3 Ec ltac:(lra)). pose proof (T _ (4 - 8 * t - 4 * s) 4 Eac ltac:(lra)). pose proof (T _ (4 * s) 4 Ebc ltac:(lra)). pose proof (T _ (- (4 * s)) 4 Eab ltac:(lra)).
    eapply Rle_trans; [apply Rabs_triang|]. eapply Rle_trans; [apply Rplus_le_compat_r, Rabs_triang|]. eapply Rle_trans; [apply Rplus_le_compat_r, Rplus_le_compat_r, Rabs_triang|]. eapply Rle_trans; [apply Rplus_le_compat_r, Rplus_le_compat_r, Rplus_le_compat_r, Rabs_triang|]. lra. }
  assert (D : forall u v w z, Rabs u <= 18 * e -> Rabs v <= h -> Rabs w <= 18 * e -> Rabs z <= h -> Rabs (u * v - w * z) <= 36 * e * h).
  { intros u v w z Hu Hv Hw Hz. unfold Rminus. eapply Rle_trans; [apply Rabs_triang|]. rewrite Rabs_Ropp, !Rabs_mult. apply Rle_trans with (18 * e * h + 18 * e * h); [|lra]. apply Rplus_le_compat; apply Rmult_le_compat; try apply Rabs_pos; assumption. }
  assert (Gx : gx = (ps * (snd c - snd a) - pt * (snd b - snd a)) / orient a b c) by (unfold ps, pt, orient in *; field; lra).
  assert (Gy : gy = (pt * (fst b - fst a) - ps * (fst c - fst a)) / orient a b c) by (unfold ps, pt, orient in *; field; lra).
  assert (Dv : forall u, Rabs u <= 36 * e * h -> Rabs (u / orient a b c) <= 36 * e * h / orient a b c).
  { intros u Hu. unfold Rdiv. rewrite Rabs_mult, (Rabs_pos_eq (/ _)) by (left; apply Rinv_0_lt_compat, O). apply Rmult_le_compat_r; [left; apply Rinv_0_lt_compat, O|exact Hu]. }
  split; [rewrite Gx|rewrite Gy]; apply Dv, D; assumption.
Qed.

(** ** The interpolation error on an element *)
Lemma el_star el q l : in_el el q -> 0 <= l <= 1 -> let p := corner_a el in in_el el (fst p + l * (fst q - fst p), snd p + l * (snd q - snd p)).
Proof.
  intros (e & x & z & He & Hx & Hz & S & Ex & Ey) Hl p. exists (1 - l + l * e), (l * x), (l * z). fold p in Ex, Ey. rewrite Ex, Ey. cbn [fst snd].
  assert (0 <= l * e) by (apply Rmult_le_pos; lra). repeat split; try (apply Rmult_le_pos; lra); try lra; try (fold p; ring).
  replace (1 - l + l * e + l * x + l * z) with (1 - l + l * (e + x + z)) by ring. rewrite S. ring.
Qed.
Lemma el_near el q k : within k (corner_a el) (corner_b el) (corner_c el) -> in_el el q -> Rabs (fst q - fst (corner_a el)) + Rabs (snd q - snd (corner_a el)) <= 2 * k.
Proof.
  intros (W1 & W2 & W3 & W4 & _) (e & x & z & He & Hx & Hz & S & Ex & Ey). rewrite Ex, Ey. set (a := corner_a el) in *. set (b := corner_b el) in *. set (c := corner_c el) in *.
  assert (K : forall u v w, Rabs (v - u) <= k -> Rabs (w - u) <= k -> Rabs (e * u + x * v + z * w - u) <= k).
  { intros u v w Hv Hw. replace (e * u + x * v + z * w - u) with (x * (v - u) + z * (w - u)) by (replace e with (1 - x - z) by lra; ring). eapply Rle_trans; [apply Rabs_triang|]. rewrite !Rabs_mult, (Rabs_pos_eq x), (Rabs_pos_eq z) by assumption.
    assert (0 <= k) by (eapply Rle_trans; [apply Rabs_pos|exact Hv]). apply Rle_trans with (x * k + z * k); [apply Rplus_le_compat; apply Rmult_le_compat_l; assumption|]. replace (x * k + z * k) with ((x + z) * k) by ring. rewrite <- (Rmult_1_l k) at 2. apply Rmult_le_compat_r; lra. }
  pose proof (K _ _ _ W1 W3). pose proof (K _ _ _ W2 W4). lra.
Qed.
Lemma interpolation el W Wx Wy k0 k1 k2 k3 k4 k5 k sigma M : valid_el el -> third_at_most M [el] W Wx Wy -> 0 <= k -> within k (corner_a el) (corner_b el) (corner_c el) ->
  k ^ 2 <= sigma * (orient (corner_a el) (corner_b el) (corner_c el) / 2) -> nodal W el = nodal (quad k0 k1 k2 k3 k4 k5) el ->
  forall x y, in_el el (x, y) -> Rabs ((k1 + 2 * k3 * x + k4 * y) - Wx x y) <= (4 + 144 * sigma) * M * k ^ 2 /\ Rabs ((k2 + k4 * x + 2 * k5 * y) - Wy x y) <= (4 + 144 * sigma) * M * k ^ 2.
Proof.
  intros V (oxx & oxy & oyy & a1 & a2 & a3 & a4 & a5 & a6 & SW & Sx & Sy & Sxx & Sxy & Syy & FB) Hk Wi Hs N x y I.
  pose proof (el_near el) as Ne. destruct V as [[SX SY] O]. set (a := corner_a el) in *. set (b := corner_b el) in *. set (c := corner_c el) in *.
  assert (B : forall g, In g [a1; a2; a3; a4; a5; a6] -> forall q, in_el el q -> Rabs (g (fst q) (snd q)) <= M).
  { intros g Hg q Q. apply (proj1 (Forall_forall _ _) FB g Hg el); [left; reflexivity|destruct q; exact Q]. }
  assert (HM : 0 <= M) by (eapply Rle_trans; [apply Rabs_pos|apply (B a1 ltac:(left; reflexivity) (x, y) I)]).
  destruct (taylor W Wx Wy oxx oxy oyy a1 a2 a3 a4 a5 a6 a (in_el el) (2 * k) M SW Sx Sy Sxx Sxy Syy HM ltac:(lra)) as (c0 & c1 & c2 & c3 & c4 & c5 & T).
  { intros q l Q Hl. exact (el_star el q l Q Hl). }
  { intros q Q. apply Ne; assumption. }
  { intros q Q. cbv zeta. repeat split; apply B; cbn [In]; tauto. }
  set (D := quad (k0 - c0) (k1 - c1) (k2 - c2) (k3 - c3) (k4 - c4) (k5 - c5)).
  assert (Dn : forall q, in_el el q -> W (fst q) (snd q) = quad k0 k1 k2 k3 k4 k5 (fst q) (snd q) -> Rabs (D (fst q) (snd q)) <= M * (2 * k) ^ 3).
  { intros q Q E. destruct (T q Q) as [T0 _]. cbv zeta in T0. rewrite E in T0. eapply Rle_trans; [right|exact T0]. f_equal. unfold D, quad. ring. }
  unfold nodal in N. rewrite SX, SY in N. unfold side_nodes, zip6 in N. cbn [v0 v1 v2 v3 v4 v5] in N. injection N as Na Nb Nc Nab Nbc Nca.
  assert (Ha : in_el el a) by (exists 1, 0, 0; fold a b c; repeat split; try lra; ring).
  assert (Hb : in_el el b) by (exists 0, 1, 0; fold a b c; repeat split; try lra; ring).
  assert (Hc : in_el el c) by (exists 0, 0, 1; fold a b c; repeat split; try lra; ring).
  assert (Hab : in_el el ((fst a + fst b) / 2, (snd a + snd b) / 2)) by (exists (1 / 2), (1 / 2), 0; fold a b c; cbn [fst snd]; repeat split; try lra; field).
  assert (Hbc : in_el el ((fst b + fst c) / 2, (snd b + snd c) / 2)) by (exists 0, (1 / 2), (1 / 2); fold a b c; cbn [fst snd]; repeat split; try lra; field).
  assert (Hca : in_el el ((fst a + fst c) / 2, (snd a + snd c) / 2)) by (exists (1 / 2), 0, (1 / 2); fold a b c; cbn [fst snd]; repeat split; try lra; field).
  destruct I as (e & xi & z & He & Hx & Hz & Sm & Ex & Ey). cbn [fst snd] in Ex, Ey. fold a b c in Ex, Ey.
  pose proof (small_gradient (k0 - c0) (k1 - c1) (k2 - c2) (k3 - c3) (k4 - c4) (k5 - c5) a b c k (M * (2 * k) ^ 3) xi z) as G. cbv zeta in G. fold D in G.
  specialize (G O Wi Hx Hz ltac:(lra) (Dn a Ha Na) (Dn b Hb Nb) (Dn c Hc Nc) (Dn _ Hab Nab) (Dn _ Hbc Nbc) (Dn _ Hca Nca)).
  replace (fst a + xi * (fst b - fst a) + z * (fst c - fst a)) with x in G by (rewrite Ex; replace e with (1 - xi - z) by lra; ring).
  replace (snd a + xi * (snd b - snd a) + z * (snd c - snd a)) with y in G by (rewrite Ey; replace e with (1 - xi - z) by lra; ring).
  assert (F : 36 * (M * (2 * k) ^ 3) * k / orient a b c <= 144 * sigma * M * k ^ 2).
  { apply (Rmult_le_reg_r (orient a b c)); [exact O|]. unfold Rdiv. rewrite Rmult_assoc, Rinv_l, Rmult_1_r by lra.
    replace (36 * (M * (2 * k) ^ 3) * k) with (288 * M * k ^ 2 * k ^ 2) by ring. replace (144 * sigma * M * k ^ 2 * orient a b c) with (288 * M * k ^ 2 * (sigma * (orient a b c / 2))) by field.
    apply Rmult_le_compat_l; [|exact Hs]. apply Rmult_le_pos; [lra|apply pow2_ge_0]. }
  destruct (T (x, y)) as (_ & Tx & Ty); [exists e, xi, z; cbn [fst snd]; fold a b c; tauto|]. cbn [fst snd] in Tx, Ty. destruct G as [Gx Gy].
  split.
  - replace (k1 + 2 * k3 * x + k4 * y - Wx x y) with ((k1 - c1 + 2 * (k3 - c3) * x + (k4 - c4) * y) - (Wx x y - (c1 + 2 * c3 * x + c4 * y))) by ring. unfold Rminus at 1. eapply Rle_trans; [apply Rabs_triang|]. rewrite Rabs_Ropp.
    replace ((4 + 144 * sigma) * M * k ^ 2) with (144 * sigma * M * k ^ 2 + M * (2 * k) ^ 2) by ring. apply Rplus_le_compat; [exact (Rle_trans _ _ _ Gx F)|exact Tx].
  - replace (k2 + k4 * x + 2 * k5 * y - Wy x y) with ((k2 - c2 + (k4 - c4) * x + 2 * (k5 - c5) * y) - (Wy x y - (c2 + c4 * x + 2 * c5 * y))) by ring. unfold Rminus at 1. eapply Rle_trans; [apply Rabs_triang|]. rewrite Rabs_Ropp.
    replace ((4 + 144 * sigma) * M * k ^ 2) with (144 * sigma * M * k ^ 2 + M * (2 * k) ^ 2) by ring. apply Rplus_le_compat; [exact (Rle_trans _ _ _ Gy F)|exact Ty].
Qed.

(** ** The energy of the interpolated warping function *)
Lemma el_int_le_in el f g : cont2 f -> cont2 g -> (forall x y, in_el el (x, y) -> f x y <= g x y) -> el_int el f <= el_int el g.
Proof.
  intros Cf Cg H. unfold el_int, tri_int. set (a := corner_a el). set (b := corner_b el). set (c := corner_c el). apply Rmult_le_compat_l; [apply Rabs_pos|].
  assert (C : forall h, cont2 h -> simplex_ok (fun s t => h (fst a + s * (fst b - fst a) + t * (fst c - fst a)) (snd a + s * (snd b - snd a) + t * (snd c - snd a)))).
  { intros h Ch. apply cont2_ok. apply (cont2_comp h (fun s t => fst a + s * (fst b - fst a) + t * (fst c - fst a)) (fun s t => snd a + s * (snd b - snd a) + t * (snd c - snd a)) Ch); cont2_tac. }
  apply simplex_int_le; [apply (C f Cf)|apply (C g Cg)|]. intros s t Hs Ht Hst. apply H. exists (1 - s - t), s, t. fold a b c. cbn [fst snd]. repeat split; try lra; ring.
Qed.
Lemma third_shift M els om omx omy p q : third_at_most M els om omx omy -> third_at_most M els (fun x y => om x y + (p * x + q * y)) (fun x y => omx x y + p) (fun x y => omy x y + q).
Proof.
  intros (oxx & oxy & oyy & a1 & a2 & a3 & a4 & a5 & a6 & SW & Sx & Sy & Rest). exists oxx, oxy, oyy, a1, a2, a3, a4, a5, a6.
  split; [|split; [|split; [|exact Rest]]].
  - eapply smooth_ext; [| | |exact (smooth_lin _ _ _ _ _ _ 1 1 SW (smooth_affine 0 p q))]; intros; cbv beta; ring.
  - eapply smooth_ext; [| | |exact (smooth_lin _ _ _ _ _ _ 1 1 Sx (smooth_affine p 0 0))]; intros; cbv beta; ring.
  - eapply smooth_ext; [| | |exact (smooth_lin _ _ _ _ _ _ 1 1 Sy (smooth_affine q 0 0))]; intros; cbv beta; ring.
Qed.
Lemma warping_elastic M els f fx fy om omx omy : same_stresses f fx fy om omx omy -> third_at_most M els om omx omy -> elastic_stress f fx fy.
Proof.
  intros (Sf & _ & E) (oxx & oxy & oyy & a1 & a2 & a3 & a4 & a5 & a6 & SW & Sx & Sy & _).
  exists (fun x y => - oxy x y - 1), (fun x y => - oyy x y), oxx, (fun x y => oxy x y - 1). split; [exact Sf|]. split; [|split; [|intros; ring]].
  - eapply smooth_ext; [| | |exact (smooth_lin _ _ _ _ _ _ (-1) 1 Sy (smooth_affine 0 (-1) 0))]; intros x y; cbv beta; try ring. destruct (E x y) as [_ E2]. lra.
  - eapply smooth_ext; [| | |exact (smooth_lin _ _ _ _ _ _ 1 1 Sx (smooth_affine 0 0 (-1)))]; intros x y; cbv beta; try ring. destruct (E x y) as [E1 _]. lra.
Qed.
Lemma sq_le u e : Rabs u <= e -> u ^ 2 <= e ^ 2.
Proof. intros H. rewrite <- (pow2_abs u). apply pow_incr. split; [apply Rabs_pos|exact H]. Qed.
Lemma warping_energy n X Y els f fx fy om omx omy free h sigma M cx cy : mesh_on n X Y els -> unit_moduli els -> same_stresses f fx fy om omx omy -> third_at_most M els om omx omy ->
  fine_mesh_of h sigma els -> free_sides els free -> zero_on X Y free f -> 0 <= sigma ->
  exists u, twist_energy cx cy els u <= 2 * mesh_int (fun _ => 1) f els + 2 * ((4 + 144 * sigma) * M * h ^ 2) ^ 2 * mesh_int (fun _ => 1) (fun _ _ => 1) els.
Proof.
  intros Hm U SS T3 Fm Hf Zf Hs. pose proof (warping_elastic M els f fx fy om omx omy SS T3) as El. destruct SS as (Sf & So & E).
  pose (W := fun x y => om x y + (- cy * x + cx * y)). exists (fun i => W (X i) (Y i)). set (u := fun i => W (X i) (Y i)).
  pose proof (third_shift M els om omx omy (- cy) cx T3) as TW. fold W in TW.
  pose proof (against_fe n X Y els f fx fy free Hm Sf Hf Zf u) as A. pose proof (against_rotation n X Y els f fx fy free Hm Sf Hf Zf cx cy) as Ro. pose proof (elastic_energy n X Y els f fx fy free Hm El Hf Zf) as En.
  destruct (smooth_cont _ _ _ Sf) as (Cf & Cfx & Cfy).
  assert (Cr : cont2 (fun x y => fx x y * (x - cx) + fy x y * (y - cy))) by (intros x y; cont2_tac; [apply Cfx|apply Cfy]).
  assert (Cs : cont2 (fun x y => fx x y ^ 2 + fy x y ^ 2)) by (intros x y; apply (continuity_2d_pt_ext (fun x y => fx x y * fx x y + fy x y * fy x y)); [intros; ring|cont2_tac; (apply Cfx || apply Cfy)]).
  set (e := (4 + 144 * sigma) * M * h ^ 2).
  assert (K : twist_energy cx cy els u <= sumf (fun el => 2 * loc_int el (fun s t => fy (loc_x el s t) (loc_y el s t) * ddx u el s t - fx (loc_x el s t) (loc_y el s t) * ddy u el s t)
                     + ((- 2 * el_int el (fun x y => fx x y * (x - cx) + fy x y * (y - cy)) + - 1 * el_int el (fun x y => fx x y ^ 2 + fy x y ^ 2)) + 2 * e ^ 2 * el_int el (fun _ _ => 1))) els).
  { rewrite twist_sum. apply sumf_le. intros el I. destruct (Hm el I) as (V & _ & _ & EX & EY).
    destruct (el_quad n X Y els Hm el u I) as (k0 & k1 & k2 & k3 & k4 & k5 & N & Q). rewrite (el_energy_quad cx cy u el k0 k1 k2 k3 k4 k5 V N), (U el I).
    set (gx := fun x y => k1 + 2 * k3 * x + k4 * y). set (gy := fun x y => k2 + k4 * x + 2 * k5 * y).
    assert (Cc : cont2 (fun x y => fy x y * gx x y - fx x y * gy x y)) by (intros x y; unfold gx, gy; cont2_tac; [apply Cfy|apply Cfx]).
    replace (loc_int el _) with (el_int el (fun x y => fy x y * gx x y - fx x y * gy x y)).
    2:{ rewrite <- (loc_el_int el _ V). apply loc_int_ext. intros s t. unfold ddx, ddy. rewrite N. destruct (quad_field el k0 k1 k2 k3 k4 k5 s t V) as [-> ->]. reflexivity. }
    assert (C0 : cont2 (fun _ _ => 1)) by (intros x y; apply continuity_2d_pt_const).
    pose proof (el_int_lin el _ _ 2 (-2) Cc Cr) as L1.
    assert (C1 : cont2 (fun x y => 2 * (fy x y * gx x y - fx x y * gy x y) + -2 * (fx x y * (x - cx) + fy x y * (y - cy)))) by (intros x y; apply continuity_2d_pt_plus; (apply continuity_2d_pt_mult; [apply continuity_2d_pt_const|]); [apply Cc|apply Cr]).
    pose proof (el_int_lin el _ _ (-1) (2 * e ^ 2) Cs C0) as L2.
    assert (C2 : cont2 (fun x y => -1 * (fx x y ^ 2 + fy x y ^ 2) + 2 * e ^ 2 * 1)) by (intros x y; apply continuity_2d_pt_plus; (apply continuity_2d_pt_mult; [apply continuity_2d_pt_const|]); [apply Cs|apply C0]).
    pose proof (el_int_lin el _ _ 1 1 C1 C2) as L3. rewrite L1, L2 in L3.
    apply Rle_trans with (1 * (2 * el_int el (fun x y => fy x y * gx x y - fx x y * gy x y) + -2 * el_int el (fun x y => fx x y * (x - cx) + fy x y * (y - cy))) + 1 * (-1 * el_int el (fun x y => fx x y ^ 2 + fy x y ^ 2) + 2 * e ^ 2 * el_int el (fun _ _ => 1))); [|right; ring].
    rewrite <- L3. apply el_int_le_in.
    - intros x y. apply (continuity_2d_pt_ext (fun x y => (gx x y - (y - cy)) * (gx x y - (y - cy)) + (gy x y + (x - cx)) * (gy x y + (x - cx)))); [intros; unfold en_quad, quad, gx, gy; ring|unfold gx, gy; cont2_tac].
    - intros x y. apply continuity_2d_pt_plus; (apply continuity_2d_pt_mult; [apply continuity_2d_pt_const|]); [apply C1|apply C2].
    - intros x y J. replace (en_quad 1 cx cy k1 k2 k3 k4 k5 x y) with ((gx x y - (y - cy)) ^ 2 + (gy x y + (x - cx)) ^ 2) by (unfold en_quad, quad, gx, gy; ring).
      destruct (Fm el I) as (k & Hk & Wi & Sh).
      assert (Te : third_at_most M [el] W (fun x y => omx x y + - cy) (fun x y => omy x y + cx)).
      { destruct TW as (oxx & oxy & oyy & a1 & a2 & a3 & a4 & a5 & a6 & S1 & S2 & S3 & S4 & S5 & S6 & FB). exists oxx, oxy, oyy, a1, a2, a3, a4, a5, a6. repeat (split; [assumption|]).
        apply Forall_forall. intros g Hg el' x' y' [<-|[]] Hi. exact (proj1 (Forall_forall _ _) FB g Hg el x' y' I Hi). }
      assert (Nd : nodal W el = nodal (quad k0 k1 k2 k3 k4 k5) el) by (rewrite <- N; unfold nodal; rewrite EX, EY; reflexivity).
      destruct (interpolation el W _ _ k0 k1 k2 k3 k4 k5 k sigma M V Te (proj1 Hk) Wi Sh Nd x y J) as [Bx By]. cbv beta in Bx, By. fold (gx x y) in Bx. fold (gy x y) in By.
      assert (HM : 0 <= M).
      { destruct T3 as (oxx & oxy & oyy & a1 & a2 & a3 & a4 & a5 & a6 & _ & _ & _ & _ & _ & _ & FB). eapply Rle_trans; [apply Rabs_pos|]. exact (proj1 (Forall_forall _ _) FB a1 (or_introl eq_refl) el x y I J). }
      assert (Be : (4 + 144 * sigma) * M * k ^ 2 <= e) by (unfold e; apply Rmult_le_compat_l; [apply Rmult_le_pos; lra|apply pow_incr; lra]).
      pose proof (sq_le _ _ (Rle_trans _ _ _ Bx Be)) as Qx. pose proof (sq_le _ _ (Rle_trans _ _ _ By Be)) as Qy. destruct (E x y) as [E1 E2].
      replace (omx x y) with (fy x y + y) in Qx by lra. replace (omy x y) with (- fx x y - x) in Qy by lra.
      assert (Id : (gx x y - (y - cy)) ^ 2 + (gy x y + (x - cx)) ^ 2 = 1 * (2 * (fy x y * gx x y - fx x y * gy x y) + -2 * (fx x y * (x - cx) + fy x y * (y - cy))) + -1 * (fx x y ^ 2 + fy x y ^ 2)
        + ((gx x y - (fy x y + y + - cy)) ^ 2 + (gy x y - (- fx x y - x + cx)) ^ 2)) by ring.
      lra. }
  eapply Rle_trans; [exact K|]. rewrite !sumf_plus, !sumf_scal, A, Ro, En. unfold mesh_int.
  assert (Kn : forall g, sumf (fun el => 1 * el_int el g) els = sumf (fun el => el_int el g) els) by (intros g; apply sumf_ext; intros; ring).
  rewrite !Kn. fold e. lra.
Qed.

(** ** The warping function of the equilateral triangle *)
Section Equilateral.
Context (a : R).
Hypothesis Ha : 0 < a.
Let s := sqrt 3.
Definition tri_warp (x y : R) : R := s * (x * x / 2 - x * (x * x) / (3 * a)) - x * y + s * (x * (y * y)) / a - s * (y * y) / 2.
Definition tri_warp_x (x y : R) : R := s * (x - x * x / a) - y + s * (y * y) / a.
Definition tri_warp_y (x y : R) : R := - x + 2 * s * (x * y) / a - s * y.
Lemma tri_warp_smooth : smooth tri_warp tri_warp_x tri_warp_y.
Proof. intros x y. unfold tri_warp, tri_warp_x, tri_warp_y, Rdiv. split; [auto_derive; [exact I|field; lra]|]. split; [auto_derive; [exact I|field; lra]|]. split; cont2_tac. Qed.
Lemma tri_warp_stresses : same_stresses (cubic a) (cubic_x a) (cubic_y a) tri_warp tri_warp_x tri_warp_y.
Proof.
  split; [destruct (cubic_elastic a Ha) as (? & ? & ? & ? & S & _); exact S|]. split; [exact tri_warp_smooth|]. intros x y. unfold tri_warp_x, tri_warp_y, cubic_x, cubic_y, s. split; field; lra.
Qed.
Lemma tri_warp_third els : third_at_most (2 * sqrt 3 / a) els tri_warp tri_warp_x tri_warp_y.
Proof.
  assert (P : 0 <= 2 * s / a) by (apply Rmult_le_pos; [pose proof (sqrt_pos 3); unfold s; lra|left; apply Rinv_0_lt_compat, Ha]).
  exists (fun x y => s - 2 * s / a * x), (fun x y => - 1 + 2 * s / a * y), (fun x y => - s + 2 * s / a * x), (fun _ _ => - (2 * s / a)), (fun _ _ => 0), (fun _ _ => 0), (fun _ _ => 2 * s / a), (fun _ _ => 2 * s / a), (fun _ _ => 0).
  split; [exact tri_warp_smooth|].
  split; [intros x y; unfold tri_warp_x, Rdiv; split; [auto_derive; [exact I|field; lra]|]; split; [auto_derive; [exact I|field; lra]|]; split; cont2_tac|].
  split; [intros x y; unfold tri_warp_y, Rdiv; split; [auto_derive; [exact I|field; lra]|]; split; [auto_derive; [exact I|field; lra]|]; split; cont2_tac|].
  split; [eapply smooth_ext; [| | |exact (smooth_affine s (- (2 * s / a)) 0)]; intros; cbv beta; ring|].
  split; [eapply smooth_ext; [| | |exact (smooth_affine (- 1) 0 (2 * s / a))]; intros; cbv beta; ring|].
  split; [eapply smooth_ext; [| | |exact (smooth_affine (- s) (2 * s / a) 0)]; intros; cbv beta; ring|].
  fold s. apply Forall_forall. intros g Hg el x y _ _. cbn [In] in Hg.
  destruct Hg as [<-|[<-|[<-|[<-|[<-|[<-|[]]]]]]]; rewrite ?Rabs_Ropp, ?Rabs_R0, ?(Rabs_pos_eq _ P); lra.
Qed.
End Equilateral.
Lemma equilateral_area a m els : valid_mesh els -> same_boundary (mesh_edges els) (S_Section.ring_edges m (equilateral a)) -> mesh_int (fun _ => 1) (fun _ _ => 1) els = sqrt 3 * a ^ 2 / 4.
Proof.
  intros V B. transitivity (mesh_int (fun _ => 1) (quad 1 0 0 0 0 0) els); [apply mesh_int_ext; intros; unfold quad; ring|]. rewrite (mesh_quad_outline els _ _ _ _ _ _ _ V B). unfold boundary_sum, equilateral. cbn [S_Section.ring_edges path_edges]. rewrite !sumf_cons, sumf_nil.
  unfold b_quad, b_area, b_qx, b_qy, b_ixx, b_iyy, b_ixy, S_Section.cross. cbn [fst snd]. field.
Qed.
Lemma fine_sigma n X Y els h sigma : mesh_on n X Y els -> els <> [] -> fine_mesh_of h sigma els -> 0 <= sigma.
Proof.
  intros Hm Hn F. destruct els as [|el els]; [contradiction|]. destruct (F el (or_introl eq_refl)) as (k & _ & _ & S). destruct (Hm el (or_introl eq_refl)) as ((_ & O) & _). pose proof (pow2_ge_0 k).
  destruct (Rle_dec 0 sigma); [assumption|]. assert (sigma * (orient (corner_a el) (corner_b el) (corner_c el) / 2) < 0) by nra. lra.
Qed.
