(** Error bound of the nodal extrapolation matrix. *)
From Coq Require Import Reals List Lra Lia ZArith.
From Verif Require Import Base S_Integral M_Fea S_Fem P_Fea P_Geom.
Import ListNotations.
Local Open Scope R_scope.

(** ** Extrapolation *)

Lemma rad_r_tight : 3.16227766016837933 < rad_r < 3.16227766016837934.
Proof.
  pose proof rad_r2 as H. pose proof rad_r_bounds as B. split; nra.
Qed.

Lemma rad_s_tight : 3.18935049665574727 < rad_s < 3.18935049665574733.
Proof.
  pose proof rad_s2 as H. pose proof rad_r_tight as B. pose proof rad_s_bounds. split; nra.
Qed.

Lemma g1_tight : 0.445948490915964880 < g6_g1 < 0.445948490915964892.
Proof. rewrite g6_g1_alt. pose proof rad_r_tight. pose proof rad_s_tight. split; lra. Qed.
Lemma g2_tight : 0.0915762135097707380 < g6_g2 < 0.0915762135097707500.
Proof. rewrite g6_g2_alt. pose proof rad_r_tight. pose proof rad_s_tight. split; lra. Qed.

Lemma sq_tight (lo hi g : R) : 0 <= lo -> lo < g < hi -> lo * lo <= g * g <= hi * hi.
Proof. intros. split; nra. Qed.

Lemma lin_comb_bound (e0 e1 e2 e3 e4 e5 u0 u1 u2 u3 u4 u5 d M : R) :
  Rabs e0 <= d -> Rabs e1 <= d -> Rabs e2 <= d -> Rabs e3 <= d -> Rabs e4 <= d -> Rabs e5 <= d ->
  Rabs u0 <= M -> Rabs u1 <= M -> Rabs u2 <= M -> Rabs u3 <= M -> Rabs u4 <= M -> Rabs u5 <= M ->
  Rabs (e0 * u0 + e1 * u1 + e2 * u2 + e3 * u3 + e4 * u4 + e5 * u5) <= 6 * d * M.
Proof.
  intros. assert (P : forall e u, Rabs e <= d -> Rabs u <= M -> Rabs (e * u) <= d * M).
  { intros e u He Hu. rewrite Rabs_mult. apply Rmult_le_compat; auto using Rabs_pos. }
  pose proof (P e0 u0). pose proof (P e1 u1). pose proof (P e2 u2).
  pose proof (P e3 u3). pose proof (P e4 u4). pose proof (P e5 u5).
  pose proof (Rabs_triang (e0 * u0 + e1 * u1 + e2 * u2 + e3 * u3 + e4 * u4) (e5 * u5)).
  pose proof (Rabs_triang (e0 * u0 + e1 * u1 + e2 * u2 + e3 * u3) (e4 * u4)).
  pose proof (Rabs_triang (e0 * u0 + e1 * u1 + e2 * u2) (e3 * u3)).
  pose proof (Rabs_triang (e0 * u0 + e1 * u1) (e2 * u2)).
  pose proof (Rabs_triang (e0 * u0) (e1 * u1)).
  repeat match goal with H : ?P -> _, H' : ?P |- _ => specialize (H H') end.
  lra.
Qed.

(** Row error of the extrapolation matrix: h_inv times the matrix of shape function values. *)
Definition err_row (i : nat) (h : V6) (j : nat) : R :=
  dot6 h (col6 (fun g => nth6 (shape_n (g_eta g) (g_xi g) (g_zeta g)) j) (at_gps6 (mkGp 0 0 0 0) (fun g => g)))
  - nth6 (unit6 i) j.

Definition m6_row (m : M6) (i : nat) : V6 :=
  match i with 0 => r0 m | 1 => r1 m | 2 => r2 m | 3 => r3 m | 4 => r4 m | _ => r5 m end%nat.

Lemma err_row_small (i j : nat) : (i < 6)%nat -> (j < 6)%nat ->
  Rabs (err_row i (m6_row h_inv i) j) <= 1 / 10 ^ 14 / 3.
Proof.
  intros Hi Hj.
  pose proof g1_tight as B1. pose proof g2_tight as B2.
  assert (Q1 := fun H => sq_tight _ _ _ H B1). specialize (Q1 ltac:(lra)).
  assert (Q2 := fun H => sq_tight _ _ _ H B2). specialize (Q2 ltac:(lra)).
  set (g1 := g6_g1) in *. set (g2 := g6_g2) in *.
  set (q1 := g1 * g1) in *. set (q2 := g2 * g2) in *.
  assert (E1 : g1 * g1 = q1) by reflexivity. assert (E2 : g2 * g2 = q2) by reflexivity.
  apply Rabs_le.
  do 6 (destruct i as [|i]; [
    do 6 (destruct j as [|j]; [
      unfold err_row, at_gps6, gps6, m6_row, h_inv, col6, dot6, shape_n, unit6, nth6;
      cbn [map r0 r1 r2 r3 r4 r5 v0 v1 v2 v3 v4 v5 g_eta g_xi g_zeta Nat.eqb];
      fold g1 g2;
      replace ((1 - 2 * g2) * (2 * (1 - 2 * g2) - 1)) with (1 - 6 * g2 + 8 * q2) by (rewrite <- E2; ring);
      replace ((1 - 2 * g1) * (2 * (1 - 2 * g1) - 1)) with (1 - 6 * g1 + 8 * q1) by (rewrite <- E1; ring);
      replace (g2 * (2 * g2 - 1)) with (2 * q2 - g2) by (rewrite <- E2; ring);
      replace (g1 * (2 * g1 - 1)) with (2 * q1 - g1) by (rewrite <- E1; ring);
      replace (4 * g2 * g2) with (4 * q2) by (rewrite <- E2; ring);
      replace (4 * g1 * g1) with (4 * q1) by (rewrite <- E1; ring);
      replace (4 * (1 - 2 * g2) * g2) with (4 * g2 - 8 * q2) by (rewrite <- E2; ring);
      replace (4 * (1 - 2 * g1) * g1) with (4 * g1 - 8 * q1) by (rewrite <- E1; ring);
      replace (4 * g2 * (1 - 2 * g2)) with (4 * g2 - 8 * q2) by (rewrite <- E2; ring);
      replace (4 * g1 * (1 - 2 * g1)) with (4 * g1 - 8 * q1) by (rewrite <- E1; ring);
      clear E1 E2; clearbody q1 q2; split; lra |]); lia |]); lia.
Qed.

