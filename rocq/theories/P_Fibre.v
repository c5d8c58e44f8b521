(** Proofs about the export of fibre sections: numbers. *)
From Coquelicot Require Import Coquelicot.
From Coq Require Import Reals String List Bool Arith ZArith Lra Lia.
From Verif Require Import Base S_Integral M_Fea S_Fem S_Section M_Section M_Init S_Init P_Init M_Solver P_Integral P_Elem P_Plastic P_Stress2 P_Shape M_Fibre S_Fibre.
Import ListNotations.
Local Open Scope R_scope.

Lemma tri_int_affine a b c al be ga : tri_int a b c (fun x y => al + be * x + ga * y) = Rabs (orient a b c) / 2 * (al + be * ((fst a + fst b + fst c) / 3) + ga * ((snd a + snd b + snd c) / 3)).
Proof.
  unfold tri_int. rewrite (simplex_int_ext _ (fun s t => (al + be * fst a + ga * snd a) + (be * (fst b - fst a) + ga * (snd b - snd a)) * s + (be * (fst c - fst a) + ga * (snd c - snd a)) * t)) by (intros; ring).
  rewrite simplex_int_affine. field.
Qed.
Lemma tri_int_quad a b c k0 k1 k2 k3 k4 k5 : tri_int a b c (quad k0 k1 k2 k3 k4 k5) =
  Rabs (orient a b c) / 2 * (k0 + k1 * ((fst a + fst b + fst c) / 3) + k2 * ((snd a + snd b + snd c) / 3)
    + k3 * ((fst a ^ 2 + fst b ^ 2 + fst c ^ 2 + (fst a + fst b + fst c) ^ 2) / 12)
    + k4 * ((fst a * snd a + fst b * snd b + fst c * snd c + (fst a + fst b + fst c) * (snd a + snd b + snd c)) / 12)
    + k5 * ((snd a ^ 2 + snd b ^ 2 + snd c ^ 2 + (snd a + snd b + snd c) ^ 2) / 12)).
Proof.
  destruct a as [xa ya], b as [xb yb], c as [xc yc]. unfold tri_int. cbn [fst snd].
  rewrite (simplex_int_ext _ (P4 (quad k0 k1 k2 k3 k4 k5 xa ya)
    (k1 * (xb - xa) + k2 * (yb - ya) + 2 * k3 * xa * (xb - xa) + k4 * (xa * (yb - ya) + ya * (xb - xa)) + 2 * k5 * ya * (yb - ya))
    (k1 * (xc - xa) + k2 * (yc - ya) + 2 * k3 * xa * (xc - xa) + k4 * (xa * (yc - ya) + ya * (xc - xa)) + 2 * k5 * ya * (yc - ya))
    (k3 * (xb - xa) ^ 2 + k4 * (xb - xa) * (yb - ya) + k5 * (yb - ya) ^ 2)
    (2 * k3 * (xb - xa) * (xc - xa) + k4 * ((xb - xa) * (yc - ya) + (xc - xa) * (yb - ya)) + 2 * k5 * (yb - ya) * (yc - ya))
    (k3 * (xc - xa) ^ 2 + k4 * (xc - xa) * (yc - ya) + k5 * (yc - ya) ^ 2) 0 0 0 0 0 0 0 0 0)).
  2:{ intros s t. unfold P4, quad. ring. }
  rewrite simplex_int_P4. unfold simplex_val, quad. field.
Qed.
Lemma straight_j el a b c w eta xi zeta : straight el a b c -> eta + xi + zeta = 1 -> sh_j (shape_function (el_x el) (el_y el) (mkGp w eta xi zeta)) = orient a b c / 2.
Proof.
  intros [-> ->] H. unfold shape_function, jac, det3, orient, b_iso0, b_iso1, b_iso2, side_nodes, dot6. cbn [sh_j g_eta g_xi g_zeta]. cbn. replace zeta with (1 - eta - xi) by lra. field.
Qed.
Lemma cell_lumps ele omega : valid_el (e_tri ele) -> lumps (e_tri ele) (new_cell ele omega) /\ c_y (new_cell ele omega) = fst (el_point (e_tri ele) (1 / 3) (1 / 3) (1 / 3)) /\ c_z (new_cell ele omega) = snd (el_point (e_tri ele) (1 / 3) (1 / 3) (1 / 3)).
Proof.
  intros [S O]. set (el := e_tri ele) in *. assert (C : c_area (new_cell ele omega) = orient (corner_a el) (corner_b el) (corner_c el) / 2 /\ c_y (new_cell ele omega) = (v0 (el_x el) + v1 (el_x el) + v2 (el_x el)) / 3 /\ c_z (new_cell ele omega) = (v0 (el_y el) + v1 (el_y el) + v2 (el_y el)) / 3).
  { unfold new_cell. fold el. rewrite <- (straight_j el _ _ _ 0 (1 / 3) (1 / 3) (1 / 3) S ltac:(lra)). destruct omega; repeat split. }
  unfold lumps. destruct C as (-> & -> & ->). split; [|unfold el_point, corner_a, corner_b, corner_c; cbn [fst snd]; split; lra].
  unfold el_int. rewrite (tri_int_ext _ _ _ (fun _ _ => 1) (fun x y => 1 + 0 * x + 0 * y)), (tri_int_ext _ _ _ (fun x _ => x) (fun x y => 0 + 1 * x + 0 * y)), (tri_int_ext _ _ _ (fun _ y => y) (fun x y => 0 + 0 * x + 1 * y)) by (intros; ring).
  rewrite !tri_int_affine, Rabs_pos_eq by lra. unfold corner_a, corner_b, corner_c. cbn [fst snd]. repeat split; field.
Qed.

(** Every six values at the nodes are those of a quadratic function. *)
Definition is_quad (f : R -> R -> R) : Prop := exists k0 k1 k2 k3 k4 k5, forall x y, f x y = quad k0 k1 k2 k3 k4 k5 x y.
Lemma quad_mul (a b : R * R * R) : is_quad (fun x y => (fst (fst a) + snd (fst a) * x + snd a * y) * (fst (fst b) + snd (fst b) * x + snd b * y)).
Proof.
  destruct a as [[a0 a1] a2], b as [[b0 b1] b2]. cbn [fst snd]. exists (a0 * b0), (a0 * b1 + a1 * b0), (a0 * b2 + a2 * b0), (a1 * b1), (a1 * b2 + a2 * b1), (a2 * b2). intros x y. unfold quad. ring.
Qed.
Lemma quad_comb k f g : is_quad f -> is_quad g -> is_quad (fun x y => k * f x y + g x y).
Proof.
  intros (a0 & a1 & a2 & a3 & a4 & a5 & A) (b0 & b1 & b2 & b3 & b4 & b5 & B). exists (k * a0 + b0), (k * a1 + b1), (k * a2 + b2), (k * a3 + b3), (k * a4 + b4), (k * a5 + b5). intros x y. rewrite A, B. unfold quad. ring.
Qed.
Lemma quad_ext f g : (forall x y, f x y = g x y) -> is_quad f -> is_quad g.
Proof. intros E (a0 & a1 & a2 & a3 & a4 & a5 & A). exists a0, a1, a2, a3, a4, a5. intros x y. rewrite <- E. apply A. Qed.
Lemma quad_zero : is_quad (fun _ _ => 0).
Proof. exists 0, 0, 0, 0, 0, 0. intros. unfold quad. ring. Qed.
Section Interpolant.
Variables (el : tri6) (u : V6).
Hypothesis V : valid_el el.
Let a := corner_a el. Let b := corner_b el. Let c := corner_c el. Let D := orient a b c.
Definition area_eta (x y : R) : R := orient (x, y) b c / D.
Definition area_xi (x y : R) : R := orient a (x, y) c / D.
Definition area_zeta (x y : R) : R := orient a b (x, y) / D.
Definition interpolant (x y : R) : R := dot6 (shape_n (area_eta x y) (area_xi x y) (area_zeta x y)) u.
Lemma affine_of f : (exists t, forall x y, f x y = fst (fst t) + snd (fst t) * x + snd t * y) -> forall g, (exists t, forall x y, g x y = fst (fst t) + snd (fst t) * x + snd t * y) -> is_quad (fun x y => f x y * g x y).
Proof. intros [t T] g [r E]. eapply quad_ext; [|apply (quad_mul t r)]. intros x y. rewrite T, E. reflexivity. Qed.
Lemma interpolant_quad : is_quad interpolant.
Proof.
  destruct V as [_ O]. fold a b c D in O.
  assert (E : exists t, forall x y, area_eta x y = fst (fst t) + snd (fst t) * x + snd t * y). { exists ((fst b * snd c - fst c * snd b) / D, (snd b - snd c) / D, (fst c - fst b) / D). intros. unfold area_eta. unfold orient at 1. cbn [fst snd]. field. lra. }
  assert (X : exists t, forall x y, area_xi x y = fst (fst t) + snd (fst t) * x + snd t * y). { exists ((fst c * snd a - fst a * snd c) / D, (snd c - snd a) / D, (fst a - fst c) / D). intros. unfold area_xi. unfold orient at 1. cbn [fst snd]. field. lra. }
  assert (Z : exists t, forall x y, area_zeta x y = fst (fst t) + snd (fst t) * x + snd t * y). { exists ((fst a * snd b - fst b * snd a) / D, (snd a - snd b) / D, (fst b - fst a) / D). intros. unfold area_zeta. unfold orient at 1. cbn [fst snd]. field. lra. }
  assert (dbl : forall f, (exists t, forall x y, f x y = fst (fst t) + snd (fst t) * x + snd t * y) -> exists t, forall x y, 2 * f x y - 1 = fst (fst t) + snd (fst t) * x + snd t * y).
  { intros f [t T]. exists (2 * fst (fst t) - 1, 2 * snd (fst t), 2 * snd t). intros x y. rewrite T. cbn [fst snd]. ring. }
  pose proof (quad_comb (v0 u) _ _ (affine_of _ E _ (dbl _ E))  quad_zero) as Q0.
  pose proof (quad_comb (v1 u) _ _ (affine_of _ X _ (dbl _ X)) Q0) as Q1. pose proof (quad_comb (v2 u) _ _ (affine_of _ Z _ (dbl _ Z)) Q1) as Q2.
  pose proof (quad_comb (4 * v3 u) _ _ (affine_of _ E _ X) Q2) as Q3. pose proof (quad_comb (4 * v4 u) _ _ (affine_of _ X _ Z) Q3) as Q4. pose proof (quad_comb (4 * v5 u) _ _ (affine_of _ E _ Z) Q4) as Q5.
  eapply quad_ext; [|exact Q5]. intros x y. unfold interpolant, shape_n, dot6. cbn [v0 v1 v2 v3 v4 v5]. ring.
Qed.
Lemma interpolant_nodal : nodal interpolant el = u.
Proof.
  destruct V as [[Sx Sy] O]. fold a b c in Sx, Sy. fold a b c D in O. unfold nodal. rewrite Sx, Sy. unfold side_nodes, zip6. cbn [v0 v1 v2 v3 v4 v5].
  assert (K : forall x y e f g, e + f + g = 1 -> x = e * fst a + f * fst b + g * fst c -> y = e * snd a + f * snd b + g * snd c -> interpolant x y = dot6 (shape_n e f g) u).
  { intros x y e f g S -> ->. unfold interpolant.
    replace (area_eta _ _) with e by (unfold area_eta; replace f with (1 - e - g) by lra; unfold orient at 1; cbn [fst snd]; apply (Rmult_eq_reg_r D); [|lra]; field_simplify; [unfold D, orient; ring|lra]).
    replace (area_xi _ _) with f by (unfold area_xi; replace e with (1 - f - g) by lra; unfold orient at 1; cbn [fst snd]; apply (Rmult_eq_reg_r D); [|lra]; field_simplify; [unfold D, orient; ring|lra]).
    replace (area_zeta _ _) with g by (unfold area_zeta; replace e with (1 - f - g) by lra; unfold orient at 1; cbn [fst snd]; apply (Rmult_eq_reg_r D); [|lra]; field_simplify; [unfold D, orient; ring|lra]). reflexivity. }
  rewrite (K (fst a) (snd a) 1 0 0), (K (fst b) (snd b) 0 1 0), (K (fst c) (snd c) 0 0 1), (K ((fst a + fst b) / 2) ((snd a + snd b) / 2) (1 / 2) (1 / 2) 0), (K ((fst b + fst c) / 2) ((snd b + snd c) / 2) 0 (1 / 2) (1 / 2)), (K ((fst a + fst c) / 2) ((snd a + snd c) / 2) (1 / 2) 0 (1 / 2)) by lra.
  unfold shape_n, dot6. destruct u as [u0 u1 u2 u3 u4 u5]. cbn [v0 v1 v2 v3 v4 v5]. f_equal; lra.
Qed.
End Interpolant.
Lemma nodal_ext f g el : (forall x y, f x y = g x y) -> nodal f el = nodal g el.
Proof. intros E. unfold nodal, zip6. rewrite !E. reflexivity. Qed.
Lemma dot6_comm u v : dot6 u v = dot6 v u. Proof. unfold dot6. ring. Qed.
Lemma cell_warps ele u : valid_el (e_tri ele) -> warps (e_tri ele) u (new_cell ele (Some u)).
Proof.
  intros V. set (el := e_tri ele) in *. destruct (interpolant_quad el (gather u (el_ids el)) V) as (k0 & k1 & k2 & k3 & k4 & k5 & Q). exists k0, k1, k2, k3, k4, k5. cbv zeta.
  assert (N : nodal (quad k0 k1 k2 k3 k4 k5) el = gather u (el_ids el)). { transitivity (nodal (interpolant el (gather u (el_ids el))) el); [apply nodal_ext; intros; symmetry; apply Q|apply interpolant_nodal, V]. }
  split; [exact N|]. destruct V as [S O]. assert (O' : orient (corner_a el) (corner_b el) (corner_c el) <> 0) by lra.
  pose proof (interp_value el _ _ _ S O' 0 (1 / 3) (1 / 3) (1 / 3) ltac:(lra) k0 k1 k2 k3 k4 k5) as IV. pose proof (interp_dx el _ _ _ S O' 0 (1 / 3) (1 / 3) (1 / 3) ltac:(lra) k0 k1 k2 k3 k4 k5) as DX. pose proof (interp_dy el _ _ _ S O' 0 (1 / 3) (1 / 3) (1 / 3) ltac:(lra) k0 k1 k2 k3 k4 k5) as DY.
  rewrite N in IV, DX, DY. destruct (cell_lumps ele (Some u) (conj S O)) as (_ & Y & Z). fold el in Y, Z.
  assert (W : c_omega (new_cell ele (Some u)) = dot6 (sh_n (shape_function (el_x el) (el_y el) (mkGp 0 (1 / 3) (1 / 3) (1 / 3)))) (gather u (el_ids el))) by (rewrite dot6_comm; reflexivity).
  assert (PY : c_py (new_cell ele (Some u)) = dot6 (sh_b0 (shape_function (el_x el) (el_y el) (mkGp 0 (1 / 3) (1 / 3) (1 / 3)))) (gather u (el_ids el))) by reflexivity.
  assert (PZ : c_pz (new_cell ele (Some u)) = dot6 (sh_b1 (shape_function (el_x el) (el_y el) (mkGp 0 (1 / 3) (1 / 3) (1 / 3)))) (gather u (el_ids el))) by reflexivity.
  rewrite W, PY, PZ, IV, DX, DY, Y, Z. split; [reflexivity|]. split; [apply quad_dx|apply quad_dy].
Qed.
