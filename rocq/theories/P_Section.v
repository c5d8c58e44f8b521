(** Section totals: sums over the elements, maps of the plane, boundaries. *)
From Coq Require Import Reals List Lra Lia Permutation ZArith.
From Coquelicot Require Import Coquelicot.
From Verif Require Import Base S_Integral M_Fea S_Fem M_Post S_Section P_Integral P_Fea P_Geom.
Import ListNotations.
Local Open Scope R_scope.

(** ** sumf *)

Lemma sumf_nil {A : Type} (f : A -> R) : sumf f [] = 0. Proof. reflexivity. Qed.
Lemma sumf_app {A : Type} (f : A -> R) (l l' : list A) : sumf f (l ++ l') = sumf f l + sumf f l'.
Proof. induction l; cbn [app]; rewrite ?sumf_nil, ?sumf_cons; [ring|]. rewrite IHl. ring. Qed.
Lemma sumf_plus {A : Type} (f g : A -> R) (l : list A) :
  sumf (fun x => f x + g x) l = sumf f l + sumf g l.
Proof. induction l; rewrite ?sumf_nil, ?sumf_cons; [ring|]. rewrite IHl. ring. Qed.
Lemma sumf_perm {A : Type} (f : A -> R) (l l' : list A) : Permutation l l' -> sumf f l = sumf f l'.
Proof. induction 1; rewrite ?sumf_cons; try lra; try congruence. Qed.
Lemma sumf_map {A B : Type} (f : B -> R) (g : A -> B) (l : list A) :
  sumf f (map g l) = sumf (fun x => f (g x)) l.
Proof. unfold sumf. rewrite map_map. reflexivity. Qed.
Lemma sumf_nonneg {A : Type} (f : A -> R) (l : list A) : (forall x, In x l -> 0 <= f x) -> 0 <= sumf f l.
Proof.
  induction l; intros H; rewrite ?sumf_nil, ?sumf_cons; [lra|].
  pose proof (H a (or_introl eq_refl)). specialize (IHl (fun x Hx => H x (or_intror Hx))). lra.
Qed.
Lemma sumf_pos {A : Type} (f : A -> R) (l : list A) : l <> [] -> (forall x, In x l -> 0 < f x) -> 0 < sumf f l.
Proof.
  destruct l as [|a l]; [congruence|]. intros _ H. rewrite sumf_cons.
  pose proof (H a (or_introl eq_refl)).
  pose proof (sumf_nonneg f l (fun x Hx => Rlt_le _ _ (H x (or_intror Hx)))). lra.
Qed.
Lemma sumf_le {A : Type} (f g : A -> R) (l : list A) : (forall x, In x l -> f x <= g x) -> sumf f l <= sumf g l.
Proof.
  induction l; intros H; rewrite ?sumf_nil, ?sumf_cons; [lra|].
  pose proof (H a (or_introl eq_refl)). specialize (IHl (fun x Hx => H x (or_intror Hx))). lra.
Qed.
Lemma sumf_concat {A : Type} (f : A -> R) (l : list (list A)) :
  sumf f (concat l) = sumf (fun x => sumf f x) l.
Proof. induction l; cbn [concat]; rewrite ?sumf_nil, ?sumf_cons; [reflexivity|]. rewrite sumf_app, IHl. ring. Qed.

(** ** Element quadrature of a function of position, for an arbitrary element. *)

Definition el_qr (el : tri6) (gps : list gp) (f : R -> R -> R) : R :=
  sumf (fun g => let s := shape_function (el_x el) (el_y el) g in
                 g_w g * sh_j s * f (sh_nx s) (sh_ny s)) gps.
Definition el_q (el : tri6) (f : R -> R -> R) : R := el_qr el gps4 f.

Lemma el_qr_cons (el : tri6) (g : gp) (gps : list gp) (f : R -> R -> R) :
  el_qr el (g :: gps) f =
  (let s := shape_function (el_x el) (el_y el) g in g_w g * sh_j s * f (sh_nx s) (sh_ny s)) + el_qr el gps f.
Proof. reflexivity. Qed.

Lemma geometric_fold_q (el : tri6) (gps : list gp) : forall acc,
  fold_left
    (fun acc g =>
       let s := shape_function (el_x el) (el_y el) g in
       let weight := g_w g * sh_j s in
       mkGeomOut
         (ge_area acc + weight)
         (ge_qx acc + weight * sh_ny s)
         (ge_qy acc + weight * sh_nx s)
         (ge_ixx acc + weight * (sh_ny s) ^ 2)
         (ge_iyy acc + weight * (sh_nx s) ^ 2)
         (ge_ixy acc + weight * sh_ny s * sh_nx s)
         (ge_e acc) (ge_g acc) (ge_rho acc)) gps acc =
  mkGeomOut (ge_area acc + el_qr el gps (fun _ _ => 1)) (ge_qx acc + el_qr el gps (fun _ y => y))
    (ge_qy acc + el_qr el gps (fun x _ => x)) (ge_ixx acc + el_qr el gps (fun _ y => y * y))
    (ge_iyy acc + el_qr el gps (fun x _ => x * x)) (ge_ixy acc + el_qr el gps (fun x y => x * y))
    (ge_e acc) (ge_g acc) (ge_rho acc).
Proof.
  induction gps as [|g gps IH]; intros acc.
  - cbn [fold_left]. unfold el_qr, sumf, Rsum. cbn [map fold_right].
    destruct acc; cbn. f_equal; ring.
  - cbn [fold_left]. rewrite IH. rewrite !el_qr_cons. cbv zeta.
    set (s := shape_function (el_x el) (el_y el) g). clearbody s.
    cbn [ge_area ge_qx ge_qy ge_ixx ge_iyy ge_ixy ge_e ge_g ge_rho].
    f_equal; ring.
Qed.

Lemma geometric_properties_q (el : tri6) :
  geometric_properties el =
  mkGeomOut (el_q el (fun _ _ => 1)) (el_q el (fun _ y => y)) (el_q el (fun x _ => x))
    (el_q el (fun _ y => y * y)) (el_q el (fun x _ => x * x)) (el_q el (fun x y => x * y))
    (m_E (el_mat el)) (shear_modulus (el_mat el)) (m_rho (el_mat el)).
Proof.
  unfold geometric_properties. rewrite geometric_fold_q.
  cbn [ge_area ge_qx ge_qy ge_ixx ge_iyy ge_ixy ge_e ge_g ge_rho].
  change (el_qr el gps4) with (el_q el). f_equal; ring.
Qed.

Lemma el_q_valid (el : tri6) (f : R -> R -> R) : valid_el el -> el_q el f = el_q4 el f.
Proof.
  intros Hv. unfold el_q, el_qr, el_q4. apply sumf_ext. intros g Hg. cbv zeta.
  rewrite (valid_shape el Hv g (gps4_sum1 g Hg)). cbn [sh_j sh_nx sh_ny]. reflexivity.
Qed.

Lemma el_q_exact (el : tri6) (f : R -> R -> R) : valid_el el -> poly_deg 3 f -> el_q el f = el_int el f.
Proof. intros Hv Hf. rewrite el_q_valid by exact Hv. apply el_q4_exact; assumption. Qed.

Lemma el_q_ext (el : tri6) (f g : R -> R -> R) : (forall x y, f x y = g x y) -> el_q el f = el_q el g.
Proof. intros H. apply sumf_ext. intros. cbv zeta. rewrite H. reflexivity. Qed.
Lemma el_q_plus (el : tri6) (f g : R -> R -> R) : el_q el (fun x y => f x y + g x y) = el_q el f + el_q el g.
Proof. unfold el_q, el_qr. rewrite <- sumf_plus. apply sumf_ext. intros. cbv zeta. ring. Qed.
Lemma el_q_scal (el : tri6) (k : R) (f : R -> R -> R) : el_q el (fun x y => k * f x y) = k * el_q el f.
Proof. unfold el_q, el_qr. rewrite <- sumf_scal. apply sumf_ext. intros. cbv zeta. ring. Qed.

(** ** Totals *)

(** E-weighted (or otherwise weighted) mesh quadrature. *)
Definition mesh_q (w : material -> R) (f : R -> R -> R) (els : list tri6) : R :=
  sumf (fun el => w (el_mat el) * el_q el f) els.

Definition one_w (m : material) : R := 1.

Lemma totals_fold (els : list tri6) : forall t,
  fold_left add_element els t =
  mkTotals (t_area t + mesh_q one_w (fun _ _ => 1) els) (t_mass t + mesh_q m_rho (fun _ _ => 1) els)
    (t_ea t + mesh_q m_E (fun _ _ => 1) els) (t_ga t + mesh_q shear_modulus (fun _ _ => 1) els)
    (t_qx t + mesh_q m_E (fun _ y => y) els) (t_qy t + mesh_q m_E (fun x _ => x) els)
    (t_ixx_g t + mesh_q m_E (fun _ y => y * y) els) (t_iyy_g t + mesh_q m_E (fun x _ => x * x) els)
    (t_ixy_g t + mesh_q m_E (fun x y => x * y) els).
Proof.
  induction els as [|el els IH]; intros t.
  - cbn [fold_left]. unfold mesh_q. rewrite !sumf_nil. destruct t; cbn. f_equal; ring.
  - cbn [fold_left]. rewrite IH. unfold mesh_q. rewrite !sumf_cons. unfold add_element, one_w.
    rewrite geometric_properties_q. cbn.
    f_equal; ring.
Qed.

Lemma section_totals_q (els : list tri6) :
  section_totals els =
  mkTotals (mesh_q one_w (fun _ _ => 1) els) (mesh_q m_rho (fun _ _ => 1) els)
    (mesh_q m_E (fun _ _ => 1) els) (mesh_q shear_modulus (fun _ _ => 1) els)
    (mesh_q m_E (fun _ y => y) els) (mesh_q m_E (fun x _ => x) els)
    (mesh_q m_E (fun _ y => y * y) els) (mesh_q m_E (fun x _ => x * x) els)
    (mesh_q m_E (fun x y => x * y) els).
Proof.
  unfold section_totals. rewrite totals_fold. unfold zero_totals.
  cbn [t_area t_mass t_ea t_ga t_qx t_qy t_ixx_g t_iyy_g t_ixy_g]. f_equal; ring.
Qed.

Lemma mesh_q_ext (w : material -> R) (f g : R -> R -> R) (els : list tri6) :
  (forall x y, f x y = g x y) -> mesh_q w f els = mesh_q w g els.
Proof. intros H. apply sumf_ext. intros. f_equal. apply el_q_ext, H. Qed.
Lemma mesh_q_plus (w : material -> R) (f g : R -> R -> R) (els : list tri6) :
  mesh_q w (fun x y => f x y + g x y) els = mesh_q w f els + mesh_q w g els.
Proof. unfold mesh_q. rewrite <- sumf_plus. apply sumf_ext. intros. rewrite el_q_plus. ring. Qed.
Lemma mesh_q_scal (w : material -> R) (k : R) (f : R -> R -> R) (els : list tri6) :
  mesh_q w (fun x y => k * f x y) els = k * mesh_q w f els.
Proof. unfold mesh_q. rewrite <- sumf_scal. apply sumf_ext. intros. rewrite el_q_scal. ring. Qed.

Lemma mesh_q_exact (w : material -> R) (f : R -> R -> R) (els : list tri6) :
  valid_mesh els -> poly_deg 3 f -> mesh_q w f els = mesh_int w f els.
Proof.
  intros Hv Hf. apply sumf_ext. intros el Hel. rewrite el_q_exact; auto.
Qed.

(** Second degree expressions: mesh quadrature of a quadratic is the combination of the totals. *)
Lemma el_qr_quad (el : tri6) (gps : list gp) (k0 k1 k2 k3 k4 k5 : R) :
  el_qr el gps (quad k0 k1 k2 k3 k4 k5) =
  k0 * el_qr el gps (fun _ _ => 1) + k1 * el_qr el gps (fun x _ => x) + k2 * el_qr el gps (fun _ y => y)
  + k3 * el_qr el gps (fun x _ => x * x) + k4 * el_qr el gps (fun x y => x * y)
  + k5 * el_qr el gps (fun _ y => y * y).
Proof.
  induction gps as [|g gps IH].
  - unfold el_qr. rewrite !sumf_nil. ring.
  - rewrite !el_qr_cons, IH. cbv zeta. set (s := shape_function _ _ _). clearbody s. unfold quad. ring.
Qed.

Lemma mesh_q_quad (w : material -> R) (els : list tri6) (k0 k1 k2 k3 k4 k5 : R) :
  mesh_q w (quad k0 k1 k2 k3 k4 k5) els =
  k0 * mesh_q w (fun _ _ => 1) els + k1 * mesh_q w (fun x _ => x) els + k2 * mesh_q w (fun _ y => y) els
  + k3 * mesh_q w (fun x _ => x * x) els + k4 * mesh_q w (fun x y => x * y) els
  + k5 * mesh_q w (fun _ y => y * y) els.
Proof.
  induction els as [|el els IH]; unfold mesh_q in *.
  - rewrite !sumf_nil. ring.
  - rewrite !sumf_cons, IH. unfold el_q. rewrite el_qr_quad. ring.
Qed.

Lemma poly3_1 : poly_deg 3 (fun _ _ => 1). Proof. apply poly_c. Qed.
Lemma poly3_x : poly_deg 3 (fun x _ => x). Proof. apply (poly_weaken 1); [apply poly_x|lia]. Qed.
Lemma poly3_y : poly_deg 3 (fun _ y => y). Proof. apply (poly_weaken 1); [apply poly_y|lia]. Qed.
Lemma poly3_xx : poly_deg 3 (fun x _ => x * x).
Proof. apply (poly_weaken 2); [apply (poly_mul 1 1); apply poly_x|lia]. Qed.
Lemma poly3_yy : poly_deg 3 (fun _ y => y * y).
Proof. apply (poly_weaken 2); [apply (poly_mul 1 1); apply poly_y|lia]. Qed.
Lemma poly3_xy : poly_deg 3 (fun x y => x * y).
Proof. apply (poly_weaken 2); [apply (poly_mul 1 1 (fun x _ => x) (fun _ y => y)); [apply poly_x|apply poly_y]|lia]. Qed.
Lemma poly3_quad k0 k1 k2 k3 k4 k5 : poly_deg 3 (quad k0 k1 k2 k3 k4 k5).
Proof. apply (poly_weaken 2); [apply poly_quad|lia]. Qed.

(** ** Affine maps of the plane *)

Lemma sum6_shape_n (g : gp) : g_eta g + g_xi g + g_zeta g = 1 ->
  sum6 (shape_n (g_eta g) (g_xi g) (g_zeta g)) = 1.
Proof.
  intros H. unfold sum6, shape_n. cbn [v0 v1 v2 v3 v4 v5].
  replace (g_zeta g) with (1 - g_eta g - g_xi g) by lra. ring.
Qed.

Section Affine.
Context (ax bx ex ay by' ey : R).
Let F := map_el (fun x y => ax * x + bx * y + ex) (fun x y => ay * x + by' * y + ey).

Lemma affine_dot (n xs ys : V6) (a b e : R) :
  dot6 (zip6 (fun x y => a * x + b * y + e) xs ys) n = a * dot6 xs n + b * dot6 ys n + e * sum6 n.
Proof. unfold dot6, zip6, sum6. cbn [v0 v1 v2 v3 v4 v5]. ring. Qed.

Lemma affine_dot' (n xs ys : V6) (a b e : R) :
  dot6 n (zip6 (fun x y => a * x + b * y + e) xs ys) = a * dot6 n xs + b * dot6 n ys + e * sum6 n.
Proof. unfold dot6, zip6, sum6. cbn [v0 v1 v2 v3 v4 v5]. ring. Qed.

Lemma affine_j (el : tri6) (g : gp) : g_eta g + g_xi g + g_zeta g = 1 ->
  sh_j (shape_function (el_x (F el)) (el_y (F el)) g) =
  (ax * by' - ay * bx) * sh_j (shape_function (el_x el) (el_y el) g).
Proof.
  intros H. unfold shape_function, F, map_el. cbn [sh_j el_x el_y].
  unfold det3, jac. cbn [j00 j01 j02 j10 j11 j12 j20 j21 j22].
  rewrite !affine_dot'.
  assert (S0 : sum6 (b_iso0 (g_eta g) (g_xi g) (g_zeta g)) = 3)
    by (unfold sum6, b_iso0; cbn [v0 v1 v2 v3 v4 v5]; lra).
  assert (S1 : sum6 (b_iso1 (g_eta g) (g_xi g) (g_zeta g)) = 3)
    by (unfold sum6, b_iso1; cbn [v0 v1 v2 v3 v4 v5]; lra).
  assert (S2 : sum6 (b_iso2 (g_eta g) (g_xi g) (g_zeta g)) = 3)
    by (unfold sum6, b_iso2; cbn [v0 v1 v2 v3 v4 v5]; lra).
  rewrite S0, S1, S2. ring.
Qed.

Lemma affine_n (el : tri6) (g : gp) : g_eta g + g_xi g + g_zeta g = 1 ->
  let s := shape_function (el_x el) (el_y el) g in
  sh_nx (shape_function (el_x (F el)) (el_y (F el)) g) = ax * sh_nx s + bx * sh_ny s + ex /\
  sh_ny (shape_function (el_x (F el)) (el_y (F el)) g) = ay * sh_nx s + by' * sh_ny s + ey.
Proof.
  intros H. unfold shape_function, F, map_el. cbn [sh_nx sh_ny el_x el_y].
  rewrite !affine_dot. rewrite (sum6_shape_n g H). split; ring.
Qed.

Lemma affine_el_q (el : tri6) (f : R -> R -> R) :
  el_q (F el) f = (ax * by' - ay * bx) * el_q el (fun x y => f (ax * x + bx * y + ex) (ay * x + by' * y + ey)).
Proof.
  unfold el_q, el_qr. rewrite <- sumf_scal. apply sumf_ext. intros g Hg. cbv zeta.
  destruct (affine_n el g (gps4_sum1 g Hg)) as [E1 E2]. cbv zeta in E1, E2.
  rewrite E1, E2, affine_j by (apply gps4_sum1, Hg). ring.
Qed.

Lemma affine_mesh_q (w : material -> R) (els : list tri6) (f : R -> R -> R) :
  mesh_q w f (map F els) =
  (ax * by' - ay * bx) * mesh_q w (fun x y => f (ax * x + bx * y + ex) (ay * x + by' * y + ey)) els.
Proof.
  unfold mesh_q. rewrite sumf_map, <- sumf_scal. apply sumf_ext. intros el _.
  rewrite affine_el_q. unfold F, map_el. cbn [el_mat]. ring.
Qed.
End Affine.

(** Flipping the node order negates the quadrature. *)
Lemma flip_el_q (el : tri6) (f : R -> R -> R) : el_q (flip_el el) f = - el_q el f.
Proof.
  unfold el_q, el_qr.
  assert (E : forall w e x z,
    let s := shape_function (el_x (flip_el el)) (el_y (flip_el el)) (mkGp w e x z) in
    let s' := shape_function (el_x el) (el_y el) (mkGp w e z x) in
    sh_j s = - sh_j s' /\ sh_nx s = sh_nx s' /\ sh_ny s = sh_ny s').
  { intros. unfold s, s', shape_function. cbn [sh_j sh_nx sh_ny g_eta g_xi g_zeta].
    unfold det3, jac. cbn [j00 j01 j02 j10 j11 j12 j20 j21 j22].
    unfold flip_el, flip6, dot6, b_iso0, b_iso1, b_iso2, shape_n. cbn [el_x el_y v0 v1 v2 v3 v4 v5].
    repeat split; ring. }
  unfold gps4. rewrite !sumf_cons, !sumf_nil. cbv zeta.
  repeat match goal with |- context [shape_function (el_x (flip_el el)) (el_y (flip_el el)) (mkGp ?w ?e ?x ?z)] =>
    let H1 := fresh in let H2 := fresh in let H3 := fresh in
    destruct (E w e x z) as [H1 [H2 H3]]; rewrite H1, H2, H3; clear H1 H2 H3 end.
  cbn [g_w]. ring.
Qed.

Lemma flip_mesh_q (w : material -> R) (els : list tri6) (f : R -> R -> R) :
  mesh_q w f (map flip_el els) = - mesh_q w f els.
Proof.
  unfold mesh_q. rewrite sumf_map. transitivity (sumf (fun el => -1 * (w (el_mat el) * el_q el f)) els).
  - apply sumf_ext. intros el _. rewrite flip_el_q. cbn [flip_el el_mat]. ring.
  - rewrite sumf_scal. ring.
Qed.
