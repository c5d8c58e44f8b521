(** Proofs about the results of a whole analysis of a polygon. *)
From Coq Require Import Reals List Arith Lra Lia.
From Verif Require Import Base S_Integral M_Fea S_Fem M_Section S_Section P_Geom P_Section P_Totals M_Geometry P_Geometry3 P_Library P_Library2 S_Outline.
From Verif Require Import M_Post.
Import ListNotations.
Local Open Scope R_scope.

Lemma path_sum k f m a : forall l, boundary_sum (fun _ => k) f (path_edges m a l) = k * shoelace f a l.
Proof.
  induction l as [|p l IH]; [unfold boundary_sum, sumf, Rsum; cbn; ring|]. destruct l as [|q l].
  - unfold boundary_sum, sumf, Rsum. cbn. ring.
  - change (path_edges m a (p :: q :: l)) with ((m, p, q) :: path_edges m a (q :: l)). change (shoelace f a (p :: q :: l)) with (f p q + shoelace f a (q :: l)).
    unfold boundary_sum in *. rewrite sumf_cons, IH. ring.
Qed.
Lemma ring_sum k f m l : boundary_sum (fun _ => k) f (S_Section.ring_edges m l) = k * around f l.
Proof. destruct l as [|p l]; [unfold boundary_sum, sumf, Rsum; cbn; ring|]. apply path_sum. Qed.
Lemma path_mat w f m a : forall l, boundary_sum w f (path_edges m a l) = boundary_sum (fun _ => w m) f (path_edges m a l).
Proof.
  induction l as [|p l IH]; [reflexivity|]. destruct l as [|q l]; [reflexivity|]. change (path_edges m a (p :: q :: l)) with ((m, p, q) :: path_edges m a (q :: l)). unfold boundary_sum in *. rewrite !sumf_cons, IH. reflexivity.
Qed.
Lemma ring_mat w f m l : boundary_sum w f (S_Section.ring_edges m l) = w m * around f l.
Proof. rewrite <- (ring_sum (w m) f m). destruct l as [|p l]; [reflexivity|]. apply path_mat. Qed.
Lemma around_neg f l : (forall a b, f b a = - f a b) -> around f (rev l) = - around f l.
Proof.
  intros H. rewrite around_rev. rewrite (around_ext _ (fun p q => - 1 * f p q + (fun _ _ => 0) p q)) by (intros p q; rewrite H; ring). rewrite around_lin.
  assert (Z : around (fun _ _ : pt => 0) l = 0) by (rewrite (around_ext _ (fun p q => (fun _ => 0) q - (fun _ : pt => 0) p)) by (intros; ring); apply around_tele). rewrite Z. ring.
Qed.
Lemma left_sum f l : (forall a b, f b a = - f a b) -> around f (left_ring l) = M_Geometry.orient l (around f l).
Proof. intros H. unfold left_ring, M_Geometry.orient. destruct (Rlt_dec (ring_area l) 0); [apply around_neg, H|reflexivity]. Qed.
Lemma sum_app w f a b : boundary_sum w f (a ++ b) = boundary_sum w f a + boundary_sum w f b.
Proof. unfold boundary_sum. apply sumf_app. Qed.
Lemma poly_total w f m p : (forall a b, f b a = - f a b) -> boundary_sum w f (poly_edges m p) = w m * poly_sum (around f) p.
Proof.
  intros H. unfold poly_edges, poly_sum. rewrite sum_app, ring_mat, left_sum by exact H.
  assert (E : boundary_sum w f (concat (map (fun h => S_Section.ring_edges m (rev (left_ring h))) (ints p))) = - (w m * sumf (fun h => M_Geometry.orient h (around f h)) (ints p))).
  { induction (ints p) as [|h hs IH]; [unfold boundary_sum, sumf, Rsum; cbn; ring|]. cbn [map concat]. rewrite sum_app, IH, ring_mat, around_neg, left_sum by exact H. rewrite sumf_cons. ring. }
  rewrite E. ring.
Qed.
Lemma poly_sum_scale c f g p : (forall l, f l = c * g l) -> poly_sum f p = c * poly_sum g p.
Proof.
  intros H. unfold poly_sum. assert (O : forall l, M_Geometry.orient l (f l) = c * M_Geometry.orient l (g l)) by (intros l; unfold M_Geometry.orient; rewrite H; destruct (Rlt_dec _ _); ring).
  rewrite O. assert (E : sumf (fun h => M_Geometry.orient h (f h)) (ints p) = c * sumf (fun h => M_Geometry.orient h (g h)) (ints p)).
  { induction (ints p) as [|h hs IH]; [unfold sumf, Rsum; cbn; ring|]. rewrite !sumf_cons, IH, O. ring. } rewrite E. ring.
Qed.
Lemma around_scale c f g l : (forall a b, f a b = c * g a b) -> around f l = c * around g l.
Proof.
  intros H. rewrite (around_ext f (fun p q => c * g p q + (fun _ _ => 0) p q)) by (intros; rewrite H; ring). rewrite around_lin.
  assert (Z : around (fun _ _ : pt => 0) l = 0) by (rewrite (around_ext _ (fun p q => (fun _ => 0) q - (fun _ : pt => 0) p)) by (intros; ring); apply around_tele). rewrite Z. ring.
Qed.
Lemma filled_totals els m p : fills els m p -> section_totals els =
  mkTotals (poly_area p) (m_rho m * poly_area p) (m_E m * poly_area p) (shear_modulus m * poly_area p) (m_E m * poly_my p) (m_E m * poly_mx p) (m_E m * poly_ixx p) (m_E m * poly_iyy p) (m_E m * poly_ixy p).
Proof.
  intros [V B]. rewrite (section_totals_boundary els _ V B).
  assert (A : forall a b, S_Section.cross b a = - S_Section.cross a b) by (intros; unfold S_Section.cross; ring).
  assert (EA : poly_sum (around b_area) p = poly_area p). { unfold poly_area. change (poly_sum (around b_area) p = poly_sum ring_area p). rewrite <- (Rmult_1_l (poly_sum ring_area p)). apply poly_sum_scale. intros l. unfold ring_area. rewrite (around_scale (1 / 2) b_area M_Geometry.cross) by (intros; unfold b_area, S_Section.cross, M_Geometry.cross; field). field. }
  assert (EX : poly_sum (around b_qy) p = poly_mx p). { change (poly_mx p) with (poly_sum ring_mx p). rewrite <- (Rmult_1_l (poly_sum ring_mx p)). apply poly_sum_scale. intros l. unfold ring_mx. rewrite (around_scale (1 / 6) b_qy (fun a b => (fst a + fst b) * M_Geometry.cross a b)) by (intros; unfold b_qy, S_Section.cross, M_Geometry.cross; field). field. }
  assert (EY : poly_sum (around b_qx) p = poly_my p). { change (poly_my p) with (poly_sum ring_my p). rewrite <- (Rmult_1_l (poly_sum ring_my p)). apply poly_sum_scale. intros l. unfold ring_my. rewrite (around_scale (1 / 6) b_qx (fun a b => (snd a + snd b) * M_Geometry.cross a b)) by (intros; unfold b_qx, S_Section.cross, M_Geometry.cross; field). field. }
  assert (EXX : poly_sum (around b_ixx) p = poly_ixx p). { unfold poly_ixx. rewrite <- (Rmult_1_l (poly_sum ring_ixx p)). apply poly_sum_scale. intros l. unfold ring_ixx. rewrite (around_scale (1 / 12) b_ixx (fun a b => (snd a ^ 2 + snd a * snd b + snd b ^ 2) * M_Geometry.cross a b)) by (intros; unfold b_ixx, S_Section.cross, M_Geometry.cross; field). field. }
  assert (EYY : poly_sum (around b_iyy) p = poly_iyy p). { unfold poly_iyy. rewrite <- (Rmult_1_l (poly_sum ring_iyy p)). apply poly_sum_scale. intros l. unfold ring_iyy. rewrite (around_scale (1 / 12) b_iyy (fun a b => (fst a ^ 2 + fst a * fst b + fst b ^ 2) * M_Geometry.cross a b)) by (intros; unfold b_iyy, S_Section.cross, M_Geometry.cross; field). field. }
  assert (EXY : poly_sum (around b_ixy) p = poly_ixy p). { unfold poly_ixy. rewrite <- (Rmult_1_l (poly_sum ring_ixy p)). apply poly_sum_scale. intros l. unfold ring_ixy. rewrite (around_scale (1 / 24) b_ixy (fun a b => (fst a * snd b + 2 * fst a * snd a + 2 * fst b * snd b + fst b * snd a) * M_Geometry.cross a b)) by (intros; unfold b_ixy, S_Section.cross, M_Geometry.cross; field). field. }
  rewrite !poly_total by (intros a b; unfold b_area, b_qx, b_qy, b_ixx, b_iyy, b_ixy; rewrite (A a b); field). unfold one_w. rewrite EA, EX, EY, EXX, EYY, EXY, Rmult_1_l. reflexivity.
Qed.
Lemma filled_centroidal els m p : fills els m p -> m_E m = 1 -> poly_area p <> 0 -> let c := centroidal_of (section_totals els) in
  p_cx c = fst (poly_centroid p) /\ p_cy c = snd (poly_centroid p) /\ p_ixx_c c = poly_ixx_c p /\ p_iyy_c c = poly_iyy_c p /\ p_ixy_c c = poly_ixy_c p.
Proof.
  intros F E N c. unfold c. rewrite (filled_totals els m p F), E. unfold centroidal_of. cbn [t_area t_mass t_ea t_ga t_qx t_qy t_ixx_g t_iyy_g t_ixy_g p_cx p_cy p_ixx_c p_iyy_c p_ixy_c].
  unfold poly_ixx_c, poly_iyy_c, poly_ixy_c, poly_centroid. cbn [fst snd]. repeat split; field; exact N.
Qed.
