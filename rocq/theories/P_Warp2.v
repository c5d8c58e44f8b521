(** Warping: fields on a mesh, weak form of the bordered system, energy. *)
From Coq Require Import Reals List Lra Lia.
From Coquelicot Require Import Coquelicot.
From Verif Require Import Base S_Integral M_Fea S_Fem M_Post M_Section S_Section S_Post S_Warp
  P_Integral P_Fea P_Geom P_Elem P_Section P_Totals P_Post P_Yield P_Warp.
Import ListNotations.
Local Open Scope R_scope.

Definition sum1 (g : gp) : Prop := g_eta g + g_xi g + g_zeta g = 1.

Lemma sum1_loc s t : sum1 (loc s t).
Proof. unfold sum1, loc. cbn [g_eta g_xi g_zeta]. ring. Qed.

(** ** Fields that are affine in the area coordinates *)

Definition lin3 (F : gp -> R) : Prop :=
  exists a b c, forall g, sum1 g -> F g = a * g_eta g + b * g_xi g + c * g_zeta g.

Lemma lin3_plus F G : lin3 F -> lin3 G -> lin3 (fun g => F g + G g).
Proof.
  intros [a [b [c H]]] [a' [b' [c' H']]]. exists (a + a'), (b + b'), (c + c'). intros g Hg.
  rewrite H, H' by exact Hg. ring.
Qed.
Lemma lin3_scal k F : lin3 F -> lin3 (fun g => k * F g).
Proof. intros [a [b [c H]]]. exists (k * a), (k * b), (k * c). intros g Hg. rewrite H by exact Hg. ring. Qed.
Lemma lin3_minus F G : lin3 F -> lin3 G -> lin3 (fun g => F g - G g).
Proof.
  intros [a [b [c H]]] [a' [b' [c' H']]]. exists (a - a'), (b - b'), (c - c'). intros g Hg.
  rewrite H, H' by exact Hg. ring.
Qed.
Lemma lin3_const k : lin3 (fun _ => k).
Proof. exists k, k, k. intros g Hg. unfold sum1 in Hg. transitivity (k * (g_eta g + g_xi g + g_zeta g)); [rewrite Hg|]; ring. Qed.

Section OneElement.
Context (el : tri6) (Hv : valid_el el).
Let D := orient (corner_a el) (corner_b el) (corner_c el).

Lemma lin3_px : lin3 (px el).
Proof.
  exists (fst (corner_a el)), (fst (corner_b el)), (fst (corner_c el)). intros g Hg. unfold px, shp.
  rewrite (valid_shape el Hv g Hg). cbn [sh_nx el_point fst]. ring.
Qed.
Lemma lin3_py : lin3 (py el).
Proof.
  exists (snd (corner_a el)), (snd (corner_b el)), (snd (corner_c el)). intros g Hg. unfold py, shp.
  rewrite (valid_shape el Hv g Hg). cbn [sh_ny el_point snd]. ring.
Qed.

Definition gcoef (d0 d1 d2 : R) (u : V6) : R * R * R :=
  (3 * d0 * v0 u - d1 * v1 u - d2 * v2 u + 4 * d1 * v3 u + 4 * d2 * v5 u,
   3 * d1 * v1 u - d0 * v0 u - d2 * v2 u + 4 * d0 * v3 u + 4 * d2 * v4 u,
   3 * d2 * v2 u - d0 * v0 u - d1 * v1 u + 4 * d1 * v4 u + 4 * d0 * v5 u).

Lemma grad6_lin (eta xi zeta d0 d1 d2 : R) (u : V6) : eta + xi + zeta = 1 ->
  dot6 (grad6 eta xi zeta d0 d1 d2) u =
  let '(a, b, c) := gcoef d0 d1 d2 u in a * eta + b * xi + c * zeta.
Proof.
  intros H. unfold gcoef, grad6, dot6. cbn [v0 v1 v2 v3 v4 v5].
  replace zeta with (1 - eta - xi) by lra. ring.
Qed.

Lemma gx_lin u g : sum1 g -> gx el u g =
  let '(a, b, c) := gcoef ((snd (corner_b el) - snd (corner_c el)) / D) ((snd (corner_c el) - snd (corner_a el)) / D)
     ((snd (corner_a el) - snd (corner_b el)) / D) u in a * g_eta g + b * g_xi g + c * g_zeta g.
Proof. intros Hg. unfold gx, shp. rewrite (valid_shape el Hv g Hg). cbn [sh_b0]. apply grad6_lin, Hg. Qed.
Lemma gy_lin u g : sum1 g -> gy el u g =
  let '(a, b, c) := gcoef ((fst (corner_c el) - fst (corner_b el)) / D) ((fst (corner_a el) - fst (corner_c el)) / D)
     ((fst (corner_b el) - fst (corner_a el)) / D) u in a * g_eta g + b * g_xi g + c * g_zeta g.
Proof. intros Hg. unfold gy, shp. rewrite (valid_shape el Hv g Hg). cbn [sh_b1]. apply grad6_lin, Hg. Qed.

Lemma lin3_gx u : lin3 (gx el u).
Proof. eexists _, _, _. intros g Hg. rewrite gx_lin by exact Hg. unfold gcoef. reflexivity. Qed.
Lemma lin3_gy u : lin3 (gy el u).
Proof. eexists _, _, _. intros g Hg. rewrite gy_lin by exact Hg. unfold gcoef. reflexivity. Qed.

(** the circulation of a gradient field around the triangle vanishes *)
Lemma curl_free u :
  let A := mkGp 0 1 0 0 in let B := mkGp 0 0 1 0 in let C := mkGp 0 0 0 1 in
  (gx el u A + gx el u B) * (fst (corner_b el) - fst (corner_a el)) + (gy el u A + gy el u B) * (snd (corner_b el) - snd (corner_a el))
  + (gx el u B + gx el u C) * (fst (corner_c el) - fst (corner_b el)) + (gy el u B + gy el u C) * (snd (corner_c el) - snd (corner_b el))
  + (gx el u C + gx el u A) * (fst (corner_a el) - fst (corner_c el)) + (gy el u C + gy el u A) * (snd (corner_a el) - snd (corner_c el)) = 0.
Proof.
  intros A B C. rewrite !gx_lin, !gy_lin by (unfold sum1, A, B, C; cbn [g_eta g_xi g_zeta]; ring).
  unfold gcoef, A, B, C. cbn [g_eta g_xi g_zeta].
  assert (HD : D <> 0) by (destruct Hv; unfold D; lra).
  unfold D in *. unfold orient in *. destruct (corner_a el) as [xa ya], (corner_b el) as [xb yb], (corner_c el) as [xc yc].
  cbn [fst snd] in *. field. exact HD.
Qed.

Lemma Q_valid F : Q el F = sumf (fun g => g_w g * (D / 2) * m_E (el_mat el) * F g) gps4.
Proof.
  unfold Q, Qr. apply sumf_ext. intros g Hg. unfold shp. rewrite (valid_shape el Hv g (gps4_sum1 g Hg)).
  cbn [sh_j]. reflexivity.
Qed.

Lemma Q_lin a b c a' b' c' :
  Q el (fun g => (a * g_eta g + b * g_xi g + c * g_zeta g) * (a' * g_eta g + b' * g_xi g + c' * g_zeta g)) =
  m_E (el_mat el) * D / 24 * (a * a' + b * b' + c * c' + (a + b + c) * (a' + b' + c')).
Proof.
  rewrite Q_valid. unfold sumf, Rsum, gps4. cbn [map fold_right g_w g_eta g_xi g_zeta]. field.
Qed.

Lemma Q_sq F : lin3 F -> exists a b c, (forall g, sum1 g -> F g = a * g_eta g + b * g_xi g + c * g_zeta g) /\
  Q el (fun g => F g * F g) = m_E (el_mat el) * D / 24 * (a ^ 2 + b ^ 2 + c ^ 2 + (a + b + c) ^ 2).
Proof.
  intros [a [b [c H]]]. exists a, b, c. split; [exact H|].
  rewrite (Q_ext el _ (fun g => (a * g_eta g + b * g_xi g + c * g_zeta g) * (a * g_eta g + b * g_xi g + c * g_zeta g))).
  - rewrite Q_lin. ring.
  - intros g Hg. rewrite H by (apply gps4_sum1, Hg). reflexivity.
Qed.

Lemma D_pos : 0 < D. Proof. destruct Hv as [_ H]. exact H. Qed.

Lemma Q_sq_nonneg F : lin3 F -> 0 <= m_E (el_mat el) -> 0 <= Q el (fun g => F g * F g).
Proof.
  intros HF HE. destruct (Q_sq F HF) as [a [b [c [_ ->]]]]. pose proof D_pos.
  apply Rmult_le_pos.
  - apply Rmult_le_pos; [|lra]. apply Rmult_le_pos; lra.
  - pose proof (pow2_ge_0 a). pose proof (pow2_ge_0 b). pose proof (pow2_ge_0 c). pose proof (pow2_ge_0 (a + b + c)). lra.
Qed.

Lemma Q_sq_zero F : lin3 F -> 0 < m_E (el_mat el) -> Q el (fun g => F g * F g) = 0 -> forall g, sum1 g -> F g = 0.
Proof.
  intros HF HE H g Hg. destruct (Q_sq F HF) as [a [b [c [Hl HQ]]]]. rewrite HQ in H. pose proof D_pos.
  assert (P : 0 < m_E (el_mat el) * D / 24) by (apply Rmult_lt_0_compat; [apply Rmult_lt_0_compat; lra|lra]).
  apply Rmult_integral in H. destruct H as [H|H]; [lra|].
  pose proof (pow2_ge_0 a). pose proof (pow2_ge_0 b). pose proof (pow2_ge_0 c). pose proof (pow2_ge_0 (a + b + c)).
  assert (Za : a ^ 2 = 0) by lra. assert (Zb : b ^ 2 = 0) by lra. assert (Zc : c ^ 2 = 0) by lra.
  assert (a = 0) by (apply Rsqr_0_uniq; unfold Rsqr; lra).
  assert (b = 0) by (apply Rsqr_0_uniq; unfold Rsqr; lra).
  assert (c = 0) by (apply Rsqr_0_uniq; unfold Rsqr; lra).
  rewrite (Hl g Hg). subst. ring.
Qed.

(** ** Exact integration of fields that are cubic in the local coordinates *)

Lemma Q_exact F (F' : R -> R -> R) : poly_deg 3 F' -> (forall g, In g gps4 -> F g = F' (g_xi g) (g_zeta g)) ->
  Q el F = m_E (el_mat el) * loc_int el F'.
Proof.
  intros HF H. rewrite Q_valid. unfold loc_int. fold D.
  pose proof (gauss_exact 4 gps4 F' (0, 0) (1, 0) (0, 1) eq_refl HF) as G.
  unfold tri_int in G. cbn [fst snd] in G.
  replace (Rabs (orient (0, 0) (1, 0) (0, 1))) with 1 in G
    by (unfold orient; cbn [fst snd]; rewrite Rabs_right; lra).
  assert (E : simplex_int (fun s t => F' (0 + s * (1 - 0) + t * (0 - 0)) (0 + s * (0 - 0) + t * (1 - 0))) = simplex_int F').
  { unfold simplex_int. apply RInt_ext. intros s _. apply RInt_ext. intros t _. f_equal; ring. }
  rewrite E in G. rewrite Rmult_1_l in G. rewrite <- G.
  rewrite <- Rmult_assoc, <- sumf_scal. apply sumf_ext. intros g Hg.
  rewrite (H g Hg). replace (g_eta g * 0 + g_xi g * 1 + g_zeta g * 0) with (g_xi g) by ring.
  replace (g_eta g * 0 + g_xi g * 0 + g_zeta g * 1) with (g_zeta g) by ring. field.
Qed.

End OneElement.

(** polynomial degree of a field in the local coordinates: the value at every Gauss point and at every local
    point is given by one polynomial *)
Definition pdeg (d : nat) (F : gp -> R) : Prop :=
  poly_deg d (fun s t => F (loc s t)) /\ (forall g, sum1 g -> F g = F (loc (g_xi g) (g_zeta g))).

Lemma pdeg_lin3 F : lin3 F -> pdeg 1 F.
Proof.
  intros [a [b [c H]]]. split.
  - apply (poly_ext 1 (fun s t => a + (b - a) * s + (c - a) * t)).
    + apply poly_plus; [apply poly_plus|]; [apply poly_c|apply poly_cmul, poly_x|apply poly_cmul, poly_y].
    + intros s t. rewrite H by apply sum1_loc. unfold loc. cbn [g_eta g_xi g_zeta]. ring.
  - intros g Hg. rewrite !H by (apply sum1_loc || exact Hg). unfold loc. cbn [g_eta g_xi g_zeta].
    unfold sum1 in Hg. replace (g_eta g) with (1 - g_xi g - g_zeta g) by lra. ring.
Qed.
Lemma pdeg_plus d F G : pdeg d F -> pdeg d G -> pdeg d (fun g => F g + G g).
Proof. intros [A B] [A' B']. split; [apply (poly_plus d (fun s t => F (loc s t)) (fun s t => G (loc s t))); assumption|]. intros g Hg. rewrite (B g Hg), (B' g Hg). reflexivity. Qed.
Lemma pdeg_minus d F G : pdeg d F -> pdeg d G -> pdeg d (fun g => F g - G g).
Proof. intros [A B] [A' B']. split; [apply (poly_minus d (fun s t => F (loc s t)) (fun s t => G (loc s t))); assumption|]. intros g Hg. rewrite (B g Hg), (B' g Hg). reflexivity. Qed.
Lemma pdeg_scal d k F : pdeg d F -> pdeg d (fun g => k * F g).
Proof. intros [A B]. split; [apply (poly_cmul d k (fun s t => F (loc s t))); assumption|]. intros g Hg. rewrite (B g Hg). reflexivity. Qed.
Lemma pdeg_mul d e F G : pdeg d F -> pdeg e G -> pdeg (d + e) (fun g => F g * G g).
Proof. intros [A B] [A' B']. split; [apply (poly_mul d e (fun s t => F (loc s t)) (fun s t => G (loc s t))); assumption|]. intros g Hg. rewrite (B g Hg), (B' g Hg). reflexivity. Qed.
Lemma pdeg_const d k : pdeg d (fun _ => k).
Proof. split; [apply poly_c|reflexivity]. Qed.
Lemma pdeg_weaken d e F : (d <= e)%nat -> pdeg d F -> pdeg e F.
Proof. intros H [A B]. split; [apply (poly_weaken d); assumption|exact B]. Qed.
Lemma pdeg_ext d F G : (forall g, F g = G g) -> pdeg d F -> pdeg d G.
Proof. intros H [A B]. split; [apply (poly_ext d _ _ A); intros; symmetry; apply H|]. intros g Hg. rewrite <- !H. auto. Qed.

Lemma pdeg_vl el u : valid_el el -> pdeg 2 (vl el u).
Proof.
  intros Hv. split.
  - apply (poly_ext 2 (quad (v0 u) (- 3 * v0 u - v1 u + 4 * v3 u) (- 3 * v0 u - v2 u + 4 * v5 u)
      (2 * v0 u + 2 * v1 u - 4 * v3 u) (4 * v0 u - 4 * v3 u + 4 * v4 u - 4 * v5 u) (2 * v0 u + 2 * v2 u - 4 * v5 u))).
    + apply poly_quad.
    + intros s t. unfold vl, shp, shape_function, loc. cbn [sh_n g_eta g_xi g_zeta].
      unfold dot6, shape_n, quad. cbn [v0 v1 v2 v3 v4 v5]. ring.
  - intros g Hg. unfold vl, shp, shape_function, loc. cbn [sh_n g_eta g_xi g_zeta]. unfold sum1 in Hg.
    replace (g_eta g) with (1 - g_xi g - g_zeta g) by lra. reflexivity.
Qed.

Lemma Q_pdeg el F : valid_el el -> pdeg 3 F -> Q el F = m_E (el_mat el) * loc_int el (fun s t => F (loc s t)).
Proof. intros Hv [A B]. apply Q_exact; [exact Hv|exact A|]. intros g Hg. apply B, gps4_sum1, Hg. Qed.

Lemma MQ_exact els (F : field) : valid_mesh els -> (forall el, In el els -> pdeg 3 (F el)) ->
  MQ els F = field_int (fun el s t => m_E (el_mat el) * F el (loc s t)) els.
Proof.
  intros Hv H. unfold MQ, field_int. apply sumf_ext. intros el Hel. rewrite Q_pdeg by auto.
  destruct (H el Hel) as [A _]. destruct (poly_affine 3 _ A ltac:(lia) 0 1 0 0 0 1) as [k [_ Hk]].
  assert (E : forall s t, F el (loc s t) = P4c k s t) by (intros s t; rewrite <- Hk; cbv beta; replace (0 + s * 1 + t * 0) with s by ring; replace (0 + s * 0 + t * 1) with t by ring; reflexivity).
  unfold loc_int. rewrite <- Rmult_assoc, (Rmult_comm (m_E _) (orient _ _ _)), Rmult_assoc. f_equal.
  transitivity (m_E (el_mat el) * simplex_int (P4c k)).
  - f_equal. unfold simplex_int. apply RInt_ext. intros s _. apply RInt_ext. intros t _. apply E.
  - rewrite simplex_int_P4c.
    transitivity (simplex_int (P4c (fun i j => m_E (el_mat el) * k i j))).
    + rewrite simplex_int_P4c. unfold P4c_val, simplex_val. field.
    + unfold simplex_int. apply RInt_ext. intros s _. apply RInt_ext. intros t _. rewrite E. unfold P4c, P4. match goal with |- ?a = ?b => change (@eq R a b) end. ring.
Qed.

(** ** Meshes on numbered nodes *)

Section OnMesh.
Context (n : nat) (X Y : nat -> R) (els : list tri6) (Hm : mesh_on n X Y els).

Lemma on_wf : wf_ids n els.
Proof. intros el Hel. destruct (Hm el Hel) as [_ [A [B _]]]. auto. Qed.
Lemma on_valid : valid_mesh els.
Proof. intros el Hel. apply (Hm el Hel). Qed.

(** nodal values of a quadratic function *)
Definition qn (k0 k1 k2 k3 k4 k5 : R) (i : nat) : R := quad k0 k1 k2 k3 k4 k5 (X i) (Y i).

Lemma field_qn k0 k1 k2 k3 k4 k5 el g : In el els -> sum1 g ->
  Gx (qn k0 k1 k2 k3 k4 k5) el g = k1 + 2 * k3 * px el g + k4 * py el g /\
  Gy (qn k0 k1 k2 k3 k4 k5) el g = k2 + k4 * px el g + 2 * k5 * py el g /\
  Vl (qn k0 k1 k2 k3 k4 k5) el g = quad k0 k1 k2 k3 k4 k5 (px el g) (py el g).
Proof.
  intros Hel Hg. destruct (Hm el Hel) as [Hv [_ [_ [Ex Ey]]]].
  assert (E : gather (qn k0 k1 k2 k3 k4 k5) (el_ids el) = nodal (quad k0 k1 k2 k3 k4 k5) el).
  { unfold nodal. rewrite Ex, Ey. unfold gather, qn, zip6. cbn [v0 v1 v2 v3 v4 v5]. reflexivity. }
  destruct Hv as [Hst Ho]. destruct g as [w eta xi zeta]. unfold sum1 in Hg. cbn [g_eta g_xi g_zeta] in Hg.
  assert (Ho' : orient (corner_a el) (corner_b el) (corner_c el) <> 0) by lra.
  pose proof (interp_position el _ _ _ Hst Ho' w eta xi zeta Hg) as P.
  unfold Gx, Gy, Vl. rewrite E. unfold gx, gy, vl, px, py, shp.
  pose proof (f_equal fst P) as P1. pose proof (f_equal snd P) as P2. cbn [fst snd] in P1, P2.
  rewrite (interp_dx el _ _ _ Hst Ho' w eta xi zeta Hg), (interp_dy el _ _ _ Hst Ho' w eta xi zeta Hg),
    (interp_value el _ _ _ Hst Ho' w eta xi zeta Hg).
  rewrite P1, P2. auto.
Qed.

(** the bilinear form and the linear forms *)
Definition B (u v : nat -> R) : R := MQ els (fun el g => Gx u el g * Gx v el g + Gy u el g * Gy v el g).
Definition L (v : nat -> R) : R := MQ els (fun el g => Gx v el g * py el g - Gy v el g * px el g).
Definition Mn (v : nat -> R) : R := MQ els (Vl v).

Lemma gather_lin a b u v c : gather (fun i => a * u i + b * v i) c = add6 (scal6 a (gather u c)) (scal6 b (gather v c)).
Proof. reflexivity. Qed.
Lemma Gx_lin a b u v el g : Gx (fun i => a * u i + b * v i) el g = a * Gx u el g + b * Gx v el g.
Proof. unfold Gx, gx. rewrite gather_lin, dot6_add, !dot6_scal. reflexivity. Qed.
Lemma Gy_lin a b u v el g : Gy (fun i => a * u i + b * v i) el g = a * Gy u el g + b * Gy v el g.
Proof. unfold Gy, gy. rewrite gather_lin, dot6_add, !dot6_scal. reflexivity. Qed.
Lemma Vl_lin a b u v el g : Vl (fun i => a * u i + b * v i) el g = a * Vl u el g + b * Vl v el g.
Proof. unfold Vl, vl. rewrite gather_lin, dot6_add, !dot6_scal. reflexivity. Qed.

Lemma B_sym u v : B u v = B v u.
Proof. apply MQ_ext. intros. ring. Qed.

Lemma B_form u v : sumn n (fun i => v i * mulv n (fst (assemble_torsion n els)) u i) = B u v.
Proof.
  unfold B. rewrite <- (entries_form n els u v on_wf). apply sumn_ext. intros i Hi. f_equal. unfold mulv. apply sumn_ext.
  intros j Hj. f_equal. apply (bordered_blocks n els on_wf); assumption.
Qed.
Lemma L_form v : dotn n v (snd (assemble_torsion n els)) = L v.
Proof. rewrite assemble_eq. cbn [snd]. apply f_tor_form, on_wf. Qed.

Lemma const_fields k el g : In el els -> sum1 g ->
  Gx (fun _ => k) el g = 0 /\ Gy (fun _ => k) el g = 0 /\ Vl (fun _ => k) el g = k.
Proof.
  intros Hel Hg. destruct (field_qn k 0 0 0 0 0 el g Hel Hg) as [A [A' A'']].
  assert (G : gather (fun _ => k) (el_ids el) = gather (qn k 0 0 0 0 0) (el_ids el)).
  { unfold gather, qn, quad. f_equal; ring. }
  unfold Gx, Gy, Vl in *. rewrite G, A, A', A''. unfold quad. repeat split; ring.
Qed.

Lemma mem_fields el g : In el els -> sum1 g ->
  (Gx X el g = 1 /\ Gy X el g = 0 /\ Vl X el g = px el g) /\
  (Gx Y el g = 0 /\ Gy Y el g = 1 /\ Vl Y el g = py el g).
Proof.
  intros Hel Hg. destruct (field_qn 0 1 0 0 0 0 el g Hel Hg) as [A [A' A'']].
  destruct (field_qn 0 0 1 0 0 0 el g Hel Hg) as [B0 [B' B'']].
  assert (G : gather X (el_ids el) = gather (qn 0 1 0 0 0 0) (el_ids el)).
  { unfold gather, qn, quad. f_equal; ring. }
  assert (G' : gather Y (el_ids el) = gather (qn 0 0 1 0 0 0) (el_ids el)).
  { unfold gather, qn, quad. f_equal; ring. }
  unfold Gx, Gy, Vl in *. rewrite G, G', A, A', A'', B0, B', B''. unfold quad. repeat split; ring.
Qed.

(** weak form of the bordered system *)
Lemma weak f u lam : solves n (fst (assemble_torsion n els)) f u lam ->
  (forall v, B u v + lam * Mn v = dotn n v f) /\ Mn u = 0.
Proof.
  intros [H1 H2]. destruct (bordered_blocks n els on_wf) as [_ [Kc [Kr Kn]]]. split.
  - intros v. unfold Mn. rewrite <- (c_tor_form n els v on_wf), <- B_form. unfold dotn.
    rewrite <- sumn_scal, <- sumn_plus. apply sumn_ext. intros i Hi. rewrite <- (H1 i Hi), (Kc i Hi). ring.
  - rewrite Kn, Rmult_0_l, Rplus_0_r in H2. unfold Mn. rewrite <- (c_tor_form n els u on_wf), <- H2.
    unfold dotn, mulv. apply sumn_ext. intros j Hj. rewrite (Kr j Hj). ring.
Qed.

(** conversely *)
Lemma weak_solves f u lam : (forall v, B u v + lam * Mn v = dotn n v f) -> Mn u = 0 ->
  solves n (fst (assemble_torsion n els)) f u lam.
Proof.
  intros H1 H2. destruct (bordered_blocks n els on_wf) as [_ [Kc [Kr Kn]]]. split.
  - intros i Hi. specialize (H1 (fun k => dlt k i 1)).
    unfold Mn in H1. rewrite <- (c_tor_form n els _ on_wf), <- B_form in H1. unfold dotn, dlt in H1.
    assert (S : forall f0 : nat -> R, sumn n (fun k => (if Nat.eqb k i then 1 else 0) * f0 k) = f0 i).
    { intros f0. rewrite <- (sumn_delta n i f0 Hi). apply sumn_ext. intros k _. destruct (Nat.eqb k i); ring. }
    rewrite !S in H1. rewrite (Kc i Hi). lra.
  - rewrite Kn, Rmult_0_l, Rplus_0_r, <- H2. unfold Mn. rewrite <- (c_tor_form n els u on_wf).
    unfold dotn, mulv. apply sumn_ext. intros j Hj. rewrite (Kr j Hj). ring.
Qed.

Lemma sum1_4 g : In g gps4 -> sum1 g. Proof. apply gps4_sum1. Qed.

Lemma B_const u k : B u (fun _ => k) = 0.
Proof.
  apply MQ_zero. intros el g Hel Hg. destruct (const_fields k el g Hel (sum1_4 g Hg)) as [-> [-> _]]. ring.
Qed.
Lemma L_const k : L (fun _ => k) = 0.
Proof.
  apply MQ_zero. intros el g Hel Hg. destruct (const_fields k el g Hel (sum1_4 g Hg)) as [-> [-> _]]. ring.
Qed.
Lemma Mn_const k : Mn (fun _ => k) = k * MQ els (fun _ _ => 1).
Proof.
  rewrite <- MQ_scal. apply MQ_ext. intros el g Hel Hg. destruct (const_fields k el g Hel (sum1_4 g Hg)) as [_ [_ ->]]. ring.
Qed.

Lemma B_lin a b u v w : B (fun i => a * u i + b * v i) w = a * B u w + b * B v w.
Proof.
  unfold B. rewrite <- MQ_lin2. apply MQ_ext. intros. rewrite Gx_lin, Gy_lin. ring.
Qed.
Lemma L_lin a b u v : L (fun i => a * u i + b * v i) = a * L u + b * L v.
Proof. unfold L. rewrite <- MQ_lin2. apply MQ_ext. intros. rewrite Gx_lin, Gy_lin. ring. Qed.
Lemma Mn_lin a b u v : Mn (fun i => a * u i + b * v i) = a * Mn u + b * Mn v.
Proof. unfold Mn. rewrite <- MQ_lin2. apply MQ_ext. intros. apply Vl_lin. Qed.

Context (HE : forall el, In el els -> 0 < m_E (el_mat el)).

Lemma MQ_sq_nonneg (F G : field) : (forall el, In el els -> lin3 (F el) /\ lin3 (G el)) ->
  0 <= MQ els (fun el g => F el g * F el g + G el g * G el g).
Proof.
  intros H. unfold MQ. apply sumf_nonneg. intros el Hel. rewrite Q_plus. destruct (H el Hel) as [A A'].
  pose proof (Q_sq_nonneg el (on_valid el Hel) _ A (Rlt_le _ _ (HE el Hel))).
  pose proof (Q_sq_nonneg el (on_valid el Hel) _ A' (Rlt_le _ _ (HE el Hel))). lra.
Qed.

Lemma B_nonneg u : 0 <= B u u.
Proof. apply MQ_sq_nonneg. intros el Hel. split; [apply lin3_gx|apply lin3_gy]; apply on_valid, Hel. Qed.

Lemma sumf_zero_each {A} (f : A -> R) l : (forall a, In a l -> 0 <= f a) -> sumf f l = 0 -> forall a, In a l -> f a = 0.
Proof.
  induction l as [|x l IH]; intros H Hs a [].
  - subst. rewrite sumf_cons in Hs. pose proof (H a (or_introl eq_refl)).
    pose proof (sumf_nonneg f l (fun y Hy => H y (or_intror Hy))). lra.
  - rewrite sumf_cons in Hs. pose proof (H x (or_introl eq_refl)).
    pose proof (sumf_nonneg f l (fun y Hy => H y (or_intror Hy))). apply IH; [intros y Hy; apply H; right; exact Hy|lra|assumption].
Qed.

Lemma MQ_sq_zero (F G : field) : (forall el, In el els -> lin3 (F el) /\ lin3 (G el)) ->
  MQ els (fun el g => F el g * F el g + G el g * G el g) = 0 ->
  forall el g, In el els -> sum1 g -> F el g = 0 /\ G el g = 0.
Proof.
  intros H Hz el g Hel Hg. unfold MQ in Hz.
  assert (N : forall e, In e els -> 0 <= Q e (fun g => F e g * F e g) /\ 0 <= Q e (fun g => G e g * G e g)).
  { intros e He. destruct (H e He) as [A A']. split; apply Q_sq_nonneg; auto using on_valid; apply Rlt_le, HE, He. }
  assert (Z : Q el (fun g => F el g * F el g + G el g * G el g) = 0).
  { apply (sumf_zero_each (fun e => Q e (fun g => F e g * F e g + G e g * G e g)) els); [|exact Hz|exact Hel].
    intros e He. rewrite Q_plus. destruct (N e He). lra. }
  rewrite Q_plus in Z. destruct (N el Hel) as [N1 N2]. destruct (H el Hel) as [A A'].
  split.
  - apply (Q_sq_zero el (on_valid el Hel) (F el) A (HE el Hel)); [lra|exact Hg].
  - apply (Q_sq_zero el (on_valid el Hel) (G el) A' (HE el Hel)); [lra|exact Hg].
Qed.

(** Cauchy-Schwarz against a constant unit field *)
Lemma cauchy (F G : field) (c s : R) : (forall el, In el els -> lin3 (F el) /\ lin3 (G el)) -> c ^ 2 + s ^ 2 = 1 ->
  0 < MQ els (fun _ _ => 1) ->
  (MQ els (fun el g => c * F el g + s * G el g)) ^ 2 <=
  MQ els (fun el g => F el g * F el g + G el g * G el g) * MQ els (fun _ _ => 1).
Proof.
  intros H Hcs Hea.
  set (A := MQ els (fun el g => F el g * F el g + G el g * G el g)). set (C := MQ els (fun _ _ => 1)) in *.
  set (Bb := MQ els (fun el g => c * F el g + s * G el g)).
  assert (P : 0 <= A - 2 * (Bb / C) * Bb + (Bb / C) ^ 2 * C).
  { set (t := Bb / C).
    assert (E : A - 2 * t * Bb + t ^ 2 * C =
      MQ els (fun el g => (F el g - t * c) * (F el g - t * c) + (G el g - t * s) * (G el g - t * s))).
    { transitivity (1 * A + (- 2 * t) * Bb + t ^ 2 * C); [ring|]. unfold A, Bb, C. rewrite <- MQ_lin3.
      apply MQ_ext. intros el g _ _. transitivity (F el g * F el g + G el g * G el g - 2 * t * (c * F el g + s * G el g) + t ^ 2 * (c ^ 2 + s ^ 2)); [rewrite Hcs|]; ring. }
    rewrite E. apply (MQ_sq_nonneg (fun el g => F el g - t * c) (fun el g => G el g - t * s)). intros el Hel.
    destruct (H el Hel). split; apply lin3_minus; auto using lin3_const. }
  replace (A - 2 * (Bb / C) * Bb + (Bb / C) ^ 2 * C) with ((A * C - Bb ^ 2) / C) in P by (field; lra).
  apply (Rmult_le_compat_r C) in P; [|lra].
  replace ((A * C - Bb ^ 2) / C * C) with (A * C - Bb ^ 2) in P by (field; lra). lra.
Qed.

(** energy of a trial warping function *)
Definition energy (v : nat -> R) : R :=
  MQ els (fun el g => (Gx v el g - py el g) * (Gx v el g - py el g) + (Gy v el g + px el g) * (Gy v el g + px el g)).

Lemma energy_eq v : energy v = MQ els (fun el g => px el g * px el g + py el g * py el g) - 2 * L v + B v v.
Proof.
  unfold energy. transitivity (1 * MQ els (fun el g => px el g * px el g + py el g * py el g) + (-2) * L v + 1 * B v v); [|ring].
  unfold L, B. rewrite <- MQ_lin3. apply MQ_ext. intros. ring.
Qed.

Lemma energy_lin3 v el : In el els -> lin3 (fun g => Gx v el g - py el g) /\ lin3 (fun g => Gy v el g + px el g).
Proof.
  intros Hel. pose proof (on_valid el Hel) as Hv. split.
  - apply lin3_minus; [apply lin3_gx, Hv|apply lin3_py, Hv].
  - apply lin3_plus; [apply lin3_gy, Hv|apply lin3_px, Hv].
Qed.

Lemma energy_pos v : els <> [] -> 0 < energy v.
Proof.
  intros Hne. assert (N : 0 <= energy v) by exact (MQ_sq_nonneg _ _ (energy_lin3 v)).
  destruct (Req_dec (energy v) 0) as [Z|Z]; [|lra]. exfalso.
  destruct els as [|el l] eqn:E; [congruence|]. rewrite <- E in *.
  assert (Hel : In el els) by (rewrite E; left; reflexivity).
  pose proof (MQ_sq_zero _ _ (energy_lin3 v) Z el) as H.
  set (u := gather v (el_ids el)).
  assert (Hx : forall g, sum1 g -> gx el u g = py el g).
  { intros g Hg. destruct (H g Hel Hg) as [H1 _]. unfold Gx in H1. fold u in H1. lra. }
  assert (Hy : forall g, sum1 g -> gy el u g = - px el g).
  { intros g Hg. destruct (H g Hel Hg) as [_ H1]. unfold Gy in H1. fold u in H1. lra. }
  pose proof (on_valid el Hel) as Hv.
  pose proof (curl_free el Hv u) as C. cbv zeta in C.
  rewrite !Hx, !Hy in C by (unfold sum1; cbn [g_eta g_xi g_zeta]; ring).
  unfold px, py, shp in C. rewrite !(valid_shape el Hv) in C by (cbn [g_eta g_xi g_zeta]; ring).
  cbn [sh_nx sh_ny g_eta g_xi g_zeta el_point fst snd] in C.
  destruct Hv as [_ Ho]. unfold orient in Ho.
  destruct (corner_a el) as [xa ya], (corner_b el) as [xb yb], (corner_c el) as [xc yc]. cbn [fst snd] in *. lra.
Qed.

End OnMesh.
