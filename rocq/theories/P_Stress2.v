(** Proofs about the stress analysis: accuracy of the normal stresses, resultants, stresses at points. *)
From Coq Require Import Reals List Lra Lia Bool.
From Coquelicot Require Import Coquelicot.
From Verif Require Import Base S_Integral M_Fea S_Fem M_Post M_Section S_Section S_Post S_Warp M_Stress S_Stress
  P_Integral P_Fea P_Geom P_Extrap P_Elem P_Section P_Totals P_Post P_Yield P_Warp P_Warp2 P_Warp3 P_Warp4 P_Warp5 P_Warp6 P_Stress.
Import ListNotations.
Local Open Scope R_scope.

(** ** Resultants *)

Lemma el_scal el (E : R) (f : R -> R -> R) : valid_el el -> poly_deg 3 f -> el_int el (fun x y => E * f x y) = E * el_int el f.
Proof.
  intros Hv Hf. rewrite <- !el_q_exact; try assumption; [apply el_q_scal|]. eapply poly_scal; [exact Hf|reflexivity].
Qed.
Lemma el_int_ext el (f g : R -> R -> R) : (forall x y, f x y = g x y) -> el_int el f = el_int el g.
Proof.
  intros H. unfold el_int, tri_int, simplex_int. f_equal. apply RInt_ext. intros s _. apply RInt_ext. intros t _. apply H.
Qed.

Lemma sec_int_centred (els : list tri6) (f : tri6 -> R -> R -> R) (k0 k1 k2 k3 k4 k5 : R) :
  valid_mesh els -> t_ea (section_totals els) <> 0 ->
  let c := centroidal_of (section_totals els) in
  (forall el x y, In el els -> f el x y = m_E (el_mat el) * quad k0 k1 k2 k3 k4 k5 (x - p_cx c) (y - p_cy c)) ->
  section_int f els = k0 * t_ea (section_totals els) + k3 * p_iyy_c c + k4 * p_ixy_c c + k5 * p_ixx_c c.
Proof.
  intros Hv He c Hf. pose proof (mesh_int_centred els k0 k1 k2 k3 k4 k5 Hv He) as M. cbv zeta in M. fold c in M. rewrite <- M.
  unfold section_int, mesh_int.
  apply sumf_ext. intros el Hel. rewrite (el_int_ext el (f el) _ (fun x y => Hf el x y Hel)). apply el_scal; [apply Hv, Hel|].
  set (cx := p_cx c). set (cy := p_cy c).
  assert (E : poly_deg 3 (quad (k0 - k1 * cx - k2 * cy + k3 * cx ^ 2 + k4 * cx * cy + k5 * cy ^ 2)
     (k1 - 2 * k3 * cx - k4 * cy) (k2 - 2 * k5 * cy - k4 * cx) k3 k4 k5)) by apply poly3_quad.
  eapply (poly_scal 3 1); [exact E|]. intros. unfold quad. ring.
Qed.

Lemma bending_resultants (els : list tri6) (composite : bool) (n mxx myy : R) :
  els <> [] -> valid_mesh els -> pos_moduli els -> (composite = false -> unit_moduli els) ->
  let t := section_totals els in
  let c := centroidal_of t in
  let zz el x y := beam_zz (if composite then t_ea t else t_area t) c (m_E (el_mat el)) n mxx myy (x, y) in
  section_int zz els = n /\
  section_int (fun el x y => zz el x y * (y - p_cy c)) els = mxx /\
  section_int (fun el x y => zz el x y * (x - p_cx c)) els = - myy.
Proof.
  intros Hn Hv Hp Hu t c zz. pose proof (ea_pos els Hn Hv Hp) as He. fold t in He.
  assert (Ea : (if composite then t_ea t else t_area t) = t_ea t).
  { destruct composite; [reflexivity|]. symmetry. apply unit_ea, Hu. reflexivity. }
  destruct (inertia_pos els Hn Hv Hp) as [_ [_ Hd]]. fold t c in Hd.
  assert (He' : t_ea (section_totals els) <> 0) by (fold t; lra).
  set (det := p_ixx_c c * p_iyy_c c - p_ixy_c c ^ 2) in *.
  set (al := (mxx * p_iyy_c c + myy * p_ixy_c c) / det). set (be := - (mxx * p_ixy_c c + myy * p_ixx_c c) / det).
  assert (Z : forall el x y, zz el x y = m_E (el_mat el) * (n / t_ea t + al * (y - p_cy c) + be * (x - p_cx c))).
  { intros. unfold zz, beam_zz, bend_xx, bend_yy. rewrite Ea. cbn [fst snd]. fold det. unfold al, be. field. split; lra. }
  repeat split.
  - rewrite (sec_int_centred els zz (n / t_ea t) be al 0 0 0 Hv He'); [fold t; field; lra|].
    intros el x y _. fold t c. rewrite Z. unfold quad. ring.
  - rewrite (sec_int_centred els _ 0 0 (n / t_ea t) 0 be al Hv He').
    + fold t c. unfold al, be. unfold det. field. unfold det in Hd. lra.
    + intros el x y _. fold t c. rewrite Z. unfold quad. ring.
  - rewrite (sec_int_centred els _ 0 (n / t_ea t) 0 be al 0 Hv He').
    + fold t c. unfold al, be. unfold det. field. unfold det in Hd. lra.
    + intros el x y _. fold t c. rewrite Z. unfold quad. ring.
Qed.

(** ** Principal bending *)

Lemma principal_bending (c : centroidal) (E m11 m22 : R) (p : point) :
  let th := p_phi c * PI / 180 in
  p_i11_c c <> 0 -> p_i22_c c <> 0 ->
  rot_ixy (p_ixx_c c) (p_iyy_c c) (p_ixy_c c) th = 0 ->
  rot_ixx (p_ixx_c c) (p_iyy_c c) (p_ixy_c c) th = p_i11_c c ->
  rot_iyy (p_ixx_c c) (p_iyy_c c) (p_ixy_c c) th = p_i22_c c ->
  beam_zz_p c E m11 m22 p =
  bend_xx c E (m11 * cos th - m22 * sin th) p + bend_yy c E (m11 * sin th + m22 * cos th) p.
Proof.
  intros th H1 H2 R0 R1 R2. unfold beam_zz_p, bend_11, bend_22, bend_xx, bend_yy, principal_coordinate. fold th.
  unfold rot_ixx, rot_iyy, rot_ixy in *.
  cbv zeta. cbn [fst snd]. pose proof (sin2_cos2 th) as S. unfold Rsqr in S.
  set (x := fst p - p_cx c). set (y := snd p - p_cy c).
  set (ixx := p_ixx_c c) in *. set (iyy := p_iyy_c c) in *. set (ixy := p_ixy_c c) in *.
  set (i11 := p_i11_c c) in *. set (i22 := p_i22_c c) in *. set (cs := cos th) in *. set (sn := sin th) in *.
  clearbody x y ixx iyy ixy i11 i22 cs sn. clear c p th.
  (* the tensor in terms of the principal values *)
  assert (A1 : ixx = i11 * cs ^ 2 + i22 * sn ^ 2).
  { rewrite <- R1, <- R2.
    assert (K : ixx * cs ^ 2 * cs ^ 2 + 2 * ixx * sn ^ 2 * cs ^ 2 + ixx * sn ^ 2 * sn ^ 2 = ixx).
    { transitivity (ixx * (sn * sn + cs * cs) * (sn * sn + cs * cs)); [ring|rewrite S; ring]. }
    transitivity (ixx * cs ^ 2 * cs ^ 2 + 2 * ixx * sn ^ 2 * cs ^ 2 + ixx * sn ^ 2 * sn ^ 2 - 2 * sn * cs * (ixy * (cs ^ 2 - sn ^ 2) + (ixx - iyy) * sn * cs)); [rewrite R0, K; ring|ring]. }
  assert (A2 : iyy = i11 * sn ^ 2 + i22 * cs ^ 2).
  { rewrite <- R1, <- R2.
    assert (K : iyy * cs ^ 2 * cs ^ 2 + 2 * iyy * sn ^ 2 * cs ^ 2 + iyy * sn ^ 2 * sn ^ 2 = iyy).
    { transitivity (iyy * (sn * sn + cs * cs) * (sn * sn + cs * cs)); [ring|rewrite S; ring]. }
    transitivity (iyy * cs ^ 2 * cs ^ 2 + 2 * iyy * sn ^ 2 * cs ^ 2 + iyy * sn ^ 2 * sn ^ 2 + 2 * sn * cs * (ixy * (cs ^ 2 - sn ^ 2) + (ixx - iyy) * sn * cs)); [rewrite R0, K; ring|ring]. }
  assert (A3 : ixy = (i22 - i11) * sn * cs).
  { rewrite <- R1, <- R2.
    assert (K : ixy * (sn * sn + cs * cs) * (sn * sn + cs * cs) = ixy) by (rewrite S; ring).
    transitivity (ixy * (sn * sn + cs * cs) * (sn * sn + cs * cs) - (cs ^ 2 - sn ^ 2) * (ixy * (cs ^ 2 - sn ^ 2) + (ixx - iyy) * sn * cs)); [rewrite R0, K; ring|ring]. }
  clear R0 R1 R2.
  assert (D : ixx * iyy - ixy ^ 2 = i11 * i22).
  { rewrite A1, A2, A3. transitivity (i11 * i22 * (sn * sn + cs * cs) ^ 2); [ring|rewrite S; ring]. }
  rewrite D.
  assert (N1 : (m11 * cs - m22 * sn) * (iyy * y - ixy * x) - (m11 * sn + m22 * cs) * (ixx * x - ixy * y)
     = m11 * i22 * (y * cs - x * sn) - m22 * i11 * (x * cs + y * sn)).
  { rewrite A1, A2, A3.
    transitivity ((m11 * i22 * (y * cs - x * sn) - m22 * i11 * (x * cs + y * sn)) * (sn * sn + cs * cs)); [ring|rewrite S; ring]. }
  transitivity (E * (m11 * i22 * (y * cs - x * sn) - m22 * i11 * (x * cs + y * sn)) / (i11 * i22)); [field; split; assumption|].
  rewrite <- N1. field. split; assumption.
Qed.

(** ** Extrapolation in local coordinates *)

Lemma poly2_form d f : poly_deg d f ->
  ((d <= 0)%nat -> exists k, forall x y, f x y = k) /\
  ((d <= 1)%nat -> exists k0 k1 k2, forall x y, f x y = k0 + k1 * x + k2 * y) /\
  ((d <= 2)%nat -> exists k0 k1 k2 k3 k4 k5, forall x y, f x y = quad k0 k1 k2 k3 k4 k5 x y).
Proof.
  induction 1 as [d c f H|d f g h _ [A0 [A1 A2]] _ [B0 [B1 B2]] H|d k f h _ [A0 [A1 A2]] H|d f h _ [A0 [A1 A2]] H|d f h _ [A0 [A1 A2]] H].
  - split; [|split]; intros _; [exists c|exists c, 0, 0|exists c, 0, 0, 0, 0, 0]; intros; rewrite H; unfold quad; ring.
  - split; [|split]; intros Hd.
    + destruct (A0 Hd) as [a E]. destruct (B0 Hd) as [b F]. exists (a + b). intros. rewrite H, E, F. ring.
    + destruct (A1 Hd) as [a0 [a1 [a2 E]]]. destruct (B1 Hd) as [b0 [b1 [b2 F]]]. exists (a0 + b0), (a1 + b1), (a2 + b2). intros. rewrite H, E, F. ring.
    + destruct (A2 Hd) as [a0 [a1 [a2 [a3 [a4 [a5 E]]]]]]. destruct (B2 Hd) as [b0 [b1 [b2 [b3 [b4 [b5 F]]]]]].
      exists (a0 + b0), (a1 + b1), (a2 + b2), (a3 + b3), (a4 + b4), (a5 + b5). intros. rewrite H, E, F. unfold quad. ring.
  - split; [|split]; intros Hd.
    + destruct (A0 Hd) as [a E]. exists (k * a). intros. rewrite H, E. ring.
    + destruct (A1 Hd) as [a0 [a1 [a2 E]]]. exists (k * a0), (k * a1), (k * a2). intros. rewrite H, E. ring.
    + destruct (A2 Hd) as [a0 [a1 [a2 [a3 [a4 [a5 E]]]]]].
      exists (k * a0), (k * a1), (k * a2), (k * a3), (k * a4), (k * a5). intros. rewrite H, E. unfold quad. ring.
  - split; [intros; lia|]. split; intros Hd.
    + destruct A0 as [a E]; [lia|]. exists 0, a, 0. intros. rewrite H, E. ring.
    + destruct A1 as [a0 [a1 [a2 E]]]; [lia|]. exists 0, a0, 0, a1, a2, 0. intros. rewrite H, E. unfold quad. ring.
  - split; [intros; lia|]. split; intros Hd.
    + destruct A0 as [a E]; [lia|]. exists 0, 0, a. intros. rewrite H, E. ring.
    + destruct A1 as [a0 [a1 [a2 E]]]; [lia|]. exists 0, 0, a0, 0, a1, a2. intros. rewrite H, E. unfold quad. ring.
Qed.

(** the reference element with corners (0,0), (1,0), (0,1): x = xi, y = zeta *)
Definition ref_el (mt : material) : tri6 :=
  mkTri (side_nodes 0 1 0) (side_nodes 0 0 1) (mkConn 0 1 2 3 4 5) mt.
Lemma ref_valid mt : valid_el (ref_el mt).
Proof.
  unfold valid_el, straight, corner_a, corner_b, corner_c, ref_el, side_nodes, orient. cbn [el_x el_y v0 v1 v2 v3 v4 v5 fst snd].
  split; [split; reflexivity|lra].
Qed.
Definition any_mat : material := mkMat 1 0 1 1.

Lemma ref_gauss (F : gp -> R) : (forall g, sum1 g -> F g = F (loc (g_xi g) (g_zeta g))) ->
  col6 F (at_gps6 (mkGp 0 0 0 0) (fun g => g)) = at_gauss6 (ref_el any_mat) (fun s t => F (loc s t)).
Proof.
  intros H. unfold at_gauss6. rewrite !col6_at.
  assert (E : forall g, In g gps6 -> F g = F (loc (fst (el_point (ref_el any_mat) (g_eta g) (g_xi g) (g_zeta g))) (snd (el_point (ref_el any_mat) (g_eta g) (g_xi g) (g_zeta g))))).
  { intros g Hg. pose proof (gps6_sum1 g Hg) as S. rewrite (H g S). unfold el_point, corner_a, corner_b, corner_c, ref_el, side_nodes.
    cbn [el_x el_y v0 v1 v2 fst snd]. f_equal. f_equal; ring. }
  f_equal; apply E; unfold gps6; cbn [nth In]; tauto.
Qed.

Lemma at_gps6_col {A} (d : A) (f : gp -> A) (h : A -> R) : col6 h (at_gps6 d f) = col6 (fun g => h (f g)) (at_gps6 (mkGp 0 0 0 0) (fun g => g)).
Proof. rewrite !col6_at. reflexivity. Qed.

Lemma ref_nodal (f : R -> R -> R) j : (j < 6)%nat -> nth6 (nodal f (ref_el any_mat)) j = f (fst (local_node j)) (snd (local_node j)).
Proof.
  intros Hj. unfold nodal, ref_el, side_nodes, zip6. cbn [el_x el_y v0 v1 v2 v3 v4 v5].
  do 6 (destruct j as [|j]; [cbn [nth6 local_node fst snd v0 v1 v2 v3 v4 v5]; f_equal; field|]). lia.
Qed.

Lemma extrap_ref (F : gp -> R) (M : R) j : pdeg 2 F -> (j < 6)%nat -> node_bound (fun s t => F (loc s t)) M ->
  Rabs (nth6 (extrapolate_to_nodes (col6 F (at_gps6 (mkGp 0 0 0 0) (fun g => g)))) j - F (loc (fst (local_node j)) (snd (local_node j)))) <= 2 / 10 ^ 14 * M.
Proof.
  intros [HP HG] Hj HM. rewrite (ref_gauss F HG). destruct (poly2_form 2 _ HP) as [_ [_ Q]].
  destruct (Q (le_n 2)) as [k0 [k1 [k2 [k3 [k4 [k5 E]]]]]].
  assert (EG : at_gauss6 (ref_el any_mat) (fun s t => F (loc s t)) = at_gauss6 (ref_el any_mat) (quad k0 k1 k2 k3 k4 k5)).
  { unfold at_gauss6. rewrite !col6_at. rewrite !E. reflexivity. }
  rewrite EG. rewrite E. rewrite <- (ref_nodal (quad k0 k1 k2 k3 k4 k5) j Hj).
  apply (extrapolate_close (ref_el any_mat) k0 k1 k2 k3 k4 k5 M j (ref_valid _) Hj).
  intros j' Hj'. rewrite (ref_nodal _ j' Hj'). rewrite <- E.
  assert (N : exists e, In (e, fst (local_node j'), snd (local_node j')) node_coords).
  { unfold node_coords. clear - Hj'. do 6 (destruct j' as [|j']; [cbn [local_node fst snd In]; eauto 12|]). lia. }
  destruct N as [e N]. apply (HM e _ _ N).
Qed.

Lemma interp_ref (F : gp -> R) (M eta xi zeta : R) : pdeg 2 F -> node_bound (fun s t => F (loc s t)) M ->
  0 <= eta -> 0 <= xi -> 0 <= zeta -> eta + xi + zeta = 1 ->
  Rabs (dot6 (extrapolate_to_nodes (col6 F (at_gps6 (mkGp 0 0 0 0) (fun g => g)))) (shape_function_only (eta, xi, zeta)) - F (loc xi zeta)) <= 12 / 10 ^ 14 * M.
Proof.
  intros HP HM H1 H2 H3 Hs. set (u := extrapolate_to_nodes _).
  assert (Ej : forall j, (j < 6)%nat -> Rabs (nth6 u j - F (loc (fst (local_node j)) (snd (local_node j)))) <= 2 / 10 ^ 14 * M).
  { intros j Hj. apply extrap_ref; assumption. }
  clearbody u. destruct HP as [HP HG]. destruct (poly2_form 2 _ HP) as [_ [_ Q]].
  destruct (Q (le_n 2)) as [k0 [k1 [k2 [k3 [k4 [k5 E]]]]]]. rewrite E.
  pose proof (Ej 0%nat ltac:(lia)) as A0. pose proof (Ej 1%nat ltac:(lia)) as A1. pose proof (Ej 2%nat ltac:(lia)) as A2.
  pose proof (Ej 3%nat ltac:(lia)) as A3. pose proof (Ej 4%nat ltac:(lia)) as A4. pose proof (Ej 5%nat ltac:(lia)) as A5.
  rewrite E in A0, A1, A2, A3, A4, A5. cbn [local_node fst snd nth6] in A0, A1, A2, A3, A4, A5.
  set (eps := 2 / 10 ^ 14 * M) in *. replace (12 / 10 ^ 14 * M) with (6 * eps) by (unfold eps; lra). clearbody eps.
  unfold shape_function_only, dot6. cbn [v0 v1 v2 v3 v4 v5].
  set (d0 := v0 u - quad k0 k1 k2 k3 k4 k5 0 0) in *. set (d1 := v1 u - quad k0 k1 k2 k3 k4 k5 1 0) in *.
  set (d2 := v2 u - quad k0 k1 k2 k3 k4 k5 0 1) in *. set (d3 := v3 u - quad k0 k1 k2 k3 k4 k5 (1/2) 0) in *.
  set (d4 := v4 u - quad k0 k1 k2 k3 k4 k5 (1/2) (1/2)) in *. set (d5 := v5 u - quad k0 k1 k2 k3 k4 k5 0 (1/2)) in *.
  match goal with |- Rabs ?L <= _ => assert (EQ : L = d0 * (eta * (2 * eta - 1)) + d1 * (xi * (2 * xi - 1)) + d2 * (zeta * (2 * zeta - 1)) + d3 * (4 * eta * xi) + d4 * (4 * xi * zeta) + d5 * (4 * eta * zeta)) end.
  { unfold d0, d1, d2, d3, d4, d5, quad. replace eta with (1 - xi - zeta) by lra. field. }
  rewrite EQ. clear EQ. clearbody d0 d1 d2 d3 d4 d5.
  assert (B : forall d s, Rabs d <= eps -> Rabs s <= 1 -> Rabs (d * s) <= eps).
  { intros d s Hd Hs'. rewrite Rabs_mult. pose proof (Rabs_pos d). pose proof (Rabs_pos s). nra. }
  assert (C : forall s, 0 <= s <= 1 -> Rabs (s * (2 * s - 1)) <= 1). { intros s Hs'. apply Rabs_le. split; nra. }
  assert (D : forall s r, 0 <= s -> 0 <= r -> s + r <= 1 -> Rabs (4 * s * r) <= 1). { intros s r X1 X2 X3. assert (0 <= s * r) by nra. rewrite Rabs_right by lra. pose proof (pow2_ge_0 (s - r)). assert ((s + r) * (s + r) <= 1 * 1) by (apply Rmult_le_compat; lra). lra. }
  pose proof (B d0 _ A0 (C eta ltac:(lra))). pose proof (B d1 _ A1 (C xi ltac:(lra))). pose proof (B d2 _ A2 (C zeta ltac:(lra))).
  pose proof (B d3 _ A3 (D eta xi ltac:(lra) ltac:(lra) ltac:(lra))). pose proof (B d4 _ A4 (D xi zeta ltac:(lra) ltac:(lra) ltac:(lra))).
  pose proof (B d5 _ A5 (D eta zeta ltac:(lra) ltac:(lra) ltac:(lra))).
  repeat match goal with H : Rabs (_ * _) <= eps |- _ => apply Rabs_le_between in H end.
  apply Rabs_le. split; lra.
Qed.

(** ** Fields of an element *)

Section Field.
Context (el : tri6) (Hv : valid_el el) (a : actions) (p : stress_par) (om ps ph : nat -> R).
Let G g := element_stress_gp el a p (gather om (el_ids el)) (gather ps (el_ids el)) (gather ph (el_ids el)) g.
Let sh := shift_el (st_cx p) (st_cy p) el.

Lemma sv : valid_el sh. Proof. apply shift_valid, Hv. Qed.

Lemma d_spar (f : shear_par -> R) : (f = sp_d1 \/ f = sp_d2 \/ f = sp_h1 \/ f = sp_h2) ->
  pdeg 2 (fun g => f (shear_parameter (px sh g) (py sh g) (st_ixx p) (st_iyy p) (st_ixy p))).
Proof.
  intros Hf.
  assert (Q : forall k1 k2, pdeg 2 (fun g => k1 * (px sh g * px sh g - py sh g * py sh g) + k2 * (px sh g * py sh g))).
  { intros k1 k2. apply pdeg_plus; apply pdeg_scal; [apply pdeg_minus|]; apply (pdeg_mul 1 1); unfold sh; auto using d_px, d_py. }
  destruct Hf as [->|[->|[->| ->]]]; unfold shear_parameter; cbn [sp_d1 sp_d2 sp_h1 sp_h2].
  - eapply pdeg_ext; [|apply (Q (st_ixx p) (- 2 * st_ixy p))]. intros; cbv beta; ring.
  - eapply pdeg_ext; [|apply (Q (st_ixy p) (2 * st_ixx p))]. intros; cbv beta; ring.
  - eapply pdeg_ext; [|apply (Q (- st_ixy p) (2 * st_iyy p))]. intros; cbv beta; ring.
  - eapply pdeg_ext; [|apply (Q (- st_iyy p) (- 2 * st_ixy p))]. intros; cbv beta; ring.
Qed.

Let W F (H : pdeg 1 F) : pdeg 2 F := pdeg_weaken 1 2 F (le_S 1 1 (le_n 1)) H.

Lemma d_lin (k1 k2 k3 : R) : pdeg 2 (fun g => k1 * px sh g + k2 * py sh g + k3).
Proof. apply W. apply pdeg_plus; [apply pdeg_plus; apply pdeg_scal; unfold sh; auto using d_px, d_py|apply pdeg_const]. Qed.

Lemma G_cases :
  (forall h, In h [sg_zz_mxx; sg_zz_myy; sg_zz_m11; sg_zz_m22; sg_zx_mzz; sg_zy_mzz; sg_zx_vx; sg_zy_vx; sg_zx_vy; sg_zy_vy] ->
    pdeg 2 (fun g => h (G g))).
Proof.
  intros h Hh. cbn [In] in Hh. unfold G, element_stress_gp. cbv zeta.
  set (E := m_E (el_mat el)).
  destruct Hh as [<-|[<-|[<-|[<-|[<-|[<-|[<-|[<-|[<-|[<-|[]]]]]]]]]]].
  - eapply pdeg_ext; [|apply (d_lin (E * (- (st_ixy p * a_mxx a) / (st_ixx p * st_iyy p - st_ixy p ^ 2))) (E * (st_iyy p * a_mxx a / (st_ixx p * st_iyy p - st_ixy p ^ 2))) 0)].
    intros g. destruct (principal_coordinate _ _ _) as [q1 q2]. cbn [sg_zz_mxx]. unfold px, py, shp, sh, shift_el. cbn [el_x el_y]. unfold Rdiv. ring.
  - eapply pdeg_ext; [|apply (d_lin (E * (- (st_ixx p * a_myy a) / (st_ixx p * st_iyy p - st_ixy p ^ 2))) (E * (st_ixy p * a_myy a / (st_ixx p * st_iyy p - st_ixy p ^ 2))) 0)].
    intros g. destruct (principal_coordinate _ _ _) as [q1 q2]. cbn [sg_zz_myy]. unfold px, py, shp, sh, shift_el. cbn [el_x el_y]. unfold Rdiv. ring.
  - eapply pdeg_ext; [|apply (d_lin (- (E * a_m11 a / st_i11 p) * sin (st_phi p * PI / 180)) ((E * a_m11 a / st_i11 p) * cos (st_phi p * PI / 180)) 0)].
    intros g. unfold principal_coordinate. cbv zeta. cbn [sg_zz_m11]. unfold px, py, shp, sh, shift_el. cbn [el_x el_y]. unfold Rdiv. ring.
  - eapply pdeg_ext; [|apply (d_lin ((E * - a_m22 a / st_i22 p) * cos (st_phi p * PI / 180)) ((E * - a_m22 a / st_i22 p) * sin (st_phi p * PI / 180)) 0)].
    intros g. unfold principal_coordinate. cbv zeta. cbn [sg_zz_m22]. unfold px, py, shp, sh, shift_el. cbn [el_x el_y]. unfold Rdiv. ring.
  - eapply pdeg_ext; [|apply (pdeg_scal 2 (if Req_EM_T (a_mzz a) 0 then 0 else E * a_mzz a / st_j p)); apply W; apply pdeg_minus; [apply (d_Gx (st_cx p) (st_cy p) el Hv om)|apply (d_py (st_cx p) (st_cy p) el Hv)]].
    intros g. cbv beta. destruct (principal_coordinate _ _ _) as [q1 q2]. cbn [sg_zx_mzz]. unfold Gx, gx, px, py, shp, sh, shift_el. cbn [el_x el_y el_ids].
    destruct (Req_EM_T (a_mzz a) 0); unfold Rdiv; ring.
  - eapply pdeg_ext; [|apply (pdeg_scal 2 (if Req_EM_T (a_mzz a) 0 then 0 else E * a_mzz a / st_j p)); apply W; apply pdeg_plus; [apply (d_Gy (st_cx p) (st_cy p) el Hv om)|apply (d_px (st_cx p) (st_cy p) el Hv)]].
    intros g. cbv beta. destruct (principal_coordinate _ _ _) as [q1 q2]. cbn [sg_zy_mzz]. unfold Gy, gy, px, py, shp, sh, shift_el. cbn [el_x el_y el_ids].
    destruct (Req_EM_T (a_mzz a) 0); unfold Rdiv; ring.
  - eapply pdeg_ext; [|apply (pdeg_scal 2 (if Req_EM_T (a_vx a) 0 then 0 else E * a_vx a / st_delta_s p)); apply pdeg_minus; [apply W; apply (d_Gx (st_cx p) (st_cy p) el Hv ps)|apply (pdeg_scal 2 (st_nu p / 2)); apply (d_spar sp_d1); auto]].
    intros g. cbv beta. destruct (principal_coordinate _ _ _) as [q1 q2]. cbn [sg_zx_vx]. unfold Gx, gx, px, py, shp, sh, shift_el. cbn [el_x el_y el_ids].
    destruct (Req_EM_T (a_vx a) 0); unfold Rdiv; ring.
  - eapply pdeg_ext; [|apply (pdeg_scal 2 (if Req_EM_T (a_vx a) 0 then 0 else E * a_vx a / st_delta_s p)); apply pdeg_minus; [apply W; apply (d_Gy (st_cx p) (st_cy p) el Hv ps)|apply (pdeg_scal 2 (st_nu p / 2)); apply (d_spar sp_d2); auto]].
    intros g. cbv beta. destruct (principal_coordinate _ _ _) as [q1 q2]. cbn [sg_zy_vx]. unfold Gy, gy, px, py, shp, sh, shift_el. cbn [el_x el_y el_ids].
    destruct (Req_EM_T (a_vx a) 0); unfold Rdiv; ring.
  - eapply pdeg_ext; [|apply (pdeg_scal 2 (if Req_EM_T (a_vy a) 0 then 0 else E * a_vy a / st_delta_s p)); apply pdeg_minus; [apply W; apply (d_Gx (st_cx p) (st_cy p) el Hv ph)|apply (pdeg_scal 2 (st_nu p / 2)); apply (d_spar sp_h1); auto]].
    intros g. cbv beta. destruct (principal_coordinate _ _ _) as [q1 q2]. cbn [sg_zx_vy]. unfold Gx, gx, px, py, shp, sh, shift_el. cbn [el_x el_y el_ids].
    destruct (Req_EM_T (a_vy a) 0); unfold Rdiv; ring.
  - eapply pdeg_ext; [|apply (pdeg_scal 2 (if Req_EM_T (a_vy a) 0 then 0 else E * a_vy a / st_delta_s p)); apply pdeg_minus; [apply W; apply (d_Gy (st_cx p) (st_cy p) el Hv ph)|apply (pdeg_scal 2 (st_nu p / 2)); apply (d_spar sp_h2); auto]].
    intros g. cbv beta. destruct (principal_coordinate _ _ _) as [q1 q2]. cbn [sg_zy_vy]. unfold Gy, gy, px, py, shp, sh, shift_el. cbn [el_x el_y el_ids].
    destruct (Req_EM_T (a_vy a) 0); unfold Rdiv; ring.
Qed.

Let col F := extrapolate_to_nodes (col6 F (at_gps6 (mkGp 0 0 0 0) (fun g => g))).

Lemma col_add F F' : col (fun g => F g + F' g) = add6 (col F) (col F').
Proof.
  unfold col. rewrite !col6_at. unfold extrapolate_to_nodes, mulM6. generalize h_inv. intros m. unfold add6, zip6. cbn [v0 v1 v2 v3 v4 v5].
  unfold dot6. cbn [v0 v1 v2 v3 v4 v5]. f_equal; ring.
Qed.
Lemma dot_add u v q : dot6 (add6 u v) q = dot6 u q + dot6 v q.
Proof. unfold dot6, add6, zip6. cbn [v0 v1 v2 v3 v4 v5]. ring. Qed.

(** stress at a point of an element *)
Lemma point_stress (pt : point) (eta xi zeta M Mx My : R) :
  local_coord el pt = (eta, xi, zeta) -> 0 <= eta -> 0 <= xi -> 0 <= zeta ->
  node_bound (field_bend el a p om ps ph) M -> node_bound (field_zx el a p om ps ph) Mx -> node_bound (field_zy el a p om ps ph) My ->
  let '(zz, zx, zy) := local_element_stress el pt a p (gather om (el_ids el)) (gather ps (el_ids el)) (gather ph (el_ids el)) in
  Rabs (zz - (a_n a * m_E (el_mat el) / st_ea p + field_bend el a p om ps ph xi zeta)) <= 12 / 10 ^ 14 * M /\
  Rabs (zx - field_zx el a p om ps ph xi zeta) <= 12 / 10 ^ 14 * Mx /\
  Rabs (zy - field_zy el a p om ps ph xi zeta) <= 12 / 10 ^ 14 * My.
Proof.
  intros HL H1 H2 H3 HM HMx HMy.
  pose proof (local_coord_spec el pt) as LS. rewrite HL in LS. destruct LS as [Hs _]; [destruct Hv as [_ Ho]; lra|].
  unfold local_element_stress. rewrite HL. cbv zeta. unfold element_stress.
  cbn [so_zz_n so_zz_mxx so_zz_myy so_zz_m11 so_zz_m22 so_zx_mzz so_zy_mzz so_zx_vx so_zy_vx so_zx_vy so_zy_vy].
  rewrite (at_gps6_col zero_stress_gp _ sg_zz_mxx), (at_gps6_col zero_stress_gp _ sg_zz_myy), (at_gps6_col zero_stress_gp _ sg_zz_m11), (at_gps6_col zero_stress_gp _ sg_zz_m22), (at_gps6_col zero_stress_gp _ sg_zx_mzz), (at_gps6_col zero_stress_gp _ sg_zy_mzz), (at_gps6_col zero_stress_gp _ sg_zx_vx), (at_gps6_col zero_stress_gp _ sg_zy_vx), (at_gps6_col zero_stress_gp _ sg_zx_vy), (at_gps6_col zero_stress_gp _ sg_zy_vy).
  set (n := shape_function_only (eta, xi, zeta)).
  repeat match goal with |- context [extrapolate_to_nodes (col6 ?F ?t)] => change (extrapolate_to_nodes (col6 F t)) with (col F) end.
  assert (N1 : dot6 (const6 (a_n a * 1 * m_E (el_mat el) / st_ea p)) n = a_n a * m_E (el_mat el) / st_ea p).
  { unfold n, shape_function_only, dot6, const6. cbn [v0 v1 v2 v3 v4 v5]. replace eta with (1 - xi - zeta) by lra. unfold Rdiv. ring. }
  rewrite N1. rewrite <- !dot_add, <- !col_add.
  assert (PB : pdeg 2 (fun g => sg_zz_mxx (G g) + sg_zz_myy (G g) + sg_zz_m11 (G g) + sg_zz_m22 (G g))).
  { repeat apply pdeg_plus; apply G_cases; cbn [In]; tauto. }
  assert (PX : pdeg 2 (fun g => sg_zx_mzz (G g) + (sg_zx_vx (G g) + sg_zx_vy (G g)))).
  { repeat apply pdeg_plus; apply G_cases; cbn [In]; tauto. }
  assert (PY : pdeg 2 (fun g => sg_zy_mzz (G g) + (sg_zy_vx (G g) + sg_zy_vy (G g)))).
  { repeat apply pdeg_plus; apply G_cases; cbn [In]; tauto. }
  pose proof (interp_ref _ M eta xi zeta PB HM H1 H2 H3 Hs) as RB.
  pose proof (interp_ref _ Mx eta xi zeta PX HMx H1 H2 H3 Hs) as RX.
  pose proof (interp_ref _ My eta xi zeta PY HMy H1 H2 H3 Hs) as RY.
  split; [|split].
  - match goal with |- Rabs (?n0 + ?d - (?n0 + ?f)) <= _ => replace (n0 + d - (n0 + f)) with (d - f) by ring end.
    exact RB.
  - exact RX.
  - exact RY.
Qed.

(** the bending stress formulas of beam theory *)
Lemma gp_bend (c : centroidal) s t : st_cx p = p_cx c -> st_cy p = p_cy c -> st_ixx p = p_ixx_c c -> st_iyy p = p_iyy_c c -> st_ixy p = p_ixy_c c ->
  st_i11 p = p_i11_c c -> st_i22 p = p_i22_c c -> st_phi p = p_phi c ->
  let P := (loc_x el s t, loc_y el s t) in
  let E := m_E (el_mat el) in
  sg_zz_mxx (G (loc s t)) = bend_xx c E (a_mxx a) P /\ sg_zz_myy (G (loc s t)) = bend_yy c E (a_myy a) P /\
  sg_zz_m11 (G (loc s t)) = bend_11 c E (a_m11 a) P /\ sg_zz_m22 (G (loc s t)) = bend_22 c E (a_m22 a) P.
Proof.
  intros E1 E2 E3 E4 E5 E6 E7 E8 P E. unfold G, element_stress_gp. cbv zeta.
  destruct (pos_shift (st_cx p) (st_cy p) el s t Hv) as [PX PY]. unfold px, py, shp, shift_el in PX, PY. cbn [el_x el_y] in PX, PY.
  rewrite PX, PY. clear PX PY. rewrite E1, E2, E3, E4, E5, E6, E7, E8. unfold bend_xx, bend_yy, bend_11, bend_22. unfold P. cbn [fst snd].
  destruct (principal_coordinate (p_phi c) (loc_x el s t - p_cx c) (loc_y el s t - p_cy c)) as [q1 q2].
  cbn [sg_zz_mxx sg_zz_myy sg_zz_m11 sg_zz_m22 fst snd]. fold E. unfold Rdiv. repeat split; ring.
Qed.
End Field.

Lemma el_value_close (el : tri6) (a : actions) (p : stress_par) (om ps ph : nat -> R) so sg j M : valid_el el ->
  In (so, sg) extrapolated -> (j < 6)%nat ->
  node_bound (fun s t => sg (field_at el a p om ps ph s t)) M ->
  Rabs (nth6 (so (element_stress el a p (gather om (el_ids el)) (gather ps (el_ids el)) (gather ph (el_ids el)))) j
        - sg (field_at el a p om ps ph (fst (local_node j)) (snd (local_node j)))) <= 2 / 10 ^ 14 * M.
Proof.
  intros Hv Hin Hj HM.
  assert (E : so (element_stress el a p (gather om (el_ids el)) (gather ps (el_ids el)) (gather ph (el_ids el))) =
     extrapolate_to_nodes (col6 (fun g => sg (element_stress_gp el a p (gather om (el_ids el)) (gather ps (el_ids el)) (gather ph (el_ids el)) g)) (at_gps6 (mkGp 0 0 0 0) (fun g => g)))
     /\ In sg [sg_zz_mxx; sg_zz_myy; sg_zz_m11; sg_zz_m22; sg_zx_mzz; sg_zy_mzz; sg_zx_vx; sg_zy_vx; sg_zx_vy; sg_zy_vy]).
  { unfold extrapolated in Hin. cbn [In] in Hin. unfold element_stress.
    destruct Hin as [H|[H|[H|[H|[H|[H|[H|[H|[H|[H|[]]]]]]]]]]]; injection H as <- <-;
    cbn [so_zz_n so_zz_mxx so_zz_myy so_zz_m11 so_zz_m22 so_zx_mzz so_zy_mzz so_zx_vx so_zy_vx so_zx_vy so_zy_vy]; (split; [|cbn [In]; tauto]);
    match goal with |- context [at_gps6 zero_stress_gp ?f] => rewrite (at_gps6_col zero_stress_gp f) end; reflexivity. }
  destruct E as [E Hsg]. rewrite E. clear E.
  apply (extrap_ref (fun g => sg (element_stress_gp el a p (gather om (el_ids el)) (gather ps (el_ids el)) (gather ph (el_ids el)) g)) M j); [|exact Hj|exact HM].
  apply (G_cases el Hv a p om ps ph sg Hsg).
Qed.

Lemma loc_node_x el j : valid_el el -> (j < 6)%nat ->
  (loc_x el (fst (local_node j)) (snd (local_node j)), loc_y el (fst (local_node j)) (snd (local_node j))) = (nth6 (el_x el) j, nth6 (el_y el) j).
Proof.
  intros [[Hx Hy] _] Hj. unfold loc_x, loc_y, el_point. cbn [fst snd]. rewrite Hx, Hy. unfold side_nodes, corner_a, corner_b, corner_c. cbn [fst snd].
  do 6 (destruct j as [|j]; [cbn [local_node fst snd nth6 v0 v1 v2 v3 v4 v5]; f_equal; field|]). lia.
Qed.
Lemma node_in el j : (j < 6)%nat -> In (nth6 (el_x el) j, nth6 (el_y el) j) (el_nodes el).
Proof. intros Hj. unfold el_nodes. do 6 (destruct j as [|j]; [cbn [nth6 In]; tauto|]). lia. Qed.
Lemma node_coords_local e x z : In (e, x, z) node_coords -> exists j, (j < 6)%nat /\ local_node j = (x, z).
Proof.
  unfold node_coords. cbn [In].
  intros [H|[H|[H|[H|[H|[H|[]]]]]]]; injection H as <- <- <-;
   [exists 0%nat|exists 1%nat|exists 2%nat|exists 3%nat|exists 4%nat|exists 5%nat]; (split; [lia|reflexivity]).
Qed.
Lemma has_node_gather el j i X : has_node el j i -> (j < 6)%nat -> nth6 (gather X (el_ids el)) j = X i.
Proof.
  unfold has_node, ids_list, gather. intros H Hj.
  do 6 (destruct j as [|j]; [cbn [nth_error] in H; injection H as <-; reflexivity|]). lia.
Qed.
Lemma has_node_lt el j i : has_node el j i -> (j < 6)%nat.
Proof. unfold has_node, ids_list. intros H. assert (Hl : nth_error [c0 (el_ids el); c1 (el_ids el); c2 (el_ids el); c3 (el_ids el); c4 (el_ids el); c5 (el_ids el)] j <> None) by congruence. apply nth_error_Some in Hl. exact Hl. Qed.

Lemma sp_fields composite t c w a p om ps ph : stress_parameters composite t c w a = Ok (p, om, ps, ph) ->
  st_cx p = p_cx c /\ st_cy p = p_cy c /\ st_ixx p = p_ixx_c c /\ st_iyy p = p_iyy_c c /\ st_ixy p = p_ixy_c c /\
  st_i11 p = p_i11_c c /\ st_i22 p = p_i22_c c /\ st_phi p = p_phi c /\ st_ea p = (if composite then t_ea t else t_area t).
Proof.
  intros H. destruct (params_cases composite t c w a p om ps ph H) as [[A [B [C [D [E [F [G [I J]]]]]]]] _].
  repeat split; try assumption. rewrite A. unfold full_par. destruct w; reflexivity.
Qed.

Lemma nodal_normal composite t c w a groups res k s cb m els n X Y i :
  calc_stress composite t c w a groups = Ok res -> nth_error res k = Some (s, cb) -> nth_error groups k = Some (m, els) ->
  mesh_on n X Y els -> (forall el, In el els -> el_mat el = m) -> in_group els i ->
  ns_zz_n s i = a_n a * m_E m / (if composite then t_ea t else t_area t) /\
  forall ns act sig M, In (ns, act, sig) bending ->
    (forall el q, In el els -> In q (el_nodes el) -> Rabs (sig c (m_E m) (act a) q) <= M) ->
    Rabs (ns s i - sig c (m_E m) (act a) (X i, Y i)) <= 2 / 10 ^ 14 * M.
Proof.
  intros Hc Hk Hg Hm Hmat Hi.
  destruct (calc_nth _ _ _ _ _ _ _ _ _ _ Hc Hk) as [m' [els' [p [om [ps [ph [G1 [HP [E1 _]]]]]]]]].
  rewrite Hg in G1. injection G1 as <- <-.
  assert (Hd : distinct_ids els) by (intros el Hel; apply (Hm el Hel)).
  destruct (sp_fields _ _ _ _ _ _ _ _ _ HP) as [F1 [F2 [F3 [F4 [F5 [F6 [F7 [F8 F9]]]]]]]].
  assert (AV : forall ns so act, In (ns, so, act) components -> ns s i =
     weighted_mean (contributions (fun el => so (element_stress el a p (gather om (el_ids el)) (gather ps (el_ids el)) (gather ph (el_ids el)))) els i)).
  { intros ns so act Hin. rewrite E1. rewrite (group_form a p om ps ph els ns so act Hin i). apply (average_wm _ els i Hd), Hi. }
  split.
  - rewrite (AV ns_zz_n so_zz_n a_n (or_introl eq_refl)).
    set (v := a_n a * m_E m / (if composite then t_ea t else t_area t)).
    assert (Z : Rabs (weighted_mean (contributions (fun el => so_zz_n (element_stress el a p (gather om (el_ids el)) (gather ps (el_ids el)) (gather ph (el_ids el)))) els i) - v) <= 0).
    { apply wm_close; [apply contrib_ne; assumption|]. intros q Hq. split; [apply (contrib_w_pos _ els i q Hd Hq)|].
      destruct (contrib_in _ els i q Hd Hq) as [el [j [Hel [Hn [Hj ->]]]]]. cbn [snd].
      assert (Ev : nth6 (so_zz_n (element_stress el a p (gather om (el_ids el)) (gather ps (el_ids el)) (gather ph (el_ids el)))) j = v).
      { unfold element_stress. cbn [so_zz_n]. unfold const6, v. rewrite (Hmat el Hel), F9. clear - Hj.
        do 6 (destruct j as [|j]; [cbn [nth6 v0 v1 v2 v3 v4 v5]; unfold Rdiv; ring|]). lia. }
      rewrite Ev. rewrite Rminus_diag_eq by reflexivity. rewrite Rabs_R0. lra. }
    pose proof (Rabs_pos (weighted_mean (contributions (fun el => so_zz_n (element_stress el a p (gather om (el_ids el)) (gather ps (el_ids el)) (gather ph (el_ids el)))) els i) - v)) as P0.
    apply Rminus_diag_uniq. destruct (Req_dec (weighted_mean (contributions (fun el => so_zz_n (element_stress el a p (gather om (el_ids el)) (gather ps (el_ids el)) (gather ph (el_ids el)))) els i) - v) 0) as [E|E]; [exact E|].
    apply Rabs_pos_lt in E. lra.
  - intros ns act sig M Hin HM.
    assert (C : exists so sg, In (ns, so, act) components /\ In (so, sg) extrapolated /\
       (forall el, In el els -> forall x z, sg (field_at el a p om ps ph x z) = sig c (m_E m) (act a) (loc_x el x z, loc_y el x z))).
    { unfold bending in Hin. cbn [In] in Hin.
      assert (GB : forall el, In el els -> forall x z, 
         sg_zz_mxx (field_at el a p om ps ph x z) = bend_xx c (m_E m) (a_mxx a) (loc_x el x z, loc_y el x z) /\
         sg_zz_myy (field_at el a p om ps ph x z) = bend_yy c (m_E m) (a_myy a) (loc_x el x z, loc_y el x z) /\
         sg_zz_m11 (field_at el a p om ps ph x z) = bend_11 c (m_E m) (a_m11 a) (loc_x el x z, loc_y el x z) /\
         sg_zz_m22 (field_at el a p om ps ph x z) = bend_22 c (m_E m) (a_m22 a) (loc_x el x z, loc_y el x z)).
      { intros el Hel x z. rewrite <- (Hmat el Hel). exact (gp_bend el (proj1 (Hm el Hel)) a p om ps ph c x z F1 F2 F3 F4 F5 F6 F7 F8). }
      destruct Hin as [H|[H|[H|[H|[]]]]]; injection H as <- <- <-;
        [exists so_zz_mxx, sg_zz_mxx|exists so_zz_myy, sg_zz_myy|exists so_zz_m11, sg_zz_m11|exists so_zz_m22, sg_zz_m22];
        (split; [unfold components; cbn [In]; tauto|]; split; [unfold extrapolated; cbn [In]; tauto|]; intros el Hel x z; apply (GB el Hel x z)). }
    destruct C as [so [sg [C1 [C2 C3]]]].
    rewrite (AV ns so act C1). apply wm_close; [apply contrib_ne; assumption|].
    intros q Hq. split; [apply (contrib_w_pos _ els i q Hd Hq)|].
    destruct (contrib_in _ els i q Hd Hq) as [el [j [Hel [Hn [Hj ->]]]]]. cbn [snd].
    destruct (Hm el Hel) as [Hv [_ [_ [EX EY]]]].
    assert (EN : (X i, Y i) = (loc_x el (fst (local_node j)) (snd (local_node j)), loc_y el (fst (local_node j)) (snd (local_node j)))).
    { rewrite (loc_node_x el j Hv Hj), EX, EY. rewrite !(has_node_gather el j i _ Hn Hj). reflexivity. }
    rewrite EN, <- (C3 el Hel). apply el_value_close; try assumption.
    intros e x z Hx. rewrite (C3 el Hel). destruct (node_coords_local e x z Hx) as [j' [Hj' EL]].
    apply (HM el); [exact Hel|]. pose proof (loc_node_x el j' Hv Hj') as LN. rewrite EL in LN. cbn [fst snd] in LN. rewrite LN. apply node_in, Hj'.
Qed.

(** ** Stress at points *)

Lemma in_tri_local el pt : valid_el el -> contains el pt -> 
  let '(eta, xi, zeta) := local_coord el pt in 0 <= eta /\ 0 <= xi /\ 0 <= zeta /\ (loc_x el xi zeta, loc_y el xi zeta) = pt.
Proof.
  intros [Hst Ho] [e [x [z [H1 [H2 [H3 [Hs [Ex Ey]]]]]]]].
  pose proof (local_coord_spec el pt) as L. destruct (local_coord el pt) as [[eta xi] zeta]. destruct L as [S P]; [lra|].
  assert (U : eta = e /\ xi = x /\ zeta = z).
  { unfold el_point in P. pose proof (f_equal fst P) as PX. pose proof (f_equal snd P) as PY. cbn [fst snd] in PX, PY. rewrite Ex in PX. rewrite Ey in PY. clear P. unfold orient in Ho.
    destruct (corner_a el) as [ax ay], (corner_b el) as [bx by_], (corner_c el) as [cx cy]. cbn [fst snd] in *.
    assert (D : (bx - ax) * (cy - ay) - (cx - ax) * (by_ - ay) <> 0) by lra.
    assert (Q1 : (xi - x) * (bx - ax) + (zeta - z) * (cx - ax) = 0) by (assert (Xe : eta = 1 - xi - zeta) by lra; assert (Xf : e = 1 - x - z) by lra; rewrite Xe, Xf in PX; lra).
    assert (Q2 : (xi - x) * (by_ - ay) + (zeta - z) * (cy - ay) = 0) by (assert (Xe : eta = 1 - xi - zeta) by lra; assert (Xf : e = 1 - x - z) by lra; rewrite Xe, Xf in PY; lra).
    assert (X0 : (xi - x) * ((bx - ax) * (cy - ay) - (cx - ax) * (by_ - ay)) = 0).
    { transitivity (((xi - x) * (bx - ax) + (zeta - z) * (cx - ax)) * (cy - ay) - ((xi - x) * (by_ - ay) + (zeta - z) * (cy - ay)) * (cx - ax)); [ring|rewrite Q1, Q2; ring]. }
    assert (Z0 : (zeta - z) * ((bx - ax) * (cy - ay) - (cx - ax) * (by_ - ay)) = 0).
    { transitivity (((xi - x) * (by_ - ay) + (zeta - z) * (cy - ay)) * (bx - ax) - ((xi - x) * (bx - ax) + (zeta - z) * (cx - ax)) * (by_ - ay)); [ring|rewrite Q1, Q2; ring]. }
    apply Rmult_integral in X0 as [X0|X0]; [|contradiction]. apply Rmult_integral in Z0 as [Z0|Z0]; [|contradiction]. lra. }
  destruct U as [-> [-> ->]]. repeat split; try assumption. unfold loc_x, loc_y.
  replace (1 - x - z) with e by lra. rewrite P. destruct pt; reflexivity.
Qed.

Lemma some_inj {A : Type} (x y : A) : Some x = Some y -> x = y.
Proof. congruence. Qed.

Section Points.
Context (els : list tri6) (query : point -> list nat) (agg : list R -> R) (composite : bool) (t : totals) (c : centroidal) (w : option warping) (a : actions).

Lemma points_shape pts res : stress_at_points els query agg composite t c w a pts = Ok res ->
  length res = length pts /\
  exists p om ps ph, stress_parameters composite t c w a = Ok (p, om, ps, ph) /\
  forall k pt, nth_error pts k = Some pt -> nth_error res k = Some (stress_at_point els (query pt) agg a p om ps ph pt).
Proof.
  unfold stress_at_points, bind. destruct (stress_parameters composite t c w a) as [[[[p om] ps] ph]|e]; [|discriminate].
  intros H. injection H as <-. split; [apply map_length|]. exists p, om, ps, ph. split; [reflexivity|].
  intros k pt Hk. rewrite nth_error_map, Hk. reflexivity.
Qed.

Lemma points_none pts res k pt : exact_query els query -> stress_at_points els query agg composite t c w a pts = Ok res -> nth_error pts k = Some pt ->
  exists r, nth_error res k = Some r /\ (r = None <-> forall el, In el els -> ~ contains el pt).
Proof.
  intros HQ H Hk. destruct (points_shape pts res H) as [_ [p [om [ps [ph [_ N]]]]]]. eexists. split; [apply N, Hk|].
  unfold stress_at_point. destruct (query pt) as [|i l] eqn:E.
  - split; [|reflexivity]. intros _ el Hel Hc. apply In_nth_error in Hel as [i Hi].
    assert (Hin : In i (query pt)) by (apply HQ; exists el; auto). rewrite E in Hin. exact Hin.
  - assert (I : In i (query pt)) by (rewrite E; left; reflexivity). apply HQ in I as [el [Hi Hc]].
    split; [|intros Hn; exfalso; apply (Hn el (nth_error_In _ _ Hi) Hc)]. destruct l; [rewrite Hi; discriminate|discriminate].
Qed.

(** the value lies in any interval that contains the values of all elements containing the point *)
Lemma points_range pts res k pt zz zx zy : exact_query els query -> within_range agg -> stress_at_points els query agg composite t c w a pts = Ok res ->
  nth_error pts k = Some pt -> nth_error res k = Some (Some (zz, zx, zy)) ->
  exists p om ps ph, stress_parameters composite t c w a = Ok (p, om, ps, ph) /\
  forall lo hi,
    (forall el, In el els -> contains el pt -> let '(z, _, _) := local_element_stress el pt a p (gather om (el_ids el)) (gather ps (el_ids el)) (gather ph (el_ids el)) in lo <= z <= hi) -> lo <= zz <= hi.
Proof.
  intros HQ HA H Hk Hr. destruct (points_shape pts res H) as [_ [p [om [ps [ph [HP N]]]]]]. exists p, om, ps, ph. split; [exact HP|].
  intros lo hi Hall. rewrite (N k pt Hk) in Hr. apply some_inj in Hr. unfold stress_at_point in Hr.
  destruct (query pt) as [|i [|i' l]] eqn:E; [discriminate| |].
  - assert (I : In i (query pt)) by (rewrite E; left; reflexivity). apply HQ in I as [el [Hi Hc]]. rewrite Hi in Hr. apply some_inj in Hr.
    specialize (Hall el (nth_error_In _ _ Hi) Hc). rewrite Hr in Hall. exact Hall.
  - apply some_inj in Hr. apply (f_equal (fun q => fst (fst q))) in Hr. cbn [fst] in Hr. rewrite <- Hr. apply HA.
    + assert (I : In i (query pt)) by (rewrite E; left; reflexivity). apply HQ in I as [el [Hi Hc]]. cbn [map concat]. rewrite Hi. discriminate.
    + intros x Hx. apply in_map_iff in Hx as [[[z z1] z2] [<- Hx]]. apply in_concat in Hx as [l0 [Hl0 Hx]]. apply in_map_iff in Hl0 as [i0 [<- Hi0]].
      rewrite <- E in Hi0. apply HQ in Hi0 as [el [Hi0 Hc]]. rewrite Hi0 in Hx. destruct Hx as [Hx|[]].
      specialize (Hall el (nth_error_In _ _ Hi0) Hc). cbn [fst]. rewrite Hx in Hall. exact Hall.
Qed.

Lemma points_normal pts res k pt zz zx zy E M : valid_mesh els -> exact_query els query -> within_range agg ->
  stress_at_points els query agg composite t c w a pts = Ok res ->
  nth_error pts k = Some pt -> nth_error res k = Some (Some (zz, zx, zy)) ->
  (forall el, In el els -> contains el pt -> m_E (el_mat el) = E) ->
  (forall el q, In el els -> contains el pt -> In q (el_nodes el) -> Rabs (beam_bending c E a q) <= M) ->
  Rabs (zz - beam_total (if composite then t_ea t else t_area t) c E a pt) <= 12 / 10 ^ 14 * M.
Proof.
  intros Hv HQ HA H Hk Hr HE HM.
  destruct (points_range pts res k pt zz zx zy HQ HA H Hk Hr) as [p [om [ps [ph [HP HR]]]]].
  destruct (sp_fields _ _ _ _ _ _ _ _ _ HP) as [F1 [F2 [F3 [F4 [F5 [F6 [F7 [F8 F9]]]]]]]].
  set (v := beam_total (if composite then t_ea t else t_area t) c E a pt).
  apply Rabs_le. assert (v - 12 / 10 ^ 14 * M <= zz <= v + 12 / 10 ^ 14 * M); [|lra].
  apply HR. intros el Hel Hc. pose proof (Hv el Hel) as Hve.
  pose proof (in_tri_local el pt Hve Hc) as L. destruct (local_coord el pt) as [[eta xi] zeta] eqn:EL. destruct L as [L1 [L2 [L3 L4]]].
  assert (GB : forall x z, field_bend el a p om ps ph x z = beam_bending c E a (loc_x el x z, loc_y el x z)).
  { intros x z. unfold field_bend, beam_bending. cbv zeta.
    destruct (gp_bend el Hve a p om ps ph c x z F1 F2 F3 F4 F5 F6 F7 F8) as [B1 [B2 [B3 B4]]]. unfold field_at. rewrite B1, B2, B3, B4, (HE el Hel Hc). reflexivity. }
  assert (NB : node_bound (field_bend el a p om ps ph) M).
  { intros e x z Hx. rewrite GB. destruct (node_coords_local e x z Hx) as [j' [Hj' ELj]].
    apply (HM el); try assumption. pose proof (loc_node_x el j' Hve Hj') as LN. rewrite ELj in LN. cbn [fst snd] in LN. rewrite LN. apply node_in, Hj'. }
  assert (EX : forall f : R -> R -> R, exists B, node_bound f B).
  { intros f. exists (Rabs (f 0 0) + Rabs (f 1 0) + Rabs (f 0 1) + Rabs (f (1/2) 0) + Rabs (f (1/2) (1/2)) + Rabs (f 0 (1/2))).
    intros e x z Hx. unfold node_coords in Hx. cbn [In] in Hx.
    pose proof (Rabs_pos (f 0 0)). pose proof (Rabs_pos (f 1 0)). pose proof (Rabs_pos (f 0 1)). pose proof (Rabs_pos (f (1/2) 0)). pose proof (Rabs_pos (f (1/2) (1/2))). pose proof (Rabs_pos (f 0 (1/2))).
    destruct Hx as [Hx|[Hx|[Hx|[Hx|[Hx|[Hx|[]]]]]]]; injection Hx as <- <- <-; lra. }
  destruct (EX (field_zx el a p om ps ph)) as [Mx HMx]. destruct (EX (field_zy el a p om ps ph)) as [My HMy].
  pose proof (point_stress el Hve a p om ps ph pt eta xi zeta M Mx My EL L1 L2 L3 NB HMx HMy) as PS.
  destruct (local_element_stress _ _ _ _ _ _ _) as [[z z1] z2]. destruct PS as [PS _].
  rewrite GB, L4, (HE el Hel Hc), F9 in PS. apply Rabs_le_between in PS.
  assert (EV : v = a_n a * E / (if composite then t_ea t else t_area t) + beam_bending c E a pt).
  { unfold v, beam_total, beam_zz, beam_zz_p, beam_bending. ring. }
  lra.
Qed.
End Points.
