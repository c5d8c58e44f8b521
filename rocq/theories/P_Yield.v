(** Yield moments of valid meshes, extreme fibres, frame analysis. *)
From Coq Require Import Reals List Lra Lia Permutation.
From Coquelicot Require Import Coquelicot.
From Verif Require Import Base S_Integral M_Fea S_Fem M_Post M_Section S_Section S_Post P_Integral P_Fea P_Geom P_Section P_Totals P_Post.
Import ListNotations.
Local Open Scope R_scope.

Lemma corners_in_nodes (el : tri6) (p : point) : In p [corner_a el; corner_b el; corner_c el] -> In p (el_nodes el).
Proof. unfold el_nodes, corner_a, corner_b, corner_c. cbn [In]. tauto. Qed.

(** An affine function of non-zero gradient that vanishes at the centroid has a positive maximum over
    any list of points containing the corners. *)
Lemma extreme_pos (els : list tri6) (nodes : list point) (u v : R) (p : point) :
  els <> [] -> valid_mesh els -> pos_moduli els -> (u <> 0 \/ v <> 0) ->
  (forall el q, In el els -> In q [corner_a el; corner_b el; corner_c el] -> In q nodes) ->
  let c := centroidal_of (section_totals els) in
  attains_max (fun q => u * (fst q - p_cx c) + v * (snd q - p_cy c)) nodes p ->
  0 < u * (fst p - p_cx c) + v * (snd p - p_cy c).
Proof.
  intros Hn Hv Hp Huv Hno c [Hin Hmax].
  assert (N : - u <> 0 \/ - v <> 0) by (destruct Huv; [left|right]; lra).
  pose proof (centroid_half_plane els (- u) (- v) (u * fst p + v * snd p) Hn Hv Hp N) as H.
  cbv zeta in H. fold c in H. 
  assert (G : 0 < - u * p_cx c + - v * p_cy c + (u * fst p + v * snd p)).
  { apply H. intros el q Hel Hq. pose proof (Hmax q (Hno el q Hel Hq)). lra. }
  lra.
Qed.


Lemma attains_max_ext (f g : point -> R) (l : list point) (p : point) :
  (forall q, In q l -> forall r, In r l -> f q <= f r -> g q <= g r) -> attains_max f l p -> attains_max g l p.
Proof. intros H [Hi Hm]. split; [exact Hi|]. intros q Hq. apply H; auto. Qed.

Lemma extreme_sides (els : list tri6) (nodes : list point) :
  els <> [] -> valid_mesh els -> pos_moduli els -> mesh_nodes_in els nodes ->
  let c := centroidal_of (section_totals els) in
  (forall p, attains_max snd nodes p -> p_cy c < snd p) /\
  (forall p, attains_max (fun q => - snd q) nodes p -> snd p < p_cy c) /\
  (forall p, attains_max fst nodes p -> p_cx c < fst p) /\
  (forall p, attains_max (fun q => - fst q) nodes p -> fst p < p_cx c) /\
  (forall p, attains_max (fun q => snd (pr11 c q)) nodes p -> 0 < snd (pr11 c p)) /\
  (forall p, attains_max (fun q => - snd (pr11 c q)) nodes p -> snd (pr11 c p) < 0) /\
  (forall p, attains_max (fun q => fst (pr11 c q)) nodes p -> 0 < fst (pr11 c p)) /\
  (forall p, attains_max (fun q => - fst (pr11 c q)) nodes p -> fst (pr11 c p) < 0).
Proof.
  intros Hn Hv Hp Hno c.
  assert (K : forall u v p, (u <> 0 \/ v <> 0) ->
     attains_max (fun q => u * (fst q - p_cx c) + v * (snd q - p_cy c)) nodes p ->
     0 < u * (fst p - p_cx c) + v * (snd p - p_cy c)).
  { intros u v p Huv Hm. exact (extreme_pos els nodes u v p Hn Hv Hp Huv Hno Hm). }
  set (t := p_phi c * PI / 180).
  pose proof (sin2_cos2 t) as Q. unfold Rsqr in Q.
  assert (NZ : sin t <> 0 \/ cos t <> 0).
  { destruct (Req_dec (sin t) 0) as [E|E]; [right|left; exact E]. intros E'. rewrite E, E' in Q. lra. }
  unfold pr11, principal_coordinate. fold t. cbn [fst snd].
  split; [|split; [|split; [|split; [|split; [|split; [|split]]]]]]; intros p Hm.
  - assert (H := K 0 1 p (or_intror R1_neq_R0)).
    assert (0 < 0 * (fst p - p_cx c) + 1 * (snd p - p_cy c)); [|lra].
    apply H. eapply attains_max_ext; [|exact Hm]. cbv beta. intros; lra.
  - assert (H := K 0 (-1) p ltac:(right; lra)).
    assert (0 < 0 * (fst p - p_cx c) + -1 * (snd p - p_cy c)); [|lra].
    apply H. eapply attains_max_ext; [|exact Hm]. cbv beta. intros; lra.
  - assert (H := K 1 0 p ltac:(left; lra)).
    assert (0 < 1 * (fst p - p_cx c) + 0 * (snd p - p_cy c)); [|lra].
    apply H. eapply attains_max_ext; [|exact Hm]. cbv beta. intros; lra.
  - assert (H := K (-1) 0 p ltac:(left; lra)).
    assert (0 < -1 * (fst p - p_cx c) + 0 * (snd p - p_cy c)); [|lra].
    apply H. eapply attains_max_ext; [|exact Hm]. cbv beta. intros; lra.
  - assert (H := K (- sin t) (cos t) p ltac:(destruct NZ; [left|right]; lra)).
    assert (0 < - sin t * (fst p - p_cx c) + cos t * (snd p - p_cy c)); [|lra].
    apply H. eapply attains_max_ext; [|exact Hm]. cbv beta. intros; lra.
  - assert (H := K (sin t) (- cos t) p ltac:(destruct NZ; [left|right]; lra)).
    assert (0 < sin t * (fst p - p_cx c) + - cos t * (snd p - p_cy c)); [|lra].
    apply H. eapply attains_max_ext; [|exact Hm]. cbv beta. intros; lra.
  - assert (H := K (cos t) (sin t) p ltac:(destruct NZ; [right|left]; lra)).
    assert (0 < cos t * (fst p - p_cx c) + sin t * (snd p - p_cy c)); [|lra].
    apply H. eapply attains_max_ext; [|exact Hm]. cbv beta. intros; lra.
  - assert (H := K (- cos t) (- sin t) p ltac:(destruct NZ; [right|left]; lra)).
    assert (0 < - cos t * (fst p - p_cx c) + - sin t * (snd p - p_cy c)); [|lra].
    apply H. eapply attains_max_ext; [|exact Hm]. cbv beta. intros; lra.
Qed.

(** ** Yield moments of a mesh split into material groups *)


(** A bending stress is E times an affine function of non-zero gradient. *)
Definition affine_stress (sig : R -> R -> point -> R) (u v k : R) : Prop :=
  forall E M p, sig E M p = E * M * (u * fst p + v * snd p + k).

Section Yield.
Context (els : list tri6) (groups : list (material * list tri6)).
Context (Hn : els <> []) (Hv : valid_mesh els) (Hp : pos_moduli els) (Hg : groups_ok groups els)
        (Hfy : forall el, In el els -> 0 < m_fy (el_mat el)).
Let c := centroidal_of (section_totals els).

Lemma group_node_mat m p : group_node groups m p ->
  exists el, In el els /\ el_mat el = m /\ In p (el_nodes el).
Proof.
  intros [l [el [H1 [H2 H3]]]]. exists el. destruct (proj1 Hg m l el H1 H2). auto.
Qed.

Lemma yield_any (h : quad_idx -> R) (sig : R -> R -> point -> R) (u v k : R) :
  h (mkIdx 0 0 0 0) = 0 ->
  (forall m acc p, h (upd_yield c m acc p) = Rmax (h acc) (Rabs (sig (m_E m) 1 p / m_fy m))) ->
  affine_stress sig u v k -> (u <> 0 \/ v <> 0) ->
  let my := 1 / h (yield_index c groups) in
  0 < my /\
  (forall M el p, Rabs M <= my -> In el els -> in_triangle (corner_a el) (corner_b el) (corner_c el) p ->
     Rabs (sig (m_E (el_mat el)) M p) <= m_fy (el_mat el)) /\
  (exists el p, In el els /\ In p (el_nodes el) /\ Rabs (sig (m_E (el_mat el)) my p) = m_fy (el_mat el)).
Proof.
  intros H0 H Ha Huv my.
  assert (Hpos : 0 < h (yield_index c groups)).
  { rewrite (yield_component c groups h (fun m p => sig (m_E m) 1 p) H0 H).
    destruct els as [|el els'] eqn:E; [contradiction|]. rewrite <- E in *.
    assert (Hel : In el els) by (rewrite E; left; reflexivity).
    pose proof (corners_not_all el u v k (Hv el Hel) Huv) as N.
    assert (exists q, In q [corner_a el; corner_b el; corner_c el] /\ u * fst q + v * snd q + k <> 0) as [q [Hq Hnz]].
    { destruct (Req_dec (u * fst (corner_a el) + v * snd (corner_a el) + k) 0);
      [destruct (Req_dec (u * fst (corner_b el) + v * snd (corner_b el) + k) 0);
       [destruct (Req_dec (u * fst (corner_c el) + v * snd (corner_c el) + k) 0)|]|].
      - tauto.
      - exists (corner_c el). split; [cbn; tauto|assumption].
      - exists (corner_b el). split; [cbn; tauto|assumption].
      - exists (corner_a el). split; [cbn; tauto|assumption]. }
    destruct (proj2 Hg el Hel) as [l [Hl Hin]].
    eapply Rlt_le_trans; [|apply lmax_spec; right; apply in_map_iff; exists (el_mat el, q); split; [reflexivity|]].
    - cbn [fst snd]. apply Rabs_pos_lt. rewrite Ha. pose proof (Hp el Hel). pose proof (Hfy el Hel).
      apply Rmult_integral_contrapositive_currified; [|apply Rinv_neq_0_compat; lra].
      apply Rmult_integral_contrapositive_currified; [lra|exact Hnz].
    - apply all_nodes_spec. exists l, el. split; [exact Hl|]. split; [exact Hin|]. apply corners_in_nodes, Hq. }
  destruct (yield_generic c groups h (fun m M p => sig (m_E m) M p) H0 H) as [P1 [P2 P3]].
  - intros m M p. rewrite !Ha. ring.
  - intros m p Hgn. destruct (group_node_mat m p Hgn) as [el [H1 [<- _]]]. apply Hfy, H1.
  - exact Hpos.
  - fold my in P1, P2, P3. split; [exact P1|]. split.
    + intros M el p HM Hel [eta [xi [zeta [G1 [G2 [G3 [G4 [G5 G6]]]]]]]].
      destruct (proj2 Hg el Hel) as [l [Hl Hin]].
      assert (B : forall q, In q [corner_a el; corner_b el; corner_c el] ->
        Rabs (sig (m_E (el_mat el)) M q) <= m_fy (el_mat el)).
      { intros q Hq. apply (P2 M (el_mat el) q HM). exists l, el.
        split; [exact Hl|]. split; [exact Hin|]. apply corners_in_nodes, Hq. }
      pose proof (B (corner_a el) ltac:(cbn; tauto)) as Ba.
      pose proof (B (corner_b el) ltac:(cbn; tauto)) as Bb.
      pose proof (B (corner_c el) ltac:(cbn; tauto)) as Bc.
      assert (E : sig (m_E (el_mat el)) M p = eta * sig (m_E (el_mat el)) M (corner_a el) +
        xi * sig (m_E (el_mat el)) M (corner_b el) + zeta * sig (m_E (el_mat el)) M (corner_c el)).
      { rewrite !Ha, G5, G6. replace zeta with (1 - eta - xi) by lra. ring. }
      rewrite E. apply Rabs_le_between in Ba. apply Rabs_le_between in Bb. apply Rabs_le_between in Bc.
      apply Rabs_le. set (f := m_fy (el_mat el)) in *.
      replace f with (eta * f + xi * f + zeta * f) by (replace zeta with (1 - eta - xi) by lra; ring).
      split; nra.
    + destruct P3 as [m [p [Hgn Hst]]]. destruct (group_node_mat m p Hgn) as [el [H1 [<- H3]]].
      exists el, p. auto.
Qed.

Lemma det_pos : 0 < p_ixx_c c /\ 0 < p_iyy_c c /\ 0 < p_ixx_c c * p_iyy_c c - p_ixy_c c ^ 2 /\
  0 < p_i11_c c /\ 0 < p_i22_c c.
Proof.
  destruct (inertia_pos els Hn Hv Hp) as [B [A C]]. fold c in A, B, C.
  destruct (principal_pos _ _ _ A B C) as [G1 G2].
  change (p_i11_c c) with (principal_i11 (p_ixx_c c) (p_iyy_c c) (p_ixy_c c)).
  change (p_i22_c c) with (principal_i22 (p_ixx_c c) (p_iyy_c c) (p_ixy_c c)).
  repeat split; try assumption. lra.
Qed.

Lemma affine_xx : exists u v k, affine_stress (fun E M p => bend_xx c E M p) u v k /\ (u <> 0 \/ v <> 0).
Proof.
  destruct det_pos as [A [B [D [E F]]]].
  exists (- p_ixy_c c / (p_ixx_c c * p_iyy_c c - p_ixy_c c ^ 2)),
    (p_iyy_c c / (p_ixx_c c * p_iyy_c c - p_ixy_c c ^ 2)),
    ((p_ixy_c c * p_cx c - p_iyy_c c * p_cy c) / (p_ixx_c c * p_iyy_c c - p_ixy_c c ^ 2)). split.
  - intros e M p. unfold bend_xx. field. lra.
  - right. apply Rgt_not_eq, Rdiv_lt_0_compat; assumption.
Qed.
Lemma affine_yy : exists u v k, affine_stress (fun E M p => bend_yy c E M p) u v k /\ (u <> 0 \/ v <> 0).
Proof.
  destruct det_pos as [A [B [D [E F]]]].
  exists (- (p_ixx_c c / (p_ixx_c c * p_iyy_c c - p_ixy_c c ^ 2))),
    (p_ixy_c c / (p_ixx_c c * p_iyy_c c - p_ixy_c c ^ 2)),
    ((p_ixx_c c * p_cx c - p_ixy_c c * p_cy c) / (p_ixx_c c * p_iyy_c c - p_ixy_c c ^ 2)). split.
  - intros e M p. unfold bend_yy. field. lra.
  - left. apply Ropp_neq_0_compat. apply Rgt_not_eq, Rdiv_lt_0_compat; assumption.
Qed.
Lemma sincos_nz t : sin t <> 0 \/ cos t <> 0.
Proof.
  pose proof (sin2_cos2 t) as Q. unfold Rsqr in Q.
  destruct (Req_dec (sin t) 0) as [E|E]; [right|left; exact E]. intros E'. rewrite E, E' in Q. lra.
Qed.
Lemma affine_11 : exists u v k, affine_stress (fun E M p => bend_11 c E M p) u v k /\ (u <> 0 \/ v <> 0).
Proof.
  destruct det_pos as [A [B [D [E F]]]]. set (t := p_phi c * PI / 180).
  exists (- (sin t / p_i11_c c)), (cos t / p_i11_c c), ((sin t * p_cx c - cos t * p_cy c) / p_i11_c c). split.
  - intros e M p. unfold bend_11, principal_coordinate. fold t. cbn [fst snd]. field. lra.
  - destruct (sincos_nz t); [left; apply Ropp_neq_0_compat|right];
      (apply Rmult_integral_contrapositive_currified; [assumption|apply Rinv_neq_0_compat; lra]).
Qed.
Lemma affine_22 : exists u v k, affine_stress (fun E M p => bend_22 c E M p) u v k /\ (u <> 0 \/ v <> 0).
Proof.
  destruct det_pos as [A [B [D [E F]]]]. set (t := p_phi c * PI / 180).
  exists (- (cos t / p_i22_c c)), (- (sin t / p_i22_c c)), ((cos t * p_cx c + sin t * p_cy c) / p_i22_c c). split.
  - intros e M p. unfold bend_22, principal_coordinate. fold t. cbn [fst snd]. field. lra.
  - destruct (sincos_nz t); [right|left]; apply Ropp_neq_0_compat;
      (apply Rmult_integral_contrapositive_currified; [assumption|apply Rinv_neq_0_compat; lra]).
Qed.


Lemma yield_all :
  is_yield_moment els (bend_xx c) (q_xx (yield_moments c groups)) /\
  is_yield_moment els (bend_yy c) (q_yy (yield_moments c groups)) /\
  is_yield_moment els (bend_11 c) (q_11 (yield_moments c groups)) /\
  is_yield_moment els (bend_22 c) (q_22 (yield_moments c groups)).
Proof.
  destruct det_pos as [A [B [D [E F]]]].
  destruct affine_xx as [u1 [v1 [k1 [A1 N1]]]]. destruct affine_yy as [u2 [v2 [k2 [A2 N2]]]].
  destruct affine_11 as [u3 [v3 [k3 [A3 N3]]]]. destruct affine_22 as [u4 [v4 [k4 [A4 N4]]]].
  split; [|split; [|split]].
  - refine (yield_any q_xx _ u1 v1 k1 eq_refl _ A1 N1). intros. apply upd_xx. lra.
  - refine (yield_any q_yy _ u2 v2 k2 eq_refl _ A2 N2). intros. apply upd_yy. lra.
  - refine (yield_any q_11 _ u3 v3 k3 eq_refl _ A3 N3). intros. apply upd_11. lra.
  - refine (yield_any q_22 _ u4 v4 k4 eq_refl _ A4 N4). intros. apply upd_22. lra.
Qed.
End Yield.

(** ** Frame analysis *)

Lemma frame_loop_totals (els : list tri6) : frame_loop els =
  let t := section_totals els in
  mkFrameTotals (t_area t) (t_ea t) (t_qx t) (t_qy t) (t_ixx_g t) (t_iyy_g t) (t_ixy_g t).
Proof.
  unfold frame_loop, section_totals.
  change (mkFrameTotals 0 0 0 0 0 0 0) with
    (let t := zero_totals in mkFrameTotals (t_area t) (t_ea t) (t_qx t) (t_qy t) (t_ixx_g t) (t_iyy_g t) (t_ixy_g t)).
  generalize zero_totals as t. induction els as [|el els IH]; intros t; [reflexivity|].
  cbn [fold_left]. rewrite <- IH. reflexivity.
Qed.

Lemma unit_ea (els : list tri6) : (forall el, In el els -> m_E (el_mat el) = 1) ->
  t_ea (section_totals els) = t_area (section_totals els).
Proof.
  intros H. rewrite section_totals_q. red_tot. unfold mesh_q. apply sumf_ext. intros el Hel.
  rewrite (H el Hel). reflexivity.
Qed.

Lemma frame_spec (n : nat) (solve : lg_solver) (composite : bool) (els : list tri6) :
  (composite = false -> forall el, In el els -> m_E (el_mat el) = 1) ->
  let t := section_totals els in
  let c := centroidal_of t in
  frame_analysis n solve composite els =
  bind (solve (fst (assemble_torsion n (map (shift_el (p_cx c) (p_cy c)) els)))
              (snd (assemble_torsion n (map (shift_el (p_cx c) (p_cy c)) els))))
    (fun omega => Ok (mkFrame (t_area t) (p_ixx_c c) (p_iyy_c c) (p_ixy_c c)
       (p_ixx_c c + p_iyy_c c - dotn n omega (snd (assemble_torsion n (map (shift_el (p_cx c) (p_cy c)) els))))
       (p_phi c))).
Proof.
  intros Hc t c. unfold frame_analysis. rewrite frame_loop_totals. cbv zeta.
  cbn [f_area f_ea f_qx f_qy f_ixx_g f_iyy_g f_ixy_g].
  assert (E : (if composite then t_ea (section_totals els) else t_area (section_totals els)) = t_ea (section_totals els)).
  { destruct composite; [reflexivity|]. symmetry. apply unit_ea, Hc. reflexivity. }
  rewrite E. unfold c, t, centroidal_of, principal_phi, principal_i11, principal_delta.
  cbn [p_cx p_cy p_ixx_c p_iyy_c p_ixy_c p_phi].
  destruct (assemble_torsion n _) as [k f]. reflexivity.
Qed.

Lemma warping_j (n : nat) (solve : lg_solver) (composite : bool) (els : list tri6) (w : warping) :
  let t := section_totals els in
  let c := centroidal_of t in
  warping_analysis n solve composite t c els = Ok w ->
  solve (fst (assemble_torsion n (map (shift_el (p_cx c) (p_cy c)) els)))
        (snd (assemble_torsion n (map (shift_el (p_cx c) (p_cy c)) els))) = Ok (w_omega w) /\
  w_j w = p_ixx_c c + p_iyy_c c - dotn n (w_omega w) (snd (assemble_torsion n (map (shift_el (p_cx c) (p_cy c)) els))).
Proof.
  intros t c. unfold warping_analysis. destruct (assemble_torsion n _) as [k f]. cbn [fst snd].
  destruct (solve k f) as [om|e] eqn:Eo; [|discriminate]. cbn [bind].
  destruct (assemble_shear_load _ _ _ _ _) as [fp fh].
  destruct (solve k fp) as [ps|e]; [|discriminate]. cbn [bind].
  destruct (solve k fh) as [ph|e]; [|discriminate]. cbn [bind].
  destruct (principal_coordinate _ _ _) as [x1 y2].
  destruct (shear_deformation _ _ _ _ _ _ _) as [[kx ky] kxy].
  intros H. injection H as <-. cbn [w_omega w_j]. split; reflexivity.
Qed.

Lemma frame_warping (n : nat) (solve : lg_solver) (composite : bool) (els : list tri6) (w : warping) :
  (composite = false -> forall el, In el els -> m_E (el_mat el) = 1) ->
  let t := section_totals els in
  let c := centroidal_of t in
  warping_analysis n solve composite t c els = Ok w ->
  frame_analysis n solve composite els =
  Ok (mkFrame (t_area t) (p_ixx_c c) (p_iyy_c c) (p_ixy_c c) (w_j w) (p_phi c)).
Proof.
  intros Hc t c H. destruct (warping_j _ _ _ _ _ H) as [H1 H2].
  rewrite (frame_spec n solve composite els Hc). fold t c in H1, H2. fold t c. rewrite H1, H2. reflexivity.
Qed.

Lemma frame_fails (n : nat) (solve : lg_solver) (composite : bool) (els : list tri6) (e : exn) :
  (composite = false -> forall el, In el els -> m_E (el_mat el) = 1) ->
  frame_analysis n solve composite els = Err e ->
  warping_analysis n solve composite (section_totals els) (centroidal_of (section_totals els)) els = Err e.
Proof.
  intros Hc. rewrite (frame_spec n solve composite els Hc). unfold warping_analysis.
  destruct (assemble_torsion n _) as [k f]. cbn [fst snd].
  destruct (solve k f) as [om|e']; cbn [bind]; [discriminate|]. intros H. injection H as <-. reflexivity.
Qed.
