(** Bending resultants, warping constant, solver constants and monosymmetry constants. *)
From Coq Require Import Reals List Lra Lia Bool.
From Coquelicot Require Import Coquelicot.
From Verif Require Import Base S_Integral M_Fea S_Fem M_Post M_Section S_Section S_Post S_Warp M_Stress
  P_Integral P_Fea P_Geom P_Elem P_Section P_Totals P_Post P_Yield P_Warp P_Warp2 P_Warp3 P_Warp4 P_Warp5.
Import ListNotations.
Local Open Scope R_scope.

(** ** Monosymmetry integrals *)

Definition f_mx (x y : R) : R := x ^ 2 * y + y ^ 3.
Definition f_my (x y : R) : R := y ^ 2 * x + x ^ 3.
Lemma poly_f_mx : poly_deg 3 f_mx.
Proof.
  apply poly_plus.
  - apply (poly_ext 3 (fun x y => x * x * y)); [|intros; ring].
    apply (poly_mul 2 1 (fun x y => x * x) (fun x y => y)); [apply (poly_mul 1 1 (fun x y => x) (fun x y => x)); apply poly_x|apply poly_y].
  - apply (poly_ext 3 (fun x y => y * y * y)); [|intros; ring].
    apply (poly_mul 2 1 (fun x y => y * y) (fun x y => y)); [apply (poly_mul 1 1 (fun x y => y) (fun x y => y)); apply poly_y|apply poly_y].
Qed.
Lemma poly_f_my : poly_deg 3 f_my.
Proof.
  apply poly_plus.
  - apply (poly_ext 3 (fun x y => y * y * x)); [|intros; ring].
    apply (poly_mul 2 1 (fun x y => y * y) (fun x y => x)); [apply (poly_mul 1 1 (fun x y => y) (fun x y => y)); apply poly_y|apply poly_x].
  - apply (poly_ext 3 (fun x y => x * x * x)); [|intros; ring].
    apply (poly_mul 2 1 (fun x y => x * x) (fun x y => x)); [apply (poly_mul 1 1 (fun x y => x) (fun x y => x)); apply poly_x|apply poly_x].
Qed.

Lemma poly_lin_comp d f a b e a' b' e' : poly_deg d f -> poly_deg d (fun x y => f (a * x + b * y + e) (a' * x + b' * y + e')).
Proof.
  assert (L : forall k l m, poly_deg 1 (fun x y => k * x + l * y + m)).
  { intros. apply poly_plus; [apply poly_plus|]; [apply poly_cmul, poly_x|apply poly_cmul, poly_y|apply poly_c]. }
  intros H. induction H as [d c f Hf | d f g h Hf IHf Hg IHg Hh | d r f h Hf IHf Hh | d f h Hf IHf Hh | d f h Hf IHf Hh].
  - apply (poly_const _ c). intros. apply Hf.
  - apply (poly_add _ _ _ _ IHf IHg). intros. apply Hh.
  - apply (poly_scal _ r _ _ IHf). intros. apply Hh.
  - apply (poly_ext (S d) (fun x y => (a * x + b * y + e) * f (a * x + b * y + e) (a' * x + b' * y + e'))).
    + apply (poly_mul 1 d (fun x y => a * x + b * y + e) (fun x y => f (a * x + b * y + e) (a' * x + b' * y + e'))); [apply L|exact IHf].
    + intros. apply Hh.
  - apply (poly_ext (S d) (fun x y => (a' * x + b' * y + e') * f (a * x + b * y + e) (a' * x + b' * y + e'))).
    + apply (poly_mul 1 d (fun x y => a' * x + b' * y + e') (fun x y => f (a * x + b * y + e) (a' * x + b' * y + e'))); [apply L|exact IHf].
    + intros. apply Hh.
Qed.

(** exact integral of a cubic function of position about (cx, cy), in axes turned by phi *)
Lemma mono_exact els cx cy phi : valid_mesh els ->
  let pr x y := principal_coordinate phi (x - cx) (y - cy) in
  mono_integrals phi (map (shift_el cx cy) els) =
  mkMono (mesh_int m_E (fun x y => f_mx (x - cx) (y - cy)) els) (mesh_int m_E (fun x y => f_my (x - cx) (y - cy)) els)
   (mesh_int m_E (fun x y => f_mx (fst (pr x y)) (snd (pr x y))) els) (mesh_int m_E (fun x y => f_my (fst (pr x y)) (snd (pr x y))) els).
Proof.
  intros Hv pr. rewrite mono_form.
  assert (A : forall f, poly_deg 3 f -> MQ (map (shift_el cx cy) els) (fun el g => f (px el g) (py el g)) = mesh_int m_E (fun x y => f (x - cx) (y - cy)) els).
  { intros f Hf. rewrite (MQ_pos _ f), shift_mesh_q. apply mesh_q_exact; [exact Hv|].
    apply (poly_ext 3 _ _ (poly_lin_comp 3 f 1 0 (- cx) 0 1 (- cy) Hf)). intros. f_equal; ring. }
  f_equal.
  - exact (A f_mx poly_f_mx).
  - exact (A f_my poly_f_my).
  - refine (eq_trans _ (A (fun x y => f_mx (fst (principal_coordinate phi x y)) (snd (principal_coordinate phi x y))) _)); [reflexivity|].
    unfold principal_coordinate. cbn [fst snd].
    apply (poly_ext 3 _ _ (poly_lin_comp 3 f_mx (cos (phi * PI / 180)) (sin (phi * PI / 180)) 0 (- sin (phi * PI / 180)) (cos (phi * PI / 180)) 0 poly_f_mx)).
    intros. f_equal; ring.
  - refine (eq_trans _ (A (fun x y => f_my (fst (principal_coordinate phi x y)) (snd (principal_coordinate phi x y))) _)); [reflexivity|].
    unfold principal_coordinate. cbn [fst snd].
    apply (poly_ext 3 _ _ (poly_lin_comp 3 f_my (cos (phi * PI / 180)) (sin (phi * PI / 180)) 0 (- sin (phi * PI / 180)) (cos (phi * PI / 180)) 0 poly_f_my)).
    intros. f_equal; ring.
Qed.

(** boundary formulas of the cubic integrands *)
Definition b_mx (p q : point) : R :=
  cross p q / 60 * (3 * fst p ^ 2 * snd p + fst p ^ 2 * snd q + 2 * fst p * fst q * snd p + 2 * fst p * fst q * snd q
     + fst q ^ 2 * snd p + 3 * fst q ^ 2 * snd q + 3 * (snd p ^ 3 + snd p ^ 2 * snd q + snd p * snd q ^ 2 + snd q ^ 3)).
Definition b_my (p q : point) : R :=
  cross p q / 60 * (3 * snd p ^ 2 * fst p + snd p ^ 2 * fst q + 2 * snd p * snd q * fst p + 2 * snd p * snd q * fst q
     + snd q ^ 2 * fst p + 3 * snd q ^ 2 * fst q + 3 * (fst p ^ 3 + fst p ^ 2 * fst q + fst p * fst q ^ 2 + fst q ^ 3)).
Lemma edge_fun_mx : edge_fun b_mx.
Proof. split; [intros p q | intros p q t r; subst r]; unfold b_mx, cross; cbn [fst snd]; field. Qed.
Lemma edge_fun_my : edge_fun b_my.
Proof. split; [intros p q | intros p q t r; subst r]; unfold b_my, cross; cbn [fst snd]; field. Qed.
Lemma green_mx el : el_q4 el f_mx = b_mx (corner_a el) (corner_b el) + b_mx (corner_b el) (corner_c el) + b_mx (corner_c el) (corner_a el).
Proof. unfold f_mx, b_mx. el_green_tac. Qed.
Lemma green_my el : el_q4 el f_my = b_my (corner_a el) (corner_b el) + b_my (corner_b el) (corner_c el) + b_my (corner_c el) (corner_a el).
Proof. unfold f_my, b_my. el_green_tac. Qed.

(** quadrature over a mirrored mesh *)
Lemma mirror_x_q w f els : mesh_q w f (map mirror_x_el els) = mesh_q w (fun x y => f x (- y)) els.
Proof.
  unfold mirror_x_el.
  rewrite <- (map_map (map_el (fun x _ => x) (fun _ y => - y)) flip_el), flip_mesh_q.
  rewrite (map_ext (map_el (fun x _ => x) (fun _ y => - y)) (map_el (fun x y => 1 * x + 0 * y + 0) (fun x y => 0 * x + -1 * y + 0)))
    by (intros; apply map_el_ext; intros; ring).
  rewrite affine_mesh_q. rewrite (mesh_q_ext w _ (fun x y => f x (- y))); [ring|]. intros; f_equal; ring.
Qed.
Lemma mirror_y_q w f els : mesh_q w f (map mirror_y_el els) = mesh_q w (fun x y => f (- x) y) els.
Proof.
  unfold mirror_y_el.
  rewrite <- (map_map (map_el (fun x _ => - x) (fun _ y => y)) flip_el), flip_mesh_q.
  rewrite (map_ext (map_el (fun x _ => - x) (fun _ y => y)) (map_el (fun x y => -1 * x + 0 * y + 0) (fun x y => 0 * x + 1 * y + 0)))
    by (intros; apply map_el_ext; intros; ring).
  rewrite affine_mesh_q. rewrite (mesh_q_ext w _ (fun x y => f (- x) y)); [ring|]. intros; f_equal; ring.
Qed.
Lemma mirror_x_valid el : valid_el el -> valid_el (mirror_x_el el).
Proof.
  intros [[Hx Hy] Ho]. unfold valid_el, straight, corner_a, corner_b, corner_c, orient in *.
  unfold mirror_x_el, flip_el, map_el, flip6, zip6. cbn [el_x el_y v0 v1 v2 v3 v4 v5 fst snd] in *. repeat split.
  - rewrite Hx. unfold side_nodes. cbn [v0 v1 v2 v3 v4 v5]. f_equal; field.
  - rewrite Hy. unfold side_nodes. cbn [v0 v1 v2 v3 v4 v5]. f_equal; field.
  - lra.
Qed.
Lemma mirror_y_valid el : valid_el el -> valid_el (mirror_y_el el).
Proof.
  intros [[Hx Hy] Ho]. unfold valid_el, straight, corner_a, corner_b, corner_c, orient in *.
  unfold mirror_y_el, flip_el, map_el, flip6, zip6. cbn [el_x el_y v0 v1 v2 v3 v4 v5 fst snd] in *. repeat split.
  - rewrite Hx. unfold side_nodes. cbn [v0 v1 v2 v3 v4 v5]. f_equal; field.
  - rewrite Hy. unfold side_nodes. cbn [v0 v1 v2 v3 v4 v5]. f_equal; field.
  - lra.
Qed.

Lemma mono_mirror_x els phi : valid_mesh els -> same_boundary (mesh_edges (map mirror_x_el els)) (mesh_edges els) ->
  mi_x (mono_integrals phi els) = 0.
Proof.
  intros Hv Hb. rewrite mono_form. cbn [mi_x]. rewrite (MQ_pos els f_mx : MQ els (fun el g => px el g ^ 2 * py el g + py el g ^ 3) = _).
  assert (E : mesh_q m_E f_mx (map mirror_x_el els) = mesh_q m_E f_mx els).
  { rewrite (boundary_mesh m_E f_mx b_mx els Hv green_mx).
    rewrite (boundary_mesh m_E f_mx b_mx (map mirror_x_el els)); [apply boundary_sum_same; [apply edge_fun_mx|exact Hb]| |apply green_mx].
    intros e He. apply in_map_iff in He. destruct He as [el [<- Hel]]. apply mirror_x_valid, Hv, Hel. }
  rewrite mirror_x_q in E. rewrite (mesh_q_ext m_E _ (fun x y => (-1) * f_mx x y)) in E by (intros; unfold f_mx; ring).
  rewrite mesh_q_scal in E. lra.
Qed.
Lemma mono_mirror_y els phi : valid_mesh els -> same_boundary (mesh_edges (map mirror_y_el els)) (mesh_edges els) ->
  mi_y (mono_integrals phi els) = 0.
Proof.
  intros Hv Hb. rewrite mono_form. cbn [mi_y]. rewrite (MQ_pos els f_my : MQ els (fun el g => py el g ^ 2 * px el g + px el g ^ 3) = _).
  assert (E : mesh_q m_E f_my (map mirror_y_el els) = mesh_q m_E f_my els).
  { rewrite (boundary_mesh m_E f_my b_my els Hv green_my).
    rewrite (boundary_mesh m_E f_my b_my (map mirror_y_el els)); [apply boundary_sum_same; [apply edge_fun_my|exact Hb]| |apply green_my].
    intros e He. apply in_map_iff in He. destruct He as [el [<- Hel]]. apply mirror_y_valid, Hv, Hel. }
  rewrite mirror_y_q in E. rewrite (mesh_q_ext m_E _ (fun x y => (-1) * f_my x y)) in E by (intros; unfold f_my; ring).
  rewrite mesh_q_scal in E. lra.
Qed.
Lemma mono_phi0 els : let m := mono_integrals 0 els in mi_11 m = mi_x m /\ mi_22 m = mi_y m.
Proof.
  intros m. unfold m. rewrite mono_form. cbn [mi_x mi_y mi_11 mi_22]. unfold principal_coordinate. cbn [fst snd].
  replace (0 * PI / 180) with 0 by field. rewrite cos_0, sin_0. split; apply MQ_ext; intros; ring.
Qed.

(** ** Adding constants to the solutions *)

Section Constants.
Context (n : nat) (X Y : nat -> R) (els : list tri6) (solve : lg_solver) (composite : bool) (w : warping) (k : R).
Context (HA : analysed n X Y els solve composite w).
Let t := section_totals els.
Let c := centroidal_of t.
Let wels := map (shift_el (p_cx c) (p_cy c)) els.
Let Hm' := Hmw n X Y els (a_on n X Y els solve composite w HA).

Lemma plus_as_lin (u : nat -> R) i : u i + k = 1 * u i + k * (fun _ => 1) i. Proof. cbv beta; ring. Qed.

Lemma gather_ext u v cc : (forall i, u i = v i) -> gather u cc = gather v cc.
Proof. intros H. unfold gather. rewrite !H. reflexivity. Qed.

Lemma Gx_k u el g : In el wels -> In g gps4 -> Gx (fun i => u i + k) el g = Gx u el g /\ Gy (fun i => u i + k) el g = Gy u el g
   /\ Vl (fun i => u i + k) el g = Vl u el g + k.
Proof.
  intros Hel Hg. destruct (const_fields _ _ _ _ Hm' 1 el g Hel (sum1_4 g Hg)) as [C1 [C2 C3]].
  assert (E : gather (fun i => u i + k) (el_ids el) = gather (fun i => 1 * u i + k * (fun _ => 1) i) (el_ids el)) by (apply gather_ext, plus_as_lin).
  repeat split.
  - transitivity (Gx (fun i => 1 * u i + k * (fun _ => 1) i) el g); [unfold Gx; rewrite E; reflexivity|]. rewrite Gx_lin, C1. ring.
  - transitivity (Gy (fun i => 1 * u i + k * (fun _ => 1) i) el g); [unfold Gy; rewrite E; reflexivity|]. rewrite Gy_lin, C2. ring.
  - transitivity (Vl (fun i => 1 * u i + k * (fun _ => 1) i) el g); [unfold Vl; rewrite E; reflexivity|]. rewrite Vl_lin, C3. ring.
Qed.

Lemma dotn_k u f : dotn n (fun _ => 1) f = 0 -> dotn n (fun i => u i + k) f = dotn n u f.
Proof.
  intros H. unfold dotn in *. transitivity (sumn n (fun i => u i * f i) + k * sumn n (fun i => 1 * f i)); [|rewrite H; ring].
  rewrite <- sumn_scal, <- sumn_plus. apply sumn_ext. intros. ring.
Qed.

Lemma wq_k ixx iyy ixy u : let a := sc_warping_integrals ixx iyy ixy u wels in
  sc_warping_integrals ixx iyy ixy (fun i => u i + k) wels =
  mkWarpInt (wi_scx a) (wi_scy a) (wi_q a + k * t_ea t) (wi_i a + 2 * k * wi_q a + k ^ 2 * t_ea t) (wi_ix a) (wi_iy a).
Proof.
  cbv zeta. rewrite !sc_warping_form. cbn [wi_scx wi_scy wi_q wi_i wi_ix wi_iy].
  assert (M1 : MQ wels (fun _ _ => 1) = t_ea t) by (apply (MQ_one n X Y els); apply HA).
  assert (MX : MQ wels (fun el g => px el g) = 0).
  { rewrite (MQ_quad_ext n X Y els (a_on _ _ _ _ _ _ _ HA) (a_ne _ _ _ _ _ _ _ HA) (a_pos _ _ _ _ _ _ _ HA) _ 0 1 0 0 0 0); [ring|]. intros. unfold quad. ring. }
  assert (MY : MQ wels (fun el g => py el g) = 0).
  { rewrite (MQ_quad_ext n X Y els (a_on _ _ _ _ _ _ _ HA) (a_ne _ _ _ _ _ _ _ HA) (a_pos _ _ _ _ _ _ _ HA) _ 0 0 1 0 0 0); [ring|]. intros. unfold quad. ring. }
  f_equal.
  - transitivity (1 * MQ wels (Vl u) + k * MQ wels (fun _ _ => 1)); [|rewrite M1; ring]. rewrite <- MQ_lin2. apply MQ_ext.
    intros el g Hel Hg. destruct (Gx_k u el g Hel Hg) as [_ [_ ->]]. ring.
  - transitivity (1 * MQ wels (fun el g => Vl u el g ^ 2) + (2 * k) * MQ wels (Vl u) + k ^ 2 * MQ wels (fun _ _ => 1)); [|rewrite M1; ring].
    rewrite <- MQ_lin3. apply MQ_ext. intros el g Hel Hg. destruct (Gx_k u el g Hel Hg) as [_ [_ ->]]. ring.
  - transitivity (1 * MQ wels (fun el g => px el g * Vl u el g) + k * MQ wels (fun el g => px el g)); [|rewrite MX; ring]. rewrite <- MQ_lin2. apply MQ_ext.
    intros el g Hel Hg. destruct (Gx_k u el g Hel Hg) as [_ [_ ->]]. ring.
  - transitivity (1 * MQ wels (fun el g => py el g * Vl u el g) + k * MQ wels (fun el g => py el g)); [|rewrite MY; ring]. rewrite <- MQ_lin2. apply MQ_ext.
    intros el g Hel Hg. destruct (Gx_k u el g Hel Hg) as [_ [_ ->]]. ring.
Qed.

Lemma sd_k ixx iyy ixy nu u v : shear_deformation ixx iyy ixy nu (fun i => u i + k) (fun i => v i + k) wels = shear_deformation ixx iyy ixy nu u v wels.
Proof.
  rewrite !shear_deformation_form. cbv zeta.
  f_equal; [f_equal|]; apply MQ_ext; intros el g Hel Hg; destruct (Gx_k u el g Hel Hg) as [E1 [E2 _]]; destruct (Gx_k v el g Hel Hg) as [E3 [E4 _]];
    rewrite ?E1, ?E2, ?E3, ?E4; reflexivity.
Qed.

Lemma shift_result : exists w', warping_analysis n (shift_solver k solve) composite t c els = Ok w'.
Proof.
  pose proof (a_w _ _ _ _ _ _ _ HA) as H. fold t c in H. unfold warping_analysis in *. fold wels in H |- *.
  destruct (assemble_torsion n wels) as [K f]. unfold shift_solver at 1. destruct (solve K f) as [om|]; [|discriminate]. cbn [bind] in *.
  destruct (assemble_shear_load _ _ _ _ wels) as [f1 f2].
  unfold shift_solver at 1. destruct (solve K f1) as [ps|]; [|discriminate]. cbn [bind] in *.
  unfold shift_solver at 1. destruct (solve K f2) as [ph|]; [|discriminate]. cbn [bind] in *.
  clear H. repeat match goal with |- context [let '(_, _) := ?x in _] => destruct x end. eexists. reflexivity.
Qed.

Lemma shift_same w' : warping_analysis n (shift_solver k solve) composite t c els = Ok w' -> same_results w w'.
Proof.
  intros H'. pose proof (a_w _ _ _ _ _ _ _ HA) as H. fold t c in H.
  pose proof (warping_spec _ _ _ _ _ _ _ H) as S. pose proof (warping_spec _ _ _ _ _ _ _ H') as S'. cbv zeta in S, S'. fold wels in S, S'.
  destruct S as [[O [P Q]] S]. destruct S' as [[O' [P' Q']] S'].
  unfold shift_solver in O', P', Q'. rewrite O in O'. rewrite P in P'. rewrite Q in Q'. injection O' as O'. injection P' as P'. injection Q' as Q'.
  rewrite <- O', <- P', <- Q' in S'. clear O' P' Q' O P Q.
  rewrite wq_k, sd_k in S'. cbn [wi_scx wi_scy wi_q wi_i wi_ix wi_iy] in S'.
  assert (F0 : dotn n (fun _ => 1) (snd (assemble_torsion n wels)) = 0) by (apply (ft_sum n X Y els); apply HA).
  rewrite dotn_k in S' by exact F0.
  assert (D : forall f u, dotn n (fun _ => 1) f = 0 -> dotn n f (fun i => u i + k) = dotn n f u).
  { intros f u Hf. rewrite (dotn_comm n f), (dotn_comm n f u). apply dotn_k, Hf. }
  rewrite !D in S' by exact F0.
  destruct S as [S1 [S2 [S3 [S4 [S5 [S6 [S7 [S8 [[S9 [S10 S11]] [[S12 S13] S14]]]]]]]]]].
  destruct S' as [R1 [R2 [R3 [R4 [R5 [R6 [R7 [R8 [[R9 [R10 R11]] [[R12 R13] R14]]]]]]]]]].
  assert (ED : w_delta_s w' = w_delta_s w) by congruence. rewrite ED in *.
  assert (EX : w_x_se w' = w_x_se w) by congruence. assert (EY : w_y_se w' = w_y_se w) by congruence. rewrite EX, EY in *.
  rewrite <- S5 in R5. injection R5 as E11 E22. rewrite E11, E22 in *.
  assert (EA : (if composite then t_ea t else t_area t) = t_ea t) by (apply (a_ea _ _ _ _ _ _ _ HA)). rewrite EA in *.
  assert (Hea : 0 < t_ea t) by (apply (Hea n X Y els); apply HA).
  unfold same_results. repeat match goal with |- _ /\ _ => split end; try congruence; try (symmetry; assumption).
  - rewrite S8, R8. field. lra.
  - destruct R14 as [-> _]. destruct S14 as [-> _]. reflexivity.
  - destruct R14 as [_ [-> _]]. destruct S14 as [_ [-> _]]. reflexivity.
  - destruct R14 as [_ [_ [-> _]]]. destruct S14 as [_ [_ [-> _]]]. reflexivity.
  - destruct R14 as [_ [_ [_ [-> _]]]]. destruct S14 as [_ [_ [_ [-> _]]]]. reflexivity.
  - destruct R14 as [_ [_ [_ [_ [-> _]]]]]. destruct S14 as [_ [_ [_ [_ [-> _]]]]]. reflexivity.
  - destruct R14 as [_ [_ [_ [_ [_ [-> _]]]]]]. destruct S14 as [_ [_ [_ [_ [_ [-> _]]]]]]. reflexivity.
  - destruct R14 as [_ [_ [_ [_ [_ [_ [-> _]]]]]]]. destruct S14 as [_ [_ [_ [_ [_ [_ [-> _]]]]]]]. reflexivity.
  - destruct R14 as [_ [_ [_ [_ [_ [_ [_ ->]]]]]]]. destruct S14 as [_ [_ [_ [_ [_ [_ [_ ->]]]]]]]. reflexivity.
Qed.
End Constants.
