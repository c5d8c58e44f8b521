(** Section totals: exact integrals, boundary formulas, centroid, positivity. *)
From Coq Require Import Reals List Lra Lia Permutation ZArith.
From Coquelicot Require Import Coquelicot.
From Verif Require Import Base S_Integral M_Fea S_Fem M_Post S_Section S_Post P_Integral P_Fea P_Geom P_Section.
Import ListNotations.
Local Open Scope R_scope.

Lemma section_totals_int (els : list tri6) : valid_mesh els ->
  section_totals els =
  mkTotals (mesh_int one_w (fun _ _ => 1) els) (mesh_int m_rho (fun _ _ => 1) els)
    (mesh_int m_E (fun _ _ => 1) els) (mesh_int shear_modulus (fun _ _ => 1) els)
    (mesh_int m_E (fun _ y => y) els) (mesh_int m_E (fun x _ => x) els)
    (mesh_int m_E (fun _ y => y * y) els) (mesh_int m_E (fun x _ => x * x) els)
    (mesh_int m_E (fun x y => x * y) els).
Proof.
  intros Hv. rewrite section_totals_q.
  rewrite !mesh_q_exact by
    first [exact Hv | apply poly3_1 | apply poly3_x | apply poly3_y | apply poly3_xx | apply poly3_yy | apply poly3_xy].
  reflexivity.
Qed.

Lemma mesh_q_perm (w : material -> R) (f : R -> R -> R) (l l' : list tri6) :
  Permutation l l' -> mesh_q w f l = mesh_q w f l'.
Proof. apply sumf_perm. Qed.

Lemma section_totals_perm (l l' : list tri6) : Permutation l l' -> section_totals l = section_totals l'.
Proof. intros H. rewrite !section_totals_q. f_equal; apply mesh_q_perm, H. Qed.


Lemma section_totals_app (l l' : list tri6) :
  section_totals (l ++ l') = add_totals (section_totals l) (section_totals l').
Proof. rewrite !section_totals_q. unfold add_totals, mesh_q. cbn. rewrite !sumf_app. reflexivity. Qed.

(** ** Boundary formulas *)

Ltac el_green_tac :=
  unfold el_q4, sumf, Rsum, gps4, el_edges, orient, el_point, b_area, b_qx, b_qy, b_ixx, b_iyy, b_ixy, cross;
  cbn [map fold_right g_w g_eta g_xi g_zeta fst snd]; field.

Section Green.
Context (el : tri6).
Let a := corner_a el. Let b := corner_b el. Let c := corner_c el.
Lemma green_area : el_q4 el (fun _ _ => 1) = b_area a b + b_area b c + b_area c a.
Proof. unfold a, b, c. el_green_tac. Qed.
Lemma green_qx : el_q4 el (fun _ y => y) = b_qx a b + b_qx b c + b_qx c a.
Proof. unfold a, b, c. el_green_tac. Qed.
Lemma green_qy : el_q4 el (fun x _ => x) = b_qy a b + b_qy b c + b_qy c a.
Proof. unfold a, b, c. el_green_tac. Qed.
Lemma green_ixx : el_q4 el (fun _ y => y * y) = b_ixx a b + b_ixx b c + b_ixx c a.
Proof. unfold a, b, c. el_green_tac. Qed.
Lemma green_iyy : el_q4 el (fun x _ => x * x) = b_iyy a b + b_iyy b c + b_iyy c a.
Proof. unfold a, b, c. el_green_tac. Qed.
Lemma green_ixy : el_q4 el (fun x y => x * y) = b_ixy a b + b_ixy b c + b_ixy c a.
Proof. unfold a, b, c. el_green_tac. Qed.
End Green.

Lemma boundary_mesh (w : material -> R) (f : R -> R -> R) (b : point -> point -> R) (els : list tri6) :
  valid_mesh els ->
  (forall el, el_q4 el f = b (corner_a el) (corner_b el) + b (corner_b el) (corner_c el) + b (corner_c el) (corner_a el)) ->
  mesh_q w f els = boundary_sum w b (mesh_edges els).
Proof.
  intros Hv H. unfold mesh_edges, boundary_sum. rewrite sumf_concat, sumf_map.
  apply sumf_ext. intros el Hel. rewrite el_q_valid by (apply Hv, Hel). rewrite H.
  unfold el_edges. rewrite !sumf_cons, sumf_nil. ring.
Qed.

(** Edge functions compatible with cancelling and splitting. *)
Definition edge_fun (b : point -> point -> R) : Prop :=
  (forall p q, b p q + b q p = 0) /\
  (forall p q t, let r := (fst p + t * (fst q - fst p), snd p + t * (snd q - snd p)) in b p r + b r q = b p q).

Lemma edge_fun_area : edge_fun b_area.
Proof. split; [intros p q | intros p q t r; subst r]; unfold b_area, cross; cbn [fst snd]; field. Qed.
Lemma edge_fun_qx : edge_fun b_qx.
Proof. split; [intros p q | intros p q t r; subst r]; unfold b_qx, cross; cbn [fst snd]; field. Qed.
Lemma edge_fun_qy : edge_fun b_qy.
Proof. split; [intros p q | intros p q t r; subst r]; unfold b_qy, cross; cbn [fst snd]; field. Qed.
Lemma edge_fun_ixx : edge_fun b_ixx.
Proof. split; [intros p q | intros p q t r; subst r]; unfold b_ixx, cross; cbn [fst snd]; field. Qed.
Lemma edge_fun_iyy : edge_fun b_iyy.
Proof. split; [intros p q | intros p q t r; subst r]; unfold b_iyy, cross; cbn [fst snd]; field. Qed.
Lemma edge_fun_ixy : edge_fun b_ixy.
Proof. split; [intros p q | intros p q t r; subst r]; unfold b_ixy, cross; cbn [fst snd]; field. Qed.

Lemma boundary_sum_same (w : material -> R) (b : point -> point -> R) (l l' : list edge) :
  edge_fun b -> same_boundary l l' -> boundary_sum w b l = boundary_sum w b l'.
Proof.
  intros [Ha Hs] H. unfold boundary_sum.
  induction H as [l|l l' H IH|l1 l2 l3 H1 IH1 H2 IH2|l l' H|m p q l|m p q t l r].
  - reflexivity.
  - congruence.
  - congruence.
  - apply sumf_perm, H.
  - rewrite !sumf_cons. specialize (Ha p q).
    transitivity (w m * (b p q + b q p) + sumf (fun e => let '(m, p, q) := e in w m * b p q) l); [ring|].
    rewrite Ha. ring.
  - rewrite !sumf_cons. specialize (Hs p q t). cbv zeta in Hs. fold r in Hs. rewrite <- Hs. ring.
Qed.

Lemma section_totals_boundary (els : list tri6) (l : list edge) :
  valid_mesh els -> same_boundary (mesh_edges els) l ->
  section_totals els =
  mkTotals (boundary_sum one_w b_area l) (boundary_sum m_rho b_area l) (boundary_sum m_E b_area l)
    (boundary_sum shear_modulus b_area l) (boundary_sum m_E b_qx l) (boundary_sum m_E b_qy l)
    (boundary_sum m_E b_ixx l) (boundary_sum m_E b_iyy l) (boundary_sum m_E b_ixy l).
Proof.
  intros Hv Hl. rewrite section_totals_q.
  assert (H : forall w f b, edge_fun b ->
    (forall el, el_q4 el f = b (corner_a el) (corner_b el) + b (corner_b el) (corner_c el) + b (corner_c el) (corner_a el)) ->
    mesh_q w f els = boundary_sum w b l).
  { intros w f b Hb Hf. rewrite (boundary_mesh w f b els Hv Hf). apply boundary_sum_same; assumption. }
  rewrite (H one_w _ b_area edge_fun_area green_area), (H m_rho _ b_area edge_fun_area green_area),
    (H m_E _ b_area edge_fun_area green_area), (H shear_modulus _ b_area edge_fun_area green_area),
    (H m_E _ b_qx edge_fun_qx green_qx), (H m_E _ b_qy edge_fun_qy green_qy),
    (H m_E _ b_ixx edge_fun_ixx green_ixx), (H m_E _ b_iyy edge_fun_iyy green_iyy),
    (H m_E _ b_ixy edge_fun_ixy green_ixy).
  reflexivity.
Qed.

Lemma section_totals_same_boundary (els els' : list tri6) :
  valid_mesh els -> valid_mesh els' -> same_boundary (mesh_edges els) (mesh_edges els') ->
  section_totals els = section_totals els'.
Proof.
  intros Hv Hv' H. rewrite (section_totals_boundary els _ Hv H).
  rewrite (section_totals_boundary els' _ Hv' (sb_refl _)). reflexivity.
Qed.

(** ** Maps of the plane *)

Ltac red_tot := cbn [t_area t_mass t_ea t_ga t_qx t_qy t_ixx_g t_iyy_g t_ixy_g].

(** Totals after an affine map with orientation factor d (the mesh quadrature of every f is d times the
    quadrature of f composed with the map). *)
Definition affine_totals (d a b e a' b' e' : R) (t : totals) : totals :=
  mkTotals (d * t_area t) (d * t_mass t) (d * t_ea t) (d * t_ga t)
   (d * (a' * t_qy t + b' * t_qx t + e' * t_ea t))
   (d * (a * t_qy t + b * t_qx t + e * t_ea t))
   (d * (a' ^ 2 * t_iyy_g t + b' ^ 2 * t_ixx_g t + 2 * a' * b' * t_ixy_g t
         + 2 * a' * e' * t_qy t + 2 * b' * e' * t_qx t + e' ^ 2 * t_ea t))
   (d * (a ^ 2 * t_iyy_g t + b ^ 2 * t_ixx_g t + 2 * a * b * t_ixy_g t
         + 2 * a * e * t_qy t + 2 * b * e * t_qx t + e ^ 2 * t_ea t))
   (d * (a * a' * t_iyy_g t + b * b' * t_ixx_g t + (a * b' + b * a') * t_ixy_g t
         + (a * e' + e * a') * t_qy t + (b * e' + e * b') * t_qx t + e * e' * t_ea t)).

Lemma totals_of_map (F : tri6 -> tri6) (d a b e a' b' e' : R) (els : list tri6) :
  (forall w f, mesh_q w f (map F els) =
     d * mesh_q w (fun x y => f (a * x + b * y + e) (a' * x + b' * y + e')) els) ->
  section_totals (map F els) = affine_totals d a b e a' b' e' (section_totals els).
Proof.
  intros H. rewrite !section_totals_q. unfold affine_totals. red_tot. rewrite !H.
  assert (Q : forall f k0 k1 k2 k3 k4 k5, (forall x y, f x y = quad k0 k1 k2 k3 k4 k5 x y) ->
    mesh_q m_E f els = k0 * mesh_q m_E (fun _ _ => 1) els + k1 * mesh_q m_E (fun x _ => x) els + k2 * mesh_q m_E (fun _ y => y) els
  + k3 * mesh_q m_E (fun x _ => x * x) els + k4 * mesh_q m_E (fun x y => x * y) els
  + k5 * mesh_q m_E (fun _ y => y * y) els).
  { intros. rewrite (mesh_q_ext _ _ _ _ H0). apply mesh_q_quad. }
  rewrite (Q (fun x y => a' * x + b' * y + e') e' a' b' 0 0 0) by (intros; unfold quad; ring).
  rewrite (Q (fun x y => a * x + b * y + e) e a b 0 0 0) by (intros; unfold quad; ring).
  rewrite (Q (fun x y => (a' * x + b' * y + e') * (a' * x + b' * y + e'))
    (e' ^ 2) (2 * a' * e') (2 * b' * e') (a' ^ 2) (2 * a' * b') (b' ^ 2)) by (intros; unfold quad; ring).
  rewrite (Q (fun x y => (a * x + b * y + e) * (a * x + b * y + e))
    (e ^ 2) (2 * a * e) (2 * b * e) (a ^ 2) (2 * a * b) (b ^ 2)) by (intros; unfold quad; ring).
  rewrite (Q (fun x y => (a * x + b * y + e) * (a' * x + b' * y + e'))
    (e * e') (a * e' + e * a') (b * e' + e * b') (a * a') (a * b' + b * a') (b * b'))
    by (intros; unfold quad; ring).
  f_equal; ring.
Qed.

Lemma zip6_ext (f g : R -> R -> R) (u v : V6) : (forall x y, f x y = g x y) -> zip6 f u v = zip6 g u v.
Proof. intros H. unfold zip6. rewrite !H. reflexivity. Qed.

Lemma map_el_ext (f g f' g' : R -> R -> R) (el : tri6) :
  (forall x y, f x y = f' x y) -> (forall x y, g x y = g' x y) -> map_el f g el = map_el f' g' el.
Proof. intros H H'. unfold map_el. rewrite (zip6_ext f f') by exact H. rewrite (zip6_ext g g') by exact H'. reflexivity. Qed.

Lemma totals_translate (dx dy : R) (els : list tri6) :
  section_totals (map (translate_el dx dy) els) = affine_totals 1 1 0 dx 0 1 dy (section_totals els).
Proof.
  apply totals_of_map. intros w f.
  rewrite (map_ext (translate_el dx dy) (map_el (fun x y => 1 * x + 0 * y + dx) (fun x y => 0 * x + 1 * y + dy)))
    by (intros; apply map_el_ext; intros; ring).
  rewrite affine_mesh_q. ring.
Qed.

Lemma totals_rotate (t : R) (els : list tri6) :
  section_totals (map (rotate_el t) els) =
  affine_totals 1 (cos t) (- sin t) 0 (sin t) (cos t) 0 (section_totals els).
Proof.
  apply totals_of_map. intros w f.
  rewrite (map_ext (rotate_el t) (map_el (fun x y => cos t * x + (- sin t) * y + 0) (fun x y => sin t * x + cos t * y + 0)))
    by (intros; apply map_el_ext; intros; ring).
  rewrite affine_mesh_q. pose proof (sin2_cos2 t) as H. unfold Rsqr in H.
  f_equal. lra.
Qed.

Lemma totals_scale (k : R) (els : list tri6) :
  section_totals (map (scale_el k) els) = affine_totals (k ^ 2) k 0 0 0 k 0 (section_totals els).
Proof.
  apply totals_of_map. intros w f.
  rewrite (map_ext (scale_el k) (map_el (fun x y => k * x + 0 * y + 0) (fun x y => 0 * x + k * y + 0)))
    by (intros; apply map_el_ext; intros; ring).
  rewrite affine_mesh_q. f_equal. ring.
Qed.

Lemma totals_mirror_x (els : list tri6) :
  section_totals (map mirror_x_el els) = affine_totals 1 1 0 0 0 (-1) 0 (section_totals els).
Proof.
  apply totals_of_map. intros w f. unfold mirror_x_el.
  rewrite <- (map_map (map_el (fun x _ => x) (fun _ y => - y)) flip_el), flip_mesh_q.
  rewrite (map_ext (map_el (fun x _ => x) (fun _ y => - y)) (map_el (fun x y => 1 * x + 0 * y + 0) (fun x y => 0 * x + -1 * y + 0)))
    by (intros; apply map_el_ext; intros; ring).
  rewrite affine_mesh_q. ring.
Qed.

Lemma totals_mirror_y (els : list tri6) :
  section_totals (map mirror_y_el els) = affine_totals 1 (-1) 0 0 0 1 0 (section_totals els).
Proof.
  apply totals_of_map. intros w f. unfold mirror_y_el.
  rewrite <- (map_map (map_el (fun x _ => - x) (fun _ y => y)) flip_el), flip_mesh_q.
  rewrite (map_ext (map_el (fun x _ => - x) (fun _ y => y)) (map_el (fun x y => -1 * x + 0 * y + 0) (fun x y => 0 * x + 1 * y + 0)))
    by (intros; apply map_el_ext; intros; ring).
  rewrite affine_mesh_q. ring.
Qed.

(** ** Centroidal values as integrals *)

Lemma centroid_q (els : list tri6) : t_ea (section_totals els) <> 0 ->
  let c := centroidal_of (section_totals els) in
  mesh_q m_E (fun x y => x - p_cx c) els = 0 /\
  mesh_q m_E (fun x y => y - p_cy c) els = 0 /\
  p_ixx_c c = mesh_q m_E (fun x y => (y - p_cy c) * (y - p_cy c)) els /\
  p_iyy_c c = mesh_q m_E (fun x y => (x - p_cx c) * (x - p_cx c)) els /\
  p_ixy_c c = mesh_q m_E (fun x y => (x - p_cx c) * (y - p_cy c)) els.
Proof.
  rewrite section_totals_q. unfold centroidal_of. red_tot.
  cbn [p_cx p_cy p_ixx_c p_iyy_c p_ixy_c]. intros H.
  set (ea := mesh_q m_E (fun _ _ => 1) els) in *.
  set (qx := mesh_q m_E (fun _ y => y) els) in *.
  set (qy := mesh_q m_E (fun x _ => x) els) in *.
  set (cx := qy / ea). set (cy := qx / ea).
  assert (Ex : cx * ea = qy) by (unfold cx; field; exact H).
  assert (Ey : cy * ea = qx) by (unfold cy; field; exact H).
  rewrite (mesh_q_ext m_E (fun x y => x - cx) (quad (- cx) 1 0 0 0 0)) by (intros; unfold quad; ring).
  rewrite (mesh_q_ext m_E (fun x y => y - cy) (quad (- cy) 0 1 0 0 0)) by (intros; unfold quad; ring).
  rewrite (mesh_q_ext m_E (fun x y => (y - cy) * (y - cy)) (quad (cy * cy) 0 (- 2 * cy) 0 0 1)) by (intros; unfold quad; ring).
  rewrite (mesh_q_ext m_E (fun x y => (x - cx) * (x - cx)) (quad (cx * cx) (- 2 * cx) 0 1 0 0)) by (intros; unfold quad; ring).
  rewrite (mesh_q_ext m_E (fun x y => (x - cx) * (y - cy)) (quad (cx * cy) (- cy) (- cx) 0 1 0)) by (intros; unfold quad; ring).
  rewrite !mesh_q_quad. fold ea qx qy.
  repeat split.
  - lra.
  - lra.
  - unfold cy. field. exact H.
  - unfold cx. field. exact H.
  - unfold cx, cy. field. exact H.
Qed.

(** ** Positivity *)

(** Quadrature of the square of an affine function over a valid element. *)
Lemma el_q_square (el : tri6) (u v k : R) : valid_el el ->
  let l p := u * fst p + v * snd p + k in
  let la := l (corner_a el) in let lb := l (corner_b el) in let lc := l (corner_c el) in
  el_q el (fun x y => (u * x + v * y + k) * (u * x + v * y + k)) =
  orient (corner_a el) (corner_b el) (corner_c el) / 24 *
    (la * la + lb * lb + lc * lc + (la + lb + lc) * (la + lb + lc)).
Proof.
  intros Hv l la lb lc. rewrite el_q_valid by exact Hv.
  unfold la, lb, lc, l, el_q4, sumf, Rsum, gps4, el_point.
  cbn [map fold_right g_w g_eta g_xi g_zeta fst snd].
  set (D := orient _ _ _). field.
Qed.

Lemma el_q_square_pos (el : tri6) (u v k : R) : valid_el el -> (u <> 0 \/ v <> 0) ->
  0 < el_q el (fun x y => (u * x + v * y + k) * (u * x + v * y + k)).
Proof.
  intros Hv Huv. rewrite el_q_square by exact Hv. cbv zeta. destruct Hv as [_ Ho].
  apply Rmult_lt_0_compat; [lra|].
  set (la := u * fst (corner_a el) + v * snd (corner_a el) + k).
  set (lb := u * fst (corner_b el) + v * snd (corner_b el) + k).
  set (lc := u * fst (corner_c el) + v * snd (corner_c el) + k).
  assert (N : ~ (la = 0 /\ lb = 0 /\ lc = 0)).
  { intros [H1 [H2 H3]].
    assert (Hu : u * orient (corner_a el) (corner_b el) (corner_c el) =
       (lb - la) * (snd (corner_c el) - snd (corner_a el)) - (lc - la) * (snd (corner_b el) - snd (corner_a el)))
      by (unfold la, lb, lc, orient; ring).
    assert (Hv : v * orient (corner_a el) (corner_b el) (corner_c el) =
       (lc - la) * (fst (corner_b el) - fst (corner_a el)) - (lb - la) * (fst (corner_c el) - fst (corner_a el)))
      by (unfold la, lb, lc, orient; ring).
    rewrite H1, H2, H3 in *.
    destruct Huv as [Hn|Hn]; apply Hn.
    - apply (Rmult_eq_reg_r (orient (corner_a el) (corner_b el) (corner_c el))); lra.
    - apply (Rmult_eq_reg_r (orient (corner_a el) (corner_b el) (corner_c el))); lra. }
  clearbody la lb lc. clear - N.
  pose proof (Rle_0_sqr la) as A. pose proof (Rle_0_sqr lb) as B. pose proof (Rle_0_sqr lc) as C.
  pose proof (Rle_0_sqr (la + lb + lc)) as S. unfold Rsqr in *.
  destruct (Req_dec la 0) as [E1|E1]; [|pose proof (Rsqr_pos_lt la E1) as P; unfold Rsqr in P; lra].
  destruct (Req_dec lb 0) as [E2|E2]; [|pose proof (Rsqr_pos_lt lb E2) as P; unfold Rsqr in P; lra].
  destruct (Req_dec lc 0) as [E3|E3]; [tauto|pose proof (Rsqr_pos_lt lc E3) as P; unfold Rsqr in P; lra].
Qed.

Lemma el_q_one_pos (el : tri6) : valid_el el -> 0 < el_q el (fun _ _ => 1).
Proof.
  intros Hv. rewrite el_q_valid by exact Hv. destruct Hv as [_ Ho].
  unfold el_q4, sumf, Rsum, gps4. cbn [map fold_right g_w]. lra.
Qed.


Lemma mesh_q_square_pos (els : list tri6) (u v k : R) :
  els <> [] -> valid_mesh els -> pos_moduli els -> (u <> 0 \/ v <> 0) ->
  0 < mesh_q m_E (fun x y => (u * x + v * y + k) * (u * x + v * y + k)) els.
Proof.
  intros Hn Hv Hp H. apply sumf_pos; [exact Hn|]. intros el Hel.
  apply Rmult_lt_0_compat; [apply Hp, Hel|]. apply el_q_square_pos; auto.
Qed.

Lemma ea_pos (els : list tri6) : els <> [] -> valid_mesh els -> pos_moduli els ->
  0 < t_ea (section_totals els).
Proof.
  intros Hn Hv Hp. rewrite section_totals_q. red_tot. apply sumf_pos; [exact Hn|].
  intros el Hel. apply Rmult_lt_0_compat; [apply Hp, Hel|apply el_q_one_pos, Hv, Hel].
Qed.

Lemma area_pos (els : list tri6) : els <> [] -> valid_mesh els -> 0 < t_area (section_totals els).
Proof.
  intros Hn Hv. rewrite section_totals_q. red_tot. apply sumf_pos; [exact Hn|].
  intros el Hel. unfold one_w. rewrite Rmult_1_l. apply el_q_one_pos, Hv, Hel.
Qed.

(** The inertia form: u^2 Iyy + 2uv Ixy + v^2 Ixx is the E-weighted integral of (u x + v y)^2. *)
Lemma inertia_form (els : list tri6) (u v : R) : t_ea (section_totals els) <> 0 ->
  let c := centroidal_of (section_totals els) in
  u ^ 2 * p_iyy_c c + 2 * u * v * p_ixy_c c + v ^ 2 * p_ixx_c c =
  mesh_q m_E (fun x y => (u * x + v * y + - (u * p_cx c + v * p_cy c)) * (u * x + v * y + - (u * p_cx c + v * p_cy c))) els.
Proof.
  intros H c. destruct (centroid_q els H) as [_ [_ [E1 [E2 E3]]]]. fold c in E1, E2, E3.
  rewrite E1, E2, E3.
  set (cx := p_cx c). set (cy := p_cy c).
  rewrite <- !(mesh_q_scal m_E), <- !(mesh_q_plus m_E). apply mesh_q_ext. intros. ring.
Qed.

Lemma inertia_form_pos (els : list tri6) (u v : R) :
  els <> [] -> valid_mesh els -> pos_moduli els -> (u <> 0 \/ v <> 0) ->
  let c := centroidal_of (section_totals els) in
  0 < u ^ 2 * p_iyy_c c + 2 * u * v * p_ixy_c c + v ^ 2 * p_ixx_c c.
Proof.
  intros Hn Hv Hp H c.
  pose proof (ea_pos els Hn Hv Hp) as He.
  unfold c. rewrite inertia_form by lra. apply mesh_q_square_pos; assumption.
Qed.

Lemma form_pos_det (a b c : R) : (forall u v, u <> 0 \/ v <> 0 -> 0 < u ^ 2 * a + 2 * u * v * b + v ^ 2 * c) ->
  0 < a /\ 0 < c /\ 0 < c * a - b ^ 2.
Proof.
  intros H.
  assert (Ha : 0 < a) by (specialize (H 1 0 ltac:(left; lra)); lra).
  assert (Hc : 0 < c) by (specialize (H 0 1 ltac:(right; lra)); lra).
  repeat split; auto.
  specialize (H b (- a) ltac:(right; lra)).
  assert (E : b ^ 2 * a + 2 * b * - a * b + (- a) ^ 2 * c = a * (c * a - b ^ 2)) by ring.
  rewrite E in H. nra.
Qed.

Lemma inertia_pos (els : list tri6) : els <> [] -> valid_mesh els -> pos_moduli els ->
  let c := centroidal_of (section_totals els) in
  0 < p_iyy_c c /\ 0 < p_ixx_c c /\ 0 < p_ixx_c c * p_iyy_c c - (p_ixy_c c) ^ 2.
Proof.
  intros Hn Hv Hp c. apply form_pos_det. intros u v H. apply (inertia_form_pos els u v Hn Hv Hp H).
Qed.

(** ** Principal values *)

Lemma delta_sq (ixx iyy ixy : R) : (principal_delta ixx iyy ixy) ^ 2 = ((ixx - iyy) / 2) ^ 2 + ixy ^ 2.
Proof.
  unfold principal_delta. rewrite <- Rsqr_pow2. apply Rsqr_sqrt. 
  pose proof (pow2_ge_0 ((ixx - iyy) / 2)). pose proof (pow2_ge_0 ixy). lra.
Qed.

Lemma delta_nonneg (ixx iyy ixy : R) : 0 <= principal_delta ixx iyy ixy.
Proof. apply sqrt_pos. Qed.

Lemma principal_sum (ixx iyy ixy : R) :
  principal_i11 ixx iyy ixy + principal_i22 ixx iyy ixy = ixx + iyy.
Proof. unfold principal_i11, principal_i22. field. Qed.

Lemma principal_prod (ixx iyy ixy : R) :
  principal_i11 ixx iyy ixy * principal_i22 ixx iyy ixy = ixx * iyy - ixy ^ 2.
Proof.
  unfold principal_i11, principal_i22.
  transitivity (((ixx + iyy) / 2) ^ 2 - (principal_delta ixx iyy ixy) ^ 2); [ring|].
  rewrite delta_sq. field.
Qed.

Lemma principal_pos (ixx iyy ixy : R) : 0 < ixx -> 0 < iyy -> 0 < ixx * iyy - ixy ^ 2 ->
  0 < principal_i22 ixx iyy ixy /\ principal_i22 ixx iyy ixy <= principal_i11 ixx iyy ixy.
Proof.
  intros H1 H2 H3. pose proof (principal_sum ixx iyy ixy) as S. pose proof (principal_prod ixx iyy ixy) as P.
  assert (Hle : principal_i22 ixx iyy ixy <= principal_i11 ixx iyy ixy).
  { unfold principal_i11, principal_i22. pose proof (delta_nonneg ixx iyy ixy). lra. }
  split; [|exact Hle].
  destruct (Rlt_le_dec 0 (principal_i22 ixx iyy ixy)) as [H|H]; [exact H|exfalso].
  assert (0 < principal_i11 ixx iyy ixy) by lra. nra.
Qed.
