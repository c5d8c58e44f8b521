(** Theorems: elastic properties of any section made of rectangles of any materials: C88. *)
From Coquelicot Require Import Coquelicot.
From Coq Require Import String Reals List Permutation Lra Lia.
From Verif Require Import Base S_Integral M_Fea S_Fem M_Section S_Section M_Bisect M_Plastic S_Plastic M_Init M_Props M_State S_State M_Geometry S_Geometry P_Geom P_Section P_Totals P_Geometry8 P_State P_State3 P_State4 P_State5.
From Verif Require Import S_Outline P_Outline P_Outline2 P_Outline3 S_PlasticForms P_PlasticForms2 S_Rects P_Rects T_Outline T_PlasticForms T_Rects T_Rects2 S_Composite T_Composite S_Clt T_Clt S_Plates.
From Verif Require Import M_Post.
Import ListNotations.
Local Open Scope list_scope.
Local Open Scope R_scope.

Definition rect_poly (r : plate_at) : polygon := mkPoly (rect_ring r) [].
Definition rect_regions (ps : list part) : list region := map (fun q => (fst q, rect_poly (snd q))) ps.
Lemma rect_values r : 0 < r_w r -> 0 < r_h r -> poly_area (rect_poly r) = r_area r /\ poly_centroid (rect_poly r) = (r_cx r, r_cy r) /\
  poly_ixx_c (rect_poly r) = r_w r * r_h r ^ 3 / 12 /\ poly_iyy_c (rect_poly r) = r_w r ^ 3 * r_h r / 12 /\ poly_ixy_c (rect_poly r) = 0.
Proof.
  intros Hw Hh. assert (Pos : 0 < r_area r) by (apply Rmult_lt_0_compat; assumption). destruct r as [x1 y1 x2 y2]. unfold r_area, r_w, r_h in *. cbn [r_x1 r_x2 r_y1 r_y2] in *.
  set (q := rect_ring (rect x1 y1 x2 y2)). assert (Ar : ring_area q = (x2 - x1) * (y2 - y1)) by (unfold q, rect_ring; unring; field). assert (L : 0 <= ring_area q) by lra.
  assert (S1 : forall f, poly_sum f (rect_poly (rect x1 y1 x2 y2)) = f q) by (intros f; apply one_sum, L). set (p := rect_poly (rect x1 y1 x2 y2)) in *.
  assert (A1 : poly_area p = (x2 - x1) * (y2 - y1)) by (change (poly_sum ring_area p = (x2 - x1) * (y2 - y1)); rewrite S1; exact Ar).
  assert (C1 : poly_centroid p = ((x1 + x2) / 2, (y1 + y2) / 2)).
  { unfold poly_centroid. rewrite A1. change (poly_mx p) with (poly_sum ring_mx p). change (poly_my p) with (poly_sum ring_my p). rewrite !S1. unfold q, rect_ring. unring. f_equal; field; split; lra. }
  split; [exact A1|]. split; [exact C1|]. unfold poly_ixx_c, poly_iyy_c, poly_ixy_c, poly_ixx, poly_iyy, poly_ixy. rewrite A1, C1, !S1. unfold q, rect_ring, ring_ixx, ring_iyy, ring_ixy. unring. repeat split; field.
Qed.
Definition sized (q : part) : Prop := 0 < r_w (snd q) /\ 0 < r_h (snd q).
Lemma rect_edges ps : Forall sized ps -> concat (map (fun q => poly_edges (fst q) (snd q)) (rect_regions ps)) = parts_edges ps.
Proof.
  unfold rect_regions, parts_edges. intros H. rewrite map_map. f_equal. apply map_ext_in. intros q Hq. cbn [fst snd]. unfold rect_poly. rewrite Forall_forall in H. destruct (H q Hq) as [W Hh]. apply one_edges.
  destruct (snd q) as [x1 y1 x2 y2]. unfold r_w, r_h in *. cbn [r_x1 r_x2 r_y1 r_y2] in *. replace (ring_area (rect_ring (rect x1 y1 x2 y2))) with ((x2 - x1) * (y2 - y1)) by (unfold rect_ring; unring; field). apply Rmult_le_pos; lra.
Qed.
Lemma rect_weighted w f (v : plate_at -> R) ps : Forall sized ps -> (forall r, 0 < r_w r -> 0 < r_h r -> f (rect_poly r) = v r) -> weighted w f (rect_regions ps) = parts_sum w v ps.
Proof.
  intros H E. unfold weighted, rect_regions, parts_sum. rewrite sumf_map. cbn [fst snd]. induction H as [|q ps [W Hh] _ IH]; [reflexivity|]. rewrite !sumf_cons, IH, E by assumption. reflexivity.
Qed.
Lemma rect_sums w ps : Forall sized ps -> weighted w poly_area (rect_regions ps) = parts_sum w r_area ps /\
  weighted w (fun p => poly_area p * fst (poly_centroid p)) (rect_regions ps) = parts_sum w (fun r => r_area r * r_cx r) ps /\ weighted w (fun p => poly_area p * snd (poly_centroid p)) (rect_regions ps) = parts_sum w (fun r => r_area r * r_cy r) ps /\
  (forall y, weighted w (fun p => poly_ixx_c p + poly_area p * (snd (poly_centroid p) - y) ^ 2) (rect_regions ps) = parts_sum w (plate_ixx y) ps) /\
  (forall x, weighted w (fun p => poly_iyy_c p + poly_area p * (fst (poly_centroid p) - x) ^ 2) (rect_regions ps) = parts_sum w (plate_iyy x) ps) /\
  (forall x y, weighted w (fun p => poly_ixy_c p + poly_area p * (fst (poly_centroid p) - x) * (snd (poly_centroid p) - y)) (rect_regions ps) = parts_sum w (plate_ixy x y) ps).
Proof.
  intros H. repeat split; intros; (apply rect_weighted; [exact H|]); intros r W Hh; destruct (rect_values r W Hh) as (A & C & XX & YY & XY); rewrite ?A, ?C, ?XX, ?YY, ?XY; cbn [fst snd]; unfold plate_ixx, plate_iyy, plate_ixy; ring.
Qed.

(** A mesh whose boundary is that of rectangles of any materials: the getters return the sums over the rectangles by the parallel axis theorem. *)
Theorem C88_rectangles l query g s st h ps : analysed_composite g s st h -> valid_mesh (s_tris s) -> same_boundary (mesh_edges (s_tris s)) (parts_edges ps) -> Forall sized ps ->
  parts_sum m_E r_area ps <> 0 -> gives_parts l query g s h ps.
Proof.
  intros (Hb & U & Hi & Hc) V B P N. destruct (rect_sums m_E ps P) as (S1 & S2 & S3 & S4 & S5 & S6).
  assert (F : fills_regions (s_tris s) (rect_regions ps)) by (split; [exact V|rewrite rect_edges by exact P; exact B]).
  assert (Na : Forall (fun q : region => poly_area (snd q) <> 0) (rect_regions ps)).
  { apply Forall_map. eapply Forall_impl; [|exact P]. intros q [W Hh]. cbn [snd]. destruct (rect_values _ W Hh) as (A & _). rewrite A. assert (0 < r_area (snd q)) by (apply Rmult_lt_0_compat; assumption). lra. }
  destruct (C88_composite l query g s st h (rect_regions ps) Hb U Hi Hc F Na ltac:(rewrite S1; exact N)) as (G1 & G2 & G3 & G4 & G5 & G6 & G7 & _).
  unfold elastic_cx, elastic_cy, rigidity_xx, rigidity_yy, rigidity_xy in *. rewrite ?S1, ?S2, ?S3 in *. rewrite !S4, !S5, !S6 in *. rewrite (proj1 (rect_sums (fun _ => 1) ps P)) in G1. rewrite (proj1 (rect_sums m_rho ps P)) in G2.
  replace (parts_sum (fun _ => 1) r_area ps) with (sumf (fun q => r_area (snd q)) ps) in G1 by (unfold parts_sum; apply sumf_ext; intros q _; ring).
  unfold gives_parts. cbv zeta. repeat split; assumption.
Qed.

Lemma default_sum f ps : parts_sum m_E f (map (pair (mo_val default_material)) ps) = sumf f ps.
Proof. unfold parts_sum. rewrite sumf_map. apply sumf_ext. intros r _. cbn [fst snd]. change (m_E (mo_val default_material)) with 1. ring. Qed.
(** The same for rectangles of the default material, which may touch or be apart. *)
Theorem C88_plates l query g s st h ps : analysed g s st h -> valid_mesh (s_tris s) -> same_boundary (mesh_edges (s_tris s)) (parts_edges (map (pair (mo_val default_material)) ps)) ->
  Forall (fun r => 0 < r_w r /\ 0 < r_h r) ps -> plates_area ps <> 0 -> gives_plates l query g s h ps.
Proof.
  intros (Hb & U & Hi & Hc) V B P N. set (qs := map (pair (mo_val default_material)) ps) in *. assert (Pq : Forall sized qs) by (apply Forall_map; exact P).
  destruct (rect_sums m_E qs Pq) as (S1 & S2 & S3 & S4 & S5 & S6). unfold qs in S1, S2, S3, S4, S5, S6. setoid_rewrite default_sum in S1. setoid_rewrite default_sum in S2. setoid_rewrite default_sum in S3. setoid_rewrite default_sum in S4. setoid_rewrite default_sum in S5. setoid_rewrite default_sum in S6. fold qs in S1, S2, S3, S4, S5, S6.
  assert (F : fills_regions (s_tris s) (rect_regions qs)) by (split; [exact V|rewrite rect_edges by exact Pq; exact B]).
  assert (Na : Forall (fun q : region => poly_area (snd q) <> 0) (rect_regions qs)).
  { apply Forall_map. eapply Forall_impl; [|exact Pq]. intros q [W Hh]. cbn [snd]. destruct (rect_values _ W Hh) as (A & _). rewrite A. assert (0 < r_area (snd q)) by (apply Rmult_lt_0_compat; assumption). lra. }
  pose proof (regions_totals _ _ F) as T. assert (NE : weighted m_E poly_area (rect_regions qs) <> 0) by (rewrite S1; exact N).
  destruct (composite_values s (rect_regions qs) F Na NE) as ((C1 & C2 & C3 & C4 & C5) & Mx & My & XX & YY & XY). assert (TT : the_totals s = section_totals (s_tris s)) by reflexivity.
  assert (A1 : weighted (fun _ => 1) poly_area (rect_regions qs) = plates_area ps).
  { rewrite (proj1 (rect_sums (fun _ => 1) qs Pq)). unfold parts_sum, qs, plates_area. rewrite sumf_map. apply sumf_ext. intros r _. cbn [fst snd]. ring. }
  assert (X0 : weighted m_E poly_ixx (rect_regions qs) = plates_ixx 0 ps) by (pose proof (XX 0) as K; unfold rigidity_xx in K; rewrite S4 in K; change (plates_ixx 0 ps) with (sumf (plate_ixx 0) ps); rewrite K; ring).
  assert (Y0 : weighted m_E poly_iyy (rect_regions qs) = plates_iyy 0 ps) by (pose proof (YY 0) as K; unfold rigidity_yy in K; rewrite S5 in K; change (plates_iyy 0 ps) with (sumf (plate_iyy 0) ps); rewrite K; ring).
  assert (XY0 : weighted m_E poly_ixy (rect_regions qs) = plates_ixy 0 0 ps) by (pose proof (XY 0 0) as K; unfold rigidity_xy in K; rewrite S6 in K; change (plates_ixy 0 0 ps) with (sumf (plate_ixy 0 0) ps); rewrite K; ring).
  assert (Cx : elastic_cx (rect_regions qs) = plates_cx ps) by (unfold elastic_cx; rewrite S1, S2; reflexivity). assert (Cy : elastic_cy (rect_regions qs) = plates_cy ps) by (unfold elastic_cy; rewrite S1, S3; reflexivity).
  rewrite Cx in C1, C4, C5. rewrite Cy in C2, C3, C5. unfold rigidity_xx in C3. unfold rigidity_yy in C4. unfold rigidity_xy in C5. rewrite S4 in C3. rewrite S5 in C4. rewrite S6 in C5. rewrite S1, Cx in Mx. rewrite S1, Cy in My.
  unfold gives_plates. cbv zeta. split; [|split; [|split; [|split]]].
  all: eapply gives_values; [eassumption|eassumption|assumption|first [exact I|exact Hc]|intros q Hq; cbn [fields In] in Hq; unfold geometric_props; cbn [In]; intuition congruence| |reflexivity].
  all: cbn [fields all_values geometric_value]; rewrite ?TT, ?C1, ?C2, ?C3, ?C4, ?C5, ?T; cbn [t_area t_mass t_ea t_ga t_qx t_qy t_ixx_g t_iyy_g t_ixy_g]; rewrite ?A1, ?X0, ?Y0, ?XY0, ?Mx, ?My; reflexivity.
Qed.

(** The hypotheses are met: the panel of three layers of two materials, as rectangles *)
Example C88_rectangles_met : exists l query s h, analysed_composite panel_geometry s "direct" h /\ valid_mesh (s_tris s) /\ same_boundary (mesh_edges (s_tris s)) (parts_edges (layer_parts 1 2 panel_mats)) /\
  gives_parts l query panel_geometry s h (layer_parts 1 2 panel_mats) /\ gives_over l query panel_geometry s h get_ea [14].
Proof.
  destruct C89_clt_met as (l & query & s & h1 & h2 & shapes & c & D & E & Hc & [V F] & _). exists l, query, s, (h1 ++ CPlastic :: h2).
  assert (An : analysed_composite panel_geometry s "direct" (h1 ++ CPlastic :: h2)) by (destruct D as (Hb & U & I & _); split; [exact Hb|split; [exact U|split; [apply in_or_app; left; exact I|exact Hc]]]).
  assert (B : same_boundary (mesh_edges (s_tris s)) (parts_edges (layer_parts 1 2 panel_mats))) by (rewrite <- (clt_edges toy 1 panel_mats 2 c ltac:(lra) (int_grid 12 2) ltac:(lra) (int_grid 12 1) E); exact F).
  assert (A : parts_sum m_E r_area (layer_parts 1 2 panel_mats) = 14) by (unfold parts_sum, layer_parts, panel_mats, layer, r_area, r_w, r_h, sumf, Rsum; cbn [length seq map fold_right nth fst snd r_x1 r_x2 r_y1 r_y2 INR]; cbn; lra).
  assert (G : gives_parts l query panel_geometry s (h1 ++ CPlastic :: h2) (layer_parts 1 2 panel_mats)).
  { apply (C88_rectangles l query panel_geometry s "direct" _ _ An V B); [|rewrite A; lra]. apply Forall_map, Forall_forall. intros k _. unfold sized, r_w, r_h. cbn [fst snd r_x1 r_x2 r_y1 r_y2]. rewrite S_INR. lra. }
  split; [exact An|]. split; [exact V|]. split; [exact B|]. split; [exact G|]. destruct G as (_ & _ & G & _). rewrite A in G. exact G.
Qed.

Print Assumptions C88_rectangles.
Print Assumptions C88_plates.
Print Assumptions C88_rectangles_met.
