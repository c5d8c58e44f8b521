(** Theorems about the results of a whole analysis, from the library function to the getters: C88. *)
From Coquelicot Require Import Coquelicot.
From Coq Require Import Reals String List Permutation Bool Arith ZArith Lra Lia.
From Verif Require Import Base S_Integral M_Fea S_Fem P_Section M_Section S_Section M_Geometry S_Geometry P_Geom P_Geometry P_Geometry3 P_Geometry6 P_Geometry8 M_Library S_Library P_Library P_Library2 P_Library8.
From Verif Require Import M_Init P_Init P_State3 S_Solver P_Solver M_Props M_State S_Post S_State P_State P_State2 P_State4 P_State5 S_Outline P_Outline P_Outline2 P_Outline3 T_Section T_Init T_State.
From Verif Require Import M_Post.
Import ListNotations.
Local Open Scope list_scope.
Local Open Scope R_scope.

(** The getters after the geometric analysis of a mesh that fills the polygon [p]: area, first moments, second moments about the origin, the
    centroid and second moments about it are those of the polygon, whatever else is in the history. *)
Theorem C88_polygon l query g s st h p : analysed g s st h -> fills (s_tris s) (mo_val default_material) p -> poly_area p <> 0 ->
  gives l query g s h get_area [poly_area p] /\ gives l query g s h get_q [poly_my p; poly_mx p] /\ gives l query g s h get_ig [poly_ixx p; poly_iyy p; poly_ixy p] /\
  gives l query g s h get_c [fst (poly_centroid p); snd (poly_centroid p)] /\ gives l query g s h get_ic [poly_ixx_c p; poly_iyy_c p; poly_ixy_c p].
Proof.
  intros (Hb & U & Hi & Hc) F N. assert (E1 : m_E (mo_val default_material) = 1) by reflexivity.
  pose proof (filled_totals _ _ _ F) as T. destruct (filled_centroidal _ _ _ F E1 N) as (C1 & C2 & C3 & C4 & C5).
  repeat split; (eapply gives_values; [eassumption|eassumption|assumption|try exact I; exact Hc|intros q Hq; cbn [fields In] in Hq; unfold geometric_props; cbn [In]; intuition congruence| |reflexivity]);
    cbn [fields all_values geometric_value]; unfold the_centroidal, the_totals; rewrite ?C1, ?C2, ?C3, ?C4, ?C5, ?T; cbn [t_area t_qx t_qy t_ixx_g t_iyy_g t_ixy_g]; rewrite ?E1, ?Rmult_1_l; reflexivity.
Qed.

(** The mesh of a polygon symmetric about the line x = c (y = c): the centroid is on the line, the product of inertia is zero, the principal
    second moments are the two second moments, and the principal angle is 0 if the first one is the larger, -90 if it is smaller by more than
    the tolerance. *)
Definition principal_from (l : libs) (query : R * R -> list nat) (g : geometry) (s : section_obj) (h : list call) (ixx iyy : R) : Prop :=
  gives l query g s h get_ic [ixx; iyy; 0] /\ gives l query g s h get_ip [Rmax ixx iyy; Rmin ixx iyy] /\ 0 < ixx /\ 0 < iyy /\
  (iyy <= ixx -> gives l query g s h get_phi [0]) /\ (ixx <= (1 - 1 / 10 ^ 12) * iyy -> gives l query g s h get_phi [-90]).
Lemma principal_case l query g s st h p : analysed g s st h -> fills (s_tris s) (mo_val default_material) p -> poly_area p <> 0 -> poly_ixy_c p = 0 ->
  principal_from l query g s h (poly_ixx_c p) (poly_iyy_c p).
Proof.
  intros A F N Z. destruct (C88_polygon l query g s st h p A F N) as (_ & _ & _ & _ & IC). rewrite Z in IC. split; [exact IC|]. destruct A as (Hb & U & Hi & Hc).
  assert (E1 : m_E (mo_val default_material) = 1) by reflexivity. pose proof (filled_totals _ _ _ F) as T. destruct (filled_centroidal _ _ _ F E1 N) as (_ & _ & C3 & C4 & C5). rewrite Z in C5.
  assert (Hn : s_tris s <> []). { intros E0. apply N. apply (f_equal t_area) in T. cbn [t_area] in T. rewrite <- T, E0. reflexivity. }
  assert (P : pos_moduli (s_tris s)) by (intros el Hel; rewrite (built_no_mod _ _ _ (proj1 Hb) Hc el Hel); lra).
  destruct (C09_positivity (s_tris s) Hn (proj1 F) P) as (_ & _ & P1 & P2 & _). rewrite C3 in P1. rewrite C4 in P2. destruct (principal_zero (poly_ixx_c p) (poly_iyy_c p)) as [I1 I2].
  assert (J1 : p_i11_c (the_centroidal s) = Rmax (poly_ixx_c p) (poly_iyy_c p)). { rewrite <- I1, <- C3, <- C4. rewrite <- C5 at 1. reflexivity. }
  assert (J2 : p_i22_c (the_centroidal s) = Rmin (poly_ixx_c p) (poly_iyy_c p)). { rewrite <- I2, <- C3, <- C4. rewrite <- C5 at 1. reflexivity. }
  assert (J3 : p_phi (the_centroidal s) = principal_phi (poly_ixx_c p) 0 (Rmax (poly_ixx_c p) (poly_iyy_c p))). { rewrite <- J1. rewrite <- C3. rewrite <- C5 at 1. reflexivity. }
  assert (G : forall v, p_phi (the_centroidal s) = v -> gives l query g s h get_phi [v]).
  { intros v E. eapply gives_values; [eassumption|eassumption|assumption|exact I|intros q Hq; cbn [fields In] in Hq; unfold geometric_props; cbn [In]; intuition congruence| |reflexivity].
    cbn [fields all_values geometric_value]. rewrite E. reflexivity. }
  repeat split; try assumption.
  - eapply gives_values; [eassumption|eassumption|assumption|exact Hc|intros q Hq; cbn [fields In] in Hq; unfold geometric_props; cbn [In]; intuition congruence| |reflexivity].
    cbn [fields all_values geometric_value]. rewrite J1, J2. reflexivity.
  - intros L. apply G. rewrite J3. apply phi_zero; [exact P1|]. apply Rmax_left, L.
  - intros L. apply G. assert (L' : poly_ixx_c p <= poly_iyy_c p) by nra. rewrite J3, Rmax_right by exact L'. apply phi_quarter; assumption.
Qed.
Theorem C88_symmetric_x l query g s st h p c : analysed g s st h -> fills (s_tris s) (mo_val default_material) p -> poly_area p <> 0 -> symmetric_poly_x c p ->
  gives l query g s h get_c [c; snd (poly_centroid p)] /\ principal_from l query g s h (poly_ixx_c p) (poly_iyy_c p).
Proof.
  intros A F N S. destruct (symmetric_poly_x_facts c p S N) as [C Z]. split; [|exact (principal_case l query g s st h p A F N Z)].
  destruct (C88_polygon l query g s st h p A F N) as (_ & _ & _ & K & _). rewrite C in K. exact K.
Qed.
Theorem C88_symmetric_y l query g s st h p c : analysed g s st h -> fills (s_tris s) (mo_val default_material) p -> poly_area p <> 0 -> symmetric_poly_y c p ->
  gives l query g s h get_c [fst (poly_centroid p); c] /\ principal_from l query g s h (poly_ixx_c p) (poly_iyy_c p).
Proof.
  intros A F N S. destruct (symmetric_poly_y_facts c p S N) as [C Z]. split; [|exact (principal_case l query g s st h p A F N Z)].
  destruct (C88_polygon l query g s st h p A F N) as (_ & _ & _ & K & _). rewrite C in K. exact K.
Qed.

Lemma moduli_radii t c nodes z : moduli_of t c nodes = Ok z -> z_rx z = sqrt (p_ixx_c c / t_ea t) /\ z_ry z = sqrt (p_iyy_c c / t_ea t).
Proof. destruct nodes; [discriminate|]. intros E. injection E as <-. split; reflexivity. Qed.
(** Elastic moduli and radii of gyration from the extreme coordinates of the nodes *)
Theorem C88_moduli l query g s st h p x1 y1 x2 y2 : analysed g s st h -> fills (s_tris s) (mo_val default_material) p -> poly_area p <> 0 -> spans (s_nodes s) x1 y1 x2 y2 ->
  let cx := fst (poly_centroid p) in let cy := snd (poly_centroid p) in
  gives l query g s h get_z [poly_ixx_c p / Rabs (y2 - cy); poly_ixx_c p / Rabs (y1 - cy); poly_iyy_c p / Rabs (x2 - cx); poly_iyy_c p / Rabs (x1 - cx)] /\
  gives l query g s h get_rc [sqrt (poly_ixx_c p / poly_area p); sqrt (poly_iyy_c p / poly_area p)].
Proof.
  intros (Hb & U & Hi & Hc) F N (X1 & X2 & Y1 & Y2) cx cy. assert (E1 : m_E (mo_val default_material) = 1) by reflexivity. pose proof (filled_totals _ _ _ F) as T. destruct (filled_centroidal _ _ _ F E1 N) as (C1 & C2 & C3 & C4 & C5).
  destruct (moduli_of (the_totals s) (the_centroidal s) (s_nodes s)) as [z|] eqn:Z; [|exfalso; unfold moduli_of in Z; destruct (s_nodes s) eqn:Es; [apply (proj2 Hb); exact Es|discriminate Z]].
  assert (R1 : z_rx z = sqrt (poly_ixx_c p / poly_area p) /\ z_ry z = sqrt (poly_iyy_c p / poly_area p)).
  { destruct (moduli_radii _ _ _ _ Z) as [-> ->]. unfold the_centroidal, the_totals. rewrite C3, C4, T. cbn [t_ea]. rewrite E1, Rmult_1_l. split; reflexivity. }
  destruct (C14_section_moduli _ _ _ _ Z) as ((q1 & (I1 & A1) & Z1) & (q2 & (I2 & A2) & Z2) & (q3 & (I3 & A3) & Z3) & (q4 & (I4 & A4) & Z4) & _). unfold the_centroidal, the_totals in Z1, Z2, Z3, Z4. rewrite C2, C3 in Z1, Z2. rewrite C1, C4 in Z3, Z4.
  assert (Q1 : snd q1 = y2). { destruct Y2 as [Iy Ly]. apply Rle_antisym; [apply Ly, in_map, I1|]. apply in_map_iff in Iy. destruct Iy as (q & <- & Iq). apply A1, Iq. }
  assert (Q2 : snd q2 = y1). { destruct Y1 as [Iy Ly]. apply Rle_antisym; [|apply Ly, in_map, I2]. apply in_map_iff in Iy. destruct Iy as (q & <- & Iq). specialize (A2 q Iq). cbv beta in A2. lra. }
  assert (Q3 : fst q3 = x2). { destruct X2 as [Iy Ly]. apply Rle_antisym; [apply Ly, in_map, I3|]. apply in_map_iff in Iy. destruct Iy as (q & <- & Iq). apply A3, Iq. }
  assert (Q4 : fst q4 = x1). { destruct X1 as [Iy Ly]. apply Rle_antisym; [|apply Ly, in_map, I4]. apply in_map_iff in Iy. destruct Iy as (q & <- & Iq). specialize (A4 q Iq). cbv beta in A4. lra. }
  rewrite Q1 in Z1. rewrite Q2 in Z2. rewrite Q3 in Z3. rewrite Q4 in Z4. destruct R1 as [R1 R2]. fold cy in Z1, Z2. fold cx in Z3, Z4.
  split; (eapply gives_values; [eassumption|eassumption|assumption|try exact I; exact Hc|intros q Hq; cbn [fields In] in Hq; unfold geometric_props; cbn [In]; intuition congruence| |reflexivity]);
    cbn [fields all_values geometric_value]; unfold of_moduli; rewrite Z, ?Z1, ?Z2, ?Z3, ?Z4, ?R1, ?R2; reflexivity.
Qed.

(** ** The library shapes with sharp corners and dimensions of at most 12 decimals: the getters return what the textbook formulas give for the
    plates the shape is made of. *)
Lemma plates_case l query g s st h p ps : analysed g s st h -> fills (s_tris s) (mo_val default_material) p -> origin_moments p ps /\ poly_area p <> 0 -> gives_plates l query g s h ps.
Proof.
  intros A F [M N]. destruct (C88_polygon l query g s st h p A F N) as (G1 & G2 & G3 & G4 & G5). destruct (plates_centroidal p ps M N) as (C & XX & YY & XY). destruct M as (M1 & M2 & M3 & M4 & M5 & M6).
  rewrite C in G4. cbn [fst snd] in G4. rewrite XX, YY, XY in G5. rewrite M4, M5, M6 in G3. rewrite M1 in G1. rewrite M1 in N. repeat split; try assumption.
  rewrite M2, M3 in G2. replace (plates_area ps * plates_cy ps) with (sumf (fun r => r_area r * r_cy r) ps) by (unfold plates_cy; field; exact N).
  replace (plates_area ps * plates_cx ps) with (sumf (fun r => r_area r * r_cx r) ps) by (unfold plates_cx; field; exact N). exact G2.
Qed.
Theorem C88_rectangular_section l query g s st h sh d b gm : analysed g s st h -> rectangular_section sh d b default_material = Ok gm -> fills (s_tris s) (mo_val default_material) (gm_poly gm) ->
  0 < d -> 0 < b -> on_grid 12 d -> on_grid 12 b -> gives_plates l query g s h [rect 0 0 b d].
Proof. intros A E F ? ? ? ?. eapply plates_case; [exact A|exact F|]. eapply rectangle_case; eassumption. Qed.
Theorem C88_i_section l query g s st h sh d b t_f t_w n_r gm : analysed g s st h -> i_section sh d b t_f t_w 0 n_r default_material = Ok gm -> fills (s_tris s) (mo_val default_material) (gm_poly gm) ->
  0 < t_f -> 0 < t_w -> 2 * t_f < d -> t_w <= b -> on_grid 12 d -> on_grid 12 b -> on_grid 12 t_f -> on_grid 12 ((b - t_w) / 2) ->
  gives_plates l query g s h [rect 0 0 b t_f; rect ((b - t_w) / 2) t_f ((b + t_w) / 2) (d - t_f); rect 0 (d - t_f) b d].
Proof. intros A E F **. eapply plates_case; [exact A|exact F|]. eapply i_case; eassumption. Qed.
Theorem C88_mono_i_section l query g s st h sh d b_t b_b t_ft t_fb t_w n_r gm : let c := Rmax b_t b_b / 2 in
  analysed g s st h -> mono_i_section sh d b_t b_b t_ft t_fb t_w 0 n_r default_material = Ok gm -> fills (s_tris s) (mo_val default_material) (gm_poly gm) ->
  0 < t_ft -> 0 < t_fb -> 0 < t_w -> t_ft + t_fb < d -> t_w <= b_t -> t_w <= b_b -> on_grid 12 d -> on_grid 12 t_ft -> on_grid 12 t_fb ->
  on_grid 12 (c - b_t / 2) -> on_grid 12 (c + b_t / 2) -> on_grid 12 (c - b_b / 2) -> on_grid 12 (c + b_b / 2) -> on_grid 12 (c - t_w / 2) -> on_grid 12 (c + t_w / 2) ->
  gives_plates l query g s h [rect (c - b_b / 2) 0 (c + b_b / 2) t_fb; rect (c - t_w / 2) t_fb (c + t_w / 2) (d - t_ft); rect (c - b_t / 2) (d - t_ft) (c + b_t / 2) d].
Proof. intros c A E F **. eapply plates_case; [exact A|exact F|]. eapply mono_i_case; eassumption. Qed.
Theorem C88_channel_section l query g s st h sh d b t_f t_w n_r gm : analysed g s st h -> channel_section sh d b t_f t_w 0 n_r default_material = Ok gm -> fills (s_tris s) (mo_val default_material) (gm_poly gm) ->
  0 < t_f -> 0 < t_w -> 2 * t_f < d -> t_w <= b -> on_grid 12 d -> on_grid 12 b -> on_grid 12 t_f -> on_grid 12 t_w ->
  gives_plates l query g s h [rect 0 0 b t_f; rect 0 t_f t_w (d - t_f); rect 0 (d - t_f) b d].
Proof. intros A E F **. eapply plates_case; [exact A|exact F|]. eapply channel_case; eassumption. Qed.
Theorem C88_tee_section l query g s st h sh d b t_f t_w n_r gm : analysed g s st h -> tee_section sh d b t_f t_w 0 n_r default_material = Ok gm -> fills (s_tris s) (mo_val default_material) (gm_poly gm) ->
  0 < t_f -> 0 < t_w -> t_f < d -> t_w <= b -> on_grid 12 d -> on_grid 12 b -> on_grid 12 t_f -> on_grid 12 ((b - t_w) / 2) ->
  gives_plates l query g s h [rect ((b - t_w) / 2) 0 ((b + t_w) / 2) (d - t_f); rect 0 (d - t_f) b d].
Proof. intros A E F **. eapply plates_case; [exact A|exact F|]. eapply tee_case; eassumption. Qed.
Theorem C88_angle_section l query g s st h sh d b t n_r gm : analysed g s st h -> angle_section sh d b t 0 0 n_r default_material = Ok gm -> fills (s_tris s) (mo_val default_material) (gm_poly gm) ->
  1 / 10 ^ 8 < t -> t < d -> t < b -> on_grid 12 d -> on_grid 12 b -> on_grid 12 t -> gives_plates l query g s h [rect 0 0 b t; rect 0 t t d].
Proof. intros A E F **. eapply plates_case; [exact A|exact F|]. eapply angle_case; eassumption. Qed.
Theorem C88_cruciform_section l query g s st h sh d b t n_r gm : analysed g s st h -> cruciform_section sh d b t 0 n_r default_material = Ok gm -> fills (s_tris s) (mo_val default_material) (gm_poly gm) ->
  0 < t -> t < d -> t < b -> on_grid 12 (d / 2) -> on_grid 12 (b / 2) -> on_grid 12 (t / 2) ->
  gives_plates l query g s h [rect (- t / 2) (- d / 2) (t / 2) (d / 2); rect (- b / 2) (- t / 2) (- t / 2) (t / 2); rect (t / 2) (- t / 2) (b / 2) (t / 2)].
Proof. intros A E F **. eapply plates_case; [exact A|exact F|]. eapply cruciform_case; eassumption. Qed.
Theorem C88_cee_section l query g s st h sh d b lip t n_r gm : analysed g s st h -> cee_section sh d b lip t 0 n_r default_material = Ok gm -> fills (s_tris s) (mo_val default_material) (gm_poly gm) ->
  0 < t -> t < lip -> 2 * t < b -> 2 * lip < d -> on_grid 12 d -> on_grid 12 b -> on_grid 12 lip -> on_grid 12 t ->
  gives_plates l query g s h [rect 0 0 t d; rect t 0 b t; rect (b - t) t b lip; rect t (d - t) b d; rect (b - t) (d - lip) b (d - t)].
Proof. intros A E F **. eapply plates_case; [exact A|exact F|]. eapply cee_case; eassumption. Qed.
Theorem C88_zed_section l query g s st h sh d b_l b_r lip t n_r gm : analysed g s st h -> zed_section sh d b_l b_r lip t 0 n_r default_material = Ok gm -> fills (s_tris s) (mo_val default_material) (gm_poly gm) ->
  0 < t -> t < lip -> 2 * t < b_l -> 2 * t < b_r -> 2 * lip < d -> on_grid 12 d -> on_grid 12 b_l -> on_grid 12 b_r -> on_grid 12 lip -> on_grid 12 t ->
  gives_plates l query g s h [rect 0 0 t d; rect t 0 b_r t; rect (b_r - t) t b_r lip; rect (t - b_l) (d - t) 0 d; rect (t - b_l) (d - lip) (2 * t - b_l) (d - t)].
Proof. intros A E F **. eapply plates_case; [exact A|exact F|]. eapply zed_case; eassumption. Qed.
(** The difference of the two rectangles is what shapely returns; the rings may start anywhere and run either way. *)
Theorem C88_rectangular_hollow_section l query g s st h sh d b t w n_r gm o i : let t_w := match w with None => t | Some x => x end in
  analysed g s st h -> rectangular_hollow_section sh d b t 0 n_r (Some 0) w default_material = Ok gm -> fills (s_tris s) (mo_val default_material) (gm_poly gm) ->
  0 < t -> 0 < t_w -> 2 * t < d -> 2 * t_w < b -> on_grid 12 d -> on_grid 12 b -> on_grid 12 t -> on_grid 12 t_w ->
  same_cycle [(0, 0); (b, 0); (b, d); (0, d)] o -> same_cycle [(t_w, t); (b - t_w, t); (b - t_w, d - t); (t_w, d - t)] i ->
  sh_difference sh (mkPoly [(0, 0); (b, 0); (b, d); (0, d)] []) [mkPoly [(t_w, t); (b - t_w, t); (b - t_w, d - t); (t_w, d - t)] []] = Some (mkPoly o [i]) ->
  gives_plates l query g s h [rect 0 0 b t; rect 0 (d - t) b d; rect 0 t t_w (d - t); rect (b - t_w) t b (d - t)].
Proof. intros t_w A E F **. eapply plates_case; [exact A|exact F|]. eapply rhs_case; eassumption. Qed.

(** The rectangle in closed form. *)
Theorem C88_rectangle l query g s st h sh d b gm : analysed g s st h -> rectangular_section sh d b default_material = Ok gm -> fills (s_tris s) (mo_val default_material) (gm_poly gm) ->
  0 < d -> 0 < b -> on_grid 12 d -> on_grid 12 b -> spans (s_nodes s) 0 0 b d ->
  gives l query g s h get_area [b * d] /\ gives l query g s h get_c [b / 2; d / 2] /\ gives l query g s h get_ic [b * d ^ 3 / 12; b ^ 3 * d / 12; 0] /\
  gives l query g s h get_ip [Rmax (b * d ^ 3 / 12) (b ^ 3 * d / 12); Rmin (b * d ^ 3 / 12) (b ^ 3 * d / 12)] /\
  gives l query g s h get_z [b * d ^ 2 / 6; b * d ^ 2 / 6; b ^ 2 * d / 6; b ^ 2 * d / 6] /\ gives l query g s h get_rc [d / sqrt 12; b / sqrt 12] /\
  (b <= d -> gives l query g s h get_phi [0]).
Proof.
  intros A E F Hd Hb Gd Gb Sp. destruct (rectangle_case sh d b _ gm E Hd Hb Gd Gb) as [M N]. destruct (plates_centroidal _ _ M N) as (C & XX & YY & XY).
  destruct (C88_polygon l query g s st h _ A F N) as (G1 & _ & _ & G4 & _). destruct (C88_moduli l query g s st h _ _ _ _ _ A F N Sp) as [GZ GR]. destruct M as (M1 & _).
  assert (P : 0 < b * d) by (apply Rmult_lt_0_compat; assumption).
  assert (Ar : poly_area (gm_poly gm) = b * d) by (rewrite M1; unring; ring).
  assert (Cx : plates_cx [rect 0 0 b d] = b / 2) by (unfold plates_cx; unring; field; nra). assert (Cy : plates_cy [rect 0 0 b d] = d / 2) by (unfold plates_cy; unring; field; nra). rewrite Cx, Cy in *.
  assert (XX' : poly_ixx_c (gm_poly gm) = b * d ^ 3 / 12) by (rewrite XX; unring; field). assert (YY' : poly_iyy_c (gm_poly gm) = b ^ 3 * d / 12) by (rewrite YY; unring; field). assert (XY' : poly_ixy_c (gm_poly gm) = 0) by (rewrite XY; unring; field).
  destruct (principal_case l query g s st h _ A F N XY') as (K1 & K2 & _ & _ & K3 & _). rewrite XX', YY' in *. rewrite C in *. cbn [fst snd] in *. rewrite Ar in *.
  repeat split; try assumption.
  - rewrite (Rabs_right (d - d / 2)), (Rabs_left (0 - d / 2)), (Rabs_right (b - b / 2)), (Rabs_left (0 - b / 2)) in GZ by lra.
    replace (b * d ^ 3 / 12 / (d - d / 2)) with (b * d ^ 2 / 6) in GZ by (field; lra). replace (b * d ^ 3 / 12 / - (0 - d / 2)) with (b * d ^ 2 / 6) in GZ by (field; lra).
    replace (b ^ 3 * d / 12 / (b - b / 2)) with (b ^ 2 * d / 6) in GZ by (field; lra). replace (b ^ 3 * d / 12 / - (0 - b / 2)) with (b ^ 2 * d / 6) in GZ by (field; lra). exact GZ.
  - assert (SQ : forall x, 0 < x -> sqrt (x ^ 2 / 12) = x / sqrt 12). { intros x Hx. rewrite sqrt_div_alt by lra. f_equal. apply sqrt_pow2. lra. }
    rewrite <- (SQ d Hd), <- (SQ b Hb). replace (b * d ^ 3 / 12 / (b * d)) with (d ^ 2 / 12) in GR by (field; lra). replace (b ^ 3 * d / 12 / (b * d)) with (b ^ 2 / 12) in GR by (field; lra). exact GR.
  - intros L. apply K3. replace (b ^ 3 * d / 12) with (b * d / 12 * b ^ 2) by field. replace (b * d ^ 3 / 12) with (b * d / 12 * d ^ 2) by field. apply Rmult_le_compat_l; [lra|]. apply pow_incr. lra.
Qed.
(** The doubly symmetric I in closed form. *)
Theorem C88_i_closed l query g s st h sh d b t_f t_w n_r gm : analysed g s st h -> i_section sh d b t_f t_w 0 n_r default_material = Ok gm -> fills (s_tris s) (mo_val default_material) (gm_poly gm) ->
  0 < t_f -> 0 < t_w -> 2 * t_f < d -> t_w <= b -> on_grid 12 d -> on_grid 12 b -> on_grid 12 t_f -> on_grid 12 ((b - t_w) / 2) ->
  gives l query g s h get_area [2 * b * t_f + (d - 2 * t_f) * t_w] /\ gives l query g s h get_c [b / 2; d / 2] /\
  gives l query g s h get_ic [(b * d ^ 3 - (b - t_w) * (d - 2 * t_f) ^ 3) / 12; (2 * t_f * b ^ 3 + (d - 2 * t_f) * t_w ^ 3) / 12; 0].
Proof.
  intros A E F H1 H2 H3 H4 G1 G2 G3 G4. destruct (C88_i_section l query g s st h sh d b t_f t_w n_r gm A E F H1 H2 H3 H4 G1 G2 G3 G4) as (K1 & K2 & _ & _ & K5).
  set (ps := [rect 0 0 b t_f; rect ((b - t_w) / 2) t_f ((b + t_w) / 2) (d - t_f); rect 0 (d - t_f) b d]) in *.
  assert (Ar : plates_area ps = 2 * b * t_f + (d - 2 * t_f) * t_w) by (unfold ps; unring; field). assert (P : 0 < 2 * b * t_f + (d - 2 * t_f) * t_w) by nra.
  assert (Cx : plates_cx ps = b / 2) by (unfold plates_cx; rewrite Ar; unfold ps; unring; field; lra). assert (Cy : plates_cy ps = d / 2) by (unfold plates_cy; rewrite Ar; unfold ps; unring; field; lra). rewrite Cx, Cy in *. rewrite Ar in K1.
  repeat split; try assumption. 
  replace ((b * d ^ 3 - (b - t_w) * (d - 2 * t_f) ^ 3) / 12) with (plates_ixx (d / 2) ps) by (unfold ps; unring; field). replace ((2 * t_f * b ^ 3 + (d - 2 * t_f) * t_w ^ 3) / 12) with (plates_iyy (b / 2) ps) by (unfold ps; unring; field).
  replace 0 with (plates_ixy (b / 2) (d / 2) ps) by (unfold ps; unring; field). exact K5.
Qed.
(** The right-angled triangle. *)
Theorem C88_triangular_section l query g s st h sh b d gm : analysed g s st h -> triangular_section sh b d default_material = Ok gm -> fills (s_tris s) (mo_val default_material) (gm_poly gm) ->
  0 < d -> 0 < b -> on_grid 12 d -> on_grid 12 b ->
  gives l query g s h get_area [b * d / 2] /\ gives l query g s h get_c [b / 3; d / 3] /\ gives l query g s h get_ig [b * d ^ 3 / 12; b ^ 3 * d / 12; b ^ 2 * d ^ 2 / 24] /\
  gives l query g s h get_ic [b * d ^ 3 / 36; b ^ 3 * d / 36; - (b ^ 2 * d ^ 2 / 72)].
Proof.
  intros A E F Hd Hb Gd Gb. assert (Q : gm_poly gm = mkPoly [(0, 0); (b, 0); (0, d)] []).
  { apply (plain_exact sh _ default_material); [exact E|opened|grids|]. exists (b, 0). split; [right; left; reflexivity|]. intros Q. injection Q. lra. }
  rewrite Q in F. set (p := mkPoly [(0, 0); (b, 0); (0, d)] []) in *. assert (P : 0 < ring_area [(0, 0); (b, 0); (0, d)]) by (unring; nra).
  assert (S : forall f, poly_sum f p = f [(0, 0); (b, 0); (0, d)]) by (intros f; apply one_sum; lra).
  assert (Ar : poly_area p = b * d / 2) by (change (poly_area p) with (poly_sum ring_area p); rewrite S; unring; field). assert (P' : 0 < b * d) by nra. assert (N : poly_area p <> 0) by lra.
  assert (X : poly_mx p = b ^ 2 * d / 6) by (change (poly_mx p) with (poly_sum ring_mx p); rewrite S; unring; field). assert (Y : poly_my p = b * d ^ 2 / 6) by (change (poly_my p) with (poly_sum ring_my p); rewrite S; unring; field).
  assert (XX : poly_ixx p = b * d ^ 3 / 12) by (unfold poly_ixx; rewrite S; unring; field). assert (YY : poly_iyy p = b ^ 3 * d / 12) by (unfold poly_iyy; rewrite S; unring; field). assert (XY : poly_ixy p = b ^ 2 * d ^ 2 / 24) by (unfold poly_ixy; rewrite S; unring; field).
  destruct (C88_polygon l query g s st h p A F N) as (G1 & _ & G3 & G4 & G5). unfold poly_ixx_c, poly_iyy_c, poly_ixy_c, poly_centroid in G4, G5. cbn [fst snd] in G4, G5. rewrite Ar, X, Y, ?XX, ?YY, ?XY in *.
  replace (b ^ 2 * d / 6 / (b * d / 2)) with (b / 3) in * by (field; lra). replace (b * d ^ 2 / 6 / (b * d / 2)) with (d / 3) in * by (field; lra). repeat split; try assumption.
  replace (b * d ^ 3 / 36) with (b * d ^ 3 / 12 - b * d / 2 * (d / 3) ^ 2) by field. replace (b ^ 3 * d / 36) with (b ^ 3 * d / 12 - b * d / 2 * (b / 3) ^ 2) by field. replace (- (b ^ 2 * d ^ 2 / 72)) with (b ^ 2 * d ^ 2 / 24 - b * d / 2 * (b / 3) * (d / 3)) by field. exact G5.
Qed.

(** ** A case: the 4 x 2 rectangle of T_Init.v, analysed with other calls before and after *)
Lemma ex_fills s : built ex_geometry s -> fills (s_tris s) (mo_val default_material) (mkPoly [(0, 0); (4, 0); (4, 2); (0, 2)] []) /\ spans (s_nodes s) 0 0 4 2.
Proof.
  intros [E _]. cbn [ex_geometry g_mesh g_mats] in E. unfold section_init in E. cbn [rm_attributes ex_raw] in E. change (Nat.eqb _ _) with true in E. cbv iota in E.
  apply (f_equal (fun r => match r with Ok x => x | Err _ => s end)) in E. cbn [rm_vertices rm_triangles ex_raw] in E. subst s. unfold s_tris. cbn [s_mats s_nodes s_els].
  set (m := mo_val default_material). split; [split|].
  - intros el Hel. assert (MO := init_mesh_on ex_raw [default_material; default_material] _ eq_refl ex_raw_ok el Hel). apply MO.
  - change (mesh_edges _) with [(m, (0, 0), (4, 0)); (m, (4, 0), (4, 2)); (m, (4, 2), (0, 0)); (m, (0, 0), (4, 2)); (m, (4, 2), (0, 2)); (m, (0, 2), (0, 0))].
    assert (L : left_ring [(0, 0); (4, 0); (4, 2); (0, 2)] = [(0, 0); (4, 0); (4, 2); (0, 2)]). { unfold left_ring. destruct (Rlt_dec _ _) as [K|]; [exfalso; revert K; unring; lra|reflexivity]. }
    unfold poly_edges. cbn [ext ints map concat]. rewrite L, app_nil_r.
    change (S_Section.ring_edges m _) with [(m, (0, 0), (4, 0)); (m, (4, 0), (4, 2)); (m, (4, 2), (0, 2)); (m, (0, 2), (0, 0))].
    eapply sb_trans; [apply sb_perm|apply (sb_cancel m (4, 2) (0, 0))].
    set (e1 := (m, (0, 0), (4, 0))). set (e2 := (m, (4, 0), (4, 2))). set (e3 := (m, (4, 2), (0, 0))). set (e4 := (m, (0, 0), (4, 2))).
    apply (Permutation_app_comm [e1; e2] [e3; e4]) || apply (Permutation_app_tail _ (Permutation_app_comm [e1; e2] [e3; e4])).
  - repeat split; cbn [map fst snd In ex_raw]; intuition lra.
Qed.
Example C88_met : exists l query s h gm, analysed ex_geometry s "direct" h /\ rectangular_section toy 2 4 default_material = Ok gm /\ fills (s_tris s) (mo_val default_material) (gm_poly gm) /\
  symmetric_poly_x 2 (gm_poly gm) /\ spans (s_nodes s) 0 0 4 2 /\ gives l query ex_geometry s h get_ic [4 * 2 ^ 3 / 12; 4 ^ 3 * 2 / 12; 0] /\ gives l query ex_geometry s h get_phi [-90].
Proof.
  destruct ex_libs as (l & _). destruct ex_built as (s & Hb & Hc & _). destruct (ex_fills s Hb) as [F Sp]. set (query := fun _ : R * R => @nil nat). set (h := [CPlastic; CGeometric; CFrame "direct"]).
  assert (A : analysed ex_geometry s "direct" h) by (split; [exact Hb|split; [repeat constructor|split; [right; left; reflexivity|exact Hc]]]).
  assert (O : open_loop [(0, 0); (4, 0); (4, 2); (0, 2)]) by opened.
  assert (E : rectangular_section toy 2 4 default_material = Ok (new_geometry toy (mkPoly [(0, 0); (4, 0); (4, 2); (0, 2)] []) default_material None 12)) by (unfold rectangular_section, polygon_geometry, rectangle_points; rewrite (open_loop_ring _ O); reflexivity).
  assert (G : gm_poly (new_geometry toy (mkPoly [(0, 0); (4, 0); (4, 2); (0, 2)] []) default_material None 12) = mkPoly [(0, 0); (4, 0); (4, 2); (0, 2)] []).
  { eapply (plain_exact toy _ default_material); [exact E|exact O|repeat constructor; apply int_grid|]. exists (4, 0). split; [right; left; reflexivity|]. intros Q. injection Q. lra. }
  assert (Sy : symmetric_poly_x 2 (mkPoly [(0, 0); (4, 0); (4, 2); (0, 2)] [])).
  { split; [|exists []; split; constructor]. exists [(0, 0); (4, 0)], [(4, 2); (0, 2)]. split; [reflexivity|]. cbn [ext map rev app]. unfold mirror_x. cbn [fst snd]. repeat (apply f_equal2; [f_equal; lra|]). reflexivity. }
  exists l, query, s, h, (new_geometry toy (mkPoly [(0, 0); (4, 0); (4, 2); (0, 2)] []) default_material None 12). rewrite G. repeat (split; [assumption|]).
  rewrite <- G in F. destruct (C88_rectangle l query ex_geometry s "direct" h toy 2 4 _ A E F) as (K1 & _ & K3 & _); [lra|lra|apply int_grid|apply int_grid|exact Sp|]. split; [exact K3|].
  rewrite G in F. set (p := mkPoly [(0, 0); (4, 0); (4, 2); (0, 2)] []) in *. assert (P : 0 <= ring_area [(0, 0); (4, 0); (4, 2); (0, 2)]) by (unring; lra).
  assert (S : forall f, poly_sum f p = f [(0, 0); (4, 0); (4, 2); (0, 2)]) by (intros f; apply one_sum, P).
  assert (Ar : poly_area p = 8) by (change (poly_area p) with (poly_sum ring_area p); rewrite S; unring; lra). assert (X : poly_mx p = 16) by (change (poly_mx p) with (poly_sum ring_mx p); rewrite S; unring; lra). assert (Y : poly_my p = 8) by (change (poly_my p) with (poly_sum ring_my p); rewrite S; unring; lra).
  destruct (C88_symmetric_x l query ex_geometry s "direct" h p 2 A F ltac:(lra) Sy) as [_ (_ & _ & _ & _ & _ & K)]. apply K. unfold poly_ixx_c, poly_iyy_c, poly_centroid, poly_ixx, poly_iyy. rewrite !S, Ar, X, Y. cbn [fst snd]. unring. lra.
Qed.

Print Assumptions C88_polygon.
Print Assumptions C88_symmetric_x.
Print Assumptions C88_symmetric_y.
Print Assumptions C88_moduli.
Print Assumptions C88_rectangular_section.
Print Assumptions C88_i_section.
Print Assumptions C88_mono_i_section.
Print Assumptions C88_channel_section.
Print Assumptions C88_tee_section.
Print Assumptions C88_angle_section.
Print Assumptions C88_cruciform_section.
Print Assumptions C88_cee_section.
Print Assumptions C88_zed_section.
Print Assumptions C88_rectangular_hollow_section.
Print Assumptions C88_rectangle.
Print Assumptions C88_i_closed.
Print Assumptions C88_triangular_section.
Print Assumptions C88_met.
