(** Theorems about perimeters and the overlap warning: C92-C93. *)
From Coquelicot Require Import Coquelicot.
From Coq Require Import Reals String List Permutation Bool Arith Lra Lia.
From Verif Require Import Base M_Fea M_Init M_Geometry S_Geometry P_Geometry P_Geometry3 P_Geometry6 P_Geometry8 M_Library S_Library P_Library P_Library2 P_Library3 P_Library4 P_Library5 P_Library7 P_Library8 M_SetOps.
From Verif Require Import S_Integral S_Fem S_Section M_Post P_Section T_Section.
From Verif Require Import M_Props M_State S_State P_State P_State2 P_State4 P_State5 S_Outline P_Outline P_Outline2 P_Outline3 M_Perimeter S_Perimeter P_Perimeter P_Perimeter2 T_State T_Outline.
Import ListNotations.
Local Open Scope list_scope.
Local Open Scope R_scope.

(** The perimeter of a Geometry is the length of its outer boundary; holes do not count. *)
Theorem C92_perimeter g : calculate_perimeter g = curve_length (ext (gm_poly g)).
Proof. apply ring_curve. Qed.
(** It does not depend on where the boundary starts or which way it runs. *)
Theorem C92_start_and_direction g g' : same_cycle (ext (gm_poly g)) (ext (gm_poly g')) -> calculate_perimeter g' = calculate_perimeter g.
Proof. apply length_cycle. Qed.
(** It is at least twice the distance of any two vertices (so at least twice the width, twice the depth), and at least 0. *)
Theorem C92_extent g p q : In p (ext (gm_poly g)) -> In q (ext (gm_poly g)) ->
  2 * Rabs (fst q - fst p) <= calculate_perimeter g /\ 2 * Rabs (snd q - snd p) <= calculate_perimeter g /\ 2 * sqrt ((fst q - fst p) ^ 2 + (snd q - snd p) ^ 2) <= calculate_perimeter g.
Proof. intros Hp Hq. pose proof (length_diameter _ p q Hp Hq). pose proof (dist_ge_x p q). pose proof (dist_ge_y p q). unfold calculate_perimeter. fold (pt_dist p q). repeat split; lra. Qed.
(** Shifting, turning and mirroring keep it, up to the rounding of the vertices to the tolerance. *)
Theorem C92_moved sh g g' : (exists dx dy, g' = shift_section sh g dx dy) \/ (exists angle o rad, g' = rotate_section sh g angle o rad) \/ (exists axis o, g' = mirror_section sh g axis o) ->
  Rabs (calculate_perimeter g' - calculate_perimeter g) <= INR (length (ext (gm_poly g))) * (2 / 10 ^ gm_tol g).
Proof.
  intros [(dx & dy & ->)|[(angle & o & rad & ->)|(axis & o & ->)]].
  - apply moved_perimeter, translate_iso.
  - apply moved_perimeter, rotate_iso.
  - unfold mirror_section. pose proof (mirror_iso axis (origin_of o [gm_poly g])) as I. destruct (mirror_factors axis) as [fx fy]. cbn [fst snd] in I. apply moved_perimeter, I.
Qed.
Example C92_moved_met : exists g, rectangular_section toy 2 4 default_material = Ok g /\ Rabs (calculate_perimeter (rotate_section toy g 30 Center false) - calculate_perimeter g) <= INR (length (ext (gm_poly g))) * (2 / 10 ^ gm_tol g).
Proof.
  eexists. split.
  - unfold rectangular_section, polygon_geometry, rectangle_points. rewrite open_loop_ring; [reflexivity|]. split; [cbn; lia|]. intros q E. cbn in E. injection E as E. lra.
  - apply (C92_moved toy). right. left. exists 30, Center, false. reflexivity.
Qed.

(** A CompoundGeometry: the length of the outer boundary of the union of the regions, or -1 if the union is not one polygon. *)
Theorem C92_compound union c : (forall u, union (map gm_poly (cp_geoms c)) = Some u -> compound_perimeter union c = curve_length (ext u) /\ 0 <= compound_perimeter union c) /\
  (union (map gm_poly (cp_geoms c)) = None <-> compound_perimeter union c = -1).
Proof.
  unfold compound_perimeter. split.
  - intros u E. rewrite E. split; [apply ring_curve|apply length_nonneg].
  - destruct (union _) as [u|]; split; intros H; try discriminate; try reflexivity. pose proof (length_nonneg (ext u)). lra.
Qed.
(** get_perimeter returns it after a geometric analysis, whatever else is in the history: the length of the outer boundary of a Geometry, that of the union of the
    regions of a CompoundGeometry, or -1 if the union is not one polygon. *)
Lemma perimeter_given l query union g s st h i : analysed g s st h -> g_perimeter g = item_perimeter union i -> gives l query g s h get_perimeter [item_perimeter union i].
Proof.
  intros (Hb & U & Hi & Hc) E. eapply gives_values; [eassumption|eassumption|assumption|exact I| | |reflexivity].
  - intros q Hq. cbn [fields In] in Hq. unfold geometric_props. cbn [In]. intuition congruence.
  - cbn [fields all_values geometric_value]. rewrite E. reflexivity.
Qed.
Theorem C92_get_perimeter l query union g s st h i : analysed g s st h -> g_perimeter g = item_perimeter union i ->
  gives l query g s h get_perimeter [match i with
    | ISingle gm => curve_length (ext (gm_poly gm))
    | ICompound c => match union (map gm_poly (cp_geoms c)) with Some u => curve_length (ext u) | None => -1 end
    end].
Proof.
  intros A E. pose proof (perimeter_given l query union g s st h i A E) as G. destruct i as [gm|c]; cbn [item_perimeter] in G.
  - unfold calculate_perimeter in G. rewrite ring_curve in G. exact G.
  - unfold compound_perimeter in G. destruct (union _); [rewrite ring_curve in G|]; exact G.
Qed.

(** ** Perimeters of library sections: the lengths of the straight sides, with a chord polygon at every radius *)
Theorem C92_rectangular_section sh d b m : 0 < d -> 0 < b -> has_perimeter (rectangular_section sh d b m) 4 (2 * b + 2 * d).
Proof.
  intros Hd Hb. eapply has_new with (l := rectangle_points d b); [|unfold rectangle_points; lengths|cbn; lia]. unfold rectangular_section, polygon_geometry, rectangle_points. rewrite open_loop_ring; [reflexivity|]. split; [cbn; lia|]. intros q E. cbn in E. injection E as E. lra.
Qed.
Theorem C92_triangular_section sh b h m : 0 < b -> 0 < h -> has_perimeter (triangular_section sh b h m) 3 (b + h + sqrt (b ^ 2 + h ^ 2)).
Proof.
  intros Hb Hh. assert (D : pt_dist (b, 0) (0, h) = sqrt (b ^ 2 + h ^ 2)) by (unfold pt_dist; cbn [fst snd]; f_equal; ring). eapply has_new with (l := [(0, 0); (b, 0); (0, h)]); [| |cbn; lia].
  - unfold triangular_section, polygon_geometry. rewrite open_loop_ring; [reflexivity|]. split; [cbn; lia|]. intros q E. cbn in E. injection E as E. lra.
  - unfold ring_length. cbn [around shoelace]. rewrite D. dists.
Qed.
Theorem C92_triangular_radius_section sh b n_r m : (2 <= n_r)%nat -> 0 < b -> has_perimeter (triangular_radius_section sh b n_r m) (1 + n_r) (2 * b + quarter n_r b).
Proof. intros H Hb. destruct (triangular_radius_facts n_r H b Hb) as (O & _). eapply has_new; [apply O|apply radius_triangle_length; assumption|unfold triangular_radius_points; counts H]. Qed.
(** regular polygon in a circle: less than the circle, and close to it *)
Theorem C92_circular_section sh d n m : (3 <= n)%nat -> 0 < d -> has_perimeter (circular_section sh d n m) n (INR n * (d * sin (PI / INR n))) /\
  PI * d * (1 - (PI / INR n) ^ 2 / 6) <= INR n * (d * sin (PI / INR n)) < PI * d.
Proof.
  intros H Hd. split; [|apply ngon_bounds; [lia|exact Hd]]. eapply has_new; [unfold circular_section, polygon_geometry; rewrite ellipse_open by (lia || lra); reflexivity|apply ngon_length; [lia|lra]|].
  unfold ellipse_points. rewrite map_length, seq_length. lia.
Qed.
Theorem C92_cruciform_section sh d b t r n_r m : (2 <= n_r)%nat -> 0 < t -> 0 <= r -> t + 2 * r < d -> t + 2 * r <= b ->
  has_perimeter (cruciform_section sh d b t r n_r m) (8 + 4 * n_r) (2 * d + 2 * b + 4 * rounding n_r r).
Proof. intros H **. destruct (cruciform_facts n_r H d b t r) as (O & _); try assumption. eapply has_new; [apply O|apply cruciform_length; assumption|unfold cruciform_points; counts H]. Qed.
Theorem C92_i_section sh d b t_f t_w r n_r m : (2 <= n_r)%nat -> 0 < t_f -> 0 < t_w -> 0 <= r -> 2 * t_f + 2 * r <= d -> t_w + 2 * r <= b ->
  has_perimeter (i_section sh d b t_f t_w r n_r m) (8 + 4 * n_r) (2 * d + 4 * b - 2 * t_w + 4 * rounding n_r r).
Proof. intros H **. destruct (i_facts n_r H d b t_f t_w r) as (O & _); try assumption. eapply has_new; [apply O|apply i_length; assumption|unfold i_points; counts H]. Qed.
Theorem C92_mono_i_section sh d b_t b_b t_ft t_fb t_w r n_r m : (2 <= n_r)%nat -> 0 < t_ft -> 0 < t_fb -> 0 < t_w -> 0 <= r -> t_ft + t_fb + 2 * r <= d -> t_w + 2 * r <= b_t -> t_w + 2 * r <= b_b ->
  has_perimeter (mono_i_section sh d b_t b_b t_ft t_fb t_w r n_r m) (8 + 4 * n_r) (2 * d + 2 * b_t + 2 * b_b - 2 * t_w + 4 * rounding n_r r).
Proof. intros H **. destruct (mono_i_facts n_r H d b_t b_b t_ft t_fb t_w r) as (O & _); try assumption. eapply has_new; [apply O|apply mono_i_length; assumption|unfold mono_i_points; cbv zeta; counts H]. Qed.
Theorem C92_channel_section sh d b t_f t_w r n_r m : (2 <= n_r)%nat -> 0 < t_f -> 0 < t_w -> 0 <= r -> 2 * t_f + 2 * r <= d -> t_w + r <= b ->
  has_perimeter (channel_section sh d b t_f t_w r n_r m) (6 + 2 * n_r) (2 * d + 4 * b - 2 * t_w + 2 * rounding n_r r).
Proof. intros H **. destruct (channel_facts n_r H d b t_f t_w r) as (O & _); try assumption. eapply has_new; [apply O|apply channel_length; assumption|unfold channel_points; counts H]. Qed.
Theorem C92_tee_section sh d b t_f t_w r n_r m : (2 <= n_r)%nat -> 0 < t_f -> 0 < t_w -> 0 <= r -> t_f + r < d -> t_w + 2 * r <= b ->
  has_perimeter (tee_section sh d b t_f t_w r n_r m) (6 + 2 * n_r) (2 * d + 2 * b + 2 * rounding n_r r).
Proof. intros H **. destruct (tee_facts n_r H d b t_f t_w r) as (O & _); try assumption. eapply has_new; [apply O|apply tee_length; assumption|unfold tee_points; counts H]. Qed.
(** the toe radius is less than the thickness by more than the tolerance of np.isclose *)
Theorem C92_angle_section sh d b t r_r r_t n_r m : (2 <= n_r)%nat -> 0 < t -> 0 <= r_r -> 0 <= r_t -> 1 / 10 ^ 8 + 1 / 10 ^ 5 * r_t < t - r_t -> t + r_r + r_t <= b -> t + r_r + r_t <= d ->
  has_perimeter (angle_section sh d b t r_r r_t n_r m) (3 + 3 * n_r) (2 * d + 2 * b + rounding n_r r_r + 2 * rounding n_r r_t).
Proof.
  intros H H1 H2 H3 H4 H5 H6. destruct (angle_facts n_r H d b t r_r r_t H1 H2 H3 ltac:(lra) H5 H6) as (O & _). assert (C : isclose t r_t = false) by (unfold isclose; rewrite !Rabs_pos_eq by lra; destruct (Rle_dec _ _); [lra|reflexivity]).
  assert (E : angle_section sh d b t r_r r_t n_r m = polygon_geometry sh (angle_points d b t r_r r_t n_r) m) by (unfold angle_section; destruct (Rlt_dec t r_t); [lra|reflexivity]). rewrite E.
  eapply has_new; [apply O|apply angle_length; assumption || lra|unfold angle_points; rewrite C; counts H].
Qed.
(** lipped sections, the lip longer than the outer radius *)
Theorem C92_cee_section sh d b l t r_out n_r m : (2 <= n_r)%nat -> 0 < t -> 0 <= r_out -> 2 * t <= b -> 2 * r_out <= b -> 2 * t <= d -> 2 * r_out < d -> r_out < l -> t <= l -> 2 * l <= d ->
  has_perimeter (cee_section sh d b l t r_out n_r m) (4 + 8 * n_r) (2 * d + 4 * b + 4 * l - 6 * t + 4 * rounding n_r r_out + 4 * rounding n_r (Rmax (r_out - t) 0)).
Proof.
  intros H **. destruct (cee_facts n_r H d b l t r_out) as (O & _); try assumption; [intros; assumption|]. eapply has_new; [apply O|apply cee_length; assumption|]. unfold cee_points. cbv zeta. destruct (Rlt_dec r_out l); [|lra]. counts H.
Qed.
Theorem C92_zed_section sh d b_l b_r l t r_out n_r m : (2 <= n_r)%nat -> 0 < t -> 0 <= r_out -> 2 * t <= b_l -> 2 * r_out <= b_l -> 2 * t <= b_r -> 2 * r_out <= b_r -> 2 * t <= d -> 2 * r_out < d ->
  r_out + t + Rmax (r_out - t) 0 < d -> r_out < l -> t <= l -> 2 * l <= d ->
  has_perimeter (zed_section sh d b_l b_r l t r_out n_r m) (4 + 8 * n_r) (2 * d + 2 * b_l + 2 * b_r + 4 * l - 6 * t + 4 * rounding n_r r_out + 4 * rounding n_r (Rmax (r_out - t) 0)).
Proof.
  intros H **. destruct (zed_facts n_r H d b_l b_r l t r_out) as (O & _); try assumption; [intros; assumption|]. eapply has_new; [apply O|apply zed_length; assumption|]. unfold zed_points. cbv zeta. destruct (Rlt_dec r_out l); [|lra]. counts H.
Qed.
Example C92_i_met : has_perimeter (i_section toy 203 133 7.8 5.8 8.9 16 default_material) 72 (2 * 203 + 4 * 133 - 2 * 5.8 + 4 * rounding 16 8.9).
Proof. apply (C92_i_section toy 203 133 7.8 5.8 8.9 16 default_material); [lia|lra..]. Qed.
Example C92_cee_met : has_perimeter (cee_section toy 125 50 30 3 6 8 default_material) 68 (2 * 125 + 4 * 50 + 4 * 30 - 6 * 3 + 4 * rounding 8 6 + 4 * rounding 8 3).
Proof. pose proof (C92_cee_section toy 125 50 30 3 6 8 default_material ltac:(lia) ltac:(lra) ltac:(lra) ltac:(lra) ltac:(lra) ltac:(lra) ltac:(lra) ltac:(lra) ltac:(lra) ltac:(lra)) as K. rewrite (Rmax_left (6 - 3) 0) in K by lra. replace (6 - 3) with 3 in K by lra. exact K. Qed.
(** the chord polygon is shorter than the quarter circle, and close to it *)
Theorem C92_quarter n r : (2 <= n)%nat -> 0 < r -> PI / 2 * r * (1 - (PI / 4 / INR (n - 1)) ^ 2 / 6) <= quarter n r < PI / 2 * r.
Proof. apply quarter_bounds. Qed.

(** Hollow sections: the outer ring only, if shapely's difference has it as its exterior. *)
Lemma hollow_case sh o i m v k : (length o <= k)%nat -> make_polygon o = Ok (mkPoly o []) -> make_polygon i = Ok (mkPoly i []) -> ring_length o = v -> forall p,
  sh_difference sh (mkPoly o []) [mkPoly i []] = Some p -> same_cycle o (ext p) -> has_perimeter (hollow_geometry sh o i m) k v.
Proof.
  intros N Mo Mi V p D C. unfold hollow_geometry. rewrite Mo, Mi. cbn [bind]. rewrite D. eexists. split; [reflexivity|]. rewrite <- V, <- (length_cycle _ _ C). eapply bound_more; [apply perimeter_new|]. rewrite (cycle_count _ _ C). exact N.
Qed.
Theorem C92_rectangular_hollow_section sh d b t r_out n_r (r_in t_w : option R) m :
  let w := match t_w with None => t | Some w => w end in let r := match r_in with None => Rmax (r_out - Rmax t w) 0 | Some r => r end in
  (2 <= n_r)%nat -> 0 < t -> 0 < w -> 0 <= r_out -> 0 <= r -> 2 * r_out < d -> 2 * r_out <= b -> 2 * t + 2 * r < d -> 2 * w + 2 * r < b ->
  exists o i, let res := rectangular_hollow_section sh d b t r_out n_r r_in t_w m in hollowed sh res o i m /\ curve_length o = 2 * d + 2 * b + 4 * rounding n_r r_out /\
    forall p, sh_difference sh (mkPoly o []) [mkPoly i []] = Some p -> same_cycle o (ext p) -> has_perimeter res (4 * n_r) (2 * d + 2 * b + 4 * rounding n_r r_out).
Proof.
  intros w r H H1 H2 H3 H4 H5 H6 H7 H8. destruct (rhs_outer_facts n_r H d b r_out ltac:(lra) ltac:(lra) H3 H5 H6) as (Mo & _).
  destruct (rhs_inner_facts n_r H d b t w r ltac:(lra) ltac:(lra) H4 ltac:(lra) ltac:(lra)) as (Mi & _). pose proof (rhs_length n_r H d b r_out ltac:(lra) ltac:(lra) H3 H5 H6) as L.
  exists (rhs_outer d b r_out n_r), (rhs_inner d b t w r n_r). cbv zeta. unfold rectangular_hollow_section. fold w. fold r. split; [apply hollow_make; assumption|]. split; [rewrite <- ring_curve; exact L|]. apply hollow_case; try assumption. unfold rhs_outer. counts H.
Qed.
Theorem C92_circular_hollow_section sh d t n m : (3 <= n)%nat -> 0 < t -> 2 * t < d ->
  exists o i, let res := circular_hollow_section sh d t n m in hollowed sh res o i m /\ curve_length o = INR n * (d * sin (PI / INR n)) /\
    forall p, sh_difference sh (mkPoly o []) [mkPoly i []] = Some p -> same_cycle o (ext p) -> has_perimeter res n (INR n * (d * sin (PI / INR n))).
Proof.
  intros H Ht Hd. set (i := map (fun i => ((d / 2 - t) * cos (INR i * 2 * PI / INR n), (d / 2 - t) * sin (INR i * 2 * PI / INR n))) (seq 0 n)).
  assert (Ei : i = ellipse_points (d - 2 * t) (d - 2 * t) n) by (unfold i, ellipse_points; apply map_ext; intros k; f_equal; f_equal; field).
  assert (Mo := ellipse_open d d n H ltac:(lra)). assert (Mi := ellipse_open (d - 2 * t) (d - 2 * t) n H ltac:(lra)). rewrite <- Ei in Mi. assert (L := ngon_length d n ltac:(lia) ltac:(lra)).
  exists (ellipse_points d d n), i. cbv zeta. unfold circular_hollow_section. fold i. split; [apply hollow_make; assumption|]. split; [rewrite <- ring_curve; exact L|].
  apply hollow_case; try assumption. unfold ellipse_points. rewrite map_length, seq_length. apply le_n.
Qed.
(** The box girder: two flanges and two sloping webs *)
Theorem C92_box_girder_section sh d b_t b_b t_ft t_fb t_w m : 0 < d -> b_t <> b_b -> 0 < b_t -> 0 < b_b -> 0 <= t_w -> t_ft + t_fb < d ->
  let v := b_t + b_b + 2 * sqrt (d ^ 2 + ((b_b - b_t) / 2) ^ 2) in let x := Rmax b_t b_b / 2 in let o := [(x - b_b / 2, 0); (x + b_b / 2, 0); (x + b_t / 2, d); (x - b_t / 2, d)] in
  exists i, let res := box_girder_section sh d b_t b_b t_ft t_fb t_w m in hollowed sh res o i m /\ curve_length o = v /\
    forall p, sh_difference sh (mkPoly o []) [mkPoly i []] = Some p -> same_cycle o (ext p) -> has_perimeter res 4 v.
Proof.
  intros Hd Hb Hbt Hbb Hw Ht v x o.
  assert (L : ring_length o = v).
  { assert (D1 : pt_dist (x + b_b / 2, 0) (x + b_t / 2, d) = sqrt (d ^ 2 + ((b_b - b_t) / 2) ^ 2)) by (unfold pt_dist; cbn [fst snd]; f_equal; field).
    assert (D2 : pt_dist (x - b_t / 2, d) (x - b_b / 2, 0) = sqrt (d ^ 2 + ((b_b - b_t) / 2) ^ 2)) by (unfold pt_dist; cbn [fst snd]; f_equal; field).
    unfold o, v, ring_length. cbn [around shoelace]. rewrite D1, D2. dists. }
  set (h := (b_b - b_t) / 2) in *. set (e := t_w * sqrt (d ^ 2 + h ^ 2) / d). set (wb := b_b / 2 - h * (t_fb / d) - e). set (wt := b_t / 2 + h * (t_ft / d) - e).
  set (i := [(x - wb, t_fb); (x + wb, t_fb); (x + wt, d - t_ft); (x - wt, d - t_ft)]).
  assert (E : box_girder_section sh d b_t b_b t_ft t_fb t_w m = hollow_geometry sh o i m).
  { unfold box_girder_section. fold x. destruct (girder_angles d b_t b_b) as [phi_b phi_t] eqn:E. destruct (girder_angles_spec d b_t b_b t_ft t_fb t_w Hd Hb Hw phi_b phi_t E) as (-> & -> & ->). fold h. fold e. fold o. f_equal.
    unfold i, wb, wt. repeat (apply f_equal2; [apply f_equal2; [field; lra|reflexivity]|]). reflexivity. }
  assert (Mo : make_polygon o = Ok (mkPoly o [])) by (apply open_loop_ring; split; [cbn; lia|]; intros q Eq; cbn in Eq; injection Eq as _ Eq; lra).
  assert (Mi : make_polygon i = Ok (mkPoly i [])) by (apply open_loop_ring; split; [cbn; lia|]; intros q Eq; cbn in Eq; injection Eq as _ Eq; lra).
  exists i. cbv zeta. rewrite E. split; [apply hollow_make; assumption|]. split; [rewrite <- ring_curve; exact L|]. apply (hollow_case sh o i m v 4 (le_n 4) Mo Mi L).
Qed.

(** a rectangular hollow section with shapely's difference cutting the inner ring as a hole, and its perimeter from get_perimeter *)
Example C92_hollow_met : has_perimeter (rectangular_hollow_section toy 100 50 4 10 8 None None default_material) 32 (2 * 100 + 2 * 50 + 4 * rounding 8 10).
Proof.
  assert (M : Rmax (10 - Rmax 4 4) 0 = 6) by (rewrite (Rmax_left 4 4), Rmax_left by lra; lra).
  destruct (rhs_outer_facts 8 ltac:(lia) 100 50 10 ltac:(lra) ltac:(lra) ltac:(lra) ltac:(lra) ltac:(lra)) as (Mo & _).
  destruct (rhs_inner_facts 8 ltac:(lia) 100 50 4 4 6 ltac:(lra) ltac:(lra) ltac:(lra) ltac:(lra) ltac:(lra)) as (Mi & _).
  pose proof (rhs_length 8 ltac:(lia) 100 50 10 ltac:(lra) ltac:(lra) ltac:(lra) ltac:(lra) ltac:(lra)) as L.
  assert (N : (length (rhs_outer 100 50 10 8) <= 32)%nat) by (assert (H : (2 <= 8)%nat) by lia; unfold rhs_outer; counts H).
  unfold rectangular_hollow_section. rewrite M. apply (hollow_case toy _ _ default_material _ 32 N Mo Mi L _ eq_refl). left. exists [], (rhs_outer 100 50 10 8). split; [reflexivity|symmetry; apply app_nil_r].
Qed.
Example C92_get_perimeter_met : exists l query s h g, analysed ex_geometry s "direct" h /\ rectangular_section toy 2 4 default_material = Ok g /\
  g_perimeter ex_geometry = item_perimeter (fun _ => None) (ISingle g) /\ gives l query ex_geometry s h get_perimeter [12].
Proof.
  destruct ex_libs as (l & _). destruct ex_built as (s & Hb & Hc & _). set (query := fun _ : R * R => @nil nat). set (h := [CPlastic; CGeometric; CFrame "direct"]).
  assert (A : analysed ex_geometry s "direct" h) by (split; [exact Hb|split; [repeat constructor|split; [right; left; reflexivity|exact Hc]]]).
  assert (O : open_loop [(0, 0); (4, 0); (4, 2); (0, 2)]) by opened.
  set (gm := new_geometry toy (mkPoly [(0, 0); (4, 0); (4, 2); (0, 2)] []) default_material None 12).
  assert (E : rectangular_section toy 2 4 default_material = Ok gm) by (unfold rectangular_section, polygon_geometry, rectangle_points; rewrite (open_loop_ring _ O); reflexivity).
  assert (G : gm_poly gm = mkPoly [(0, 0); (4, 0); (4, 2); (0, 2)] []).
  { eapply (plain_exact toy _ default_material); [exact E|exact O|repeat constructor; apply int_grid|]. exists (4, 0). split; [right; left; reflexivity|]. intros Q. injection Q. lra. }
  assert (P : calculate_perimeter gm = 12) by (unfold calculate_perimeter; rewrite G; unfold ring_length; cbn [ext around shoelace]; dists).
  exists l, query, s, h, gm. split; [exact A|]. split; [exact E|]. assert (Q : g_perimeter ex_geometry = item_perimeter (fun _ => None) (ISingle gm)) by (cbn [item_perimeter]; rewrite P; reflexivity).
  split; [exact Q|]. pose proof (perimeter_given l query (fun _ => None) ex_geometry s "direct" h (ISingle gm) A Q) as K. cbn [item_perimeter] in K. rewrite P in K. exact K.
Qed.

(** The same edges with another material. *)
Definition recolour (m : material) (l : list edge) : list edge := map (fun e => (m, snd (fst e), snd e)) l.
Lemma recolour_path m m' a : forall l, recolour m (path_edges m' a l) = path_edges m a l.
Proof. induction l as [|p l IH]; [reflexivity|]. destruct l as [|q l]; [reflexivity|]. change (path_edges m' a (p :: q :: l)) with ((m', p, q) :: path_edges m' a (q :: l)). change (path_edges m a (p :: q :: l)) with ((m, p, q) :: path_edges m a (q :: l)). rewrite <- IH. reflexivity. Qed.
Lemma recolour_poly m m' p : recolour m (poly_edges m' p) = poly_edges m p.
Proof.
  assert (RE : forall l, recolour m (S_Section.ring_edges m' l) = S_Section.ring_edges m l) by (intros [|a l]; [reflexivity|apply recolour_path]).
  unfold poly_edges. unfold recolour at 1. rewrite map_app. f_equal; [apply RE|]. rewrite concat_map, map_map. f_equal. apply map_ext. intros h. apply RE.
Qed.
Lemma recolour_boundary m l l' : same_boundary l l' -> same_boundary (recolour m l) (recolour m l').
Proof.
  induction 1 as [l|l l' _ IH|l1 l2 l3 _ IH1 _ IH2|l l' P|m0 p q l|m0 p q t l r].
  - apply sb_refl.
  - apply sb_sym, IH.
  - eapply sb_trans; eassumption.
  - apply sb_perm, Permutation_map, P.
  - apply sb_cancel.
  - apply sb_split.
Qed.
(** calculate_area and calculate_centroid of a Geometry are the true area and centroid: the integrals over any triangles that fill the polygon. *)
Theorem C92_area_and_centroid els m g : fills els m (gm_poly g) -> let int := fun f => S_Section.mesh_int (fun _ => 1) f els in
  calculate_area g = int (fun _ _ => 1) /\
  (calculate_area g <> 0 -> calculate_centroid g = (int (fun x _ => x) / int (fun _ _ => 1), int (fun _ y => y) / int (fun _ _ => 1))).
Proof.
  intros F int.
  set (m1 := mkMat 1 (m_nu m) (m_fy m) (m_rho m)). set (els1 := map (fun e => mkTri (el_x e) (el_y e) (el_ids e) m1) els).
  assert (V1 : valid_mesh els1) by (intros e I; apply in_map_iff in I; destruct I as (e0 & <- & I); exact (proj1 F e0 I)).
  assert (I1 : forall w f, S_Section.mesh_int w f els1 = S_Section.mesh_int (fun _ => w m1) f els) by (intros w f; unfold S_Section.mesh_int, els1; rewrite sumf_map; reflexivity).
  assert (F1 : fills els1 m1 (gm_poly g)).
  { split; [exact V1|]. destruct F as [_ B].
    assert (E1 : mesh_edges els1 = recolour m1 (mesh_edges els)). { unfold mesh_edges, els1, recolour. rewrite map_map. clear. induction els as [|e l IH]; [reflexivity|]. cbn [map concat]. rewrite map_app, IH. reflexivity. }
    rewrite E1, <- (recolour_poly m1 m). apply recolour_boundary, B. }
  pose proof (filled_totals _ _ _ F1) as T. destruct (T_Section.C05_totals_are_integrals els1 V1) as (A & _ & _ & _ & X & Y & _). cbn [m_E m1] in *. rewrite T in A, X, Y. cbn [t_area t_qx t_qy] in A, X, Y. rewrite Rmult_1_l in X, Y. rewrite I1 in A, X, Y.
  unfold calculate_area, calculate_centroid, int. split; [exact A|]. intros N. unfold poly_centroid. cbn [fst snd]. rewrite A, X, Y. reflexivity.
Qed.
(** They are what a geometric analysis of the section returns. *)
Theorem C92_area_and_centroid_of_section l query g s st h gm : analysed g s st h -> fills (s_tris s) (mo_val default_material) (gm_poly gm) -> calculate_area gm <> 0 ->
  gives l query g s h get_area [calculate_area gm] /\ gives l query g s h get_c [fst (calculate_centroid gm); snd (calculate_centroid gm)].
Proof. intros A F N. destruct (C88_polygon l query g s st h (gm_poly gm) A F N) as (K1 & _ & _ & K2 & _). split; [exact K1|exact K2]. Qed.

(** ** Overlapping regions *)
(** calculate_plastic_properties warns exactly when the geometric analysis is there, the geometry is a compound, and the area counted more than
    once is more than 1e-9 of the sum of the areas. *)
Theorem C93_overlap_warning union_area s i : plastic_warning union_area s i = true <->
  num s p_cx <> None /\ exists c, i = ICompound c /\ check_geometry_overlaps union_area (map gm_poly (cp_geoms c)) = true.
Proof.
  unfold plastic_warning. destruct (num s p_cx) as [x|]; [|split; [discriminate|intros [H _]; contradiction]]. destruct i as [g|c].
  - split; [discriminate|]. intros (_ & c & E & _). discriminate.
  - split; [intros H; split; [discriminate|]; exists c; auto|]. intros (_ & c' & E & H). injection E as <-. exact H.
Qed.
Theorem C93_overlaps cs lop union_area : cut_into cs lop union_area ->
  check_geometry_overlaps union_area lop = true <-> 1 / 10 ^ 9 * sumf poly_area lop < double_counted cs.
Proof. apply overlaps_iff. Qed.
(** Regions that do not overlap never cause a warning, however many there are. *)
Theorem C93_disjoint cs lop union_area : cut_into cs lop union_area -> Forall (fun c => (layers c <= 1)%nat) cs -> check_geometry_overlaps union_area lop = false.
Proof.
  intros H F. destruct (check_geometry_overlaps union_area lop) eqn:E; [|reflexivity]. apply (overlaps_iff cs _ _ H) in E. exfalso.
  assert (D : double_counted cs = 0). { unfold double_counted. rewrite (sumf_ext' _ (fun _ => 0)); [apply sumf_zero|]. intros c Hc. rewrite Forall_forall in F. specialize (F c Hc). replace (layers c - 1)%nat with 0%nat by lia. cbn [INR]. lra. }
  rewrite D in E. destruct (double_nonneg _ _ _ H) as [_ U]. pose proof (sum_union _ _ _ H) as S. lra.
Qed.
(** An overlap of two or more regions of more than 1e-9 of the total area does. *)
Theorem C93_overlapping cs lop union_area c : cut_into cs lop union_area -> In c cs -> (2 <= layers c)%nat -> 1 / 10 ^ 9 * sumf poly_area lop < fst c -> check_geometry_overlaps union_area lop = true.
Proof.
  intros H Hc L A. apply (overlaps_iff cs _ _ H). pose proof (double_one cs lop union_area c H Hc L). lra.
Qed.
(** Overlaps below the tolerance go unreported: it is not true that every overlap causes a warning. *)
Theorem C93_every_overlap_refuted : exists cs lop union_area, cut_into cs lop union_area /\ (exists c, In c cs /\ (2 <= layers c)%nat) /\ check_geometry_overlaps union_area lop = false.
Proof.
  set (p := mkPoly [(0, 0); (1, 0); (1, 1); (0, 1)] []). assert (A : poly_area p = 1).
  { unfold p. rewrite one_area; unfold ring_area, M_Geometry.cross; cbn [around shoelace fst snd]; lra. }
  set (e := / 10 ^ 10). assert (He : 0 < e) by (apply Rinv_0_lt_compat, pow_lt; lra). assert (He' : e < 1). { unfold e. rewrite <- Rinv_1. apply Rinv_lt_contravar; [|]; assert (1 < 10 ^ 10) by (apply Rlt_pow_R1; [lra|lia]); lra. }
  set (cs := [(1 - e, [true; false]); (e, [true; true]); (1 - e, [false; true])]). set (ua := fun _ : list polygon => 2 - e).
  assert (C : cut_into cs [p; p] ua).
  { split; [|split].
    - repeat constructor; cbn [fst snd]; lra.
    - intros i q Hq. destruct i as [|[|[|i]]]; cbn in Hq; try discriminate; injection Hq as <-; rewrite A; unfold cs, sumf, Rsum; cbn [map fold_right nth snd fst]; lra.
    - unfold ua, cs, sumf, Rsum. cbn [map fold_right layers snd filter length Nat.eqb fst]. lra. }
  exists cs, [p; p], ua. split; [exact C|]. split; [exists (e, [true; true]); split; [right; left; reflexivity|cbn; lia]|].
  destruct (check_geometry_overlaps ua [p; p]) eqn:E; [|reflexivity]. apply (overlaps_iff cs _ _ C) in E. exfalso. revert E. unfold double_counted, cs, sumf, Rsum. cbn [map fold_right layers snd filter length Nat.sub INR fst]. rewrite A. unfold e.
  assert (X : / 10 ^ 10 <= 1 / 10 ^ 9). { unfold Rdiv. rewrite Rmult_1_l. apply Rinv_le_contravar; [apply pow_lt; lra|]. apply Rle_pow; [lra|lia]. }
  intros E. assert (0 < 1 / 10 ^ 9) by (unfold Rdiv; rewrite Rmult_1_l; apply Rinv_0_lt_compat, pow_lt; lra). lra.
Qed.
(** two unit squares that overlap in a half, and two that touch *)
Example C93_met : exists lop union_area cs, cut_into cs lop union_area /\ check_geometry_overlaps union_area lop = true.
Proof.
  set (p := mkPoly [(0, 0); (1, 0); (1, 1); (0, 1)] []). set (q := mkPoly [(1 / 2, 0); (3 / 2, 0); (3 / 2, 1); (1 / 2, 1)] []).
  assert (A : poly_area p = 1) by (unfold p; rewrite one_area; unfold ring_area, M_Geometry.cross; cbn [around shoelace fst snd]; lra).
  assert (B : poly_area q = 1) by (unfold q; rewrite one_area; unfold ring_area, M_Geometry.cross; cbn [around shoelace fst snd]; lra).
  set (cs := [(1 / 2, [true; false]); (1 / 2, [true; true]); (1 / 2, [false; true])]). set (ua := fun _ : list polygon => 3 / 2).
  assert (C : cut_into cs [p; q] ua).
  { split; [|split].
    - repeat constructor; cbn [fst snd]; lra.
    - intros i r Hr. destruct i as [|[|[|i]]]; cbn in Hr; try discriminate; injection Hr as <-; rewrite ?A, ?B; unfold cs, sumf, Rsum; cbn [map fold_right nth snd fst]; lra.
    - unfold ua, cs, sumf, Rsum. cbn [map fold_right layers snd filter length Nat.eqb fst]. lra. }
  exists [p; q], ua, cs. split; [exact C|]. apply (C93_overlapping cs _ _ (1 / 2, [true; true]) C); [right; left; reflexivity|cbn; lia|]. unfold sumf, Rsum. cbn [map fold_right fst]. rewrite A, B.
  assert (1 / 10 ^ 9 <= 1 / 10). { unfold Rdiv. rewrite !Rmult_1_l. apply Rinv_le_contravar; [lra|]. rewrite <- (pow_1 10) at 1. apply Rle_pow; [lra|lia]. } lra.
Qed.

Print Assumptions C92_perimeter.
Print Assumptions C92_start_and_direction.
Print Assumptions C92_extent.
Print Assumptions C92_moved.
Print Assumptions C92_area_and_centroid.
Print Assumptions C92_area_and_centroid_of_section.
Print Assumptions C92_compound.
Print Assumptions C92_get_perimeter.
Print Assumptions C92_rectangular_section.
Print Assumptions C92_triangular_section.
Print Assumptions C92_triangular_radius_section.
Print Assumptions C92_circular_section.
Print Assumptions C92_cruciform_section.
Print Assumptions C92_i_section.
Print Assumptions C92_mono_i_section.
Print Assumptions C92_channel_section.
Print Assumptions C92_tee_section.
Print Assumptions C92_angle_section.
Print Assumptions C92_cee_section.
Print Assumptions C92_zed_section.
Print Assumptions C92_quarter.
Print Assumptions C92_rectangular_hollow_section.
Print Assumptions C92_circular_hollow_section.
Print Assumptions C92_box_girder_section.
Print Assumptions C93_overlap_warning.
Print Assumptions C93_overlaps.
Print Assumptions C93_disjoint.
Print Assumptions C93_overlapping.
Print Assumptions C93_every_overlap_refuted.
