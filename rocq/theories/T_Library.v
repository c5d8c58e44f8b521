(** Theorems about the section library: C59-C62. *)
From Coq Require Import Reals List Bool Arith ZArith Lra Lia.
From Verif Require Import Base M_Fea M_Init M_Geometry S_Geometry P_Geometry P_Geometry3 P_Geometry5 P_Geometry6 P_Geometry8 M_Library S_Library P_Library P_Library2 P_Library3 P_Library4 P_Library5 P_Library6 P_Library7 P_Library8 P_Library9 P_Library10.
Import ListNotations.
Local Open Scope R_scope.

(** ** C59: regular polygons *)

(** circular_section: the area of the n-gon, less than that of the circle; centroid in the centre. *)
Theorem C59_circular_section sh d n m : (3 <= n)%nat -> 0 < d ->
  exists l, outlined (circular_section sh d n m) (mkPoly l []) m /\ length l = n /\
    poly_area (mkPoly l []) = ngon_area n (d / 2) /\ 0 < ngon_area n (d / 2) < PI * (d / 2) ^ 2 /\ poly_centroid (mkPoly l []) = (0, 0) /\
    Forall (fun p => fst p ^ 2 + snd p ^ 2 = (d / 2) ^ 2) l.
Proof.
  intros H Hd. exists (ellipse_points d d n). assert (A : ring_area (ellipse_points d d n) = ngon_area n (d / 2)) by (rewrite ellipse_area by lia; unfold ngon_area; field).
  destruct (ngon_below n (d / 2) H ltac:(lra)) as [B1 B2]. destruct (ellipse_moments d d n ltac:(lia)) as [X Y].
  split; [unfold circular_section, polygon_geometry; rewrite ellipse_open by (lia || lra); apply new_outlined|]. split; [unfold ellipse_points; rewrite map_length; apply seq_length|]. split; [rewrite one_area by lra; exact A|]. split; [lra|]. split.
  - unfold poly_centroid. rewrite one_area, one_mx, one_my, X, Y by lra. f_equal; field; lra.
  - unfold ellipse_points. apply Forall_map, Forall_forall. intros i _. cbn [fst snd]. pose proof (sin2_cos2 (INR i * 2 * PI / INR n)) as E. unfold Rsqr in E. transitivity ((d / 2) ^ 2 * (sin (INR i * 2 * PI / INR n) * sin (INR i * 2 * PI / INR n) + cos (INR i * 2 * PI / INR n) * cos (INR i * 2 * PI / INR n))); [ring|rewrite E; ring].
Qed.
Example C59_circle_example : exists l, outlined (circular_section toy 50 64 default_material) (mkPoly l []) default_material /\ poly_area (mkPoly l []) = ngon_area 64 25.
Proof. destruct (C59_circular_section toy 50 64 default_material ltac:(lia) ltac:(lra)) as (l & O & _ & A & _). exists l. split; [exact O|]. rewrite A. f_equal. lra. Qed.

(** circular_section_by_area: exactly the area asked for. *)
Theorem C59_circular_section_by_area sh area n m : (3 <= n)%nat -> 0 < area ->
  exists l r, outlined (circular_section_by_area sh area n m) (mkPoly l []) m /\ poly_area (mkPoly l []) = area /\ poly_centroid (mkPoly l []) = (0, 0) /\
    length l = n /\ Forall (fun p => fst p ^ 2 + snd p ^ 2 = r ^ 2) l.
Proof.
  intros H Ha. destruct (by_area area n H Ha) as [E D]. destruct (C59_circular_section sh (diameter_by_area area n) n m H D) as (l & O & L & A & _ & C & F). exists l, (diameter_by_area area n / 2). rewrite A, E. auto.
Qed.
Example C59_by_area_example : exists l, outlined (circular_section_by_area toy 310 32 default_material) (mkPoly l []) default_material /\ poly_area (mkPoly l []) = 310.
Proof. destruct (C59_circular_section_by_area toy 310 32 default_material ltac:(lia) ltac:(lra)) as (l & r & O & A & _). exists l. auto. Qed.

Theorem C59_elliptical_section sh d_x d_y n m : (3 <= n)%nat -> 0 < d_x -> 0 < d_y ->
  exists l, outlined (elliptical_section sh d_x d_y n m) (mkPoly l []) m /\ length l = n /\
    poly_area (mkPoly l []) = INR n * (d_x / 2 * (d_y / 2) * sin (2 * PI / INR n) / 2) /\ poly_centroid (mkPoly l []) = (0, 0) /\
    Forall (fun p => (fst p / (d_x / 2)) ^ 2 + (snd p / (d_y / 2)) ^ 2 = 1) l.
Proof.
  intros H Hx Hy. exists (ellipse_points d_x d_y n). destruct (ellipse_moments d_x d_y n ltac:(lia)) as [X Y]. assert (A : 0 < ring_area (ellipse_points d_x d_y n)).
  { rewrite ellipse_area by lia. assert (0 < d_x / 2 * (d_y / 2)) by (apply Rmult_lt_0_compat; lra). pose proof (ngon_mono n 0 (d_x / 2 * (d_y / 2)) H ltac:(lra)). lra. }
  split; [unfold elliptical_section, polygon_geometry; rewrite ellipse_open by (lia || lra); apply new_outlined|]. split; [unfold ellipse_points; rewrite map_length; apply seq_length|]. split; [rewrite one_area by lra; apply ellipse_area; lia|]. split.
  - unfold poly_centroid. rewrite one_area, one_mx, one_my, X, Y by lra. f_equal; field; lra.
  - unfold ellipse_points. apply Forall_map, Forall_forall. intros i _. cbn [fst snd]. pose proof (sin2_cos2 (INR i * 2 * PI / INR n)) as E. unfold Rsqr in E. rewrite <- E. field. lra.
Qed.

(** Hollow circles and ellipses: the inner ring is the same polygon with the wall thickness taken off. *)
Theorem C59_elliptical_hollow_section sh d_x d_y t n m : (3 <= n)%nat -> 0 < t -> 2 * t < d_x -> 2 * t < d_y ->
  exists o i, hollowed sh (elliptical_hollow_section sh d_x d_y t n m) o i m /\
    poly_area (mkPoly o [i]) = INR n * ((d_x / 2 * (d_y / 2) - (d_x / 2 - t) * (d_y / 2 - t)) * sin (2 * PI / INR n) / 2) /\ poly_centroid (mkPoly o [i]) = (0, 0).
Proof.
  intros H Ht Hx Hy. exists (ellipse_points d_x d_y n), (ellipse_points (d_x - 2 * t) (d_y - 2 * t) n).
  destruct (ellipse_moments d_x d_y n ltac:(lia)) as [X Y]. destruct (ellipse_moments (d_x - 2 * t) (d_y - 2 * t) n ltac:(lia)) as [X' Y'].
  assert (A : 0 <= ring_area (ellipse_points (d_x - 2 * t) (d_y - 2 * t) n) < ring_area (ellipse_points d_x d_y n)) by (rewrite !ellipse_area by lia; apply ngon_mono; [exact H|nra]).
  split; [|split].
  - unfold elliptical_hollow_section. rewrite inner_ellipse. apply hollow_make; apply ellipse_open; lia || lra.
  - rewrite hollow_area, !ellipse_area by (lra || lia). field.
  - apply hollow_centroid; assumption.
Qed.
Theorem C59_circular_hollow_section sh d t n m : (3 <= n)%nat -> 0 < t -> 2 * t < d ->
  exists o i, hollowed sh (circular_hollow_section sh d t n m) o i m /\
    poly_area (mkPoly o [i]) = ngon_area n (d / 2) - ngon_area n (d / 2 - t) /\ poly_centroid (mkPoly o [i]) = (0, 0).
Proof.
  intros H Ht Hd. destruct (C59_elliptical_hollow_section sh d d t n m H Ht Hd Hd) as (o & i & O & A & C). exists o, i. split; [exact O|]. split; [|exact C]. rewrite A. unfold ngon_area. field.
Qed.
Example C59_chs_example : exists o i, hollowed toy (circular_hollow_section toy 48 3.2 64 default_material) o i default_material /\ poly_centroid (mkPoly o [i]) = (0, 0).
Proof. destruct (C59_circular_hollow_section toy 48 3.2 64 default_material ltac:(lia) ltac:(lra) ltac:(lra)) as (o & i & O & _ & C). eauto. Qed.

(** Hollow regular polygons: both rings are carried to themselves by a turn of 2 pi / n; faces at distance d/2 cos(pi/n) and that less t
    from the centre, corners rounded with the radii r_in and r_in + t. *)
Theorem C59_polygon_hollow_section sh d t n r_in n_r rot m : (3 <= n)%nat -> 0 < t < d / 2 * cos (PI / INR n) -> 0 <= r_in < d / 2 * cos (PI / INR n) - t -> (2 <= n_r)%nat \/ r_in = 0 ->
  let a_out := d / 2 * cos (PI / INR n) in let a_in := a_out - t in let r_out := if Req_EM_T r_in 0 then 0 else r_in + t in let alpha := 2 * PI / INR n in
  exists o i, hollowed sh (polygon_hollow_section sh d t n r_in n_r rot m) o i m /\
    poly_area (mkPoly o [i]) = INR n * (a_out ^ 2 * tan (PI / INR n) - bend n_r r_out alpha) - INR n * (a_in ^ 2 * tan (PI / INR n) - bend n_r r_in alpha) /\
    poly_centroid (mkPoly o [i]) = (0, 0) /\ symmetric_turn alpha o /\ symmetric_turn alpha i.
Proof.
  intros H Ht Hr Hn a_out a_in r_out alpha. destruct (polygon_hollow_facts sh d t n r_in n_r rot m H Ht Hr Hn) as (o & i & O & Ao & Ai & L & So & Si). exists o, i. fold a_out in Ao, Ai. fold a_in in Ai. fold alpha in So, Si, Ao, Ai. fold r_out in Ao.
  destruct (turn_moments _ _ So (cos_lt_1 n ltac:(lia))) as [X Y]. destruct (turn_moments _ _ Si (cos_lt_1 n ltac:(lia))) as [X' Y'].
  split; [exact O|]. split; [|split; [apply hollow_centroid; assumption|split; assumption]]. rewrite hollow_area, Ao, Ai by lra.
  destruct (Req_EM_T r_in 0) as [E|E]; [|ring]. unfold r_out. rewrite !E. destruct (Req_EM_T 0 0); [|contradiction]. unfold bend. cbn [pow]. ring.
Qed.
Theorem C59_polygon_hollow_few_sides sh d t n r_in n_r rot m : (n < 3)%nat -> polygon_hollow_section sh d t n r_in n_r rot m = Err ValueError.
Proof. intros H. unfold polygon_hollow_section. destruct (Nat.ltb_spec n 3); [reflexivity|lia]. Qed.
Example C59_polygon_hollow_example : exists o i, hollowed toy (polygon_hollow_section toy 200 6 4 20 12 45 default_material) o i default_material /\ poly_centroid (mkPoly o [i]) = (0, 0).
Proof.
  assert (C : 7 / 10 < cos (PI / INR 4)). { replace (INR 4) with 4 by (cbn; lra). rewrite cos_PI4. pose proof (sqrt_lt_R0 2 ltac:(lra)). pose proof (sqrt_sqrt 2 ltac:(lra)). apply Rmult_lt_reg_r with (sqrt 2); [lra|]. unfold Rdiv at 2. rewrite Rmult_assoc, Rinv_l by lra. nra. }
  destruct (C59_polygon_hollow_section toy 200 6 4 20 12 45 default_material) as (o & i & O & _ & K & _); [lia|lra|lra|left; lia|]. eauto.
Qed.
(** An inner radius that reaches the inner faces makes both rings polygons on circles, with the same points in both: the radii merge. *)
Theorem C59_polygon_hollow_merged sh d t n r_in n_r rot m : (3 <= n)%nat -> 0 < t < d / 2 * cos (PI / INR n) -> d / 2 * cos (PI / INR n) - t <= r_in ->
  let a_out := d / 2 * cos (PI / INR n) in let alpha := 2 * PI / INR n in
  let angles := concat (map (fun k => map (fun j => rot * PI / 180 + alpha * (INR k + INR j / INR (Nat.max 1 (n_r - 1)))) (seq 0 n_r)) (seq 0 n)) in
  let circle a := map (fun phi => (a * sin phi, - (a * cos phi))) angles in
  polygon_hollow_section sh d t n r_in n_r rot m = hollow_geometry sh (circle a_out) (circle (a_out - t)) m.
Proof.
  intros H Ht Hr a_out alpha angles circle. assert (N : 0 < INR n) by (apply lt_0_INR; lia). assert (Eh : alpha / 2 = PI / INR n) by (unfold alpha; field; lra).
  assert (Ao : 0 < a_out) by (unfold a_out; lra). assert (Ai : 0 < a_out - t) by (unfold a_out; lra).
  unfold polygon_hollow_section. destruct (Nat.ltb_spec n 3); [lia|]. fold alpha. rewrite Eh. fold a_out in Hr |- *.
  assert (E : (if Rlt_dec (a_out - t) r_in then a_out - t else r_in) = a_out - t) by (destruct (Rlt_dec (a_out - t) r_in); lra). rewrite E. destruct (Req_EM_T (a_out - t) 0); [lra|].
  replace (a_out - t + t) with a_out by ring. cbv zeta. set (so := d * sin (PI / INR n)).
  replace (so - 2 * (a_out * (so / 2) / a_out)) with 0 by (field; lra). set (si := (a_out - t) / a_out * so). replace (si - 2 * ((a_out - t) * (si / 2) / (a_out - t))) with 0 by (field; lra).
  assert (C : forall a, concat (map (fun i => map (fun p => rotate p (alpha * INR i + rot * PI / 180)) (corner_base 0 a a alpha n_r)) (seq 0 n)) = circle a).
  { intros a. unfold circle, angles. rewrite concat_map, map_map. f_equal. apply map_ext. intros k. unfold corner_base. rewrite !map_map. apply map_ext. intros j. unfold rotate, step. cbn [fst snd].
    set (s := INR j / _). replace (rot * PI / 180 + alpha * (INR k + s)) with (alpha * INR k + rot * PI / 180 + s * alpha) by ring. set (b := alpha * INR k + rot * PI / 180).
    replace (1 / 2 * PI + s * alpha) with (PI / 2 + s * alpha) by field. rewrite (sin_plus b), (cos_plus b), (sin_plus (PI / 2)), (cos_plus (PI / 2)), sin_PI2, cos_PI2. f_equal; field. }
  rewrite !C. reflexivity.
Qed.
(** a square tube with faces 70.7 from the centre and walls of 60, whose inner radius is asked to be 50 *)
Example C59_polygon_hollow_merged_met : 50 >= 200 / 2 * cos (PI / INR 4) - 60 /\ 0 < 60 < 200 / 2 * cos (PI / INR 4).
Proof.
  assert (C : 7 / 10 < cos (PI / INR 4) < 8 / 10). { replace (INR 4) with 4 by (cbn; lra). rewrite cos_PI4. pose proof (sqrt_lt_R0 2 ltac:(lra)). pose proof (sqrt_sqrt 2 ltac:(lra)). split; apply Rmult_lt_reg_r with (sqrt 2); try lra; unfold Rdiv; rewrite !Rmult_assoc, Rinv_l by lra; nra. }
  lra.
Qed.

(** ** C60: outlines *)

(** The Geometry object has the area of its outline up to rounding of the vertices to 12 decimals. *)
Theorem C60_rounding res p m M : outlined res p m -> 0 <= M -> Forall (Forall (fun v => Rabs (fst v) <= M /\ Rabs (snd v) <= M)) (rings p) ->
  (exists v, In v (ext p) /\ (half 12 < Rabs (fst v) \/ half 12 < Rabs (snd v))) ->
  exists g, res = Ok g /\ Rabs (poly_area (gm_poly g) - poly_area p) <= INR (length (concat (rings p))) * (2 * M * half 12 + half 12 * half 12).
Proof. intros O HM W A. destruct O as (g & -> & R0). exists g. split; [reflexivity|]. apply (outlined_area p m); [exists g; auto|assumption..]. Qed.

Theorem C60_rectangular_section sh d b m : 0 < d -> 0 < b ->
  exists l, outlined (rectangular_section sh d b m) (mkPoly l []) m /\ poly_area (mkPoly l []) = b * d /\ spans l 0 0 b d /\ poly_centroid (mkPoly l []) = (b / 2, d / 2).
Proof.
  intros Hd Hb. exists (rectangle_points d b). assert (A : ring_area (rectangle_points d b) = b * d) by (unfold rectangle_points, ring_area, cross; cbn [around shoelace fst snd]; lra). assert (0 < b * d) by (apply Rmult_lt_0_compat; lra).
  split; [|split; [rewrite one_area; lra|split]].
  - unfold rectangular_section, polygon_geometry. rewrite open_loop_ring; [apply new_outlined|]. split; [cbn; lia|]. intros q E. cbn in E. injection E as E. lra.
  - apply spans_intro; unfold rectangle_points; [boxes|ex_find|ex_find|ex_find|ex_find].
  - unfold poly_centroid. rewrite one_area, one_mx, one_my, A by lra. unfold rectangle_points, ring_mx, ring_my, cross. cbn [around shoelace fst snd]. f_equal; field; lra.
Qed.
Theorem C60_triangular_section sh b h m : 0 < b -> 0 < h ->
  exists l, outlined (triangular_section sh b h m) (mkPoly l []) m /\ poly_area (mkPoly l []) = b * h / 2 /\ spans l 0 0 b h /\ poly_centroid (mkPoly l []) = (b / 3, h / 3).
Proof.
  intros Hb Hh. exists [(0, 0); (b, 0); (0, h)]. assert (A : ring_area [(0, 0); (b, 0); (0, h)] = b * h / 2) by (unfold ring_area, cross; cbn [around shoelace fst snd]; lra). assert (0 < b * h) by (apply Rmult_lt_0_compat; lra).
  split; [|split; [rewrite one_area; lra|split]].
  - unfold triangular_section, polygon_geometry. rewrite open_loop_ring; [apply new_outlined|]. split; [cbn; lia|]. intros q E. cbn in E. injection E as E. lra.
  - apply spans_intro; [boxes|ex_find|ex_find|ex_find|ex_find].
  - unfold poly_centroid. rewrite one_area, one_mx, one_my, A by lra. unfold ring_mx, ring_my, cross. cbn [around shoelace fst snd]. f_equal; field; lra.
Qed.
Theorem C60_triangular_radius_section sh b n_r m : (2 <= n_r)%nat -> 0 < b ->
  exists l, outlined (triangular_radius_section sh b n_r m) (mkPoly l []) m /\ poly_area (mkPoly l []) = corner n_r b /\ spans l 0 0 b b.
Proof.
  intros H Hb. destruct (triangular_radius_facts n_r H b Hb) as (O & A & S). eexists. split; [unfold triangular_radius_section; rewrite O; apply new_outlined|]. split; [|exact S]. pose proof (corner_nonneg n_r b). rewrite one_area; lra.
Qed.
Theorem C60_cruciform_section sh d b t r n_r m : (2 <= n_r)%nat -> 0 < t -> 0 <= r -> t + 2 * r < d -> t + 2 * r <= b ->
  exists l, outlined (cruciform_section sh d b t r n_r m) (mkPoly l []) m /\ poly_area (mkPoly l []) = t * d + t * b - t * t + 4 * corner n_r r /\
    spans l (- b / 2) (- d / 2) (b / 2) (d / 2) /\ symmetric_x 0 l /\ symmetric_y 0 l /\ poly_centroid (mkPoly l []) = (0, 0).
Proof.
  intros H H1 H2 H3 H4. destruct (cruciform_facts n_r H d b t r H1 H2 H3 H4) as (O & A & S & X & Y). pose proof (corner_nonneg n_r r). assert (P : 0 < t * d + t * b - t * t + 4 * corner n_r r) by nra.
  eexists. split; [unfold cruciform_section; rewrite O; apply new_outlined|]. split; [rewrite one_area; lra|]. repeat (split; [assumption|]). apply injective_projections; [apply centroid_x|apply centroid_y]; assumption || lra.
Qed.
Theorem C60_i_section sh d b t_f t_w r n_r m : (2 <= n_r)%nat -> 0 < t_f -> 0 < t_w -> 0 <= r -> 2 * t_f + 2 * r <= d -> t_w + 2 * r <= b ->
  exists l, outlined (i_section sh d b t_f t_w r n_r m) (mkPoly l []) m /\ poly_area (mkPoly l []) = 2 * (b * t_f) + (d - 2 * t_f) * t_w + 4 * corner n_r r /\
    spans l 0 0 b d /\ symmetric_x (b / 2) l /\ symmetric_y (d / 2) l /\ poly_centroid (mkPoly l []) = (b / 2, d / 2).
Proof.
  intros H H1 H2 H3 H4 H5. destruct (i_facts n_r H d b t_f t_w r H1 H2 H3 H4 H5) as (O & A & S & X & Y). pose proof (corner_nonneg n_r r). assert (P : 0 < 2 * (b * t_f) + (d - 2 * t_f) * t_w + 4 * corner n_r r) by nra.
  eexists. split; [unfold i_section; rewrite O; apply new_outlined|]. split; [rewrite one_area; lra|]. repeat (split; [assumption|]). apply injective_projections; [apply centroid_x|apply centroid_y]; assumption || lra.
Qed.
Example C60_i_example : exists l, outlined (i_section toy 203 133 7.8 5.8 8.9 16 default_material) (mkPoly l []) default_material /\ spans l 0 0 133 203 /\ poly_centroid (mkPoly l []) = (133 / 2, 203 / 2).
Proof. destruct (C60_i_section toy 203 133 7.8 5.8 8.9 16 default_material) as (l & O & _ & S & _ & _ & C); [lia|lra..|]. eauto. Qed.
Theorem C60_mono_i_section sh d b_t b_b t_ft t_fb t_w r n_r m : (2 <= n_r)%nat -> 0 < t_ft -> 0 < t_fb -> 0 < t_w -> 0 <= r -> t_ft + t_fb + 2 * r <= d -> t_w + 2 * r <= b_t -> t_w + 2 * r <= b_b ->
  exists l, outlined (mono_i_section sh d b_t b_b t_ft t_fb t_w r n_r m) (mkPoly l []) m /\ poly_area (mkPoly l []) = b_t * t_ft + b_b * t_fb + (d - t_ft - t_fb) * t_w + 4 * corner n_r r /\
    spans l 0 0 (Rmax b_t b_b) d /\ symmetric_x (Rmax b_t b_b / 2) l /\ fst (poly_centroid (mkPoly l [])) = Rmax b_t b_b / 2.
Proof.
  intros H H1 H2 H3 H4 H5 H6 H7. destruct (mono_i_facts n_r H d b_t b_b t_ft t_fb t_w r H1 H2 H3 H4 H5 H6 H7) as (O & A & S & X). pose proof (corner_nonneg n_r r).
  assert (P : 0 < b_t * t_ft + b_b * t_fb + (d - t_ft - t_fb) * t_w + 4 * corner n_r r). { assert (0 < b_t * t_ft) by (apply Rmult_lt_0_compat; lra). assert (0 < b_b * t_fb) by (apply Rmult_lt_0_compat; lra). assert (0 <= (d - t_ft - t_fb) * t_w) by (apply Rmult_le_pos; lra). lra. }
  eexists. split; [unfold mono_i_section; rewrite O; apply new_outlined|]. split; [rewrite one_area; lra|]. repeat (split; [assumption|]). apply centroid_x; assumption || lra.
Qed.
Theorem C60_channel_section sh d b t_f t_w r n_r m : (2 <= n_r)%nat -> 0 < t_f -> 0 < t_w -> 0 <= r -> 2 * t_f + 2 * r <= d -> t_w + r <= b ->
  exists l, outlined (channel_section sh d b t_f t_w r n_r m) (mkPoly l []) m /\ poly_area (mkPoly l []) = 2 * (b * t_f) + (d - 2 * t_f) * t_w + 2 * corner n_r r /\
    spans l 0 0 b d /\ symmetric_y (d / 2) l /\ snd (poly_centroid (mkPoly l [])) = d / 2.
Proof.
  intros H H1 H2 H3 H4 H5. destruct (channel_facts n_r H d b t_f t_w r H1 H2 H3 H4 H5) as (O & A & S & Y). pose proof (corner_nonneg n_r r). assert (P : 0 < 2 * (b * t_f) + (d - 2 * t_f) * t_w + 2 * corner n_r r) by nra.
  eexists. split; [unfold channel_section; rewrite O; apply new_outlined|]. split; [rewrite one_area; lra|]. repeat (split; [assumption|]). apply centroid_y; assumption || lra.
Qed.
Theorem C60_tee_section sh d b t_f t_w r n_r m : (2 <= n_r)%nat -> 0 < t_f -> 0 < t_w -> 0 <= r -> t_f + r < d -> t_w + 2 * r <= b ->
  exists l, outlined (tee_section sh d b t_f t_w r n_r m) (mkPoly l []) m /\ poly_area (mkPoly l []) = b * t_f + (d - t_f) * t_w + 2 * corner n_r r /\
    spans l 0 0 b d /\ symmetric_x (b / 2) l /\ fst (poly_centroid (mkPoly l [])) = b / 2.
Proof.
  intros H H1 H2 H3 H4 H5. destruct (tee_facts n_r H d b t_f t_w r H1 H2 H3 H4 H5) as (O & A & S & Y). pose proof (corner_nonneg n_r r). assert (P : 0 < b * t_f + (d - t_f) * t_w + 2 * corner n_r r) by nra.
  eexists. split; [unfold tee_section; rewrite O; apply new_outlined|]. split; [rewrite one_area; lra|]. repeat (split; [assumption|]). apply centroid_x; assumption || lra.
Qed.

(** The angle: closed-form area if the toe radius is the thickness or clearly less than it ... *)
Theorem C60_angle_section sh d b t r_r r_t n_r m : (2 <= n_r)%nat -> 0 < t -> 0 <= r_r -> 0 <= r_t -> r_t <= t -> t + r_r + r_t <= b -> t + r_r + r_t <= d ->
  r_t = t \/ 1 / 10 ^ 8 + 1 / 10 ^ 5 * r_t < t - r_t ->
  exists l, outlined (angle_section sh d b t r_r r_t n_r m) (mkPoly l []) m /\ poly_area (mkPoly l []) = t * (b + d - t) + corner n_r r_r - 2 * corner n_r r_t /\ spans l 0 0 b d.
Proof.
  intros H H1 H2 H3 H4 H5 H6 N. destruct (angle_facts n_r H d b t r_r r_t H1 H2 H3 H4 H5 H6) as (O & A & S). pose proof (corner_nonneg n_r r_r). pose proof (corner_bounds n_r r_t).
  assert (Z : (if isclose t r_t then (b + d) * (t - r_t) / 2 else 0) = 0). { unfold isclose. destruct (Rle_dec _ _) as [L|L]; [|reflexivity]. destruct N as [->|N]; [lra|]. rewrite !Rabs_right in L by lra. lra. }
  rewrite Z, Rminus_0_r in A. assert (P : 0 <= t * (b + d - t) + corner n_r r_r - 2 * corner n_r r_t) by nra.
  exists (angle_points d b t r_r r_t n_r). split; [unfold angle_section; destruct (Rlt_dec t r_t); [lra|]; rewrite O; apply new_outlined|]. split; [rewrite one_area; lra|exact S].
Qed.
(** ... and not in between: with a toe radius just below the thickness the corner of the outline is dropped. *)
Theorem C60_angle_section_refuted : exists d b t r_r r_t n_r, (2 <= n_r)%nat /\ 0 < t /\ 0 <= r_r /\ 0 <= r_t /\ r_t <= t /\ t + r_r + r_t <= b /\ t + r_r + r_t <= d /\
  forall sh m, exists l, outlined (angle_section sh d b t r_r r_t n_r m) (mkPoly l []) m /\ ring_area l <> t * (b + d - t) + corner n_r r_r - 2 * corner n_r r_t.
Proof.
  exists 400, 400, 1, 0, 0.999995, 2%nat. split; [lia|]. repeat (split; [lra|]). intros sh m.
  destruct (angle_facts 2 ltac:(lia) 400 400 1 0 0.999995) as (O & A & S); [lra..|]. exists (angle_points 400 400 1 0 0.999995 2). split; [unfold angle_section; destruct (Rlt_dec 1 0.999995); [lra|]; rewrite O; apply new_outlined|].
  rewrite A. unfold isclose. destruct (Rle_dec _ _) as [L|L]; [lra|]. exfalso. apply L. rewrite !Rabs_right by lra. lra.
Qed.
Theorem C60_angle_section_toe_too_large sh d b t r_r r_t n_r m : t < r_t -> angle_section sh d b t r_r r_t n_r m = Err ValueError.
Proof. intros H. unfold angle_section. destruct (Rlt_dec t r_t); [reflexivity|contradiction]. Qed.
Theorem C60_cee_section sh d b l t r_out n_r m : (2 <= n_r)%nat -> 0 < t -> 0 <= r_out -> 2 * t <= b -> 2 * r_out <= b -> 2 * t <= d -> 2 * r_out < d -> 2 * l <= d -> (r_out < l -> t <= l) ->
  exists p, outlined (cee_section sh d b l t r_out n_r m) (mkPoly p []) m /\
    ring_area p = t * (d + 2 * (b - t)) - 2 * corner n_r r_out + 2 * corner n_r (Rmax (r_out - t) 0) + 2 * lip_area n_r l t r_out /\ spans p 0 0 b d /\ symmetric_y (d / 2) p.
Proof. intros H H1 H2 H3 H4 H5 H6 H7 H8. destruct (cee_facts n_r H d b l t r_out H1 H2 H3 H4 H5 H6 H7 H8) as (O & A & S & Y). eexists. split; [unfold cee_section; rewrite O; apply new_outlined|auto]. Qed.
Theorem C60_zed_section sh d b_l b_r l t r_out n_r m : (2 <= n_r)%nat -> 0 < t -> 0 <= r_out -> 2 * t <= b_l -> 2 * r_out <= b_l -> 2 * t <= b_r -> 2 * r_out <= b_r -> 2 * t <= d ->
  r_out + t + Rmax (r_out - t) 0 < d -> 2 * l <= d -> (r_out < l -> t <= l) ->
  exists p, outlined (zed_section sh d b_l b_r l t r_out n_r m) (mkPoly p []) m /\
    ring_area p = t * (d + (b_l - t) + (b_r - t)) - 2 * corner n_r r_out + 2 * corner n_r (Rmax (r_out - t) 0) + 2 * lip_area n_r l t r_out /\ spans p (t - b_l) 0 b_r d /\
    (b_l = b_r -> symmetric_point (t / 2, d / 2) p).
Proof.
  intros H H1 H2 H3 H4 H5 H6 H7 H8 H9 H10. destruct (zed_facts n_r H d b_l b_r l t r_out H1 H2 H3 H4 H5 H6 H7 H8 H9 H10) as (O & A & S). eexists. split; [unfold zed_section; rewrite O; apply new_outlined|]. repeat (split; [assumption|]).
  intros ->. apply zed_symmetric.
Qed.
Example C60_cee_example : exists p, outlined (cee_section toy 125 50 30 3 6 8 default_material) (mkPoly p []) default_material /\ spans p 0 0 50 125 /\ symmetric_y (125 / 2) p.
Proof. destruct (C60_cee_section toy 125 50 30 3 6 8 default_material) as (p & O & _ & S & Y); [lia|lra..|]. eauto. Qed.
(** A lip shorter than the thickness but longer than the radius is not left out: the outline has a notch instead. *)
Theorem C60_short_lip_refuted : exists d b l t r_out n_r, (2 <= n_r)%nat /\ 0 < t /\ 0 <= r_out /\ 2 * t <= b /\ 2 * r_out <= b /\ 2 * t <= d /\ 2 * r_out < d /\ 2 * l <= d /\ l <= t /\
  forall sh m, exists p, outlined (cee_section sh d b l t r_out n_r m) (mkPoly p []) m /\
    ring_area p <> t * (d + 2 * (b - t)) - 2 * corner n_r r_out + 2 * corner n_r (Rmax (r_out - t) 0).
Proof.
  exists 10, 6, 1, 2, 0, 2%nat. split; [lia|]. repeat (split; [lra|]). intros sh m. exists (cee_points 10 6 1 2 0 2).
  assert (E : cee_points 10 6 1 2 0 2 = [(0, 0); (6, 0); (6, 1); (4, 1); (4, 2); (2, 2); (2, 8); (4, 8); (4, 9); (6, 9); (6, 10); (0, 10)]).
  { unfold cee_points. destruct (Rlt_dec 0 1); [|lra]. replace (Rmax (0 - 2) 0) with 0 by (rewrite Rmax_right; lra). unfold draw_radius. destruct (Req_EM_T 0 0); [|contradiction]. cbn [app]. repeat (apply f_equal2; [apply f_equal2; lra|]). reflexivity. }
  unfold cee_section, polygon_geometry. rewrite E. split.
  - rewrite open_loop_ring; [apply new_outlined|]. split; [cbn; lia|]. intros q Q. cbn in Q. injection Q as Q. lra.
  - unfold ring_area, cross. cbn [around shoelace fst snd]. replace (Rmax (0 - 2) 0) with 0 by (rewrite Rmax_right; lra). assert (C0 : corner 2 0 = 0) by (unfold corner; cbn [pow]; unfold Rdiv; ring). rewrite C0. lra.
Qed.

Theorem C60_rectangular_hollow_section sh d b t r_out n_r (r_in t_w : option R) m :
  let w := match t_w with None => t | Some w => w end in let r := match r_in with None => Rmax (r_out - Rmax t w) 0 | Some r => r end in
  (2 <= n_r)%nat -> 0 < t -> 0 < w -> 0 <= r_out -> 0 <= r -> 2 * r_out < d -> 2 * r_out <= b -> 2 * t + 2 * r < d -> 2 * w + 2 * r < b ->
  exists o i, hollowed sh (rectangular_hollow_section sh d b t r_out n_r r_in t_w m) o i m /\
    ring_area o = b * d - 4 * corner n_r r_out /\ ring_area i = (b - 2 * w) * (d - 2 * t) - 4 * corner n_r r /\ 0 <= ring_area o /\ 0 <= ring_area i /\
    poly_area (mkPoly o [i]) = (b * d - 4 * corner n_r r_out) - ((b - 2 * w) * (d - 2 * t) - 4 * corner n_r r) /\
    spans o 0 0 b d /\ spans i w t (b - w) (d - t) /\ symmetric_x (b / 2) o /\ symmetric_y (d / 2) o /\ symmetric_x (b / 2) i /\ symmetric_y (d / 2) i.
Proof.
  intros w r H H1 H2 H3 H4 H5 H6 H7 H8. destruct (rhs_outer_facts n_r H d b r_out ltac:(lra) ltac:(lra) H3 H5 H6) as (Mo & Ao & So & Xo & Yo).
  destruct (rhs_inner_facts n_r H d b t w r ltac:(lra) ltac:(lra) H4 ltac:(lra) ltac:(lra)) as (Mi & Ai & Si & Xi & Yi).
  pose proof (corner_bounds n_r r_out) as C1. pose proof (corner_bounds n_r r) as C2. simpl pow in C1, C2. assert (P1 : 0 <= b * d - 4 * corner n_r r_out) by nra. assert (P2 : 0 <= (b - 2 * w) * (d - 2 * t) - 4 * corner n_r r) by nra.
  exists (rhs_outer d b r_out n_r), (rhs_inner d b t w r n_r). split; [unfold rectangular_hollow_section; fold w; fold r; apply hollow_make; assumption|]. rewrite hollow_area, Ao, Ai by lra. repeat (split; [first [reflexivity|assumption]|]). assumption.
Qed.
Example C60_rhs_example : exists o i, hollowed toy (rectangular_hollow_section toy 100 150 6 15 8 None None default_material) o i default_material /\ spans o 0 0 150 100 /\ spans i 6 6 (150 - 6) (100 - 6).
Proof.
  assert (E : Rmax (15 - Rmax 6 6) 0 = 9) by (rewrite (Rmax_left 6 6) by lra; rewrite Rmax_left; lra).
  destruct (C60_rectangular_hollow_section toy 100 150 6 15 8 None None default_material) as (o & i & O & _ & _ & _ & _ & _ & S1 & S2 & _); cbv zeta; rewrite ?E; try lia; try lra. eauto.
Qed.

(** Tapered flanges: t_f is the mean thickness of the flange; fillets and rounded toes turn by pi/2 - alpha. *)
Theorem C60_tapered_flange_i_section sh d b t_f t_w r_r r_f alpha n_r m : (2 <= n_r)%nat -> 0 <= alpha < 90 -> 0 < t_w -> 0 <= r_f <= t_f -> 2 * r_f <= b - t_w -> 0 < d ->
  (b / 4 - t_w / 4 - r_f * (1 - sin (PI * alpha / 180))) * tan (PI * alpha / 180) + r_f * cos (PI * alpha / 180) < t_f ->
  let s := PI / 2 - PI * alpha / 180 in
  exists l, outlined (tapered_flange_i_section sh d b t_f t_w r_r r_f alpha n_r m) (mkPoly l []) m /\
    poly_area (mkPoly l []) = d * t_w + 2 * ((b - t_w) * t_f) + 4 * bend n_r r_r s - 4 * bend n_r r_f s /\
    symmetric_x (b / 2) l /\ symmetric_y (d / 2) l /\ poly_centroid (mkPoly l []) = (b / 2, d / 2).
Proof.
  intros H Ha H1 H2 H3 Hd H4 s. destruct (tapered_i_seg n_r H d b t_f t_w r_r r_f alpha Ha) as (z & v & S & Z & V). pose proof (a_range alpha Ha) as R0. fold s in V.
  pose proof (bend_bounds n_r r_r s ltac:(unfold s; lra)) as B1. pose proof (bend_bounds n_r r_f s ltac:(unfold s; lra)) as B2.
  assert (P : 0 < d * t_w + 2 * ((b - t_w) * t_f) + 4 * bend n_r r_r s - 4 * bend n_r r_f s) by nra.
  pose proof (seg_area _ _ _ _ S) as A. rewrite V in A. exists (tapered_i_points d b t_f t_w r_r r_f alpha n_r). pose proof (tapered_i_symmetric_x n_r H d b t_f t_w r_r r_f alpha) as X. pose proof (tapered_i_symmetric_y n_r H d b t_f t_w r_r r_f alpha) as Y.
  split; [|split; [rewrite one_area; lra|split; [exact X|split; [exact Y|]]]].
  - unfold tapered_flange_i_section. rewrite (seg_make sh _ _ _ _ m S); [apply new_outlined| |].
    + unfold tapered_i_points. cbn [app length]. rewrite !app_length. cbn [length]. lia.
    + right. rewrite Z. unfold taper_yt. cbn [snd]. lra.
  - apply injective_projections; [apply centroid_x|apply centroid_y]; assumption || lra.
Qed.
Theorem C60_tapered_flange_channel sh d b t_f t_w r_r r_f alpha n_r m : (2 <= n_r)%nat -> 0 <= alpha < 90 -> 0 < t_w -> 0 <= r_f <= t_f -> r_f <= b - t_w -> 0 < d ->
  let s := PI / 2 - PI * alpha / 180 in
  exists l, outlined (tapered_flange_channel sh d b t_f t_w r_r r_f alpha n_r m) (mkPoly l []) m /\
    poly_area (mkPoly l []) = d * t_w + 2 * ((b - t_w) * t_f) + 2 * bend n_r r_r s - 2 * bend n_r r_f s /\ symmetric_y (d / 2) l /\ snd (poly_centroid (mkPoly l [])) = d / 2.
Proof.
  intros H Ha H1 H2 H3 Hd s. destruct (tapered_channel_seg n_r H d b t_f t_w r_r r_f alpha Ha) as (z & v & S & Z & V). pose proof (a_range alpha Ha) as R0. fold s in V.
  pose proof (bend_bounds n_r r_r s ltac:(unfold s; lra)) as B1. pose proof (bend_bounds n_r r_f s ltac:(unfold s; lra)) as B2.
  assert (P : 0 < d * t_w + 2 * ((b - t_w) * t_f) + 2 * bend n_r r_r s - 2 * bend n_r r_f s) by nra.
  pose proof (seg_area _ _ _ _ S) as A. rewrite V in A. exists (tapered_channel_points d b t_f t_w r_r r_f alpha n_r). pose proof (tapered_channel_symmetric n_r H d b t_f t_w r_r r_f alpha) as Y.
  split; [|split; [rewrite one_area; lra|split; [exact Y|apply centroid_y; assumption || lra]]].
  unfold tapered_flange_channel. rewrite (seg_make sh _ _ _ _ m S); [apply new_outlined| |].
  - unfold tapered_channel_points. cbn [app length]. rewrite !app_length. cbn [length]. lia.
  - right. rewrite Z. cbn [snd]. lra.
Qed.
Example C60_tapered_example : exists l, outlined (tapered_flange_channel toy 10 3.5 0.575 0.475 0.575 0.4 8 16 default_material) (mkPoly l []) default_material /\ snd (poly_centroid (mkPoly l [])) = 10 / 2.
Proof. destruct (C60_tapered_flange_channel toy 10 3.5 0.575 0.475 0.575 0.4 8 16 default_material) as (l & O & _ & _ & C); [lia|lra..|]. eauto. Qed.

(** Box girders with flanges of different width: a trapezium, less a trapezium whose slopes are parallel to its own; e is the
    horizontal width of a web of thickness t_w. *)
Theorem C60_box_girder_section sh d b_t b_b t_ft t_fb t_w m :
  let h := (b_b - b_t) / 2 in let e := t_w * sqrt (d ^ 2 + h ^ 2) / d in let x := Rmax b_t b_b / 2 in
  let inside y := b_b / 2 - h * (y / d) - e in
  0 < d -> b_t <> b_b -> 0 < b_t -> 0 < b_b -> 0 <= t_w -> t_ft + t_fb < d -> 0 <= inside t_fb -> 0 <= inside (d - t_ft) ->
  exists o i, hollowed sh (box_girder_section sh d b_t b_b t_ft t_fb t_w m) o i m /\
    o = [(x - b_b / 2, 0); (x + b_b / 2, 0); (x + b_t / 2, d); (x - b_t / 2, d)] /\
    i = [(x - inside t_fb, t_fb); (x + inside t_fb, t_fb); (x + inside (d - t_ft), d - t_ft); (x - inside (d - t_ft), d - t_ft)] /\
    poly_area (mkPoly o [i]) = d * (b_t + b_b) / 2 - (d - t_ft - t_fb) * (inside t_fb + inside (d - t_ft)) /\ symmetric_x x o /\ symmetric_x x i.
Proof.
  intros h e x inside Hd Hb Hbt Hbb Hw Ht I1 I2. destruct (girder_facts sh d b_t b_b t_ft t_fb t_w m Hd Hb Hw ltac:(lra)) as (O & Ao & Ai & So & Si). fold h in O, Ao, Ai, So, Si. fold e in O, Ai, Si. fold x in O, Ao, Ai, So, Si.
  assert (E : b_t / 2 + h * (t_ft / d) - e = inside (d - t_ft)) by (unfold inside, h; field; lra). rewrite E in O, Ai, Si. fold (inside t_fb) in O, Ai, Si.
  do 2 eexists. split; [exact O|]. split; [reflexivity|]. split; [reflexivity|]. split; [|split; assumption]. assert (0 <= (d - t_ft - t_fb) * (inside t_fb + inside (d - t_ft))) by (apply Rmult_le_pos; lra). assert (0 <= d * (b_t + b_b)) by (apply Rmult_le_pos; lra).
  rewrite hollow_area, Ao, Ai by lra. reflexivity.
Qed.
Example C60_box_girder_example : exists o i, hollowed toy (box_girder_section toy 1200 1200 400 100 80 50 default_material) o i default_material /\ length i = 4%nat.
Proof.
  assert (S : 1200 <= sqrt (1200 ^ 2 + ((400 - 1200) / 2) ^ 2) <= 1300). { split; [rewrite <- (sqrt_square 1200) at 1 by lra|rewrite <- (sqrt_square 1300) by lra]; apply sqrt_le_1_alt; lra. }
  destruct (C60_box_girder_section toy 1200 1200 400 100 80 50 default_material) as (o & i & O & Eo & Ei & _); try lra. exists o, i. split; [exact O|]. rewrite Ei. reflexivity.
Qed.
Theorem C60_bulb_section sh d b t r n_r m : (2 <= n_r)%nat -> d <> 0 -> let d_b := r * tan (PI / 6) + r + b * tan (PI / 6) in
  exists l, outlined (bulb_section sh d b t r n_r None m) (mkPoly l []) m /\ ring_area l = d * t + b * (d_b - b * tan (PI / 6) / 2) - corner n_r r.
Proof. intros H Hd d_b. destruct (bulb_facts d b t r n_r H Hd) as (O & A). eexists. split; [unfold bulb_section; rewrite O; apply new_outlined|exact A]. Qed.

(** ** C61: draw_radius *)
Theorem C61_draw_radius c r theta n (ccw : bool) phi : r <> 0 -> (2 <= n)%nat -> on_arc (draw_radius c r theta n ccw phi) n c r theta ((if ccw then 1 else -1) * phi).
Proof. apply radius_on_arc. Qed.
Theorem C61_draw_radius_zero c theta n ccw phi : draw_radius c 0 theta n ccw phi = [c].
Proof. unfold draw_radius. destruct (Req_EM_T 0 0); [reflexivity|contradiction]. Qed.
Example C61_example : on_arc (draw_radius (1, 2) 3 PI 8 true (PI / 2)) 8 (1, 2) 3 PI (1 * (PI / 2)).
Proof. apply (C61_draw_radius (1, 2) 3 PI 8 true (PI / 2)); [lra|lia]. Qed.

(** ** C62: layers of a panel, for thicknesses and widths with at most 12 decimals *)
(** Layer k is the rectangle between -(k + 1) d[k] and -k d[k], with its own material. *)
Theorem C62_layers sh d mats b : 0 < b -> on_grid 12 b -> Forall (fun x => 0 < x /\ on_grid 12 x) d -> (length d <= length mats)%nat ->
  exists c, clt_rectangular_section sh d mats b = Ok c /\ map gm_mat (cp_geoms c) = firstn (length d) mats /\
    map gm_poly (cp_geoms c) = map (fun k => slab b (- (nth k d 0 * INR (k + 1))) (- (nth k d 0 * INR k))) (seq 0 (length d)).
Proof.
  intros Hb Gb F L. destruct (clt_layers_ok sh b Hb Gb d 0 mats F L) as (l & E & M & P). unfold clt_rectangular_section. rewrite E. cbn [bind]. eexists. split; [reflexivity|].
  unfold new_compound. rewrite compile_geoms, (flatten_singles (fun g => g)), map_id. auto.
Qed.
(** Layers of the same thickness: each lies directly below the one before, the first one at y = 0. *)
Theorem C62_equal_layers sh h n mats b : 0 < b -> on_grid 12 b -> 0 < h -> on_grid 12 h -> length mats = n ->
  exists c, clt_rectangular_section sh (repeat h n) mats b = Ok c /\ map gm_mat (cp_geoms c) = mats /\
    exists y : nat -> R, map gm_poly (cp_geoms c) = map (fun k => slab b (y (S k)) (y k)) (seq 0 n) /\ y 0%nat = 0 /\ forall k, y k - y (S k) = h.
Proof.
  intros Hb Gb Hh Gh L. destruct (C62_layers sh (repeat h n) mats b Hb Gb) as (c & E & M & P); [apply Forall_forall; intros x X; apply repeat_spec in X; subst; auto|rewrite repeat_length; lia|].
  exists c. split; [exact E|]. rewrite repeat_length in M, P. split; [rewrite M, <- L; apply firstn_all|]. exists (fun k => - (h * INR k)). split; [|split; [cbn; ring|intros k; rewrite S_INR; ring]].
  rewrite P. apply map_ext_in. intros k Hk. apply in_seq in Hk. rewrite (nth_indep _ 0 h) by (rewrite repeat_length; lia). rewrite nth_repeat. replace (S k) with (k + 1)%nat by lia. reflexivity.
Qed.
(** Layers of different thickness overlap or leave gaps: here the second layer starts at -2, the first one ends at -1. *)
Theorem C62_unequal_layers_refuted : exists d b, Forall (fun x => 0 < x /\ on_grid 12 x) d /\ 0 < b /\ on_grid 12 b /\
  forall sh mats, length mats = length d -> exists c, clt_rectangular_section sh d mats b = Ok c /\ map gm_poly (cp_geoms c) = [slab b (-1) 0; slab b (-4) (-2)].
Proof.
  exists [1; 2], 5. split; [repeat constructor; try lra; apply (int_grid 12 1) || apply (int_grid 12 2)|]. split; [lra|]. split; [apply (int_grid 12 5)|]. intros sh mats L.
  destruct (C62_layers sh [1; 2] mats 5) as (c & E & _ & P); [lra|apply (int_grid 12 5)|repeat constructor; try lra; apply (int_grid 12 1) || apply (int_grid 12 2)|cbn in *; lia|].
  exists c. split; [exact E|]. rewrite P. cbn [length seq map nth Nat.add INR]. unfold slab. repeat f_equal; lra.
Qed.
Example C62_example mats : length mats = 3%nat -> exists c, clt_rectangular_section toy (repeat 40 3) mats 1000 = Ok c /\ map gm_mat (cp_geoms c) = mats.
Proof. intros L. destruct (C62_equal_layers toy 40 3 mats 1000) as (c & E & M & _); [lra|apply (int_grid 12 1000)|lra|apply (int_grid 12 40)|exact L|]. eauto. Qed.

Print Assumptions C59_circular_section_by_area.
Print Assumptions C59_polygon_hollow_section.
Print Assumptions C59_polygon_hollow_merged.
Print Assumptions C60_i_section.
Print Assumptions C60_cee_section.
Print Assumptions C60_zed_section.
Print Assumptions C60_tapered_flange_i_section.
Print Assumptions C60_box_girder_section.
Print Assumptions C60_bulb_section.
Print Assumptions C60_rounding.
Print Assumptions C61_draw_radius.
Print Assumptions C62_equal_layers.
Print Assumptions C62_unequal_layers_refuted.
