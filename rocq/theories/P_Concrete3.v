(** The concrete and the bars. *)
From Coq Require Import String Reals List Bool Arith ZArith Lra Lia.
From Verif Require Import Base M_Fea M_Init M_Bisect M_Geometry S_Geometry P_Geometry P_Geometry3 P_Geometry6 M_Library S_Library P_Library P_Library2 P_Library5 P_Library6 P_Library8 M_SetOps S_SetOps P_SetOps M_Concrete S_Concrete P_Concrete.
Import ListNotations.
Local Open Scope R_scope.

Notation h := (half 12).
Lemma h_tiny : tiny = 200 * h. Proof. unfold tiny, half. lra. Qed.
Lemma h_close : 1 / 10 ^ 11 = 20 * h. Proof. unfold half. lra. Qed.
Lemma h_pos : 0 < h. Proof. apply half_pos. Qed.
Lemma round_h x : x - h <= round_to 12 x <= x + h.
Proof. pose proof (round_to_near 12 x) as H. apply Rabs_le_between in H || idtac. unfold Rabs in H. destruct (Rcase_abs _); lra. Qed.
Lemma round_keep p : (exists v, In v (ext p) /\ (h < Rabs (fst v) \/ h < Rabs (snd v))) -> round_polygon_vertices p 12 = map_polygon (round_pt 12) p.
Proof.
  intros (v & Hv & A). unfold round_polygon_vertices. destruct (forallb _ _) eqn:Q; [|reflexivity]. exfalso.
  rewrite forallb_forall in Q. unfold map_polygon in Q. cbn [ext] in Q. specialize (Q _ (in_map _ _ _ Hv)). apply pt_eqb_spec in Q. unfold round_pt in Q.
  injection Q as Q1 Q2. destruct A as [A|A]; apply round_to_zero in A; contradiction.
Qed.

Definition quad (flip : bool) (X1 Y1 X2 Y2 : R) : polygon := mkPoly (if flip then [(X2, Y1); (X1, Y1); (X1, Y2); (X2, Y2)] else [(X1, Y1); (X2, Y1); (X2, Y2); (X1, Y2)]) [].
Definition rn (flip : bool) (e x1 y1 x2 y2 : R) (m : mat_obj) (g : geom) : Prop :=
  gm_mat g = m /\ gm_tol g = 12%nat /\ gm_assigned g = None /\
  exists X1 Y1 X2 Y2, gm_poly g = quad flip X1 Y1 X2 Y2 /\ x1 - e <= X1 <= x1 + e /\ y1 - e <= Y1 <= y1 + e /\ x2 - e <= X2 <= x2 + e /\ y2 - e <= Y2 <= y2 + e.
Lemma far a b : 2 * h < b - a -> h < Rabs a \/ h < Rabs b.
Proof. intros H. unfold Rabs. destruct (Rcase_abs a), (Rcase_abs b); lra. Qed.
Lemma quad_keep flip X1 Y1 X2 Y2 : 2 * h < X2 - X1 -> round_polygon_vertices (quad flip X1 Y1 X2 Y2) 12 = quad flip (round_to 12 X1) (round_to 12 Y1) (round_to 12 X2) (round_to 12 Y2).
Proof.
  intros H. rewrite round_keep; [destruct flip; reflexivity|]. destruct (far _ _ H) as [K|K]; [exists (X1, Y1)|exists (X2, Y1)]; (split; [destruct flip; cbn; auto|left; exact K]).
Qed.
Lemma rn_new sh flip X1 Y1 X2 Y2 e x1 y1 x2 y2 m : 2 * h < X2 - X1 -> x1 - e <= X1 <= x1 + e -> y1 - e <= Y1 <= y1 + e -> x2 - e <= X2 <= x2 + e -> y2 - e <= Y2 <= y2 + e ->
  rn flip (e + h) x1 y1 x2 y2 m (new_geometry sh (quad flip X1 Y1 X2 Y2) m None 12).
Proof.
  intros H A B C D. destruct (new_geometry_poly sh (quad flip X1 Y1 X2 Y2) m None 12) as (P & M & Q & T). split; [exact M|]. split; [exact T|]. split; [exact Q|].
  rewrite P, quad_keep by exact H. do 4 eexists. split; [reflexivity|]. pose proof (round_h X1). pose proof (round_h X2). pose proof (round_h Y1). pose proof (round_h Y2). lra.
Qed.
Lemma rect_made sh d b m : tiny <= d -> tiny <= b -> exists g, rectangular_section sh d b m = Ok g /\ rn false h 0 0 b d m g.
Proof.
  rewrite h_tiny. intros Hd Hb. pose proof h_pos. eexists. split.
  - unfold rectangular_section, polygon_geometry. rewrite open_loop_ring; [reflexivity|]. split; [cbn; lia|]. intros q E. cbn in E. injection E as E. lra.
  - replace h with (0 + h) by lra. apply (rn_new sh false 0 0 b d 0); lra.
Qed.
Lemma rn_shift sh flip e x1 y1 x2 y2 m g dx dy dx0 dy0 f : rn flip e x1 y1 x2 y2 m g -> dx0 - f <= dx <= dx0 + f -> dy0 - f <= dy <= dy0 + f -> 2 * h + 2 * e < x2 - x1 ->
  rn flip (e + f + h) (x1 + dx0) (y1 + dy0) (x2 + dx0) (y2 + dy0) m (shift_section sh g dx dy).
Proof.
  intros (M & T & C & X1 & Y1 & X2 & Y2 & P & B1 & B2 & B3 & B4) Hx Hy W. unfold shift_section. rewrite M, T, C, P. cbn [option_map].
  replace (map_polygon (translate_pt dx dy) (quad flip X1 Y1 X2 Y2)) with (quad flip (X1 + dx) (Y1 + dy) (X2 + dx) (Y2 + dy)) by (destruct flip; reflexivity).
  apply rn_new; lra.
Qed.
Lemma rn_centroid e x1 y1 x2 y2 m g : rn false e x1 y1 x2 y2 m g -> 2 * e < x2 - x1 -> 2 * e < y2 - y1 ->
  (x1 + x2) / 2 - e <= fst (poly_centroid (gm_poly g)) <= (x1 + x2) / 2 + e /\ (y1 + y2) / 2 - e <= snd (poly_centroid (gm_poly g)) <= (y1 + y2) / 2 + e.
Proof.
  intros (_ & _ & _ & X1 & Y1 & X2 & Y2 & P & B1 & B2 & B3 & B4) Hx Hy. rewrite P. unfold quad.
  set (l := [(X1, Y1); (X2, Y1); (X2, Y2); (X1, Y2)]). assert (A : ring_area l = (X2 - X1) * (Y2 - Y1)) by (unfold l, ring_area, cross; cbn [around shoelace fst snd]; lra).
  assert (0 < (X2 - X1) * (Y2 - Y1)) by (apply Rmult_lt_0_compat; lra).
  assert (E : poly_centroid (mkPoly l []) = ((X1 + X2) / 2, (Y1 + Y2) / 2)).
  { unfold poly_centroid. rewrite one_area, one_mx, one_my, A by lra. unfold l, ring_mx, ring_my, cross. cbn [around shoelace fst snd]. f_equal; field; lra. }
  rewrite E. cbn [fst snd]. lra.
Qed.
Lemma multi_one p : multi_centroid [p] = poly_centroid p.
Proof. unfold multi_centroid, poly_centroid, multi_area, sumf, Rsum. cbn [map fold_right]. rewrite !Rplus_0_r. reflexivity. Qed.
Lemma rn_center sh e f x1 y1 x2 y2 x1' y1' x2' y2' m m' g o : rn false e x1 y1 x2 y2 m g -> rn false f x1' y1' x2' y2' m' o -> 2 * e + 2 * h < x2 - x1 -> 2 * e < y2 - y1 -> 2 * f < x2' - x1' -> 2 * f < y2' - y1' ->
  rn false (e + (e + f + h) + h) ((x1' + x2') / 2 - (x2 - x1) / 2) ((y1' + y2') / 2 - (y2 - y1) / 2) ((x1' + x2') / 2 + (x2 - x1) / 2) ((y1' + y2') / 2 + (y2 - y1) / 2) m (align_center sh g (Some (TGeometry [gm_poly o]))).
Proof.
  intros G O W1 W2 W3 W4. pose proof (rn_centroid _ _ _ _ _ _ _ G ltac:(pose proof h_pos; lra) W2) as [C1 C2]. pose proof (rn_centroid _ _ _ _ _ _ _ O W3 W4) as [D1 D2].
  unfold align_center, center_shift, center_target. rewrite multi_one. assert (T : gm_tol g = 12%nat) by apply G. rewrite T. cbn [fst snd].
  set (a := fst (poly_centroid (gm_poly o)) - fst (poly_centroid (gm_poly g))) in *. set (c := snd (poly_centroid (gm_poly o)) - snd (poly_centroid (gm_poly g))) in *.
  pose proof (round_h a). pose proof (round_h c).
  replace ((x1' + x2') / 2 - (x2 - x1) / 2) with (x1 + ((x1' + x2') / 2 - (x1 + x2) / 2)) by lra. replace ((y1' + y2') / 2 - (y2 - y1) / 2) with (y1 + ((y1' + y2') / 2 - (y1 + y2) / 2)) by lra.
  replace ((x1' + x2') / 2 + (x2 - x1) / 2) with (x2 + ((x1' + x2') / 2 - (x1 + x2) / 2)) by lra. replace ((y1' + y2') / 2 + (y2 - y1) / 2) with (y2 + ((y1' + y2') / 2 - (y1 + y2) / 2)) by lra.
  apply (rn_shift sh false e _ _ _ _ m g _ _ _ _ _ G); lra || (unfold a in *; unfold c in *; lra).
Qed.
Lemma quad_right X1 Y1 X2 Y2 : X1 <= X2 -> Y1 <= Y2 -> nth4 (extents [quad false X1 Y1 X2 Y2]) 1 = X2.
Proof. intros H1 H2. unfold extents, bounds, list_bounds, quad. cbn [map ext concat app fst snd fold_left nth4]. unfold Rmax. repeat destruct (Rle_dec _ _); lra. Qed.
Lemma quad_top X1 Y1 X2 Y2 : X1 <= X2 -> Y1 <= Y2 -> nth4 (extents [quad false X1 Y1 X2 Y2]) 3 = Y2.
Proof. intros H1 H2. unfold extents, bounds, list_bounds, quad. cbn [map ext concat app fst snd fold_left nth4]. unfold Rmax. repeat destruct (Rle_dec _ _); lra. Qed.
Lemma quad_bottom X1 Y1 X2 Y2 : X1 <= X2 -> Y1 <= Y2 -> nth4 (extents [quad false X1 Y1 X2 Y2]) 2 = Y1.
Proof. intros H1 H2. unfold extents, bounds, list_bounds, quad. cbn [map ext concat app fst snd fold_left nth4]. unfold Rmin. repeat destruct (Rle_dec _ _); lra. Qed.
Lemma rn_right sh e f x1 y1 x2 y2 x1' y1' x2' y2' m m' g o : rn false e x1 y1 x2 y2 m g -> rn false f x1' y1' x2' y2' m' o -> 2 * e + 2 * h < x2 - x1 -> 2 * e < y2 - y1 -> 2 * f < x2' - x1' -> 2 * f < y2' - y1' ->
  exists g', align_to sh g (TGeometry [gm_poly o]) "right" true = Ok g' /\ rn false (e + (e + f) + h) (x2' - (x2 - x1)) y1 x2' y2 m g'.
Proof.
  intros G O W1 W2 W3 W4. pose proof h_pos. pose proof G as (_ & _ & _ & X1 & Y1 & X2 & Y2 & P & B1 & B2 & B3 & B4). destruct O as (_ & _ & _ & X1' & Y1' & X2' & Y2' & P' & B1' & B2' & B3' & B4').
  assert (0 <= e + f) by lra.
  unfold align_to, align_offset. cbn [align_indices String.eqb Ascii.eqb Bool.eqb bind orb]. rewrite P, P', !quad_right by lra. cbn [fst snd].
  eexists. split; [reflexivity|]. replace (x2' - (x2 - x1)) with (x1 + (x2' - x2)) by lra. replace x2' with (x2 + (x2' - x2)) at 2 by lra. replace y1 with (y1 + 0) by lra. replace y2 with (y2 + 0) at 1 by lra.
  replace (y1 + 0 + 0) with (y1 + 0) by lra.
  apply (rn_shift sh false e _ _ _ _ m g _ _ _ _ _ G); lra.
Qed.
Lemma rn_mirror sh e x1 y1 x2 y2 m g c : rn false e x1 y1 x2 y2 m g -> 2 * h + 2 * e < x2 - x1 -> rn true (e + h) (2 * c - x2) y1 (2 * c - x1) y2 m (mirror_section sh g "y" (At (c, 0))).
Proof.
  intros (M & T & C & X1 & Y1 & X2 & Y2 & P & B1 & B2 & B3 & B4) W. unfold mirror_section. cbn [mirror_factors]. destruct (mirror_factors "y") as [fx fy] eqn:E. vm_compute in E || idtac.
  assert (F : fx = -1 /\ fy = 1) by (unfold mirror_factors in E; cbn in E; injection E as <- <-; split; lra). destruct F as [-> ->].
  rewrite M, T, C, P. cbn [option_map origin_of].
  replace (map_polygon (scale_pt (-1) 1 (c, 0)) (quad false X1 Y1 X2 Y2)) with (quad true (2 * c - X2) Y1 (2 * c - X1) Y2).
  - apply rn_new; lra.
  - unfold quad, map_polygon, scale_pt. cbn [ext ints map fst snd]. do 2 f_equal; repeat (apply f_equal2; [apply f_equal2; lra|]); reflexivity.
Qed.
Lemma rn_rectangle flip e x1 y1 x2 y2 m g : rn flip e x1 y1 x2 y2 m g -> e <= 20 * h -> rectangle ((x1, y1), (x2, y2)) m g.
Proof.
  intros (M & T & C & X1 & Y1 & X2 & Y2 & P & B1 & B2 & B3 & B4) W. split; [exact M|]. rewrite P. split; [reflexivity|].
  assert (K : forall a b A B, a - e <= A <= a + e -> b - e <= B <= b + e -> close (a, b) (A, B)). { intros a b A B HA HB. unfold close. cbn [fst snd]. rewrite h_close. split; apply Rabs_le; lra. }
  destruct flip; [right|left]; cbn [quad ext]; repeat (constructor; [apply K; assumption|]); constructor.
Qed.

(** * Bars *)
Fixpoint upto (f : nat -> R) (k : nat) : R := match k with O => 0 | S j => upto f j + f j end.
Lemma upto_neg f k : (0 < k)%nat -> (forall i, (i < k)%nat -> f i < 0) -> upto f k < 0.
Proof. intros H. induction k as [|k IH]; intros F; [lia|]. cbn [upto]. destruct k as [|k]; [cbn [upto]; pose proof (F 0%nat ltac:(lia)); lra|]. pose proof (IH ltac:(lia) ltac:(intros; apply F; lia)). pose proof (F (S k) ltac:(lia)). lra. Qed.
Lemma upto_cos x k : 2 * sin (x / 2) * upto (fun i => cos (INR i * x)) k = sin (INR k * x - x / 2) + sin (x / 2).
Proof.
  induction k as [|k IH]; [cbn [upto INR]; replace (0 * x - x / 2) with (- (x / 2)) by lra; rewrite sin_neg; lra|]. cbn [upto]. rewrite Rmult_plus_distr_l, IH. rewrite S_INR.
  replace ((INR k + 1) * x - x / 2) with (INR k * x + x / 2) by lra. rewrite sin_minus, sin_plus. lra.
Qed.
Lemma upto_sin x k : 2 * sin (x / 2) * upto (fun i => sin (INR i * x)) k = cos (x / 2) - cos (INR k * x - x / 2).
Proof.
  induction k as [|k IH]; [cbn [upto INR]; replace (0 * x - x / 2) with (- (x / 2)) by lra; rewrite cos_neg; lra|]. cbn [upto]. rewrite Rmult_plus_distr_l, IH. rewrite S_INR.
  replace ((INR k + 1) * x - x / 2) with (INR k * x + x / 2) by lra. rewrite cos_minus, cos_plus. lra.
Qed.
Lemma upto_lin a b f g k : upto (fun i => a * f i + b * g i) k = a * upto f k + b * upto g k.
Proof. induction k as [|k IH]; cbn [upto]; [lra|rewrite IH; lra]. Qed.
(** some vertex of a regular polygon is in the direction of [p] *)
Lemma ngon_toward n (p : pt) : (3 <= n)%nat -> exists i, (i < n)%nat /\ 0 <= fst p * cos (INR i * 2 * PI / INR n) + snd p * sin (INR i * 2 * PI / INR n).
Proof.
  intros H. set (x := 2 * PI / INR n). assert (N : 0 < INR n) by (apply lt_0_INR; lia). assert (N3 : 3 <= INR n) by (apply le_INR in H; cbn in H; lra). pose proof PI_RGT_0.
  assert (Ex : INR n * x = 2 * PI) by (unfold x; field; lra). assert (X1 : 0 < x / 2) by (unfold x; apply Rdiv_lt_0_compat; [apply Rdiv_lt_0_compat|]; lra). assert (X2 : x / 2 < PI) by nra.
  pose proof (sin_gt_0 _ X1 X2) as S. assert (C0 : upto (fun i => cos (INR i * x)) n = 0 /\ upto (fun i => sin (INR i * x)) n = 0).
  { pose proof (upto_cos x n) as A. pose proof (upto_sin x n) as B. rewrite Ex in A, B. replace (2 * PI - x / 2) with (- (x / 2) + 2 * PI) in A, B by lra. rewrite sin_2PI_shift in A || rewrite sin_plus, sin_2PI, cos_2PI in A.
    rewrite cos_plus, sin_2PI, cos_2PI in B. rewrite sin_neg, cos_neg in *. split; apply (Rmult_eq_reg_l (2 * sin (x / 2))); lra. }
  destruct C0 as [C0 S0]. pose proof (upto_lin (fst p) (snd p) (fun i => cos (INR i * x)) (fun i => sin (INR i * x)) n) as L. rewrite C0, S0 in L.
  destruct (Exists_dec (fun i => 0 <= fst p * cos (INR i * x) + snd p * sin (INR i * x)) (seq 0 n)) as [E|E]; [intros i; apply Rle_dec| |].
  - apply Exists_exists in E. destruct E as (i & I & E). apply in_seq in I. exists i. split; [lia|]. unfold x in E. replace (INR i * 2 * PI / INR n) with (INR i * (2 * PI / INR n)) by (field; lra). exact E.
  - exfalso. pose proof (upto_neg (fun i => fst p * cos (INR i * x) + snd p * sin (INR i * x)) n ltac:(lia)) as K. assert (forall i, (i < n)%nat -> fst p * cos (INR i * x) + snd p * sin (INR i * x) < 0); [|pose proof (K H1); lra].
    intros i Hi. apply Rnot_le_lt. intros G. apply E, Exists_exists. exists i. split; [apply in_seq; lia|exact G].
Qed.
Lemma ngon_map n p r : ngon n p r = map (translate_pt (fst p) (snd p)) (ellipse_points (2 * r) (2 * r) n).
Proof. unfold ngon, ellipse_points. rewrite map_map. apply map_ext. intros i. unfold translate_pt. cbn [fst snd]. f_equal; lra. Qed.
Lemma ring_area_translate dx dy l : ring_area (map (translate_pt dx dy) l) = ring_area l.
Proof. rewrite (map_ext _ (affine 1 0 0 1 dx dy)) by (intros q; unfold translate_pt, affine; f_equal; lra). rewrite ring_area_affine. lra. Qed.
Definition near (e : R) (a b : pt) : Prop := Rabs (fst b - fst a) <= e /\ Rabs (snd b - snd a) <= e.
Lemma bar_near sh area n m p : (3 <= n)%nat -> 1 / 10 ^ 20 <= area -> exists g r, bar_at sh area n m p = Ok g /\ gm_mat g = m /\ ints (gm_poly g) = [] /\
  100 * h < r /\ ngon_area n r = area /\ poly_area (mkPoly (ngon n p r) []) = area /\ Forall2 (near (2 * h)) (ngon n p r) (ext (gm_poly g)).
Proof.
  intros H Ha. pose proof h_pos as Hh. assert (A0 : 0 < area) by (apply (Rlt_le_trans _ (1 / 10 ^ 20)); [apply Rdiv_lt_0_compat; [lra|apply pow_lt; lra]|exact Ha]).
  destruct (by_area area n H A0) as [E D]. set (r := diameter_by_area area n / 2) in *. assert (Hr : 0 < r) by (unfold r; lra).
  destruct (ngon_below n r H Hr) as [_ B]. rewrite E in B. pose proof PI_4 as P4. assert (R1 : 100 * h < r).
  { apply Rnot_le_lt. intros L. assert (r ^ 2 <= (100 * h) ^ 2) by (apply pow_incr; lra). assert (0 <= r ^ 2) by (apply pow_le; lra). assert (PI * r ^ 2 <= 4 * (100 * h) ^ 2) by (apply Rmult_le_compat; pose proof PI_RGT_0; lra).
    assert (4 * (100 * h) ^ 2 = 1 / 10 ^ 20) by (unfold half; field). lra. }
  replace (diameter_by_area area n) with (2 * r) in * by (unfold r; lra).
  assert (C1 : exists g, circular_section_by_area sh area n m = Ok g /\ gm_mat g = m /\ gm_tol g = 12%nat /\ gm_assigned g = None /\ gm_poly g = mkPoly (map (round_pt 12) (ellipse_points (2 * r) (2 * r) n)) []).
  { eexists. split; [unfold circular_section_by_area, circular_section, polygon_geometry; replace (diameter_by_area area n) with (2 * r) by (unfold r; lra); rewrite ellipse_open by (lia || lra); reflexivity|].
    destruct (new_geometry_poly sh (mkPoly (ellipse_points (2 * r) (2 * r) n) []) m None 12) as (P & M & Q & T). split; [exact M|]. split; [exact T|]. split; [exact Q|]. rewrite P, round_keep; [reflexivity|].
    exists (2 * r / 2 * cos (INR 0 * 2 * PI / INR n), 2 * r / 2 * sin (INR 0 * 2 * PI / INR n)). split; [cbn [ext]; unfold ellipse_points; apply (in_map (fun i => (2 * r / 2 * cos (INR i * 2 * PI / INR n), 2 * r / 2 * sin (INR i * 2 * PI / INR n)))), in_seq; lia|].
    left. cbn [fst INR]. replace (0 * 2 * PI / INR n) with 0 by (unfold Rdiv; ring). rewrite cos_0, Rabs_right; lra. }
  destruct C1 as (g & G & M & T & C & P). unfold bar_at. rewrite G. cbn [bind]. eexists. exists r. split; [reflexivity|]. unfold shift_section. rewrite M, T, C, P. cbn [option_map].
  set (l := ellipse_points (2 * r) (2 * r) n) in *.
  destruct (new_geometry_poly sh (map_polygon (translate_pt (fst p) (snd p)) (mkPoly (map (round_pt 12) l) [])) m None 12) as (P' & M' & _ & _).
  split; [exact M'|]. rewrite P'.
  assert (K : round_polygon_vertices (map_polygon (translate_pt (fst p) (snd p)) (mkPoly (map (round_pt 12) l) [])) 12 = mkPoly (map (fun v => round_pt 12 (translate_pt (fst p) (snd p) (round_pt 12 v))) l) []).
  { rewrite round_keep; [unfold map_polygon; cbn [ext ints map]; rewrite !map_map; reflexivity|]. destruct (ngon_toward n p H) as (i & Hi & Q).
    set (c := cos (INR i * 2 * PI / INR n)) in *. set (s := sin (INR i * 2 * PI / INR n)) in *. assert (V : s * s + c * c = 1) by apply (sin2_cos2 (INR i * 2 * PI / INR n)).
    exists (translate_pt (fst p) (snd p) (round_pt 12 (2 * r / 2 * c, 2 * r / 2 * s))). split.
    - cbn [map_polygon ext]. apply in_map, in_map. unfold l, ellipse_points. apply (in_map (fun i => (2 * r / 2 * cos (INR i * 2 * PI / INR n), 2 * r / 2 * sin (INR i * 2 * PI / INR n)))), in_seq. lia.
    - unfold translate_pt, round_pt. cbn [fst snd]. pose proof (round_h (2 * r / 2 * c)) as R2. pose proof (round_h (2 * r / 2 * s)) as R3. set (u := round_to 12 (2 * r / 2 * c)) in *. set (w := round_to 12 (2 * r / 2 * s)) in *.
      destruct (Rlt_dec h (Rabs (u + fst p)) ) as [L|L]; [left; rewrite Rplus_comm; exact L || (rewrite Rplus_comm in L; exact L)|]. right. apply Rnot_le_lt. intros L'. apply Rnot_lt_le in L.
      rewrite Rplus_comm in L'. assert (X : Rabs (fst p + r * c) <= 2 * h) by (apply Rabs_le; unfold Rabs in L; destruct (Rcase_abs _); lra). assert (Y : Rabs (snd p + r * s) <= 2 * h) by (apply Rabs_le; unfold Rabs in L'; destruct (Rcase_abs _); lra).
      assert (X2 : (fst p + r * c) ^ 2 <= (2 * h) ^ 2) by (rewrite <- (pow2_abs (fst p + r * c)); apply pow_incr; split; [apply Rabs_pos|exact X]). assert (Y2 : (snd p + r * s) ^ 2 <= (2 * h) ^ 2) by (rewrite <- (pow2_abs (snd p + r * s)); apply pow_incr; split; [apply Rabs_pos|exact Y]).
      assert (0 <= 2 * r * (fst p * c + snd p * s)) by (apply Rmult_le_pos; lra). assert ((100 * h) ^ 2 <= r ^ 2) by (apply pow_incr; lra). pose proof (pow2_ge_0 (fst p)). pose proof (pow2_ge_0 (snd p)). assert (0 < h ^ 2) by (apply pow_lt; exact Hh). nra. }
  rewrite K. split; [reflexivity|]. split; [exact R1|]. split; [exact E|]. split.
  - rewrite ngon_map. fold l. assert (A : ring_area l = ngon_area n r) by (unfold l; rewrite ellipse_area by lia; unfold ngon_area; field). rewrite one_area; rewrite ring_area_translate, A, E; lra.
  - rewrite ngon_map. fold l. cbn [ext]. clear. induction l as [|v l IH]; [constructor|]. cbn [map]. constructor; [|exact IH]. unfold near, translate_pt, round_pt. cbn [fst snd].
    pose proof (round_h (fst v)). pose proof (round_h (snd v)). pose proof (round_h (round_to 12 (fst v) + fst p)). pose proof (round_h (round_to 12 (snd v) + snd p)). pose proof h_pos. split; apply Rabs_le; lra.
Qed.
Lemma near_close e l m : e <= 20 * h -> Forall2 (near e) l m -> Forall2 close l m.
Proof. intros H. induction 1 as [|a b l m [A B] F IH]; constructor; [|exact IH]. unfold close. rewrite h_close. split; lra. Qed.
Lemma bar_made sh area n m p : (3 <= n)%nat -> 1 / 10 ^ 20 <= area -> exists g, bar_at sh area n m p = Ok g /\ bar area n m p g.
Proof.
  intros H Ha. destruct (bar_near sh area n m p H Ha) as (g & r & E & M & I & R1 & _ & A & F). pose proof h_pos. exists g. split; [exact E|]. split; [exact M|]. split; [exact I|]. exists r. split; [lra|]. split; [exact A|].
  apply (near_close (2 * h)); [lra|exact F].
Qed.
Lemma bars_made sh area n m : (3 <= n)%nat -> 1 / 10 ^ 20 <= area -> forall ps, exists l, map_result (bar_at sh area n m) ps = Ok l /\ Forall2 (bar area n m) ps l.
Proof.
  intros H Ha. induction ps as [|p ps (l & E & F)]; [exists []; split; [reflexivity|constructor]|]. destruct (bar_made sh area n m p H Ha) as (g & G & B). exists (g :: l). cbn [map_result]. rewrite G, E. split; [reflexivity|constructor; assumption].
Qed.
Lemma sub_ok sh so a b : workable so -> exists i, geom_sub sh so a b = Ok i.
Proof.
  intros U. assert (S : forall g, exists i, sub_single sh so g b = Ok i).
  { intros g. destruct (usable_ok _ (U [gm_poly g] (item_polys b))) as [[q|ps] E]; unfold sub_single; rewrite E; cbn [bind as_value_error]; [|eauto]. destruct (gm_assigned g) as [c|]; [destruct (sh_contains sh q c)|]; cbn; eauto. }
  destruct a as [g|c]; [apply S|]. cbn [geom_sub]. assert (L : forall l, exists r, map_result (fun g => sub_single sh so g b) l = Ok r).
  { induction l as [|g l [r E]]; [exists []; reflexivity|]. destruct (S g) as [i I]. exists (i :: r). cbn [map_result]. rewrite I, E. reflexivity. }
  destruct (L (cp_geoms c)) as [r E]. rewrite E. cbn [bind]. eauto.
Qed.
Lemma with_bars_made sh so conc area n m ps : workable so -> (3 <= n)%nat -> 1 / 10 ^ 20 <= area -> exists c, add_bars sh so conc area m n ps = Ok c /\ with_bars sh so conc area n m ps c.
Proof.
  intros U H Ha. destruct (bars_made sh area n m H Ha ps) as (l & E & F). unfold add_bars. rewrite E. cbn [bind]. set (bars := new_compound sh (map ISingle l)).
  assert (EB : cp_geoms bars = l). { unfold bars. rewrite new_members, map_map. clear. induction l as [|g l IH]; [reflexivity|]. cbn [map members_of concat app]. f_equal. exact IH. }
  destruct (sub_ok sh so conc (ICompound bars) U) as [cut C]. rewrite C. cbn [bind]. eexists. split; [reflexivity|]. exists bars, cut. rewrite EB. split; [exact F|]. split; [exact C|].
  unfold add_geometry. rewrite new_members. cbn [map concat members_of]. rewrite app_nil_r, EB. reflexivity.
Qed.
