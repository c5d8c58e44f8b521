(** The hat with a plate: nastran_hat1. *)
From Coq Require Import String Reals List Bool Arith ZArith Permutation Lra Lia.
From Verif Require Import Base M_Fea M_Init M_Bisect M_Geometry S_Geometry P_Geometry P_Geometry3 P_Geometry4 P_Geometry5 P_Geometry6 P_Geometry8 M_Library S_Library P_Library P_Library2 P_Library8 M_SetOps M_Nastran S_SetOps P_SetOps S_Concrete P_Concrete6 S_Nastran P_Nastran P_Nastran2.
Import ListNotations.
Local Open Scope R_scope.

Lemma edge_value s p v : ext p <> [] -> extreme s v (ext p) -> nth4 (extents [p]) (side_index s) = v.
Proof.
  intros N E. assert (EP : exterior_points [p] = ext p) by (unfold exterior_points; cbn; apply app_nil_r).
  apply (extreme_unique s _ _ (ext p)); [|exact E]. rewrite <- EP. apply extents_extreme. rewrite EP. exact N.
Qed.
Lemma shift_twice dx dy ex ey l : map (translate_pt ex ey) (map (translate_pt dx dy) l) = map (translate_pt (dx + ex) (dy + ey)) l.
Proof. rewrite map_map. apply map_ext. intros p. unfold translate_pt. cbn [fst snd]. f_equal; ring. Qed.
Lemma shift_poly_grid sh p m dx dy : poly_on_grid 12 p -> (exists a b, In a (ext p) /\ In b (ext p) /\ a <> b) -> on_grid 12 dx -> on_grid 12 dy ->
  forall g, gm_poly g = p -> gm_mat g = m -> gm_tol g = 12%nat -> is_geometry sh g ->
  gm_poly (shift_section sh g dx dy) = map_polygon (translate_pt dx dy) p /\ gm_mat (shift_section sh g dx dy) = m /\ gm_tol (shift_section sh g dx dy) = 12%nat /\ is_geometry sh (shift_section sh g dx dy).
Proof.
  intros G P Gx Gy g E M T I. destruct (shift_exact sh g dx dy I) as [_ S]; [unfold proper; rewrite E; exact P|rewrite T; assumption|rewrite T; assumption|].
  split; [rewrite S, E; reflexivity|]. destruct (new_geometry_poly sh (map_polygon (translate_pt dx dy) (gm_poly g)) (gm_mat g) (option_map (translate_pt dx dy) (gm_assigned g)) (gm_tol g)) as (_ & M' & _ & T').
  split; [unfold shift_section; rewrite M'; exact M|]. split; [unfold shift_section; rewrite T'; exact T|]. apply new_is_geometry.
Qed.

Section Hat1.
Variables (sh : shapely) (d1 d2 d3 d4 d5 : R) (m : mat_obj).
Hypothesis G1 : on_grid 12 (d1 / 2).
Hypothesis G2 : on_grid 12 d2.
Hypothesis G3 : on_grid 12 (d3 / 2).
Hypothesis G4 : on_grid 12 d4.
Hypothesis G5 : on_grid 12 (d5 / 2).
Hypothesis P4 : 0 < d4.
Hypothesis P5 : 0 < d5.
Hypothesis L2 : 2 * d4 + d5 < d2.
Hypothesis L3 : d3 < d1.
Hypothesis L4 : 2 * d4 < d3.
Definition hat_ring : list pt := hat_points (d2 - d5) d4 d3 ((d1 - d3) / 2).
Definition plate_ring : list pt := [(- d1 / 2, 0); (d1 / 2, 0); (d1 / 2, d5); (- d1 / 2, d5)].
Ltac grid := match goal with |- on_grid _ ?x =>
  first [ assumption | apply (int_grid 12 0)
        | match x with - ?a / 2 => replace x with (- (a / 2)) by field | 0 => apply (int_grid 12 0)
          | d1 => replace d1 with (d1 / 2 + d1 / 2) by field | d3 => replace d3 with (d3 / 2 + d3 / 2) by field | d5 => replace d5 with (d5 / 2 + d5 / 2) by field
          | (?a - ?b) / 2 => replace x with (a / 2 - b / 2) by field | 2 * ?a => replace x with (a + a) by ring | _ => idtac end;
          first [apply grid_opp; grid|apply grid_minus; grid|apply grid_plus; grid] ] end.
Ltac ring_grid := constructor; [repeat (constructor; [split; cbn [fst snd]; grid|]); constructor|constructor].
Lemma plate_poly_grid : poly_on_grid 12 (mkPoly plate_ring []). Proof. unfold plate_ring. ring_grid. Qed.
Lemma bar_poly_grid : poly_on_grid 12 (mkPoly (bar_points d1 d5) []). Proof. unfold bar_points. ring_grid. Qed.
Lemma hat_poly_grid : poly_on_grid 12 (mkPoly hat_ring []). Proof. unfold hat_ring, hat_points. ring_grid. Qed.
Lemma hat_ring_area : ring_area hat_ring = 2 * d4 * ((d1 - d3) / 2) + 2 * d4 * (d2 - d5 - d4) + d4 * d3.
Proof. unfold hat_ring, hat_points, ring_area, cross. cbn [around shoelace fst snd]. field. Qed.
Lemma hat_ring_mx : ring_mx hat_ring = d1 / 2 * ring_area hat_ring.
Proof. unfold hat_ring, hat_points, ring_mx, ring_area, cross. cbn [around shoelace fst snd]. field. Qed.
Lemma hat_ring_pos : 0 < ring_area hat_ring.
Proof. rewrite hat_ring_area. assert (0 < d4 * d3) by (apply Rmult_lt_0_compat; lra). assert (0 < 2 * d4 * ((d1 - d3) / 2)) by (apply Rmult_lt_0_compat; lra). assert (0 < 2 * d4 * (d2 - d5 - d4)) by (apply Rmult_lt_0_compat; lra). lra. Qed.
Lemma plate_mx : ring_area plate_ring = d1 * d5 /\ ring_mx plate_ring = 0.
Proof. split; unfold plate_ring, ring_mx, ring_area, cross; cbn [around shoelace fst snd]; field. Qed.
Lemma center_x k : center_shift 12 (poly_centroid (mkPoly hat_ring [])) (Some (TGeometry [mkPoly plate_ring []])) = k -> fst k = - d1 / 2 /\ on_grid 12 (snd k).
Proof.
  intros <-. unfold center_shift. cbn [center_target fst snd]. split; [|apply round_to_grid]. pose proof hat_ring_pos. destruct plate_mx as [PA PX]. assert (0 < d1 * d5) by (apply Rmult_lt_0_compat; lra).
  unfold multi_centroid, poly_centroid, multi_area. cbn [sumf Rsum map fold_right fst snd]. rewrite !one_mx, !one_area by lra. rewrite hat_ring_mx, PX, PA.
  replace ((0 + 0) / (d1 * d5 + 0) - d1 / 2 * ring_area hat_ring / ring_area hat_ring) with (- d1 / 2) by (field; split; nra). apply round_to_id. grid.
Qed.
Lemma hat1_made : exists c h p, nastran_hat1 sh d1 d2 d3 d4 d5 m = Ok (c, [(- d1 / 2, 0); (d1 / 2, 0); (- d3 / 2, d2); (d3 / 2, d2)]) /\ cp_geoms c = [h; p] /\
  gm_mat h = m /\ gm_mat p = m /\ gm_poly h = mkPoly (map (translate_pt (- d1 / 2) d5) hat_ring) [] /\ gm_poly p = mkPoly plate_ring [].
Proof.
  unfold nastran_hat1. guard_tac. unfold nastran_bar, with_points, polygon_geometry. rewrite open_loop_ring by (unfold bar_points; loop_tac). cbn [bind].
  set (b0 := new_geometry sh (mkPoly (bar_points d1 d5) []) m None 12).
  assert (B0 : gm_poly b0 = mkPoly (bar_points d1 d5) []). { apply new_grid_poly; [apply bar_poly_grid|]. exists (d1 / 2, d5 / 2). split; [unfold bar_points; cbn; auto|]. intros E. injection E. lra. }
  destruct (new_geometry_poly sh (mkPoly (bar_points d1 d5) []) m None 12) as (_ & M0 & _ & T0). fold b0 in M0, T0.
  destruct (shift_poly_grid sh _ m 0 (d5 / 2) bar_poly_grid) with (g := b0) as (Pp & Mp & Tp & Ip); try assumption.
  { exists (- d1 / 2, - d5 / 2), (d1 / 2, - d5 / 2). unfold bar_points. split; [cbn; auto|]. split; [cbn; auto|]. intros E. injection E. lra. }
  { apply (int_grid 12 0). } { apply new_is_geometry. }
  set (pl := shift_section sh b0 0 (d5 / 2)) in *.
  assert (EP : gm_poly pl = mkPoly plate_ring []). { rewrite Pp. unfold map_polygon, bar_points, plate_ring, translate_pt. cbn [ext ints map fst snd]. repeat (f_equal; try lra). }
  unfold nastran_hat. guard_tac. unfold with_points, polygon_geometry. fold hat_ring. rewrite open_loop_ring by (unfold hat_ring, hat_points; loop_tac). cbn [bind].
  set (h0 := new_geometry sh (mkPoly hat_ring []) m None 12).
  assert (H0 : gm_poly h0 = mkPoly hat_ring []). { apply new_grid_poly; [apply hat_poly_grid|]. exists ((d1 - d3) / 2 + d4, 0). split; [unfold hat_ring, hat_points; cbn; auto|]. intros E. injection E. lra. }
  destruct (new_geometry_poly sh (mkPoly hat_ring []) m None 12) as (_ & N0 & _ & S0). fold h0 in N0, S0.
  assert (two : exists a b, In a hat_ring /\ In b hat_ring /\ a <> b). { exists (0, 0), ((d1 - d3) / 2 + d4, 0). unfold hat_ring, hat_points. split; [cbn; auto|]. split; [cbn; auto|]. intros E. injection E. lra. }
  unfold align_center. rewrite S0, H0, EP. destruct (center_x _ eq_refl) as [Kx Ky]. set (k := center_shift _ _ _) in *. rewrite Kx. set (ky := snd k) in *.
  destruct (shift_poly_grid sh _ m (- d1 / 2) ky hat_poly_grid two) with (g := h0) as (Ph & Mh & Th & Ih); try assumption; [grid|apply new_is_geometry|].
  set (h1 := shift_section sh h0 (- d1 / 2) ky) in *.
  assert (Bt : nth4 (extents [gm_poly h1]) 2 = ky).
  { apply (edge_value AtBottom); rewrite Ph; cbn [map_polygon ext]; [discriminate|]. cbn [extreme]. rewrite map_map. cbn [translate_pt snd]. unfold hat_ring, hat_points. cbn [map snd]. split; [cbn [In]; left; lra|].
    intros x. cbn [In]. intuition lra. }
  assert (Tt : nth4 (extents [mkPoly plate_ring []]) 3 = d5).
  { apply (edge_value AtTop); [discriminate|]. cbn [extreme ext]. unfold plate_ring. cbn [map snd]. split; [cbn [In]; auto|]. intros x. cbn [In]. intuition lra. }
  assert (AO : align_offset [gm_poly h1] (TGeometry [mkPoly plate_ring []]) "top" false = Ok (0, d5 - ky)).
  { unfold align_offset. cbn [align_indices String.eqb Ascii.eqb Bool.eqb bind orb]. rewrite Bt, Tt. reflexivity. }
  unfold align_to. rewrite AO. cbn [bind fst snd].
  destruct (shift_poly_grid sh (map_polygon (translate_pt (- d1 / 2) ky) (mkPoly hat_ring [])) m 0 (d5 - ky)) with (g := h1) as (Pq & Mq & Tq & Iq); try assumption.
  { rewrite <- Ph. destruct (geometry_points sh h1 Ih) as (Gr & _). rewrite Th in Gr. exact Gr. }
  { exists (translate_pt (- d1 / 2) ky (0, 0)), (translate_pt (- d1 / 2) ky ((d1 - d3) / 2 + d4, 0)). split; [apply in_map; unfold hat_ring, hat_points; cbn; auto|]. split; [apply in_map; unfold hat_ring, hat_points; cbn; auto|].
    unfold translate_pt. cbn [fst snd]. intros E. injection E. lra. }
  { apply (int_grid 12 0). } { grid. }
  eexists _, _, pl. split; [reflexivity|]. split; [unfold add_geometry; rewrite new_members; reflexivity|]. split; [exact Mq|]. split; [exact Mp|]. split; [|exact EP].
  rewrite Pq. unfold map_polygon. cbn [ext ints map]. rewrite shift_twice. f_equal. apply map_ext. intros p. unfold translate_pt. f_equal; lra.
Qed.
End Hat1.
