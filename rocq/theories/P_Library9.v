(** Proofs: half turn of the zed section; layers of cross-laminated timber; draw_radius; hollow sections. *)
From Coq Require Import Reals List Bool Arith ZArith Lra Lia Rtrigo_facts.
From Verif Require Import Base M_Fea M_Init M_Geometry S_Geometry P_Geometry P_Geometry3 P_Geometry5 P_Geometry6 P_Geometry8 M_Library S_Library P_Library P_Library2 P_Library3 P_Library4 P_Library5 P_Library6 P_Library7 P_Library8.
Import ListNotations.
Local Open Scope R_scope.

Lemma radius_half_turn k c r theta theta' n (ccw : bool) phi : same_angle (theta + PI) theta' ->
  map (half_turn k) (draw_radius c r theta n ccw phi) = draw_radius (half_turn k c) r theta' n ccw phi.
Proof.
  intros A. rewrite <- (radius_period (half_turn k c) r (theta + PI) theta') by apply (same_angle_trig _ _ A). unfold draw_radius. destruct (Req_EM_T r 0); [reflexivity|]. unfold arc. rewrite map_map. apply map_ext. intros i. unfold half_turn. cbn [fst snd].
  replace (theta + PI + (if ccw then 1 else -1) * step n i * phi) with (theta + (if ccw then 1 else -1) * step n i * phi + PI) by ring. rewrite neg_cos, neg_sin. apply f_equal2; ring.
Qed.
Ltac turn_arc := match goal with
  | |- map (half_turn ?k) (draw_radius ?c ?r ?t ?n ?w ?phi) = draw_radius ?c' ?r ?t' ?n ?w ?phi =>
      rewrite (radius_half_turn k c r t t' n w phi ltac:(unfold same_angle; lra)); apply radius_eq; unfold half_turn; cbn [fst snd]; apply f_equal2; lra
  | |- half_turn _ _ = _ => unfold half_turn; cbn [fst snd]; apply f_equal2; lra
  end.
Ltac turn_all := repeat match goal with
  | |- _ :: _ = _ :: _ => apply f_equal2; [turn_arc|]
  | |- _ ++ _ = _ ++ _ => apply f_equal2; [turn_arc|]
  | |- [] = [] => reflexivity
  | |- _ => turn_arc
  end.
Lemma zed_symmetric d b l t r_out n : symmetric_point (t / 2, d / 2) (zed_points d b b l t r_out n).
Proof.
  unfold symmetric_point, same_ring, zed_points. set (r_in := Rmax (r_out - t) 0). set (rl := Rmax (l - t) 0).
  exists (draw_radius (r_out, r_out) r_out PI n true (PI / 2)
  ++ (if Rlt_dec r_out l then
        draw_radius (b - r_out, r_out) r_out (3 / 2 * PI) n true (PI / 2)
        ++ [(b, l); (b - t, l)]
        ++ draw_radius (b - t - r_in, t + r_in) r_in 0 n false (PI / 2)
      else if Rlt_dec t l then
        draw_radius (b - l, l) l (3 / 2 * PI) n true (PI / 2)
        ++ draw_radius (b - t - rl, t + rl) rl 0 n false (PI / 2)
      else [(b, 0); (b, t)])
  ++ draw_radius (t + r_in, t + r_in) r_in (3 / 2 * PI) n false (PI / 2)).
  eexists. split; [rewrite <- !app_assoc; reflexivity|]. change (prod R R) with pt. cbv zeta.
  destruct (Rlt_dec r_out l); [|destruct (Rlt_dec t l)]; repeat (progress (rewrite ?map_app; cbn [map app])); repeat (progress (rewrite <- ?app_assoc; cbn [app])); turn_all.
Qed.
Lemma centroid_point c l : 0 < ring_area l -> symmetric_point c l -> poly_centroid (mkPoly l []) = c.
Proof. intros A S. destruct (symmetric_point_m c l S) as [X Y]. unfold poly_centroid. rewrite one_area, one_mx, one_my, X, Y by lra. destruct c as [cx cy]. cbn [fst snd]. f_equal; field; lra. Qed.
Lemma centroid_turn a l : 0 < ring_area l -> symmetric_turn a l -> cos a <> 1 -> poly_centroid (mkPoly l []) = (0, 0).
Proof. intros A S C. destruct (turn_moments a l S C) as [X Y]. unfold poly_centroid. rewrite one_area, one_mx, one_my, X, Y by lra. f_equal; field; lra. Qed.
Lemma hollow_centroid o i : 0 <= ring_area i < ring_area o -> ring_mx o = 0 -> ring_my o = 0 -> ring_mx i = 0 -> ring_my i = 0 -> poly_centroid (mkPoly o [i]) = (0, 0).
Proof. intros A E1 E2 E3 E4. unfold poly_centroid. rewrite hollow_area by lra. destruct (hollow_mx o i ltac:(lra) ltac:(lra)) as [-> ->]. rewrite E1, E2, E3, E4. f_equal; field; lra. Qed.

(** draw_radius *)
Lemma radius_on_arc c r theta n (ccw : bool) phi : r <> 0 -> (2 <= n)%nat -> on_arc (draw_radius c r theta n ccw phi) n c r theta ((if ccw then 1 else -1) * phi).
Proof.
  intros Hr Hn. unfold draw_radius. destruct (Req_EM_T r 0); [contradiction|]. unfold arc. split; [rewrite map_length; apply seq_length|]. intros i d Hi.
  rewrite (nth_indep _ d ((fun i => (fst c + r * cos (theta + (if ccw then 1 else -1) * step n i * phi), snd c + r * sin (theta + (if ccw then 1 else -1) * step n i * phi))) 0%nat)) by (rewrite map_length, seq_length; exact Hi).
  rewrite (map_nth (fun i => (fst c + r * cos (theta + (if ccw then 1 else -1) * step n i * phi), snd c + r * sin (theta + (if ccw then 1 else -1) * step n i * phi)))), seq_nth by exact Hi. rewrite Nat.add_0_l. unfold step.
  replace (Nat.max 1 (n - 1)) with (n - 1)%nat by lia. replace (theta + (if ccw then 1 else -1) * (INR i / INR (n - 1)) * phi) with (theta + (if ccw then 1 else -1) * phi * (INR i / INR (n - 1))) by ring. reflexivity.
Qed.

(** hollow circles *)
Lemma inner_ellipse d_x d_y t n : map (fun i => ((d_x / 2 - t) * cos (INR i * 2 * PI / INR n), (d_y / 2 - t) * sin (INR i * 2 * PI / INR n))) (seq 0 n) = ellipse_points (d_x - 2 * t) (d_y - 2 * t) n.
Proof. unfold ellipse_points. apply map_ext. intros i. f_equal; f_equal; lra. Qed.
Lemma ngon_mono n p q : (3 <= n)%nat -> 0 <= p < q -> 0 <= INR n * (p * sin (2 * PI / INR n) / 2) < INR n * (q * sin (2 * PI / INR n) / 2).
Proof. intros H L. pose proof (sin_turn_pos n H) as S. assert (N : 0 < INR n) by (apply lt_0_INR; lia). split; [apply Rmult_le_pos; [lra|]; assert (0 <= p * sin (2 * PI / INR n)) by (apply Rmult_le_pos; lra); lra|]. apply Rmult_lt_compat_l; [exact N|]. assert (p * sin (2 * PI / INR n) < q * sin (2 * PI / INR n)) by (apply Rmult_lt_compat_r; lra). lra. Qed.

(** layers of a panel *)
Lemma grid_mult_nat tol x k : on_grid tol x -> on_grid tol (x * INR k).
Proof. intros [z Z]. exists (z * Z.of_nat k)%Z. rewrite mult_IZR, <- INR_IZR_INZ, <- Z. ring. Qed.
Lemma grid_opp tol x : on_grid tol x -> on_grid tol (- x). Proof. intros [z Z]. exists (- z)%Z. rewrite opp_IZR, <- Z. ring. Qed.
Lemma clt_layer_ok sh b i di m : 0 < b -> 0 < di -> on_grid 12 b -> on_grid 12 di -> exists g, clt_layer sh b i di m = Ok g /\ gm_mat g = m /\ gm_poly g = slab b (- (di * INR (i + 1))) (- (di * INR i)).
Proof.
  intros Hb Hd Gb Gd. unfold clt_layer, rectangular_section, polygon_geometry.
  assert (MP : make_polygon (rectangle_points di b) = Ok (mkPoly (rectangle_points di b) [])).
  { apply open_loop_ring. split; [cbn; lia|]. intros d. cbn. intros E. injection E as E. lra. }
  rewrite MP. cbn [bind]. set (g := new_geometry sh (mkPoly (rectangle_points di b) []) m None 12). eexists. split; [reflexivity|].
  assert (G0 : on_grid 12 0) by (exists 0%Z; cbn; ring).
  destruct (new_geometry_poly sh (mkPoly (rectangle_points di b) []) m None 12) as (_ & M & C & T). fold g in M, C, T.
  assert (P : gm_poly g = mkPoly (rectangle_points di b) []).
  { apply new_grid_poly; [repeat constructor; cbn [fst snd]; assumption|]. exists (b, 0). split; [right; left; reflexivity|]. intros E. injection E as E. lra. }
  unfold shift_section. split; [match goal with |- gm_mat (new_geometry ?a ?b ?c ?d ?e) = _ => destruct (new_geometry_poly a b c d e) as (_ & Q & _); rewrite Q; exact M end|]. rewrite P, T. unfold map_polygon. cbn [ext ints map rectangle_points]. unfold translate_pt. cbn [fst snd].
  assert (E1 : 0 + - di * INR (i + 1) = - (di * INR (i + 1))) by ring. assert (E2 : di + - di * INR (i + 1) = - (di * INR i)) by (rewrite plus_INR; cbn [INR]; ring).
  rewrite E1, E2, !Rplus_0_r. apply new_grid_poly.
  - repeat constructor; cbn [fst snd]; try assumption; apply grid_opp, grid_mult_nat, Gd.
  - exists (b, - (di * INR (i + 1))). split; [right; left; reflexivity|]. intros E. injection E as E. lra.
Qed.
Lemma clt_layers_ok sh b : 0 < b -> on_grid 12 b -> forall d i mats, Forall (fun x => 0 < x /\ on_grid 12 x) d -> (length d <= length mats)%nat ->
  exists l, clt_layers sh b i d mats = Ok l /\ map gm_mat l = firstn (length d) mats /\ map gm_poly l = map (fun k => slab b (- (nth k d 0 * INR (i + k + 1))) (- (nth k d 0 * INR (i + k)))) (seq 0 (length d)).
Proof.
  intros Hb Gb. induction d as [|x d IH]; intros i mats F L; [exists []; repeat split|]. destruct mats as [|m mats]; [cbn in L; lia|]. apply Forall_cons_iff in F. destruct F as [[Hx Gx] F].
  cbn [clt_layers]. destruct (clt_layer_ok sh b i x m Hb Hx Gb Gx) as (g & E & Mg & Pg). rewrite E. cbn [bind]. destruct (IH (S i) mats F ltac:(cbn in L; lia)) as (l & El & Ml & Pl). rewrite El. cbn [bind].
  exists (g :: l). split; [reflexivity|]. cbn [map length firstn seq nth]. rewrite Mg, Ml, Pg, Pl. split; [reflexivity|]. rewrite Nat.add_0_r. f_equal. rewrite <- seq_shift, map_map. apply map_ext. intros k. cbn [nth]. replace (S i + k)%nat with (i + S k)%nat by lia. reflexivity.
Qed.
