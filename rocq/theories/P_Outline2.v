(** Proofs: symmetric polygons; shapes made of plates; what the getters return after the geometric analysis. *)
From Coq Require Import Reals String List Permutation Lra Lia.
From Verif Require Import Base S_Integral M_Fea S_Fem P_Section M_Section S_Section M_Geometry S_Geometry P_Geom P_Geometry P_Geometry3 P_Geometry8 M_Library S_Library P_Library P_Library2 P_Library8
  M_Init M_Props M_State S_State P_State P_State2 P_State4 P_State5 S_Outline P_Outline M_Post.
Import ListNotations.
Local Open Scope R_scope.

(** ** mirrored rings *)
Lemma mirrored_around f c h h' : same_ring h' (rev (map (mirror_x c) h)) -> around f h' = around (fun a b => f (mirror_x c b) (mirror_x c a)) h.
Proof. intros S. rewrite (same_ring_around f _ _ S), around_rev, around_map. reflexivity. Qed.
Lemma mirrored_around_y f c h h' : same_ring h' (rev (map (mirror_y c) h)) -> around f h' = around (fun a b => f (mirror_y c b) (mirror_y c a)) h.
Proof. intros S. rewrite (same_ring_around f _ _ S), around_rev, around_map. reflexivity. Qed.
Lemma around_add f g l : around (fun a b => f a b + g a b) l = around f l + around g l.
Proof. rewrite <- (Rmult_1_l (around f l)), <- around_lin. apply around_ext. intros. ring. Qed.
Lemma around_tele' f g (u : pt -> R) l : (forall a b, f a b = g a b + (u b - u a)) -> around f l = around g l.
Proof. intros H. rewrite (around_ext f (fun a b => g a b + (fun a b => u b - u a) a b)) by exact H. rewrite (around_add g (fun a b => u b - u a)), around_tele. ring. Qed.

Definition f_mx (a b : pt) : R := (fst a + fst b) * M_Geometry.cross a b.
Definition f_my (a b : pt) : R := (snd a + snd b) * M_Geometry.cross a b.
Definition f_xy (a b : pt) : R := (fst a * snd b + 2 * fst a * snd a + 2 * fst b * snd b + fst b * snd a) * M_Geometry.cross a b.
Lemma mirrored_x c h h' : same_ring h' (rev (map (mirror_x c) h)) ->
  ring_area h' = ring_area h /\ ring_mx h' = 2 * c * ring_area h - ring_mx h /\ ring_ixy h' = 2 * c * ring_my h - ring_ixy h.
Proof.
  intros S. unfold ring_area, ring_mx, ring_my, ring_ixy. fold f_mx f_my f_xy. rewrite !(mirrored_around _ c h h' S). split; [|split].
  - f_equal. apply (around_tele' _ _ (fun p => - (2 * c * snd p))). intros. unfold M_Geometry.cross, mirror_x. cbn [fst snd]. ring.
  - transitivity ((6 * c * around M_Geometry.cross h + around (fun a b => - f_mx a b) h) / 6).
    + f_equal. rewrite <- around_lin. apply (around_tele' _ _ (fun p => f_mx (mirror_x c p) (2 * c, 0))). intros. unfold f_mx, M_Geometry.cross, mirror_x. cbn [fst snd]. ring.
    + rewrite (around_scale (-1) (fun a b => - f_mx a b) f_mx) by (intros; ring). lra.
  - transitivity ((8 * c * around f_my h + around (fun a b => - f_xy a b) h) / 24).
    + f_equal. rewrite <- around_lin. apply (around_tele' _ _ (fun p => f_xy (mirror_x c p) (2 * c, 0))). intros. unfold f_my, f_xy, M_Geometry.cross, mirror_x. cbn [fst snd]. ring.
    + rewrite (around_scale (-1) (fun a b => - f_xy a b) f_xy) by (intros; ring). lra.
Qed.
Lemma mirrored_y c h h' : same_ring h' (rev (map (mirror_y c) h)) ->
  ring_area h' = ring_area h /\ ring_my h' = 2 * c * ring_area h - ring_my h /\ ring_ixy h' = 2 * c * ring_mx h - ring_ixy h.
Proof.
  intros S. unfold ring_area, ring_mx, ring_my, ring_ixy. fold f_mx f_my f_xy. rewrite !(mirrored_around_y _ c h h' S). split; [|split].
  - f_equal. apply (around_tele' _ _ (fun p => 2 * c * fst p)). intros. unfold M_Geometry.cross, mirror_y. cbn [fst snd]. ring.
  - transitivity ((6 * c * around M_Geometry.cross h + around (fun a b => - f_my a b) h) / 6).
    + f_equal. rewrite <- around_lin. apply (around_tele' _ _ (fun p => f_my (mirror_y c p) (0, 2 * c))). intros. unfold f_my, M_Geometry.cross, mirror_y. cbn [fst snd]. ring.
    + rewrite (around_scale (-1) (fun a b => - f_my a b) f_my) by (intros; ring). lra.
  - transitivity ((8 * c * around f_mx h + around (fun a b => - f_xy a b) h) / 24).
    + f_equal. rewrite <- around_lin. apply (around_tele' _ _ (fun p => f_xy (mirror_y c p) (0, 2 * c))). intros. unfold f_mx, f_xy, M_Geometry.cross, mirror_y. cbn [fst snd]. ring.
    + rewrite (around_scale (-1) (fun a b => - f_xy a b) f_xy) by (intros; ring). lra.
Qed.

Lemma sumf_perm {A} (f : A -> R) l l' : Permutation l l' -> sumf f l = sumf f l'.
Proof. induction 1 as [|x l l' _ IH|x y l|l1 l2 l3 _ IH1 _ IH2]; [reflexivity|rewrite !sumf_cons, IH; reflexivity|rewrite !sumf_cons; ring|congruence]. Qed.
(** If [u] of the mirrored ring is k v - u, then so for the polygon: 2 u = k v. *)
Lemma mirrored_poly (u v : list pt -> R) k (rel : list pt -> list pt -> Prop) p : (forall h h', rel h h' -> ring_area h' = ring_area h /\ u h' = k * v h - u h) ->
  (rel (ext p) (ext p) /\ exists hs, Permutation (ints p) hs /\ Forall2 rel (ints p) hs) -> 2 * poly_sum u p = k * poly_sum v p.
Proof.
  intros H (E & hs & P & F). unfold poly_sum.
  assert (O : forall h h', rel h h' -> M_Geometry.orient h' (u h') = k * M_Geometry.orient h (v h) - M_Geometry.orient h (u h)).
  { intros h h' K. destruct (H h h' K) as [A U]. unfold M_Geometry.orient. rewrite A, U. destruct (Rlt_dec _ _); ring. }
  assert (S : sumf (fun h => M_Geometry.orient h (u h)) hs = k * sumf (fun h => M_Geometry.orient h (v h)) (ints p) - sumf (fun h => M_Geometry.orient h (u h)) (ints p)).
  { clear P. induction F as [|a b l l' R1 _ IH]; [unfold sumf, Rsum; cbn [map fold_right]; ring|]. rewrite !sumf_cons, IH, (O a b R1). ring. }
  rewrite <- (sumf_perm _ _ _ P) in S. pose proof (O _ _ E) as E'. lra.
Qed.
Lemma symmetric_poly_x_facts c p : symmetric_poly_x c p -> poly_area p <> 0 -> fst (poly_centroid p) = c /\ poly_ixy_c p = 0.
Proof.
  intros H N. pose proof (mirrored_poly ring_mx ring_area (2 * c) _ p (fun h h' K => conj (proj1 (mirrored_x c h h' K)) (proj1 (proj2 (mirrored_x c h h' K)))) H) as X.
  pose proof (mirrored_poly ring_ixy ring_my (2 * c) _ p (fun h h' K => conj (proj1 (mirrored_x c h h' K)) (proj2 (proj2 (mirrored_x c h h' K)))) H) as Y.
  change (poly_sum ring_mx p) with (poly_mx p) in X. change (poly_sum ring_area p) with (poly_area p) in X. change (poly_sum ring_ixy p) with (poly_ixy p) in Y. change (poly_sum ring_my p) with (poly_my p) in Y.
  assert (C : fst (poly_centroid p) = c). { unfold poly_centroid. cbn [fst]. replace (poly_mx p) with (c * poly_area p) by lra. field. exact N. }
  split; [exact C|]. unfold poly_ixy_c. rewrite C. unfold poly_centroid. cbn [snd]. replace (poly_ixy p) with (c * poly_my p) by lra. field. exact N.
Qed.
Lemma symmetric_poly_y_facts c p : symmetric_poly_y c p -> poly_area p <> 0 -> snd (poly_centroid p) = c /\ poly_ixy_c p = 0.
Proof.
  intros H N. pose proof (mirrored_poly ring_my ring_area (2 * c) _ p (fun h h' K => conj (proj1 (mirrored_y c h h' K)) (proj1 (proj2 (mirrored_y c h h' K)))) H) as X.
  pose proof (mirrored_poly ring_ixy ring_mx (2 * c) _ p (fun h h' K => conj (proj1 (mirrored_y c h h' K)) (proj2 (proj2 (mirrored_y c h h' K)))) H) as Y.
  change (poly_sum ring_my p) with (poly_my p) in X. change (poly_sum ring_area p) with (poly_area p) in X. change (poly_sum ring_ixy p) with (poly_ixy p) in Y. change (poly_sum ring_mx p) with (poly_mx p) in Y.
  assert (C : snd (poly_centroid p) = c). { unfold poly_centroid. cbn [snd]. replace (poly_my p) with (c * poly_area p) by lra. field. exact N. }
  split; [exact C|]. unfold poly_ixy_c. rewrite C. unfold poly_centroid. cbn [fst]. replace (poly_ixy p) with (c * poly_mx p) by lra. field. exact N.
Qed.

(** ** principal axes of a section without product of inertia *)
Lemma principal_zero ixx iyy : principal_i11 ixx iyy 0 = Rmax ixx iyy /\ principal_i22 ixx iyy 0 = Rmin ixx iyy.
Proof.
  assert (D : principal_delta ixx iyy 0 = Rabs ((ixx - iyy) / 2)). { unfold principal_delta. replace (((ixx - iyy) / 2) ^ 2 + 0 ^ 2) with (Rsqr ((ixx - iyy) / 2)) by (unfold Rsqr; ring). apply sqrt_Rsqr_abs. }
  unfold principal_i11, principal_i22. rewrite D. destruct (Rle_dec iyy ixx) as [L|L].
  - rewrite Rmax_left, Rmin_right, Rabs_right by lra. split; lra.
  - rewrite Rmax_right, Rmin_left, Rabs_left by lra. split; lra.
Qed.
Lemma phi_zero ixx ixy i11 : 0 < ixx -> i11 = ixx -> principal_phi ixx ixy i11 = 0.
Proof. intros P ->. unfold principal_phi. destruct (Rlt_dec _ _) as [|L]; [reflexivity|]. exfalso. apply L. rewrite Rminus_diag_eq, Rabs_R0 by reflexivity. apply Rmult_lt_0_compat; lra. Qed.
Lemma phi_quarter ixx i11 : 0 < i11 -> ixx <= (1 - 1 / 10 ^ 12) * i11 -> principal_phi ixx 0 i11 = -90.
Proof.
  intros P L. assert (T : 0 < 1 / 10 ^ 12 * i11) by (apply Rmult_lt_0_compat; lra). unfold principal_phi. rewrite Rabs_left by lra. destruct (Rlt_dec _ _) as [K|_]; [lra|].
  unfold atan2. destruct (Rlt_dec 0 0); [lra|]. destruct (Rlt_dec 0 (ixx - i11)); [lra|]. destruct (Rlt_dec (ixx - i11) 0) as [_|K]; [|lra]. field. apply PI_neq0.
Qed.

(** ** plates *)
Definition origin_moments (p : polygon) (ps : list plate_at) : Prop :=
  poly_area p = plates_area ps /\ poly_mx p = sumf (fun r => r_area r * r_cx r) ps /\ poly_my p = sumf (fun r => r_area r * r_cy r) ps /\
  poly_ixx p = plates_ixx 0 ps /\ poly_iyy p = plates_iyy 0 ps /\ poly_ixy p = plates_ixy 0 0 ps.
Lemma steiner_xx y ps : plates_ixx y ps = plates_ixx 0 ps - 2 * y * sumf (fun r => r_area r * r_cy r) ps + plates_area ps * y ^ 2.
Proof. unfold plates_ixx, plates_area. induction ps as [|r ps IH]; [unfold sumf, Rsum; cbn [map fold_right]; ring|]. rewrite !sumf_cons, IH. ring. Qed.
Lemma steiner_yy x ps : plates_iyy x ps = plates_iyy 0 ps - 2 * x * sumf (fun r => r_area r * r_cx r) ps + plates_area ps * x ^ 2.
Proof. unfold plates_iyy, plates_area. induction ps as [|r ps IH]; [unfold sumf, Rsum; cbn [map fold_right]; ring|]. rewrite !sumf_cons, IH. ring. Qed.
Lemma steiner_xy x y ps : plates_ixy x y ps = plates_ixy 0 0 ps - x * sumf (fun r => r_area r * r_cy r) ps - y * sumf (fun r => r_area r * r_cx r) ps + plates_area ps * x * y.
Proof. unfold plates_ixy, plates_area. induction ps as [|r ps IH]; [unfold sumf, Rsum; cbn [map fold_right]; ring|]. rewrite !sumf_cons, IH. ring. Qed.
Lemma plates_centroidal p ps : origin_moments p ps -> poly_area p <> 0 ->
  poly_centroid p = (plates_cx ps, plates_cy ps) /\ poly_ixx_c p = plates_ixx (plates_cy ps) ps /\ poly_iyy_c p = plates_iyy (plates_cx ps) ps /\ poly_ixy_c p = plates_ixy (plates_cx ps) (plates_cy ps) ps.
Proof.
  intros (A & X & Y & XX & YY & XY) N. assert (C : poly_centroid p = (plates_cx ps, plates_cy ps)) by (unfold poly_centroid, plates_cx, plates_cy; rewrite A, X, Y; reflexivity).
  split; [exact C|]. unfold poly_ixx_c, poly_iyy_c, poly_ixy_c. rewrite C, XX, YY, XY, A. cbn [fst snd]. rewrite (steiner_xx (plates_cy ps)), (steiner_yy (plates_cx ps)), (steiner_xy (plates_cx ps) (plates_cy ps)). unfold plates_cx, plates_cy. rewrite A in N. repeat split; field; exact N.
Qed.

(** ** getters *)
Lemma same_values (f g : prop -> option R) : forall qs v, (forall q, In q qs -> exists a, f q = Some a /\ g q = Some a) -> all_values g qs = Some v -> all_values f qs = Some v.
Proof.
  induction qs as [|q qs IH]; intros v H V; [exact V|]. cbn [all_values] in *. destruct (H q (or_introl eq_refl)) as (a & E & E'). rewrite E. rewrite E' in V.
  destruct (all_values g qs) as [r|] eqn:Q; [|discriminate V]. rewrite (IH r (fun y Hy => H y (or_intror Hy)) eq_refl). exact V.
Qed.
Lemma gives_values l query g s st h x v : built g s -> Forall (uses st) h -> In CGeometric h -> allowed (is_composite (s_mats s)) x -> incl (fields x) geometric_props ->
  all_values (geometric_value g s) (fields x) = Some v -> (forall e, finish x e v = v) -> gives l query g s h x v.
Proof.
  intros Hb U Hi A I V Fi e. apply returns_iff. rewrite run_sec. cbn [w_sec]. split; [exact A|]. exists v. split; [|symmetry; apply Fi].
  apply (same_values _ (geometric_value g s)); [|exact V]. intros q Hq. apply (geo_run l query g s st Hb h (mkWorld g s no_props) U (ok_new l g s st) Hi). apply I, Hq.
Qed.
