(** Proofs about regular polygons: circles, ellipses, hollow polygons. *)
From Coq Require Import Reals List Bool Arith Lra Lia.
From Verif Require Import Base M_Fea M_Init M_Geometry S_Geometry P_Geometry P_Geometry3 P_Geometry6 M_Library S_Library P_Library P_Library2 P_Library3.
Import ListNotations.
Local Open Scope R_scope.

(** ** Copies of a path turned by equal steps *)
Definition turned (base : list pt) (alpha rot : R) (k : nat) : list pt := concat (map (fun i => map (fun p => rotate p (alpha * INR i + rot)) base) (seq 0 k)).
Lemma cross_rotate p q t : cross (rotate p t) (rotate q t) = cross p q.
Proof.
  unfold cross, rotate. cbn [fst snd]. pose proof (sin2_cos2 t) as E. unfold Rsqr in E.
  transitivity ((sin t * sin t + cos t * cos t) * (fst p * snd q - fst q * snd p)); [ring|rewrite E; ring].
Qed.
Lemma rotate_plus p s t : rotate (rotate p s) t = rotate p (s + t).
Proof. unfold rotate. cbn [fst snd]. rewrite cos_plus, sin_plus. f_equal; ring. Qed.
Lemma rotate_2PI p t : rotate p (2 * PI + t) = rotate p t.
Proof. unfold rotate. rewrite cos_plus, sin_plus, cos_2PI, sin_2PI. f_equal; ring. Qed.
Lemma seg_map_rotate l a z v t : seg l a z v -> seg (map (fun p => rotate p t) l) (rotate a t) (rotate z t) v.
Proof.
  intros (N & H & L & V). split; [destruct l; [contradiction|discriminate]|]. split; [destruct l; [contradiction|cbn in *; rewrite H; reflexivity]|]. split.
  - destruct (exists_last N) as (l' & x & ->). rewrite last_last in L. subst x. rewrite map_app. cbn [map]. apply last_last.
  - rewrite <- V. clear. induction l as [|x l IH]; [reflexivity|]. destruct l as [|y l]; [reflexivity|]. cbn [map] in *. rewrite !path_cons, IH, cross_rotate. reflexivity.
Qed.
Lemma turned_S base alpha rot k : turned base alpha rot (S k) = turned base alpha rot k ++ map (fun p => rotate p (alpha * INR k + rot)) base.
Proof. unfold turned. rewrite seq_S, map_app, concat_app. cbn [map concat Nat.add]. rewrite app_nil_r. reflexivity. Qed.
Lemma seg_turned base a z v alpha rot : seg base a z v -> forall k,
  seg (turned base alpha rot (S k)) (rotate a rot) (rotate z (alpha * INR k + rot)) (INR (S k) * v + INR k * cross z (rotate a alpha)).
Proof.
  intros S k. induction k as [|k IH].
  - unfold turned. cbn [seq map concat]. rewrite app_nil_r. cbn [INR]. replace (1 * v + 0 * cross z (rotate a alpha)) with v by ring. replace (alpha * 0 + rot) with rot by ring. apply seg_map_rotate, S.
  - rewrite turned_S. replace (INR (Datatypes.S (Datatypes.S k)) * v + INR (Datatypes.S k) * cross z (rotate a alpha)) with ((INR (Datatypes.S k) * v + INR k * cross z (rotate a alpha)) + cross (rotate z (alpha * INR k + rot)) (rotate a (alpha * INR (Datatypes.S k) + rot)) + v).
    + eapply seg_app; [exact IH|]. apply seg_map_rotate, S.
    + replace (alpha * INR (Datatypes.S k) + rot) with (alpha + (alpha * INR k + rot)) by (rewrite S_INR; ring). rewrite <- (rotate_plus a alpha (alpha * INR k + rot)), cross_rotate, !S_INR. ring.
Qed.
Lemma turned_area base a z v n rot : (0 < n)%nat -> seg base a z v -> ring_area (turned base (2 * PI / INR n) rot n) = INR n * (v + cross z (rotate a (2 * PI / INR n))) / 2.
Proof.
  intros N S. destruct n as [|k]; [lia|]. rewrite (seg_area _ _ _ _ (seg_turned base a z v _ rot S k)). f_equal. set (alpha := 2 * PI / INR (Datatypes.S k)).
  assert (A : alpha * INR (Datatypes.S k) = 2 * PI) by (unfold alpha; field; apply not_0_INR; lia).
  replace (rotate a rot) with (rotate (rotate a alpha) (alpha * INR k + rot)); [rewrite cross_rotate, S_INR; ring|].
  rewrite rotate_plus. replace (alpha + (alpha * INR k + rot)) with (2 * PI + rot); [apply rotate_2PI|]. rewrite <- A, S_INR. ring.
Qed.
(** turned copies form a ring that is symmetric under the turn *)
Lemma turned_symmetric base n rot : (0 < n)%nat -> symmetric_turn (2 * PI / INR n) (turned base (2 * PI / INR n) rot n).
Proof.
  intros N. destruct n as [|k]; [lia|]. set (alpha := 2 * PI / INR (S k)). assert (A : alpha * INR (S k) = 2 * PI) by (unfold alpha; field; apply not_0_INR; lia).
  exists (map (fun p => rotate p (alpha * INR 0 + rot)) base), (concat (map (fun i => map (fun p => rotate p (alpha * INR i + rot)) base) (seq 1 k))).
  split; [reflexivity|]. unfold turned. rewrite concat_map, map_map.
  rewrite (map_ext _ (fun i => map (fun p => rotate p (alpha * INR (S i) + rot)) base)).
  - rewrite seq_S, map_app, concat_app. cbn [map concat Nat.add]. rewrite app_nil_r. f_equal.
    + rewrite <- (seq_shift k 0), map_map. reflexivity.
    + apply map_ext. intros p. rewrite A. rewrite rotate_2PI. f_equal. cbn [INR]. ring.
  - intros i. rewrite map_map. apply map_ext. intros p. replace (alpha * INR (S i) + rot) with ((alpha * INR i + rot) + alpha) by (rewrite S_INR; ring). rewrite <- (rotate_plus p (alpha * INR i + rot) alpha).
    generalize (rotate p (alpha * INR i + rot)). intros q. unfold rotate_pt, rotate. cbn [fst snd]. f_equal; ring.
Qed.
Lemma turn_moments a l : symmetric_turn a l -> cos a <> 1 -> ring_mx l = 0 /\ ring_my l = 0.
Proof.
  intros H C. assert (E1 : ring_mx l = cos a * ring_mx l - sin a * ring_my l).
  { transitivity (ring_mx (map (affine (cos a) (- sin a) (sin a) (cos a) 0 0) l)).
    - unfold ring_mx. rewrite (same_ring_around _ _ _ H). f_equal. f_equal. apply map_ext. intros p. unfold rotate_pt, affine. cbn [fst snd]. f_equal; ring.
    - rewrite ring_mx_affine. pose proof (sin2_cos2 a) as E. unfold Rsqr in E. replace (cos a * cos a - - sin a * sin a) with 1 by lra. ring. }
  assert (E2 : ring_my l = sin a * ring_mx l + cos a * ring_my l).
  { transitivity (ring_my (map (affine (cos a) (- sin a) (sin a) (cos a) 0 0) l)).
    - unfold ring_my. rewrite (same_ring_around _ _ _ H). f_equal. f_equal. apply map_ext. intros p. unfold rotate_pt, affine. cbn [fst snd]. f_equal; ring.
    - rewrite ring_my_affine. pose proof (sin2_cos2 a) as E. unfold Rsqr in E. replace (cos a * cos a - - sin a * sin a) with 1 by lra. ring. }
  pose proof (sin2_cos2 a) as E. unfold Rsqr in E. set (c := cos a) in *. set (s := sin a) in *. set (x := ring_mx l) in *. set (y := ring_my l) in *.
  assert (Dx : (2 - 2 * c) * x = 0) by nra. assert (Dy : (2 - 2 * c) * y = 0) by nra.
  apply Rmult_integral in Dx, Dy. split; [destruct Dx|destruct Dy]; lra.
Qed.
Lemma cos_lt_1 n : (2 <= n)%nat -> cos (2 * PI / INR n) <> 1.
Proof.
  intros H. assert (N : 2 <= INR n) by (replace 2 with (INR 2) by reflexivity; apply le_INR; exact H). pose proof PI_RGT_0.
  replace (2 * PI / INR n) with (2 * (PI / INR n)) by (field; lra). rewrite cos_2a_sin.
  assert (0 < sin (PI / INR n)). { apply sin_gt_0; [apply Rdiv_lt_0_compat; lra|]. apply Rmult_lt_reg_r with (INR n); [lra|]. unfold Rdiv. rewrite Rmult_assoc, Rinv_l by lra. nra. }
  intros E. assert (0 < sin (PI / INR n) * sin (PI / INR n)) by (apply Rmult_lt_0_compat; lra). lra.
Qed.
Lemma sin_turn_pos n : (3 <= n)%nat -> 0 < sin (2 * PI / INR n).
Proof.
  intros H. assert (N : 3 <= INR n) by (replace 3 with (INR 3) by (cbn; lra); apply le_INR; exact H). pose proof PI_RGT_0.
  apply sin_gt_0; [apply Rdiv_lt_0_compat; lra|]. apply Rmult_lt_reg_r with (INR n); [lra|]. unfold Rdiv. rewrite Rmult_assoc, Rinv_l by lra. nra.
Qed.

(** ** Circles and ellipses *)
Lemma ellipse_turned d_x d_y n : ellipse_points d_x d_y n = map (affine (d_x / 2) 0 0 (d_y / 2) 0 0) (turned [(1, 0)] (2 * PI / INR n) 0 n).
Proof.
  unfold ellipse_points, turned. rewrite concat_map, map_map. induction (seq 0 n) as [|i l IH]; [reflexivity|]. cbn [map concat app] in IH |- *. rewrite <- IH. apply f_equal2; [|reflexivity].
  unfold affine, rotate. cbn [fst snd]. replace (2 * PI / INR n * INR i + 0) with (INR i * 2 * PI / INR n) by (unfold Rdiv; ring). f_equal; ring.
Qed.
Lemma ellipse_area d_x d_y n : (0 < n)%nat -> ring_area (ellipse_points d_x d_y n) = INR n * (d_x / 2 * (d_y / 2) * sin (2 * PI / INR n) / 2).
Proof.
  intros H. rewrite ellipse_turned, ring_area_affine, (turned_area [(1, 0)] (1, 0) (1, 0) 0 n 0 H (seg_one _)). unfold cross, rotate. cbn [fst snd]. field.
Qed.
Lemma ellipse_moments d_x d_y n : (2 <= n)%nat -> ring_mx (ellipse_points d_x d_y n) = 0 /\ ring_my (ellipse_points d_x d_y n) = 0.
Proof.
  intros H. rewrite ellipse_turned, ring_mx_affine, ring_my_affine.
  destruct (turn_moments _ _ (turned_symmetric [(1, 0)] n 0 ltac:(lia)) (cos_lt_1 n H)) as [-> ->]. split; ring.
Qed.
Lemma ellipse_open d_x d_y n : (3 <= n)%nat -> d_x <> 0 -> make_polygon (ellipse_points d_x d_y n) = Ok (mkPoly (ellipse_points d_x d_y n) []).
Proof.
  intros H D. apply open_loop_ring. split; [unfold ellipse_points; rewrite map_length, seq_length; exact H|]. intros a. destruct n as [|k]; [lia|]. unfold ellipse_points.
  rewrite seq_S, map_app. cbn [map Nat.add]. rewrite last_last. destruct k as [|k]; [lia|]. cbn [seq map app hd]. intros E. injection E as E _.
  set (N0 := INR (S (S k))) in *. change (d_x / 2 * cos (0 * 2 * PI / N0) = d_x / 2 * cos (INR (S k) * 2 * PI / N0)) in E. apply Rmult_eq_reg_l in E; [|lra]. replace (0 * 2 * PI / N0) with 0 in E by (unfold Rdiv; ring). unfold N0 in E. clear N0. rewrite cos_0 in E.
  assert (N : INR (S (S k)) <> 0) by (apply not_0_INR; lia).
  replace (INR (S k) * 2 * PI / INR (S (S k))) with (- (2 * PI / INR (S (S k))) + 2 * PI) in E by (rewrite (S_INR (S k)) in *; field; exact N).
  rewrite cos_plus, cos_neg, sin_2PI, cos_2PI in E. apply (cos_lt_1 (S (S k)) ltac:(lia)). lra.
Qed.
