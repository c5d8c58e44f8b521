(** Proofs: from outlines to geometries; centroids on axes of symmetry; bounds on corner areas. *)
From Coq Require Import Reals.
From Coquelicot Require Import Coquelicot.
From Coq Require Import List Bool Arith Lra Lia.
From Verif Require Import Base M_Fea M_Init M_Geometry S_Geometry P_Geometry P_Geometry3 P_Geometry6 P_Geometry8 M_Library S_Library P_Library P_Library2 P_Library3 P_Library4 P_Library5 P_Library6 P_Library7.
Import ListNotations.
Local Open Scope R_scope.

Definition raw (p : polygon) (m : mat_obj) : geom := mkGeom p m None 12 [] [] [] [].
Lemma map_polygon_id p : map_polygon (fun v => v) p = p.
Proof. destruct p as [e is_]. unfold map_polygon. cbn [ext ints]. rewrite map_id. f_equal. rewrite (map_ext _ (fun x => x)) by (intros; apply map_id). apply map_id. Qed.
Lemma new_outlined sh p m : outlined (Ok (new_geometry sh p m None 12)) p m.
Proof.
  exists (new_geometry sh p m None 12). destruct (new_geometry_poly sh p m None 12) as (P & M & C & T). repeat (split; [first [reflexivity|assumption]|]).
  intros (v & Iv & Hv). pose proof (moved_by sh (fun v => v) (raw p m) None m) as K. cbn [raw gm_poly gm_tol gm_mat gm_assigned option_map] in K. rewrite map_polygon_id in K.
  apply K; [|reflexivity|reflexivity]. exists v. split; assumption.
Qed.
Lemma outlined_area p m g M : outlined (Ok g) p m -> 0 <= M -> Forall (Forall (fun v => Rabs (fst v) <= M /\ Rabs (snd v) <= M)) (rings p) ->
  (exists v, In v (ext p) /\ (half 12 < Rabs (fst v) \/ half 12 < Rabs (snd v))) ->
  Rabs (poly_area (gm_poly g) - poly_area p) <= INR (length (concat (rings p))) * (2 * M * half 12 + half 12 * half 12).
Proof.
  intros (g' & E & Hm & Hc & Ht & N) HM W A. injection E as <-. specialize (N A).
  pose proof (moved_area (fun v => v) (raw p m) g M) as K. cbn [raw gm_poly gm_tol] in K. apply K; [|exact HM|exact W|rewrite map_polygon_id; reflexivity].
  split; [exact N|]. cbn [raw gm_assigned gm_mat gm_tol option_map]. auto.
Qed.
Lemma hollow_make sh o i m : make_polygon o = Ok (mkPoly o []) -> make_polygon i = Ok (mkPoly i []) -> hollowed sh (hollow_geometry sh o i m) o i m.
Proof.
  intros Ho Hi. unfold hollowed, hollow_geometry. rewrite Ho, Hi. cbn [bind]. destruct (sh_difference sh (mkPoly o []) [mkPoly i []]); [apply new_outlined|reflexivity].
Qed.

(** centroids *)
Lemma centroid_x c l : 0 < ring_area l -> symmetric_x c l -> fst (poly_centroid (mkPoly l [])) = c.
Proof. intros A S. unfold poly_centroid. cbn [fst]. rewrite one_area, one_mx, (symmetric_x_mx c l S) by lra. field. lra. Qed.
Lemma centroid_y c l : 0 < ring_area l -> symmetric_y c l -> snd (poly_centroid (mkPoly l [])) = c.
Proof. intros A S. unfold poly_centroid. cbn [snd]. rewrite one_area, one_my, (symmetric_y_my c l S) by lra. field. lra. Qed.
Lemma hollow_mx o i : 0 <= ring_area o -> 0 <= ring_area i -> poly_mx (mkPoly o [i]) = ring_mx o - ring_mx i /\ poly_my (mkPoly o [i]) = ring_my o - ring_my i.
Proof. intros. unfold poly_mx, poly_my, orient. cbn [ext ints]. unfold sumf, Rsum. cbn [map fold_right]. destruct (Rlt_dec (ring_area o) 0); [lra|]. destruct (Rlt_dec (ring_area i) 0); [lra|]. lra. Qed.
Lemma hollow_centroid_x c o i : 0 <= ring_area i < ring_area o -> symmetric_x c o -> symmetric_x c i -> fst (poly_centroid (mkPoly o [i])) = c.
Proof. intros A So Si. unfold poly_centroid. cbn [fst]. rewrite hollow_area by lra. destruct (hollow_mx o i ltac:(lra) ltac:(lra)) as [-> _]. rewrite (symmetric_x_mx c _ So), (symmetric_x_mx c _ Si). field. lra. Qed.
Lemma hollow_centroid_y c o i : 0 <= ring_area i < ring_area o -> symmetric_y c o -> symmetric_y c i -> snd (poly_centroid (mkPoly o [i])) = c.
Proof. intros A So Si. unfold poly_centroid. cbn [snd]. rewrite hollow_area by lra. destruct (hollow_mx o i ltac:(lra) ltac:(lra)) as [_ ->]. rewrite (symmetric_y_my c _ So), (symmetric_y_my c _ Si). field. lra. Qed.

(** bounds *)
Lemma tan_gt x : 0 < x < PI / 2 -> x < tan x.
Proof.
  intros H. assert (C : 0 < cos x) by (apply cos_gt_0; lra).
  destruct (MVT_cor2 (fun x => sin x - x * cos x) (fun x => x * sin x) 0 x ltac:(lra)) as (c & E & Hc).
  { intros c _. apply is_derive_Reals. auto_derive; [exact I|ring]. }
  rewrite sin_0, cos_0 in E. assert (0 < sin c) by (apply sin_gt_0; lra). assert (0 < c * sin c * (x - 0)) by (repeat apply Rmult_lt_0_compat; lra).
  apply Rmult_lt_reg_r with (cos x); [exact C|]. replace (tan x * cos x) with (sin x) by (unfold tan; field; lra). lra.
Qed.
Lemma bend_bounds n r s : 0 <= s <= PI / 2 -> 0 <= bend n r s <= r ^ 2.
Proof.
  intros H. pose proof PI_RGT_0. pose proof (pow2_ge_0 r) as R2. unfold bend.
  assert (T : s / 2 <= tan (s / 2)) by (destruct (Req_dec s 0) as [->|N]; [replace (0 / 2) with 0 by field; rewrite tan_0; lra|left; apply tan_gt; lra]).
  assert (T1 : tan (s / 2) <= 1) by (rewrite <- tan_PI4; destruct (Req_dec s (PI / 2)) as [->|N]; [replace (PI / 2 / 2) with (PI / 4) by field; lra|left; apply tan_increasing; lra]).
  assert (K0 : 0 <= INR (n - 1) * sin (s / INR (n - 1)) <= s).
  { destruct (Nat.eq_dec (n - 1) 0) as [->|N]; [cbn; rewrite Rmult_0_l; lra|]. assert (N1 : 1 <= INR (n - 1)) by (replace 1 with (INR 1) by reflexivity; apply le_INR; lia).
    assert (S1 : 0 <= s / INR (n - 1) <= s). { split; [apply Rmult_le_pos; [lra|left; apply Rinv_0_lt_compat; lra]|]. apply Rmult_le_reg_r with (INR (n - 1)); [lra|]. unfold Rdiv. rewrite Rmult_assoc, Rinv_l by lra. nra. }
    split; [apply Rmult_le_pos; [lra|apply sin_ge_0; lra]|]. destruct (Req_dec s 0) as [->|Ns]; [replace (0 / INR (n - 1)) with 0 by (field; lra); rewrite sin_0; lra|].
    assert (S2 : 0 < s / INR (n - 1)) by (apply Rdiv_lt_0_compat; lra). pose proof (sin_lt_x _ S2) as L. replace s with (INR (n - 1) * (s / INR (n - 1))) at 2 by (field; lra). apply Rmult_le_compat_l; lra. }
  replace (INR (n - 1) * (r ^ 2 * sin (s / INR (n - 1)) / 2)) with (r ^ 2 * (INR (n - 1) * sin (s / INR (n - 1)) / 2)) by field. split; nra.
Qed.
Lemma corner_bend n r : corner n r = bend n r (PI / 2).
Proof. unfold corner, bend. replace (PI / 2 / 2) with (PI / 4) by field. rewrite tan_PI4. ring. Qed.
Lemma corner_bounds n r : 0 <= corner n r <= r ^ 2.
Proof. rewrite corner_bend. apply bend_bounds. pose proof PI_RGT_0. lra. Qed.
