(** Proofs: rigid motions of geometries. *)
From Coq Require Import String Reals List Bool Arith ZArith Lia Lra Permutation.
From Verif Require Import Base M_Fea M_Init M_Geometry S_Geometry P_Geometry.
Import ListNotations.
Local Open Scope R_scope.

(** ** Sums around a ring *)
Lemma shoelace_map f h : forall l a, shoelace f (h a) (map h l) = shoelace (fun p q => f (h p) (h q)) a l.
Proof. induction l as [|b l IH]; intros a; [reflexivity|]. destruct l as [|c l]; [reflexivity|]. cbn [map shoelace] in *. rewrite IH. reflexivity. Qed.
Lemma around_map f h l : around f (map h l) = around (fun p q => f (h p) (h q)) l.
Proof. destruct l as [|a l]; [reflexivity|]. apply (shoelace_map f h (a :: l) a). Qed.
Lemma shoelace_ext f g : (forall p q, f p q = g p q) -> forall l a, shoelace f a l = shoelace g a l.
Proof. intros E. induction l as [|b l IH]; intros a; [reflexivity|]. destruct l as [|c l]; [cbn; apply E|]. cbn [shoelace] in *. rewrite E, IH. reflexivity. Qed.
Lemma around_ext f g l : (forall p q, f p q = g p q) -> around f l = around g l.
Proof. intros E. destruct l; [reflexivity|]. apply shoelace_ext, E. Qed.
Lemma shoelace_lin k f g : forall l a, shoelace (fun p q => k * f p q + g p q) a l = k * shoelace f a l + shoelace g a l.
Proof. induction l as [|b l IH]; intros a; [cbn; ring|]. destruct l as [|c l]; [reflexivity|]. cbn [shoelace] in *. rewrite IH. ring. Qed.
Lemma around_lin k f g l : around (fun p q => k * f p q + g p q) l = k * around f l + around g l.
Proof. destruct l; [cbn; ring|]. apply shoelace_lin. Qed.
Lemma shoelace_tele (u : pt -> R) : forall l a b, shoelace (fun p q => u q - u p) a (b :: l) = u a - u b.
Proof. induction l as [|c l IH]; intros a b; [reflexivity|]. change (u c - u b + shoelace (fun p q => u q - u p) a (c :: l) = u a - u b). rewrite IH. ring. Qed.
Lemma around_tele (u : pt -> R) l : around (fun p q => u q - u p) l = 0.
Proof. destruct l as [|a l]; [reflexivity|]. cbn [around]. rewrite shoelace_tele. ring. Qed.

(** ** Affine maps *)
Definition affine (a b c d e g : R) (p : pt) : pt := (a * fst p + b * snd p + e, c * fst p + d * snd p + g).
Lemma ring_area_affine a b c d e g l : ring_area (map (affine a b c d e g) l) = (a * d - b * c) * ring_area l.
Proof.
  unfold ring_area. rewrite around_map.
  rewrite (around_ext _ (fun p q => (a * d - b * c) * cross p q + ((e * (c * fst q + d * snd q) - g * (a * fst q + b * snd q)) - (e * (c * fst p + d * snd p) - g * (a * fst p + b * snd p)))))
    by (intros p q; unfold cross, affine; cbn [fst snd]; ring).
  rewrite around_lin, (around_tele (fun q => e * (c * fst q + d * snd q) - g * (a * fst q + b * snd q))). field.
Qed.
Lemma ring_mx_affine a b c d e g l :
  ring_mx (map (affine a b c d e g) l) = (a * d - b * c) * (a * ring_mx l + b * ring_my l + e * ring_area l).
Proof.
  unfold ring_mx, ring_my, ring_area. rewrite around_map.
  set (X := fun p : pt => a * fst p + b * snd p). set (Y := fun p : pt => c * fst p + d * snd p).
  rewrite (around_ext _ (fun p q => ((a * d - b * c) * a) * ((fst p + fst q) * cross p q) +
     (((a * d - b * c) * b) * ((snd p + snd q) * cross p q) + ((3 * e * (a * d - b * c)) * cross p q +
     ((e * (X q * Y q) - g * (X q * X q) + 2 * e * e * Y q - 2 * e * g * X q) - (e * (X p * Y p) - g * (X p * X p) + 2 * e * e * Y p - 2 * e * g * X p))))))
    by (intros p q; unfold cross, affine, X, Y; cbn [fst snd]; ring).
  rewrite !around_lin, (around_tele (fun q => e * (X q * Y q) - g * (X q * X q) + 2 * e * e * Y q - 2 * e * g * X q)). field.
Qed.
Lemma ring_my_affine a b c d e g l :
  ring_my (map (affine a b c d e g) l) = (a * d - b * c) * (c * ring_mx l + d * ring_my l + g * ring_area l).
Proof.
  unfold ring_mx, ring_my, ring_area. rewrite around_map.
  set (X := fun p : pt => a * fst p + b * snd p). set (Y := fun p : pt => c * fst p + d * snd p).
  rewrite (around_ext _ (fun p q => ((a * d - b * c) * c) * ((fst p + fst q) * cross p q) +
     (((a * d - b * c) * d) * ((snd p + snd q) * cross p q) + ((3 * g * (a * d - b * c)) * cross p q +
     ((- g * (X q * Y q) + e * (Y q * Y q) + 2 * e * g * Y q - 2 * g * g * X q) - (- g * (X p * Y p) + e * (Y p * Y p) + 2 * e * g * Y p - 2 * g * g * X p))))))
    by (intros p q; unfold cross, affine, X, Y; cbn [fst snd]; ring).
  rewrite !around_lin, (around_tele (fun q => - g * (X q * Y q) + e * (Y q * Y q) + 2 * e * g * Y q - 2 * g * g * X q)). field.
Qed.
Lemma orient_area l : orient l (ring_area l) = Rabs (ring_area l).
Proof. unfold orient, Rabs. destruct (Rlt_dec _ _) as [H|H]; destruct (Rcase_abs _); lra. Qed.
Lemma sumf_map {A B} (f : B -> R) (h : A -> B) l : sumf f (map h l) = sumf (fun a => f (h a)) l.
Proof. unfold sumf. rewrite map_map. reflexivity. Qed.
Lemma sumf_eq {A} (f g : A -> R) l : (forall a, f a = g a) -> sumf f l = sumf g l.
Proof. intros E. unfold sumf. f_equal. apply map_ext, E. Qed.
Lemma poly_area_affine a b c d e g p : Rabs (a * d - b * c) = 1 -> poly_area (map_polygon (affine a b c d e g) p) = poly_area p.
Proof.
  intros D. unfold poly_area, map_polygon. cbn [ext ints]. rewrite sumf_map. f_equal; [|apply sumf_eq; intros h];
    rewrite !orient_area, ring_area_affine, Rabs_mult, D; ring.
Qed.
(** for orientation preserving maps: first moments and the centroid *)
Lemma orient_eq l m v : ring_area l = ring_area m -> orient l v = orient m v.
Proof. intros E. unfold orient. rewrite E. reflexivity. Qed.
Lemma orient_lin l a b e x y A : orient l (a * x + b * y + e * A) = a * orient l x + b * orient l y + e * orient l A.
Proof. unfold orient. destruct (Rlt_dec _ _); ring. Qed.
Lemma sumf_lin3 {A} a b e (x y z : A -> R) l : sumf (fun h => a * x h + b * y h + e * z h) l = a * sumf x l + b * sumf y l + e * sumf z l.
Proof. unfold sumf, Rsum. induction l as [|h l IH]; cbn [map fold_right]; [ring|]. rewrite IH. ring. Qed.
Lemma poly_mx_affine a b c d e g p : a * d - b * c = 1 ->
  poly_mx (map_polygon (affine a b c d e g) p) = a * poly_mx p + b * poly_my p + e * poly_area p.
Proof.
  intros D. unfold poly_mx, poly_my, poly_area, map_polygon. cbn [ext ints]. rewrite sumf_map.
  assert (E : forall l, orient (map (affine a b c d e g) l) (ring_mx (map (affine a b c d e g) l)) = a * orient l (ring_mx l) + b * orient l (ring_my l) + e * orient l (ring_area l)).
  { intros l. rewrite (orient_eq _ l) by (rewrite ring_area_affine, D; ring). rewrite ring_mx_affine, D, Rmult_1_l. apply orient_lin. }
  rewrite E, (sumf_eq _ _ _ E), sumf_lin3. ring.
Qed.
Lemma poly_my_affine a b c d e g p : a * d - b * c = 1 ->
  poly_my (map_polygon (affine a b c d e g) p) = c * poly_mx p + d * poly_my p + g * poly_area p.
Proof.
  intros D. unfold poly_mx, poly_my, poly_area, map_polygon. cbn [ext ints]. rewrite sumf_map.
  assert (E : forall l, orient (map (affine a b c d e g) l) (ring_my (map (affine a b c d e g) l)) = c * orient l (ring_mx l) + d * orient l (ring_my l) + g * orient l (ring_area l)).
  { intros l. rewrite (orient_eq _ l) by (rewrite ring_area_affine, D; ring). rewrite ring_my_affine, D, Rmult_1_l. apply orient_lin. }
  rewrite E, (sumf_eq _ _ _ E), sumf_lin3. ring.
Qed.
Lemma poly_centroid_affine a b c d e g p : a * d - b * c = 1 -> poly_area p <> 0 ->
  poly_centroid (map_polygon (affine a b c d e g) p) = affine a b c d e g (poly_centroid p).
Proof.
  intros D A. unfold poly_centroid. rewrite poly_mx_affine, poly_my_affine, poly_area_affine by (rewrite ?D; try apply Rabs_R1; reflexivity).
  unfold affine. cbn [fst snd]. f_equal; field; exact A.
Qed.

(** the motions are affine *)
Lemma translate_affine dx dy p : translate_pt dx dy p = affine 1 0 0 1 dx dy p.
Proof. unfold translate_pt, affine. f_equal; ring. Qed.
Lemma rotate_affine t o p : rotate_pt t o p = affine (cos t) (- sin t) (sin t) (cos t) (fst o - fst o * cos t + snd o * sin t) (snd o - fst o * sin t - snd o * cos t) p.
Proof. unfold rotate_pt, affine. f_equal; ring. Qed.
Lemma scale_affine fx fy o p : scale_pt fx fy o p = affine fx 0 0 fy (fst o - fx * fst o) (snd o - fy * snd o) p.
Proof. unfold scale_pt, affine. f_equal; ring. Qed.
Lemma map_polygon_ext f h p : (forall v, f v = h v) -> map_polygon f p = map_polygon h p.
Proof. intros E. unfold map_polygon. f_equal; [apply map_ext, E|]. apply map_ext. intros l. apply map_ext, E. Qed.
Lemma map_polygon_map f h p : map_polygon f (map_polygon h p) = map_polygon (fun v => f (h v)) p.
Proof. unfold map_polygon. cbn [ext ints]. f_equal; [apply map_map|]. rewrite map_map. apply map_ext. intros l. apply map_map. Qed.
Lemma mirror_cases axis : axis = "x"%string \/ axis = "y"%string -> exists fx fy, mirror_factors axis = (fx, fy) /\ fx * fx = 1 /\ fy * fy = 1 /\ fx * fy = -1 /\ (fx = 1 \/ fx = -1) /\ (fy = 1 \/ fy = -1).
Proof. intros [-> | ->]; cbn; eexists _, _; (split; [reflexivity|]); repeat split; try lra; auto. Qed.

Lemma isometry_translate dx dy : isometry (translate_pt dx dy).
Proof. intros a b. unfold dist2, translate_pt. cbn [fst snd]. ring. Qed.
Lemma isometry_rotate t o : isometry (rotate_pt t o).
Proof.
  intros a b. unfold dist2, rotate_pt. cbn [fst snd].
  assert (T : sin t * sin t + cos t * cos t = 1) by (pose proof (sin2_cos2 t) as T; unfold Rsqr in T; exact T).
  set (u := fst a - fst b). set (v := snd a - snd b).
  replace (_ + _) with ((u * u + v * v) * (sin t * sin t + cos t * cos t)) by (unfold u, v; ring). rewrite T. unfold u, v. ring.
Qed.
Lemma isometry_scale fx fy o : fx * fx = 1 -> fy * fy = 1 -> isometry (scale_pt fx fy o).
Proof.
  intros X Y a b. unfold dist2, scale_pt. cbn [fst snd]. set (u := fst a - fst b). set (v := snd a - snd b).
  replace (_ + _) with ((fx * fx) * (u * u) + (fy * fy) * (v * v)) by (unfold u, v; ring). rewrite X, Y. unfold u, v. ring.
Qed.
Lemma area_translate dx dy p : poly_area (map_polygon (translate_pt dx dy) p) = poly_area p.
Proof. rewrite (map_polygon_ext _ _ _ (translate_affine dx dy)). apply poly_area_affine. replace (1 * 1 - 0 * 0) with 1 by ring. apply Rabs_R1. Qed.
Lemma area_rotate t o p : poly_area (map_polygon (rotate_pt t o) p) = poly_area p.
Proof.
  rewrite (map_polygon_ext _ _ _ (rotate_affine t o)). apply poly_area_affine. pose proof (sin2_cos2 t) as T. unfold Rsqr in T.
  replace (cos t * cos t - - sin t * sin t) with 1 by lra. apply Rabs_R1.
Qed.
Lemma area_scale fx fy o p : fx * fy = 1 \/ fx * fy = -1 -> poly_area (map_polygon (scale_pt fx fy o) p) = poly_area p.
Proof.
  intros F. rewrite (map_polygon_ext _ _ _ (scale_affine fx fy o)). apply poly_area_affine. replace (fx * fy - 0 * 0) with (fx * fy) by ring.
  destruct F as [-> | ->]; [apply Rabs_R1|]. rewrite Rabs_left by lra. ring.
Qed.
Lemma centroid_translate dx dy p : poly_area p <> 0 -> poly_centroid (map_polygon (translate_pt dx dy) p) = translate_pt dx dy (poly_centroid p).
Proof. intros A. rewrite (map_polygon_ext _ _ _ (translate_affine dx dy)), translate_affine. apply poly_centroid_affine; [ring|exact A]. Qed.

(** ** The constructor after a motion *)
Lemma round_to_zero tol x : half tol < Rabs x -> round_to tol x <> 0.
Proof. intros H E. pose proof (round_to_near tol x) as N. rewrite E in N. unfold Rminus in N. rewrite Rplus_0_l, Rabs_Ropp in N. lra. Qed.
Lemma away_keeps f g : away f g -> round_polygon_vertices (map_polygon f (gm_poly g)) (gm_tol g) = map_polygon (fun v => round_pt (gm_tol g) (f v)) (gm_poly g).
Proof.
  intros (v & Hv & A). unfold round_polygon_vertices. rewrite map_polygon_map. destruct (forallb _ _) eqn:Q; [|reflexivity]. exfalso.
  rewrite forallb_forall in Q. unfold map_polygon in Q. cbn [ext] in Q. specialize (Q _ (in_map _ _ _ Hv)). apply pt_eqb_spec in Q. unfold round_pt in Q.
  injection Q as Q1 Q2. destruct A as [A|A]; apply round_to_zero in A; contradiction.
Qed.
Lemma Forall2_map_r {A B C} (P : A -> C -> Prop) (h : B -> C) l m : Forall2 (fun a b => P a (h b)) l m -> Forall2 P l (map h m).
Proof. intros F. induction F; cbn; constructor; assumption. Qed.
Lemma Forall2_self {A} (P : A -> A -> Prop) l : (forall a, P a a) -> Forall2 P l l.
Proof. intros H. induction l; constructor; auto. Qed.
Lemma new_geometry_poly sh p m c tol : gm_poly (new_geometry sh p m c tol) = round_polygon_vertices p tol /\ gm_mat (new_geometry sh p m c tol) = m /\
  gm_assigned (new_geometry sh p m c tol) = c /\ gm_tol (new_geometry sh p m c tol) = tol.
Proof. unfold new_geometry. destruct (create_points_and_facets _ _). repeat split. Qed.
Lemma moved_by sh f g c m : away f g -> m = gm_mat g -> c = option_map f (gm_assigned g) ->
  moved f g (new_geometry sh (map_polygon f (gm_poly g)) m c (gm_tol g)).
Proof.
  intros A -> ->. destruct (new_geometry_poly sh (map_polygon f (gm_poly g)) (gm_mat g) (option_map f (gm_assigned g)) (gm_tol g)) as (P & M & C & T).
  unfold moved. rewrite P, M, C, T, away_keeps by exact A. split; [|auto]. unfold rings, map_polygon. cbn [ext ints].
  constructor; [|apply Forall2_map_r, Forall2_self; intros l]; apply Forall2_map_r, Forall2_self; intros v; apply round_pt_near.
Qed.
Lemma new_is_geometry sh p m c tol : is_geometry sh (new_geometry sh p m c tol).
Proof. exists p. destruct (new_geometry_poly sh p m c tol) as (_ & -> & -> & ->). reflexivity. Qed.

(** two distinct vertices on the grid stay away from the origin together *)
Lemma grid_away tol x : on_grid tol x -> x <> 0 -> half tol < Rabs x.
Proof.
  intros G N. destruct (Rlt_dec (half tol) (Rabs x)) as [H|H]; [exact H|]. exfalso. apply N.
  rewrite <- (round_to_id tol x G). apply round_to_unique; [apply grid_0|]. pose proof (half_pos tol) as P.
  destruct G as [k K]. pose proof (pow10_pos tol) as Q. assert (k = 0%Z); [|subst k; exfalso; apply N; nra].
  assert (B : Rabs (IZR k) < 1). { rewrite <- K, Rabs_mult, (Rabs_right (10 ^ tol)) by lra. apply Rle_lt_trans with (half tol * 10 ^ tol); [apply Rmult_le_compat_r; lra|]. unfold half. field_simplify; lra. }
  destruct (Z.eq_dec k 0) as [E|E]; [exact E|]. exfalso. apply Rabs_def2 in B. destruct B as [B1 B2].
  destruct (Z.lt_total k 0) as [L|[L|L]]; [|contradiction|]; [assert (k <= -1)%Z by lia|assert (1 <= k)%Z by lia]; apply IZR_le in H0; lra.
Qed.
Lemma away_two f g a b : In a (ext (gm_poly g)) -> In b (ext (gm_poly g)) -> pt_on_grid (gm_tol g) (f a) -> pt_on_grid (gm_tol g) (f b) -> f a <> f b -> away f g.
Proof.
  intros Ia Ib [Ax Ay] [Bx By] N.
  assert (D : forall v, In v (ext (gm_poly g)) -> pt_on_grid (gm_tol g) (f v) -> f v <> (0, 0) -> away f g).
  { intros v Iv [Gx Gy] Nv. exists v. split; [exact Iv|]. destruct (Req_EM_T (fst (f v)) 0) as [E1|E1].
    - right. apply grid_away; [exact Gy|]. intros E2. apply Nv. rewrite (surjective_pairing (f v)), E1, E2. reflexivity.
    - left. apply grid_away; assumption. }
  destruct (pt_eqb (f a) (0, 0)) eqn:Q.
  - apply pt_eqb_spec in Q. apply (D b Ib); [split; assumption|]. congruence.
  - apply (D a Ia); [split; assumption|]. intros E. rewrite E, pt_eqb_refl in Q. discriminate.
Qed.
