(** Proofs: mirroring about the centre, compounds, alignment of geometries. *)
From Coq Require Import String Reals List Bool Arith ZArith Lia Lra Permutation.
From Verif Require Import Base M_Fea M_Init M_Geometry S_Geometry P_Geometry P_Geometry3 P_Geometry4.
Import ListNotations.
Local Open Scope R_scope.

(** ** The centre of the bounding box *)
Lemma flip_extreme (cs : pt -> R) h s e l : s = 1 \/ s = -1 -> (forall v, cs (h v) = s * cs v + e) -> forall a b, least a (map cs l) -> greatest b (map cs l) ->
  forall a' b', least a' (map cs (map h l)) -> greatest b' (map cs (map h l)) -> a' + b' = s * (a + b) + 2 * e.
Proof.
  intros S E a b La Gb a' b' La' Gb'. rewrite map_map in La', Gb'. destruct La as [Ia La]. destruct Gb as [Ib Gb].
  apply in_map_iff in Ia. destruct Ia as (va & Eva & Iva). apply in_map_iff in Ib. destruct Ib as (vb & Evb & Ivb).
  destruct S as [-> | ->].
  - assert (A : least (a + e) (map (fun x => cs (h x)) l)).
    { split; [apply in_map_iff; exists va; rewrite E, Eva; split; [ring|exact Iva]|]. intros x Hx. apply in_map_iff in Hx. destruct Hx as (w & <- & Iw). rewrite E.
      pose proof (La _ (in_map cs _ _ Iw)). lra. }
    assert (B : greatest (b + e) (map (fun x => cs (h x)) l)).
    { split; [apply in_map_iff; exists vb; rewrite E, Evb; split; [ring|exact Ivb]|]. intros x Hx. apply in_map_iff in Hx. destruct Hx as (w & <- & Iw). rewrite E.
      pose proof (Gb _ (in_map cs _ _ Iw)). lra. }
    rewrite (least_unique _ _ _ La' A), (greatest_unique _ _ _ Gb' B). ring.
  - assert (A : least (- b + e) (map (fun x => cs (h x)) l)).
    { split; [apply in_map_iff; exists vb; rewrite E, Evb; split; [ring|exact Ivb]|]. intros x Hx. apply in_map_iff in Hx. destruct Hx as (w & <- & Iw). rewrite E.
      pose proof (Gb _ (in_map cs _ _ Iw)). lra. }
    assert (B : greatest (- a + e) (map (fun x => cs (h x)) l)).
    { split; [apply in_map_iff; exists va; rewrite E, Eva; split; [ring|exact Iva]|]. intros x Hx. apply in_map_iff in Hx. destruct Hx as (w & <- & Iw). rewrite E.
      pose proof (La _ (in_map cs _ _ Iw)). lra. }
    rewrite (least_unique _ _ _ La' A), (greatest_unique _ _ _ Gb' B). ring.
Qed.
Lemma box_center_extents ps : box_center (bounds ps) = ((nth4 (extents ps) 0 + nth4 (extents ps) 1) / 2, (nth4 (extents ps) 2 + nth4 (extents ps) 3) / 2).
Proof. unfold extents, box_center. destruct (bounds ps) as [[[a b] c] d]. reflexivity. Qed.
Lemma box_center_axis ps ps' sx sy ex ey : sx = 1 \/ sx = -1 -> sy = 1 \/ sy = -1 -> exterior_points ps <> [] ->
  exterior_points ps' = map (axis_map sx sy ex ey) (exterior_points ps) -> box_center (bounds ps') = axis_map sx sy ex ey (box_center (bounds ps)).
Proof.
  intros Sx Sy N E. assert (N' : exterior_points ps' <> []) by (rewrite E; destruct (exterior_points ps); [contradiction|discriminate]).
  rewrite !box_center_extents. unfold axis_map at 1. cbn [fst snd].
  pose proof (extents_extreme ps AtLeft N) as L. pose proof (extents_extreme ps AtRight N) as Rr. pose proof (extents_extreme ps AtBottom N) as B. pose proof (extents_extreme ps AtTop N) as T.
  pose proof (extents_extreme ps' AtLeft N') as L'. pose proof (extents_extreme ps' AtRight N') as Rr'. pose proof (extents_extreme ps' AtBottom N') as B'. pose proof (extents_extreme ps' AtTop N') as T'.
  cbn [extreme side_index] in *. rewrite E in L', Rr', B', T'.
  pose proof (flip_extreme fst (axis_map sx sy ex ey) sx ex _ Sx (fun v => eq_refl) _ _ L Rr _ _ L' Rr') as X.
  pose proof (flip_extreme snd (axis_map sx sy ex ey) sy ey _ Sy (fun v => eq_refl) _ _ B T _ _ B' T') as Y.
  rewrite X, Y. f_equal; field.
Qed.
Lemma exterior_single p : exterior_points [p] = ext p.
Proof. unfold exterior_points. cbn. apply app_nil_r. Qed.
Lemma center_grid sh g : is_geometry sh g -> ext (gm_poly g) <> [] -> on_grid (gm_tol g) (2 * fst (box_center (bounds [gm_poly g]))) /\ on_grid (gm_tol g) (2 * snd (box_center (bounds [gm_poly g]))).
Proof.
  intros G N. destruct (geometry_points sh g G) as (Gr & _). unfold poly_on_grid, rings in Gr. apply Forall_cons_iff in Gr. destruct Gr as [Ge _]. rewrite Forall_forall in Ge.
  rewrite box_center_extents. cbn [fst snd]. assert (N' : exterior_points [gm_poly g] <> []) by (rewrite exterior_single; exact N).
  assert (H : forall s, on_grid (gm_tol g) (nth4 (extents [gm_poly g]) (side_index s))).
  { intros s. pose proof (extents_extreme _ s N') as X. rewrite exterior_single in X. destruct s; destruct X as [I _]; apply in_map_iff in I; destruct I as (v & Ev & Iv); cbn [side_index] in *; rewrite <- Ev; apply (Ge v Iv). }
  pose proof (H AtLeft) as H0. pose proof (H AtRight) as H1. pose proof (H AtBottom) as H2. pose proof (H AtTop) as H3. cbn [side_index] in *.
  split; [replace (2 * ((nth4 (extents [gm_poly g]) 0 + nth4 (extents [gm_poly g]) 1) / 2)) with (nth4 (extents [gm_poly g]) 0 + nth4 (extents [gm_poly g]) 1) by field|
          replace (2 * ((nth4 (extents [gm_poly g]) 2 + nth4 (extents [gm_poly g]) 3) / 2)) with (nth4 (extents [gm_poly g]) 2 + nth4 (extents [gm_poly g]) 3) by field]; apply grid_plus; assumption.
Qed.
Lemma scale_self fx fy c : scale_pt fx fy c c = c.
Proof. unfold scale_pt. rewrite (surjective_pairing c) at 7. f_equal; ring. Qed.
Lemma option_map_id' {A} (f : A -> A) o : (forall a, f a = a) -> option_map f o = o.
Proof. intros E. destruct o; cbn; [rewrite E|]; reflexivity. Qed.

Lemma mirror_center_facts sh g axis : axis = "x"%string \/ axis = "y"%string -> is_geometry sh g -> proper g ->
  exists fx fy, mirror_factors axis = (fx, fy) /\ (fx = 1 \/ fx = -1) /\ (fy = 1 \/ fy = -1) /\ fx * fy = -1 /\
  let o := box_center (bounds [gm_poly g]) in
  on_grid (gm_tol g) (fst o - fx * fst o) /\ on_grid (gm_tol g) (snd o - fy * snd o) /\ away (scale_pt fx fy o) g.
Proof.
  intros Ha G P. destruct (mirror_cases axis Ha) as (fx & fy & F & FX & FY & FF & SX & SY). exists fx, fy.
  assert (N : ext (gm_poly g) <> []) by (destruct P as (a & _ & I & _); intros E; rewrite E in I; destruct I).
  destruct (center_grid sh g G N) as [Cx Cy]. cbv zeta. set (o := box_center _) in *.
  assert (GX : on_grid (gm_tol g) (fst o - fx * fst o)).
  { destruct SX as [-> | ->]; [replace (fst o - 1 * fst o) with 0 by ring; apply grid_0|replace (fst o - -1 * fst o) with (2 * fst o) by ring; exact Cx]. }
  assert (GY : on_grid (gm_tol g) (snd o - fy * snd o)).
  { destruct SY as [-> | ->]; [replace (snd o - 1 * snd o) with 0 by ring; apply grid_0|replace (snd o - -1 * snd o) with (2 * snd o) by ring; exact Cy]. }
  repeat match goal with |- _ /\ _ => split end; try assumption.
  eapply away_ext; [|apply (axis_away sh g fx fy (fst o - fx * fst o) (snd o - fy * snd o)); try assumption; apply grid_not_tie; assumption]. intros v. symmetry. apply scale_axis.
Qed.
Lemma axis_grid tol sx sy ex ey v : sx = 1 \/ sx = -1 -> sy = 1 \/ sy = -1 -> on_grid tol ex -> on_grid tol ey -> pt_on_grid tol v -> pt_on_grid tol (axis_map sx sy ex ey v).
Proof. intros Sx Sy Ex Ey [Vx Vy]. split; cbn [axis_map fst snd]; apply grid_plus; try assumption; apply grid_pm; assumption. Qed.

Lemma mirror_center_back sh g axis : axis = "x"%string \/ axis = "y"%string -> is_geometry sh g -> proper g ->
  mirror_section sh (mirror_section sh g axis Center) axis Center = g.
Proof.
  intros Ha G P. destruct (mirror_center_facts sh g axis Ha G P) as (fx & fy & F & SX & SY & FF & GX & GY & A).
  assert (N : ext (gm_poly g) <> []) by (destruct P as (a & _ & I & _); intros E; rewrite E in I; destruct I).
  unfold mirror_section. rewrite F. cbn [origin_of]. rewrite !(option_map_id' (fun c => scale_pt fx fy c c)) by (intros; apply scale_self).
  set (o := box_center (bounds [gm_poly g])) in *.
  destruct (new_geometry_poly sh (map_polygon (scale_pt fx fy o) (gm_poly g)) (gm_mat g) (gm_assigned g) (gm_tol g)) as (Q & _ & C & T).
  destruct (geometry_points sh g G) as (Gr & _). unfold poly_on_grid, rings in Gr. apply Forall_cons_iff in Gr. destruct Gr as [Ge _].
  assert (O : box_center (bounds [gm_poly (new_geometry sh (map_polygon (scale_pt fx fy o) (gm_poly g)) (gm_mat g) (gm_assigned g) (gm_tol g))]) = o).
  { rewrite Q, (away_keeps _ g A). rewrite (box_center_axis [gm_poly g] _ fx fy (fst o - fx * fst o) (snd o - fy * snd o)); try assumption.
    - fold o. rewrite <- scale_axis. apply scale_self.
    - rewrite exterior_single. exact N.
    - rewrite !exterior_single. unfold map_polygon. cbn [ext]. apply map_ext_Forall. eapply Forall_impl; [|exact Ge]. intros v Gv. rewrite scale_axis. apply round_pt_id, axis_grid; assumption. }
  rewrite O, C. apply there_and_back; [exact G|exact A|].
  intros v Gv. rewrite <- (axis_back (gm_tol g) fx fy (fst o - fx * fst o) (snd o - fy * snd o) v) at 2 by (try assumption; apply grid_not_tie; assumption). rewrite !scale_axis. f_equal. unfold axis_map.
  f_equal; [destruct SX as [-> | ->]; ring|destruct SY as [-> | ->]; ring].
Qed.

(** ** Compounds *)
Lemma compile_geoms sh gs : cp_geoms (compile_compound sh gs) = gs.
Proof. unfold compile_compound. destruct (fold_left compile_step gs ([], [], [])) as [[? ?] ?]. reflexivity. Qed.
Lemma compile_control sh gs : cp_control (compile_compound sh gs) = concat (map gm_control gs).
Proof.
  unfold compile_compound. assert (H : forall st, snd (fold_left compile_step gs st) = snd st ++ concat (map gm_control gs)).
  { induction gs as [|g gs IH]; intros [[p f] c]; cbn [fold_left map concat]; [rewrite app_nil_r; reflexivity|]. rewrite IH. cbn [compile_step snd]. rewrite app_assoc. reflexivity. }
  specialize (H ([], [], [])). destruct (fold_left compile_step gs ([], [], [])) as [[? ?] ?]. exact H.
Qed.
Lemma flatten_singles {A} (F : A -> geom) l : flatten_items (map (fun a => ISingle (F a)) l) = map F l.
Proof. rewrite flatten_eq, map_map. induction l as [|a l IH]; cbn; [reflexivity|]. f_equal. exact IH. Qed.
Lemma compound_map sh (F : geom -> geom) gs : cp_geoms (new_compound sh (map (fun g => ISingle (F g)) gs)) = map F gs.
Proof. unfold new_compound. rewrite compile_geoms. apply flatten_singles. Qed.
Lemma Forall2_map_self {A B} (P : A -> B -> Prop) (F : A -> B) l : Forall (fun a => P a (F a)) l -> Forall2 P l (map F l).
Proof. intros H. induction H; cbn; constructor; assumption. Qed.

Lemma shift_moved sh g dx dy : away (translate_pt dx dy) g -> moved (translate_pt dx dy) g (shift_section sh g dx dy).
Proof. intros A. apply moved_by; [exact A|reflexivity|reflexivity]. Qed.
Lemma rotate_moved sh g angle o rad : away (rotate_pt (angle_of angle rad) (origin_of o [gm_poly g])) g ->
  moved (rotate_pt (angle_of angle rad) (origin_of o [gm_poly g])) g (rotate_section sh g angle o rad).
Proof. intros A. apply moved_by; [exact A|reflexivity|reflexivity]. Qed.
Lemma mirror_moved sh g axis p fx fy : mirror_factors axis = (fx, fy) -> away (scale_pt fx fy p) g -> moved (scale_pt fx fy p) g (mirror_section sh g axis (At p)).
Proof. intros F A. unfold mirror_section. rewrite F. apply moved_by; [exact A|reflexivity|reflexivity]. Qed.
Lemma mirror_center_moved sh g axis fx fy : mirror_factors axis = (fx, fy) -> gm_assigned g = None ->
  away (scale_pt fx fy (box_center (bounds [gm_poly g]))) g -> moved (scale_pt fx fy (box_center (bounds [gm_poly g]))) g (mirror_section sh g axis Center).
Proof. intros F N A. unfold mirror_section. rewrite F. apply moved_by; [exact A|reflexivity|rewrite N; reflexivity]. Qed.

(** ** Alignment *)
Lemma shift_poly sh g dx dy : away (translate_pt dx dy) g -> gm_poly (shift_section sh g dx dy) = map_polygon (fun v => round_pt (gm_tol g) (translate_pt dx dy v)) (gm_poly g).
Proof. intros A. unfold shift_section. destruct (new_geometry_poly sh (map_polygon (translate_pt dx dy) (gm_poly g)) (gm_mat g) (option_map (translate_pt dx dy) (gm_assigned g)) (gm_tol g)) as (P & _). rewrite P. apply away_keeps, A. Qed.
Lemma shifted_points sh tol dx dy gs : Forall (fun g => gm_tol g = tol /\ away (translate_pt dx dy) g) gs ->
  exterior_points (map gm_poly (map (fun g => shift_section sh g dx dy) gs)) = map (fun v => round_pt tol (translate_pt dx dy v)) (exterior_points (map gm_poly gs)).
Proof.
  intros H. unfold exterior_points. induction H as [|g gs [T A] _ IH]; [reflexivity|]. cbn [map concat]. rewrite map_app, IH, (shift_poly sh g dx dy A), T. reflexivity.
Qed.
(** grid offsets: the shift is exact *)
Lemma shift_exact sh g dx dy : is_geometry sh g -> proper g -> on_grid (gm_tol g) dx -> on_grid (gm_tol g) dy ->
  away (translate_pt dx dy) g /\ gm_poly (shift_section sh g dx dy) = map_polygon (translate_pt dx dy) (gm_poly g).
Proof.
  intros G P Gx Gy. assert (A : away (translate_pt dx dy) g).
  { apply (away_ext (axis_map 1 1 dx dy)); [intros v; symmetry; apply translate_axis|]. apply (axis_away sh); auto; apply grid_not_tie; assumption. }
  split; [exact A|]. rewrite (shift_poly sh g dx dy A). destruct (geometry_points sh g G) as (Gr & _).
  assert (E0 : forall l, Forall (pt_on_grid (gm_tol g)) l -> map (fun v => round_pt (gm_tol g) (translate_pt dx dy v)) l = map (translate_pt dx dy) l).
  { intros l Hl. apply map_ext_Forall. eapply Forall_impl; [|exact Hl]. intros v [Vx Vy]. apply round_pt_id. split; apply grid_plus; assumption. }
  unfold poly_on_grid, rings in Gr. inversion Gr as [|x l He Hi]; subst. unfold map_polygon. f_equal; [apply E0, He|].
  apply map_ext_Forall. eapply Forall_impl; [|exact Hi]. intros l Hl. apply E0, Hl.
Qed.
Lemma proper_ext g : proper g -> ext (gm_poly g) <> [].
Proof. intros (a & _ & I & _) E. rewrite E in I. destruct I. Qed.
Lemma align_center_lands sh g o : is_geometry sh g -> proper g -> poly_area (gm_poly g) <> 0 ->
  let g' := align_center sh g o in
  let t := center_target o in
  Rabs (fst (poly_centroid (gm_poly g')) - fst t) <= half (gm_tol g) /\ Rabs (snd (poly_centroid (gm_poly g')) - snd t) <= half (gm_tol g) /\
  gm_poly g' = map_polygon (translate_pt (round_to (gm_tol g) (fst t - fst (poly_centroid (gm_poly g)))) (round_to (gm_tol g) (snd t - snd (poly_centroid (gm_poly g))))) (gm_poly g).
Proof.
  intros G P A g' t. unfold g', align_center, center_shift. cbn [fst snd]. fold t. set (c := poly_centroid (gm_poly g)).
  destruct (shift_exact sh g (round_to (gm_tol g) (fst t - fst c)) (round_to (gm_tol g) (snd t - snd c)) G P (round_to_grid _ _) (round_to_grid _ _)) as [_ E].
  rewrite E, (centroid_translate _ _ _ A). fold c. unfold translate_pt. cbn [fst snd].
  pose proof (round_to_near (gm_tol g) (fst t - fst c)) as X. pose proof (round_to_near (gm_tol g) (snd t - snd c)) as Y.
  split; [|split; [|reflexivity]]; [revert X|revert Y]; [generalize (round_to (gm_tol g) (fst t - fst c))|generalize (round_to (gm_tol g) (snd t - snd c))]; intros r Z.
  - replace (fst c + r - fst t) with (r - (fst t - fst c)) by ring. exact Z.
  - replace (snd c + r - snd t) with (r - (snd t - snd c)) by ring. exact Z.
Qed.

(** the E-weighted centroid of a compound *)
Lemma fold_weighted {A} (f : A -> R) l : forall acc, fold_left (fun acc g => acc + f g) l acc = acc + sumf f l.
Proof. unfold sumf, Rsum. induction l as [|a l IH]; intros acc; cbn [fold_left map fold_right]; [ring|]. rewrite IH. ring. Qed.
Lemma sumf_plus_k {A} (f h : A -> R) k l : sumf (fun a => f a + k * h a) l = sumf f l + k * sumf h l.
Proof. unfold sumf, Rsum. induction l as [|a l IH]; cbn [map fold_right]; [ring|]. rewrite IH. ring. Qed.
Lemma sumf_ext_Forall {A} (f h : A -> R) l : Forall (fun a => f a = h a) l -> sumf f l = sumf h l.
Proof. intros H. unfold sumf. f_equal. apply map_ext_Forall, H. Qed.
Local Notation ea := rigidity.
Lemma weighted_eq gs : weighted_centroid gs = (sumf (fun g => fst (poly_centroid (gm_poly g)) * ea g) gs / sumf ea gs, sumf (fun g => snd (poly_centroid (gm_poly g)) * ea g) gs / sumf ea gs).
Proof.
  unfold weighted_centroid. f_equal.
  - unfold Rdiv. f_equal. change (fold_left (fun acc g => acc + fst (poly_centroid (gm_poly g)) * ea g) gs 0 = sumf (fun g => fst (poly_centroid (gm_poly g)) * ea g) gs). rewrite fold_weighted. ring.
  - unfold Rdiv. f_equal. change (fold_left (fun acc g => acc + snd (poly_centroid (gm_poly g)) * ea g) gs 0 = sumf (fun g => snd (poly_centroid (gm_poly g)) * ea g) gs). rewrite fold_weighted. ring.
Qed.
Lemma weighted_shift sh gs dx dy : Forall (fun g => is_geometry sh g /\ proper g /\ gm_tol g = 12%nat /\ poly_area (gm_poly g) <> 0) gs ->
  on_grid 12 dx -> on_grid 12 dy -> sumf ea gs <> 0 ->
  weighted_centroid (map (fun g => shift_section sh g dx dy) gs) = translate_pt dx dy (weighted_centroid gs).
Proof.
  intros H Gx Gy S. rewrite !weighted_eq.
  assert (M : forall g, gm_mat (shift_section sh g dx dy) = gm_mat g).
  { intros g. unfold shift_section. apply new_geometry_poly. }
  assert (F : Forall (fun g => poly_area (gm_poly (shift_section sh g dx dy)) = poly_area (gm_poly g) /\ poly_centroid (gm_poly (shift_section sh g dx dy)) = translate_pt dx dy (poly_centroid (gm_poly g))) gs).
  { eapply Forall_impl; [|exact H]. intros g (G & P & T & A). rewrite <- T in Gx, Gy. destruct (shift_exact sh g dx dy G P Gx Gy) as [_ E]. rewrite E. split; [apply area_translate|apply centroid_translate, A]. }
  assert (Ea : sumf ea (map (fun g => shift_section sh g dx dy) gs) = sumf ea gs).
  { rewrite sumf_map. apply sumf_ext_Forall. eapply Forall_impl; [|exact F]. intros g [A _]. unfold rigidity. rewrite M, A. reflexivity. }
  rewrite Ea, !sumf_map. unfold translate_pt. cbn [fst snd].
  rewrite (sumf_ext_Forall _ (fun g => fst (poly_centroid (gm_poly g)) * ea g + dx * ea g) gs).
  2:{ eapply Forall_impl; [|exact F]. intros g [A C]. unfold rigidity. rewrite M, A, C. unfold translate_pt. cbn [fst]. ring. }
  rewrite (sumf_ext_Forall (fun g => snd (poly_centroid (gm_poly (shift_section sh g dx dy))) * _) (fun g => snd (poly_centroid (gm_poly g)) * ea g + dy * ea g) gs).
  2:{ eapply Forall_impl; [|exact F]. intros g [A C]. unfold rigidity. rewrite M, A, C. unfold translate_pt. cbn [snd]. ring. }
  rewrite !sumf_plus_k. f_equal; field; exact S.
Qed.
