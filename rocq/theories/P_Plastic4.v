(** The plastic analysis as a whole. *)
From Coquelicot Require Import Coquelicot.
From Coq Require Import Reals List Lra Lia Permutation Bool.
From Verif Require Import Base S_Integral P_Integral M_Fea S_Fem P_Fea P_Geom S_Section P_Section P_Totals M_Bisect M_Props M_Plastic S_Plastic P_Ridge P_Plastic P_Plastic2 P_Plastic3.
Import ListNotations.
Local Open Scope R_scope.

(** ** Extreme fibres *)
Definition within (angle : R) (b : R * R * R * R) (q : R * R) : Prop :=
  let '(u1, u2, v1, v2) := b in
  let w := principal_coordinate angle (fst q) (snd q) in u1 <= fst w <= u2 /\ v1 <= snd w <= v2.

Lemma step_within angle b q : within angle (extreme_step angle b q) q /\ (forall p, within angle b p -> within angle (extreme_step angle b q) p).
Proof.
  destruct b as [[[u1 u2] v1] v2]. unfold extreme_step, within. destruct (principal_coordinate angle (fst q) (snd q)) as [u v]. cbn [fst snd].
  pose proof (Rmin_l u1 u). pose proof (Rmin_r u1 u). pose proof (Rmax_l u2 u). pose proof (Rmax_r u2 u).
  pose proof (Rmin_l v1 v). pose proof (Rmin_r v1 v). pose proof (Rmax_l v2 v). pose proof (Rmax_r v2 v).
  split; [lra|]. intros p. destruct (principal_coordinate angle (fst p) (snd p)) as [u' v']. cbn [fst snd]. lra.
Qed.

Lemma fibres_within angle pts q : In q pts -> within angle (calculate_extreme_fibres pts angle) q.
Proof.
  destruct pts as [|pt rest]; [intros []|]. unfold calculate_extreme_fibres.
  destruct (principal_coordinate angle (fst pt) (snd pt)) as [u v] eqn:E.
  assert (H0 : within angle (u, u, v, v) pt) by (unfold within; rewrite E; cbn [fst snd]; lra).
  assert (K : forall l b, (forall p, within angle b p -> within angle (fold_left (extreme_step angle) l b) p) /\
    (forall p, In p l -> within angle (fold_left (extreme_step angle) l b) p)).
  { induction l as [|p l IH]; intros b; cbn [fold_left]; [split; [auto|intros p []]|].
    destruct (IH (extreme_step angle b p)) as [A B]. destruct (step_within angle b p) as [S1 S2]. split.
    - intros p' Hp'. apply A, S2, Hp'.
    - intros p' [<-|Hp']; [apply A, S1|apply B, Hp']. }
  destruct (K rest (u, u, v, v)) as [A B]. intros [<-|Hq]; [apply A, H0|apply B, Hq].
Qed.

(** ** The four axes *)
Lemma axis_u_unit phi k : unit_vec (axis_u phi k).
Proof.
  unfold unit_vec. destruct k; cbn [axis_u fst snd]; try ring;
    pose proof (sin2_cos2 (phi * PI / 180)) as S; unfold Rsqr in S; lra.
Qed.
Lemma axis_dir phi k : perpendicular (axis_u phi k) (axis_b k) = direction phi k.
Proof. destruct k; cbn [axis_u axis_b perpendicular direction fst snd]; f_equal; ring. Qed.

Lemma pc_height phi x y : principal_coordinate phi x y = (height (direction phi axis_22) x y, height (direction phi axis_11) x y).
Proof. unfold principal_coordinate, height, direction. cbn [fst snd]. f_equal; ring. Qed.
Lemma pc_height0 x y : principal_coordinate 0 x y = (height (direction 0 axis_y) x y, height (direction 0 axis_x) x y).
Proof.
  unfold principal_coordinate, height, direction. cbn [fst snd]. replace (0 * PI / 180) with 0 by field. rewrite cos_0, sin_0. f_equal; ring.
Qed.

Lemma lim_spec pts phi k q : In q pts -> fst (axis_lim pts phi k) <= height (direction phi k) (fst q) (snd q) <= snd (axis_lim pts phi k).
Proof.
  intros H. pose proof (fibres_within 0 pts q H) as A. pose proof (fibres_within phi pts q H) as B.
  unfold axis_lim. destruct (calculate_extreme_fibres pts 0) as [[[x1 x2] y1] y2]. destruct (calculate_extreme_fibres pts phi) as [[[u1 u2] v1] v2].
  unfold within in *. rewrite pc_height0 in A. rewrite pc_height in B. cbn [fst snd] in *.
  destruct k; cbn [fst snd].
  - change (direction phi axis_x) with (direction 0 axis_x). lra.
  - change (direction phi axis_y) with (direction 0 axis_y). lra.
  - lra.
  - lra.
Qed.

Lemma lim_section pts sec phi k t p : surrounds pts sec -> In t sec -> In p (corners t) ->
  fst (axis_lim pts phi k) <= height (direction phi k) (fst p) (snd p) <= snd (axis_lim pts phi k).
Proof.
  intros Hs Ht Hp. split.
  - apply (Hs (direction phi k) _ (fun q Hq => proj1 (lim_spec pts phi k q Hq)) t p Ht Hp).
  - set (n := direction phi k).
    pose proof (Hs (- fst n, - snd n) (- snd (axis_lim pts phi k))) as X.
    assert (Y : forall x y, height (- fst n, - snd n) x y = - height n x y) by (intros; unfold height; cbn [fst snd]; ring).
    specialize (X (fun q Hq => ltac:(rewrite Y; pose proof (proj2 (lim_spec pts phi k q Hq)) as Z; fold n in Z; lra)) t p Ht Hp).
    rewrite Y in X. lra.
Qed.

(** ** The stored values *)
Section Run.
Context (brentq : root_finder) (g : plastic_geom) (phi : R).
Definition axis_imb (k : axis) (d : R) : R := evaluate_force_eq (pl_geoms g) d (axis_u phi k) (perpendicular (axis_u phi k) (axis_b k)).
Definition axis_root (k : axis) : root_result :=
  brentq (axis_imb k) (fst (axis_lim (pl_points g) phi k)) (snd (axis_lim (pl_points g) phi k)).
Definition axis_s (k : axis) : R :=
  plastic_modulus (height (direction phi k)) (rr_root (axis_root k))
    (fo_list (calculate_plastic_force (pl_geoms g) (axis_u phi k) (line_point (rr_last (axis_root k)) (perpendicular (axis_u phi k) (axis_b k))))).
End Run.

Lemma modulus_ext c1 c2 pc l : (forall x y, c1 x y = c2 x y) -> plastic_modulus c1 pc l = plastic_modulus c2 pc l.
Proof.
  intros H. unfold plastic_modulus. generalize 0. induction l as [|[[f x] y] l IH]; intros a; cbn [fold_left]; [reflexivity|].
  rewrite H. apply IH.
Qed.

Lemma analysis_writes brentq g get default phi ws : get p_phi = Some phi -> plastic_analysis brentq g get default = (ws, Ok tt) ->
  (forall k, rr_converged (axis_root brentq g phi k) = true) /\
  ws = concat (map (fun k => [WNum (pc_prop k) (rr_root (axis_root brentq g phi k)); WNum (s_prop k) (axis_s brentq g phi k)]) [axis_x; axis_y; axis_11; axis_22]) ++
       shape_factors get default (axis_s brentq g phi axis_x) (axis_s brentq g phi axis_y) (axis_s brentq g phi axis_11) (axis_s brentq g phi axis_22).
Proof.
  intros Hphi. unfold plastic_analysis. rewrite Hphi.
  unfold axis_s, axis_root, axis_imb, axis_lim.
  destruct (calculate_extreme_fibres (pl_points g) 0) as [[[x1 x2] y1] y2].
  destruct (calculate_extreme_fibres (pl_points g) phi) as [[[u1 u2] v1] v2]. cbn [fst snd].
  unfold pc_algorithm. cbn [fst snd].
  set (fx := fun d => evaluate_force_eq (pl_geoms g) d (1, 0) (perpendicular (1, 0) true)).
  set (fy := fun d => evaluate_force_eq (pl_geoms g) d (0, 1) (perpendicular (0, 1) false)).
  set (t := phi * PI / 180).
  set (f1 := fun d => evaluate_force_eq (pl_geoms g) d (cos t, sin t) (perpendicular (cos t, sin t) true)).
  set (f2 := fun d => evaluate_force_eq (pl_geoms g) d (- sin t, cos t) (perpendicular (- sin t, cos t) false)).
  destruct (rr_converged (brentq fx y1 y2)) eqn:Cx; [|unfold wbind, wlift; cbn [snd fst]; discriminate].
  unfold wbind at 1. unfold wlift at 1. cbn [snd fst].
  destruct (rr_converged (brentq fy x1 x2)) eqn:Cy; [|unfold wbind, wlift, tell; cbn [snd fst]; discriminate].
  destruct (rr_converged (brentq f1 v1 v2)) eqn:C1; [|unfold wbind, wlift, tell; cbn [snd fst]; discriminate].
  destruct (rr_converged (brentq f2 u1 u2)) eqn:C2; [|unfold wbind, wlift, tell; cbn [snd fst]; discriminate].
  unfold wbind, wlift, tell. cbn [snd fst]. intros E. injection E as E. split.
  - intros [| | |]; cbn [axis_u axis_b fst snd].
    + exact Cx. + exact Cy. + exact C1. + exact C2.
  - rewrite <- E. cbn [concat map app]. unfold pc_prop, s_prop, axis_u, axis_b. cbn [fst snd]. fold t. fold fx fy f1 f2.
    rewrite (modulus_ext (fun _ cy => cy) (height (direction phi axis_x))) by (intros; unfold height, direction; cbn [fst snd]; ring).
    rewrite (modulus_ext (fun cx _ => cx) (height (direction phi axis_y))) by (intros; unfold height, direction; cbn [fst snd]; ring).
    rewrite (modulus_ext (fun cx cy => snd (principal_coordinate phi cx cy)) (height (direction phi axis_11))) by (intros; rewrite pc_height; reflexivity).
    rewrite (modulus_ext (fun cx cy => fst (principal_coordinate phi cx cy)) (height (direction phi axis_22))) by (intros; rewrite pc_height; reflexivity).
    reflexivity.
Qed.

(** Assignments to other attributes. *)
Definition writes_of (w : write) : option prop := match w with WNum p _ => Some p | WVec _ _ => None end.
Lemma apply_writes_app P a b : apply_writes P (a ++ b) = apply_writes (apply_writes P a) b.
Proof. unfold apply_writes. apply fold_left_app. Qed.
Lemma apply_other P l q : (forall w, In w l -> writes_of w <> Some q) -> num (apply_writes P l) q = num P q.
Proof.
  revert P. induction l as [|w l IH]; intros P H; [reflexivity|]. unfold apply_writes in *. cbn [fold_left].
  rewrite IH by (intros w' Hw'; apply H; right; exact Hw').
  specialize (H w (or_introl eq_refl)). destruct w as [p v|a u]; cbn [apply_write num]; [|reflexivity].
  destruct (prop_eq_dec q p) as [->|]; [|reflexivity]. cbn [writes_of] in H. congruence.
Qed.

Definition is_sf (p : prop) : Prop :=
  In p [p_sf_xx_plus; p_sf_xx_minus; p_sf_yy_plus; p_sf_yy_minus; p_sf_11_plus; p_sf_11_minus; p_sf_22_plus; p_sf_22_minus].
Lemma sf_writes get default a b c d w : In w (shape_factors get default a b c d) -> exists p v, w = WNum p v /\ is_sf p.
Proof.
  unfold shape_factors, is_sf. intros H.
  destruct default; apply in_app_or in H; destruct H as [H|H];
    match type of H with In _ (if ?b then _ else _) => destruct b end; cbn [In] in H;
    repeat (destruct H as [<-|H]; [eexists; eexists; split; [reflexivity|cbn [In]; tauto]|]); contradiction.
Qed.

Lemma stored brentq g get default phi ws P k : get p_phi = Some phi -> plastic_analysis brentq g get default = (ws, Ok tt) ->
  num (apply_writes P ws) (pc_prop k) = Some (rr_root (axis_root brentq g phi k)) /\
  num (apply_writes P ws) (s_prop k) = Some (axis_s brentq g phi k).
Proof.
  intros Hphi H. destruct (analysis_writes _ _ _ _ _ _ Hphi H) as [_ E]. rewrite E, apply_writes_app.
  assert (X : forall Q, ~ is_sf Q -> forall P', num (apply_writes P' (shape_factors get default (axis_s brentq g phi axis_x) (axis_s brentq g phi axis_y) (axis_s brentq g phi axis_11) (axis_s brentq g phi axis_22))) Q = num P' Q).
  { intros Q HQ P'. apply apply_other. intros w Hw. destruct (sf_writes _ _ _ _ _ _ _ Hw) as (p & v & -> & Hp). cbn [writes_of].
    intros Y. injection Y as ->. exact (HQ Hp). }
  assert (NS : forall k, ~ is_sf (pc_prop k) /\ ~ is_sf (s_prop k)).
  { intros k0. unfold is_sf. destruct k0; cbn [pc_prop s_prop In]; split; intros Y; repeat (destruct Y as [Y|Y]; [discriminate|]); exact Y. }
  rewrite !X by apply NS. unfold apply_writes. cbn [map concat app fold_left apply_write num].
  destruct k; cbn [pc_prop s_prop]; split; repeat (destruct (prop_eq_dec _ _); [congruence|]); try congruence;
   repeat match goal with |- context [prop_eq_dec ?a ?b] => destruct (prop_eq_dec a b); try congruence end.
Qed.

(** ** The moduli *)
Theorem analysis_axis brentq tol g get default ws shapes phi P k :
  section_covers (pl_geoms g) shapes -> surrounds (pl_points g) (concat shapes) -> root_within tol brentq ->
  get p_phi = Some phi -> plastic_analysis brentq g get default = (ws, Ok tt) ->
  let n := direction phi k in let sec := concat shapes in
  let M := yield_moment_about sec n in let F := total_yield_force sec in
  exists pc s, num (apply_writes P ws) (pc_prop k) = Some pc /\ num (apply_writes P ws) (s_prop k) = Some s /\
    (M pc - 2 * F * tol <= s <= M pc) /\ (forall d, M pc - F * tol <= M d).
Proof.
  intros Hcov Hs Hr Hphi H n sec M F.
  destruct (analysis_writes _ _ _ _ _ _ Hphi H) as [Hc _]. specialize (Hc k).
  destruct (stored brentq g get default phi ws P k Hphi H) as [E1 E2].
  exists (rr_root (axis_root brentq g phi k)), (axis_s brentq g phi k). split; [exact E1|]. split; [exact E2|].
  assert (B : forall t p, In t sec -> In p (corners t) ->
    fst (axis_lim (pl_points g) phi k) <= height (perpendicular (axis_u phi k) (axis_b k)) (fst p) (snd p) <= snd (axis_lim (pl_points g) phi k)).
  { intros t p Ht Hp. rewrite axis_dir. exact (lim_section _ _ _ _ t p Hs Ht Hp). }
  assert (L : fst (axis_lim (pl_points g) phi k) <= snd (axis_lim (pl_points g) phi k)).
  { pose proof (sec_ne _ _ (1, 0) true Hcov) as Hne. unfold sec in B. destruct (concat shapes) as [|t l]; [congruence|].
    specialize (B t (mt_a t) (or_introl eq_refl) (or_introl eq_refl)). lra. }
  pose proof (near_root (pl_geoms g) shapes (axis_u phi k) (axis_b k) (axis_u_unit phi k) Hcov _ _ tol brentq L B Hr) as X.
  cbv zeta in X. specialize (X Hc). unfold imbalance in X. rewrite axis_dir in X. unfold axis_s, axis_root, axis_imb. rewrite axis_dir.
  exact X.
Qed.

Lemma balanced_axis g shapes phi k : section_covers (pl_geoms g) shapes -> surrounds (pl_points g) (concat shapes) ->
  exists d fld, admissible (concat shapes) (direction phi k) fld /\ field_moment (direction phi k) fld = yield_moment_about (concat shapes) (direction phi k) d.
Proof.
  intros Hcov Hs.
  assert (B : forall t p, In t (concat shapes) -> In p (corners t) ->
    fst (axis_lim (pl_points g) phi k) <= height (perpendicular (axis_u phi k) (axis_b k)) (fst p) (snd p) <= snd (axis_lim (pl_points g) phi k)).
  { intros t p Ht Hp. rewrite axis_dir. exact (lim_section _ _ _ _ t p Hs Ht Hp). }
  assert (L : fst (axis_lim (pl_points g) phi k) <= snd (axis_lim (pl_points g) phi k)).
  { pose proof (sec_ne _ _ (1, 0) true Hcov) as Hne. destruct (concat shapes) as [|t l]; [congruence|].
    specialize (B t (mt_a t) (or_introl eq_refl) (or_introl eq_refl)). lra. }
  destruct (balanced_exists (pl_geoms g) shapes (axis_u phi k) (axis_b k) (axis_u_unit phi k) Hcov _ _ L B) as (d & _ & Hd).
  destruct (field_att (pl_geoms g) shapes (axis_u phi k) (axis_b k) (axis_u_unit phi k) Hcov d Hd) as (fld & A1 & A2).
  rewrite axis_dir in A1, A2. exists d, fld. auto.
Qed.

Lemma max_axis g shapes phi k fld d : section_covers (pl_geoms g) shapes ->
  admissible (concat shapes) (direction phi k) fld -> field_moment (direction phi k) fld <= yield_moment_about (concat shapes) (direction phi k) d.
Proof.
  intros Hcov. rewrite <- (axis_dir phi k). apply (field_max (pl_geoms g) shapes (axis_u phi k) (axis_b k) (axis_u_unit phi k) Hcov).
Qed.

(** ** brentq is always started on a bracket *)
Lemma bracket_axis g shapes phi k : section_covers (pl_geoms g) shapes -> surrounds (pl_points g) (concat shapes) ->
  fst (axis_lim (pl_points g) phi k) <= snd (axis_lim (pl_points g) phi k) /\
  exists s, (s = 1 \/ s = -1) /\
    axis_imb g phi k (fst (axis_lim (pl_points g) phi k)) = s /\ axis_imb g phi k (snd (axis_lim (pl_points g) phi k)) = - s.
Proof.
  intros Hcov Hs.
  assert (B : forall t p, In t (concat shapes) -> In p (corners t) ->
    fst (axis_lim (pl_points g) phi k) <= height (perpendicular (axis_u phi k) (axis_b k)) (fst p) (snd p) <= snd (axis_lim (pl_points g) phi k)).
  { intros t p Ht Hp. rewrite axis_dir. exact (lim_section _ _ _ _ t p Hs Ht Hp). }
  split.
  - pose proof (sec_ne _ _ (1, 0) true Hcov) as Hne. destruct (concat shapes) as [|t l]; [congruence|].
    specialize (B t (mt_a t) (or_introl eq_refl) (or_introl eq_refl)). lra.
  - exists (axis_sign (axis_u phi k) (axis_b k)). split; [apply axis_sign_cases|]. split.
    + apply (imb_low (pl_geoms g) shapes _ _ (axis_u_unit phi k) Hcov). intros t p Ht Hp. apply (B t p Ht Hp).
    + apply (imb_high (pl_geoms g) shapes _ _ (axis_u_unit phi k) Hcov). intros t p Ht Hp. apply (B t p Ht Hp).
Qed.

Lemma bracket_only b1 b2 g get default shapes :
  section_covers (pl_geoms g) shapes -> surrounds (pl_points g) (concat shapes) ->
  (forall f lo hi s, lo <= hi -> (s = 1 \/ s = -1) -> f lo = s -> f hi = - s -> b1 f lo hi = b2 f lo hi) ->
  plastic_analysis b1 g get default = plastic_analysis b2 g get default.
Proof.
  intros Hcov Hs Hb.
  assert (K : forall phi k, axis_root b1 g phi k = axis_root b2 g phi k).
  { intros phi k. destruct (bracket_axis g shapes phi k Hcov Hs) as (L & s & S & A & B). apply (Hb _ _ _ s L S A B). }
  unfold plastic_analysis.
  assert (Kx := K 0 axis_x). assert (Ky := K 0 axis_y).
  unfold axis_root, axis_imb, axis_lim in Kx, Ky.
  destruct (calculate_extreme_fibres (pl_points g) 0) as [[[x1 x2] y1] y2] eqn:E0. cbn [fst snd axis_u axis_b] in Kx, Ky.
  unfold pc_algorithm. cbn [fst snd]. rewrite Kx, Ky.
  destruct (get p_phi) as [phi|]; [|reflexivity].
  assert (K1 := K phi axis_11). assert (K2 := K phi axis_22). unfold axis_root, axis_imb, axis_lim in K1, K2. rewrite E0 in K1, K2.
  destruct (calculate_extreme_fibres (pl_points g) phi) as [[[u1 u2] v1] v2]. cbn [fst snd axis_u axis_b] in K1, K2.
  rewrite K1, K2. reflexivity.
Qed.
