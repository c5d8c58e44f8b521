(** Principal axes, section moduli, yield moments, centroid location, effective moduli. *)
From Coq Require Import Reals List Lra Lia Permutation ZArith.
From Coquelicot Require Import Coquelicot.
From Verif Require Import Base S_Integral M_Fea S_Fem M_Post S_Section S_Post P_Integral P_Fea P_Geom P_Section P_Totals.
Import ListNotations.
Local Open Scope R_scope.

(** ** atan2 *)

Lemma atan2_polar (y x : R) : x <> 0 \/ y <> 0 ->
  cos (atan2 y x) = x / sqrt (x ^ 2 + y ^ 2) /\ sin (atan2 y x) = y / sqrt (x ^ 2 + y ^ 2).
Proof.
  intros H.
  assert (Hs : forall t, 0 < sqrt (1 + t²)).
  { intros t. apply sqrt_lt_R0. pose proof (Rle_0_sqr t). lra. }
  assert (Hr : x <> 0 -> sqrt (x ^ 2 + y ^ 2) = Rabs x * sqrt (1 + (y / x)²)).
  { intros Hx. rewrite <- sqrt_Rsqr_abs, <- sqrt_mult; [|apply Rle_0_sqr|pose proof (Rle_0_sqr (y / x)); lra].
    f_equal. unfold Rsqr. field. exact Hx. }
  unfold atan2. destruct (Rlt_dec 0 x) as [Hx|Hx].
  - rewrite Hr by lra. rewrite Rabs_right by lra. rewrite cos_atan, sin_atan.
    pose proof (Hs (y / x)). split; field; lra.
  - destruct (Rlt_dec x 0) as [Hx'|Hx'].
    + rewrite Hr by lra. rewrite Rabs_left by lra. pose proof (Hs (y / x)).
      destruct (Rle_dec 0 y).
      * rewrite neg_cos, neg_sin, cos_atan, sin_atan. split; field; lra.
      * replace (cos (atan (y / x) - PI)) with (cos (atan (y / x) + PI)).
        2:{ rewrite <- (cos_period (atan (y / x) - PI) 1). f_equal. cbn. ring. }
        replace (sin (atan (y / x) - PI)) with (sin (atan (y / x) + PI)).
        2:{ rewrite <- (sin_period (atan (y / x) - PI) 1). f_equal. cbn. ring. }
        rewrite neg_cos, neg_sin, cos_atan, sin_atan. split; field; lra.
    + assert (x = 0) by lra. subst x. destruct H as [H|H]; [lra|].
      assert (E : sqrt (0 ^ 2 + y ^ 2) = Rabs y).
      { rewrite <- sqrt_Rsqr_abs. f_equal. unfold Rsqr. ring. }
      rewrite E. destruct (Rlt_dec 0 y) as [Hy|Hy].
      * rewrite cos_PI2, sin_PI2, Rabs_right by lra. split; field; lra.
      * destruct (Rlt_dec y 0) as [Hy'|]; [|lra].
        rewrite cos_neg, sin_neg, cos_PI2, sin_PI2, Rabs_left by lra. split; field; lra.
Qed.

Lemma atan2_neg_range (y x : R) : y < 0 -> - PI < atan2 y x < 0.
Proof.
  intros Hy. unfold atan2. pose proof PI_RGT_0 as HP. destruct (Rlt_dec 0 x) as [Hx|Hx].
  - pose proof (atan_bound (y / x)).
    assert (y / x < 0).
    { apply (Rmult_lt_reg_r x); [exact Hx|]. unfold Rdiv. rewrite Rmult_assoc, Rinv_l by lra. lra. }
    pose proof (atan_increasing _ _ H0) as A. rewrite atan_0 in A. lra.
  - destruct (Rlt_dec x 0) as [Hx'|Hx'].
    + destruct (Rle_dec 0 y); [lra|]. pose proof (atan_bound (y / x)).
      assert (0 < y / x).
      { replace (y / x) with ((- y) / (- x)) by (field; lra). apply Rdiv_lt_0_compat; lra. }
      pose proof (atan_increasing _ _ H0) as A. rewrite atan_0 in A. lra.
    + destruct (Rlt_dec 0 y); [lra|]. destruct (Rlt_dec y 0); lra.
Qed.

Lemma atan2_scale (k y x : R) : 0 < k -> atan2 (k * y) (k * x) = atan2 y x.
Proof.
  intros Hk. unfold atan2.
  assert (E : x <> 0 -> k * y / (k * x) = y / x) by (intros; field; lra).
  destruct (Rlt_dec 0 (k * x)) as [H|H]; destruct (Rlt_dec 0 x) as [H'|H']; try (exfalso; nra).
  - rewrite E by lra. reflexivity.
  - destruct (Rlt_dec (k * x) 0) as [G|G]; destruct (Rlt_dec x 0) as [G'|G']; try (exfalso; nra).
    + rewrite E by lra. destruct (Rle_dec 0 (k * y)); destruct (Rle_dec 0 y); try (exfalso; nra); reflexivity.
    + destruct (Rlt_dec 0 (k * y)); destruct (Rlt_dec 0 y); try (exfalso; nra); try reflexivity.
      destruct (Rlt_dec (k * y) 0); destruct (Rlt_dec y 0); try (exfalso; nra); reflexivity.
Qed.

(** ** Principal axes *)

Section Principal.
Context (ixx iyy ixy : R).
Let i11 := principal_i11 ixx iyy ixy.
Let i22 := principal_i22 ixx iyy ixy.

Lemma eigen_eq : ixy ^ 2 = (ixx - i11) * (iyy - i11).
Proof.
  pose proof (principal_sum ixx iyy ixy) as S. pose proof (principal_prod ixx iyy ixy) as P.
  fold i11 i22 in S, P. 
  replace ((ixx - i11) * (iyy - i11)) with (ixx * iyy - (ixx + iyy) * i11 + i11 * i11) by ring.
  rewrite <- S. replace (ixy ^ 2) with (ixx * iyy - i11 * i22) by lra. ring.
Qed.

Lemma i11_ge : ixx <= i11 /\ iyy <= i11.
Proof.
  assert (H : Rabs ((ixx - iyy) / 2) <= principal_delta ixx iyy ixy).
  { rewrite <- sqrt_Rsqr_abs. unfold principal_delta. apply sqrt_le_1_alt.
    rewrite Rsqr_pow2. pose proof (pow2_ge_0 ixy). lra. }
  unfold i11, principal_i11. apply Rabs_le_between in H. lra.
Qed.

Lemma phi_axes : ~ Rabs (ixx - i11) < 1 / 10 ^ 12 * i11 -> 0 < i11 ->
  let t := principal_phi ixx ixy i11 * PI / 180 in
  rot_ixy ixx iyy ixy t = 0 /\ rot_ixx ixx iyy ixy t = i11 /\ rot_iyy ixx iyy ixy t = i22 /\
  -180 < principal_phi ixx ixy i11 < 0.
Proof.
  intros Hb Hi. unfold principal_phi. destruct (Rlt_dec _ _) as [H|_]; [contradiction|].
  pose proof i11_ge as [G1 G2].
  assert (Hlt : ixx - i11 < 0).
  { destruct (Req_dec (ixx - i11) 0) as [E|E]; [|lra]. exfalso. apply Hb. rewrite E, Rabs_R0.
    apply Rmult_lt_0_compat; lra. }
  pose proof PI_RGT_0 as HP.
  set (p := atan2 (ixx - i11) ixy).
  replace (p * 180 / PI * PI / 180) with p by (field; lra).
  destruct (atan2_polar (ixx - i11) ixy ltac:(right; lra)) as [C S]. fold p in C, S.
  set (r := sqrt (ixy ^ 2 + (ixx - i11) ^ 2)) in *.
  assert (Hr : 0 < r).
  { apply sqrt_lt_R0. pose proof (pow2_ge_0 ixy). assert (0 < (ixx - i11) ^ 2) by nra. lra. }
  assert (Hr2 : r ^ 2 = ixy ^ 2 + (ixx - i11) ^ 2).
  { unfold r. rewrite pow2_sqrt; [ring|]. pose proof (pow2_ge_0 ixy). pose proof (pow2_ge_0 (ixx - i11)). lra. }
  pose proof eigen_eq as E.
  pose proof (principal_sum ixx iyy ixy) as PS. fold i11 i22 in PS.
  assert (R1 : rot_ixx ixx iyy ixy p * r ^ 2 = i11 * r ^ 2).
  { unfold rot_ixx. rewrite C, S.
    transitivity (ixx * ixy ^ 2 - 2 * ixy * (ixx - i11) * ixy + iyy * (ixx - i11) ^ 2); [field; lra|].
    rewrite Hr2. nra. }
  assert (R2 : rot_ixy ixx iyy ixy p * r ^ 2 = 0 * r ^ 2).
  { unfold rot_ixy. rewrite C, S.
    transitivity (ixy * (ixy ^ 2 - (ixx - i11) ^ 2) + (ixx - iyy) * (ixx - i11) * ixy); [field; lra|].
    rewrite E. ring. }
  assert (R3 : rot_iyy ixx iyy ixy p * r ^ 2 = i22 * r ^ 2).
  { assert (T : rot_ixx ixx iyy ixy p + rot_iyy ixx iyy ixy p = ixx + iyy).
    { unfold rot_ixx, rot_iyy. pose proof (sin2_cos2 p) as Q. unfold Rsqr in Q.
      transitivity ((ixx + iyy) * (sin p * sin p + cos p * cos p)); [ring|rewrite Q; ring]. }
    replace (rot_iyy ixx iyy ixy p) with (ixx + iyy - rot_ixx ixx iyy ixy p) by lra.
    replace i22 with (ixx + iyy - i11) by lra. lra. }
  assert (Hr2n : r ^ 2 <> 0) by (apply pow_nonzero; lra).
  split; [|split; [|split]].
  - apply (Rmult_eq_reg_r (r ^ 2)); assumption.
  - apply (Rmult_eq_reg_r (r ^ 2)); assumption.
  - apply (Rmult_eq_reg_r (r ^ 2)); assumption.
  - pose proof (atan2_neg_range (ixx - i11) ixy Hlt) as [A B]. fold p in A, B.
    split; apply (Rmult_lt_reg_r (PI / 180)); try lra.
    + replace (p * 180 / PI * (PI / 180)) with p by (field; lra).
      replace (-180 * (PI / 180)) with (- PI) by field. exact A.
    + replace (p * 180 / PI * (PI / 180)) with p by (field; lra). lra.
Qed.

Lemma phi_tolerance : Rabs (ixx - i11) < 1 / 10 ^ 12 * i11 -> 0 <= iyy ->
  principal_phi ixx ixy i11 = 0 /\ Rabs ixy <= 1 / 10 ^ 6 * i11.
Proof.
  intros Hb Hy. unfold principal_phi. destruct (Rlt_dec _ _) as [_|H]; [|contradiction].
  split; [reflexivity|].
  pose proof i11_ge as [G1 G2]. pose proof eigen_eq as E.
  rewrite Rabs_left1 in Hb by lra.
  assert (Hi : 0 < i11) by lra.
  assert (B : ixy ^ 2 <= (1 / 10 ^ 6 * i11) ^ 2).
  { rewrite E. replace ((1 / 10 ^ 6 * i11) ^ 2) with ((1 / 10 ^ 12 * i11) * i11) by field.
    replace ((ixx - i11) * (iyy - i11)) with ((- (ixx - i11)) * (i11 - iyy)) by ring.
    apply Rmult_le_compat; lra. }
  apply Rabs_le. 
  assert (P : 0 <= 1 / 10 ^ 6 * i11) by lra.
  set (k := 1 / 10 ^ 6 * i11) in *. clearbody k. split; nra.
Qed.

Lemma rot_bounds (t : R) : i22 <= rot_ixx ixx iyy ixy t <= i11.
Proof.
  (* (i11 - rot) = (i11-ixx) c^2 + 2 ixy s c + (i11 - iyy) s^2, a positive semidefinite form *)
  pose proof i11_ge as [G1 G2]. pose proof eigen_eq as E.
  pose proof (sin2_cos2 t) as Q. unfold Rsqr in Q.
  set (s := sin t) in *. set (c := cos t) in *.
  assert (PSD : forall a b k u v, 0 <= a -> 0 <= b -> k ^ 2 = a * b -> 0 <= a * u ^ 2 + 2 * k * u * v + b * v ^ 2).
  { intros a b k u v Ha Hb Hk. destruct (Req_dec a 0) as [Z|Z].
    - subst a. assert (k = 0) by nra. subst k. nra.
    - assert (H : 0 <= a * (a * u ^ 2 + 2 * k * u * v + b * v ^ 2)).
      { replace (a * (a * u ^ 2 + 2 * k * u * v + b * v ^ 2)) with ((a * u + k * v) ^ 2 + (a * b - k ^ 2) * v ^ 2) by ring.
        rewrite Hk. pose proof (pow2_ge_0 (a * u + k * v)). nra. }
      apply (Rmult_le_reg_l a); lra. }
  pose proof (principal_sum ixx iyy ixy) as PS. fold i11 i22 in PS.
  assert (H1 : 0 <= (i11 - ixx) * c ^ 2 + 2 * ixy * c * s + (i11 - iyy) * s ^ 2).
  { apply PSD; try lra. }
  assert (H2 : 0 <= (i11 - ixx) * s ^ 2 + 2 * (- ixy) * s * c + (i11 - iyy) * c ^ 2).
  { apply PSD; try lra. }
  unfold rot_ixx. fold s c. split.
  - assert (K : i22 = (ixx + iyy - i11) * (s * s + c * c)) by (rewrite Q; lra). rewrite K.
    apply Rminus_le. 
    replace ((ixx + iyy - i11) * (s * s + c * c) - (ixx * c ^ 2 - 2 * ixy * s * c + iyy * s ^ 2))
      with (- ((i11 - ixx) * s ^ 2 + 2 * (- ixy) * s * c + (i11 - iyy) * c ^ 2)) by ring. lra.
  - assert (K : i11 = i11 * (s * s + c * c)) by (rewrite Q; lra). rewrite K at 1. apply Rminus_le.
    replace (ixx * c ^ 2 - 2 * ixy * s * c + iyy * s ^ 2 - i11 * (s * s + c * c))
      with (- ((i11 - ixx) * c ^ 2 + 2 * ixy * c * s + (i11 - iyy) * s ^ 2)) by ring. lra.
Qed.
End Principal.

(** ** Extremes of a list *)

Lemma lmax_spec (l : list R) : forall x, In (lmax x l) (x :: l) /\ forall y, In y (x :: l) -> y <= lmax x l.
Proof.
  unfold lmax. induction l as [|a l IH]; intros x; cbn [fold_left].
  - split; [left; reflexivity|]. intros y [<-|[]]. lra.
  - destruct (IH (Rmax x a)) as [H1 H2]. split.
    + destruct H1 as [H1|H1]; [|right; right; exact H1].
      rewrite <- H1. unfold Rmax. destruct (Rle_dec x a); [right; left|left]; reflexivity.
    + intros y [<-|[<-|Hy]].
      * eapply Rle_trans; [apply Rmax_l|]. apply H2. left; reflexivity.
      * eapply Rle_trans; [apply Rmax_r|]. apply H2. left; reflexivity.
      * apply H2. right; exact Hy.
Qed.

Lemma lmin_spec (l : list R) : forall x, In (lmin x l) (x :: l) /\ forall y, In y (x :: l) -> lmin x l <= y.
Proof.
  unfold lmin. induction l as [|a l IH]; intros x; cbn [fold_left].
  - split; [left; reflexivity|]. intros y [<-|[]]. lra.
  - destruct (IH (Rmin x a)) as [H1 H2]. split.
    + destruct H1 as [H1|H1]; [|right; right; exact H1].
      rewrite <- H1. unfold Rmin. destruct (Rle_dec x a); [left|right; left]; reflexivity.
    + intros y [<-|[<-|Hy]].
      * eapply Rle_trans; [|apply Rmin_l]. apply H2. left; reflexivity.
      * eapply Rle_trans; [|apply Rmin_r]. apply H2. left; reflexivity.
      * apply H2. right; exact Hy.
Qed.

Lemma lmax_map (h : point -> R) (n0 : point) (ns : list point) :
  exists p, attains_max h (n0 :: ns) p /\ lmax (h n0) (map h ns) = h p.
Proof.
  destruct (lmax_spec (map h ns) (h n0)) as [H1 H2].
  change (h n0 :: map h ns) with (map h (n0 :: ns)) in *.
  apply in_map_iff in H1. destruct H1 as [p [E Hp]]. exists p. split; [|symmetry; exact E].
  split; [exact Hp|]. intros q Hq. rewrite E. apply H2. apply in_map, Hq.
Qed.

Lemma lmin_map (h : point -> R) (n0 : point) (ns : list point) :
  exists p, attains_max (fun q => - h q) (n0 :: ns) p /\ lmin (h n0) (map h ns) = h p.
Proof.
  destruct (lmin_spec (map h ns) (h n0)) as [H1 H2].
  change (h n0 :: map h ns) with (map h (n0 :: ns)) in *.
  apply in_map_iff in H1. destruct H1 as [p [E Hp]]. exists p. split; [|symmetry; exact E].
  split; [exact Hp|]. intros q Hq. rewrite E. apply Ropp_le_contravar. apply H2. apply in_map, Hq.
Qed.


Lemma moduli_spec (t : totals) (c : centroidal) (nodes : list point) (m : moduli) :
  moduli_of t c nodes = Ok m ->
  (exists p, attains_max snd nodes p /\ z_xx_plus m = p_ixx_c c / Rabs (snd p - p_cy c)) /\
  (exists p, attains_max (fun q => - snd q) nodes p /\ z_xx_minus m = p_ixx_c c / Rabs (snd p - p_cy c)) /\
  (exists p, attains_max fst nodes p /\ z_yy_plus m = p_iyy_c c / Rabs (fst p - p_cx c)) /\
  (exists p, attains_max (fun q => - fst q) nodes p /\ z_yy_minus m = p_iyy_c c / Rabs (fst p - p_cx c)) /\
  (exists p, attains_max (fun q => snd (pr11 c q)) nodes p /\ z_11_plus m = p_i11_c c / Rabs (snd (pr11 c p))) /\
  (exists p, attains_max (fun q => - snd (pr11 c q)) nodes p /\ z_11_minus m = p_i11_c c / Rabs (snd (pr11 c p))) /\
  (exists p, attains_max (fun q => fst (pr11 c q)) nodes p /\ z_22_plus m = p_i22_c c / Rabs (fst (pr11 c p))) /\
  (exists p, attains_max (fun q => - fst (pr11 c q)) nodes p /\ z_22_minus m = p_i22_c c / Rabs (fst (pr11 c p))).
Proof.
  destruct nodes as [|n0 ns]; [discriminate|]. unfold moduli_of. intros H. injection H as <-.
  cbn [z_xx_plus z_xx_minus z_yy_plus z_yy_minus z_11_plus z_11_minus z_22_plus z_22_minus].
  destruct (lmax_map snd n0 ns) as [p1 [A1 E1]]. destruct (lmin_map snd n0 ns) as [p2 [A2 E2]].
  destruct (lmax_map fst n0 ns) as [p3 [A3 E3]]. destruct (lmin_map fst n0 ns) as [p4 [A4 E4]].
  destruct (lmax_map (fun q => snd (pr11 c q)) n0 ns) as [p5 [A5 E5]].
  destruct (lmin_map (fun q => snd (pr11 c q)) n0 ns) as [p6 [A6 E6]].
  destruct (lmax_map (fun q => fst (pr11 c q)) n0 ns) as [p7 [A7 E7]].
  destruct (lmin_map (fun q => fst (pr11 c q)) n0 ns) as [p8 [A8 E8]].
  split; [exists p1; split; [exact A1|exact (f_equal (fun z => p_ixx_c c / Rabs (z - p_cy c)) E1)]|].
  split; [exists p2; split; [exact A2|exact (f_equal (fun z => p_ixx_c c / Rabs (z - p_cy c)) E2)]|].
  split; [exists p3; split; [exact A3|exact (f_equal (fun z => p_iyy_c c / Rabs (z - p_cx c)) E3)]|].
  split; [exists p4; split; [exact A4|exact (f_equal (fun z => p_iyy_c c / Rabs (z - p_cx c)) E4)]|].
  split; [exists p5; split; [exact A5|exact (f_equal (fun z => p_i11_c c / Rabs z) E5)]|].
  split; [exists p6; split; [exact A6|exact (f_equal (fun z => p_i11_c c / Rabs z) E6)]|].
  split; [exists p7; split; [exact A7|exact (f_equal (fun z => p_i22_c c / Rabs z) E7)]|].
  exists p8; split; [exact A8|exact (f_equal (fun z => p_i22_c c / Rabs z) E8)].
Qed.

Lemma radii_spec (t : totals) (c : centroidal) (nodes : list point) (m : moduli) :
  moduli_of t c nodes = Ok m -> 0 < t_ea t ->
  0 <= p_ixx_c c -> 0 <= p_iyy_c c -> 0 <= p_i11_c c -> 0 <= p_i22_c c ->
  z_rx m ^ 2 * t_ea t = p_ixx_c c /\ z_ry m ^ 2 * t_ea t = p_iyy_c c /\
  z_r11 m ^ 2 * t_ea t = p_i11_c c /\ z_r22 m ^ 2 * t_ea t = p_i22_c c /\
  0 <= z_rx m /\ 0 <= z_ry m /\ 0 <= z_r11 m /\ 0 <= z_r22 m.
Proof.
  destruct nodes as [|n0 ns]; [discriminate|]. unfold moduli_of. intros H. injection H as <-.
  cbn [z_rx z_ry z_r11 z_r22]. intros He H1 H2 H3 H4.
  assert (S : forall i, 0 <= i -> sqrt (i / t_ea t) ^ 2 * t_ea t = i).
  { intros i Hi. rewrite pow2_sqrt; [field; lra|]. apply Rmult_le_pos; [exact Hi|].
    apply Rlt_le, Rinv_0_lt_compat, He. }
  rewrite !S by assumption. repeat split; apply sqrt_pos.
Qed.

(** ** Yield moments *)

Lemma upd_yield_fold (c : centroidal) (m : material) (h : quad_idx -> R) (sig : point -> R)
  (pts : list point) :
  (forall acc p, h (upd_yield c m acc p) = Rmax (h acc) (Rabs (sig p / m_fy m))) ->
  forall acc, h (fold_left (upd_yield c m) pts acc) =
    fold_left Rmax (map (fun p => Rabs (sig p / m_fy m)) pts) (h acc).
Proof.
  intros H. induction pts as [|p pts IH]; intros acc; [reflexivity|]. cbn [fold_left map].
  rewrite IH, H. reflexivity.
Qed.

(** all nodes of the groups with their materials, in loop order *)
Definition all_nodes (groups : list (material * list tri6)) : list (material * point) :=
  concat (map (fun g => concat (map (fun el => map (fun p => (fst g, p)) (el_nodes el)) (snd g))) groups).

Lemma all_nodes_spec groups m p : In (m, p) (all_nodes groups) <-> group_node groups m p.
Proof.
  unfold all_nodes, group_node. rewrite in_concat. split.
  - intros [l [Hl Hp]]. apply in_map_iff in Hl. destruct Hl as [[m' els] [<- Hg]].
    apply in_concat in Hp. destruct Hp as [l' [Hl' Hp]]. apply in_map_iff in Hl'.
    destruct Hl' as [el [<- Hel]]. apply in_map_iff in Hp. destruct Hp as [q [E Hq]].
    cbn [fst snd] in *. injection E as <- <-. exists els, el. auto.
  - intros [els [el [Hg [Hel Hp]]]].
    exists (concat (map (fun el => map (fun p => (m, p)) (el_nodes el)) els)). split.
    + apply in_map_iff. exists (m, els). auto.
    + apply in_concat. exists (map (fun p => (m, p)) (el_nodes el)). split.
      * apply in_map_iff. exists el. auto.
      * apply in_map_iff. exists p. auto.
Qed.

Lemma fold_left_concat {A B : Type} (f : A -> B -> A) (l : list (list B)) : forall a,
  fold_left f (concat l) a = fold_left (fun a x => fold_left f x a) l a.
Proof. induction l as [|x l IH]; intros a; cbn [concat fold_left]; [reflexivity|]. rewrite fold_left_app. apply IH. Qed.

Lemma fold_left_map {A B C : Type} (f : A -> C -> A) (g : B -> C) (l : list B) : forall a,
  fold_left f (map g l) a = fold_left (fun a x => f a (g x)) l a.
Proof. induction l as [|x l IH]; intros a; cbn [map fold_left]; [reflexivity|]. apply IH. Qed.

Lemma fold_left_ext' {A B : Type} (f g : A -> B -> A) (l : list B) : (forall a b, f a b = g a b) ->
  forall a, fold_left f l a = fold_left g l a.
Proof. intros H. induction l as [|x l IH]; intros a; cbn [fold_left]; [reflexivity|]. rewrite H. apply IH. Qed.

Lemma yield_index_flat (c : centroidal) (groups : list (material * list tri6)) :
  yield_index c groups = fold_left (fun acc mp => upd_yield c (fst mp) acc (snd mp)) (all_nodes groups) (mkIdx 0 0 0 0).
Proof.
  unfold yield_index, all_nodes. rewrite fold_left_concat, fold_left_map.
  apply fold_left_ext'. intros acc g. rewrite fold_left_concat, fold_left_map.
  apply fold_left_ext'. intros acc' el. rewrite fold_left_map. reflexivity.
Qed.

Lemma yield_component (c : centroidal) (groups : list (material * list tri6)) (h : quad_idx -> R)
  (sig : material -> point -> R) :
  h (mkIdx 0 0 0 0) = 0 ->
  (forall m acc p, h (upd_yield c m acc p) = Rmax (h acc) (Rabs (sig m p / m_fy m))) ->
  h (yield_index c groups) =
  lmax 0 (map (fun mp => Rabs (sig (fst mp) (snd mp) / m_fy (fst mp))) (all_nodes groups)).
Proof.
  intros H0 H. rewrite yield_index_flat. unfold lmax.
  assert (G : forall l acc, h (fold_left (fun acc mp => upd_yield c (fst mp) acc (snd mp)) l acc) =
    fold_left Rmax (map (fun mp => Rabs (sig (fst mp) (snd mp) / m_fy (fst mp))) l) (h acc)).
  { induction l as [|mp l IH]; intros acc; [reflexivity|].
    cbn [fold_left map]. rewrite IH, H. reflexivity. }
  rewrite G, H0. reflexivity.
Qed.

(** Generic yield moment statement for one axis. *)
Lemma yield_generic (c : centroidal) (groups : list (material * list tri6)) (h : quad_idx -> R)
  (sig : material -> R -> point -> R) :
  h (mkIdx 0 0 0 0) = 0 ->
  (forall m acc p, h (upd_yield c m acc p) = Rmax (h acc) (Rabs (sig m 1 p / m_fy m))) ->
  (forall m M p, sig m M p = M * sig m 1 p) ->
  (forall m p, group_node groups m p -> 0 < m_fy m) ->
  0 < h (yield_index c groups) ->
  let my := 1 / h (yield_index c groups) in
  0 < my /\
  (forall M m p, Rabs M <= my -> group_node groups m p -> Rabs (sig m M p) <= m_fy m) /\
  (exists m p, group_node groups m p /\ Rabs (sig m my p) = m_fy m).
Proof.
  intros H0 H Hlin Hfy Hpos my.
  pose proof (yield_component c groups h (fun m p => sig m 1 p) H0 H) as E.
  destruct (lmax_spec (map (fun mp => Rabs (sig (fst mp) 1 (snd mp) / m_fy (fst mp))) (all_nodes groups)) 0) as [L1 L2].
  rewrite <- E in L1, L2.
  set (yi := h (yield_index c groups)) in *.
  assert (Hmy : 0 < my) by (apply Rdiv_lt_0_compat; lra).
  assert (Hy1 : my * yi = 1) by (unfold my; field; lra).
  split; [exact Hmy|]. split.
  - intros M m p HM Hg. rewrite Hlin, Rabs_mult.
    assert (Hf := Hfy m p Hg).
    assert (B : Rabs (sig m 1 p / m_fy m) <= yi).
    { apply L2. right. apply in_map_iff. exists (m, p). split; [reflexivity|]. apply all_nodes_spec, Hg. }
    assert (B' : Rabs (sig m 1 p) = Rabs (sig m 1 p / m_fy m) * m_fy m).
    { unfold Rdiv. rewrite Rabs_mult, Rabs_inv, (Rabs_right (m_fy m)) by lra. field. lra. }
    rewrite B'. pose proof (Rabs_pos (sig m 1 p / m_fy m)) as P. pose proof (Rabs_pos M) as P'.
    set (s := Rabs (sig m 1 p / m_fy m)) in *.
    assert (Rabs M * s <= 1).
    { rewrite <- Hy1. apply Rmult_le_compat; lra. }
    replace (Rabs M * (s * m_fy m)) with ((Rabs M * s) * m_fy m) by ring. nra.
  - destruct L1 as [L1|L1]; [lra|]. apply in_map_iff in L1. destruct L1 as [[m p] [L1 Hin]]. cbn [fst snd] in L1.
    apply all_nodes_spec in Hin. exists m, p. split; [exact Hin|].
    assert (Hf := Hfy m p Hin). rewrite Hlin, Rabs_mult, (Rabs_right my) by lra.
    assert (B' : Rabs (sig m 1 p) = Rabs (sig m 1 p / m_fy m) * m_fy m).
    { unfold Rdiv. rewrite Rabs_mult, Rabs_inv, (Rabs_right (m_fy m)) by lra. field. lra. }
    rewrite B', L1. rewrite <- Rmult_assoc, Hy1. ring.
Qed.

Lemma upd_xx c m acc p : p_ixx_c c * p_iyy_c c - p_ixy_c c ^ 2 <> 0 ->
  q_xx (upd_yield c m acc p) = Rmax (q_xx acc) (Rabs (bend_xx c (m_E m) 1 p / m_fy m)).
Proof.
  intros Hd. unfold upd_yield, unit_stress, bend_xx. destruct (principal_coordinate _ _ _) as [x11 y22].
  cbn [q_xx]. do 2 f_equal. unfold Rdiv at 1 4. f_equal. field. exact Hd.
Qed.
Lemma upd_yy c m acc p : p_ixx_c c * p_iyy_c c - p_ixy_c c ^ 2 <> 0 ->
  q_yy (upd_yield c m acc p) = Rmax (q_yy acc) (Rabs (bend_yy c (m_E m) 1 p / m_fy m)).
Proof.
  intros Hd. unfold upd_yield, unit_stress, bend_yy. destruct (principal_coordinate _ _ _) as [x11 y22].
  cbn [q_yy]. do 2 f_equal. unfold Rdiv at 1 4. f_equal. field. exact Hd.
Qed.
Lemma upd_11 c m acc p : p_i11_c c <> 0 ->
  q_11 (upd_yield c m acc p) = Rmax (q_11 acc) (Rabs (bend_11 c (m_E m) 1 p / m_fy m)).
Proof.
  intros Hd. unfold upd_yield, unit_stress, bend_11. destruct (principal_coordinate _ _ _) as [x11 y22].
  cbn [q_11 fst snd]. do 2 f_equal. unfold Rdiv at 1 3. f_equal. field. exact Hd.
Qed.
Lemma upd_22 c m acc p : p_i22_c c <> 0 ->
  q_22 (upd_yield c m acc p) = Rmax (q_22 acc) (Rabs (bend_22 c (m_E m) 1 p / m_fy m)).
Proof.
  intros Hd. unfold upd_yield, unit_stress, bend_22. destruct (principal_coordinate _ _ _) as [x11 y22].
  cbn [q_22 fst snd]. do 2 f_equal. unfold Rdiv at 1 3. f_equal. field. exact Hd.
Qed.

(** ** Location of the centroid *)

Lemma el_q_affine (el : tri6) (u v k : R) : valid_el el ->
  el_q el (fun x y => u * x + v * y + k) =
  orient (corner_a el) (corner_b el) (corner_c el) / 6 *
   ((u * fst (corner_a el) + v * snd (corner_a el) + k) + (u * fst (corner_b el) + v * snd (corner_b el) + k)
    + (u * fst (corner_c el) + v * snd (corner_c el) + k)).
Proof.
  intros Hv. rewrite el_q_valid by exact Hv. unfold el_q4, sumf, Rsum, gps4, el_point.
  cbn [map fold_right g_w g_eta g_xi g_zeta fst snd]. set (D := orient _ _ _). field.
Qed.

Lemma corners_not_all (el : tri6) (u v k : R) : valid_el el -> (u <> 0 \/ v <> 0) ->
  ~ (u * fst (corner_a el) + v * snd (corner_a el) + k = 0 /\
     u * fst (corner_b el) + v * snd (corner_b el) + k = 0 /\
     u * fst (corner_c el) + v * snd (corner_c el) + k = 0).
Proof.
  intros Hv Huv [H1 [H2 H3]]. pose proof (el_q_square_pos el u v k Hv Huv) as P.
  rewrite el_q_square in P by exact Hv. cbv zeta in P. rewrite H1, H2, H3 in P. lra.
Qed.

Lemma centroid_half_plane (els : list tri6) (u v k : R) :
  els <> [] -> valid_mesh els -> pos_moduli els -> (u <> 0 \/ v <> 0) ->
  (forall el p, In el els -> In p [corner_a el; corner_b el; corner_c el] -> 0 <= u * fst p + v * snd p + k) ->
  let c := centroidal_of (section_totals els) in
  0 < u * p_cx c + v * p_cy c + k.
Proof.
  intros Hn Hv Hp Huv H c. pose proof (ea_pos els Hn Hv Hp) as He.
  assert (P : 0 < mesh_q m_E (fun x y => u * x + v * y + k) els).
  { apply sumf_pos; [exact Hn|]. intros el Hel. apply Rmult_lt_0_compat; [apply Hp, Hel|].
    rewrite el_q_affine by (apply Hv, Hel). destruct (Hv el Hel) as [_ Ho].
    apply Rmult_lt_0_compat; [lra|].
    pose proof (H el (corner_a el) Hel ltac:(cbn; auto)) as A.
    pose proof (H el (corner_b el) Hel ltac:(cbn; auto)) as B.
    pose proof (H el (corner_c el) Hel ltac:(cbn; auto)) as C.
    pose proof (corners_not_all el u v k (Hv el Hel) Huv) as N.
    set (la := u * fst (corner_a el) + v * snd (corner_a el) + k) in *.
    set (lb := u * fst (corner_b el) + v * snd (corner_b el) + k) in *.
    set (lc := u * fst (corner_c el) + v * snd (corner_c el) + k) in *.
    destruct (Req_dec la 0); [|lra]. destruct (Req_dec lb 0); [|lra]. destruct (Req_dec lc 0); [tauto|lra]. }
  rewrite (mesh_q_ext m_E _ (quad k u v 0 0 0)) in P by (intros; unfold quad; ring).
  rewrite mesh_q_quad in P.
  unfold c, centroidal_of. cbn [p_cx p_cy]. rewrite section_totals_q in *. red_tot. cbn [t_ea] in He.
  set (ea := mesh_q m_E (fun _ _ => 1) els) in *.
  set (qx := mesh_q m_E (fun _ y => y) els) in *. set (qy := mesh_q m_E (fun x _ => x) els) in *.
  replace (u * (qy / ea) + v * (qx / ea) + k) with ((k * ea + u * qy + v * qx) / ea) by (field; lra).
  apply Rdiv_lt_0_compat; lra.
Qed.

(** ** Effective moduli *)

Lemma homogeneous_effective (els : list tri6) (m : material) :
  els <> [] -> valid_mesh els -> (forall el, In el els -> el_mat el = m) ->
  m_E m <> 0 -> 1 + m_nu m <> 0 ->
  let t := section_totals els in
  nu_eff t = m_nu m /\ e_eff t = m_E m /\ g_eff t = shear_modulus m.
Proof.
  intros Hn Hv Hm HE Hnu t.
  pose proof (area_pos els Hn Hv) as Ha. fold t in Ha.
  assert (W : forall w, mesh_q w (fun _ _ => 1) els = w m * t_area t).
  { intros w. unfold t. rewrite section_totals_q. red_tot. unfold mesh_q. rewrite <- sumf_scal.
    apply sumf_ext. intros el Hel. rewrite (Hm el Hel). unfold one_w. ring. }
  assert (E1 : t_ea t = m_E m * t_area t) by (rewrite <- W; unfold t; rewrite section_totals_q; reflexivity).
  assert (E2 : t_ga t = shear_modulus m * t_area t) by (rewrite <- W; unfold t; rewrite section_totals_q; reflexivity).
  unfold nu_eff, e_eff, g_eff. rewrite E1, E2. unfold shear_modulus.
  repeat split; field; repeat split; try lra; assumption.
Qed.

Lemma weighted_between (els : list tri6) (w w' : material -> R) (lo hi : R) :
  valid_mesh els ->
  (forall el, In el els -> lo * w' (el_mat el) <= w (el_mat el) <= hi * w' (el_mat el)) ->
  lo * mesh_q w' (fun _ _ => 1) els <= mesh_q w (fun _ _ => 1) els <= hi * mesh_q w' (fun _ _ => 1) els.
Proof.
  intros Hv H. unfold mesh_q. rewrite <- !sumf_scal. split; apply sumf_le; intros el Hel;
    pose proof (el_q_one_pos el (Hv el Hel)); pose proof (H el Hel); nra.
Qed.

Lemma e_eff_between (els : list tri6) (lo hi : R) :
  els <> [] -> valid_mesh els -> (forall el, In el els -> lo <= m_E (el_mat el) <= hi) ->
  lo <= e_eff (section_totals els) <= hi.
Proof.
  intros Hn Hv H. pose proof (area_pos els Hn Hv) as Ha. unfold e_eff. rewrite section_totals_q in *.
  red_tot. cbn [t_area] in Ha.
  destruct (weighted_between els m_E one_w lo hi Hv) as [A B].
  { intros el Hel. unfold one_w. pose proof (H el Hel). lra. }
  split; [apply Rle_div_r|apply Rle_div_l]; assumption.
Qed.

Lemma g_eff_between (els : list tri6) (lo hi : R) :
  els <> [] -> valid_mesh els -> (forall el, In el els -> lo <= shear_modulus (el_mat el) <= hi) ->
  lo <= g_eff (section_totals els) <= hi.
Proof.
  intros Hn Hv H. pose proof (area_pos els Hn Hv) as Ha. unfold g_eff. rewrite section_totals_q in *.
  red_tot. cbn [t_area] in Ha.
  destruct (weighted_between els shear_modulus one_w lo hi Hv) as [A B].
  { intros el Hel. unfold one_w. pose proof (H el Hel). lra. }
  split; [apply Rle_div_r|apply Rle_div_l]; assumption.
Qed.

Lemma nu_eff_between (els : list tri6) (lo hi : R) :
  els <> [] -> valid_mesh els -> pos_moduli els -> -1 < lo ->
  (forall el, In el els -> lo <= m_nu (el_mat el) <= hi) ->
  lo <= nu_eff (section_totals els) <= hi.
Proof.
  intros Hn Hv Hp Hlo H.
  assert (G : forall el, In el els -> 0 < shear_modulus (el_mat el)).
  { intros el Hel. unfold shear_modulus. pose proof (H el Hel). pose proof (Hp el Hel).
    apply Rdiv_lt_0_compat; lra. }
  assert (Hg : 0 < mesh_q shear_modulus (fun _ _ => 1) els).
  { apply sumf_pos; [exact Hn|]. intros el Hel. apply Rmult_lt_0_compat; [apply G, Hel|apply el_q_one_pos, Hv, Hel]. }
  unfold nu_eff. rewrite section_totals_q. red_tot.
  destruct (weighted_between els m_E shear_modulus (2 * (1 + lo)) (2 * (1 + hi)) Hv) as [A B].
  { intros el Hel. pose proof (H el Hel) as N. pose proof (G el Hel) as P.
    assert (E : m_E (el_mat el) = 2 * (1 + m_nu (el_mat el)) * shear_modulus (el_mat el)).
    { unfold shear_modulus. field. lra. }
    rewrite E. split; apply Rmult_le_compat_r; lra. }
  set (ga := mesh_q shear_modulus (fun _ _ => 1) els) in *. set (ea := mesh_q m_E (fun _ _ => 1) els) in *.
  assert (1 + lo <= ea / (2 * ga)) by (apply Rle_div_r; lra).
  assert (ea / (2 * ga) <= 1 + hi) by (apply Rle_div_l; lra). lra.
Qed.

(** ** Uniform scaling of the moduli *)


Lemma scale_E_totals (k : R) (els : list tri6) :
  let t := section_totals els in
  section_totals (map (scale_E k) els) =
  mkTotals (t_area t) (t_mass t) (k * t_ea t) (k * t_ga t) (k * t_qx t) (k * t_qy t)
    (k * t_ixx_g t) (k * t_iyy_g t) (k * t_ixy_g t).
Proof.
  rewrite !section_totals_q. red_tot. unfold mesh_q. rewrite !sumf_map, <- !sumf_scal.
  f_equal; apply sumf_ext; intros el _; unfold scale_E, one_w, shear_modulus, el_q, el_qr;
    cbn [el_mat m_E m_nu m_rho el_x el_y]; try reflexivity; try ring.
  unfold Rdiv. ring.
Qed.

Lemma sqrt_scale (k x : R) : 0 <= k -> 0 <= x -> sqrt (k ^ 2 * x) = k * sqrt x.
Proof.
  intros Hk Hx. rewrite sqrt_mult; [|apply pow2_ge_0|exact Hx]. f_equal. apply sqrt_pow2, Hk.
Qed.

Lemma principal_scale (k ixx iyy ixy : R) : 0 <= k ->
  principal_i11 (k * ixx) (k * iyy) (k * ixy) = k * principal_i11 ixx iyy ixy /\
  principal_i22 (k * ixx) (k * iyy) (k * ixy) = k * principal_i22 ixx iyy ixy.
Proof.
  intros Hk.
  assert (D : principal_delta (k * ixx) (k * iyy) (k * ixy) = k * principal_delta ixx iyy ixy).
  { unfold principal_delta. rewrite <- sqrt_scale; [f_equal; field|exact Hk|].
    pose proof (pow2_ge_0 ((ixx - iyy) / 2)). pose proof (pow2_ge_0 ixy). lra. }
  unfold principal_i11, principal_i22. rewrite D. split; field.
Qed.

Lemma principal_phi_scale (k ixx ixy i11 : R) : 0 < k ->
  principal_phi (k * ixx) (k * ixy) (k * i11) = principal_phi ixx ixy i11.
Proof.
  intros Hk. unfold principal_phi. rewrite <- Rmult_minus_distr_l, Rabs_mult, (Rabs_right k) by lra.
  rewrite atan2_scale by exact Hk.
  destruct (Rlt_dec _ _) as [H|H]; destruct (Rlt_dec (Rabs (ixx - i11)) _) as [H'|H']; try reflexivity; exfalso.
  - apply H'. apply (Rmult_lt_reg_l k); lra.
  - apply H. apply (Rmult_lt_compat_l k) in H'; lra.
Qed.

Lemma scale_E_centroidal (k : R) (els : list tri6) : 0 < k -> t_ea (section_totals els) <> 0 ->
  let c := centroidal_of (section_totals els) in
  centroidal_of (section_totals (map (scale_E k) els)) =
  mkCentroidal (p_cx c) (p_cy c) (k * p_ixx_c c) (k * p_iyy_c c) (k * p_ixy_c c)
    (k * p_i11_c c) (k * p_i22_c c) (p_phi c).
Proof.
  intros Hk He c. rewrite scale_E_totals. cbv zeta. unfold c, centroidal_of. red_tot.
  cbn [p_cx p_cy p_ixx_c p_iyy_c p_ixy_c p_i11_c p_i22_c p_phi].
  set (t := section_totals els) in *.
  set (ixx := t_ixx_g t - t_qx t ^ 2 / t_ea t). set (iyy := t_iyy_g t - t_qy t ^ 2 / t_ea t).
  set (ixy := t_ixy_g t - t_qx t * t_qy t / t_ea t).
  replace (k * t_ixx_g t - (k * t_qx t) ^ 2 / (k * t_ea t)) with (k * ixx) by (unfold ixx; field; lra).
  replace (k * t_iyy_g t - (k * t_qy t) ^ 2 / (k * t_ea t)) with (k * iyy) by (unfold iyy; field; lra).
  replace (k * t_ixy_g t - k * t_qx t * (k * t_qy t) / (k * t_ea t)) with (k * ixy) by (unfold ixy; field; lra).
  destruct (principal_scale k ixx iyy ixy ltac:(lra)) as [P1 P2]. rewrite P1, P2, principal_phi_scale by exact Hk.
  f_equal; field; lra.
Qed.

(** ** Maps of the plane: centroidal values *)

Lemma translate_centroidal (dx dy : R) (els : list tri6) : t_ea (section_totals els) <> 0 ->
  let c := centroidal_of (section_totals els) in
  centroidal_of (section_totals (map (translate_el dx dy) els)) =
  mkCentroidal (p_cx c + dx) (p_cy c + dy) (p_ixx_c c) (p_iyy_c c) (p_ixy_c c) (p_i11_c c) (p_i22_c c) (p_phi c).
Proof.
  intros He c. rewrite totals_translate. unfold c, centroidal_of, affine_totals. red_tot.
  cbn [p_cx p_cy p_ixx_c p_iyy_c p_ixy_c p_i11_c p_i22_c p_phi].
  set (t := section_totals els) in *.
  match goal with |- mkCentroidal _ _ ?a ?b ?c _ _ _ = mkCentroidal _ _ ?a' ?b' ?c' _ _ _ =>
    assert (E1 : a = a') by (field; lra); assert (E2 : b = b') by (field; lra);
    assert (E3 : c = c') by (field; lra) end.
  rewrite E1, E2, E3. f_equal; field; lra.
Qed.

Lemma rotate_centroidal (a : R) (els : list tri6) : t_ea (section_totals els) <> 0 ->
  let c := centroidal_of (section_totals els) in
  let c' := centroidal_of (section_totals (map (rotate_el a) els)) in
  p_cx c' = cos a * p_cx c - sin a * p_cy c /\
  p_cy c' = sin a * p_cx c + cos a * p_cy c /\
  p_ixx_c c' = rot_ixx (p_ixx_c c) (p_iyy_c c) (p_ixy_c c) (- a) /\
  p_iyy_c c' = rot_iyy (p_ixx_c c) (p_iyy_c c) (p_ixy_c c) (- a) /\
  p_ixy_c c' = rot_ixy (p_ixx_c c) (p_iyy_c c) (p_ixy_c c) (- a) /\
  p_i11_c c' = p_i11_c c /\ p_i22_c c' = p_i22_c c.
Proof.
  intros He c c'. unfold c'. rewrite totals_rotate. unfold c, centroidal_of, affine_totals. red_tot.
  cbn [p_cx p_cy p_ixx_c p_iyy_c p_ixy_c p_i11_c p_i22_c p_phi].
  set (t := section_totals els) in *.
  unfold rot_ixx, rot_iyy, rot_ixy. rewrite cos_neg, sin_neg.
  match goal with |- _ /\ _ /\ ?a = ?a' /\ ?b = ?b' /\ ?c = ?c' /\ _ =>
    assert (E1 : a = a') by (field; lra); assert (E2 : b = b') by (field; lra);
    assert (E3 : c = c') by (field; lra) end.
  split; [field; lra|]. split; [field; lra|].
  split; [exact E1|]. split; [exact E2|]. split; [exact E3|].
  rewrite E1, E2, E3. clear E1 E2 E3.
  set (ixx := t_ixx_g t - t_qx t ^ 2 / t_ea t). set (iyy := t_iyy_g t - t_qy t ^ 2 / t_ea t).
  set (ixy := t_ixy_g t - t_qx t * t_qy t / t_ea t).
  pose proof (sin2_cos2 a) as Q. unfold Rsqr in Q. set (s := sin a) in *. set (co := cos a) in *.
  match goal with |- principal_i11 ?x ?y ?z = _ /\ _ =>
    assert (T : x + y = ixx + iyy) by (transitivity ((ixx + iyy) * (s * s + co * co)); [ring|rewrite Q; ring]);
    assert (D : ((x - y) / 2) ^ 2 + z ^ 2 = ((ixx - iyy) / 2) ^ 2 + ixy ^ 2) end.
  { transitivity ((((ixx - iyy) / 2) ^ 2 + ixy ^ 2) * (s * s + co * co) ^ 2); [field|rewrite Q; ring]. }
  unfold principal_i11, principal_i22, principal_delta. rewrite T, D. split; reflexivity.
Qed.

Lemma mirror_x_centroidal (els : list tri6) : t_ea (section_totals els) <> 0 ->
  let c := centroidal_of (section_totals els) in
  let c' := centroidal_of (section_totals (map mirror_x_el els)) in
  p_cx c' = p_cx c /\ p_cy c' = - p_cy c /\ p_ixx_c c' = p_ixx_c c /\ p_iyy_c c' = p_iyy_c c /\
  p_ixy_c c' = - p_ixy_c c /\ p_i11_c c' = p_i11_c c /\ p_i22_c c' = p_i22_c c.
Proof.
  intros He c c'. unfold c'. rewrite totals_mirror_x. unfold c, centroidal_of, affine_totals. red_tot.
  cbn [p_cx p_cy p_ixx_c p_iyy_c p_ixy_c p_i11_c p_i22_c p_phi].
  set (t := section_totals els) in *.
  match goal with |- _ /\ _ /\ ?a = ?a' /\ ?b = ?b' /\ ?c = ?c' /\ _ =>
    assert (E1 : a = a') by (field; lra); assert (E2 : b = b') by (field; lra);
    assert (E3 : c = c') by (field; lra) end.
  split; [field; lra|]. split; [field; lra|].
  split; [exact E1|]. split; [exact E2|]. split; [exact E3|].
  rewrite E1, E2, E3. unfold principal_i11, principal_i22, principal_delta.
  replace ((- (t_ixy_g t - t_qx t * t_qy t / t_ea t)) ^ 2) with ((t_ixy_g t - t_qx t * t_qy t / t_ea t) ^ 2) by ring.
  split; reflexivity.
Qed.

Lemma mirror_y_centroidal (els : list tri6) : t_ea (section_totals els) <> 0 ->
  let c := centroidal_of (section_totals els) in
  let c' := centroidal_of (section_totals (map mirror_y_el els)) in
  p_cx c' = - p_cx c /\ p_cy c' = p_cy c /\ p_ixx_c c' = p_ixx_c c /\ p_iyy_c c' = p_iyy_c c /\
  p_ixy_c c' = - p_ixy_c c /\ p_i11_c c' = p_i11_c c /\ p_i22_c c' = p_i22_c c.
Proof.
  intros He c c'. unfold c'. rewrite totals_mirror_y. unfold c, centroidal_of, affine_totals. red_tot.
  cbn [p_cx p_cy p_ixx_c p_iyy_c p_ixy_c p_i11_c p_i22_c p_phi].
  set (t := section_totals els) in *.
  match goal with |- _ /\ _ /\ ?a = ?a' /\ ?b = ?b' /\ ?c = ?c' /\ _ =>
    assert (E1 : a = a') by (field; lra); assert (E2 : b = b') by (field; lra);
    assert (E3 : c = c') by (field; lra) end.
  split; [field; lra|]. split; [field; lra|].
  split; [exact E1|]. split; [exact E2|]. split; [exact E3|].
  rewrite E1, E2, E3. unfold principal_i11, principal_i22, principal_delta.
  replace ((- (t_ixy_g t - t_qx t * t_qy t / t_ea t)) ^ 2) with ((t_ixy_g t - t_qx t * t_qy t / t_ea t) ^ 2) by ring.
  split; reflexivity.
Qed.

Lemma scale_centroidal (k : R) (els : list tri6) : 0 < k -> t_ea (section_totals els) <> 0 ->
  let c := centroidal_of (section_totals els) in
  centroidal_of (section_totals (map (scale_el k) els)) =
  mkCentroidal (k * p_cx c) (k * p_cy c) (k ^ 4 * p_ixx_c c) (k ^ 4 * p_iyy_c c) (k ^ 4 * p_ixy_c c)
    (k ^ 4 * p_i11_c c) (k ^ 4 * p_i22_c c) (p_phi c).
Proof.
  intros Hk He c. rewrite totals_scale. unfold c, centroidal_of, affine_totals. red_tot.
  cbn [p_cx p_cy p_ixx_c p_iyy_c p_ixy_c p_i11_c p_i22_c p_phi].
  set (t := section_totals els) in *.
  set (ixx := t_ixx_g t - t_qx t ^ 2 / t_ea t). set (iyy := t_iyy_g t - t_qy t ^ 2 / t_ea t).
  set (ixy := t_ixy_g t - t_qx t * t_qy t / t_ea t).
  match goal with |- mkCentroidal _ _ ?a ?b ?c _ _ _ = _ =>
    assert (E1 : a = k ^ 4 * ixx) by (unfold ixx; field; lra);
    assert (E2 : b = k ^ 4 * iyy) by (unfold iyy; field; lra);
    assert (E3 : c = k ^ 4 * ixy) by (unfold ixy; field; lra) end.
  rewrite E1, E2, E3.
  assert (Hk4 : 0 < k ^ 4) by (apply pow_lt, Hk).
  destruct (principal_scale (k ^ 4) ixx iyy ixy ltac:(lra)) as [P1 P2].
  rewrite P1, P2, principal_phi_scale by exact Hk4.
  f_equal; field; lra.
Qed.

(** ** Quadratic functions of the centroidal coordinates *)

Lemma mesh_q_centred (els : list tri6) (k0 k1 k2 k3 k4 k5 : R) : t_ea (section_totals els) <> 0 ->
  let c := centroidal_of (section_totals els) in
  mesh_q m_E (fun x y => quad k0 k1 k2 k3 k4 k5 (x - p_cx c) (y - p_cy c)) els =
  k0 * t_ea (section_totals els) + k3 * p_iyy_c c + k4 * p_ixy_c c + k5 * p_ixx_c c.
Proof.
  rewrite section_totals_q. unfold centroidal_of. red_tot.
  cbn [p_cx p_cy p_ixx_c p_iyy_c p_ixy_c]. intros H.
  set (ea := mesh_q m_E (fun _ _ => 1) els) in *.
  set (qx := mesh_q m_E (fun _ y => y) els) in *.
  set (qy := mesh_q m_E (fun x _ => x) els) in *.
  set (cx := qy / ea). set (cy := qx / ea).
  rewrite (mesh_q_ext m_E _ (quad (k0 - k1 * cx - k2 * cy + k3 * cx ^ 2 + k4 * cx * cy + k5 * cy ^ 2)
     (k1 - 2 * k3 * cx - k4 * cy) (k2 - 2 * k5 * cy - k4 * cx) k3 k4 k5)) by (intros; unfold quad; ring).
  rewrite mesh_q_quad. fold ea qx qy. unfold cx, cy. field. exact H.
Qed.

Lemma mesh_int_centred (els : list tri6) (k0 k1 k2 k3 k4 k5 : R) :
  valid_mesh els -> t_ea (section_totals els) <> 0 ->
  let c := centroidal_of (section_totals els) in
  mesh_int m_E (fun x y => quad k0 k1 k2 k3 k4 k5 (x - p_cx c) (y - p_cy c)) els =
  k0 * t_ea (section_totals els) + k3 * p_iyy_c c + k4 * p_ixy_c c + k5 * p_ixx_c c.
Proof.
  intros Hv He c. transitivity (mesh_q m_E (fun x y => quad k0 k1 k2 k3 k4 k5 (x - p_cx c) (y - p_cy c)) els);
    [|exact (mesh_q_centred els k0 k1 k2 k3 k4 k5 He)].
  symmetry. apply mesh_q_exact; [exact Hv|].
  set (cx := p_cx c). set (cy := p_cy c).
  assert (E : poly_deg 3 (quad (k0 - k1 * cx - k2 * cy + k3 * cx ^ 2 + k4 * cx * cy + k5 * cy ^ 2)
     (k1 - 2 * k3 * cx - k4 * cy) (k2 - 2 * k5 * cy - k4 * cx) k3 k4 k5)) by apply poly3_quad.
  eapply (poly_scal 3 1); [exact E|]. intros. unfold quad. ring.
Qed.

Lemma mesh_int_ext (w : material -> R) (f g : R -> R -> R) (els : list tri6) :
  (forall x y, f x y = g x y) -> mesh_int w f els = mesh_int w g els.
Proof.
  intros H. unfold mesh_int. apply sumf_ext. intros el _. f_equal. unfold el_int, tri_int, simplex_int. f_equal.
  apply RInt_ext. intros s _. apply RInt_ext. intros t _. apply H.
Qed.

Lemma rot_integrals (els : list tri6) (t : R) : valid_mesh els -> t_ea (section_totals els) <> 0 ->
  let c := centroidal_of (section_totals els) in
  mesh_int m_E (fun x y => ((y - p_cy c) * cos t - (x - p_cx c) * sin t) ^ 2) els =
    rot_ixx (p_ixx_c c) (p_iyy_c c) (p_ixy_c c) t /\
  mesh_int m_E (fun x y => ((x - p_cx c) * cos t + (y - p_cy c) * sin t) ^ 2) els =
    rot_iyy (p_ixx_c c) (p_iyy_c c) (p_ixy_c c) t /\
  mesh_int m_E (fun x y => ((x - p_cx c) * cos t + (y - p_cy c) * sin t) *
                           ((y - p_cy c) * cos t - (x - p_cx c) * sin t)) els =
    rot_ixy (p_ixx_c c) (p_iyy_c c) (p_ixy_c c) t.
Proof.
  intros Hv He c. split; [|split].
  - rewrite (mesh_int_ext _ _ (fun x y => quad 0 0 0 (sin t ^ 2) (- 2 * sin t * cos t) (cos t ^ 2) (x - p_cx c) (y - p_cy c)))
      by (intros; unfold quad; ring).
    unfold c. rewrite mesh_int_centred by assumption. unfold rot_ixx. ring.
  - rewrite (mesh_int_ext _ _ (fun x y => quad 0 0 0 (cos t ^ 2) (2 * sin t * cos t) (sin t ^ 2) (x - p_cx c) (y - p_cy c)))
      by (intros; unfold quad; ring).
    unfold c. rewrite mesh_int_centred by assumption. unfold rot_iyy. ring.
  - rewrite (mesh_int_ext _ _ (fun x y => quad 0 0 0 (- sin t * cos t) (cos t ^ 2 - sin t ^ 2) (sin t * cos t) (x - p_cx c) (y - p_cy c)))
      by (intros; unfold quad; ring).
    unfold c. rewrite mesh_int_centred by assumption. unfold rot_ixy. ring.
Qed.

Lemma centroid_integrals (els : list tri6) : valid_mesh els -> t_ea (section_totals els) <> 0 ->
  let c := centroidal_of (section_totals els) in
  mesh_int m_E (fun x _ => x - p_cx c) els = 0 /\
  mesh_int m_E (fun _ y => y - p_cy c) els = 0 /\
  p_ixx_c c = mesh_int m_E (fun _ y => (y - p_cy c) ^ 2) els /\
  p_iyy_c c = mesh_int m_E (fun x _ => (x - p_cx c) ^ 2) els /\
  p_ixy_c c = mesh_int m_E (fun x y => (x - p_cx c) * (y - p_cy c)) els.
Proof.
  intros Hv He c.
  assert (K : forall f k0 k1 k2 k3 k4 k5,
    (forall x y, f x y = quad k0 k1 k2 k3 k4 k5 (x - p_cx c) (y - p_cy c)) ->
    mesh_int m_E f els = k0 * t_ea (section_totals els) + k3 * p_iyy_c c + k4 * p_ixy_c c + k5 * p_ixx_c c).
  { intros f k0 k1 k2 k3 k4 k5 H. rewrite (mesh_int_ext _ _ _ els H). apply mesh_int_centred; assumption. }
  rewrite (K _ 0 1 0 0 0 0) by (intros; unfold quad; ring).
  rewrite (K _ 0 0 1 0 0 0) by (intros; unfold quad; ring).
  rewrite (K _ 0 0 0 0 0 1) by (intros; unfold quad; ring).
  rewrite (K _ 0 0 0 1 0 0) by (intros; unfold quad; ring).
  rewrite (K _ 0 0 0 0 1 0) by (intros; unfold quad; ring).
  repeat split; ring.
Qed.

Lemma phi_range_all (ixx iyy ixy : R) : 0 < principal_i11 ixx iyy ixy ->
  -180 < principal_phi ixx ixy (principal_i11 ixx iyy ixy) <= 0.
Proof.
  intros H. destruct (Rlt_dec (Rabs (ixx - principal_i11 ixx iyy ixy)) (1 / 10 ^ 12 * principal_i11 ixx iyy ixy)) as [B|B].
  - unfold principal_phi. destruct (Rlt_dec _ _); [lra|contradiction].
  - destruct (phi_axes ixx iyy ixy B H) as [_ [_ [_ G]]]. lra.
Qed.

(** The principal axes of a mesh. *)
Lemma principal_axes_mesh (els : list tri6) : els <> [] -> valid_mesh els -> pos_moduli els ->
  let c := centroidal_of (section_totals els) in
  let t := p_phi c * PI / 180 in
  let prod := mesh_int m_E (fun x y => fst (pr11 c (x, y)) * snd (pr11 c (x, y))) els in
  let about11 := mesh_int m_E (fun x y => snd (pr11 c (x, y)) ^ 2) els in
  let about22 := mesh_int m_E (fun x y => fst (pr11 c (x, y)) ^ 2) els in
  -180 < p_phi c <= 0 /\
  (prod = 0 /\ about11 = p_i11_c c /\ about22 = p_i22_c c \/
   p_phi c = 0 /\ Rabs prod <= 1 / 10 ^ 6 * p_i11_c c /\ Rabs (about11 - p_i11_c c) <= 1 / 10 ^ 12 * p_i11_c c /\
   Rabs (about22 - p_i22_c c) <= 1 / 10 ^ 12 * p_i11_c c).
Proof.
  intros Hn Hv Hp c t prod about11 about22.
  pose proof (ea_pos els Hn Hv Hp) as He.
  destruct (rot_integrals els t Hv ltac:(lra)) as [R1 [R2 R3]]. fold c in R1, R2, R3.
  assert (Ep : prod = rot_ixy (p_ixx_c c) (p_iyy_c c) (p_ixy_c c) t) by exact R3.
  assert (E1 : about11 = rot_ixx (p_ixx_c c) (p_iyy_c c) (p_ixy_c c) t) by exact R1.
  assert (E2 : about22 = rot_iyy (p_ixx_c c) (p_iyy_c c) (p_ixy_c c) t) by exact R2.
  destruct (inertia_pos els Hn Hv Hp) as [B [A C]]. fold c in A, B, C.
  destruct (principal_pos _ _ _ A B C) as [G1 G2].
  rewrite Ep, E1, E2. clear Ep E1 E2 R1 R2 R3 prod about11 about22.
  change (p_i11_c c) with (principal_i11 (p_ixx_c c) (p_iyy_c c) (p_ixy_c c)).
  change (p_i22_c c) with (principal_i22 (p_ixx_c c) (p_iyy_c c) (p_ixy_c c)).
  assert (Ph : p_phi c = principal_phi (p_ixx_c c) (p_ixy_c c) (principal_i11 (p_ixx_c c) (p_iyy_c c) (p_ixy_c c))) by reflexivity.
  unfold t. clear t. rewrite Ph. clear Ph He. generalize dependent (p_ixx_c c). generalize dependent (p_iyy_c c).
  generalize (p_ixy_c c). intros ixy iyy B ixx A C G1 G2.
  assert (I : 0 < principal_i11 ixx iyy ixy) by lra.
  split; [apply phi_range_all, I|].
  destruct (Rlt_dec (Rabs (ixx - principal_i11 ixx iyy ixy)) (1 / 10 ^ 12 * principal_i11 ixx iyy ixy)) as [D|D].
  - right. destruct (phi_tolerance ixx iyy ixy D ltac:(lra)) as [E F]. rewrite E.
    replace (0 * PI / 180) with 0 by field. unfold rot_ixy, rot_ixx, rot_iyy. rewrite sin_0, cos_0.
    split; [reflexivity|]. 
    replace (ixy * (1 ^ 2 - 0 ^ 2) + (ixx - iyy) * 0 * 1) with ixy by ring.
    replace (ixx * 1 ^ 2 - 2 * ixy * 0 * 1 + iyy * 0 ^ 2) with ixx by ring.
    replace (iyy * 1 ^ 2 + 2 * ixy * 0 * 1 + ixx * 0 ^ 2) with iyy by ring.
    split; [exact F|]. split; [lra|].
    pose proof (principal_sum ixx iyy ixy) as S.
    replace (iyy - principal_i22 ixx iyy ixy) with (- (ixx - principal_i11 ixx iyy ixy)) by lra.
    rewrite Rabs_Ropp. lra.
  - left. destruct (phi_axes ixx iyy ixy D I) as [F1 [F2 [F3 _]]]. auto.
Qed.

Lemma principal_extreme_mesh (els : list tri6) (t : R) : valid_mesh els -> t_ea (section_totals els) <> 0 ->
  let c := centroidal_of (section_totals els) in
  p_i22_c c <= mesh_int m_E (fun x y => ((y - p_cy c) * cos t - (x - p_cx c) * sin t) ^ 2) els <= p_i11_c c.
Proof.
  intros Hv He c. destruct (rot_integrals els t Hv He) as [R1 _]. fold c in R1. rewrite R1. apply rot_bounds.
Qed.
