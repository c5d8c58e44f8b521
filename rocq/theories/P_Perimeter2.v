(** Proofs about perimeters: regular polygons, motions; overlapping regions. *)
From Coq Require Import Reals List Bool Arith Lra Lia.
From Verif Require Import Base M_Fea M_Init M_Geometry S_Geometry P_Geometry P_Geometry3 P_Geometry6 M_Library S_Library P_Library P_Library2 P_Library3 P_Library5 S_Outline M_Perimeter S_Perimeter P_Perimeter.
Import ListNotations.
Local Open Scope R_scope.

Lemma ngon_length d n : (1 <= n)%nat -> 0 <= d -> ring_length (ellipse_points d d n) = INR n * (d * sin (PI / INR n)).
Proof.
  intros H Hd. assert (1 <= INR n) by (apply (le_INR 1); exact H). pose proof PI_RGT_0 as HP.
  set (t := fun i => INR i * 2 * PI / INR n). set (F := fun i => (fst (0, 0) + d / 2 * cos (t i), snd (0, 0) + d / 2 * sin (t i))).
  assert (E : ellipse_points d d n = map F (seq 0 n)). { unfold ellipse_points. apply map_ext. intros i. unfold F, t. cbn [fst snd]. f_equal; ring. }
  assert (FN : F n = F 0%nat). { unfold F, t. replace (INR n * 2 * PI / INR n) with (0 + 2 * INR 1 * PI) by (cbn [INR]; field; lra). rewrite cos_period, sin_period. cbn [INR]. replace (0 * 2 * PI / INR n) with 0 by (unfold Rdiv; ring). reflexivity. }
  rewrite E. destruct n as [|n]; [lia|]. unfold ring_length. cbn [seq map]. rewrite around_path. rewrite <- FN at 2.
  assert (Q : map F (seq 0 (S (S n))) = F 0%nat :: map F (seq 1 n) ++ [F (S n)]).
  { rewrite (seq_S (S n) 0). rewrite map_app. cbn [seq map app Nat.add]. reflexivity. }
  assert (A : Rabs (2 * PI / INR (S n)) = 2 * PI / INR (S n)) by (apply Rabs_pos_eq; left; apply Rdiv_lt_0_compat; lra).
  assert (L : 2 * PI / INR (S n) <= 2 * PI). { apply Rmult_le_reg_r with (INR (S n)); [lra|]. unfold Rdiv. rewrite Rmult_assoc, Rinv_l by lra. nra. }
  assert (TS : forall i, t (S i) = t i + 2 * PI / INR (S n)) by (intros i; unfold t; rewrite (S_INR i); field; lra).
  assert (X := arc_length (0, 0) (d / 2) t (2 * PI / INR (S n)) ltac:(lra) TS ltac:(rewrite A; exact L) (S n) 0%nat). transitivity (path pt_dist (map F (seq 0 (S (S n))))); [f_equal; symmetry; exact Q|]. etransitivity; [exact X|].
  rewrite A. replace (2 * PI / INR (S n) / 2) with (PI / INR (S n)) by (field; lra). field.
Qed.
Lemma sin_below x : 0 < x -> sin x < x. Proof. apply sin_lt_x. Qed.
Lemma sin_above x : 0 <= x -> x <= 4 -> x - x ^ 3 / 6 <= sin x.
Proof.
  intros H1 H2. pose proof (pre_sin_bound x 0 H1 H2) as [B _]. unfold sin_approx, sin_term in B. cbn [sum_f_R0 Nat.mul Nat.add fact INR pow] in B.
  replace (x - x ^ 3 / 6) with (1 * (x * 1 / 1) + -1 * 1 * (x * (x * (x * 1)) / 6)) by field. cbn in B. lra.
Qed.
Lemma ngon_bounds d n : (2 <= n)%nat -> 0 < d -> PI * d * (1 - (PI / INR n) ^ 2 / 6) <= INR n * (d * sin (PI / INR n)) < PI * d.
Proof.
  intros H Hd. assert (2 <= INR n) by (apply (le_INR 2); exact H). pose proof PI_RGT_0 as HP. pose proof PI_4 as HP4. assert (X : 0 < PI / INR n) by (apply Rdiv_lt_0_compat; lra).
  assert (X4 : PI / INR n <= 4). { apply Rmult_le_reg_r with (INR n); [lra|]. unfold Rdiv. rewrite Rmult_assoc, Rinv_l by lra. lra. }
  pose proof (sin_below _ X) as U. pose proof (sin_above _ (Rlt_le _ _ X) X4) as L. assert (E : INR n * (PI / INR n) = PI) by (field; lra).
  set (x := PI / INR n) in *. split.
  - replace (PI * d * (1 - x ^ 2 / 6)) with (INR n * (d * (x - x ^ 3 / 6))); [apply Rmult_le_compat_l; [lra|]; apply Rmult_le_compat_l; lra|]. rewrite <- E. field.
  - rewrite <- E. replace (INR n * x * d) with (INR n * (d * x)) by ring. apply Rmult_lt_compat_l; [lra|]. apply Rmult_lt_compat_l; lra.
Qed.
Lemma quarter_bounds n r : (2 <= n)%nat -> 0 < r -> PI / 2 * r * (1 - (PI / 4 / INR (n - 1)) ^ 2 / 6) <= quarter n r < PI / 2 * r.
Proof.
  intros H Hr. assert (1 <= INR (n - 1)) by (apply (le_INR 1); lia). pose proof PI_RGT_0 as HP. pose proof PI_4 as HP4. unfold quarter. assert (X : 0 < PI / 4 / INR (n - 1)) by (apply Rdiv_lt_0_compat; lra).
  assert (X4 : PI / 4 / INR (n - 1) <= 4). { apply Rmult_le_reg_r with (INR (n - 1)); [lra|]. unfold Rdiv. rewrite Rmult_assoc, Rinv_l by lra. lra. }
  pose proof (sin_below _ X) as U. pose proof (sin_above _ (Rlt_le _ _ X) X4) as L. assert (E : INR (n - 1) * (PI / 4 / INR (n - 1)) = PI / 4) by (field; lra).
  set (x := PI / 4 / INR (n - 1)) in *. replace (PI / 2 * r) with (INR (n - 1) * (2 * r * x)) by (replace (INR (n - 1) * (2 * r * x)) with (2 * r * (INR (n - 1) * x)) by ring; rewrite E; field). split.
  - replace (INR (n - 1) * (2 * r * x) * (1 - x ^ 2 / 6)) with (INR (n - 1) * (2 * r * (x - x ^ 3 / 6))) by field. apply Rmult_le_compat_l; [lra|]. apply Rmult_le_compat_l; lra.
  - apply Rmult_lt_compat_l; [lra|]. apply Rmult_lt_compat_l; lra.
Qed.

(** ** motions *)
Lemma translate_iso dx dy : isometry (translate_pt dx dy).
Proof. intros a b. unfold pt_dist, translate_pt. cbn [fst snd]. f_equal. ring. Qed.
Lemma rotate_iso t o : isometry (rotate_pt t o).
Proof.
  intros a b. unfold pt_dist, rotate_pt. cbn [fst snd]. f_equal. pose proof (sin2_cos2 t) as S. unfold Rsqr in S.
  match goal with |- ?l = _ => replace l with ((sin t * sin t + cos t * cos t) * ((fst b - fst a) ^ 2 + (snd b - snd a) ^ 2)) by ring end. rewrite S. ring.
Qed.
Lemma mirror_iso axis o : isometry (scale_pt (fst (mirror_factors axis)) (snd (mirror_factors axis)) o).
Proof. intros a b. unfold pt_dist, scale_pt, mirror_factors. f_equal. destruct (String.eqb axis _); [|destruct (String.eqb axis _)]; cbn [fst snd]; ring. Qed.
Lemma moved_perimeter f sh p m c tol : isometry f ->
  Rabs (calculate_perimeter (new_geometry sh (map_polygon f p) m c tol) - ring_length (ext p)) <= INR (length (ext p)) * (2 / 10 ^ tol).
Proof. intros H. pose proof (perimeter_new sh (map_polygon f p) m c tol) as B. unfold map_polygon in B at 2 3. cbn [ext] in B. rewrite map_length, (length_map f _ H) in B. exact B. Qed.

(** ** overlaps *)
Lemma sumf_zero {A} (l : list A) : sumf (fun _ => 0) l = 0.
Proof. unfold sumf, Rsum. induction l as [|a l IH]; [reflexivity|]. cbn [map fold_right]. rewrite IH. lra. Qed.
Lemma sumf_plus' {A} (f g : A -> R) l : sumf (fun x => f x + g x) l = sumf f l + sumf g l.
Proof. unfold sumf, Rsum. induction l as [|a l IH]; cbn [map fold_right]; lra. Qed.
Lemma sumf_ext' {A} (f g : A -> R) l : (forall x, In x l -> f x = g x) -> sumf f l = sumf g l.
Proof. intros H. unfold sumf. f_equal. apply map_ext_in. exact H. Qed.
Lemma sumf_swap {A B} (f : A -> B -> R) l m : sumf (fun x => sumf (f x) m) l = sumf (fun y => sumf (fun x => f x y) l) m.
Proof.
  induction l as [|a l IH]; [symmetry; apply sumf_zero|]. change (sumf (f a) m + sumf (fun x => sumf (f x) m) l = sumf (fun y => f a y + sumf (fun x => f x y) l) m).
  rewrite sumf_plus', IH. reflexivity.
Qed.
Lemma sumf_index {A} (f : A -> R) (g : nat -> R) : forall l k, (forall i x, nth_error l i = Some x -> f x = g (k + i)%nat) -> sumf f l = sumf g (seq k (length l)).
Proof.
  induction l as [|a l IH]; intros k H; [reflexivity|]. cbn [length seq]. change (f a + sumf f l = g k + sumf g (seq (S k) (length l))).
  rewrite (H 0%nat a eq_refl), Nat.add_0_r. f_equal. apply IH. intros i x Hi. rewrite (H (S i) x Hi). f_equal. lia.
Qed.
Lemma layers_sum (v : R) : forall bs, sumf (fun i => if nth i bs false then v else 0) (seq 0 (length bs)) = INR (length (filter (fun b => b) bs)) * v.
Proof.
  induction bs as [|b bs IH]; [cbn; unfold sumf, Rsum; cbn; lra|]. cbn [length seq]. rewrite <- seq_shift. unfold sumf in *. cbn [map]. rewrite map_map. unfold Rsum in *. cbn [fold_right nth].
  rewrite IH. destruct b; cbn [filter length]; [rewrite S_INR|]; lra.
Qed.
Lemma total_area cs lop ua : cut_into cs lop ua -> sumf poly_area lop = sumf (fun c => INR (layers c) * fst c) cs.
Proof.
  intros (F & A & _). rewrite (sumf_index poly_area (fun i => sumf (fun c => if nth i (snd c) false then fst c else 0) cs) lop 0 A). rewrite sumf_swap. apply sumf_ext'. intros c Hc. rewrite Forall_forall in F.
  destruct (F c Hc) as [_ L]. rewrite <- L. apply layers_sum.
Qed.
Lemma sum_union cs lop ua : cut_into cs lop ua -> sumf poly_area lop - ua lop = double_counted cs.
Proof.
  intros H. rewrite (total_area _ _ _ H). destruct H as (_ & _ & ->). unfold double_counted. induction cs as [|c cs IH]; [unfold sumf, Rsum; cbn; lra|].
  unfold sumf, Rsum in *. cbn [map fold_right]. replace (_ - _) with ((INR (layers c) * fst c - (if Nat.eqb (layers c) 0 then 0 else fst c)) + (fold_right Rplus 0 (map (fun c => INR (layers c) * fst c) cs) - fold_right Rplus 0 (map (fun c => if Nat.eqb (layers c) 0 then 0 else fst c) cs))) by lra.
  rewrite IH. f_equal. destruct (layers c) as [|k]; cbn [Nat.eqb Nat.sub]; [cbn [INR]; lra|]. rewrite S_INR, Nat.sub_0_r. lra.
Qed.
Lemma sumf_nonneg {A} (f : A -> R) l : (forall x, In x l -> 0 <= f x) -> 0 <= sumf f l.
Proof. intros H. unfold sumf, Rsum. induction l as [|a l IH]; [cbn; lra|]. cbn [map fold_right]. pose proof (H a (or_introl eq_refl)). assert (0 <= fold_right Rplus 0 (map f l)) by (apply IH; intros; apply H; right; assumption). lra. Qed.
Lemma double_nonneg cs lop ua : cut_into cs lop ua -> 0 <= double_counted cs /\ 0 <= ua lop.
Proof.
  intros (F & _ & E). rewrite Forall_forall in F. split.
  - apply sumf_nonneg. intros c Hc. apply Rmult_le_pos; [apply pos_INR|]. destruct (F c Hc). lra.
  - rewrite E. apply sumf_nonneg. intros c Hc. destruct (F c Hc). destruct (Nat.eqb _ _); lra.
Qed.
Lemma overlaps_iff cs lop ua : cut_into cs lop ua -> check_geometry_overlaps ua lop = true <-> 1 / 10 ^ 9 * sumf poly_area lop < double_counted cs.
Proof.
  intros H. pose proof (sum_union _ _ _ H) as D. destruct (double_nonneg _ _ _ H) as [P U]. unfold check_geometry_overlaps, math_isclose. set (S := sumf poly_area lop) in *. set (A := ua lop) in *.
  assert (E1 : Rabs (A - S) = double_counted cs) by (rewrite Rabs_left1; lra). assert (0 <= S) by lra.
  assert (E2 : Rmax (1 / 10 ^ 9 * Rmax (Rabs A) (Rabs S)) 0 = 1 / 10 ^ 9 * S). { rewrite !Rabs_pos_eq by lra. rewrite (Rmax_right A S) by lra. apply Rmax_left. apply Rmult_le_pos; lra. }
  rewrite E1, E2. destruct (Rle_dec _ _); cbn [negb]; split; intros; try discriminate; try reflexivity; lra.
Qed.
Lemma sumf_one {A} (f : A -> R) l x : (forall y, In y l -> 0 <= f y) -> In x l -> f x <= sumf f l.
Proof.
  intros P H. apply in_split in H. destruct H as (l1 & l2 & ->). assert (E : sumf f (l1 ++ x :: l2) = f x + sumf f (l1 ++ l2)).
  { unfold sumf, Rsum. induction l1 as [|a l1 IH]; [reflexivity|]. cbn [app map fold_right]. rewrite IH; [lra|]. intros y Hy. apply P. right. exact Hy. }
  rewrite E. assert (0 <= sumf f (l1 ++ l2)) by (apply sumf_nonneg; intros y Hy; apply P; rewrite in_app_iff in *; cbn [In]; tauto). lra.
Qed.
Lemma double_one cs lop ua c : cut_into cs lop ua -> In c cs -> (2 <= layers c)%nat -> fst c <= double_counted cs.
Proof.
  intros (F & _) Hc L. rewrite Forall_forall in F. eapply Rle_trans; [|apply (sumf_one (fun c => INR (layers c - 1) * fst c) cs c); [|exact Hc]].
  - destruct (F c Hc). assert (1 <= INR (layers c - 1)) by (apply (le_INR 1); lia). cbv beta. nra.
  - intros y Hy. destruct (F y Hy). apply Rmult_le_pos; [apply pos_INR|lra].
Qed.
