(** Bars in a circular section. *)
From Coq Require Import String Reals List Bool Arith ZArith Lra Lia Permutation.
From Verif Require Import Base M_Fea M_Init M_Bisect M_Geometry S_Geometry P_Geometry P_Geometry3 P_Geometry6 M_Library S_Library P_Library P_Library2 P_Library5 P_Library6 P_Library8 M_SetOps S_SetOps P_SetOps M_Concrete S_Concrete P_Concrete P_Concrete3 P_Concrete6 P_Concrete7 P_Concrete8 P_Concrete9.
Import ListNotations.
Local Open Scope R_scope.

(** ** Angles *)
Lemma sin_half x : 0 < x -> x <= PI / 3 -> x / 2 <= sin x.
Proof.
  intros H0 H1. pose proof PI_RGT_0. destruct (MVT_cor2 sin cos 0 x H0) as (c & E & C1 & C2); [intros; apply derivable_pt_lim_sin|]. rewrite sin_0, Rminus_0_r, Rminus_0_r in E. rewrite E.
  assert (1 / 2 <= cos c) by (rewrite <- cos_PI3; apply cos_decr_1; lra). nra.
Qed.
Lemma sin_n n : (3 <= n)%nat -> 3 / 2 <= INR n * sin (PI / INR n) /\ 0 < sin (PI / INR n) <= 1 /\ 0 < cos (PI / INR n).
Proof.
  intros H. assert (N : 3 <= INR n) by (apply le_INR in H; cbn in H; lra). pose proof PI_RGT_0. pose proof PI_4. pose proof PI2_3_2 as P3. unfold PI2 in P3.
  assert (X : 0 < PI / INR n) by (apply Rdiv_lt_0_compat; lra). assert (Y : PI / INR n <= PI / 3) by (apply Rmult_le_compat_l; [lra|apply Rinv_le_contravar; lra]).
  pose proof (sin_half _ X Y) as Q. assert (INR n * (PI / INR n / 2) <= INR n * sin (PI / INR n)) by (apply Rmult_le_compat_l; lra). replace (INR n * (PI / INR n / 2)) with (PI / 2) in H2 by (field; lra).
  split; [lra|]. split; [split; [lra|apply SIN_bound]|]. apply cos_gt_0; lra.
Qed.
(** the distance of two points on a circle *)
Lemma chord r a b : 0 <= r -> 0 <= sin (b - a) -> distance (r * cos (2 * a), r * sin (2 * a)) (r * cos (2 * b), r * sin (2 * b)) = 2 * r * sin (b - a).
Proof.
  intros Hr Hs. unfold distance. cbn [fst snd]. transitivity (sqrt ((2 * r * sin (b - a)) * (2 * r * sin (b - a)))); [|apply sqrt_square; repeat apply Rmult_le_pos; lra]. f_equal.
  rewrite !cos_2a, !sin_2a, sin_minus. pose proof (sin2_cos2 a) as A. pose proof (sin2_cos2 b) as B. unfold Rsqr in *. set (ca := cos a) in *. set (sa := sin a) in *. set (cb := cos b) in *. set (sb := sin b) in *.
  assert (Ea : ca * ca = 1 - sa * sa) by lra. assert (Eb : cb * cb = 1 - sb * sb) by lra.
  transitivity (r * r * ((2 * sa * sa - 2 * sb * sb) ^ 2 + (2 * sb * cb - 2 * sa * ca) ^ 2)); [rewrite Ea, Eb; ring|].
  transitivity (4 * (r * r) * ((sa * sa - sb * sb) ^ 2 + sb * sb * (cb * cb) + sa * sa * (ca * ca) - 2 * (sa * sb) * (ca * cb))); [ring|].
  transitivity (4 * (r * r) * (sb * sb * (ca * ca) + sa * sa * (cb * cb) - 2 * (sa * sb) * (ca * cb))); [|ring]. rewrite Ea, Eb. ring.
Qed.
Lemma sin_least n k : (1 <= k)%nat -> (k < n)%nat -> sin (PI / INR n) <= sin (INR k * (PI / INR n)).
Proof.
  intros K1 K2. assert (N : INR k + 1 <= INR n) by (rewrite <- S_INR; apply le_INR; lia). assert (K : 1 <= INR k) by (apply le_INR in K1; cbn in K1; lra). pose proof PI_RGT_0. set (x := PI / INR n).
  assert (X : 0 < x) by (apply Rdiv_lt_0_compat; lra). assert (E : INR n * x = PI) by (unfold x; field; lra).
  destruct (Rle_dec (INR k * x) (PI / 2)) as [L|L]; [apply sin_incr_1; nra|]. rewrite <- (sin_PI_x (INR k * x)). apply sin_incr_1; nra.
Qed.
Lemma ngon_clear n k (r : R) area : (2 <= k)%nat -> 0 <= r -> 2 * circumradius n area + tiny <= 2 * r * sin (PI / INR k) -> ForallOrdPairs (clear_of n) (bars_at area (fun _ => 0%nat) (ngon k (0, 0) r)).
Proof.
  intros Hk Hr C. assert (K : 2 <= INR k) by (apply le_INR in Hk; cbn in Hk; lra).
  assert (G : forall m s, (s + m <= k)%nat -> ForallOrdPairs (clear_of n) (bars_at area (fun _ => 0%nat) (map (fun i => (fst (0, 0) + r * cos (INR i * 2 * PI / INR k), snd (0, 0) + r * sin (INR i * 2 * PI / INR k))) (seq s m)))).
  { induction m as [|m IH]; intros s Hs; [constructor|]. cbn [seq map bars_at]. constructor; [|apply IH; lia]. apply Forall_map, Forall_map, Forall_forall. intros j Hj. apply in_seq in Hj. unfold clear_of. cbn [rb_at rb_area fst snd]. rewrite !Rplus_0_l.
    set (x := PI / INR k). replace (INR s * 2 * PI / INR k) with (2 * (INR s * x)) by (unfold x; field; lra). replace (INR j * 2 * PI / INR k) with (2 * (INR j * x)) by (unfold x; field; lra).
    assert (D : INR j * x - INR s * x = INR (j - s) * x) by (rewrite minus_INR by lia; ring). pose proof (sin_least k (j - s) ltac:(lia) ltac:(lia)) as S. fold x in S.
    assert (0 < sin x). { apply sin_gt_0; unfold x; [apply Rdiv_lt_0_compat; pose proof PI_RGT_0; lra|]. pose proof PI_RGT_0. apply (Rmult_lt_reg_r (INR k)); [lra|]. replace (PI / INR k * INR k) with PI by (field; lra). nra. }
    rewrite chord by (try lra; rewrite D; lra). rewrite D. fold x in C. assert (2 * r * sin x <= 2 * r * sin (INR (j - s) * x)) by (apply Rmult_le_compat_l; lra). lra. }
  apply (G k 0%nat). lia.
Qed.
(** ** Inside a polygon with many vertices *)
Lemma combine_seq (f : nat -> pt) m : forall s, combine (map f (seq s m)) (map f (seq (S s) m)) = map (fun i => (f i, f (S i))) (seq s m).
Proof. induction m as [|m IH]; intros s; [reflexivity|]. cbn [seq map combine]. f_equal. apply IH. Qed.
Lemma edges_seq (f : nat -> pt) n : f n = f 0%nat -> edges (map f (seq 0 n)) = map (fun i => (f i, f (S i))) (seq 0 n).
Proof.
  intros E. destruct n as [|n]; [reflexivity|]. unfold edges. change (tl (map f (seq 0 (S n))) ++ firstn 1 (map f (seq 0 (S n)))) with (map f (seq 1 n) ++ [f 0%nat]). rewrite <- E.
  replace (map f (seq 1 n) ++ [f (S n)]) with (map f (seq 1 (S n))) by (rewrite seq_S, map_app; reflexivity). apply combine_seq.
Qed.
Lemma cross_err a b c d A B C D e1 e2 m1 m2 : Rabs (A - a) <= e1 -> Rabs (B - b) <= e1 -> Rabs (C - c) <= e2 -> Rabs (D - d) <= e2 -> Rabs a <= m1 -> Rabs b <= m1 -> Rabs c <= m2 -> Rabs d <= m2 -> 0 <= e1 -> 0 <= e2 ->
  a * d - b * c - (2 * e1 * m2 + 2 * e2 * m1 + 2 * e1 * e2) <= A * D - B * C.
Proof.
  intros H1 H2 H3 H4 M1 M2 M3 M4 E1 E2.
  assert (P : forall x y u v, Rabs x <= u -> Rabs y <= v -> - (u * v) <= x * y <= u * v).
  { intros x y u v X Y. assert (Q : Rabs (x * y) <= u * v) by (rewrite Rabs_mult; apply Rmult_le_compat; try apply Rabs_pos; assumption). unfold Rabs in Q. destruct (Rcase_abs (x * y)); lra. }
  pose proof (P _ _ _ _ M1 H4). pose proof (P _ _ _ _ M2 H3). pose proof (P _ _ _ _ H1 M4). pose proof (P _ _ _ _ H2 M3). pose proof (P _ _ _ _ H1 H4). pose proof (P _ _ _ _ H2 H3).
  replace (A * D - B * C) with (a * d - b * c + (a * (D - d) - b * (C - c)) + ((A - a) * d - (B - b) * c) + ((A - a) * (D - d) - (B - b) * (C - c))) by ring. lra.
Qed.
Lemma inside_ngon n r p s l : (3 <= n)%nat -> h <= r -> 0 <= s -> reach p s l -> distance (0, 0) p + s + INR n * (100 * h) <= r * cos (PI / INR n) ->
  inside l (map (fun i => round_pt 12 (r * cos (INR i * 2 * PI / INR n), r * sin (INR i * 2 * PI / INR n))) (seq 0 n)).
Proof.
  intros Hn Hr Hs Rl D. pose proof h_pos as Hh. destruct (sin_n n Hn) as (S1 & [S2 S2'] & C1). assert (N : 3 <= INR n) by (apply le_INR in Hn; cbn in Hn; lra). set (t := PI / INR n) in *.
  assert (DP : forall a b, a ^ 2 + b ^ 2 = 1 -> a * fst p + b * snd p <= distance (0, 0) p).
  { intros a b U. unfold distance. cbn [fst snd]. apply (Rle_trans _ (Rabs (a * fst p + b * snd p))); [apply Rle_abs|]. rewrite <- sqrt_Rsqr_abs. apply sqrt_le_1_alt. unfold Rsqr. pose proof (pow2_ge_0 (a * snd p - b * fst p)).
    replace ((fst p - 0) ^ 2 + (snd p - 0) ^ 2) with ((a ^ 2 + b ^ 2) * (fst p ^ 2 + snd p ^ 2)) by (rewrite U; ring). nra. }
  left. apply Forall_forall. intros v Hv. rewrite edges_seq; [|f_equal; replace (INR n * 2 * PI / INR n) with (0 + 2 * PI) by (field; lra); replace (INR 0 * 2 * PI / INR n) with 0 by (cbn; field; lra); rewrite cos_plus, sin_plus, cos_2PI, sin_2PI, cos_0, sin_0; f_equal; ring].
  apply Forall_map, Forall_forall. intros i _. unfold turn, round_pt. cbn [fst snd].
  replace (INR i * 2 * PI / INR n) with (INR i * (2 * t)) by (unfold t; field; lra). replace (INR (S i) * 2 * PI / INR n) with (INR i * (2 * t) + 2 * t) by (rewrite S_INR; unfold t; field; lra).
  set (m := INR i * (2 * t) + t). replace (INR i * (2 * t)) with (m - t) by (unfold m; lra). replace (m - t + 2 * t) with (m + t) by lra.
  rewrite cos_minus, sin_minus, cos_plus, sin_plus. set (cm := cos m). set (sm := sin m). set (ct := cos t) in *. set (st := sin t) in *. assert (V : sm * sm + cm * cm = 1) by apply (sin2_cos2 m). assert (W : st * st + ct * ct = 1) by apply (sin2_cos2 t).
  assert (NV : cm * fst v + sm * snd v <= distance (0, 0) p + s). { pose proof (Rl v cm sm Hv ltac:(lra)). pose proof (DP cm sm ltac:(lra)). lra. }
  assert (BV : forall a b, a ^ 2 + b ^ 2 = 1 -> a * fst v + b * snd v <= r * ct). { intros a b U. pose proof (Rl v a b Hv U). pose proof (DP a b U). nra. }
  assert (CT : 0 < ct <= 1) by nra.
  assert (V1 : Rabs (fst v) <= r) by (pose proof (BV 1 0 ltac:(ring)); pose proof (BV (-1) 0 ltac:(ring)); apply Rabs_le; nra). assert (V2 : Rabs (snd v) <= r) by (pose proof (BV 0 1 ltac:(ring)); pose proof (BV 0 (-1) ltac:(ring)); apply Rabs_le; nra).
  assert (U1 : Rabs (cm * ct + sm * st) <= 1) by (unfold cm, sm, ct, st; rewrite <- cos_minus; apply Rabs_le, COS_bound). assert (U2 : Rabs (sm * ct - cm * st) <= 1) by (unfold cm, sm, ct, st; rewrite <- sin_minus; apply Rabs_le, SIN_bound).
  assert (CM : Rabs cm <= 1) by apply Rabs_le, COS_bound. assert (SM : Rabs sm <= 1) by apply Rabs_le, SIN_bound.
  pose proof (round_h (r * (cm * ct + sm * st))) as Q1. pose proof (round_h (r * (sm * ct - cm * st))) as Q2. pose proof (round_h (r * (cm * ct - sm * st))) as Q3. pose proof (round_h (r * (sm * ct + cm * st))) as Q4.
  set (ax := round_to 12 (r * (cm * ct + sm * st))) in *. set (ay := round_to 12 (r * (sm * ct - cm * st))) in *. set (bx := round_to 12 (r * (cm * ct - sm * st))) in *. set (by_ := round_to 12 (r * (sm * ct + cm * st))) in *.
  assert (RU : forall x, Rabs x <= 1 -> Rabs (r * x) <= r) by (intros x X; rewrite Rabs_mult, (Rabs_right r) by lra; nra).
  pose proof (cross_err (- (2 * r * st * sm)) (2 * r * st * cm) (fst v - r * (cm * ct + sm * st)) (snd v - r * (sm * ct - cm * st)) (bx - ax) (by_ - ay) (fst v - ax) (snd v - ay) (2 * h) h (2 * r * st) (2 * r)) as X.
  assert (T1 : - (2 * r * st * sm) * (snd v - r * (sm * ct - cm * st)) - 2 * r * st * cm * (fst v - r * (cm * ct + sm * st)) = 2 * r * st * (r * ct - (cm * fst v + sm * snd v))).
  { replace (- (2 * r * st * sm) * (snd v - r * (sm * ct - cm * st)) - 2 * r * st * cm * (fst v - r * (cm * ct + sm * st))) with (2 * r * st * (r * ct * (sm * sm + cm * cm) - (cm * fst v + sm * snd v))) by ring. rewrite V. ring. }
  rewrite T1 in X. assert (P2 : 0 < 2 * r * st) by nra.
  assert (Y : 2 * r * st * (r * ct - (cm * fst v + sm * snd v)) - (2 * (2 * h) * (2 * r) + 2 * h * (2 * r * st) + 2 * (2 * h) * h) <= (bx - ax) * (snd v - ay) - (by_ - ay) * (fst v - ax)).
  { apply X; try lra.
    - apply Rabs_le. lra. - apply Rabs_le. lra. - apply Rabs_le. lra. - apply Rabs_le. lra.
    - rewrite Rabs_Ropp, Rabs_mult, (Rabs_right (2 * r * st)) by lra. replace (2 * r * st) with (2 * r * st * 1) at 2 by ring. apply Rmult_le_compat_l; [lra|exact SM].
    - rewrite Rabs_mult, (Rabs_right (2 * r * st)) by lra. replace (2 * r * st) with (2 * r * st * 1) at 2 by ring. apply Rmult_le_compat_l; [lra|exact CM].
    - apply (Rle_trans _ (Rabs (fst v) + Rabs (- (r * (cm * ct + sm * st))))); [apply Rabs_triang|]. rewrite Rabs_Ropp. pose proof (RU _ U1). lra.
    - apply (Rle_trans _ (Rabs (snd v) + Rabs (- (r * (sm * ct - cm * st))))); [apply Rabs_triang|]. rewrite Rabs_Ropp. pose proof (RU _ U2). lra. }
  assert (Z : 2 * r * st * (INR n * (100 * h)) <= 2 * r * st * (r * ct - (cm * fst v + sm * snd v))) by (apply Rmult_le_compat_l; lra).
  assert (Z2 : 2 * r * (3 / 2) * (100 * h) <= 2 * r * st * (INR n * (100 * h))). { replace (2 * r * st * (INR n * (100 * h))) with (2 * r * (INR n * st) * (100 * h)) by ring. apply Rmult_le_compat_r; [lra|]. apply Rmult_le_compat_l; lra. }
  assert (r * h * st <= r * h) by (assert (0 <= r * h) by nra; nra). assert (h * h <= r * h) by nra. assert (0 < r * h) by nra. lra.
Qed.
(** ** The section *)
Lemma circle_made sh area n m : (3 <= n)%nat -> 1 / 10 ^ 20 <= area -> exists g r, circular_section_by_area sh area n m = Ok g /\ 100 * h < r /\ circumradius n area = r /\
  let l := map (fun i => round_pt 12 (r * cos (INR i * 2 * PI / INR n), r * sin (INR i * 2 * PI / INR n))) (seq 0 n) in is_cut (l, m, []) g /\ Forall2 close (ngon n (0, 0) r) l.
Proof.
  intros H Ha. pose proof h_pos as Hh. assert (A0 : 0 < area) by (apply (Rlt_le_trans _ (1 / 10 ^ 20)); [apply Rdiv_lt_0_compat; [lra|apply pow_lt; lra]|exact Ha]).
  destruct (by_area area n H A0) as [E D]. set (r := diameter_by_area area n / 2) in *. assert (Hr : 0 < r) by (unfold r; lra).
  destruct (ngon_below n r H Hr) as [_ B]. rewrite E in B. pose proof PI_4 as P4. assert (R1 : 100 * h < r).
  { apply Rnot_le_lt. intros L. assert (r ^ 2 <= (100 * h) ^ 2) by (apply pow_incr; lra). assert (0 <= r ^ 2) by (apply pow_le; lra). assert (PI * r ^ 2 <= 4 * (100 * h) ^ 2) by (apply Rmult_le_compat; pose proof PI_RGT_0; lra).
    assert (4 * (100 * h) ^ 2 = 1 / 10 ^ 20) by (unfold half; field). lra. }
  eexists. exists r. split; [unfold circular_section_by_area, circular_section, polygon_geometry; replace (diameter_by_area area n) with (2 * r) by (unfold r; lra); rewrite ellipse_open by (lia || lra); reflexivity|].
  split; [exact R1|]. split; [apply circum; assumption|]. intros l.
  set (q := mkPoly (ellipse_points (2 * r) (2 * r) n) []). destruct (new_geometry_poly sh q m None 12) as (P & M & Q & T).
  assert (EL : map (round_pt 12) (ellipse_points (2 * r) (2 * r) n) = l). { unfold l, ellipse_points. rewrite map_map. apply map_ext. intros i. replace (2 * r / 2) with r by lra. reflexivity. }
  assert (K : gm_poly (new_geometry sh q m None 12) = mkPoly l []).
  { rewrite P, round_keep; [unfold map_polygon, q; cbn [ext ints map]; rewrite EL; reflexivity|].
    exists (2 * r / 2 * cos (INR 0 * 2 * PI / INR n), 2 * r / 2 * sin (INR 0 * 2 * PI / INR n)). split; [cbn [ext q]; unfold ellipse_points; apply (in_map (fun i => (2 * r / 2 * cos (INR i * 2 * PI / INR n), 2 * r / 2 * sin (INR i * 2 * PI / INR n)))), in_seq; lia|].
    left. cbn [fst INR]. replace (0 * 2 * PI / INR n) with 0 by (unfold Rdiv; ring). rewrite cos_0, Rabs_right; lra. }
  assert (F : Forall2 (near h) (ngon n (0, 0) r) l).
  { unfold l, ngon. generalize (seq 0 n). intros L. induction L as [|i L IH]; cbn [map]; constructor; [|exact IH]. unfold near, round_pt. cbn [fst snd]. rewrite !Rplus_0_l.
    pose proof (round_h (r * cos (INR i * 2 * PI / INR n))). pose proof (round_h (r * sin (INR i * 2 * PI / INR n))). split; apply Rabs_le; lra. }
  pose proof (ring_far n (0, 0) r l h H ltac:(lra) R1 F) as V. assert (V' : exists v, In v (ext (gm_poly (new_geometry sh q m None 12))) /\ (h < Rabs (fst v) \/ h < Rabs (snd v))) by (rewrite K; exact V).
  pose proof (rounded_grid sh q m None V') as S. rewrite K in S. cbn [ext] in S. split.
  - split; [exact S|]. split; [constructor|]. split; [exact M|]. split; [exact T|]. split; [exact Q|]. rewrite K. split; [apply same_refl|apply rings_refl].
  - apply (near_close h); [lra|exact F].
Qed.
Lemma run_one sh so n bodies outlines conc steel area pts body geometry : cuts so -> (3 <= n)%nat -> Forall2 (Forall2 close) outlines bodies -> Forall2 is_cut (state bodies conc steel [] []) (members_of geometry) ->
  pts <> [] -> Forall (placed n bodies) (bars_at area body pts) -> ForallOrdPairs (clear_of n) (bars_at area body pts) ->
  exists c, bind (fold_result (add_bar sh so area n steel) pts geometry) must_be_compound = Ok c /\ cast outlines conc steel n (bars_at area body pts) c.
Proof.
  intros U Hn O F NE P C. destruct (run_bars sh so n bodies conc steel area U Hn (bars_at area body pts) [] geometry (area_bars _ _ _) P C (Forall_nil _)) as (i & K & E & M & L & CI & F'); [intros N; contradiction|exact F|].
  rewrite at_bars in E. rewrite E. cbn [bind]. cbn [map app] in M. destruct CI as (c & ->); [intros ->; destruct pts; [contradiction|discriminate]|]. exists c. split; [reflexivity|]. eapply state_cast; eassumption.
Qed.
Lemma circular_made sh so d area_conc n_conc dia_bar area_bar n_bar cover n conc steel : cuts so -> (3 <= n)%nat -> (3 <= n_conc)%nat -> (2 <= n_bar)%nat -> 1 / 10 ^ 20 <= area_conc -> 1 / 10 ^ 20 <= area_bar ->
  let r := d / 2 - cover - dia_bar / 2 in
  0 <= r -> r + circumradius n area_bar + INR n_conc * tiny <= circumradius n_conc area_conc * cos (PI / INR n_conc) -> 2 * circumradius n area_bar + tiny <= 2 * r * sin (PI / INR n_bar) ->
  exists c, concrete_circular_section sh so d area_conc n_conc dia_bar area_bar n_bar cover n conc steel = Ok c /\
    cast [ngon n_conc (0, 0) (circumradius n_conc area_conc)] conc steel n (bars_at area_bar (fun _ => 0%nat) (ngon n_bar (0, 0) r)) c.
Proof.
  intros U Hn Hc Hb Ac Ab r Hr W C. pose proof h_pos as Hh. destruct (circle_made sh area_conc n_conc conc Hc Ac) as (g & rc & G & R1 & E & Q & F). unfold concrete_circular_section. destruct (Nat.ltb_spec n_bar 2) as [L|_]; [lia|]. rewrite G. cbn [bind]. fold r.
  rewrite (map_ext _ (fun i => (fst (0, 0) + r * cos (INR i * 2 * PI / INR n_bar), snd (0, 0) + r * sin (INR i * 2 * PI / INR n_bar)))).
  2:{ intros i. cbn [fst snd]. rewrite !Rplus_0_l. replace (INR i * (2 * PI / INR n_bar)) with (INR i * 2 * PI / INR n_bar); [reflexivity|]. unfold Rdiv. ring. }
  fold (ngon n_bar (0, 0) r). rewrite E. set (l := map _ _) in Q, F.
  apply (run_one sh so n [l]); [exact U|exact Hn|constructor; [exact F|constructor]|unfold state; cbn; constructor; [exact Q|constructor]| | |].
  - unfold ngon. destruct n_bar; [lia|discriminate].
  - unfold bars_at. apply Forall_map, Forall_forall. intros p Hp. split; [cbn; lia|]. split; [exact Ab|]. intros k Rk j s Ej. destruct j as [|j]; [|destruct j; discriminate]. injection Ej as <-. cbn [rb_body Nat.eqb rb_at rb_area] in *.
    unfold l. apply (inside_ngon n_conc rc p (circumradius n area_bar + 10 * h)); [exact Hc|lra|pose proof (circum_pos n area_bar); lra|exact Rk|].
    assert (DR : distance (0, 0) p = r). { unfold ngon in Hp. apply in_map_iff in Hp as (i & <- & _). unfold distance. cbn [fst snd]. rewrite !Rplus_0_l, !Rminus_0_r. rewrite <- (sqrt_square r Hr) at 3. f_equal. pose proof (sin2_cos2 (INR i * 2 * PI / INR n_bar)) as S. unfold Rsqr in S. nra. }
    rewrite DR. rewrite E in W. rewrite h_tiny in W. assert (3 <= INR n_conc) by (apply le_INR in Hc; cbn in Hc; lra). nra.
  - apply ngon_clear; assumption.
Qed.
