(** Proofs about tapered flanges, box girders and hollow polygons. *)
From Coq Require Import Reals List Bool Arith Lra Lia Rtrigo_facts.
From Verif Require Import Base M_Fea M_Init M_Geometry S_Geometry P_Geometry P_Geometry3 P_Geometry6 M_Library S_Library P_Library P_Library2 P_Library3 P_Library5 P_Library6.
Import ListNotations.
Local Open Scope R_scope.

(** ** Tapered flanges *)
Lemma seg_taper p c r n t0 s t k0 s0 k1 s1 : (2 <= n)%nat -> (forall i, t i = t0 + s * step n i) -> (r = 0 -> p = c) ->
  cos t0 = k0 -> sin t0 = s0 -> cos (t0 + s) = k1 -> sin (t0 + s) = s1 ->
  seg (taper_arc p c r n t) (fst c + r * k0, snd c + r * s0) (fst c + r * k1, snd c + r * s1)
    (fst c * (r * s1 - r * s0) - snd c * (r * k1 - r * k0) + INR (n - 1) * (r ^ 2 * sin (s / INR (n - 1)))).
Proof.
  intros Hn Ht Hp <- <- <- <-. unfold taper_arc. destruct (Req_EM_T r 0) as [E|E].
  - rewrite (Hp E), E. rewrite !Rmult_0_l, !Rplus_0_r. replace (fst c * (0 - 0) - snd c * (0 - 0) + INR (n - 1) * (0 ^ 2 * sin (s / INR (n - 1)))) with 0 by ring. destruct c. apply seg_one.
  - pose proof (seg_arc c r n t0 s t Hn Ht) as S. exact S.
Qed.
Lemma arc_ext c r n t t' : (forall i, (i < n)%nat -> cos (t i) = cos (t' i) /\ sin (t i) = sin (t' i)) -> arc c r n t = arc c r n t'.
Proof. intros H. unfold arc. apply map_ext_in. intros i Hi. apply in_seq in Hi. destruct (H i ltac:(lia)) as [-> ->]. reflexivity. Qed.
Definition same_angle (s t : R) : Prop := s = t \/ s = t + 2 * PI \/ t = s + 2 * PI.
Lemma same_angle_trig s t : same_angle s t -> cos s = cos t /\ sin s = sin t.
Proof. intros [E|[E|E]]; rewrite E; [auto| |]; rewrite cos_plus, sin_plus, cos_2PI, sin_2PI; split; ring. Qed.
Lemma taper_mirror_x k p c p' c' r n t t' : p' = mirror_x k p -> c' = mirror_x k c -> (forall i, (i < n)%nat -> same_angle (PI - t (n - 1 - i)%nat) (t' i)) ->
  rev (map (mirror_x k) (taper_arc p c r n t)) = taper_arc p' c' r n t'.
Proof.
  intros -> -> H. unfold taper_arc. destruct (Req_EM_T r 0); [reflexivity|]. unfold arc. rewrite map_map, map_seq_rev. apply map_ext_in. intros i Hi. apply in_seq in Hi. destruct (same_angle_trig _ _ (H i ltac:(lia))) as [C0 S0].
  assert (C : cos (t' i) = - cos (t (n - 1 - i)%nat)). { rewrite <- C0. replace (PI - t (n - 1 - i)%nat) with (- t (n - 1 - i)%nat + PI) by ring. rewrite neg_cos, cos_neg. ring. }
  assert (S : sin (t' i) = sin (t (n - 1 - i)%nat)). { rewrite <- S0. apply sin_PI_x. }
  rewrite C, S. unfold mirror_x. cbn [fst snd]. apply f_equal2; lra.
Qed.
Lemma taper_mirror_y k p c p' c' r n t t' : p' = mirror_y k p -> c' = mirror_y k c -> (forall i, (i < n)%nat -> same_angle (- t (n - 1 - i)%nat) (t' i)) ->
  rev (map (mirror_y k) (taper_arc p c r n t)) = taper_arc p' c' r n t'.
Proof.
  intros -> -> H. unfold taper_arc. destruct (Req_EM_T r 0); [reflexivity|]. unfold arc. rewrite map_map, map_seq_rev. apply map_ext_in. intros i Hi. apply in_seq in Hi. destruct (same_angle_trig _ _ (H i ltac:(lia))) as [C0 S0].
  assert (C : cos (t' i) = cos (t (n - 1 - i)%nat)). { rewrite <- C0. apply cos_neg. }
  assert (S : sin (t' i) = - sin (t (n - 1 - i)%nat)). { rewrite <- S0. apply sin_neg. }
  rewrite C, S. unfold mirror_y. cbn [fst snd]. apply f_equal2; lra.
Qed.
Lemma angles a : sin (PI / 2 - a) = cos a /\ cos (PI / 2 - a) = sin a. Proof. split; [apply sin_shift|apply cos_shift]. Qed.

Section Taper.
  Variables (n : nat) (Hn : (2 <= n)%nat) (d b t_f t_w r_r r_f alpha : R) (Ha : 0 <= alpha < 90).
  Let a := PI * alpha / 180.
  Let G := PI / 2 - a.
  Lemma a_range : 0 <= a < PI / 2. Proof. unfold a. pose proof PI_RGT_0. split; nra. Qed.
  Let u := tan (G / 2).
  Lemma taper_trig : 0 < u /\ cos a = 2 * u / (1 + u * u) /\ sin a = (1 - u * u) / (1 + u * u) /\ tan a = (1 - u * u) / (2 * u).
  Proof.
    pose proof a_range as R0. pose proof PI_RGT_0 as P. assert (U : 0 < u) by (apply tan_gt_0; unfold G; lra). assert (C : 0 < cos (G / 2)) by (apply cos_gt_0; unfold G; lra).
    destruct (half_tan G ltac:(lra)) as [S1 C1]. fold u in S1, C1. unfold G in S1, C1. destruct (angles a) as [A1 A2]. rewrite A1 in S1. rewrite A2 in C1. split; [exact U|]. split; [exact S1|]. split; [exact C1|].
    change (tan a) with (sin a / cos a). rewrite S1, C1. pose proof (Rle_0_sqr u) as Q. unfold Rsqr in Q. clearbody u. field. lra.
  Qed.
  Lemma sin_opp_div : sin (- G / INR (n - 1)) = - sin (G / INR (n - 1)).
  Proof. replace (- G / INR (n - 1)) with (- (G / INR (n - 1))) by (unfold Rdiv; ring). apply sin_neg. Qed.
  (** the ends of the eight arcs *)
  Lemma trig_0 : cos 0 = 1 /\ sin 0 = 0 /\ cos (0 + G) = sin a /\ sin (0 + G) = cos a. Proof. rewrite Rplus_0_l. destruct (angles a) as [A B]. rewrite cos_0, sin_0. unfold G. auto. Qed.
  Lemma trig_1 : cos (3 / 2 * PI - a) = - sin a /\ sin (3 / 2 * PI - a) = - cos a /\ cos (3 / 2 * PI - a + - G) = -1 /\ sin (3 / 2 * PI - a + - G) = 0.
  Proof. rewrite cos_minus, sin_minus, cos_32, sin_32. replace (3 / 2 * PI - a + - G) with PI by (unfold G; lra). rewrite cos_PI, sin_PI. repeat split; lra. Qed.
  Lemma trig_2 : cos PI = -1 /\ sin PI = 0 /\ cos (PI + - G) = - sin a /\ sin (PI + - G) = cos a.
  Proof. rewrite cos_PI, sin_PI. replace (PI + - G) with (a + PI / 2) by (unfold G; lra). rewrite cos_plus, sin_plus, cos_PI2, sin_PI2. repeat split; lra. Qed.
  Lemma trig_3 : cos (3 * PI / 2 + a) = sin a /\ sin (3 * PI / 2 + a) = - cos a /\ cos (3 * PI / 2 + a + G) = 1 /\ sin (3 * PI / 2 + a + G) = 0.
  Proof. replace (3 * PI / 2) with (3 / 2 * PI) by lra. rewrite cos_plus, sin_plus, cos_32, sin_32. replace (3 / 2 * PI + a + G) with (2 * PI) by (unfold G; lra). rewrite cos_2PI, sin_2PI. repeat split; lra. Qed.
  Lemma trig_4 : cos PI = -1 /\ sin PI = 0 /\ cos (PI + G) = - sin a /\ sin (PI + G) = - cos a.
  Proof. rewrite cos_PI, sin_PI, (Rplus_comm PI G), neg_cos, neg_sin. destruct (angles a) as [A B]. unfold G. rewrite A, B. auto. Qed.
  Lemma trig_5 : cos (PI / 2 - a) = sin a /\ sin (PI / 2 - a) = cos a /\ cos (PI / 2 - a + - G) = 1 /\ sin (PI / 2 - a + - G) = 0.
  Proof. destruct (angles a) as [A B]. rewrite A, B. replace (PI / 2 - a + - G) with 0 by (unfold G; lra). rewrite cos_0, sin_0. auto. Qed.
  Lemma trig_6 : cos 0 = 1 /\ sin 0 = 0 /\ cos (0 + - G) = sin a /\ sin (0 + - G) = - cos a.
  Proof. rewrite Rplus_0_l, cos_neg, sin_neg, cos_0, sin_0. destruct (angles a) as [A B]. unfold G. rewrite A, B. auto. Qed.
  Lemma trig_7 : cos (PI / 2 + a) = - sin a /\ sin (PI / 2 + a) = cos a /\ cos (PI / 2 + a + G) = -1 /\ sin (PI / 2 + a + G) = 0.
  Proof. rewrite cos_plus, sin_plus, cos_PI2, sin_PI2. replace (PI / 2 + a + G) with PI by (unfold G; lra). rewrite cos_PI, sin_PI. repeat split; lra. Qed.

  Ltac seg_t t0 s L := let A := fresh in let B := fresh in let C := fresh in let D := fresh in destruct L as (A & B & C & D);
    eapply (seg_taper _ _ _ n t0 s); [exact Hn|intros ?; fold a; fold G; lra|let E := fresh in intros E; rewrite E; apply f_equal2; lra|exact A|exact B|exact C|exact D].
  Ltac taper_alg := unfold cross, taper_y2, taper_yt; cbn [fst snd]; fold a; unfold bend; fold G; rewrite ?sin_opp_div; fold u;
    let kr := fresh "kr" in let kf := fresh "kf" in let Ekr := fresh in let Ekf := fresh in
    remember (INR (n - 1) * (r_r ^ 2 * sin (G / INR (n - 1)))) as kr eqn:Ekr; remember (INR (n - 1) * (r_f ^ 2 * sin (G / INR (n - 1)))) as kf eqn:Ekf;
    replace (INR (n - 1) * (r_r ^ 2 * - sin (G / INR (n - 1)))) with (- kr) by (rewrite Ekr; ring);
    replace (INR (n - 1) * (r_r ^ 2 * sin (G / INR (n - 1)) / 2)) with (kr / 2) by (rewrite Ekr; field);
    replace (INR (n - 1) * (r_f ^ 2 * sin (G / INR (n - 1)) / 2)) with (kf / 2) by (rewrite Ekf; field);
    let U := fresh in let E1 := fresh in let E2 := fresh in let E3 := fresh in destruct taper_trig as (U & E1 & E2 & E3); rewrite E1, E2, E3; clear Ekr Ekf E1 E2 E3;
    let Q := fresh in pose proof (Rle_0_sqr u) as Q; unfold Rsqr in Q; clearbody u; field; lra.

  Lemma tapered_channel_seg : exists z v, seg (tapered_channel_points d b t_f t_w r_r r_f alpha n) (0, 0) z v /\ z = (0, d) /\
    (v + cross z (0, 0)) / 2 = d * t_w + 2 * ((b - t_w) * t_f) + 2 * bend n r_r G - 2 * bend n r_f G.
  Proof.
    do 2 eexists. split; [|split].
    - unfold tapered_channel_points. cbn [app]. do 2 eapply seg_cons.
      eapply seg_app; [seg_t 0 G trig_0|]. eapply seg_app; [seg_t (3 / 2 * PI - a) (- G) trig_1|]. eapply seg_app; [seg_t PI (- G) trig_2|]. eapply seg_app; [seg_t (3 * PI / 2 + a) G trig_3|]. eapply seg_cons, seg_one.
    - reflexivity.
    - taper_alg.
  Qed.
  Lemma tapered_i_seg : exists z v, seg (tapered_i_points d b t_f t_w r_r r_f alpha n) (0, 0) z v /\ snd z = taper_yt (b / 4 - t_w / 4) t_f r_f a /\
    (v + cross z (0, 0)) / 2 = d * t_w + 2 * ((b - t_w) * t_f) + 4 * bend n r_r G - 4 * bend n r_f G.
  Proof.
    do 2 eexists. split; [|split].
    - unfold tapered_i_points. cbn [app]. do 2 eapply seg_cons.
      eapply seg_app; [seg_t 0 G trig_0|]. eapply seg_app; [seg_t (3 / 2 * PI - a) (- G) trig_1|]. eapply seg_app; [seg_t PI (- G) trig_2|]. eapply seg_app; [seg_t (3 * PI / 2 + a) G trig_3|].
      do 2 eapply seg_cons. eapply seg_app; [seg_t PI G trig_4|]. eapply seg_app; [seg_t (PI / 2 - a) (- G) trig_5|]. eapply seg_app; [seg_t 0 (- G) trig_6|]. seg_t (PI / 2 + a) G trig_7.
    - cbn [snd]. fold a. lra.
    - taper_alg.
  Qed.
  Ltac tm lem k := eapply (lem k); [unfold mirror_x, mirror_y; cbn [fst snd]; apply f_equal2; lra|unfold mirror_x, mirror_y; cbn [fst snd]; apply f_equal2; lra|
    let i := fresh "i" in let Hi := fresh in intros i Hi; rewrite (step_rev n i Hn Hi); unfold same_angle; lra].
  Lemma tapered_channel_symmetric : symmetric_y (d / 2) (tapered_channel_points d b t_f t_w r_r r_f alpha n).
  Proof.
    exists [], (tapered_channel_points d b t_f t_w r_r r_f alpha n). split; [reflexivity|]. rewrite app_nil_r. unfold tapered_channel_points. change (prod R R) with pt.
    repeat (progress (rewrite ?map_app, ?rev_app_distr; cbn [map rev])). repeat (progress (rewrite <- ?app_assoc; cbn [app])).
    apply f_equal2; [unfold mirror_y; cbn [fst snd]; apply f_equal2; lra|]. apply f_equal2; [unfold mirror_y; cbn [fst snd]; apply f_equal2; lra|].
    apply f_equal2; [tm taper_mirror_y (d / 2)|]. apply f_equal2; [tm taper_mirror_y (d / 2)|]. apply f_equal2; [tm taper_mirror_y (d / 2)|]. apply f_equal2; [tm taper_mirror_y (d / 2)|].
    apply f_equal2; [unfold mirror_y; cbn [fst snd]; apply f_equal2; lra|]. apply f_equal2; [unfold mirror_y; cbn [fst snd]; apply f_equal2; lra|reflexivity].
  Qed.
  Lemma tapered_i_symmetric_x : symmetric_x (b / 2) (tapered_i_points d b t_f t_w r_r r_f alpha n).
  Proof.
    exists [(0, 0); (b, 0)], (skipn 2 (tapered_i_points d b t_f t_w r_r r_f alpha n)). split; [reflexivity|]. unfold tapered_i_points. cbn [skipn app]. change (prod R R) with pt.
    repeat (progress (rewrite ?map_app, ?rev_app_distr; cbn [map rev])). repeat (progress (rewrite <- ?app_assoc; cbn [app])).
    do 4 (apply f_equal2; [tm taper_mirror_x (b / 2)|]). do 2 (apply f_equal2; [unfold mirror_x; cbn [fst snd]; apply f_equal2; lra|]). do 4 (apply f_equal2; [tm taper_mirror_x (b / 2)|]).
    do 2 (apply f_equal2; [unfold mirror_x; cbn [fst snd]; apply f_equal2; lra|]). reflexivity.
  Qed.
  Lemma tapered_i_symmetric_y : symmetric_y (d / 2) (tapered_i_points d b t_f t_w r_r r_f alpha n).
  Proof.
    set (l := tapered_i_points d b t_f t_w r_r r_f alpha n). set (w := b / 4 - t_w / 4). set (y2 := taper_y2 w r_r a). set (y_t := taper_yt w t_f r_f a). set (s := fun i => step n i * (PI / 2 - a)).
    eexists ([(0, 0); (b, 0)]
      ++ taper_arc (b, y_t) (b - r_f, y_t) r_f n s
      ++ taper_arc (b / 2 + t_w / 2, t_f + y2) (b / 2 + t_w / 2 + r_r, t_f + y2 + r_r * cos a) r_r n (fun i => (3 / 2 * PI - a) - s i)
      ++ taper_arc (b / 2 + t_w / 2, d - t_f - y2) (b / 2 + t_w / 2 + r_r, d - t_f - y2 - r_r * cos a) r_r n (fun i => PI - s i)
      ++ taper_arc (b, d - y_t) (b - r_f, d - y_t) r_f n (fun i => (3 * PI / 2 + a) + s i)
      ++ [(b, d); (0, d)]), _. split; [unfold l, tapered_i_points; rewrite <- !app_assoc; cbn [app]; reflexivity|].
    unfold l, tapered_i_points, y2, y_t, w, s. change (prod R R) with pt. fold a.
    repeat (progress (rewrite ?map_app, ?rev_app_distr; cbn [map rev])). repeat (progress (rewrite <- ?app_assoc; cbn [app])).
    do 4 (apply f_equal2; [tm taper_mirror_y (d / 2)|]). do 2 (apply f_equal2; [unfold mirror_y; cbn [fst snd]; apply f_equal2; lra|]). do 4 (apply f_equal2; [tm taper_mirror_y (d / 2)|]).
    do 2 (apply f_equal2; [unfold mirror_y; cbn [fst snd]; apply f_equal2; lra|]). reflexivity.
  Qed.
End Taper.

(** ** Box girders *)
Lemma tan_atan2 y x : 0 < y -> x <> 0 -> tan (arctan2_pos y x) = y / x.
Proof.
  intros Hy Hx. unfold arctan2_pos. unfold tan. rewrite sin_shift, cos_shift. pose proof (atan_bound (x / y)) as B. assert (C : 0 < cos (atan (x / y))) by (apply cos_gt_0; lra).
  assert (E : sin (atan (x / y)) = x / y * cos (atan (x / y))). { transitivity (tan (atan (x / y)) * cos (atan (x / y))); [unfold tan; field; lra|]. rewrite tan_atan. reflexivity. }
  rewrite E. field. repeat split; lra.
Qed.
Lemma sin_atan2 y x : 0 < y -> sin (arctan2_pos y x) = y / sqrt (y ^ 2 + x ^ 2).
Proof.
  intros Hy. unfold arctan2_pos. rewrite sin_shift, cos_atan. unfold Rdiv at 1. 
  assert (P : 0 <= x ^ 2) by apply pow2_ge_0. assert (Q : 0 < y ^ 2) by (apply pow_lt; exact Hy).
  replace (1 + (x / y)²) with ((y ^ 2 + x ^ 2) / (y * y)) by (unfold Rsqr; field; lra). rewrite sqrt_div_alt by nra. rewrite sqrt_square by lra. assert (0 < sqrt (y ^ 2 + x ^ 2)) by (apply sqrt_lt_R0; lra). field. lra.
Qed.
Lemma girder_angles_spec d b_t b_b t_ft t_fb t_w : 0 < d -> b_t <> b_b -> 0 <= t_w -> let h := (b_b - b_t) / 2 in
  forall phi_b phi_t, girder_angles d b_t b_b = (phi_b, phi_t) ->
  t_fb / tan (PI - phi_b) = - (t_fb * h / d) /\ t_ft / tan (PI - phi_t) = t_ft * h / d /\ Rabs (t_w / sin (PI - phi_b)) = t_w * sqrt (d ^ 2 + h ^ 2) / d.
Proof.
  intros Hd Hb Hw h phi_b phi_t. unfold girder_angles.
  assert (TP : forall x, tan (PI - x) = - tan x) by (intros x; unfold tan; rewrite sin_PI_x, Rtrigo_facts.cos_pi_minus; unfold Rdiv; rewrite Rinv_opp; ring).
  assert (SQ : 0 < sqrt (d ^ 2 + h ^ 2)) by (apply sqrt_lt_R0; pose proof (pow2_ge_0 h); assert (0 < d ^ 2) by (apply pow_lt; exact Hd); lra).
  assert (AB : Rabs (t_w / (d / sqrt (d ^ 2 + h ^ 2))) = t_w * sqrt (d ^ 2 + h ^ 2) / d).
  { replace (t_w / (d / sqrt (d ^ 2 + h ^ 2))) with (t_w * sqrt (d ^ 2 + h ^ 2) / d) by (field; lra). apply Rabs_right. apply Rle_ge. apply Rmult_le_pos; [apply Rmult_le_pos; lra|]. left. apply Rinv_0_lt_compat. exact Hd. }
  destruct (Rlt_dec b_t b_b) as [L|L]; intros E; inversion E; subst phi_b phi_t; clear E.
  - change ((b_b - b_t) / 2) with h. assert (Hh : h <> 0) by (unfold h; lra). replace (PI - (PI - arctan2_pos d h)) with (arctan2_pos d h) by lra. rewrite TP, sin_PI_x, tan_atan2, sin_atan2 by assumption.
    split; [field; lra|]. split; [field; lra|]. exact AB.
  - replace ((b_t - b_b) / 2) with (- h) by (unfold h; lra). assert (Hh : - h <> 0) by (unfold h; lra). replace (PI - (PI - arctan2_pos d (- h))) with (arctan2_pos d (- h)) by lra. rewrite TP, tan_atan2, sin_atan2 by assumption.
    split; [field; lra|]. split; [field; lra|]. replace ((- h) ^ 2) with (h ^ 2) by ring. exact AB.
Qed.

(** ** Bulb *)
Lemma seg_join l1 l2 a z v z' v' : seg l1 a z v -> seg l2 z z' v' -> (2 <= length l1)%nat -> seg (removelast l1 ++ l2) a z' (v + v').
Proof.
  intros (N & H & L & V) (N2 & H2 & L2 & V2) G. destruct l2 as [|z0 l2]; [contradiction|]. cbn in H2. subst z0.
  pose proof (app_removelast_last z N) as E. rewrite L in E. destruct l1 as [|x l1]; [contradiction|]. cbn in H. subst x.
  set (k := removelast (a :: l1)) in *. assert (K0 : k <> []). { intros E0. rewrite E0 in E. cbn in E. rewrite E in G. cbn in G. lia. }
  destruct k as [|y k]; [contradiction|]. assert (y = a) by (cbn in E; congruence). subst y. split; [discriminate|]. split; [reflexivity|]. split.
  - clear -L2 N2. revert k a. induction k as [|w k IH]; intros a; [cbn [app]; exact L2|]. cbn [app] in *. exact (IH w).
  - rewrite path_split, <- E, V, V2. reflexivity.
Qed.
Lemma removelast_length {A} (l : list A) : length (removelast l) = (length l - 1)%nat.
Proof. induction l as [|x l IH]; [reflexivity|]. destruct l as [|y l]; [reflexivity|]. change (removelast (x :: y :: l)) with (x :: removelast (y :: l)). cbn [length] in *. rewrite IH. lia. Qed.
Lemma bulb_facts d b t r n : (2 <= n)%nat -> d <> 0 -> let l := bulb_points d b t r n None in let d_b := r * tan (PI / 6) + r + b * tan (PI / 6) in
  (forall sh m, polygon_geometry sh l m = Ok (new_geometry sh (mkPoly l []) m None 12)) /\
  ring_area l = d * t + b * (d_b - b * tan (PI / 6) / 2) - corner n r.
Proof.
  intros Hn Hd l d_b.
  assert (T3 : cos (PI / 3) = 1 / 2 /\ sin (PI / 3) = sqrt 3 / 2 /\ cos (PI / 6) = sqrt 3 / 2 /\ tan (PI / 6) = 1 / sqrt 3) by (repeat split; [apply cos_PI3|apply sin_PI3|apply cos_PI6|apply tan_PI6]).
  destruct T3 as (C3 & S3 & C6 & T6). set (q := sqrt 3) in *. assert (Q : q * q = 3) by (apply sqrt_sqrt; lra). assert (Qp : 0 < q) by (apply sqrt_lt_R0; lra). clearbody q.
  assert (S : exists v, seg l (- t / 2, 0) (- t / 2, d) v /\ (v + cross (- t / 2, d) (- t / 2, 0)) / 2 = d * t + b * (d_b - b * tan (PI / 6) / 2) - corner n r).
  { eexists. split.
    - unfold l, bulb_points. rewrite app_assoc. eapply seg_app; [|apply seg_one]. eapply seg_join; [|apply (seg_quarter Q0 _ _ n true Hn)|].
      + cbn [app]. eapply seg_cons, seg_cons. eapply seg_app; [apply (seg_radius _ _ _ _ _ _ Hn)|].
        match goal with |- seg (draw_radius ?c ?r ?th n true ?phi) _ _ _ => pose proof (seg_radius c r th n true phi Hn) as S2 end. cbv zeta iota in S2.
        replace (- PI * 1 / 3 + 1 * (PI / 3)) with 0 in S2 by lra. replace (- PI * 1 / 3) with (- (PI / 3)) in S2 at 1 2 3 4 5 by lra. rewrite cos_0, sin_0 in S2. cbn [q_cos q_sin fst snd] in *. replace (- PI * 1 / 3) with (- (PI / 3)) by lra. exact S2.
      + cbn [app length]. rewrite app_length. pose proof (radius_length (b + t / 2 - r, d - r) r (- PI * 1 / 3) n true (PI / 3) Hn). lia.
    - rewrite corner_K. unfold cross, d_b. cbn [fst snd q_cos q_sin q_next]. rewrite cos_neg, sin_neg. replace (2 / 3 * PI / 2) with (PI / 3) by lra.
      replace (PI + -1 * (PI / 3)) with (- (PI / 3) + PI) by lra. rewrite neg_cos, neg_sin, cos_neg, sin_neg, cos_PI, sin_PI, C3, S3, C6, T6.
      replace (-1 * (PI / 3) / INR (n - 1)) with (- (1 * (PI / 3) / INR (n - 1))) by (unfold Rdiv; ring). rewrite sin_neg. set (k := sin (1 * (PI / 3) / INR (n - 1))).
      assert (Q' : q = 3 / q) by (apply (Rmult_eq_reg_r q); [rewrite Q; field; lra|lra]). set (p := / q). assert (Q2 : q = 3 * p) by (unfold p; exact Q'). unfold Rdiv. fold p. rewrite !Q2. assert (P2 : p * p = 1 / 3) by (unfold p; rewrite <- Rinv_mult, Q; lra).
      assert (P0 : p <> 0) by (unfold p; apply Rinv_neq_0_compat; lra). clearbody p k. assert (Z : 2 * p * (3 * p * / 2) = 1) by (transitivity (3 * (p * p)); [field|rewrite P2; lra]). assert (Z0 : 3 * p * / 2 <> 0) by (intros Z0; rewrite Z0 in Z; lra).
      replace (/ (3 * p * / 2)) with (2 * p) by (apply (Rmult_eq_reg_r (3 * p * / 2)); [rewrite Rinv_l by exact Z0; exact Z|exact Z0]). replace (r * (2 * p) * (3 * p * / 2)) with r by (transitivity (r * (2 * p * (3 * p * / 2))); [rewrite Z; ring|ring]). field. }
  destruct S as (v & S & V). split.
  - intros sh m. apply (seg_make sh l _ _ v m S); [|cbn; lra]. unfold l, bulb_points. rewrite !app_length. cbn [length]. pose proof (radius_length (b + t / 2 - r, d - r) r 0 n true (PI / 2) Hn).
    match goal with |- context [removelast ?x] => assert (R3 : (3 <= length x)%nat) by (cbn [app length]; rewrite app_length; pose proof (radius_length (b + t / 2 - r, d - r) r (- PI * 1 / 3) n true (PI / 3) Hn); lia); pose proof (removelast_length x) as R5 end.
    change (prod R R) with pt in *. lia.
  - rewrite (seg_area _ _ _ _ S). exact V.
Qed.
