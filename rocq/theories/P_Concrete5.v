(** The double layer of double_lift_core_b: what holds, and where it goes wrong. *)
From Coq Require Import String Reals List Bool Arith ZArith Lra Lia.
From Verif Require Import Base M_Fea M_Init M_Bisect M_Geometry S_Geometry P_Geometry P_Geometry3 M_Library S_Library M_SetOps S_SetOps P_SetOps M_Concrete S_Concrete P_Concrete P_Concrete2 P_Concrete3 P_Concrete4.
Import ListNotations.
Local Open Scope R_scope.

Lemma double_lift_core_b_body sh so d b t1 t2 t3 a dia_bar area_bar spacing cover n conc steel nib l double : workable so -> (3 <= n)%nat -> 1 / 10 ^ 20 <= area_bar ->
  tiny <= t1 -> tiny <= t2 -> tiny <= t3 -> 2 * t2 + tiny <= b -> tiny <= a -> a <= (d - 2 * t1 - t3) / 2 -> nib = (d - 2 * t1 - 2 * a - t3) / 4 ->
  double_lift_core_b_bars d b t1 t2 t3 a dia_bar spacing cover double = Ok l ->
  exists c o os body, double_lift_core_b sh so d b t1 t2 t3 a dia_bar area_bar spacing cover double n conc steel = Ok c /\
    rectangle ((0, 0), (b, d)) conc o /\ Forall2 (fun r g => exists mat, rectangle r mat g)
      [((t2, t1), (b - t2, (d - t3) / 2)); ((t2, (d + t3) / 2), (b - t2, d - t1)); ((b - t2, (d + t3) / 2 + nib), (b, d - t1 - nib)); ((b - t2, t1 + nib), (b, (d - t3) / 2 - nib))] os /\
    less sh so (ISingle o) os body /\ with_bars sh so body area_bar n steel l c.
Proof.
  intros U H Ha Hm1 Hm2 Hm3 H3 H4 H5 H6 L. unfold double_lift_core_b. destruct (Rlt_dec _ _) as [X|_]; [exfalso; lra|]. cbv zeta. replace (0.25 * (d - 2 * t1 - 2 * a - t3)) with nib by lra. next_rect. next_rect. next_rect.
  pose proof (rn_shifted sh _ _ _ _ _ _ _ _ t2 t1 Rect0 ltac:(small)) as In1. pose proof (rn_shifted sh _ _ _ _ _ _ _ _ t2 (0.5 * (d + t3)) Rect0 ltac:(small)) as In2.
  pose proof (rn_shifted sh _ _ _ _ _ _ _ _ (b - t2) (d - t1 - nib - a) Rect1 ltac:(small)) as Door1. pose proof (rn_shifted sh _ _ _ _ _ _ _ _ (b - t2) (t1 + nib) Rect1 ltac:(small)) as Door2. clear Rect0 Rect1.
  next_sub U. next_sub U. next_sub U. next_sub U. rewrite L. cbn [bind].
  match goal with |- context [add_bars ?sh ?so ?g ?area ?m ?n ?ps] => destruct (with_bars_made sh so g area n m ps U H Ha) as (c & E & W) end. exists c. eexists _, _, _. split; [exact E|].
  split; [rect_is|]. split; [rects|]. split; [lessed|]. exact W.
Qed.

Lemma ceil_int k : ceil (IZR k) = k.
Proof. pose proof (ceil_spec (IZR k)) as [D1 D2]. apply Z.le_antisymm; [apply Z.lt_succ_r, lt_IZR; rewrite succ_IZR; lra|apply le_IZR; lra]. Qed.
Lemma ceil_is x k : IZR k - 1 < x <= IZR k -> ceil x = k.
Proof. intros H. pose proof (ceil_spec x) as [D1 D2]. apply Z.le_antisymm; apply Z.lt_succ_r, lt_IZR; rewrite succ_IZR; lra. Qed.
Lemma run_2 start stop len s P Q : start = P -> stop = Q -> 0 < s -> s < len <= 2 * s -> run start stop len s = Ok [P; (P + Q) / 2; Q].
Proof.
  intros -> -> Hs Hl. unfold run. rewrite (ceil_is _ 2).
  - unfold linspace. change ((2 + 1 <? 0)%Z) with false. change ((2 + 1 =? 1)%Z) with false. change (Z.to_nat (2 + 1)) with 3%nat. change (IZR (2 + 1 - 1)) with 2. cbn [seq map INR].
    apply f_equal. repeat (apply f_equal2; [lra|]). reflexivity.
  - assert (len / s * s = len) by (field; lra). split; [apply (Rmult_lt_reg_r s)|apply (Rmult_le_reg_r s)]; lra.
Qed.

Lemma nodup_right {A} (a b : list A) : NoDup (a ++ b) -> NoDup b.
Proof. induction a as [|x a IH]; [auto|]. cbn. intros N. inversion N; subst. auto. Qed.
Lemma double_b_gap : exists l, double_lift_core_b_bars 5.6 2 0.2 0.2 1.2 1 0.02 0.2 0.04 true = Ok l /\ ~ NoDup l /\ forall p, In p l -> fst p = 1.85 -> ~ (1.75 < snd p < 2.25).
Proof.
  assert (Hs : 0 < 0.2) by lra. unfold double_lift_core_b_bars. cbv zeta. cbn [negb].
  next_run 0.05 1.95. next_run 0.15 1.85. next_run 0.05 5.55. next_run 0.15 2.25. next_run 3.35 5.45. next_run 0.05 0.65. next_run 4.95 5.55. next_run 0.15 0.65. next_run 4.95 5.45. next_run 1.75 3.85.
  match goal with |- context [bind (run ?u ?v ?w ?s) _] => rewrite (run_2 u v w s 1.75 2.75) by lra end. cbn [bind].
  match goal with |- context [bind (run ?u ?v ?w ?s) _] => rewrite (run_2 u v w s 2.85 3.85) by lra end. cbn [bind].
  eexists. split; [reflexivity|]. split.
  - intros N. pose proof (run_last _ _ _ _ Run0) as I.
    match type of N with NoDup (?A ++ ?B ++ ?C ++ ?D ++ ?E ++ ?F ++ ?G ++ ?H) => assert (I1 : In (1.85, 2.25) B) end.
    { apply in_for_x_y. cbn [fst snd]. split; [exact I|]. right. left. lra. }
    match type of N with NoDup (?A ++ ?B ++ ?C ++ ?D ++ ?E ++ ?F ++ ?G ++ ?H) => assert (I2 : In (1.85, 2.25) (C ++ D ++ E ++ F ++ G ++ H)) end.
    { do 5 (apply in_or_app; right). apply in_col. cbn [fst snd to_last from_1 removelast tl app]. split; [lra|]. right. left. lra. }
    apply nodup_right in N. revert N I1 I2.
    generalize (1.85, 2.25). intros q N I1 I2. match type of N with NoDup (?B ++ ?T) => revert N I1 I2; generalize B T end. clear. intros B T N I1 I2.
    induction B as [|x B IH]; [destruct I1|]. cbn in N. inversion N as [|? ? M N']; subst. destruct I1 as [->|I1]; [apply M, in_or_app; right; exact I2|apply IH; assumption].
  - split_inner. intros p I E. know; cbn [to_last from_1 removelast tl app] in *; try lra.
    all: repeat match goal with H : In _ (_ :: _) |- _ => destruct H as [H|H]; [lra|] | H : In _ [] |- _ => destruct H end.
Qed.
Lemma double_b_crash d b t1 t2 t3 a dia_bar spacing cover m nib : 0 < spacing -> m = cover + dia_bar / 2 -> 0 < m -> 2 * m < t1 -> 2 * m < t2 -> 2 * m < t3 -> 2 * t2 < b -> 0 < a -> a <= (d - 2 * t1 - t3) / 2 ->
  nib = (d - 2 * t1 - 2 * a - t3) / 4 -> nib <= 2 * m - 2 * spacing -> double_lift_core_b_bars d b t1 t2 t3 a dia_bar spacing cover true = Err ValueError.
Proof.
  intros Hs Em Hm H1 H2 H3 H4 H5 H6 H7 H8. unfold double_lift_core_b_bars. replace (0.25 * (d - 2 * t1 - 2 * a - t3)) with nib by lra. cbv zeta. cbn [negb].
  next_run m (b - m). next_run (t2 - m) (b - t2 + m). next_run m (d - m). next_run (t1 - m) ((d - t3) / 2 + m). next_run ((d + t3) / 2 - m) (d - t1 + m). next_run m (t1 + nib - m). next_run (d - t1 - nib + m) (d - m).
  next_run (t1 - m) (t1 + nib - m). next_run (d - t1 - nib + m) (d - t1 + m). next_run ((d - t3) / 2 - nib + m) ((d + t3) / 2 + nib - m).
  match goal with |- context [bind (run ?u ?v ?w ?s) _] => assert (E : run u v w s = Err ValueError) end; [|rewrite E; reflexivity].
  unfold run, linspace. match goal with |- context [ceil ?x] => assert (L : (ceil x <= -2)%Z) end.
  - match goal with |- (ceil ?x <= _)%Z => pose proof (ceil_spec x) as [C1 C2]; assert (X : x <= -2) end.
    + apply (Rmult_le_reg_r spacing); [exact Hs|]. unfold Rdiv. rewrite Rmult_assoc, Rinv_l by lra. lra.
    + apply Z.lt_succ_r, lt_IZR. rewrite succ_IZR. lra.
  - destruct (Z.ltb_spec (ceil ((nib - 2 * cover - dia_bar) / spacing) + 1) 0); [reflexivity|lia].
Qed.
