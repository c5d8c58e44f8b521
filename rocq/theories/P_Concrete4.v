(** The walls: concrete and bars together. *)
From Coq Require Import String Reals List Bool Arith ZArith Lra Lia.
From Verif Require Import Base M_Fea M_Init M_Bisect M_Geometry S_Geometry P_Geometry P_Geometry3 M_Library S_Library M_SetOps S_SetOps P_SetOps M_Concrete S_Concrete P_Concrete P_Concrete2 P_Concrete3.
Import ListNotations.
Local Open Scope R_scope.

Ltac outside := repeat match goal with H : Forall _ (_ :: _) |- _ => apply Forall_cons_iff in H; destruct H | H : Forall _ [] |- _ => clear H end.
Ltac in_wall := repeat match goal with H : Exists _ (_ :: _) |- _ => apply Exists_cons in H; destruct H as [H|H] | H : Exists _ [] |- _ => inversion H end.
Ltac cut_at c := match goal with p : pt |- _ => first [destruct (Rle_lt_dec (fst p) c)] end.
Ltac made xs ys :=
  split; [intros p I; in_wall; unfold within in *; cbn [fst snd] in *; (split; [lra|]); repeat (constructor; [cbn [fst snd]; intros; lra|]); constructor
  | intros p O N; outside; unfold within in *; cbn [fst snd] in *;
    let rec split_x l := lazymatch l with ?c :: ?r => destruct (Rle_lt_dec (fst p) c); split_x r | _ => idtac end in
    let rec split_y l := lazymatch l with ?c :: ?r => destruct (Rle_lt_dec (snd p) c); split_y r | _ => idtac end in
    split_x xs; split_y ys; first [in_some | exfalso; match goal with K : ~ _ |- _ => apply K; lra end ]].
Lemma rn_is flip e x1 y1 x2 y2 a1 b1 a2 b2 m g : rn flip e x1 y1 x2 y2 m g -> e <= 20 * h -> x1 = a1 -> y1 = b1 -> x2 = a2 -> y2 = b2 -> rectangle ((a1, b1), (a2, b2)) m g.
Proof. intros H E -> -> -> ->. apply (rn_rectangle flip e); assumption. Qed.
Ltac small := rewrite ?h_tiny in *; pose proof h_pos; lra.
Ltac rect_is := match goal with H : rn _ _ _ _ _ _ _ _ |- rectangle _ _ _ => apply (rn_is _ _ _ _ _ _ _ _ _ _ _ _ H); small end.
Ltac rects := repeat first [apply Forall2_nil | apply Forall2_cons; [eexists; rect_is|]].
(** the parts in order *)
Ltac next_rect :=
  match goal with |- context [bind (rectangular_section ?sh ?d ?b ?m) _] => let g := fresh "g" in let E := fresh "E" in let X := fresh "Rect" in
    destruct (rect_made sh d b m ltac:(small) ltac:(small)) as (g & E & X); rewrite E; clear E; cbn [bind] end.
Ltac next_sub U :=
  match goal with |- context [bind (geom_sub ?sh ?so ?a ?b) _] => let i := fresh "body" in let E := fresh "Sub" in destruct (sub_ok sh so a b U) as (i & E); rewrite E; cbn [bind] end.
Ltac next_layout L := let l := fresh "l" in let E := fresh "E" in let X := fresh "Layout" in destruct L as (l & E & X); rewrite E; clear E; cbn [bind].
Ltac lessed := repeat (eexists; split; [eassumption|]); reflexivity.
Ltac walled U H Ha :=
  match goal with |- exists c, add_bars ?sh ?so ?g ?area ?m ?n ?ps = Ok c /\ _ => let c := fresh "c" in let E := fresh "E" in let W := fresh "W" in
    destruct (with_bars_made sh so g area n m ps U H Ha) as (c & E & W); exists c; split; [exact E|]; split; [|eexists _, _, _, _; split; [|split; [|split; [|split; [exact W|]]]]] end.

Lemma rectangular_wall_made sh so d t dia_bar area_bar spacing cover m double n conc steel : workable so -> (3 <= n)%nat -> 1 / 10 ^ 20 <= area_bar ->
  0 < spacing -> m = cover + dia_bar / 2 -> tiny <= m -> 2 * m < t -> 2 * m < d ->
  exists c, rectangular_wall sh so d t dia_bar area_bar spacing cover double n conc steel = Ok c /\
  reinforced_wall sh so ((0, 0), (t, d)) [] [((0, 0), (t, d))]
    (if double then [full (m, m) (m, d - m); full (t - m, m) (t - m, d - m)] else [full (t / 2, m) (t / 2, d - m)]) spacing m area_bar n conc steel c.
Proof.
  intros U H Ha Hs Em Hm H1 H2. unfold rectangular_wall. next_rect. next_layout (rectangular_wall_layout d t dia_bar spacing cover m double Hs Em ltac:(small) H1 H2). walled U H Ha.
  - made (@nil R) (@nil R).
  - rect_is.
  - apply Forall2_nil.
  - reflexivity.
  - exact Layout.
Qed.
Lemma cee_wall_made sh so d b t_f t_w dia_bar area_bar spacing cover m double n conc steel : workable so -> (3 <= n)%nat -> 1 / 10 ^ 20 <= area_bar ->
  0 < spacing -> m = cover + dia_bar / 2 -> tiny <= m -> 2 * m < t_f -> 2 * m < t_w -> t_w + tiny <= b -> 2 * t_f + tiny <= d ->
  exists c, cee_wall sh so d b t_f t_w dia_bar area_bar spacing cover double n conc steel = Ok c /\
  reinforced_wall sh so ((0, 0), (b, d)) [((t_w, t_f), (b, d - t_f))] [((0, 0), (t_w, d)); ((0, 0), (b, t_f)); ((0, d - t_f), (b, d))]
    (if double
     then [full (m, m) (b - m, m); full (m, d - m) (b - m, d - m); full (m, m) (m, d - m);
           full (t_w - m, t_f - m) (b - m, t_f - m); full (t_w - m, d - t_f + m) (b - m, d - t_f + m); full (t_w - m, t_f - m) (t_w - m, d - t_f + m)]
     else [full (t_w / 2, t_f / 2) (b - m, t_f / 2); full (t_w / 2, d - t_f / 2) (b - m, d - t_f / 2); full (t_w / 2, t_f / 2) (t_w / 2, d - t_f / 2)])
    spacing m area_bar n conc steel c.
Proof.
  intros U H Ha Hs Em Hm H1 H2 H3 H4. unfold cee_wall. next_rect. next_rect.
  pose proof (rn_center sh _ _ _ _ _ _ _ _ _ _ _ _ _ _ Rect0 Rect ltac:(small) ltac:(small) ltac:(small) ltac:(small)) as Mid.
  destruct (rn_right sh _ _ _ _ _ _ _ _ _ _ _ _ _ _ Mid Rect ltac:(small) ltac:(small) ltac:(small) ltac:(small)) as (g' & E & Right). rewrite E. cbn [bind]. clear E Mid Rect0. next_sub U.
  next_layout (cee_wall_layout d b t_f t_w dia_bar spacing cover m double Hs Em ltac:(small) H1 H2 ltac:(small) ltac:(small)). walled U H Ha.
  - assert (0 < m) by small. assert (t_w < b) by small. assert (2 * t_f < d) by small. made [t_w] [t_f; d - t_f].
  - rect_is.
  - rects.
  - lessed.
  - exact Layout.
Qed.
Lemma tee_wall_made sh so d b t_f t_w dia_bar area_bar spacing cover m double n conc steel : workable so -> (3 <= n)%nat -> 1 / 10 ^ 20 <= area_bar ->
  0 < spacing -> m = cover + dia_bar / 2 -> tiny <= m -> 2 * m < t_f -> 2 * m < t_w -> t_w + 2 * tiny <= b -> t_f + tiny <= d ->
  exists c, tee_wall sh so d b t_f t_w dia_bar area_bar spacing cover double n conc steel = Ok c /\
  reinforced_wall sh so ((0, 0), (b, d)) [((0, 0), ((b - t_w) / 2, d - t_f)); (((b + t_w) / 2, 0), (b, d - t_f))] [((0, d - t_f), (b, d)); (((b - t_w) / 2, 0), ((b + t_w) / 2, d))]
    (if double
     then [full (m, d - m) (b - m, d - m); full (m, d - t_f + m) ((b - t_w) / 2 + m, d - t_f + m); full ((b + t_w) / 2 - m, d - t_f + m) (b - m, d - t_f + m);
           full ((b - t_w) / 2 + m, m) ((b - t_w) / 2 + m, d - t_f + m); full ((b + t_w) / 2 - m, m) ((b + t_w) / 2 - m, d - t_f + m)]
     else [full (m, d - t_f / 2) (b - m, d - t_f / 2); mkLine (b / 2, m) (b / 2, d - t_f / 2) true false])
    spacing m area_bar n conc steel c.
Proof.
  intros U H Ha Hs Em Hm H1 H2 H3 H4. unfold tee_wall. next_rect. next_rect. cbv zeta.
  pose proof (rn_mirror sh _ _ _ _ _ _ _ (0.5 * b) Rect0 ltac:(small)) as Mir. next_sub U. next_sub U.
  next_layout (tee_wall_layout d b t_f t_w dia_bar spacing cover m double Hs Em ltac:(small) H1 H2 ltac:(small) ltac:(small)). walled U H Ha.
  - assert (0 < m) by small. assert (t_w < b) by small. assert (t_f < d) by small. made [(b - t_w) / 2; (b + t_w) / 2] [d - t_f].
  - rect_is.
  - rects.
  - lessed.
  - exact Layout.
Qed.
Lemma stairwell_made sh so d b t1 t2 a dia_bar area_bar spacing cover m double n conc steel : workable so -> (3 <= n)%nat -> 1 / 10 ^ 20 <= area_bar ->
  0 < spacing -> m = cover + dia_bar / 2 -> tiny <= m -> 2 * m < t1 -> 2 * m < t2 -> 2 * t2 + tiny <= b -> tiny <= a -> a <= d - 2 * t1 ->
  exists c, stairwell sh so d b t1 t2 a dia_bar area_bar spacing cover double n conc steel = Ok c /\
  reinforced_wall sh so ((0, 0), (b, d)) [((t2, t1), (b - t2, d - t1)); ((b - t2, d - t1 - a), (b, d - t1))] [((0, 0), (b, t1)); ((0, d - t1), (b, d)); ((0, 0), (t2, d)); ((b - t2, 0), (b, d - t1 - a))]
    (if double
     then [full (m, m) (b - m, m); full (m, d - m) (b - m, d - m); full (m, m) (m, d - m);
           full (t2 - m, t1 - m) (b - t2 + m, t1 - m); full (t2 - m, d - t1 + m) (b - m, d - t1 + m); full (t2 - m, t1 - m) (t2 - m, d - t1 + m);
           full (b - t2 + m, t1 - m) (b - t2 + m, d - t1 - a - m); full (b - m, m) (b - m, d - t1 - a - m)]
     else [full (t2 / 2, t1 / 2) (b - t2 / 2, t1 / 2); full (t2 / 2, d - t1 / 2) (b - t2 / 2, d - t1 / 2); full (t2 / 2, t1 / 2) (t2 / 2, d - t1 / 2);
           full (b - t2 / 2, t1 / 2) (b - t2 / 2, d - t1 - a - m)])
    spacing m area_bar n conc steel c.
Proof.
  intros U H Ha Hs Em Hm H1 H2 H3 H4 H5. unfold stairwell. next_rect. next_rect. cbv zeta.
  pose proof (rn_center sh _ _ _ _ _ _ _ _ _ _ _ _ _ _ Rect0 Rect ltac:(small) ltac:(small) ltac:(small) ltac:(small)) as Mid. next_rect.
  pose proof (rn_shift sh _ _ _ _ _ _ _ _ (b - t2) (d - t1 - a) _ _ 0 Rect1 (conj (Req_le _ _ (Rminus_0_r _)) (Req_le _ _ (eq_sym (Rplus_0_r _)))) (conj (Req_le _ _ (Rminus_0_r _)) (Req_le _ _ (eq_sym (Rplus_0_r _)))) ltac:(small)) as Door.
  next_sub U. next_sub U.
  next_layout (stairwell_layout d b t1 t2 a dia_bar spacing cover m double Hs Em ltac:(small) H1 H2 ltac:(small) ltac:(small) H5). walled U H Ha.
  - assert (0 < m) by small. assert (2 * t2 < b) by small. assert (0 < a) by small. made [t2; b - t2] [t1; d - t1 - a; d - t1].
  - rect_is.
  - rects.
  - lessed.
  - exact Layout.
Qed.
Lemma rn_shifted sh flip e x1 y1 x2 y2 m g dx dy : rn flip e x1 y1 x2 y2 m g -> 2 * h + 2 * e < x2 - x1 -> rn flip (e + 0 + h) (x1 + dx) (y1 + dy) (x2 + dx) (y2 + dy) m (shift_section sh g dx dy).
Proof. intros G W. apply rn_shift; [exact G|lra|lra|exact W]. Qed.
Lemma single_lift_core_made sh so d b t1 t2 a dia_bar area_bar spacing cover m double n conc steel : workable so -> (3 <= n)%nat -> 1 / 10 ^ 20 <= area_bar ->
  0 < spacing -> m = cover + dia_bar / 2 -> tiny <= m -> 2 * m < t1 -> 2 * m < t2 -> 2 * t2 + tiny <= b -> tiny <= a -> a <= d - 2 * t1 ->
  exists c, single_lift_core sh so d b t1 t2 a dia_bar area_bar spacing cover double n conc steel = Ok c /\
  reinforced_wall sh so ((0, 0), (b, d)) [((t2, t1), (b - t2, d - t1)); ((b - t2, (d - a) / 2), (b, (d + a) / 2))]
    [((0, 0), (b, t1)); ((0, d - t1), (b, d)); ((0, 0), (t2, d)); ((b - t2, 0), (b, (d - a) / 2)); ((b - t2, (d + a) / 2), (b, d))]
    (if double
     then [full (m, m) (b - m, m); full (m, d - m) (b - m, d - m); full (m, m) (m, d - m);
           full (t2 - m, t1 - m) (b - t2 + m, t1 - m); full (t2 - m, d - t1 + m) (b - t2 + m, d - t1 + m); full (t2 - m, t1 - m) (t2 - m, d - t1 + m);
           full (b - m, m) (b - m, (d - a) / 2 - m); full (b - m, (d + a) / 2 + m) (b - m, d - m);
           full (b - t2 + m, t1 - m) (b - t2 + m, (d - a) / 2 - m); full (b - t2 + m, (d + a) / 2 + m) (b - t2 + m, d - t1 + m)]
     else [full (t2 / 2, t1 / 2) (b - t2 / 2, t1 / 2); full (t2 / 2, d - t1 / 2) (b - t2 / 2, d - t1 / 2); full (t2 / 2, t1 / 2) (t2 / 2, d - t1 / 2);
           full (b - t2 / 2, t1 / 2) (b - t2 / 2, (d - a) / 2 - m); full (b - t2 / 2, (d + a) / 2 + m) (b - t2 / 2, d - t1 / 2)])
    spacing m area_bar n conc steel c.
Proof.
  intros U H Ha Hs Em Hm H1 H2 H3 H4 H5. unfold single_lift_core. next_rect. next_rect. cbv zeta.
  pose proof (rn_center sh _ _ _ _ _ _ _ _ _ _ _ _ _ _ Rect0 Rect ltac:(small) ltac:(small) ltac:(small) ltac:(small)) as Mid. next_rect.
  pose proof (rn_center sh _ _ _ _ _ _ _ _ _ _ _ _ _ _ Rect1 Rect ltac:(small) ltac:(small) ltac:(small) ltac:(small)) as Mid2.
  destruct (rn_right sh _ _ _ _ _ _ _ _ _ _ _ _ _ _ Mid2 Rect ltac:(small) ltac:(small) ltac:(small) ltac:(small)) as (g' & E & Right). rewrite E. cbn [bind]. clear E Mid2 Rect1 Rect0.
  next_sub U. next_sub U.
  next_layout (single_lift_core_layout d b t1 t2 a dia_bar spacing cover m double Hs Em ltac:(small) H1 H2 ltac:(small) ltac:(small) H5). walled U H Ha.
  - assert (0 < m) by small. assert (2 * t2 < b) by small. assert (0 < a) by small. made [t2; b - t2] [t1; (d - a) / 2; (d + a) / 2; d - t1].
  - rect_is.
  - rects.
  - lessed.
  - exact Layout.
Qed.
Lemma double_lift_core_a_made sh so d b t1 t2 a1 a2 dia_bar area_bar spacing cover m double n conc steel nib : workable so -> (3 <= n)%nat -> 1 / 10 ^ 20 <= area_bar ->
  0 < spacing -> m = cover + dia_bar / 2 -> tiny <= m -> 2 * m < t1 -> 2 * m < t2 -> 2 * t2 + tiny <= b -> tiny <= a1 -> 2 * m < a2 -> 2 * a1 + a2 <= d - 2 * t1 -> nib = (d - 2 * a1 - a2 - 2 * t1) / 2 ->
  exists c, double_lift_core_a sh so d b t1 t2 a1 a2 dia_bar area_bar spacing cover double n conc steel = Ok c /\
  reinforced_wall sh so ((0, 0), (b, d)) [((t2, t1), (b - t2, d - t1)); ((b - t2, (d + a2) / 2), (b, d - t1 - nib)); ((b - t2, t1 + nib), (b, (d - a2) / 2))]
    [((0, 0), (b, t1)); ((0, d - t1), (b, d)); ((0, 0), (t2, d)); ((b - t2, 0), (b, t1 + nib)); ((b - t2, d - t1 - nib), (b, d)); ((b - t2, (d - a2) / 2), (b, (d + a2) / 2))]
    (if double
     then [full (m, m) (b - m, m); full (m, d - m) (b - m, d - m); full (m, m) (m, d - m);
           full (t2 - m, t1 - m) (b - t2 + m, t1 - m); full (t2 - m, d - t1 + m) (b - t2 + m, d - t1 + m); full (t2 - m, t1 - m) (t2 - m, d - t1 + m);
           full (b - m, m) (b - m, t1 + nib - m); full (b - m, d - t1 - nib + m) (b - m, d - m);
           full (b - t2 + m, t1 - m) (b - t2 + m, t1 + nib - m); full (b - t2 + m, d - t1 - nib + m) (b - t2 + m, d - t1 + m);
           full (b - m, (d - a2) / 2 + m) (b - m, (d + a2) / 2 - m); full (b - t2 + m, (d - a2) / 2 + m) (b - t2 + m, (d + a2) / 2 - m)]
     else [full (t2 / 2, t1 / 2) (b - t2 / 2, t1 / 2); full (t2 / 2, d - t1 / 2) (b - t2 / 2, d - t1 / 2); full (t2 / 2, t1 / 2) (t2 / 2, d - t1 / 2);
           full (b - t2 / 2, t1 / 2) (b - t2 / 2, t1 + nib - m); full (b - t2 / 2, d - t1 - nib + m) (b - t2 / 2, d - t1 / 2);
           full (b - t2 / 2, (d - a2) / 2 + m) (b - t2 / 2, (d + a2) / 2 - m)])
    spacing m area_bar n conc steel c.
Proof.
  intros U H Ha Hs Em Hm H1 H2 H3 H4 H5 H6 H7. unfold double_lift_core_a. destruct (Rlt_dec _ _) as [X|_]; [exfalso; lra|]. replace (0.5 * (d - 2 * a1 - a2 - 2 * t1)) with nib by lra. next_rect. next_rect. cbv zeta.
  pose proof (rn_center sh _ _ _ _ _ _ _ _ _ _ _ _ _ _ Rect0 Rect ltac:(small) ltac:(small) ltac:(small) ltac:(small)) as Mid. next_rect.
  pose proof (rn_shifted sh _ _ _ _ _ _ _ _ (b - t2) (d - t1 - nib - a1) Rect1 ltac:(small)) as Door1. pose proof (rn_shifted sh _ _ _ _ _ _ _ _ (b - t2) (t1 + nib) Rect1 ltac:(small)) as Door2. clear Rect0 Rect1.
  next_sub U. next_sub U. next_sub U.
  next_layout (double_lift_core_a_layout d b t1 t2 a1 a2 dia_bar spacing cover m double nib Hs Em ltac:(small) H1 H2 ltac:(small) ltac:(small) H5 H6 H7). walled U H Ha.
  - assert (0 < m) by small. assert (2 * t2 < b) by small. assert (0 < a1) by small. made [t2; b - t2] [t1; t1 + nib; (d - a2) / 2; (d + a2) / 2; d - t1 - nib; d - t1].
  - rect_is.
  - rects.
  - lessed.
  - exact Layout.
Qed.
Lemma double_lift_core_b_single_made sh so d b t1 t2 t3 a dia_bar area_bar spacing cover m n conc steel nib : workable so -> (3 <= n)%nat -> 1 / 10 ^ 20 <= area_bar ->
  0 < spacing -> m = cover + dia_bar / 2 -> tiny <= m -> 2 * m < t1 -> 2 * m < t2 -> 2 * m < t3 -> 2 * t2 + tiny <= b -> tiny <= a -> a <= (d - 2 * t1 - t3) / 2 -> nib = (d - 2 * t1 - 2 * a - t3) / 4 ->
  exists c, double_lift_core_b sh so d b t1 t2 t3 a dia_bar area_bar spacing cover false n conc steel = Ok c /\
  reinforced_wall sh so ((0, 0), (b, d))
    [((t2, t1), (b - t2, (d - t3) / 2)); ((t2, (d + t3) / 2), (b - t2, d - t1)); ((b - t2, (d + t3) / 2 + nib), (b, d - t1 - nib)); ((b - t2, t1 + nib), (b, (d - t3) / 2 - nib))]
    [((0, 0), (b, t1)); ((0, d - t1), (b, d)); ((0, 0), (t2, d)); ((0, (d - t3) / 2), (b, (d + t3) / 2)); ((b - t2, 0), (b, t1 + nib)); ((b - t2, d - t1 - nib), (b, d)); ((b - t2, (d - t3) / 2 - nib), (b, (d + t3) / 2 + nib))]
    [full (t2 / 2, t1 / 2) (b - t2 / 2, t1 / 2); full (t2 / 2, d - t1 / 2) (b - t2 / 2, d - t1 / 2); full (t2 / 2, t1 / 2) (t2 / 2, d - t1 / 2);
     mkLine (t2 / 2, d / 2) (b - t2 / 2, d / 2) false false;
           full (b - t2 / 2, t1 / 2) (b - t2 / 2, t1 + nib - m); full (b - t2 / 2, d - t1 - nib + m) (b - t2 / 2, d - t1 / 2);
           full (b - t2 / 2, (d - t3) / 2 - nib + m) (b - t2 / 2, (d + t3) / 2 + nib - m)]
    spacing m area_bar n conc steel c.
Proof.
  intros U H Ha Hs Em Hm H1 H2 H2' H3 H4 H5 H6. unfold double_lift_core_b. destruct (Rlt_dec _ _) as [X|_]; [exfalso; lra|]. cbv zeta. replace (0.25 * (d - 2 * t1 - 2 * a - t3)) with nib by lra. next_rect. next_rect. next_rect.
  pose proof (rn_shifted sh _ _ _ _ _ _ _ _ t2 t1 Rect0 ltac:(small)) as In1. pose proof (rn_shifted sh _ _ _ _ _ _ _ _ t2 (0.5 * (d + t3)) Rect0 ltac:(small)) as In2.
  pose proof (rn_shifted sh _ _ _ _ _ _ _ _ (b - t2) (d - t1 - nib - a) Rect1 ltac:(small)) as Door1. pose proof (rn_shifted sh _ _ _ _ _ _ _ _ (b - t2) (t1 + nib) Rect1 ltac:(small)) as Door2. clear Rect0 Rect1.
  next_sub U. next_sub U. next_sub U. next_sub U.
  next_layout (double_lift_core_b_single_layout d b t1 t2 t3 a dia_bar spacing cover m nib Hs Em ltac:(small) H1 H2 H2' ltac:(small) ltac:(small) H5 H6). walled U H Ha.
  - assert (0 < m) by small. assert (2 * t2 < b) by small. assert (0 < a) by small. made [t2; b - t2] [t1; t1 + nib; (d - t3) / 2 - nib; (d - t3) / 2; (d + t3) / 2; (d + t3) / 2 + nib; d - t1 - nib; d - t1].
  - rect_is.
  - rects.
  - lessed.
  - exact Layout.
Qed.
