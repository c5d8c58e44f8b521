(** The layouts of the walls. *)
From Coq Require Import String Reals List Bool Arith ZArith Lra Lia.
From Verif Require Import Base M_Fea M_Init M_Bisect M_Geometry S_Geometry M_Library M_SetOps S_SetOps M_Concrete S_Concrete P_Concrete.
Import ListNotations.
Local Open Scope R_scope.

(** [H] : In p blocks: coordinates of p *)
Ltac know :=
  repeat match goal with
  | H : In _ (_ ++ _) |- _ => apply in_app_iff in H; destruct H as [H|H]
  | H : In _ (row _ _) |- _ => apply in_row in H; destruct H
  | H : In _ (col _ _) |- _ => apply in_col in H; destruct H
  | H : In _ (for_x_y _ _) |- _ => apply in_for_x_y in H; destruct H
  | H : In _ (for_y_x _ _) |- _ => apply in_for_y_x in H; destruct H
  | H : In _ (_ :: _) |- _ => destruct H as [H|H]
  | H : In _ [] |- _ => destruct H
  | H : In _ (inner ?l), R : is_run _ _ _ ?l |- _ => apply (run_inner _ _ _ _ R) in H
  | H : In _ (from_1 ?l), R : is_run _ _ _ ?l |- _ => apply (run_from _ _ _ _ R) in H
  | H : In _ (to_last ?l), R : is_run _ _ _ ?l |- _ => apply (run_to _ _ _ _ R) in H
  | H : In _ ?l, R : is_run _ _ _ ?l |- _ => apply (run_in _ _ _ _ R) in H
  end.
(** goals In x l *)
Ltac inlist :=
  first [ eassumption
        | match goal with R : is_run _ _ _ ?l |- In _ ?l => first [apply (run_first_eq _ _ _ _ _ R); lra | apply (run_last_eq _ _ _ _ _ R); lra] end
        | match goal with |- In _ (_ ++ _) => apply in_or_app; first [left; inlist | right; inlist] end
        | match goal with |- In _ (_ :: _) => first [left; lra | right; inlist] end ].
Ltac leaf :=
  match goal with
  | |- In _ (row _ _) => apply in_row; cbn [fst snd]; split; [inlist|lra]
  | |- In _ (col _ _) => apply in_col; cbn [fst snd]; split; [lra|inlist]
  | |- In _ (for_x_y _ _) => apply in_for_x_y; cbn [fst snd]; split; inlist
  | |- In _ (for_y_x _ _) => apply in_for_y_x; cbn [fst snd]; split; inlist
  end.
Ltac find := match goal with |- In _ (_ ++ _) => apply in_or_app; first [left; leaf | right; find] | |- _ => leaf end.
(** a bar of the run R is somewhere in the list *)
Ltac mem R :=
  let x := fresh "x" in let I := fresh "I" in let F := fresh "F" in let G := fresh "G" in
  intros x I F G;
  first [ solve [find]
        | destruct (run_split_from _ _ _ _ R x I) as [->|I']; [solve [find]|solve [find]]
        | destruct (run_split_to _ _ _ _ R x I) as [->|I']; [first [solve [find]|exfalso; discriminate (G eq_refl ltac:(lra))]|solve [find]]
        | destruct (run_split _ _ _ _ R x I) as [->|[->|I']];
          [first [solve [find]|exfalso; discriminate (F eq_refl ltac:(lra))]|first [solve [find]|exfalso; discriminate (G eq_refl ltac:(lra))]|solve [find]] ].
Ltac space :=
  first [ eapply spaced_row; [match goal with R : is_run _ _ _ _ |- _ => exact R end|lra|idtac]
        | eapply spaced_col; [match goal with R : is_run _ _ _ _ |- _ => exact R end|lra|idtac] ].
Ltac try_space :=
  multimatch goal with
  | R : is_run _ _ _ _ |- spaced _ _ _ => first [eapply spaced_row; [exact R|lra|mem R]|eapply spaced_col; [exact R|lra|mem R]]
  end.
Ltac on_some :=
  first [ apply Exists_cons_hd; cbn [ln_from ln_to full]; first [apply on_row; lra | apply on_col; lra] | apply Exists_cons_tl; on_some ].
Ltac in_some := first [ apply Exists_cons_hd; unfold within; cbn [fst snd]; lra | apply Exists_cons_tl; in_some ].
Ltac nodup_leaf :=
  first [ match goal with R : is_run _ _ _ ?l |- NoDup ?l => apply R
        | R : is_run _ _ _ ?l |- NoDup (inner ?l) => exact (proj1 (sub_nodup _ (run_nodup _ _ _ _ R)))
        | R : is_run _ _ _ ?l |- NoDup (from_1 ?l) => exact (proj1 (proj2 (sub_nodup _ (run_nodup _ _ _ _ R))))
        | R : is_run _ _ _ ?l |- NoDup (to_last ?l) => exact (proj2 (proj2 (sub_nodup _ (run_nodup _ _ _ _ R)))) end
        | apply nodup_two; lra | apply NoDup_cons; [intros I; know; lra|nodup_leaf] | apply NoDup_nil
        | apply NoDup_app2; [nodup_leaf|nodup_leaf|intros p' I J; know; lra] ].
Ltac nodup_block :=
  first [ apply nodup_row; nodup_leaf | apply nodup_col; nodup_leaf | apply nodup_x_y; nodup_leaf | apply nodup_y_x; nodup_leaf ].
Ltac nodups :=
  match goal with
  | |- NoDup (_ ++ _) => apply NoDup_app2; [nodup_block|nodups|let p := fresh "p" in let I := fresh "I" in let J := fresh "J" in intros p I J; know; lra]
  | |- NoDup _ => nodup_block
  end.
Ltac layout :=
  split; [repeat (apply Forall_cons; [try_space|]); apply Forall_nil|split; [apply Forall_forall; let p := fresh "p" in intros p I; know; on_some|
  split; [apply Forall_forall; let p := fresh "p" in intros p I; know; in_some|nodups]]].
(** the next run of a bind *)
Ltac next_run P Q :=
  match goal with H : 0 < ?s |- context [bind (run ?a ?b ?len ?s) _] =>
    let l := fresh "l" in let X := fresh "Run" in let E := fresh "E" in
    first [ destruct (run_ex s P Q len a b H ltac:(lra) ltac:(lra) ltac:(lra) ltac:(lra)) as (l & E & X) | destruct (run_ok s P Q len a b H ltac:(lra) ltac:(lra) ltac:(lra)) as (l & E & X) ];
    rewrite E; clear E; cbn [bind]
  end.

Lemma rectangular_wall_layout d t dia_bar spacing cover m double : 0 < spacing -> m = cover + dia_bar / 2 -> 0 < m -> 2 * m < t -> 2 * m < d ->
  exists l, rectangular_wall_bars d t dia_bar spacing cover double = Ok l /\
  reinforced spacing m [((0, 0), (t, d))]
    (if double then [full (m, m) (m, d - m); full (t - m, m) (t - m, d - m)] else [full (t / 2, m) (t / 2, d - m)]) l.
Proof.
  intros Hs Em Hm H1 H2. unfold rectangular_wall_bars. next_run m (d - m). eexists. split; [reflexivity|]. destruct double; layout.
Qed.

Lemma cee_wall_layout d b t_f t_w dia_bar spacing cover m double : 0 < spacing -> m = cover + dia_bar / 2 -> 0 < m -> 2 * m < t_f -> 2 * m < t_w -> t_w < b -> 2 * t_f < d ->
  exists l, cee_wall_bars d b t_f t_w dia_bar spacing cover double = Ok l /\
  reinforced spacing m [((0, 0), (t_w, d)); ((0, 0), (b, t_f)); ((0, d - t_f), (b, d))]
    (if double
     then [full (m, m) (b - m, m); full (m, d - m) (b - m, d - m); full (m, m) (m, d - m);
           full (t_w - m, t_f - m) (b - m, t_f - m); full (t_w - m, d - t_f + m) (b - m, d - t_f + m); full (t_w - m, t_f - m) (t_w - m, d - t_f + m)]
     else [full (t_w / 2, t_f / 2) (b - m, t_f / 2); full (t_w / 2, d - t_f / 2) (b - m, d - t_f / 2); full (t_w / 2, t_f / 2) (t_w / 2, d - t_f / 2)]) l.
Proof.
  intros Hs Em Hm H1 H2 H3 H4. unfold cee_wall_bars. destruct double; cbn [negb].
  - next_run m (b - m). next_run m (d - m). next_run (t_w - m) (b - m). next_run (t_f - m) (d - t_f + m). eexists. split; [reflexivity|]. layout.
  - next_run (t_w / 2) (b - m). next_run (t_f / 2) (d - t_f / 2). eexists. split; [reflexivity|]. layout.
Qed.

Lemma tee_wall_layout d b t_f t_w dia_bar spacing cover m double : 0 < spacing -> m = cover + dia_bar / 2 -> 0 < m -> 2 * m < t_f -> 2 * m < t_w -> t_w < b -> t_f < d ->
  exists l, tee_wall_bars d b t_f t_w dia_bar spacing cover double = Ok l /\
  reinforced spacing m [((0, d - t_f), (b, d)); (((b - t_w) / 2, 0), ((b + t_w) / 2, d))]
    (if double
     then [full (m, d - m) (b - m, d - m); full (m, d - t_f + m) ((b - t_w) / 2 + m, d - t_f + m); full ((b + t_w) / 2 - m, d - t_f + m) (b - m, d - t_f + m);
           full ((b - t_w) / 2 + m, m) ((b - t_w) / 2 + m, d - t_f + m); full ((b + t_w) / 2 - m, m) ((b + t_w) / 2 - m, d - t_f + m)]
     else [full (m, d - t_f / 2) (b - m, d - t_f / 2); mkLine (b / 2, m) (b / 2, d - t_f / 2) true false]) l.
Proof.
  intros Hs Em Hm H1 H2 H3 H4. unfold tee_wall_bars. destruct double; cbn [negb].
  - next_run m (b - m). next_run m ((b - t_w) / 2 + m). next_run ((b + t_w) / 2 - m) (b - m). next_run m (d - t_f + m). eexists. split; [reflexivity|]. layout.
  - next_run m (b - m). next_run m (d - t_f / 2). eexists. split; [reflexivity|]. layout.
Qed.

Ltac split_inner := repeat match goal with X : is_run _ _ _ ?u, Y : is_run _ _ _ ?v |- context [inner (?u ++ ?v)] => rewrite (inner_app u v (run_nonnil _ _ _ _ X) (run_nonnil _ _ _ _ Y)) end.
Lemma stairwell_layout d b t1 t2 a dia_bar spacing cover m double : 0 < spacing -> m = cover + dia_bar / 2 -> 0 < m -> 2 * m < t1 -> 2 * m < t2 -> 2 * t2 < b -> 0 < a -> a <= d - 2 * t1 ->
  exists l, stairwell_bars d b t1 t2 a dia_bar spacing cover double = Ok l /\
  reinforced spacing m [((0, 0), (b, t1)); ((0, d - t1), (b, d)); ((0, 0), (t2, d)); ((b - t2, 0), (b, d - t1 - a))]
    (if double
     then [full (m, m) (b - m, m); full (m, d - m) (b - m, d - m); full (m, m) (m, d - m);
           full (t2 - m, t1 - m) (b - t2 + m, t1 - m); full (t2 - m, d - t1 + m) (b - m, d - t1 + m); full (t2 - m, t1 - m) (t2 - m, d - t1 + m);
           full (b - t2 + m, t1 - m) (b - t2 + m, d - t1 - a - m); full (b - m, m) (b - m, d - t1 - a - m)]
     else [full (t2 / 2, t1 / 2) (b - t2 / 2, t1 / 2); full (t2 / 2, d - t1 / 2) (b - t2 / 2, d - t1 / 2); full (t2 / 2, t1 / 2) (t2 / 2, d - t1 / 2);
           full (b - t2 / 2, t1 / 2) (b - t2 / 2, d - t1 - a - m)]) l.
Proof.
  intros Hs Em Hm H1 H2 H3 H4 H5. unfold stairwell_bars. destruct double; cbn [negb].
  - next_run m (b - m). next_run (t2 - m) (b - m). next_run (t2 - m) (b - t2 + m). next_run m (d - m). next_run (t1 - m) (d - t1 + m). next_run (t1 - m) (d - t1 - a - m). next_run m (d - t1 - a - m).
    eexists. split; [reflexivity|]. layout.
  - next_run (t2 / 2) (b - t2 / 2). next_run (t1 / 2) (d - t1 / 2). next_run (t1 / 2) (d - t1 - a - m). eexists. split; [reflexivity|]. layout.
Qed.

Lemma single_lift_core_layout d b t1 t2 a dia_bar spacing cover m double : 0 < spacing -> m = cover + dia_bar / 2 -> 0 < m -> 2 * m < t1 -> 2 * m < t2 -> 2 * t2 < b -> 0 < a -> a <= d - 2 * t1 ->
  exists l, single_lift_core_bars d b t1 t2 a dia_bar spacing cover double = Ok l /\
  reinforced spacing m [((0, 0), (b, t1)); ((0, d - t1), (b, d)); ((0, 0), (t2, d)); ((b - t2, 0), (b, (d - a) / 2)); ((b - t2, (d + a) / 2), (b, d))]
    (if double
     then [full (m, m) (b - m, m); full (m, d - m) (b - m, d - m); full (m, m) (m, d - m);
           full (t2 - m, t1 - m) (b - t2 + m, t1 - m); full (t2 - m, d - t1 + m) (b - t2 + m, d - t1 + m); full (t2 - m, t1 - m) (t2 - m, d - t1 + m);
           full (b - m, m) (b - m, (d - a) / 2 - m); full (b - m, (d + a) / 2 + m) (b - m, d - m);
           full (b - t2 + m, t1 - m) (b - t2 + m, (d - a) / 2 - m); full (b - t2 + m, (d + a) / 2 + m) (b - t2 + m, d - t1 + m)]
     else [full (t2 / 2, t1 / 2) (b - t2 / 2, t1 / 2); full (t2 / 2, d - t1 / 2) (b - t2 / 2, d - t1 / 2); full (t2 / 2, t1 / 2) (t2 / 2, d - t1 / 2);
           full (b - t2 / 2, t1 / 2) (b - t2 / 2, (d - a) / 2 - m); full (b - t2 / 2, (d + a) / 2 + m) (b - t2 / 2, d - t1 / 2)]) l.
Proof.
  intros Hs Em Hm H1 H2 H3 H4 H5. unfold single_lift_core_bars. destruct double; cbn [negb].
  - next_run m (b - m). next_run (t2 - m) (b - t2 + m). next_run m (d - m). next_run (t1 - m) (d - t1 + m). next_run m ((d - a) / 2 - m). next_run ((d + a) / 2 + m) (d - m).
    next_run (t1 - m) ((d - a) / 2 - m). next_run ((d + a) / 2 + m) (d - t1 + m).
    eexists. split; [reflexivity|]. split_inner. layout.
  - next_run (t2 / 2) (b - t2 / 2). next_run (t1 / 2) (d - t1 / 2). next_run (t1 / 2) ((d - a) / 2 - m). next_run ((d + a) / 2 + m) (d - t1 / 2).
    eexists. split; [reflexivity|]. layout.
Qed.

Lemma double_lift_core_a_layout d b t1 t2 a1 a2 dia_bar spacing cover m double nib : 0 < spacing -> m = cover + dia_bar / 2 -> 0 < m -> 2 * m < t1 -> 2 * m < t2 -> 2 * t2 < b -> 0 < a1 -> 2 * m < a2 -> 2 * a1 + a2 <= d - 2 * t1 ->
  nib = (d - 2 * a1 - a2 - 2 * t1) / 2 ->
  exists l, double_lift_core_a_bars d b t1 t2 a1 a2 dia_bar spacing cover double = Ok l /\
  reinforced spacing m [((0, 0), (b, t1)); ((0, d - t1), (b, d)); ((0, 0), (t2, d)); ((b - t2, 0), (b, t1 + nib)); ((b - t2, d - t1 - nib), (b, d)); ((b - t2, (d - a2) / 2), (b, (d + a2) / 2))]
    (if double
     then [full (m, m) (b - m, m); full (m, d - m) (b - m, d - m); full (m, m) (m, d - m);
           full (t2 - m, t1 - m) (b - t2 + m, t1 - m); full (t2 - m, d - t1 + m) (b - t2 + m, d - t1 + m); full (t2 - m, t1 - m) (t2 - m, d - t1 + m);
           full (b - m, m) (b - m, t1 + nib - m); full (b - m, d - t1 - nib + m) (b - m, d - m);
           full (b - t2 + m, t1 - m) (b - t2 + m, t1 + nib - m); full (b - t2 + m, d - t1 - nib + m) (b - t2 + m, d - t1 + m);
           full (b - m, (d - a2) / 2 + m) (b - m, (d + a2) / 2 - m); full (b - t2 + m, (d - a2) / 2 + m) (b - t2 + m, (d + a2) / 2 - m)]
     else [full (t2 / 2, t1 / 2) (b - t2 / 2, t1 / 2); full (t2 / 2, d - t1 / 2) (b - t2 / 2, d - t1 / 2); full (t2 / 2, t1 / 2) (t2 / 2, d - t1 / 2);
           full (b - t2 / 2, t1 / 2) (b - t2 / 2, t1 + nib - m); full (b - t2 / 2, d - t1 - nib + m) (b - t2 / 2, d - t1 / 2);
           full (b - t2 / 2, (d - a2) / 2 + m) (b - t2 / 2, (d + a2) / 2 - m)]) l.
Proof.
  intros Hs Em Hm H1 H2 H3 H4 H5 H6 H7. unfold double_lift_core_a_bars. replace (0.5 * (d - 2 * a1 - a2 - 2 * t1)) with nib by lra. cbv zeta. destruct double; cbn [negb].
  - next_run m (b - m). next_run (t2 - m) (b - t2 + m). next_run m (d - m). next_run (t1 - m) (d - t1 + m). next_run m (t1 + nib - m). next_run (d - t1 - nib + m) (d - m).
    next_run (t1 - m) (t1 + nib - m). next_run (d - t1 - nib + m) (d - t1 + m). next_run ((d - a2) / 2 + m) ((d + a2) / 2 - m).
    eexists. split; [reflexivity|]. split_inner. layout.
  - next_run (t2 / 2) (b - t2 / 2). next_run (t1 / 2) (d - t1 / 2). next_run (t1 / 2) (t1 + nib - m). next_run (d - t1 - nib + m) (d - t1 / 2). next_run ((d - a2) / 2 + m) ((d + a2) / 2 - m).
    eexists. split; [reflexivity|]. layout.
Qed.

Lemma double_lift_core_b_single_layout d b t1 t2 t3 a dia_bar spacing cover m nib : 0 < spacing -> m = cover + dia_bar / 2 -> 0 < m -> 2 * m < t1 -> 2 * m < t2 -> 2 * m < t3 -> 2 * t2 < b -> 0 < a -> a <= (d - 2 * t1 - t3) / 2 ->
  nib = (d - 2 * t1 - 2 * a - t3) / 4 ->
  exists l, double_lift_core_b_bars d b t1 t2 t3 a dia_bar spacing cover false = Ok l /\
  reinforced spacing m [((0, 0), (b, t1)); ((0, d - t1), (b, d)); ((0, 0), (t2, d)); ((0, (d - t3) / 2), (b, (d + t3) / 2)); ((b - t2, 0), (b, t1 + nib)); ((b - t2, d - t1 - nib), (b, d)); ((b - t2, (d - t3) / 2 - nib), (b, (d + t3) / 2 + nib))]
    [full (t2 / 2, t1 / 2) (b - t2 / 2, t1 / 2); full (t2 / 2, d - t1 / 2) (b - t2 / 2, d - t1 / 2); full (t2 / 2, t1 / 2) (t2 / 2, d - t1 / 2);
     mkLine (t2 / 2, d / 2) (b - t2 / 2, d / 2) false false;
           full (b - t2 / 2, t1 / 2) (b - t2 / 2, t1 + nib - m); full (b - t2 / 2, d - t1 - nib + m) (b - t2 / 2, d - t1 / 2);
           full (b - t2 / 2, (d - t3) / 2 - nib + m) (b - t2 / 2, (d + t3) / 2 + nib - m)] l.
Proof.
  intros Hs Em Hm H1 H2 H3 H4 H5 H6 H7. unfold double_lift_core_b_bars. replace (0.25 * (d - 2 * t1 - 2 * a - t3)) with nib by lra. cbv zeta. cbn [negb].
  next_run (t2 / 2) (b - t2 / 2). next_run (t1 / 2) (d - t1 / 2). next_run (t1 / 2) (t1 + nib - m). next_run (d - t1 - nib + m) (d - t1 / 2). next_run ((d - t3) / 2 - nib + m) ((d + t3) / 2 + nib - m).
  eexists. split; [reflexivity|]. layout.
Qed.

(** a run whose number of points does not fit its length *)
Lemma run_short s P Q len start stop : 0 < s -> start = P -> stop = Q -> - 2 * s < len -> (0 < len -> P < Q) ->
  exists l, run start stop len s = Ok l /\ (forall x, In x (from_1 l) -> P < x <= Q) /\ (forall x, In x (to_last l) -> P <= x < Q).
Proof.
  intros Hs -> -> H HPQ. destruct (Rlt_dec 0 len) as [L|L].
  - specialize (HPQ L). pose proof (ceil_spec (len / s)) as [C1 C2]. assert (Hl : 0 < len / s) by (apply Rdiv_lt_0_compat; lra).
    assert (Hc : (1 <= ceil (len / s))%Z) by (apply le_IZR; assert (0 < ceil (len / s))%Z by (apply lt_IZR; lra); apply IZR_le; lia).
    destruct (run_ok (Rmax s (Q - P)) P Q (Rmax s (Q - P) * IZR (ceil (len / s))) P Q) as (l & E & X); [apply (Rlt_le_trans _ s); [lra|apply Rmax_l]|reflexivity|reflexivity| |].
    { left. split; [exact HPQ|]. pose proof (Rmax_r s (Q - P)). pose proof (Rmax_l s (Q - P)). apply IZR_le in Hc. cbn in Hc. assert (Rmax s (Q - P) * 1 <= Rmax s (Q - P) * IZR (ceil (len / s))) by (apply Rmult_le_compat_l; lra). lra. }
    unfold run in E. replace (ceil (Rmax s (Q - P) * IZR (ceil (len / s)) / Rmax s (Q - P))) with (ceil (len / s)) in E.
    + exists l. split; [exact E|]. split; [apply (run_from _ _ _ _ X)|apply (run_to _ _ _ _ X)].
    + pose proof (Rmax_l s (Q - P)). replace (Rmax s (Q - P) * IZR (ceil (len / s)) / Rmax s (Q - P)) with (IZR (ceil (len / s))) by (field; lra).
      pose proof (ceil_spec (IZR (ceil (len / s)))) as [D1 D2]. apply Z.le_antisymm; [apply le_IZR; lra|]. apply Z.lt_succ_r. apply lt_IZR. rewrite succ_IZR. lra.
  - pose proof (ceil_spec (len / s)) as [C1 C2]. assert (Hl : len / s <= 0). { unfold Rdiv. pose proof (Rinv_0_lt_compat s Hs). assert (0 <= - len * / s) by (apply Rmult_le_pos; lra). lra. }
    assert (Hl2 : -2 < len / s). { apply (Rmult_lt_reg_r s); [exact Hs|]. unfold Rdiv. rewrite Rmult_assoc, Rinv_l by lra. lra. }
    assert (K : (ceil (len / s) = -1 \/ ceil (len / s) = 0)%Z). { assert (ceil (len / s) < 1)%Z by (apply lt_IZR; lra). assert (-2 < ceil (len / s))%Z by (apply lt_IZR; lra). lia. }
    unfold run, linspace. destruct K as [-> | ->].
    + exists []. split; [reflexivity|]. split; intros x [].
    + exists [P]. split; [reflexivity|]. split; intros x [].
Qed.

Lemma double_lift_core_b_double_layout d b t1 t2 t3 a dia_bar spacing cover m nib : 0 < spacing -> m = cover + dia_bar / 2 -> 0 < m -> 2 * m < t1 -> 2 * m < t2 -> 2 * m < t3 -> 2 * t2 < b -> 0 < a -> a <= (d - 2 * t1 - t3) / 2 ->
  nib = (d - 2 * t1 - 2 * a - t3) / 4 -> 2 * m - 2 * spacing < nib ->
  exists main pier, double_lift_core_b_bars d b t1 t2 t3 a dia_bar spacing cover true = Ok (main ++ pier) /\
  reinforced spacing m [((0, 0), (b, t1)); ((0, d - t1), (b, d)); ((0, 0), (t2, d)); ((0, (d - t3) / 2), (b, (d + t3) / 2)); ((b - t2, 0), (b, t1 + nib)); ((b - t2, d - t1 - nib), (b, d)); ((b - t2, (d - t3) / 2 - nib), (b, (d + t3) / 2 + nib))]
    [full (m, m) (b - m, m); full (m, d - m) (b - m, d - m); full (m, m) (m, d - m);
     full (t2 - m, t1 - m) (b - t2 + m, t1 - m); full (t2 - m, (d - t3) / 2 + m) (b - t2 + m, (d - t3) / 2 + m);
     full (t2 - m, (d + t3) / 2 - m) (b - t2 + m, (d + t3) / 2 - m); full (t2 - m, d - t1 + m) (b - t2 + m, d - t1 + m);
     full (t2 - m, t1 - m) (t2 - m, (d - t3) / 2 + m); full (t2 - m, (d + t3) / 2 - m) (t2 - m, d - t1 + m);
     full (b - m, m) (b - m, t1 + nib - m); full (b - m, d - t1 - nib + m) (b - m, d - m);
     full (b - t2 + m, t1 - m) (b - t2 + m, t1 + nib - m); full (b - t2 + m, d - t1 - nib + m) (b - t2 + m, d - t1 + m);
     full (b - m, (d - t3) / 2 - nib + m) (b - m, (d + t3) / 2 + nib - m)] main /\
  Forall (fun p => (exists t, 0 <= t <= 1 /\ p = toward (b - t2 + m, (d - t3) / 2 - nib + m) (b - t2 + m, (d + t3) / 2 + nib - m) t) /\ within m p ((b - t2, (d - t3) / 2 - nib), (b, (d + t3) / 2 + nib))) pier.
Proof.
  intros Hs Em Hm H1 H2 H3 H4 H5 H6 H7 H8. unfold double_lift_core_b_bars. replace (0.25 * (d - 2 * t1 - 2 * a - t3)) with nib by lra. cbv zeta. cbn [negb].
  next_run m (b - m). next_run (t2 - m) (b - t2 + m). next_run m (d - m). next_run (t1 - m) ((d - t3) / 2 + m). next_run ((d + t3) / 2 - m) (d - t1 + m). next_run m (t1 + nib - m). next_run (d - t1 - nib + m) (d - m).
  next_run (t1 - m) (t1 + nib - m). next_run (d - t1 - nib + m) (d - t1 + m). next_run ((d - t3) / 2 - nib + m) ((d + t3) / 2 + nib - m).
  match goal with |- context [bind (run ?u ?v ?w ?s) _] => destruct (run_short s ((d - t3) / 2 - nib + m) (d / 2 - m) w u v Hs ltac:(lra) ltac:(lra) ltac:(lra) ltac:(intros; lra)) as (u1 & -> & _ & U1) end. cbn [bind].
  match goal with |- context [bind (run ?u ?v ?w ?s) _] => destruct (run_short s (d / 2 + m) ((d + t3) / 2 + nib - m) w u v Hs ltac:(lra) ltac:(lra) ltac:(lra) ltac:(intros; lra)) as (u2 & -> & U2 & _) end. cbn [bind].
  match goal with |- context [Ok (?A ++ ?B ++ ?C ++ ?D ++ ?E ++ ?F ++ ?G ++ ?H) = _] => exists (A ++ B ++ C ++ D ++ E ++ F ++ G), H end. split; [rewrite <- !app_assoc; reflexivity|]. split.
  - split_inner. layout.
  - apply Forall_forall. intros p I. apply in_col in I. destruct I as [E I]. apply in_app_iff in I.
    assert (K : (d - t3) / 2 - nib + m <= snd p <= (d + t3) / 2 + nib - m) by (destruct I as [I|I]; [apply U1 in I|apply U2 in I]; lra).
    split; [apply on_col; lra|unfold within; cbn [fst snd]; lra].
Qed.
