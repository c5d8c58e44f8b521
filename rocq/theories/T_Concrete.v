(** Theorems about the concrete sections: C63 and C64. *)
From Coq Require Import String Reals List Bool Arith ZArith Lra Lia.
From Verif Require Import Base M_Fea M_Init M_Bisect M_Geometry S_Geometry P_Geometry8 M_Library M_SetOps S_SetOps M_Concrete S_Concrete P_Concrete P_Concrete2 P_Concrete3 P_Concrete4 P_Concrete5.
Import ListNotations.
Local Open Scope R_scope.

(** A shapely that takes nothing out, for the examples. *)
Definition keep_all : setops :=
  let s := fun a _ => ShMulti a in mkSetops s s s s (fun p _ _ => ShPolygon p) (fun l => match l with [p] => Some p | _ => None end) (fun p _ => Some [p]) (fun p _ _ => Some p).
Lemma keep_works : workable keep_all. Proof. intros a b. exact I. Qed.

(** ** C64: walls and cores. [m] is the distance from a face of the wall to the centres of the bars. *)

(** A wall with bars in its middle or along both faces. *)
Theorem C64_rectangular_wall sh so d t dia_bar area_bar spacing cover m double n conc steel : workable so -> (3 <= n)%nat -> 1 / 10 ^ 20 <= area_bar ->
  0 < spacing -> m = cover + dia_bar / 2 -> tiny <= m -> 2 * m < t -> 2 * m < d ->
  exists c, rectangular_wall sh so d t dia_bar area_bar spacing cover double n conc steel = Ok c /\
  reinforced_wall sh so ((0, 0), (t, d)) [] [((0, 0), (t, d))]
    (if double then [full (m, m) (m, d - m); full (t - m, m) (t - m, d - m)] else [full (t / 2, m) (t / 2, d - m)]) spacing m area_bar n conc steel c.
Proof. apply rectangular_wall_made. Qed.

(** C shape. *)
Theorem C64_cee_wall sh so d b t_f t_w dia_bar area_bar spacing cover m double n conc steel : workable so -> (3 <= n)%nat -> 1 / 10 ^ 20 <= area_bar ->
  0 < spacing -> m = cover + dia_bar / 2 -> tiny <= m -> 2 * m < t_f -> 2 * m < t_w -> t_w + tiny <= b -> 2 * t_f + tiny <= d ->
  exists c, cee_wall sh so d b t_f t_w dia_bar area_bar spacing cover double n conc steel = Ok c /\
  reinforced_wall sh so ((0, 0), (b, d)) [((t_w, t_f), (b, d - t_f))] [((0, 0), (t_w, d)); ((0, 0), (b, t_f)); ((0, d - t_f), (b, d))]
    (if double
     then [full (m, m) (b - m, m); full (m, d - m) (b - m, d - m); full (m, m) (m, d - m);
           full (t_w - m, t_f - m) (b - m, t_f - m); full (t_w - m, d - t_f + m) (b - m, d - t_f + m); full (t_w - m, t_f - m) (t_w - m, d - t_f + m)]
     else [full (t_w / 2, t_f / 2) (b - m, t_f / 2); full (t_w / 2, d - t_f / 2) (b - m, d - t_f / 2); full (t_w / 2, t_f / 2) (t_w / 2, d - t_f / 2)])
    spacing m area_bar n conc steel c.
Proof. apply cee_wall_made. Qed.

(** T shape; with one layer, the bars of the web end before the flange. *)
Theorem C64_tee_wall sh so d b t_f t_w dia_bar area_bar spacing cover m double n conc steel : workable so -> (3 <= n)%nat -> 1 / 10 ^ 20 <= area_bar ->
  0 < spacing -> m = cover + dia_bar / 2 -> tiny <= m -> 2 * m < t_f -> 2 * m < t_w -> t_w + 2 * tiny <= b -> t_f + tiny <= d ->
  exists c, tee_wall sh so d b t_f t_w dia_bar area_bar spacing cover double n conc steel = Ok c /\
  reinforced_wall sh so ((0, 0), (b, d)) [((0, 0), ((b - t_w) / 2, d - t_f)); (((b + t_w) / 2, 0), (b, d - t_f))] [((0, d - t_f), (b, d)); (((b - t_w) / 2, 0), ((b + t_w) / 2, d))]
    (if double
     then [full (m, d - m) (b - m, d - m); full (m, d - t_f + m) ((b - t_w) / 2 + m, d - t_f + m); full ((b + t_w) / 2 - m, d - t_f + m) (b - m, d - t_f + m);
           full ((b - t_w) / 2 + m, m) ((b - t_w) / 2 + m, d - t_f + m); full ((b + t_w) / 2 - m, m) ((b + t_w) / 2 - m, d - t_f + m)]
     else [full (m, d - t_f / 2) (b - m, d - t_f / 2); mkLine (b / 2, m) (b / 2, d - t_f / 2) true false])
    spacing m area_bar n conc steel c.
Proof. apply tee_wall_made. Qed.

(** Box with a door in the right wall. *)
Theorem C64_single_lift_core sh so d b t1 t2 a dia_bar area_bar spacing cover m double n conc steel : workable so -> (3 <= n)%nat -> 1 / 10 ^ 20 <= area_bar ->
  0 < spacing -> m = cover + dia_bar / 2 -> tiny <= m -> 2 * m < t1 -> 2 * m < t2 -> 2 * t2 + tiny <= b -> tiny <= a -> a <= d - 2 * t1 ->
  exists c, single_lift_core sh so d b t1 t2 a dia_bar area_bar spacing cover double n conc steel = Ok c /\
  reinforced_wall sh so ((0, 0), (b, d)) [((t2, t1), (b - t2, d - t1)); ((b - t2, (d - a) / 2), (b, (d + a) / 2))]
    [((0, 0), (b, t1)); ((0, d - t1), (b, d)); ((0, 0), (t2, d)); ((b - t2, 0), (b, (d - a) / 2)); ((b - t2, (d + a) / 2), (b, d))]
    (if double
     then [full (m, m) (b - m, m); full (m, d - m) (b - m, d - m); full (m, m) (m, d - m);
           full (t2 - m, t1 - m) (b - t2 + m, t1 - m); full (t2 - m, d - t1 + m) (b - t2 + m, d - t1 + m); full (t2 - m, t1 - m) (t2 - m, d - t1 + m);
           full (b - m, m) (b - m, (d - a) / 2 - m); full (b - m, (d + a) / 2 + m) (b - m, d - m);
           full (b - t2 + m, t1 - m) (b - t2 + m, (d - a) / 2 - m); full (b - t2 + m, (d + a) / 2 + m) (b - t2 + m, d - t1 + m)]
     else [full (t2 / 2, t1 / 2) (b - t2 / 2, t1 / 2); full (t2 / 2, d - t1 / 2) (b - t2 / 2, d - t1 / 2); full (t2 / 2, t1 / 2) (t2 / 2, d - t1 / 2);
           full (b - t2 / 2, t1 / 2) (b - t2 / 2, (d - a) / 2 - m); full (b - t2 / 2, (d + a) / 2 + m) (b - t2 / 2, d - t1 / 2)])
    spacing m area_bar n conc steel c.
Proof. apply single_lift_core_made. Qed.

(** Box with two doors and a pier between them. *)
Theorem C64_double_lift_core_a sh so d b t1 t2 a1 a2 dia_bar area_bar spacing cover m double n conc steel nib : workable so -> (3 <= n)%nat -> 1 / 10 ^ 20 <= area_bar ->
  0 < spacing -> m = cover + dia_bar / 2 -> tiny <= m -> 2 * m < t1 -> 2 * m < t2 -> 2 * t2 + tiny <= b -> tiny <= a1 -> 2 * m < a2 -> 2 * a1 + a2 <= d - 2 * t1 -> nib = (d - 2 * a1 - a2 - 2 * t1) / 2 ->
  exists c, double_lift_core_a sh so d b t1 t2 a1 a2 dia_bar area_bar spacing cover double n conc steel = Ok c /\
  reinforced_wall sh so ((0, 0), (b, d)) [((t2, t1), (b - t2, d - t1)); ((b - t2, (d + a2) / 2), (b, d - t1 - nib)); ((b - t2, t1 + nib), (b, (d - a2) / 2))]
    [((0, 0), (b, t1)); ((0, d - t1), (b, d)); ((0, 0), (t2, d)); ((b - t2, 0), (b, t1 + nib)); ((b - t2, d - t1 - nib), (b, d)); ((b - t2, (d - a2) / 2), (b, (d + a2) / 2))]
    (if double
     then [full (m, m) (b - m, m); full (m, d - m) (b - m, d - m); full (m, m) (m, d - m);
           full (t2 - m, t1 - m) (b - t2 + m, t1 - m); full (t2 - m, d - t1 + m) (b - t2 + m, d - t1 + m); full (t2 - m, t1 - m) (t2 - m, d - t1 + m);
           full (b - m, m) (b - m, t1 + nib - m); full (b - m, d - t1 - nib + m) (b - m, d - m);
           full (b - t2 + m, t1 - m) (b - t2 + m, t1 + nib - m); full (b - t2 + m, d - t1 - nib + m) (b - t2 + m, d - t1 + m);
           full (b - m, (d - a2) / 2 + m) (b - m, (d + a2) / 2 - m); full (b - t2 + m, (d - a2) / 2 + m) (b - t2 + m, (d + a2) / 2 - m)]
     else [full (t2 / 2, t1 / 2) (b - t2 / 2, t1 / 2); full (t2 / 2, d - t1 / 2) (b - t2 / 2, d - t1 / 2); full (t2 / 2, t1 / 2) (t2 / 2, d - t1 / 2);
           full (b - t2 / 2, t1 / 2) (b - t2 / 2, t1 + nib - m); full (b - t2 / 2, d - t1 - nib + m) (b - t2 / 2, d - t1 / 2);
           full (b - t2 / 2, (d - a2) / 2 + m) (b - t2 / 2, (d + a2) / 2 - m)])
    spacing m area_bar n conc steel c.
Proof. apply double_lift_core_a_made. Qed.

(** Two boxes with a door each, one layer of bars; the ends of the bars of the middle wall belong to the outer walls. *)
Theorem C64_double_lift_core_b_single sh so d b t1 t2 t3 a dia_bar area_bar spacing cover m n conc steel nib : workable so -> (3 <= n)%nat -> 1 / 10 ^ 20 <= area_bar ->
  0 < spacing -> m = cover + dia_bar / 2 -> tiny <= m -> 2 * m < t1 -> 2 * m < t2 -> 2 * m < t3 -> 2 * t2 + tiny <= b -> tiny <= a -> a <= (d - 2 * t1 - t3) / 2 -> nib = (d - 2 * t1 - 2 * a - t3) / 4 ->
  exists c, double_lift_core_b sh so d b t1 t2 t3 a dia_bar area_bar spacing cover false n conc steel = Ok c /\
  reinforced_wall sh so ((0, 0), (b, d))
    [((t2, t1), (b - t2, (d - t3) / 2)); ((t2, (d + t3) / 2), (b - t2, d - t1)); ((b - t2, (d + t3) / 2 + nib), (b, d - t1 - nib)); ((b - t2, t1 + nib), (b, (d - t3) / 2 - nib))]
    [((0, 0), (b, t1)); ((0, d - t1), (b, d)); ((0, 0), (t2, d)); ((0, (d - t3) / 2), (b, (d + t3) / 2)); ((b - t2, 0), (b, t1 + nib)); ((b - t2, d - t1 - nib), (b, d)); ((b - t2, (d - t3) / 2 - nib), (b, (d + t3) / 2 + nib))]
    [full (t2 / 2, t1 / 2) (b - t2 / 2, t1 / 2); full (t2 / 2, d - t1 / 2) (b - t2 / 2, d - t1 / 2); full (t2 / 2, t1 / 2) (t2 / 2, d - t1 / 2);
     mkLine (t2 / 2, d / 2) (b - t2 / 2, d / 2) false false;
           full (b - t2 / 2, t1 / 2) (b - t2 / 2, t1 + nib - m); full (b - t2 / 2, d - t1 - nib + m) (b - t2 / 2, d - t1 / 2);
           full (b - t2 / 2, (d - t3) / 2 - nib + m) (b - t2 / 2, (d + t3) / 2 + nib - m)]
    spacing m area_bar n conc steel c.
Proof. apply double_lift_core_b_single_made. Qed.

(** Box with a door at the top of the right wall. *)
Theorem C64_stairwell sh so d b t1 t2 a dia_bar area_bar spacing cover m double n conc steel : workable so -> (3 <= n)%nat -> 1 / 10 ^ 20 <= area_bar ->
  0 < spacing -> m = cover + dia_bar / 2 -> tiny <= m -> 2 * m < t1 -> 2 * m < t2 -> 2 * t2 + tiny <= b -> tiny <= a -> a <= d - 2 * t1 ->
  exists c, stairwell sh so d b t1 t2 a dia_bar area_bar spacing cover double n conc steel = Ok c /\
  reinforced_wall sh so ((0, 0), (b, d)) [((t2, t1), (b - t2, d - t1)); ((b - t2, d - t1 - a), (b, d - t1))] [((0, 0), (b, t1)); ((0, d - t1), (b, d)); ((0, 0), (t2, d)); ((b - t2, 0), (b, d - t1 - a))]
    (if double
     then [full (m, m) (b - m, m); full (m, d - m) (b - m, d - m); full (m, m) (m, d - m);
           full (t2 - m, t1 - m) (b - t2 + m, t1 - m); full (t2 - m, d - t1 + m) (b - m, d - t1 + m); full (t2 - m, t1 - m) (t2 - m, d - t1 + m);
           full (b - t2 + m, t1 - m) (b - t2 + m, d - t1 - a - m); full (b - m, m) (b - m, d - t1 - a - m)]
     else [full (t2 / 2, t1 / 2) (b - t2 / 2, t1 / 2); full (t2 / 2, d - t1 / 2) (b - t2 / 2, d - t1 / 2); full (t2 / 2, t1 / 2) (t2 / 2, d - t1 / 2);
           full (b - t2 / 2, t1 / 2) (b - t2 / 2, d - t1 - a - m)])
    spacing m area_bar n conc steel c.
Proof. apply stairwell_made. Qed.
(** Two boxes with two layers of bars. The statement of the other walls fails on the inner face of the pier between the doors (next
    theorem). Everything else holds if the nibs are not much shorter than the margins; the bars of that face are in the pier, on that face. *)
Theorem C64_double_lift_core_b_double sh so d b t1 t2 t3 a dia_bar area_bar spacing cover m n conc steel nib : workable so -> (3 <= n)%nat -> 1 / 10 ^ 20 <= area_bar ->
  0 < spacing -> m = cover + dia_bar / 2 -> tiny <= m -> 2 * m < t1 -> 2 * m < t2 -> 2 * m < t3 -> 2 * t2 + tiny <= b -> tiny <= a -> a <= (d - 2 * t1 - t3) / 2 -> nib = (d - 2 * t1 - 2 * a - t3) / 4 -> 2 * m - 2 * spacing < nib ->
  exists c o os body main pier, double_lift_core_b sh so d b t1 t2 t3 a dia_bar area_bar spacing cover true n conc steel = Ok c /\
  rectangle ((0, 0), (b, d)) conc o /\ Forall2 (fun r g => exists mat, rectangle r mat g)
      [((t2, t1), (b - t2, (d - t3) / 2)); ((t2, (d + t3) / 2), (b - t2, d - t1)); ((b - t2, (d + t3) / 2 + nib), (b, d - t1 - nib)); ((b - t2, t1 + nib), (b, (d - t3) / 2 - nib))] os /\
  less sh so (ISingle o) os body /\ with_bars sh so body area_bar n steel (main ++ pier) c /\
  reinforced spacing m [((0, 0), (b, t1)); ((0, d - t1), (b, d)); ((0, 0), (t2, d)); ((0, (d - t3) / 2), (b, (d + t3) / 2)); ((b - t2, 0), (b, t1 + nib)); ((b - t2, d - t1 - nib), (b, d)); ((b - t2, (d - t3) / 2 - nib), (b, (d + t3) / 2 + nib))]
    [full (m, m) (b - m, m); full (m, d - m) (b - m, d - m); full (m, m) (m, d - m);
     full (t2 - m, t1 - m) (b - t2 + m, t1 - m); full (t2 - m, (d - t3) / 2 + m) (b - t2 + m, (d - t3) / 2 + m);
     full (t2 - m, (d + t3) / 2 - m) (b - t2 + m, (d + t3) / 2 - m); full (t2 - m, d - t1 + m) (b - t2 + m, d - t1 + m);
     full (t2 - m, t1 - m) (t2 - m, (d - t3) / 2 + m); full (t2 - m, (d + t3) / 2 - m) (t2 - m, d - t1 + m);
     full (b - m, m) (b - m, t1 + nib - m); full (b - m, d - t1 - nib + m) (b - m, d - m);
     full (b - t2 + m, t1 - m) (b - t2 + m, t1 + nib - m); full (b - t2 + m, d - t1 - nib + m) (b - t2 + m, d - t1 + m);
     full (b - m, (d - t3) / 2 - nib + m) (b - m, (d + t3) / 2 + nib - m)] main /\
  Forall (fun p => (exists t, 0 <= t <= 1 /\ p = toward (b - t2 + m, (d - t3) / 2 - nib + m) (b - t2 + m, (d + t3) / 2 + nib - m) t) /\ within m p ((b - t2, (d - t3) / 2 - nib), (b, (d + t3) / 2 + nib))) pier.
Proof.
  intros U H Ha Hs Em Hm H1 H2 H2' H3 H4 H5 H6 H7. destruct (double_lift_core_b_double_layout d b t1 t2 t3 a dia_bar spacing cover m nib Hs Em ltac:(small) H1 H2 H2' ltac:(small) ltac:(small) H5 H6 H7) as (main & pier & E & Rm & Rp).
  destruct (double_lift_core_b_body sh so d b t1 t2 t3 a dia_bar area_bar spacing cover n conc steel nib _ true U H Ha ltac:(small) ltac:(small) ltac:(small) H3 H4 H5 H6 E) as (c & o & os & body & C & X & Y & Z & W).
  exists c, o, os, body, main, pier. auto 10.
Qed.
(** On the inner face of the pier (x = b - t2 + m) there can be gaps of more than twice the spacing, and two bars at one place. *)
Theorem C64_double_lift_core_b_double_refuted : exists d b t1 t2 t3 a dia_bar spacing cover m nib,
  0 < spacing /\ m = cover + dia_bar / 2 /\ tiny <= m /\ 2 * m < t1 /\ 2 * m < t2 /\ 2 * m < t3 /\ 2 * t2 + tiny <= b /\ tiny <= a /\ a <= (d - 2 * t1 - t3) / 2 /\ nib = (d - 2 * t1 - 2 * a - t3) / 4 /\
  forall sh so area_bar n conc steel, workable so -> (3 <= n)%nat -> 1 / 10 ^ 20 <= area_bar ->
  exists c body l, double_lift_core_b sh so d b t1 t2 t3 a dia_bar area_bar spacing cover true n conc steel = Ok c /\ with_bars sh so body area_bar n steel l c /\ ~ NoDup l /\
    exists y1 y2, (d - t3) / 2 - nib + m <= y1 /\ y1 + 2 * spacing < y2 /\ y2 <= (d + t3) / 2 + nib - m /\ forall p, In p l -> fst p = b - t2 + m -> ~ (y1 < snd p < y2).
Proof.
  exists 5.6, 2, 0.2, 0.2, 1.2, 1, 0.02, 0.2, 0.04, 0.05, 0.5. assert (T : tiny <= 0.05) by (unfold tiny; lra). repeat (split; [lra|]). intros sh so area n conc steel U H Ha.
  destruct double_b_gap as (l & E & N & G). destruct (double_lift_core_b_body sh so 5.6 2 0.2 0.2 1.2 1 0.02 area 0.2 0.04 n conc steel 0.5 l true U H Ha ltac:(lra) ltac:(lra) ltac:(lra) ltac:(lra) ltac:(lra) ltac:(lra) ltac:(lra) E) as (c & o & os & body & C & _ & _ & _ & W).
  exists c, body, l. split; [exact C|]. split; [exact W|]. split; [exact N|]. exists 1.75, 2.25. repeat (split; [lra|]). intros p I Ep. apply (G p I). lra.
Qed.
(** It is refused if the nibs are even shorter than that. *)
Theorem C64_double_lift_core_b_short_nibs sh so d b t1 t2 t3 a dia_bar area_bar spacing cover m n conc steel nib : workable so ->
  0 < spacing -> m = cover + dia_bar / 2 -> tiny <= m -> 2 * m < t1 -> 2 * m < t2 -> 2 * m < t3 -> 2 * t2 + tiny <= b -> tiny <= a -> a <= (d - 2 * t1 - t3) / 2 -> nib = (d - 2 * t1 - 2 * a - t3) / 4 ->
  nib <= 2 * m - 2 * spacing -> double_lift_core_b sh so d b t1 t2 t3 a dia_bar area_bar spacing cover true n conc steel = Err ValueError.
Proof.
  intros U Hs Em Hm H1 H2 H2' H3 H4 H5 H6 H7. unfold double_lift_core_b. destruct (Rlt_dec _ _) as [X|_]; [exfalso; lra|]. cbv zeta. next_rect. next_rect. next_rect. next_sub U. next_sub U. next_sub U. next_sub U.
  rewrite (double_b_crash d b t1 t2 t3 a dia_bar spacing cover m nib); [reflexivity|small..].
Qed.
Example C64_short_nibs_example : double_lift_core_b toy keep_all 2.6 2 0.2 0.2 0.2 1 0.02 0.0003 0.04 0.04 true 12 default_material default_material = Err ValueError.
Proof. apply (C64_double_lift_core_b_short_nibs _ _ _ _ _ _ _ _ _ _ _ _ 0.05 _ _ _ 0); [exact keep_works|unfold tiny; lra..]. Qed.
(** Doors that do not fit are refused with ValueError. *)
Theorem C64_doors_refused sh so d b t1 t2 t3 a a1 a2 dia_bar area_bar spacing cover double n conc steel :
  (d - 2 * t1 < 2 * a1 + a2 -> double_lift_core_a sh so d b t1 t2 a1 a2 dia_bar area_bar spacing cover double n conc steel = Err ValueError) /\
  ((d - 2 * t1 - t3) / 2 < a -> double_lift_core_b sh so d b t1 t2 t3 a dia_bar area_bar spacing cover double n conc steel = Err ValueError).
Proof. split; intros H; [unfold double_lift_core_a|unfold double_lift_core_b]; destruct (Rlt_dec _ _) as [X|X]; reflexivity || (exfalso; lra). Qed.

(** Walls of usual dimensions (in mm). *)
Ltac wall_example T := edestruct T as (c & E & _); [exact keep_works|apply Nat.leb_le; reflexivity|unfold tiny; lra..|exists c; exact E].
Example C64_rectangular_wall_example : exists c, rectangular_wall toy keep_all 1000 180 12 110 200 30 false 12 default_material default_material = Ok c.
Proof. wall_example (C64_rectangular_wall toy keep_all 1000 180 12 110 200 30 36 false 12 default_material default_material). Qed.
Example C64_cee_wall_example : exists c, cee_wall toy keep_all 2000 1500 200 150 16 200 150 30 true 12 default_material default_material = Ok c.
Proof. wall_example (C64_cee_wall toy keep_all 2000 1500 200 150 16 200 150 30 38 true 12 default_material default_material). Qed.
Example C64_tee_wall_example : exists c, tee_wall toy keep_all 1200 1200 150 120 12 110 200 30 false 12 default_material default_material = Ok c.
Proof. wall_example (C64_tee_wall toy keep_all 1200 1200 150 120 12 110 200 30 36 false 12 default_material default_material). Qed.
Example C64_single_lift_core_example : exists c, single_lift_core toy keep_all 2400 1800 150 200 1000 20 310 150 35 true 12 default_material default_material = Ok c.
Proof. wall_example (C64_single_lift_core toy keep_all 2400 1800 150 200 1000 20 310 150 35 45 true 12 default_material default_material). Qed.
Example C64_double_lift_core_a_example : exists c, double_lift_core_a toy keep_all 3200 1800 200 180 900 400 16 200 150 30 true 12 default_material default_material = Ok c.
Proof. wall_example (C64_double_lift_core_a toy keep_all 3200 1800 200 180 900 400 16 200 150 30 38 true 12 default_material default_material 300). Qed.
Example C64_double_lift_core_b_example : exists c, double_lift_core_b toy keep_all 4000 1800 200 180 150 1000 16 200 150 30 false 12 default_material default_material = Ok c.
Proof. wall_example (C64_double_lift_core_b_single toy keep_all 4000 1800 200 180 150 1000 16 200 150 30 38 12 default_material default_material 362.5). Qed.
Example C64_double_lift_core_b_double_example : exists c, double_lift_core_b toy keep_all 4000 1800 200 180 150 1000 16 200 150 30 true 12 default_material default_material = Ok c.
Proof.
  edestruct (C64_double_lift_core_b_double toy keep_all 4000 1800 200 180 150 1000 16 200 150 30 38 12 default_material default_material 362.5) as (c & o & os & body & main & pier & E & _); [exact keep_works|apply Nat.leb_le; reflexivity|unfold tiny; lra..|exists c; exact E].
Qed.
Example C64_stairwell_example : exists c, stairwell toy keep_all 5000 2500 180 150 1000 16 200 150 30 true 12 default_material default_material = Ok c.
Proof. wall_example (C64_stairwell toy keep_all 5000 2500 180 150 1000 16 200 150 30 38 true 12 default_material default_material). Qed.
Print Assumptions C64_rectangular_wall.
Print Assumptions C64_cee_wall.
Print Assumptions C64_tee_wall.
Print Assumptions C64_single_lift_core.
Print Assumptions C64_double_lift_core_a.
Print Assumptions C64_double_lift_core_b_single.
Print Assumptions C64_stairwell.
Print Assumptions C64_double_lift_core_b_double.
Print Assumptions C64_double_lift_core_b_double_refuted.
Print Assumptions C64_double_lift_core_b_short_nibs.
Print Assumptions C64_doors_refused.
