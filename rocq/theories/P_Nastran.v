(** Proofs about outlines made of plates. *)
From Coq Require Import String Reals List Bool Arith ZArith Lra Lia.
From Verif Require Import Base M_Fea M_Init M_Bisect M_Geometry S_Geometry P_Geometry P_Geometry3 P_Geometry6 M_Library S_Library P_Library P_Library2 P_Library8 M_SetOps M_Nastran S_Concrete S_Nastran.
Import ListNotations.
Local Open Scope R_scope.

(** 1 at and after [x] *)
Definition at_least (x q : R) : Z := if Rle_dec x q then 1%Z else 0%Z.
Lemma member_steps p x1 y1 x2 y2 : x1 <= x2 -> y1 <= y2 ->
  member p ((x1, y1), (x2, y2)) = ((at_least x1 (fst p) - at_least x2 (fst p)) * (at_least y1 (snd p) - at_least y2 (snd p)))%Z.
Proof. intros H1 H2. unfold member, at_least. repeat destruct Rle_dec; try lra; reflexivity. Qed.
Lemma crossing_flat p x1 x2 y : crossing p ((x1, y), (x2, y)) = ((at_least x1 (fst p) - at_least x2 (fst p)) * at_least y (snd p))%Z.
Proof.
  unfold crossing, at_least, turn. cbn [fst snd]. replace (y - y) with 0 by ring. rewrite Rmult_0_l, Rminus_0_r.
  repeat destruct Rle_dec; try reflexivity; exfalso; nra.
Qed.
Lemma crossing_upright p x y1 y2 : crossing p ((x, y1), (x, y2)) = 0%Z.
Proof. unfold crossing. cbn [fst snd]. repeat destruct Rle_dec; try reflexivity; lra. Qed.

Lemma plates_area_pos rs : plates rs -> 0 <= plates_area rs.
Proof.
  intros [F _]. unfold plates_area. induction F as [|r rs [A B] F IH]; cbn [map fold_right]; [lra|]. assert (0 <= rect_area r) by (unfold rect_area; apply Rmult_le_pos; lra). lra.
Qed.
Lemma tiled_intro l rs : plates rs -> (forall p, winding p l = covered p rs) -> ring_area l = plates_area rs -> tiled l rs.
Proof. intros P W A. split; [exact P|]. split; [exact W|]. rewrite one_area; rewrite A; [reflexivity|apply plates_area_pos, P]. Qed.
Lemma around_intro l h rs : plates rs -> (forall p, winding p l = (winding p h + covered p rs)%Z) -> 0 <= ring_area h -> ring_area l = ring_area h + plates_area rs -> tiled_around l [h] rs.
Proof.
  intros P W H A. split; [exact P|]. split; [intros p; cbn [map fold_right]; rewrite W; lia|]. cbn [map fold_right]. pose proof (plates_area_pos rs P). rewrite !one_area by lra. lra.
Qed.
Ltac plates_tac :=
  split; [repeat (apply Forall_cons; [unfold sized; cbn [fst snd]; lra|]); apply Forall_nil|
          repeat (apply FOP_cons; [repeat (apply Forall_cons; [unfold beside; cbn [fst snd]; lra|]); apply Forall_nil|]); apply FOP_nil].
Ltac unify_steps :=
  repeat match goal with |- context [at_least ?a ?q] => match goal with |- context [at_least ?b q] => assert_fails (constr_eq a b); replace (at_least b q) with (at_least a q) by (apply (f_equal (fun z => at_least z q)); lra) end end.
Ltac winding_tac :=
  intros p; unfold winding, covered, edges; cbn [tl firstn combine map app fold_right];
  rewrite ?crossing_upright, ?crossing_flat, ?member_steps by lra; unify_steps; ring.
Ltac area_tac := unfold ring_area, plates_area, rect_area, cross; cbn [around shoelace fst snd map fold_right]; field.
Ltac spot_tac :=
  first [apply Exists_cons_hd; first [exists 0; split; [lra|]; unfold toward; cbn [fst snd]; f_equal; lra|exists (1 / 2); split; [lra|]; unfold toward; cbn [fst snd]; f_equal; lra]|apply Exists_cons_tl; spot_tac].
Ltac recover_tac u v :=
  split; [reflexivity|]; exists u, v; repeat (apply Forall_cons; [unfold on_ring, edges; cbn [tl firstn combine app fst snd]; spot_tac|]); apply Forall_nil.
Lemma lt_true a b : a < b -> lt_b a b = true. Proof. intros H. unfold lt_b. destruct (Rlt_dec a b); [reflexivity|contradiction]. Qed.
Lemma lt_false a b : ~ a < b -> lt_b a b = false. Proof. intros H. unfold lt_b. destruct (Rlt_dec a b); [contradiction|reflexivity]. Qed.
Lemma drawn_intro sh l pts m rs : open_loop l -> tiled l rs -> recovers l pts -> drawn (with_points (polygon_geometry sh l m) pts) m rs.
Proof.
  intros O T R. unfold with_points, polygon_geometry. rewrite open_loop_ring by exact O. cbn [bind]. eexists _, pts, l. split; [reflexivity|]. split; [apply new_outlined|]. split; assumption.
Qed.
Lemma hollow_intro sh o i pts m rs : open_loop o -> open_loop i -> tiled_around o [i] rs -> recovers o pts -> drawn_hollow sh (with_points (hollow_geometry sh o i m) pts) m rs.
Proof.
  intros O I T R. exists pts, o, i. split; [|split; [|split; assumption]].
  - pose proof (hollow_make sh o i m (open_loop_ring o O) (open_loop_ring i I)) as H. unfold with_points. destruct (hollow_geometry sh o i m); exact H.
  - intros g pts'. unfold with_points. destruct (hollow_geometry sh o i m); intros E; inversion E; reflexivity.
Qed.
Ltac loop_tac := split; [cbn; lia|]; intros q E; cbn in E; injection E as E; lra.
Ltac guard_tac := unfold checked; rewrite !lt_true by lra; cbn [andb].
Ltac draw_tac u v := apply drawn_intro; [loop_tac|apply tiled_intro; [plates_tac|winding_tac|area_tac]|recover_tac u v].
Ltac area_pos_tac := unfold ring_area, cross; cbn [around shoelace fst snd].
(** a guard that fails *)
Ltac refuse_tac := unfold checked, lt_b; intros H; repeat destruct Rlt_dec; cbn [andb]; try reflexivity; exfalso; apply H; repeat split; assumption.
