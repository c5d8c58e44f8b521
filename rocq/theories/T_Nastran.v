(** Theorems about the NASTRAN sections: C65. *)
From Coq Require Import String Reals List Bool Arith ZArith Lra Lia.
From Verif Require Import Base M_Fea M_Init M_Bisect M_Geometry S_Geometry P_Geometry P_Geometry8 M_Library S_Library P_Library P_Library2 P_Library8 M_SetOps M_Nastran S_Concrete S_Nastran P_Nastran.
Import ListNotations.
Local Open Scope R_scope.

(** ** Sections with one outline. For dimensions that pass the checks of the program (and are positive), the geometry is the union of the
    plates, and the stress recovery points, in the axes of the plates, are on its boundary. *)

Theorem C65_bar sh d1 d2 m : 0 < d1 -> 0 < d2 ->
  drawn (nastran_bar sh d1 d2 m) m
    [((- d1 / 2, - d2 / 2), (d1 / 2, d2 / 2))].
Proof. intros. unfold nastran_bar. unfold bar_points, box_recovery. draw_tac 0 0. Qed.
Theorem C65_chan sh d1 d2 d3 d4 m : 0 < d3 -> 0 < d4 -> 2 * d4 < d2 -> d3 < d1 ->
  drawn (nastran_chan sh d1 d2 d3 d4 m) m
    [((0, 0), (d3, d2)); ((d3, 0), (d1, d4)); ((d3, d2 - d4), (d1, d2))].
Proof. intros. unfold nastran_chan. guard_tac. unfold chan_points, box_recovery. draw_tac (d1 / 2) (d2 / 2). Qed.
Theorem C65_chan1 sh d1 d2 d3 d4 m : 0 < d1 -> 0 < d2 -> 0 < d3 -> d3 < d4 ->
  drawn (nastran_chan1 sh d1 d2 d3 d4 m) m
    [((0, 0), (d2, d4)); ((d2, 0), (d1 + d2, (d4 - d3) / 2)); ((d2, (d4 + d3) / 2), (d1 + d2, d4))].
Proof. intros. unfold nastran_chan1. guard_tac. unfold chan1_points. draw_tac (d2 / 2) (d4 / 2). Qed.
Theorem C65_chan2 sh d1 d2 d3 d4 m : 0 < d1 -> 0 < d2 -> 2 * d1 < d4 -> d2 < d3 ->
  drawn (nastran_chan2 sh d1 d2 d3 d4 m) m
    [((0, 0), (d4, d2)); ((0, d2), (d1, d3)); ((d4 - d1, d2), (d4, d3))].
Proof. intros. unfold nastran_chan2. guard_tac. unfold chan2_points. draw_tac (d4 / 2) (d2 / 2). Qed.
Theorem C65_cross sh d1 d2 d3 d4 m : 0 < d1 -> 0 < d2 -> 0 < d4 -> d4 < d3 ->
  drawn (nastran_cross sh d1 d2 d3 d4 m) m
    [((d1 / 2, 0), (d1 / 2 + d2, d3)); ((0, (d3 - d4) / 2), (d1 / 2, (d3 + d4) / 2)); ((d1 / 2 + d2, (d3 - d4) / 2), (d1 + d2, (d3 + d4) / 2))].
Proof. intros. unfold nastran_cross. guard_tac. unfold cross_points. draw_tac ((d1 + d2) / 2) (d3 / 2). Qed.
Theorem C65_h sh d1 d2 d3 d4 m : 0 < d1 -> 0 < d2 -> 0 < d4 -> d4 < d3 ->
  drawn (nastran_h sh d1 d2 d3 d4 m) m
    [((0, 0), (d2 / 2, d3)); ((d2 / 2, (d3 - d4) / 2), (d2 / 2 + d1, (d3 + d4) / 2)); ((d2 / 2 + d1, 0), (d1 + d2, d3))].
Proof. intros. unfold nastran_h. guard_tac. unfold h_points, box_recovery. draw_tac ((d1 + d2) / 2) (d3 / 2). Qed.
Theorem C65_i1 sh d1 d2 d3 d4 m : 0 < d1 -> 0 < d2 -> 0 < d3 -> d3 < d4 ->
  drawn (nastran_i1 sh d1 d2 d3 d4 m) m
    [((0, 0), (d1 + d2, (d4 - d3) / 2)); ((d1 / 2, (d4 - d3) / 2), (d1 / 2 + d2, (d4 + d3) / 2)); ((0, (d4 + d3) / 2), (d1 + d2, d4))].
Proof. intros. unfold nastran_i1. guard_tac. unfold i1_points, box_recovery. draw_tac ((d1 + d2) / 2) (d4 / 2). Qed.
Theorem C65_l sh d1 d2 d3 d4 m : 0 < d3 -> 0 < d4 -> d4 < d1 -> d3 < d2 ->
  drawn (nastran_l sh d1 d2 d3 d4 m) m
    [((0, 0), (d1, d3)); ((0, d3), (d4, d2))].
Proof. intros. unfold nastran_l. guard_tac. unfold l_points. draw_tac (d4 / 2) (d3 / 2). Qed.
Theorem C65_tee sh d1 d2 d3 d4 m : 0 < d3 -> 0 < d4 -> d4 < d1 -> d3 < d2 ->
  drawn (nastran_tee sh d1 d2 d3 d4 m) m
    [(((d1 - d4) / 2, 0), ((d1 + d4) / 2, d2 - d3)); ((0, d2 - d3), (d1, d2))].
Proof. intros. unfold nastran_tee. guard_tac. unfold nas_tee_points, draw_radius. destruct (Req_EM_T 0 0) as [_|N]; [|contradiction]. cbn [app]. rewrite !Rminus_0_r, Rplus_0_r. draw_tac (d1 / 2) (d2 - d3 / 2). Qed.
Theorem C65_tee1 sh d1 d2 d3 d4 m : 0 < d2 -> 0 < d3 -> 0 < d4 -> d4 < d1 ->
  drawn (nastran_tee1 sh d1 d2 d3 d4 m) m
    [((0, 0), (d3, d1)); ((- d2, (d1 - d4) / 2), (0, (d1 + d4) / 2))].
Proof. intros. unfold nastran_tee1. guard_tac. unfold tee1_points. draw_tac (d3 / 2) (d1 / 2). Qed.
Theorem C65_tee2 sh d1 d2 d3 d4 m : 0 < d3 -> 0 < d4 -> d4 < d1 -> d3 < d2 ->
  drawn (nastran_tee2 sh d1 d2 d3 d4 m) m
    [((0, 0), (d1, d3)); (((d1 - d4) / 2, d3), ((d1 + d4) / 2, d2))].
Proof. intros. unfold nastran_tee2. guard_tac. unfold tee2_points. draw_tac (d1 / 2) (d3 / 2). Qed.
Theorem C65_zed sh d1 d2 d3 d4 m : 0 < d1 -> 0 < d2 -> 0 < d3 -> d3 < d4 ->
  drawn (nastran_zed sh d1 d2 d3 d4 m) m
    [((d1, 0), (d1 + d2, d4)); ((d1 + d2, 0), (2 * d1 + d2, (d4 - d3) / 2)); ((0, (d4 + d3) / 2), (d1, d4))].
Proof. intros. unfold nastran_zed. guard_tac. unfold zed_points. draw_tac (d1 + d2 / 2) (d4 / 2). Qed.
Theorem C65_hat sh d1 d2 d3 d4 m : 0 < d2 -> 0 < d4 -> 2 * d2 < d1 -> 2 * d2 < d3 ->
  drawn (nastran_hat sh d1 d2 d3 d4 m) m
    [((0, 0), (d4, d2)); ((d4, 0), (d4 + d2, d1 - d2)); ((d4, d1 - d2), (d4 + d3, d1)); ((d4 + d3 - d2, 0), (d4 + d3, d1 - d2)); ((d4 + d3, 0), (2 * d4 + d3, d2))].
Proof. intros. unfold nastran_hat. guard_tac. unfold hat_points. draw_tac (d4 + d3 / 2) (d1 - d2 / 2). Qed.
Theorem C65_fcross sh d1 d2 d3 d4 d5 d6 d7 d8 m : 0 < d3 -> 0 < d4 -> 0 < d6 -> 0 < d8 -> d3 < d5 -> d4 < d7 -> d7 < d1 -> d5 < d2 -> d8 < d2 / 2 - d3 / 2 -> d6 < d1 / 2 - d4 / 2 -> (d5 / 2 <= d2 / 2 - d8 \/ d7 / 2 <= d1 / 2 - d6) ->
  drawn (nastran_fcross sh d1 d2 d3 d4 d5 d6 d7 d8 m) m
    [((- d2 / 2 + d8, - d4 / 2), (d2 / 2 - d8, d4 / 2)); ((- d3 / 2, d4 / 2), (d3 / 2, d1 / 2 - d6)); ((- d3 / 2, - d1 / 2 + d6), (d3 / 2, - d4 / 2));
     ((d2 / 2 - d8, - d7 / 2), (d2 / 2, d7 / 2)); ((- d2 / 2, - d7 / 2), (- d2 / 2 + d8, d7 / 2)); ((- d5 / 2, d1 / 2 - d6), (d5 / 2, d1 / 2)); ((- d5 / 2, - d1 / 2), (d5 / 2, - d1 / 2 + d6))].
Proof. intros. unfold nastran_fcross. guard_tac. unfold fcross_points. draw_tac 0 0. Qed.

(** ** Examples *)
Example C65_chan_example : drawn (nastran_chan toy 2 4 (1 / 4) (1 / 2) default_material) default_material [((0, 0), (1 / 4, 4)); ((1 / 4, 0), (2, 1 / 2)); ((1 / 4, 4 - 1 / 2), (2, 4))].
Proof. apply C65_chan; lra. Qed.
Example C65_hat_example : exists rs, drawn (nastran_hat toy (5 / 4) (1 / 4) (3 / 2) (1 / 2) default_material) default_material rs /\ length rs = 5%nat.
Proof. eexists. split; [apply C65_hat; lra|reflexivity]. Qed.
Example C65_fcross_example : exists rs, drawn (nastran_fcross toy 9 6 (3 / 4) (3 / 4) 2 (3 / 4) 3 (3 / 4) default_material) default_material rs.
Proof. eexists. apply C65_fcross; lra. Qed.

Print Assumptions C65_bar.
Print Assumptions C65_chan.
Print Assumptions C65_chan1.
Print Assumptions C65_chan2.
Print Assumptions C65_cross.
Print Assumptions C65_h.
Print Assumptions C65_i1.
Print Assumptions C65_l.
Print Assumptions C65_tee.
Print Assumptions C65_tee1.
Print Assumptions C65_tee2.
Print Assumptions C65_zed.
Print Assumptions C65_hat.
Print Assumptions C65_fcross.
