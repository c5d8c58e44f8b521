(** Theorems about the NASTRAN sections, continued: C65. *)
From Coquelicot Require Rcomplements.
From Coq Require Import String Reals List Bool Arith ZArith Permutation Lra Lia.
From Verif Require Import Base M_Fea M_Init M_Bisect M_Geometry S_Geometry P_Geometry P_Geometry8 M_Library S_Library P_Library P_Library2 P_Library5 P_Library6 P_Library8 P_Geometry3 P_Geometry6 M_SetOps M_Nastran S_Concrete S_Nastran P_Concrete6 P_Nastran P_Nastran2 P_Nastran3 P_Concrete13.
Import ListNotations.
Local Open Scope R_scope.

(** ** Hollow sections: the outline less the hole are the plates. *)
Theorem C65_box sh d1 d2 d3 d4 m : 0 < d3 -> 0 < d4 -> 2 * d4 < d1 -> 2 * d3 < d2 ->
  drawn_hollow sh (nastran_box sh d1 d2 d3 d4 m) m
    [((- d1 / 2, - d2 / 2), (d1 / 2, - d2 / 2 + d3)); ((- d1 / 2, d2 / 2 - d3), (d1 / 2, d2 / 2));
     ((- d1 / 2, - d2 / 2 + d3), (- d1 / 2 + d4, d2 / 2 - d3)); ((d1 / 2 - d4, - d2 / 2 + d3), (d1 / 2, d2 / 2 - d3))].
Proof. intros. unfold nastran_box. guard_tac. unfold bar_points, box_inner, box_recovery. hollow_tac 0 0. apply box_area_pos; lra. Qed.
Theorem C65_box1 sh d1 d2 d3 d4 d5 d6 m : 0 < d3 -> 0 < d4 -> 0 < d5 -> 0 < d6 -> d5 + d6 < d1 -> d3 + d4 < d2 ->
  drawn_hollow sh (nastran_box1 sh d1 d2 d3 d4 d5 d6 m) m
    [((0, 0), (d1, d4)); ((0, d2 - d3), (d1, d2)); ((0, d4), (d6, d2 - d3)); ((d1 - d5, d4), (d1, d2 - d3))].
Proof. intros. unfold nastran_box1. guard_tac. unfold box1_outer, box1_inner, box_recovery. hollow_tac (d1 / 2) (d2 / 2). apply box_area_pos; lra. Qed.
Theorem C65_gbox sh d1 d2 d3 d4 d5 d6 m : 0 < d3 -> 0 < d4 -> 0 < d5 -> 0 < d6 -> 2 * d5 + d6 < d1 -> d3 + d4 < d2 ->
  drawn_hollow sh (nastran_gbox sh d1 d2 d3 d4 d5 d6 m) m
    [((0, 0), (d1, d4)); ((0, d2 - d3), (d1, d2));
     (((d1 - d6) / 2 - d5, d4), ((d1 - d6) / 2, d2 - d3)); (((d1 + d6) / 2, d4), ((d1 + d6) / 2 + d5, d2 - d3))].
Proof. intros. unfold nastran_gbox. guard_tac. unfold gbox_outer, gbox_inner, box_recovery. hollow_tac (d1 / 2) (d2 / 2). apply box_area_pos; lra. Qed.

(** nastran_i: the recovery points are on the section if the top flange is not wider than the bottom one. *)
Theorem C65_i sh d1 d2 d3 d4 d5 d6 m : 0 < d4 -> 0 < d5 -> 0 < d6 -> d5 + d6 < d1 -> d4 < d3 -> d4 < d2 ->
  exists g pts l, nastran_i sh d1 d2 d3 d4 d5 d6 m = Ok (g, pts) /\ outlined (Ok g) (mkPoly l []) m /\
    tiled l [((0, 0), (d2, d5)); (((d2 - d4) / 2, d5), ((d2 + d4) / 2, d1 - d6)); (((d2 - d3) / 2, d1 - d6), ((d2 + d3) / 2, d1))] /\
    (d3 <= d2 -> recovers l pts).
Proof.
  intros. unfold nastran_i. guard_tac. unfold polygon_geometry, with_points. rewrite open_loop_ring by (unfold i_points; loop_tac). cbn [bind].
  eexists _, _, (i_points d1 d2 d3 d4 d5 d6). split; [reflexivity|]. split; [apply new_outlined|]. split; [apply tiled_intro; unfold i_points; [plates_tac|winding_tac|area_tac]|].
  intros L. split; [reflexivity|]. exists (d2 / 2), (d1 / 2). unfold box_recovery, i_points.
  apply Forall_cons; [unfold on_ring, edges; cbn [tl firstn combine app fst snd]; spot_tac|].
  apply Forall_cons; [apply Exists_cons_hd; exists ((d2 + d3) / (2 * d2)); cbn [fst snd]; split; [split; [apply Rcomplements.Rdiv_le_0_compat; lra|apply Rcomplements.Rle_div_l; lra]|unfold toward; cbn [fst snd]; f_equal; field; lra]|].
  apply Forall_cons; [apply Exists_cons_hd; exists ((d2 - d3) / (2 * d2)); cbn [fst snd]; split; [split; [apply Rcomplements.Rdiv_le_0_compat; lra|apply Rcomplements.Rle_div_l; lra]|unfold toward; cbn [fst snd]; f_equal; field; lra]|].
  apply Forall_cons; [unfold on_ring, edges; cbn [tl firstn combine app fst snd]; spot_tac|]. apply Forall_nil.
Qed.
(** With a wider top flange the points below are beside the bottom flange. *)
Theorem C65_i_recovery_refuted : exists d1 d2 d3 d4 d5 d6, 0 < d4 /\ 0 < d5 /\ 0 < d6 /\ d5 + d6 < d1 /\ d4 < d3 /\ d4 < d2 /\
  forall sh m, exists g pts l, nastran_i sh d1 d2 d3 d4 d5 d6 m = Ok (g, pts) /\ outlined (Ok g) (mkPoly l []) m /\ ~ recovers l pts.
Proof.
  exists 10, 4, 8, 1, 1, 1. repeat (split; [lra|]). intros sh m. unfold nastran_i. guard_tac. unfold polygon_geometry, with_points. rewrite open_loop_ring by (unfold i_points; loop_tac). cbn [bind].
  eexists _, _, (i_points 10 4 8 1 1 1). split; [reflexivity|]. split; [apply new_outlined|]. intros (_ & u & v & F). unfold box_recovery in F.
  assert (K : forall q, on_ring q (i_points 10 4 8 1 1 1) -> 0 <= snd q <= 10 /\ (snd q = 0 -> 0 <= fst q <= 4)).
  { intros q Hq. unfold on_ring, edges, i_points in Hq. cbn [tl firstn combine app fst snd] in Hq.
    repeat (apply Exists_cons in Hq as [(t & T & ->)|Hq]; [unfold toward; cbn [fst snd]; split; [lra|intros; lra]|]). apply Exists_nil in Hq. destruct Hq. }
  inversion F as [|? ? H1 F1]; subst. inversion F1 as [|? ? H2 F2]; subst. inversion F2 as [|? ? H3 F3]; subst.
  apply K in H1, H2, H3. cbn [fst snd] in *. destruct H1 as [H1 _], H2 as [H2 H2'], H3 as [H3 H3']. specialize (H2' ltac:(lra)). specialize (H3' ltac:(lra)). lra.
Qed.

(** nastran_hexa: a convex hexagon, if dim_1 is less than a half of dim_2. *)
Theorem C65_hexa sh d1 d2 d3 m : 0 < d1 -> 0 < d3 -> 2 * d1 < d2 ->
  exists g pts l, nastran_hexa sh d1 d2 d3 m = Ok (g, pts) /\ outlined (Ok g) (mkPoly l []) m /\ length l = 6%nat /\ convex l /\
    poly_area (mkPoly l []) = d3 * (d2 - d1) /\ recovers l pts /\
    (forall p, In p l -> 0 <= fst p <= d2 /\ 0 <= snd p <= d3) /\ In (0, d3 / 2) l /\ In (d2, d3 / 2) l /\ In (d1, 0) l /\ In (d2 - d1, d3) l.
Proof.
  intros. assert (D : d1 < d2) by lra. unfold nastran_hexa. guard_tac. unfold polygon_geometry, with_points. rewrite open_loop_ring by (unfold hexa_points; loop_tac). cbn [bind].
  eexists _, _, (hexa_points d1 d2 d3). split; [reflexivity|]. split; [apply new_outlined|]. split; [reflexivity|]. unfold hexa_points. split; [|split; [|split; [|split; [|cbn; auto 10]]]].
  - unfold convex, edges. cbn [tl firstn combine app fst snd]. repeat (apply Forall_cons; [repeat (apply Forall_cons; [unfold turn; cbn [fst snd]; nra|]); apply Forall_nil|]); apply Forall_nil.
  - assert (A : ring_area [(d1, 0); (d2 - d1, 0); (d2, d3 / 2); (d2 - d1, d3); (d1, d3); (0, d3 / 2)] = d3 * (d2 - d1)) by (unfold ring_area, cross; cbn [around shoelace fst snd]; field).
    rewrite one_area; rewrite A; [reflexivity|apply Rmult_le_pos; lra].
  - recover_tac (d2 / 2) (d3 / 2).
  - intros p. cbn [In]. intuition; subst p; cbn [fst snd]; lra.
Qed.
(** The program only asks for dim_1 < dim_2, which does not keep the outline from crossing itself. *)
Theorem C65_hexa_check_refuted : exists d1 d2 d3, 0 < d1 /\ 0 < d3 /\ d1 < d2 /\
  forall sh m, exists g pts l, nastran_hexa sh d1 d2 d3 m = Ok (g, pts) /\ outlined (Ok g) (mkPoly l []) m /\ self_crossing l.
Proof.
  exists 3, 4, 2. repeat (split; [lra|]). intros sh m. unfold nastran_hexa. guard_tac. unfold polygon_geometry, with_points. rewrite open_loop_ring by (unfold hexa_points; loop_tac). cbn [bind].
  eexists _, _, (hexa_points 3 4 2). split; [reflexivity|]. split; [apply new_outlined|]. unfold hexa_points. exists ((4 - 3, 0), (4, 2 / 2)), ((0, 2 / 2), (3, 0)).
  unfold edges, turn. cbn [tl firstn combine app fst snd In]. split; [auto|]. split; [auto 10|]. split; lra.
Qed.
(** nastran_hat and nastran_fcross miss a check: the plates can overlap, and the outline then goes around some points twice. *)
Theorem C65_hat_check_refuted : exists d1 d2 d3 d4, 0 < d2 /\ 0 < d3 /\ 0 < d4 /\ 2 * d2 < d1 /\
  forall sh m, exists g pts l, nastran_hat sh d1 d2 d3 d4 m = Ok (g, pts) /\ outlined (Ok g) (mkPoly l []) m /\ exists p, winding p l = 2%Z.
Proof.
  exists 10, 3, 4, 2. repeat (split; [lra|]). intros sh m. unfold nastran_hat. guard_tac. unfold polygon_geometry, with_points. rewrite open_loop_ring by (unfold hat_points; loop_tac). cbn [bind].
  eexists _, _, (hat_points 10 3 4 2). split; [reflexivity|]. split; [apply new_outlined|]. exists (4, 1). unfold hat_points, winding, edges. cbn [tl firstn combine map app fold_right].
  rewrite ?crossing_upright, ?crossing_flat. cbn [fst snd]. unfold at_least. repeat (destruct Rle_dec; try lra); reflexivity.
Qed.
Theorem C65_fcross_check_refuted : exists d1 d2 d3 d4 d5 d6 d7 d8, 0 < d3 /\ 0 < d4 /\ 0 < d6 /\ 0 < d8 /\ d3 < d5 /\ d4 < d7 /\ d7 < d1 /\ d5 < d2 /\ d8 < d2 / 2 - d3 / 2 /\ d6 < d1 / 2 - d4 / 2 /\
  forall sh m, exists g pts l, nastran_fcross sh d1 d2 d3 d4 d5 d6 d7 d8 m = Ok (g, pts) /\ outlined (Ok g) (mkPoly l []) m /\ exists p, winding p l = 2%Z.
Proof.
  exists 10, 10, 1, 1, 9, 2, 9, 2. repeat (split; [lra|]). intros sh m. unfold nastran_fcross. guard_tac. unfold polygon_geometry, with_points. rewrite open_loop_ring by (unfold fcross_points; loop_tac). cbn [bind].
  eexists _, _, (fcross_points 10 10 1 1 9 2 9 2). split; [reflexivity|]. split; [apply new_outlined|]. exists (4, 4). unfold fcross_points, winding, edges. cbn [tl firstn combine map app fold_right].
  rewrite ?crossing_upright, ?crossing_flat. cbn [fst snd]. unfold at_least. repeat (destruct Rle_dec; try lra); reflexivity.
Qed.

(** ** nastran_dbox: two holes, cut one after the other. *)
Theorem C65_dbox sh so d1 d2 d3 d4 d5 d6 d7 d8 d9 d10 m : cuts so ->
  0 < d4 -> 0 < d5 -> 0 < d6 -> 0 < d7 -> 0 < d8 -> 0 < d9 -> 0 < d10 -> d4 + d5 / 2 < d3 -> d3 + d5 / 2 < d1 - d6 -> d7 + d8 < d2 -> d9 + d10 < d2 ->
  exists g pts p l h k, nastran_dbox sh so d1 d2 d3 d4 d5 d6 d7 d8 d9 d10 m = Ok (g, pts) /\ outlined (Ok g) p m /\ same_ring l (ext p) /\ same_rings [h; k] (ints p) /\
    tiled_around l [h; k]
      [((0, 0), (d4, d2)); ((d3 - d5 / 2, 0), (d3 + d5 / 2, d2)); ((d1 - d6, 0), (d1, d2));
       ((d4, 0), (d3 - d5 / 2, d8)); ((d4, d2 - d7), (d3 - d5 / 2, d2)); ((d3 + d5 / 2, 0), (d1 - d6, d10)); ((d3 + d5 / 2, d2 - d9), (d1 - d6, d2))] /\
    recovers l pts.
Proof.
  intros C **. unfold nastran_dbox. guard_tac.
  destruct (two_cuts so (box1_outer d1 d2) (dbox_left d2 d3 d4 d5 d7 d8) (dbox_right d1 d2 d3 d5 d6 d9 d10) C) as (a & w & E1 & E2 & S & Q); try discriminate.
  - left. unfold dbox_left, box1_outer, edges. cbn [tl firstn combine app]. repeat (apply Forall_cons; [repeat (apply Forall_cons; [unfold turn; cbn [fst snd]; nra|]); apply Forall_nil|]); apply Forall_nil.
  - left. unfold dbox_right, box1_outer, edges. cbn [tl firstn combine app]. repeat (apply Forall_cons; [repeat (apply Forall_cons; [unfold turn; cbn [fst snd]; nra|]); apply Forall_nil|]); apply Forall_nil.
  - exists 1, 0, d3. unfold dbox_left, dbox_right. split; repeat (apply Forall_cons; [cbn [fst snd]; lra|]); apply Forall_nil.
  - unfold with_points. rewrite !open_loop_ring by (unfold box1_outer, dbox_left, dbox_right; loop_tac). cbn [bind]. rewrite E1. cbn [bind]. rewrite E2. cbn [bind].
    eexists _, _, w, (box1_outer d1 d2), (dbox_left d2 d3 d4 d5 d7 d8), (dbox_right d1 d2 d3 d5 d6 d9 d10). split; [reflexivity|]. split; [apply new_outlined|]. split; [exact S|]. split; [exact Q|].
    unfold box1_outer, dbox_left, dbox_right, box_recovery. split; [|recover_tac (d1 / 2) (d2 / 2)]. apply around_two; [plates_tac|winding_tac|apply box_area_pos; lra|apply box_area_pos; lra|area_tac].
Qed.
(** The checks of the program allow a right wall that is inside the right opening. *)
Theorem C65_dbox_check_refuted : exists d1 d2 d3 d4 d5 d6 d7 d8 d9 d10,
  0 < d4 /\ 0 < d5 /\ 0 < d6 /\ 0 < d7 /\ 0 < d8 /\ 0 < d9 /\ 0 < d10 /\ d4 + d5 + d6 < d1 /\ d4 + d5 / 2 < d3 /\ d7 + d8 < d2 /\ d9 + d10 < d2 /\
  exists hole, (exists p, covered p [((d1 - d6, 0), (d1, d2))] = 1%Z /\ winding p hole <> 0%Z) /\ (exists v, In v hole /\ d1 < fst v) /\
  forall sh so m g pts, nastran_dbox sh so d1 d2 d3 d4 d5 d6 d7 d8 d9 d10 m = Ok (g, pts) -> exists a p, so_difference so a [mkPoly hole []] = ShPolygon p /\ g = new_geometry sh p m None 12.
Proof.
  exists 10, 10, 9.75, 1, 1, 1, 1, 1, 1, 1. repeat (split; [lra|]). exists (dbox_right 10 10 9.75 1 1 1 1). split; [|split].
  - exists (9.5, 5). split; [unfold covered, member; cbn [map fold_right fst snd]; repeat (destruct Rle_dec; try lra); reflexivity|]. unfold dbox_right, winding, edges. cbn [tl firstn combine map app fold_right].
    rewrite ?crossing_upright, ?crossing_flat. cbn [fst snd]. unfold at_least. repeat (destruct Rle_dec; try lra); discriminate.
  - exists (9.75 + 1 / 2, 1). split; [left; reflexivity|cbn [fst]; lra].
  - intros sh so m g pts. unfold nastran_dbox. guard_tac. unfold with_points. rewrite !open_loop_ring by (unfold box1_outer, dbox_left, dbox_right; loop_tac). cbn [bind].
    destruct (so_difference so [_] _) as [a|a| | |]; cbn [bind]; try discriminate; (destruct (so_difference so _ [mkPoly (dbox_right _ _ _ _ _ _ _) []]) as [p| | | |] eqn:E; cbn [bind]; [|discriminate..]; intros Z; injection Z as <- _; eauto).
Qed.

(** ** Circles. The recovery points are at the ends of the diameters along the axes: vertices of the n-gon if 4 divides n. *)
Theorem C65_rod sh d1 n m : (3 <= n)%nat -> 0 < d1 ->
  exists g pts l, nastran_rod sh d1 n m = Ok (g, pts) /\ outlined (Ok g) (mkPoly l []) m /\ length l = n /\ poly_area (mkPoly l []) = ngon_area n d1 /\
    Forall (fun p => fst p ^ 2 + snd p ^ 2 = d1 ^ 2) l /\ pts = [(0, d1); (d1, 0); (0, - d1); (- d1, 0)] /\ (Nat.divide 4 n -> recovers l pts).
Proof.
  intros H D. unfold nastran_rod, with_points, polygon_geometry. rewrite ellipse_open by (lia || lra). cbn [bind]. eexists _, _, (ellipse_points (2 * d1) (2 * d1) n). split; [reflexivity|]. split; [apply new_outlined|].
  assert (A : ring_area (ellipse_points (2 * d1) (2 * d1) n) = ngon_area n d1) by (rewrite ellipse_area by lia; unfold ngon_area; field).
  destruct (ngon_below n d1 H D) as [B _]. split; [unfold ellipse_points; rewrite map_length; apply seq_length|]. split; [rewrite one_area by lra; exact A|]. split; [|split; [reflexivity|intros V; apply circle_recovers; [lia|exact V]]].
  unfold ellipse_points. apply Forall_map, Forall_forall. intros i _. cbn [fst snd]. pose proof (sin2_cos2 (INR i * 2 * PI / INR n)) as E. unfold Rsqr in E.
  transitivity (d1 ^ 2 * (sin (INR i * 2 * PI / INR n) * sin (INR i * 2 * PI / INR n) + cos (INR i * 2 * PI / INR n) * cos (INR i * 2 * PI / INR n))); [field|rewrite E; ring].
Qed.
(** A tube is the difference (see C77) of the rods with the outer and the inner radius. nastran_tube is given the inner radius,
    nastran_tube2 the thickness. *)
Lemma tube_is sh so d r t n m : (3 <= n)%nat -> 0 < r -> r < d -> t = d - r -> exists outer inner p1 p2,
    nastran_rod sh d n m = Ok (outer, p1) /\ nastran_rod sh r n m = Ok (inner, p2) /\ tube sh so d t n m = bind (geom_sub sh so (ISingle outer) (ISingle inner)) (fun i => Ok (i, p1)).
Proof.
  intros H R D ->. unfold tube, nastran_rod, with_points, polygon_geometry. rewrite inner_circle. replace (d - (d - r)) with r by ring. rewrite !ellipse_open by (lia || lra). cbn [bind]. eexists _, _, _, _. split; [reflexivity|]. split; [reflexivity|]. reflexivity.
Qed.
Theorem C65_tube sh so d1 d2 n m : (3 <= n)%nat -> 0 < d2 -> d2 < d1 -> exists outer inner p1 p2,
    nastran_rod sh d1 n m = Ok (outer, p1) /\ nastran_rod sh d2 n m = Ok (inner, p2) /\ nastran_tube sh so d1 d2 n m = bind (geom_sub sh so (ISingle outer) (ISingle inner)) (fun i => Ok (i, p1)).
Proof. intros H P D. unfold nastran_tube. guard_tac. apply tube_is; auto. Qed.
Theorem C65_tube2 sh so d1 d2 n m : (3 <= n)%nat -> 0 < d2 -> d2 < d1 -> exists outer inner p1 p2,
    nastran_rod sh d1 n m = Ok (outer, p1) /\ nastran_rod sh (d1 - d2) n m = Ok (inner, p2) /\ nastran_tube2 sh so d1 d2 n m = bind (geom_sub sh so (ISingle outer) (ISingle inner)) (fun i => Ok (i, p1)).
Proof. intros H P D. unfold nastran_tube2. guard_tac. apply tube_is; auto; lra. Qed.

(** ** nastran_hat1: a hat on a plate. For dimensions that are multiples of 10^-12 (of 2 10^-12 for the widths and the thickness of the
    plate), where nothing is rounded. The recovery points are in the axes of the geometry. *)
Theorem C65_hat1 sh d1 d2 d3 d4 d5 m : on_grid 12 (d1 / 2) -> on_grid 12 d2 -> on_grid 12 (d3 / 2) -> on_grid 12 d4 -> on_grid 12 (d5 / 2) ->
  0 < d4 -> 0 < d5 -> 2 * d4 + d5 < d2 -> d3 < d1 -> 2 * d4 < d3 ->
  exists c pts h p lh lp, nastran_hat1 sh d1 d2 d3 d4 d5 m = Ok (c, pts) /\ cp_geoms c = [h; p] /\ gm_mat h = m /\ gm_mat p = m /\ gm_poly h = mkPoly lh [] /\ gm_poly p = mkPoly lp [] /\
    tiled lp [((- d1 / 2, 0), (d1 / 2, d5))] /\
    tiled lh [((- d1 / 2, d5), (- d3 / 2, d5 + d4)); ((- d3 / 2, d5), (- d3 / 2 + d4, d2 - d4)); ((- d3 / 2, d2 - d4), (d3 / 2, d2)); ((d3 / 2 - d4, d5), (d3 / 2, d2 - d4)); ((d3 / 2, d5), (d1 / 2, d5 + d4))] /\
    length pts = 4%nat /\ Forall (fun q => on_ring q lh \/ on_ring q lp) pts.
Proof.
  intros. destruct (hat1_made sh d1 d2 d3 d4 d5 m) as (c & h & w & E & C & Mh & Mp & Eh & Ep); try assumption.
  eexists c, _, h, w, _, _. split; [exact E|]. split; [exact C|]. split; [exact Mh|]. split; [exact Mp|]. split; [exact Eh|]. split; [exact Ep|].
  clear c h w E C Mh Mp Eh Ep. unfold plate_ring, hat_ring, hat_points, translate_pt. cbn [map fst snd]. split; [apply tiled_intro; [plates_tac|winding_tac|area_tac]|]. split; [apply tiled_intro; [plates_tac|winding_tac|area_tac]|]. split; [reflexivity|].
  repeat (apply Forall_cons; [unfold on_ring, edges; cbn [tl firstn combine app fst snd]; first [left; spot_tac|right; spot_tac]|]); apply Forall_nil.
Qed.

(** ** Dimensions that fail a check of the program raise ValueError. *)
Theorem C65_refused sh so m d1 d2 d3 d4 d5 d6 d7 d8 d9 d10 n :
  (~ (2 * d4 < d1 /\ 2 * d3 < d2) -> nastran_box sh d1 d2 d3 d4 m = Err ValueError) /\
  (~ (d5 + d6 < d1 /\ d3 + d4 < d2) -> nastran_box1 sh d1 d2 d3 d4 d5 d6 m = Err ValueError) /\
  (~ (2 * d4 < d2 /\ d3 < d1) -> nastran_chan sh d1 d2 d3 d4 m = Err ValueError) /\
  (~ (d3 < d4) -> nastran_chan1 sh d1 d2 d3 d4 m = Err ValueError) /\
  (~ (2 * d1 < d4 /\ d2 < d3) -> nastran_chan2 sh d1 d2 d3 d4 m = Err ValueError) /\
  (~ (d4 < d3) -> nastran_cross sh d1 d2 d3 d4 m = Err ValueError) /\
  (~ (d3 < d5 /\ d4 < d7 /\ d7 < d1 /\ d5 < d2 /\ d8 < d2 / 2 - d3 / 2 /\ d6 < d1 / 2 - d4 / 2) -> nastran_fcross sh d1 d2 d3 d4 d5 d6 d7 d8 m = Err ValueError) /\
  (~ (d4 + d5 + d6 < d1 /\ d4 + d5 / 2 < d3 /\ d7 + d8 < d2 /\ d9 + d10 < d2) -> nastran_dbox sh so d1 d2 d3 d4 d5 d6 d7 d8 d9 d10 m = Err ValueError) /\
  (~ (d3 + d4 < d2 /\ 2 * d5 + d6 < d1) -> nastran_gbox sh d1 d2 d3 d4 d5 d6 m = Err ValueError) /\
  (~ (d4 < d3) -> nastran_h sh d1 d2 d3 d4 m = Err ValueError) /\
  (~ (2 * d2 < d1) -> nastran_hat sh d1 d2 d3 d4 m = Err ValueError) /\
  (~ (2 * d4 + d5 < d2 /\ d3 < d1) -> nastran_hat1 sh d1 d2 d3 d4 d5 m = Err ValueError) /\
  (~ (d1 < d2) -> nastran_hexa sh d1 d2 d3 m = Err ValueError) /\
  (~ (d5 + d6 < d1 /\ d4 < d3 /\ d4 < d2) -> nastran_i sh d1 d2 d3 d4 d5 d6 m = Err ValueError) /\
  (~ (d3 < d4) -> nastran_i1 sh d1 d2 d3 d4 m = Err ValueError) /\
  (~ (d4 < d1 /\ d3 < d2) -> nastran_l sh d1 d2 d3 d4 m = Err ValueError) /\
  (~ (d4 < d1 /\ d3 < d2) -> nastran_tee sh d1 d2 d3 d4 m = Err ValueError) /\
  (~ (d4 < d1) -> nastran_tee1 sh d1 d2 d3 d4 m = Err ValueError) /\
  (~ (d4 < d1 /\ d3 < d2) -> nastran_tee2 sh d1 d2 d3 d4 m = Err ValueError) /\
  (~ (d3 < d4) -> nastran_zed sh d1 d2 d3 d4 m = Err ValueError) /\
  (~ d2 < d1 -> nastran_tube sh so d1 d2 n m = Err ValueError) /\
  (~ d2 < d1 -> nastran_tube2 sh so d1 d2 n m = Err ValueError).
Proof.
  repeat match goal with |- _ /\ _ => split end; unfold nastran_box, nastran_box1, nastran_chan, nastran_chan1, nastran_chan2, nastran_cross, nastran_fcross, nastran_dbox, nastran_gbox, nastran_h, nastran_hat, nastran_hat1, nastran_hexa, nastran_i, nastran_i1, nastran_l, nastran_tee, nastran_tee1, nastran_tee2, nastran_zed, nastran_tube, nastran_tube2; refuse_tac.
Qed.

(** ** Examples *)
Example C65_box_example : drawn_hollow toy (nastran_box toy 4 3 (1 / 2) (1 / 4) default_material) default_material
    [((- 4 / 2, - 3 / 2), (4 / 2, - 3 / 2 + 1 / 2)); ((- 4 / 2, 3 / 2 - 1 / 2), (4 / 2, 3 / 2)); ((- 4 / 2, - 3 / 2 + 1 / 2), (- 4 / 2 + 1 / 4, 3 / 2 - 1 / 2)); ((4 / 2 - 1 / 4, - 3 / 2 + 1 / 2), (4 / 2, 3 / 2 - 1 / 2))].
Proof. apply C65_box; lra. Qed.
Example C65_i_example : exists g pts l, nastran_i toy 5 4 3 (1 / 4) (1 / 2) (1 / 2) default_material = Ok (g, pts) /\ recovers l pts.
Proof. destruct (C65_i toy 5 4 3 (1 / 4) (1 / 2) (1 / 2) default_material) as (g & pts & l & E & _ & _ & R); try lra. exists g, pts, l. split; [exact E|apply R; lra]. Qed.
Example C65_dbox_example : exists g pts, nastran_dbox toy cutter 8 3 3 (1 / 2) (1 / 2) (1 / 2) (1 / 4) (1 / 4) (1 / 2) (1 / 2) default_material = Ok (g, pts).
Proof. destruct (C65_dbox toy cutter 8 3 3 (1 / 2) (1 / 2) (1 / 2) (1 / 4) (1 / 4) (1 / 2) (1 / 2) default_material cutter_cuts) as (g & pts & _ & _ & _ & _ & E & _); try lra. eauto. Qed.
Example C65_rod_example : exists g pts l, nastran_rod toy 3 50 default_material = Ok (g, pts) /\ poly_area (mkPoly l []) = ngon_area 50 3.
Proof. destruct (C65_rod toy 3 50 default_material ltac:(lia) ltac:(lra)) as (g & pts & l & E & _ & _ & A & _). eauto. Qed.
Example C65_hat1_example : exists c pts h p, nastran_hat1 toy 8 4 4 1 2 default_material = Err ValueError /\ nastran_hat1 toy 8 5 4 1 2 default_material = Ok (c, pts) /\ cp_geoms c = [h; p].
Proof.
  destruct (C65_hat1 toy 8 5 4 1 2 default_material) as (c & pts & h & p & _ & _ & E & C & _); try lra; try (apply (int_grid 12 5)); try (apply (int_grid 12 1)); [replace (8 / 2) with (IZR 4) by lra; apply int_grid|replace (4 / 2) with (IZR 2) by lra; apply int_grid|replace (2 / 2) with (IZR 1) by lra; apply int_grid|].
  exists c, pts, h, p. split; [|auto]. apply (C65_refused toy cutter default_material 8 4 4 1 2 0 0 0 0 0 0). lra.
Qed.
Example C65_refused_example : nastran_zed toy 1 1 3 2 default_material = Err ValueError.
Proof. apply (C65_refused toy cutter default_material 1 1 3 2 0 0 0 0 0 0 0). lra. Qed.

Print Assumptions C65_box.
Print Assumptions C65_box1.
Print Assumptions C65_gbox.
Print Assumptions C65_i.
Print Assumptions C65_i_recovery_refuted.
Print Assumptions C65_hexa.
Print Assumptions C65_hexa_check_refuted.
Print Assumptions C65_hat_check_refuted.
Print Assumptions C65_fcross_check_refuted.
Print Assumptions C65_dbox.
Print Assumptions C65_dbox_check_refuted.
Print Assumptions C65_rod.
Print Assumptions C65_tube.
Print Assumptions C65_tube2.
Print Assumptions C65_hat1.
Print Assumptions C65_refused.
