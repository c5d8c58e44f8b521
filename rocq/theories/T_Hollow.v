(** C99: the torsion constant of closed sections. *)
From Coquelicot Require Import Coquelicot.
From Coq Require Import Reals List Permutation Lra Lia.
From Verif Require Import Base S_Integral M_Fea S_Fem M_Post M_Section S_Section S_Post S_Warp P_Integral P_Fea P_Geom P_Elem P_Section P_Totals P_Post P_Warp P_Warp2 P_Warp3 P_Warp4 P_Warp5 P_Warp9 P_WarpEx P_PlasticForms P_PlasticForms2 T_Warp S_Refine P_Refine T_Refine S_Prandtl P_Green P_Prandtl P_Prandtl2 T_Prandtl S_Hollow P_Hollow P_Hollow2 P_Hollow3.
Import ListNotations.
Local Open Scope R_scope.

(** Every stress function that is zero outside and constant around each hole gives a lower bound. The areas of the holes count with the constants. *)
Theorem C99_lower : forall n X Y els solve composite w f fx fy holes, analysed n X Y els solve composite w -> hollow_stress X Y els f fx fy holes ->
  let volume := mesh_int (fun _ => 1) f els + sumf (fun h => fst h * enclosed X Y (snd h)) holes in
  let slopes := mesh_int (fun m => / m_E m) (fun x y => fx x y ^ 2 + fy x y ^ 2) els in
  4 * volume - slopes <= w_j w /\ 4 * volume ^ 2 <= w_j w * slopes.
Proof.
  intros n X Y els solve composite w f fx fy holes A S volume slopes. pose proof A as (Hm & Hn & Hp & _).
  destruct (C22_torsion_constant _ _ _ _ _ _ _ A) as (_ & E & _).
  assert (L : forall k, 4 * (k * volume) - k ^ 2 * slopes <= w_j w) by (intros k; rewrite E; apply (hollow_lower n X Y els f fx fy holes _ _ _ k Hm Hp S)).
  split; [specialize (L 1); lra|]. apply best_multiple; [apply (slopes_nonneg els f); [apply S|exact Hp]|exact L].
Qed.

(** Any mesh of a rectangular hollow section b x d with walls of thickness t: the area inside the middle line is (b - t) (d - t). *)
Theorem C99_hollow_rectangle : forall n X Y els solve w x0 y0 b d t m outer inner, analysed n X Y els solve false w -> 0 < t -> 2 * t < b -> 2 * t < d ->
  same_boundary (mesh_edges els) (hollow_edges m x0 y0 b d t) -> free_sides els (outer ++ inner) ->
  (forall i j k, In (i, j, k) outer -> on_rectangle_side x0 y0 b d (X i, Y i) (X j, Y j)) ->
  (forall i j k, In (i, j, k) inner -> along_rectangle (x0 + t) (y0 + t) (b - 2 * t) (d - 2 * t) (X i, Y i) (X j, Y j)) ->
  4 * ((b - t) * (d - t)) ^ 2 * t / (2 * (b + d) - 16 / 3 * t) <= w_j w.
Proof.
  intros n X Y els solve w x0 y0 b d t m outer inner A Ht Hb Hd B Hf Ho Hi. pose proof A as (Hm & _ & _ & U & _). specialize (U eq_refl).
  assert (J : 0 <= w_j w) by (destruct (C22_torsion_constant _ _ _ _ _ _ _ A); lra).
  pose (phi := fun k => w_j w * (2 * k / t * ((b - 2 * t + 2 * t * k ^ 2 / 3) + (d - 2 * t + 2 * t * k ^ 2 / 3))) - 4 * ((b - k * t) * (d - k * t)) ^ 2).
  assert (P : 0 <= phi 1).
  { apply limit_nonneg; [apply (ex_derive_continuous phi); unfold phi; auto_derive; lra|]. intros k Hk.
    destruct (ramp_exists k ltac:(lra)) as (r & r' & Hr).
    destruct (C99_lower n X Y els solve false w _ _ _ _ A (box_stress X Y els x0 y0 b d t outer inner k r r' Ht Hb Hd Hf Ho Hi Hr)) as [_ L]. cbv zeta in L.
    change (mesh_int (fun _ => 1) (fun x y => bump r x0 b t x * bump r y0 d t y) els + _) with (volume_of X Y els (fun x y => bump r x0 b t x * bump r y0 d t y) [(1, inner)]) in L.
    rewrite (proj2 (unit_int els _ U)), (box_volume n X Y els x0 y0 b d t m outer inner k r r' Hm Ht Hb Hd B Hf Ho Hi Hr), (box_slopes n X Y els x0 y0 b d t m k r r' Hm Ht Hb Hd B Hr) in L.
    pose proof (bump_mean k r r' Hr x0 b t Ht Hb) as M1. pose proof (bump_mean k r r' Hr y0 d t Ht Hd) as M2.
    pose proof (bump_square_int k r r' Hr x0 b t Ht Hb) as Q1. pose proof (bump_square_int k r r' Hr y0 d t Ht Hd) as Q2.
    pose proof (bump_energy k r r' Hr x0 b t Ht Hb) as E1. pose proof (bump_energy k r r' Hr y0 d t Ht Hd) as E2.
    assert (Lx : x0 <= x0 + b) by lra. assert (Ly : y0 <= y0 + d) by lra.
    pose proof (square_int_nonneg _ _ _ Lx (bump_cont k r r' Hr x0 b t Ht)) as N1. pose proof (square_int_nonneg _ _ _ Ly (bump_cont k r r' Hr y0 d t Ht)) as N2.
    pose proof (square_int_nonneg _ _ _ Lx (bump_cont' k r r' Hr x0 b t Ht)) as N3. pose proof (square_int_nonneg _ _ _ Ly (bump_cont' k r r' Hr y0 d t Ht)) as N4.
    exact (product_bounds (w_j w) k b d t _ _ _ _ _ _ J Hk Ht Hb Hd M1 M2 (conj N1 Q1) (conj N2 Q2) (conj N3 E1) (conj N4 E2) L). }
  unfold phi in P. assert (Q : 0 < 2 * (b + d) - 16 / 3 * t) by lra. apply (Rmult_le_reg_r (2 * (b + d) - 16 / 3 * t)); [exact Q|]. unfold Rdiv at 1. rewrite Rmult_assoc, Rinv_l, Rmult_1_r by lra.
  apply (Rmult_le_compat_r t) in P; [|lra].
  replace ((w_j w * (2 * 1 / t * (b - 2 * t + 2 * t * 1 ^ 2 / 3 + (d - 2 * t + 2 * t * 1 ^ 2 / 3))) - 4 * ((b - 1 * t) * (d - 1 * t)) ^ 2) * t) with (w_j w * (2 * (b + d) - 16 / 3 * t) - 4 * ((b - t) * (d - t)) ^ 2 * t) in P by (field; lra). lra.
Qed.

(** Bredt's formula 4 Am^2 t / s, with the area Am inside the middle line of the wall and the length s of the middle line, is a lower bound. *)
Theorem C99_bredt : forall n X Y els solve w x0 y0 b d t m outer inner, analysed n X Y els solve false w -> 0 < t -> 2 * t < b -> 2 * t < d ->
  same_boundary (mesh_edges els) (hollow_edges m x0 y0 b d t) -> free_sides els (outer ++ inner) ->
  (forall i j k, In (i, j, k) outer -> on_rectangle_side x0 y0 b d (X i, Y i) (X j, Y j)) ->
  (forall i j k, In (i, j, k) inner -> along_rectangle (x0 + t) (y0 + t) (b - 2 * t) (d - 2 * t) (X i, Y i) (X j, Y j)) ->
  let area_m := (b - t) * (d - t) in let length_m := 2 * (b - t) + 2 * (d - t) in 4 * area_m ^ 2 * t / length_m <= w_j w.
Proof.
  intros n X Y els solve w x0 y0 b d t m outer inner A Ht Hb Hd B Hf Ho Hi area_m length_m.
  eapply Rle_trans; [|exact (C99_hollow_rectangle n X Y els solve w x0 y0 b d t m outer inner A Ht Hb Hd B Hf Ho Hi)]. fold area_m.
  apply Rmult_le_compat_l; [apply Rmult_le_pos; [apply Rmult_le_pos; [lra|apply pow2_ge_0]|lra]|]. apply Rinv_le_contravar; unfold length_m; lra.
Qed.

(** ** The hypotheses are met *)

(** A square tube 4 x 4 with walls of thickness 1: eight triangles, two for each wall *)
Definition hX (i : nat) : R := nth i [0; 4; 4; 0; 1; 3; 3; 1; 2; 4; 2; 0; 2; 3; 2; 1; 1 / 2; 7 / 2; 7 / 2; 1 / 2; 3 / 2; 7 / 2; 5 / 2; 1 / 2] 0.
Definition hY (i : nat) : R := nth i [0; 0; 4; 4; 1; 1; 3; 3; 0; 2; 4; 2; 1; 2; 3; 2; 1 / 2; 1 / 2; 7 / 2; 7 / 2; 1 / 2; 3 / 2; 7 / 2; 5 / 2] 0.
Definition h1 : tri6 := mkTri (gather hX (mkConn 0 1 5 8 17 20)) (gather hY (mkConn 0 1 5 8 17 20)) (mkConn 0 1 5 8 17 20) xm.
Definition h2 : tri6 := mkTri (gather hX (mkConn 0 5 4 20 12 16)) (gather hY (mkConn 0 5 4 20 12 16)) (mkConn 0 5 4 20 12 16) xm.
Definition h3 : tri6 := mkTri (gather hX (mkConn 1 2 6 9 18 21)) (gather hY (mkConn 1 2 6 9 18 21)) (mkConn 1 2 6 9 18 21) xm.
Definition h4 : tri6 := mkTri (gather hX (mkConn 1 6 5 21 13 17)) (gather hY (mkConn 1 6 5 21 13 17)) (mkConn 1 6 5 21 13 17) xm.
Definition h5 : tri6 := mkTri (gather hX (mkConn 2 3 7 10 19 22)) (gather hY (mkConn 2 3 7 10 19 22)) (mkConn 2 3 7 10 19 22) xm.
Definition h6 : tri6 := mkTri (gather hX (mkConn 2 7 6 22 14 18)) (gather hY (mkConn 2 7 6 22 14 18)) (mkConn 2 7 6 22 14 18) xm.
Definition h7 : tri6 := mkTri (gather hX (mkConn 3 0 4 11 16 23)) (gather hY (mkConn 3 0 4 11 16 23)) (mkConn 3 0 4 11 16 23) xm.
Definition h8 : tri6 := mkTri (gather hX (mkConn 3 4 7 23 15 19)) (gather hY (mkConn 3 4 7 23 15 19)) (mkConn 3 4 7 23 15 19) xm.
Definition tube : list tri6 := [h1; h2; h3; h4; h5; h6; h7; h8].
Lemma h1_valid : valid_el h1.
Proof. unfold valid_el, straight, corner_a, corner_b, corner_c, h1, side_nodes, gather, hX, hY, orient. cbn [el_x el_y c0 c1 c2 c3 c4 c5 nth v0 v1 v2 fst snd]. split; [split; f_equal; lra|lra]. Qed.
Lemma h2_valid : valid_el h2.
Proof. unfold valid_el, straight, corner_a, corner_b, corner_c, h2, side_nodes, gather, hX, hY, orient. cbn [el_x el_y c0 c1 c2 c3 c4 c5 nth v0 v1 v2 fst snd]. split; [split; f_equal; lra|lra]. Qed.
Lemma h3_valid : valid_el h3.
Proof. unfold valid_el, straight, corner_a, corner_b, corner_c, h3, side_nodes, gather, hX, hY, orient. cbn [el_x el_y c0 c1 c2 c3 c4 c5 nth v0 v1 v2 fst snd]. split; [split; f_equal; lra|lra]. Qed.
Lemma h4_valid : valid_el h4.
Proof. unfold valid_el, straight, corner_a, corner_b, corner_c, h4, side_nodes, gather, hX, hY, orient. cbn [el_x el_y c0 c1 c2 c3 c4 c5 nth v0 v1 v2 fst snd]. split; [split; f_equal; lra|lra]. Qed.
Lemma h5_valid : valid_el h5.
Proof. unfold valid_el, straight, corner_a, corner_b, corner_c, h5, side_nodes, gather, hX, hY, orient. cbn [el_x el_y c0 c1 c2 c3 c4 c5 nth v0 v1 v2 fst snd]. split; [split; f_equal; lra|lra]. Qed.
Lemma h6_valid : valid_el h6.
Proof. unfold valid_el, straight, corner_a, corner_b, corner_c, h6, side_nodes, gather, hX, hY, orient. cbn [el_x el_y c0 c1 c2 c3 c4 c5 nth v0 v1 v2 fst snd]. split; [split; f_equal; lra|lra]. Qed.
Lemma h7_valid : valid_el h7.
Proof. unfold valid_el, straight, corner_a, corner_b, corner_c, h7, side_nodes, gather, hX, hY, orient. cbn [el_x el_y c0 c1 c2 c3 c4 c5 nth v0 v1 v2 fst snd]. split; [split; f_equal; lra|lra]. Qed.
Lemma h8_valid : valid_el h8.
Proof. unfold valid_el, straight, corner_a, corner_b, corner_c, h8, side_nodes, gather, hX, hY, orient. cbn [el_x el_y c0 c1 c2 c3 c4 c5 nth v0 v1 v2 fst snd]. split; [split; f_equal; lra|lra]. Qed.
Lemma tube_mesh : mesh_on 24 hX hY tube.
Proof.
  intros el H. repeat (destruct H as [<-|H]); [..|destruct H].
  - split; [apply h1_valid|]. split; [change (NoDup [0; 1; 5; 8; 17; 20]%nat); repeat (apply NoDup_cons; [cbn [In]; lia|]); apply NoDup_nil|]. split; [intros k; change (In k [0; 1; 5; 8; 17; 20]%nat -> (k < 24)%nat); cbn [In]; lia|split; reflexivity].
  - split; [apply h2_valid|]. split; [change (NoDup [0; 5; 4; 20; 12; 16]%nat); repeat (apply NoDup_cons; [cbn [In]; lia|]); apply NoDup_nil|]. split; [intros k; change (In k [0; 5; 4; 20; 12; 16]%nat -> (k < 24)%nat); cbn [In]; lia|split; reflexivity].
  - split; [apply h3_valid|]. split; [change (NoDup [1; 2; 6; 9; 18; 21]%nat); repeat (apply NoDup_cons; [cbn [In]; lia|]); apply NoDup_nil|]. split; [intros k; change (In k [1; 2; 6; 9; 18; 21]%nat -> (k < 24)%nat); cbn [In]; lia|split; reflexivity].
  - split; [apply h4_valid|]. split; [change (NoDup [1; 6; 5; 21; 13; 17]%nat); repeat (apply NoDup_cons; [cbn [In]; lia|]); apply NoDup_nil|]. split; [intros k; change (In k [1; 6; 5; 21; 13; 17]%nat -> (k < 24)%nat); cbn [In]; lia|split; reflexivity].
  - split; [apply h5_valid|]. split; [change (NoDup [2; 3; 7; 10; 19; 22]%nat); repeat (apply NoDup_cons; [cbn [In]; lia|]); apply NoDup_nil|]. split; [intros k; change (In k [2; 3; 7; 10; 19; 22]%nat -> (k < 24)%nat); cbn [In]; lia|split; reflexivity].
  - split; [apply h6_valid|]. split; [change (NoDup [2; 7; 6; 22; 14; 18]%nat); repeat (apply NoDup_cons; [cbn [In]; lia|]); apply NoDup_nil|]. split; [intros k; change (In k [2; 7; 6; 22; 14; 18]%nat -> (k < 24)%nat); cbn [In]; lia|split; reflexivity].
  - split; [apply h7_valid|]. split; [change (NoDup [3; 0; 4; 11; 16; 23]%nat); repeat (apply NoDup_cons; [cbn [In]; lia|]); apply NoDup_nil|]. split; [intros k; change (In k [3; 0; 4; 11; 16; 23]%nat -> (k < 24)%nat); cbn [In]; lia|split; reflexivity].
  - split; [apply h8_valid|]. split; [change (NoDup [3; 4; 7; 23; 15; 19]%nat); repeat (apply NoDup_cons; [cbn [In]; lia|]); apply NoDup_nil|]. split; [intros k; change (In k [3; 4; 7; 23; 15; 19]%nat -> (k < 24)%nat); cbn [In]; lia|split; reflexivity].
Qed.
Ltac shared k := exists k; split; cbn [el_ids ids_list c0 c1 c2 c3 c4 c5 In h1 h2 h3 h4 h5 h6 h7 h8]; tauto.
Ltac direct k := exists []; (split; [intros e []|]); shared k.
Ltac over h j k := exists [h]; (split; [intros e [<-|[]]; cbn [tube In]; tauto|]); split; [shared j|shared k].
Lemma tube_connected : connected tube.
Proof.
  intros a b H K. repeat (destruct H as [<-|H]); try destruct H; repeat (destruct K as [<-|K]); try destruct K.
  - direct 0%nat. - direct 0%nat. - direct 1%nat. - direct 1%nat. - over h3 1%nat 2%nat. - over h3 1%nat 2%nat. - direct 0%nat. - over h2 0%nat 4%nat.
  - direct 0%nat. - direct 0%nat. - over h1 0%nat 1%nat. - direct 5%nat. - over h7 0%nat 3%nat. - over h4 5%nat 6%nat. - direct 0%nat. - direct 4%nat.
  - direct 1%nat. - over h1 1%nat 0%nat. - direct 1%nat. - direct 1%nat. - direct 2%nat. - direct 2%nat. - over h1 1%nat 0%nat. - over h5 2%nat 3%nat.
  - direct 1%nat. - direct 5%nat. - direct 1%nat. - direct 1%nat. - over h3 1%nat 2%nat. - direct 6%nat. - over h1 1%nat 0%nat. - over h2 5%nat 4%nat.
  - over h3 2%nat 1%nat. - over h7 3%nat 0%nat. - direct 2%nat. - over h3 2%nat 1%nat. - direct 2%nat. - direct 2%nat. - direct 3%nat. - direct 3%nat.
  - over h3 2%nat 1%nat. - over h4 6%nat 5%nat. - direct 2%nat. - direct 6%nat. - direct 2%nat. - direct 2%nat. - over h5 2%nat 3%nat. - direct 7%nat.
  - direct 0%nat. - direct 0%nat. - over h1 0%nat 1%nat. - over h1 0%nat 1%nat. - direct 3%nat. - over h5 3%nat 2%nat. - direct 3%nat. - direct 3%nat.
  - over h2 4%nat 0%nat. - direct 4%nat. - over h5 3%nat 2%nat. - over h2 4%nat 5%nat. - direct 3%nat. - direct 7%nat. - direct 3%nat. - direct 3%nat.
Qed.
Lemma tube_analysed : exists w, analysed 24 hX hY tube (best_solver 24) false w.
Proof.
  assert (P : pos_moduli tube) by (intros el H; repeat (destruct H as [<-|H]); try destruct H; cbn [h1 h2 h3 h4 h5 h6 h7 h8 el_mat xm m_E]; lra).
  destruct (analysis_exists 24 hX hY tube false tube_mesh ltac:(discriminate) P tube_connected) as [w W].
  - intros i Hi. assert (C : (In i [0; 1; 5; 8; 17; 20] \/ In i [0; 5; 4; 20; 12; 16] \/ In i [1; 2; 6; 9; 18; 21] \/ In i [1; 6; 5; 21; 13; 17] \/ In i [2; 3; 7; 10; 19; 22] \/ In i [2; 7; 6; 22; 14; 18] \/ In i [3; 0; 4; 11; 16; 23] \/ In i [3; 4; 7; 23; 15; 19])%nat) by (cbn [In]; lia).
    destruct C as [C|[C|[C|[C|[C|[C|[C|C]]]]]]]; [exists h1|exists h2|exists h3|exists h4|exists h5|exists h6|exists h7|exists h8]; (split; [cbn [tube In]; tauto|exact C]).
  - exists w. split; [apply tube_mesh|]. split; [discriminate|]. split; [exact P|]. split; [intros _ el H; repeat (destruct H as [<-|H]); try destruct H; reflexivity|]. split; [apply best_exact|exact W].
Qed.
Definition tube_outer : list (nat * nat * nat) := [(0, 1, 8); (1, 2, 9); (2, 3, 10); (3, 0, 11)]%nat.
Definition tube_inner : list (nat * nat * nat) := [(5, 4, 12); (6, 5, 13); (7, 6, 14); (4, 7, 15)]%nat.
Lemma tube_free : free_sides tube (tube_outer ++ tube_inner).
Proof.
  exists [(1, 5, 17); (5, 0, 20); (4, 0, 16); (2, 6, 18); (6, 1, 21); (3, 7, 19); (7, 2, 22); (4, 3, 23)]%nat.
  change (Permutation [(0, 1, 8); (1, 5, 17); (5, 0, 20); (0, 5, 20); (5, 4, 12); (4, 0, 16); (1, 2, 9); (2, 6, 18); (6, 1, 21); (1, 6, 21); (6, 5, 13); (5, 1, 17); (2, 3, 10); (3, 7, 19); (7, 2, 22); (2, 7, 22); (7, 6, 14); (6, 2, 18); (3, 0, 11); (0, 4, 16); (4, 3, 23); (3, 4, 23); (4, 7, 15); (7, 3, 19)]%nat
    [(0, 1, 8); (1, 2, 9); (2, 3, 10); (3, 0, 11); (5, 4, 12); (6, 5, 13); (7, 6, 14); (4, 7, 15); (1, 5, 17); (5, 1, 17); (5, 0, 20); (0, 5, 20); (4, 0, 16); (0, 4, 16); (2, 6, 18); (6, 2, 18); (6, 1, 21); (1, 6, 21); (3, 7, 19); (7, 3, 19); (7, 2, 22); (2, 7, 22); (4, 3, 23); (3, 4, 23)]%nat). perms.
Qed.
Lemma tube_boundary : same_boundary (mesh_edges tube) (hollow_edges xm 0 0 4 4 1).
Proof.
  set (p0 := (0, 0) : point). set (p1 := (4, 0) : point). set (p2 := (4, 4) : point). set (p3 := (0, 4) : point). set (p4 := (1, 1) : point). set (p5 := (3, 1) : point). set (p6 := (3, 3) : point). set (p7 := (1, 3) : point). 
  replace (hollow_edges xm 0 0 4 4 1) with [(xm, p0, p1); (xm, p1, p2); (xm, p2, p3); (xm, p3, p0); (xm, p7, p6); (xm, p6, p5); (xm, p5, p4); (xm, p4, p7)].
  2:{ unfold hollow_edges, rectangle, p0, p1, p2, p3, p4, p5, p6, p7. cbn [rev app S_Section.ring_edges path_edges]. repeat (f_equal; try lra). }
  change (same_boundary [(xm, p0, p1); (xm, p1, p5); (xm, p5, p0); (xm, p0, p5); (xm, p5, p4); (xm, p4, p0); (xm, p1, p2); (xm, p2, p6); (xm, p6, p1); (xm, p1, p6); (xm, p6, p5); (xm, p5, p1); (xm, p2, p3); (xm, p3, p7); (xm, p7, p2); (xm, p2, p7); (xm, p7, p6); (xm, p6, p2); (xm, p3, p0); (xm, p0, p4); (xm, p4, p3); (xm, p3, p4); (xm, p4, p7); (xm, p7, p3)] [(xm, p0, p1); (xm, p1, p2); (xm, p2, p3); (xm, p3, p0); (xm, p7, p6); (xm, p6, p5); (xm, p5, p4); (xm, p4, p7)]).
  cancels xm p1 p5. cancels xm p5 p0. cancels xm p4 p0. cancels xm p2 p6. cancels xm p6 p1. cancels xm p3 p7. cancels xm p7 p2. cancels xm p4 p3. apply sb_perm. perms.
Qed.
Example C99_tube_met : exists w, analysed 24 hX hY tube (best_solver 24) false w /\ same_boundary (mesh_edges tube) (hollow_edges xm 0 0 4 4 1) /\ free_sides tube (tube_outer ++ tube_inner) /\
  (forall i j k, In (i, j, k) tube_outer -> on_rectangle_side 0 0 4 4 (hX i, hY i) (hX j, hY j)) /\
  (forall i j k, In (i, j, k) tube_inner -> along_rectangle (0 + 1) (0 + 1) (4 - 2 * 1) (4 - 2 * 1) (hX i, hY i) (hX j, hY j)) /\
  (exists f fx fy, hollow_stress hX hY tube f fx fy [(1, tube_inner)]) /\ enclosed hX hY tube_inner = 4 /\ 27 <= w_j w.
Proof.
  destruct tube_analysed as [w W]. exists w. split; [exact W|]. split; [apply tube_boundary|]. split; [apply tube_free|].
  assert (O : forall i j k, In (i, j, k) tube_outer -> on_rectangle_side 0 0 4 4 (hX i, hY i) (hX j, hY j)).
  { intros i j k [H|[H|[H|[H|[]]]]]; injection H as <- <- <-; unfold on_rectangle_side, hX, hY; cbn [nth fst snd]; lra. }
  assert (N : forall i j k, In (i, j, k) tube_inner -> along_rectangle (0 + 1) (0 + 1) (4 - 2 * 1) (4 - 2 * 1) (hX i, hY i) (hX j, hY j)).
  { intros i j k [H|[H|[H|[H|[]]]]]; injection H as <- <- <-; unfold along_rectangle, on_rectangle_side, in_rectangle, hX, hY; cbn [nth fst snd]; lra. }
  split; [exact O|]. split; [exact N|]. split; [|split].
  - destruct (ramp_exists 2 ltac:(lra)) as (r & r' & Hr). do 3 eexists. exact (box_stress hX hY tube 0 0 4 4 1 tube_outer tube_inner 2 r r' ltac:(lra) ltac:(lra) ltac:(lra) tube_free O N Hr).
  - unfold enclosed, tube_inner. rewrite !sumf_cons, sumf_nil. unfold hX, hY. cbn [side_start side_end nth]. lra.
  - pose proof (C99_bredt _ _ _ _ _ _ 0 0 4 4 1 xm tube_outer tube_inner W ltac:(lra) ltac:(lra) ltac:(lra) tube_boundary tube_free O N) as L. cbv zeta in L. lra.
Qed.

Print Assumptions C99_lower.
Print Assumptions C99_hollow_rectangle.
Print Assumptions C99_bredt.
