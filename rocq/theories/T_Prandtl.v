(** C97: bounds for the torsion constant. *)
From Coquelicot Require Import Coquelicot.
From Coq Require Import Reals List Permutation Lra Lia.
From Verif Require Import Base S_Integral M_Fea S_Fem M_Post M_Section S_Section S_Post S_Warp P_Integral P_Fea P_Geom P_Elem P_Section P_Totals P_Post P_Warp P_Warp2 P_Warp3 P_Warp4 P_Warp5 P_Warp9 P_WarpEx P_PlasticForms P_PlasticForms2 T_Warp S_Refine P_Refine T_Refine S_Prandtl P_Green P_Prandtl P_Prandtl2.
Import ListNotations.
Local Open Scope R_scope.

(** The torsion constant is at most 4 (Ixx Iyy - Ixy^2) / (Ixx + Iyy), with the second moments about the centroid as reported. *)
Theorem C97_upper : forall n X Y els solve composite w, analysed n X Y els solve composite w -> let c := centroidal_of (section_totals els) in
  w_j w * (p_ixx_c c + p_iyy_c c) <= 4 * (p_ixx_c c * p_iyy_c c - p_ixy_c c ^ 2) /\
  w_j w * (p_i11_c c + p_i22_c c) <= 4 * (p_i11_c c * p_i22_c c).
Proof.
  intros n X Y els solve composite w A c. pose proof A as (Hm & Hn & Hp & _).
  destruct (C22_torsion_constant _ _ _ _ _ _ _ A) as (_ & _ & M). fold c in M. destruct (inertia_pos els Hn (on_valid _ _ _ _ Hm) Hp) as (Iy & Ix & Id). fold c in Iy, Ix, Id.
  set (ixx := p_ixx_c c) in *. set (iyy := p_iyy_c c) in *. set (ixy := p_ixy_c c) in *.
  assert (U : w_j w * (ixx + iyy) <= 4 * (ixx * iyy - ixy ^ 2)).
  { destruct (quadratic_upper n X Y els (ixy / (ixx + iyy)) ((ixx - iyy) / (ixx + iyy)) Hm Hn Hp) as [v E]. fold c in E. fold ixx iyy ixy in E. specialize (M v). rewrite E in M.
    apply (Rmult_le_compat_r (ixx + iyy)) in M; [|lra]. eapply Rle_trans; [exact M|]. right. field. lra. }
  split; [exact U|].
  assert (S : p_i11_c c + p_i22_c c = ixx + iyy /\ p_i11_c c * p_i22_c c = ixx * iyy - ixy ^ 2).
  { change (principal_i11 ixx iyy ixy + principal_i22 ixx iyy ixy = ixx + iyy /\ principal_i11 ixx iyy ixy * principal_i22 ixx iyy ixy = ixx * iyy - ixy ^ 2).
    unfold principal_i11, principal_i22, principal_delta. set (q := sqrt _). assert (Q : q * q = ((ixx - iyy) / 2) ^ 2 + ixy ^ 2) by (apply sqrt_sqrt, Rplus_le_le_0_compat; apply pow2_ge_0).
    split; [field|]. transitivity (((ixx + iyy) / 2) ^ 2 - q * q); [field|rewrite Q; field]. }
  destruct S as [-> ->]. exact U.
Qed.

(** Every Prandtl stress function gives a lower bound. *)
Theorem C97_lower : forall n X Y els solve composite w f fx fy, analysed n X Y els solve composite w -> stress_function X Y els f fx fy ->
  let volume := mesh_int (fun _ => 1) f els in
  let slopes := mesh_int (fun m => / m_E m) (fun x y => fx x y ^ 2 + fy x y ^ 2) els in
  4 * volume - slopes <= w_j w /\ 4 * volume ^ 2 <= w_j w * slopes.
Proof.
  intros n X Y els solve composite w f fx fy A S volume slopes. pose proof A as (Hm & Hn & Hp & _).
  destruct (C22_torsion_constant _ _ _ _ _ _ _ A) as (_ & E & _). set (c := centroidal_of (section_totals els)) in *.
  assert (L : forall k, 4 * (k * volume) - k ^ 2 * slopes <= w_j w) by (intros k; rewrite E; apply (prandtl_scaled n X Y els f fx fy _ _ _ k Hm Hp S)).
  split; [specialize (L 1); lra|]. apply best_multiple; [apply (slopes_nonneg els f); [apply S|exact Hp]|exact L].
Qed.

(** The stress function of elasticity theory gives the torsion constant of elasticity theory: the one reported is at least that. *)
Theorem C97_elastic : forall n X Y els solve w f fx fy free, analysed n X Y els solve false w ->
  elastic_stress f fx fy -> free_sides els free -> zero_on X Y free f -> 2 * mesh_int (fun _ => 1) f els <= w_j w.
Proof.
  intros n X Y els solve w f fx fy free A S Hf Zf. pose proof A as (Hm & _ & _ & U & _). specialize (U eq_refl).
  pose proof (elastic_energy n X Y els f fx fy free Hm S Hf Zf) as E. pose proof S as (fxx & fxy & fyx & fyy & Sf & _).
  destruct (C97_lower n X Y els solve false w f fx fy A (conj Sf (ex_intro _ free (conj Hf Zf)))) as [L _]. cbv zeta in L. rewrite (proj2 (unit_int els _ U)) in L.
  assert (K : forall g, mesh_int (fun _ => 1) g els = sumf (fun el => el_int el g) els) by (intros g; apply sumf_ext; intros; ring).
  rewrite !K in *. rewrite E in L. lra.
Qed.

(** Any mesh of a rectangle: the torsion constant lies between 5/18 and 1/3 of b^3 d^3 / (b^2 + d^2). *)
Theorem C97_rectangle : forall n X Y els solve w x0 y0 b d m free, analysed n X Y els solve false w -> 0 < b -> 0 < d ->
  same_boundary (mesh_edges els) (ring_edges m (rectangle x0 y0 b d)) ->
  free_sides els free -> (forall i j k, In (i, j, k) free -> on_rectangle_side x0 y0 b d (X i, Y i) (X j, Y j)) ->
  5 / 18 * (b ^ 3 * d ^ 3 / (b ^ 2 + d ^ 2)) <= w_j w <= 1 / 3 * (b ^ 3 * d ^ 3 / (b ^ 2 + d ^ 2)).
Proof.
  intros n X Y els solve w x0 y0 b d m free A Hb Hd B Hf Hs. pose proof A as (Hm & _ & _ & U & _). specialize (U eq_refl). pose proof (on_valid _ _ _ _ Hm) as V.
  assert (S : stress_function X Y els (bubble x0 y0 b d) (bubble_x x0 y0 b d) (bubble_y x0 y0 b d)) by (split; [apply bubble_smooth|exists free; split; [exact Hf|apply bubble_zero, Hs]]).
  destruct (C97_lower n X Y els solve false w _ _ _ A S) as [_ L]. cbv zeta in L. rewrite (proj2 (unit_int els _ U)), (bubble_volume x0 y0 b d m els V B), (bubble_slopes x0 y0 b d m els V B) in L.
  destruct (C97_upper n X Y els solve false w A) as [P _]. cbv zeta in P. destruct (rectangle_centroidal x0 y0 b d m els Hb Hd V B U) as (-> & -> & ->) in P.
  assert (Q : 0 < b ^ 2 + d ^ 2) by (assert (0 < b ^ 2) by (apply pow_lt; lra); assert (0 < d ^ 2) by (apply pow_lt; lra); lra).
  assert (Pb : 0 < b ^ 3) by (apply pow_lt; lra). assert (Pd : 0 < d ^ 3) by (apply pow_lt; lra). assert (Pbd : 0 < b ^ 3 * d ^ 3) by (apply Rmult_lt_0_compat; assumption).
  split.
  - apply (Rmult_le_reg_r (b ^ 3 * d ^ 3 * (b ^ 2 + d ^ 2) / 90)); [apply Rmult_lt_0_compat; [apply Rmult_lt_0_compat; assumption|lra]|]. eapply Rle_trans; [|exact L]. right. field. lra.
  - assert (K : 0 < b * d / 12) by (assert (0 < b * d) by (apply Rmult_lt_0_compat; lra); lra).
    apply (Rmult_le_reg_r (b * d / 12 * (b ^ 2 + d ^ 2))); [apply Rmult_lt_0_compat; assumption|]. replace (w_j w * (b * d / 12 * (b ^ 2 + d ^ 2))) with (w_j w * (b * d ^ 3 / 12 + b ^ 3 * d / 12)) by field. eapply Rle_trans; [exact P|]. right. field. lra.
Qed.

(** Any mesh of an equilateral triangle: the torsion constant is at least the exact one, sqrt 3 a^4 / 80. *)
Theorem C97_equilateral : forall n X Y els solve w a m free, analysed n X Y els solve false w -> 0 < a ->
  same_boundary (mesh_edges els) (ring_edges m (equilateral a)) ->
  free_sides els free -> (forall i j k, In (i, j, k) free -> on_equilateral_side a (X i, Y i) (X j, Y j)) ->
  sqrt 3 * a ^ 4 / 80 <= w_j w.
Proof.
  intros n X Y els solve w a m free A Ha B Hf Hs. pose proof A as (Hm & _).
  pose proof (C97_elastic n X Y els solve w (cubic a) (cubic_x a) (cubic_y a) free A (cubic_elastic a Ha) Hf (cubic_zero a Ha X Y free Hs)) as L.
  rewrite (cubic_volume a m els Ha (on_valid _ _ _ _ Hm) B) in L. lra.
Qed.

(** ** The hypotheses are met *)

(** A square cut into two triangles with a common diagonal *)
Definition qX (i : nat) : R := nth i [0; 2; 2; 0; 1; 2; 1; 1; 0] 0.
Definition qY (i : nat) : R := nth i [0; 0; 2; 2; 0; 1; 1; 2; 1] 0.
Definition q1 : tri6 := mkTri (gather qX (mkConn 0 1 2 4 5 6)) (gather qY (mkConn 0 1 2 4 5 6)) (mkConn 0 1 2 4 5 6) xm.
Definition q2 : tri6 := mkTri (gather qX (mkConn 0 2 3 6 7 8)) (gather qY (mkConn 0 2 3 6 7 8)) (mkConn 0 2 3 6 7 8) xm.
Lemma q1_valid : valid_el q1.
Proof. unfold valid_el, straight, corner_a, corner_b, corner_c, q1, side_nodes, gather, qX, qY, orient. cbn [el_x el_y c0 c1 c2 c3 c4 c5 nth v0 v1 v2 fst snd]. split; [split; f_equal; lra|lra]. Qed.
Lemma q2_valid : valid_el q2.
Proof. unfold valid_el, straight, corner_a, corner_b, corner_c, q2, side_nodes, gather, qX, qY, orient. cbn [el_x el_y c0 c1 c2 c3 c4 c5 nth v0 v1 v2 fst snd]. split; [split; f_equal; lra|lra]. Qed.
Lemma square_mesh : mesh_on 9 qX qY [q1; q2].
Proof.
  intros el [<-|[<-|[]]].
  - split; [apply q1_valid|]. split; [change (NoDup [0;1;2;4;5;6]%nat); repeat (apply NoDup_cons; [cbn [In]; lia|]); apply NoDup_nil|]. split; [intros k; change (In k [0;1;2;4;5;6]%nat -> (k < 9)%nat); cbn [In]; lia|split; reflexivity].
  - split; [apply q2_valid|]. split; [change (NoDup [0;2;3;6;7;8]%nat); repeat (apply NoDup_cons; [cbn [In]; lia|]); apply NoDup_nil|]. split; [intros k; change (In k [0;2;3;6;7;8]%nat -> (k < 9)%nat); cbn [In]; lia|split; reflexivity].
Qed.
Lemma square_analysed : exists w, analysed 9 qX qY [q1; q2] (best_solver 9) false w.
Proof.
  assert (P : pos_moduli [q1; q2]) by (intros el [<-|[<-|[]]]; cbn [q1 q2 el_mat xm m_E]; lra).
  destruct (analysis_exists 9 qX qY [q1; q2] false square_mesh ltac:(discriminate) P) as [w W].
  - intros a b [<-|[<-|[]]] [<-|[<-|[]]]; exists []; (split; [intros e []|]); exists 0%nat; split; left; reflexivity.
  - intros i Hi. assert (C : (In i [0;1;2;4;5;6] \/ In i [0;2;3;6;7;8])%nat) by (cbn [In]; lia). destruct C as [C|C]; [exists q1|exists q2]; (split; [cbn [In]; tauto|exact C]).
  - exists w. split; [apply square_mesh|]. split; [discriminate|]. split; [exact P|]. split; [intros _ el [<-|[<-|[]]]; reflexivity|]. split; [apply best_exact|exact W].
Qed.
Definition square_free : list (nat * nat * nat) := [(0, 1, 4); (1, 2, 5); (2, 3, 7); (3, 0, 8)]%nat.
Example C97_rectangle_met : exists w, analysed 9 qX qY [q1; q2] (best_solver 9) false w /\ same_boundary (mesh_edges [q1; q2]) (ring_edges xm (rectangle 0 0 2 2)) /\ free_sides [q1; q2] square_free /\
  (forall i j k, In (i, j, k) square_free -> on_rectangle_side 0 0 2 2 (qX i, qY i) (qX j, qY j)) /\ stress_function qX qY [q1; q2] (bubble 0 0 2 2) (bubble_x 0 0 2 2) (bubble_y 0 0 2 2) /\ 20 / 9 <= w_j w <= 8 / 3.
Proof.
  destruct square_analysed as [w W]. exists w. split; [exact W|].
  assert (B : same_boundary (mesh_edges [q1; q2]) (ring_edges xm (rectangle 0 0 2 2))).
  { set (p0 := (0, 0) : point). set (p1 := (2, 0) : point). set (p2 := (2, 2) : point). set (p3 := (0, 2) : point).
    replace (rectangle 0 0 2 2) with [p0; p1; p2; p3] by (unfold rectangle, p0, p1, p2, p3; repeat (f_equal; try lra)).
    change (same_boundary [(xm, p0, p1); (xm, p1, p2); (xm, p2, p0); (xm, p0, p2); (xm, p2, p3); (xm, p3, p0)] [(xm, p0, p1); (xm, p1, p2); (xm, p2, p3); (xm, p3, p0)]).
    cancels xm p2 p0. apply sb_refl. }
  assert (F : free_sides [q1; q2] square_free).
  { exists [(2, 0, 6)%nat]. change (Permutation [(0, 1, 4); (1, 2, 5); (2, 0, 6); (0, 2, 6); (2, 3, 7); (3, 0, 8)]%nat ([(0, 1, 4); (1, 2, 5)] ++ [(2, 3, 7); (3, 0, 8)] ++ [(2, 0, 6); (0, 2, 6)])%nat).
    apply (Permutation_app_head [(0, 1, 4); (1, 2, 5)]%nat), (Permutation_app_comm [(2, 0, 6); (0, 2, 6)]%nat [(2, 3, 7); (3, 0, 8)]%nat). }
  assert (S : forall i j k, In (i, j, k) square_free -> on_rectangle_side 0 0 2 2 (qX i, qY i) (qX j, qY j)).
  { intros i j k [H|[H|[H|[H|[]]]]]; injection H as <- <- <-; unfold on_rectangle_side, qX, qY; cbn [nth fst snd]; [right; right; left|right; left|right; right; right|left]; lra. }
  split; [exact B|]. split; [exact F|]. split; [exact S|]. split; [split; [apply bubble_smooth|exists square_free; split; [exact F|apply bubble_zero, S]]|].
  pose proof (C97_rectangle _ _ _ _ _ _ 0 0 2 2 xm square_free W ltac:(lra) ltac:(lra) B F S) as L. lra.
Qed.

(** An equilateral triangle of one element *)
Definition tX (i : nat) : R := nth i [0; 2; 1; 1; 3/2; 1/2] 0.
Definition tY (i : nat) : R := nth i [0; 0; sqrt 3; 0; sqrt 3 / 2; sqrt 3 / 2] 0.
Definition t1 : tri6 := mkTri (gather tX (mkConn 0 1 2 3 4 5)) (gather tY (mkConn 0 1 2 3 4 5)) (mkConn 0 1 2 3 4 5) xm.
Definition tri_free : list (nat * nat * nat) := [(0, 1, 3); (1, 2, 4); (2, 0, 5)]%nat.
Lemma t1_valid : valid_el t1.
Proof. assert (0 < sqrt 3) by (apply sqrt_lt_R0; lra). unfold valid_el, straight, corner_a, corner_b, corner_c, t1, side_nodes, gather, tX, tY, orient. cbn [el_x el_y c0 c1 c2 c3 c4 c5 nth v0 v1 v2 fst snd]. split; [split; f_equal; lra|lra]. Qed.
Example C97_equilateral_met : exists w, analysed 6 tX tY [t1] (best_solver 6) false w /\ same_boundary (mesh_edges [t1]) (ring_edges xm (equilateral 2)) /\ free_sides [t1] tri_free /\
  (forall i j k, In (i, j, k) tri_free -> on_equilateral_side 2 (tX i, tY i) (tX j, tY j)) /\ elastic_stress (cubic 2) (cubic_x 2) (cubic_y 2) /\ zero_on tX tY tri_free (cubic 2) /\ sqrt 3 / 5 <= w_j w.
Proof.
  assert (Hm : mesh_on 6 tX tY [t1]).
  { intros el [<-|[]]. split; [apply t1_valid|]. split; [change (NoDup [0;1;2;3;4;5]%nat); repeat (apply NoDup_cons; [cbn [In]; lia|]); apply NoDup_nil|]. split; [intros k; change (In k [0;1;2;3;4;5]%nat -> (k < 6)%nat); cbn [In]; lia|split; reflexivity]. }
  assert (P : pos_moduli [t1]) by (intros el [<-|[]]; cbn [t1 el_mat xm m_E]; lra).
  destruct (analysis_exists 6 tX tY [t1] false Hm ltac:(discriminate) P) as [w W].
  { intros a b [<-|[]] [<-|[]]. exists []. split; [intros e []|]. exists 0%nat. split; left; reflexivity. }
  { intros i Hi. exists t1. split; [left; reflexivity|]. change (In i [0;1;2;3;4;5]%nat). cbn [In]. lia. }
  assert (A : analysed 6 tX tY [t1] (best_solver 6) false w) by (split; [exact Hm|]; split; [discriminate|]; split; [exact P|]; split; [intros _ el [<-|[]]; reflexivity|]; split; [apply best_exact|exact W]).
  assert (B : same_boundary (mesh_edges [t1]) (ring_edges xm (equilateral 2))).
  { replace (equilateral 2) with [(0, 0); (2, 0); (1, sqrt 3)] by (unfold equilateral; repeat (f_equal; try lra)). apply sb_refl. }
  assert (F : free_sides [t1] tri_free) by (exists []; apply Permutation_refl).
  assert (S : forall i j k, In (i, j, k) tri_free -> on_equilateral_side 2 (tX i, tY i) (tX j, tY j)).
  { intros i j k [H|[H|[H|[]]]]; injection H as <- <- <-; unfold on_equilateral_side, tX, tY; cbn [nth fst snd]; [left|right; right|right; left]; lra. }
  exists w. split; [exact A|]. split; [exact B|]. split; [exact F|]. split; [exact S|]. split; [apply cubic_elastic; lra|]. split; [apply cubic_zero; [lra|exact S]|].
  pose proof (C97_equilateral _ _ _ _ _ _ 2 xm tri_free A ltac:(lra) B F S) as L. lra.
Qed.

Print Assumptions C97_upper.
Print Assumptions C97_lower.
Print Assumptions C97_elastic.
Print Assumptions C97_rectangle.
Print Assumptions C97_equilateral.
