(** C98: the shear areas of a section with zero effective Poisson's ratio. *)
From Coquelicot Require Import Coquelicot.
From Coq Require Import Reals List Permutation Lra Lia.
From Verif Require Import Base S_Integral M_Fea S_Fem M_Post M_Section S_Section S_Post S_Warp P_Integral P_Fea P_Geom P_Elem P_Section P_Totals P_Post P_Warp P_Warp2 P_Warp3 P_Warp4 P_Warp5 P_Warp9 P_WarpEx P_PlasticForms P_PlasticForms2 T_Warp S_Refine P_Refine T_Refine S_Prandtl P_Green P_Prandtl P_Prandtl2 T_Prandtl S_Shear P_Shear P_Shear2.
Import ListNotations.
Local Open Scope R_scope.

(** The reciprocal of a shear area is the greatest value, over all displacements, of twice the work of the bending stresses of a unit shear force
    less the energy of the shear strains. *)
Theorem C98_extremal : forall n X Y els solve composite w, analysed n X Y els solve composite w -> nu_used composite els = 0 ->
  let phi := p_phi (centroidal_of (section_totals els)) * PI / 180 in
  greatest (shear_work els 1 0) (/ w_a_sx w) /\ greatest (shear_work els 0 1) (/ w_a_sy w) /\
  greatest (shear_work els (cos phi) (sin phi)) (/ w_a_s11 w) /\ greatest (shear_work els (- sin phi) (cos phi)) (/ w_a_s22 w).
Proof. exact area_greatest. Qed.

(** Refining a mesh never increases a shear area. *)
Theorem C98_refinement : forall n X Y els solve composite w n' X' Y' els' solve' w',
  analysed n X Y els solve composite w -> analysed n' X' Y' els' solve' composite w' -> nu_used composite els = 0 ->
  conforming X Y els -> refines els els' ->
  w_a_sx w' <= w_a_sx w /\ w_a_sy w' <= w_a_sy w /\ w_a_s11 w' <= w_a_s11 w /\ w_a_s22 w' <= w_a_s22 w.
Proof.
  intros n X Y els solve composite w n' X' Y' els' solve' w' A A' H0 C F. pose proof A as (Hm & _). pose proof A' as (Hm' & _).
  assert (R : forall co si u, section_totals els' = section_totals els /\ exists u', shear_work els' co si u' = shear_work els co si u) by (intros; apply (refined_work n X Y els n' X' Y' els' co si u Hm Hm' C F)).
  destruct (R 0 0 (fun _ => 0)) as [T _]. assert (H0' : nu_used composite els' = 0) by (unfold nu_used in *; rewrite T; exact H0).
  destruct (C98_extremal _ _ _ _ _ _ _ A H0) as (E1 & E2 & E3 & E4). destruct (C98_extremal _ _ _ _ _ _ _ A' H0') as (G1 & G2 & G3 & G4). cbv zeta in *. rewrite T in G3, G4.
  destruct (C25_shear_areas _ _ _ _ _ _ _ A H0) as ([P1 _] & [P2 _] & [P3 _] & [P4 _]). destruct (C25_shear_areas _ _ _ _ _ _ _ A' H0') as ([Q1 _] & [Q2 _] & [Q3 _] & [Q4 _]).
  assert (K : forall co si a a', 0 < a -> 0 < a' -> greatest (shear_work els co si) (/ a) -> greatest (shear_work els' co si) (/ a') -> a' <= a).
  { intros co si a a' Pa Pa' Ga Ga'. rewrite <- (Rinv_inv a), <- (Rinv_inv a'). apply Rinv_le_contravar; [apply Rinv_0_lt_compat, Pa|]. apply (greatest_le _ _ _ _ Ga Ga'). intros u. apply (R co si u). }
  split; [exact (K _ _ _ _ P1 Q1 E1 G1)|]. split; [exact (K _ _ _ _ P2 Q2 E2 G2)|]. split; [exact (K _ _ _ _ P3 Q3 E3 G3)|exact (K _ _ _ _ P4 Q4 E4 G4)].
Qed.

(** Every shear stress field in equilibrium with a unit shear force gives a lower bound: the shear area times the integral of the squared
    stresses is at least one. *)
Theorem C98_lower : forall n X Y els solve w p q, analysed n X Y els solve false w ->
  let phi := p_phi (centroidal_of (section_totals els)) * PI / 180 in
  let energy := mesh_int (fun _ => 1) (fun x y => p x y ^ 2 + q x y ^ 2) els in
  (equilibrium X Y els 1 0 p q -> 1 <= w_a_sx w * energy) /\ (equilibrium X Y els 0 1 p q -> 1 <= w_a_sy w * energy) /\
  (equilibrium X Y els (cos phi) (sin phi) p q -> 1 <= w_a_s11 w * energy) /\ (equilibrium X Y els (- sin phi) (cos phi) p q -> 1 <= w_a_s22 w * energy).
Proof.
  intros n X Y els solve w p q A phi energy. pose proof A as (Hm & _ & _ & U & _). specialize (U eq_refl). assert (H0 : nu_used false els = 0) by reflexivity.
  destruct (C98_extremal _ _ _ _ _ _ _ A H0) as (E1 & E2 & E3 & E4). destruct (C25_shear_areas _ _ _ _ _ _ _ A H0) as ([P1 _] & [P2 _] & [P3 _] & [P4 _]).
  split; [|split; [|split]]; intros E; [exact (equilibrium_bound _ _ _ _ _ _ _ _ _ Hm U P1 E1 E)|exact (equilibrium_bound _ _ _ _ _ _ _ _ _ Hm U P2 E2 E)|exact (equilibrium_bound _ _ _ _ _ _ _ _ _ Hm U P3 E3 E)|exact (equilibrium_bound _ _ _ _ _ _ _ _ _ Hm U P4 E4 E)].
Qed.

(** Any mesh of a rectangle: the shear areas lie between 5/6 b d and b d. *)
Theorem C98_rectangle : forall n X Y els solve w x0 y0 b d m free, analysed n X Y els solve false w -> 0 < b -> 0 < d ->
  same_boundary (mesh_edges els) (ring_edges m (rectangle x0 y0 b d)) ->
  free_sides els free -> (forall i j k, In (i, j, k) free -> on_rectangle_side x0 y0 b d (X i, Y i) (X j, Y j)) ->
  5 / 6 * (b * d) <= w_a_sx w <= b * d /\ 5 / 6 * (b * d) <= w_a_sy w <= b * d /\
  5 / 6 * (b * d) <= w_a_s11 w <= b * d /\ 5 / 6 * (b * d) <= w_a_s22 w <= b * d.
Proof.
  intros n X Y els solve w x0 y0 b d m free A Hb Hd B Hf Hs. pose proof A as (Hm & _ & _ & U & _). specialize (U eq_refl). pose proof (on_valid _ _ _ _ Hm) as V.
  destruct (C25_shear_areas _ _ _ _ _ _ _ A eq_refl) as ([_ Q1] & [_ Q2] & [_ Q3] & [_ Q4]).
  destruct (rectangle_centroid x0 y0 b d m els Hb Hd V B U) as (_ & _ & Ea). rewrite Ea in Q1, Q2, Q3, Q4.
  set (phi := p_phi (centroidal_of (section_totals els)) * PI / 180). assert (Hcs : cos phi ^ 2 + sin phi ^ 2 = 1) by (pose proof (sin2_cos2 phi) as H; unfold Rsqr in H; lra).
  assert (Pbd : 0 < b * d) by (apply Rmult_lt_0_compat; assumption).
  assert (K : forall co si a, co ^ 2 + si ^ 2 = 1 -> (equilibrium X Y els co si (par_x x0 b d co) (par_y y0 b d si) ->
     1 <= a * mesh_int (fun _ => 1) (fun x y => par_x x0 b d co x y ^ 2 + par_y y0 b d si x y ^ 2) els) -> 5 / 6 * (b * d) <= a).
  { intros co si a E L. specialize (L (par_equilibrium X Y x0 y0 b d m els free co si Hb Hd V B U Hf Hs)). rewrite (par_energy x0 y0 b d m els co si Hb Hd V B), E in L.
    apply (Rmult_le_compat_l (5 / 6 * (b * d))) in L; [|lra]. replace (5 / 6 * (b * d) * (a * (6 / (5 * (b * d)) * 1))) with a in L by (field; lra). lra. }
  pose proof (fun p q => C98_lower n X Y els solve w p q A) as L. cbv zeta in L. fold phi in L.
  split; [split; [apply (K 1 0); [ring|apply L]|exact Q1]|]. split; [split; [apply (K 0 1); [ring|apply L]|exact Q2]|].
  split; [split; [apply (K (cos phi) (sin phi)); [exact Hcs|apply L]|exact Q3]|split; [apply (K (- sin phi) (cos phi)); [rewrite <- Hcs; ring|apply L]|exact Q4]].
Qed.

(** ** The hypotheses are met *)
Example C98_refinement_met : exists w w', analysed 6 xX xY [xe] (best_solver 6) false w /\ analysed 9 fX fY [f1; f2] (best_solver 9) false w' /\
  nu_used false [xe] = 0 /\ conforming xX xY [xe] /\ refines [xe] [f1; f2] /\ w_a_sx w' <= w_a_sx w.
Proof.
  destruct (analysis_exists 6 xX xY [xe] false xmesh ltac:(discriminate) xpos xconn xused) as [w W]. destruct (analysis_exists 9 fX fY [f1; f2] false fine_mesh ltac:(discriminate) fine_pos fine_conn fine_used) as [w' W'].
  assert (A : analysed 6 xX xY [xe] (best_solver 6) false w) by (split; [apply xmesh|]; split; [discriminate|]; split; [apply xpos|]; split; [intros _ el [<-|[]]; reflexivity|]; split; [apply best_exact|exact W]).
  assert (A' : analysed 9 fX fY [f1; f2] (best_solver 9) false w') by (split; [apply fine_mesh|]; split; [discriminate|]; split; [apply fine_pos|]; split; [intros _ el [<-|[<-|[]]]; reflexivity|]; split; [apply best_exact|exact W']).
  exists w, w'. assert (C : conforming xX xY [xe]) by (intros a b p [<-|[]] [<-|[]] _ _; left; reflexivity).
  split; [exact A|]. split; [exact A'|]. split; [reflexivity|]. split; [exact C|]. split; [apply fine_refines|]. apply (C98_refinement _ _ _ _ _ _ _ _ _ _ _ _ _ A A' eq_refl C fine_refines).
Qed.
Example C98_rectangle_met : exists w, analysed 9 qX qY [q1; q2] (best_solver 9) false w /\ equilibrium qX qY [q1; q2] 1 0 (par_x 0 2 2 1) (par_y 0 2 2 0) /\ 10 / 3 <= w_a_sx w <= 4 /\ 10 / 3 <= w_a_s11 w <= 4.
Proof.
  destruct C97_rectangle_met as (w & W & B & F & S & _). exists w. split; [exact W|]. pose proof W as (Hm & _ & _ & U & _). specialize (U eq_refl).
  split; [apply (par_equilibrium qX qY 0 0 2 2 xm [q1; q2] square_free 1 0 ltac:(lra) ltac:(lra) (on_valid _ _ _ _ Hm) B U F S)|].
  destruct (C98_rectangle _ _ _ _ _ _ 0 0 2 2 xm square_free W ltac:(lra) ltac:(lra) B F S) as (L1 & _ & L3 & _). lra.
Qed.

Print Assumptions C98_extremal.
Print Assumptions C98_refinement.
Print Assumptions C98_lower.
Print Assumptions C98_rectangle.
