(** C95: the torsion constants of related sections. *)
From Coquelicot Require Import Coquelicot.
From Coq Require Import Reals List Permutation Lra Lia.
From Verif Require Import Base S_Integral M_Fea S_Fem M_Post M_Section S_Section S_Post S_Warp P_Section P_Totals P_Post P_Warp P_Warp2 P_Warp3 P_Warp4 P_Warp5 P_Warp9 P_WarpEx P_PlasticForms P_PlasticForms2 T_Warp S_Refine P_Refine.
Import ListNotations.
Local Open Scope R_scope.

(** Refining a mesh never increases the torsion constant. *)
Theorem C95_refinement : forall n X Y els solve composite w n' X' Y' els' solve' w',
  analysed n X Y els solve composite w -> analysed n' X' Y' els' solve' composite w' ->
  conforming X Y els -> refines els els' -> w_j w' <= w_j w.
Proof.
  intros n X Y els solve composite w n' X' Y' els' solve' w' A A' C F.
  pose proof A as (Hm & _). pose proof A' as (Hm' & _).
  destruct (C22_torsion_constant _ _ _ _ _ _ _ A) as (_ & E & _). destruct (C22_torsion_constant _ _ _ _ _ _ _ A') as (_ & _ & M). rewrite E.
  set (c := centroidal_of (section_totals els)) in *.
  destruct (refined_energy n X Y els n' X' Y' els' (p_cx c) (p_cy c) (w_omega w) Hm Hm' C F) as [S [u U]].
  pose proof (section_totals_same_boundary els' els (on_valid _ _ _ _ Hm') (on_valid _ _ _ _ Hm) S) as T. rewrite T in M. fold c in M.
  rewrite <- U. apply M.
Qed.

(** The torsion constant of a section made of two parts is at least the sum of the torsion constants of the parts. *)
Theorem C95_parts : forall n X Y els solve composite w n1 X1 Y1 els1 solve1 w1 n2 X2 Y2 els2 solve2 w2 g1 g2,
  analysed n X Y els solve composite w -> analysed n1 X1 Y1 els1 solve1 composite w1 -> analysed n2 X2 Y2 els2 solve2 composite w2 ->
  Permutation els (map (renumber g1) els1 ++ map (renumber g2) els2) ->
  w_j w1 + w_j w2 <= w_j w.
Proof.
  intros n X Y els solve composite w n1 X1 Y1 els1 solve1 w1 n2 X2 Y2 els2 solve2 w2 g1 g2 A A1 A2 P.
  destruct (C22_torsion_constant _ _ _ _ _ _ _ A) as (_ & E & _). destruct (C22_torsion_constant _ _ _ _ _ _ _ A1) as (_ & _ & M1). destruct (C22_torsion_constant _ _ _ _ _ _ _ A2) as (_ & _ & M2).
  rewrite E, twist_sum, (sumf_perm _ _ _ P), sumf_app, <- !twist_sum, !renumber_energy.
  pose proof A1 as (Hm1 & _). pose proof A2 as (Hm2 & _).
  apply Rplus_le_compat; [edestruct (recentred n1 X1 Y1 els1) as [v V]; [exact Hm1|]; rewrite <- V; apply M1|edestruct (recentred n2 X2 Y2 els2) as [v V]; [exact Hm2|]; rewrite <- V; apply M2].
Qed.

(** Adding material never decreases the torsion constant. *)
Theorem C95_added_material : forall n X Y els solve composite w n1 X1 Y1 els1 solve1 w1 g1 added,
  analysed n X Y els solve composite w -> analysed n1 X1 Y1 els1 solve1 composite w1 ->
  Permutation els (map (renumber g1) els1 ++ added) -> w_j w1 <= w_j w.
Proof.
  intros n X Y els solve composite w n1 X1 Y1 els1 solve1 w1 g1 added A A1 P.
  destruct (C22_torsion_constant _ _ _ _ _ _ _ A) as (_ & E & _). destruct (C22_torsion_constant _ _ _ _ _ _ _ A1) as (_ & _ & M1).
  rewrite E, twist_sum, (sumf_perm _ _ _ P), sumf_app, <- twist_sum, renumber_energy.
  pose proof A1 as (Hm1 & _). pose proof A as (Hm & _ & Hp & _).
  assert (N : 0 <= sumf (el_energy (p_cx (centroidal_of (section_totals els))) (p_cy (centroidal_of (section_totals els))) (w_omega w)) added).
  { apply sumf_nonneg. intros el I. assert (J : In el els) by (apply (Permutation_in _ (Permutation_sym P)), in_or_app; right; exact I). pose proof (Hp el J) as Q. destruct (Hm el J) as (V & _).
    destruct (el_energy_nonneg (p_cx (centroidal_of (section_totals els))) (p_cy (centroidal_of (section_totals els))) (w_omega w) el V ltac:(lra)) as (x & Hx & ->). apply Rmult_le_pos; lra. }
  destruct (recentred n1 X1 Y1 els1 (p_cx (centroidal_of (section_totals els))) (p_cy (centroidal_of (section_totals els))) (p_cx (centroidal_of (section_totals els1))) (p_cy (centroidal_of (section_totals els1))) (fun i => w_omega w (g1 i)) Hm1) as [v V].
  specialize (M1 v). rewrite V in M1. lra.
Qed.

(** A section with larger moduli has a larger (modulus-weighted) torsion constant. *)
Theorem C95_stiffer : forall n X Y els solve w els' solve' w',
  analysed n X Y els solve true w -> analysed n X Y els' solve' true w' -> Forall2 stiffer els els' -> w_j w <= w_j w'.
Proof.
  intros n X Y els solve w els' solve' w' A A' F.
  destruct (C22_torsion_constant _ _ _ _ _ _ _ A') as (_ & E & _). destruct (C22_torsion_constant _ _ _ _ _ _ _ A) as (_ & _ & M). rewrite E. pose proof A as (Hm & _).
  set (c' := centroidal_of (section_totals els')) in *. destruct (recentred n X Y els (p_cx c') (p_cy c') (p_cx (centroidal_of (section_totals els))) (p_cy (centroidal_of (section_totals els))) (w_omega w') Hm) as [v V].
  apply (Rle_trans _ _ _ (M v)). rewrite V, !twist_sum. apply (sumf_forall2 _ _ _ _ _ F). intros a b I. apply stiffer_energy. apply (Hm a I).
Qed.

(** A triangle, the same triangle cut in two, and the two halves. *)
Definition fX (i : nat) : R := nth i [0; 3; 15; 3/2; 3/4; 9/4; 33/4; 9; 15/2] 0.
Definition fY (i : nat) : R := nth i [0; 0; 3; 0; 0; 0; 3/2; 3/2; 3/2] 0.
Definition f1 : tri6 := mkTri (gather fX (mkConn 0 3 2 4 6 8)) (gather fY (mkConn 0 3 2 4 6 8)) (mkConn 0 3 2 4 6 8) xm.
Definition f2 : tri6 := mkTri (gather fX (mkConn 3 1 2 5 7 6)) (gather fY (mkConn 3 1 2 5 7 6)) (mkConn 3 1 2 5 7 6) xm.
Definition half (el : tri6) : tri6 := mkTri (el_x el) (el_y el) (mkConn 0 1 2 3 4 5) (el_mat el).
Definition back (el : tri6) (i : nat) : nat := nth i (ids_list (el_ids el)) 0%nat.

Lemma f1_valid : valid_el f1.
Proof. unfold valid_el, straight, corner_a, corner_b, corner_c, f1, side_nodes, gather, fX, fY, orient. cbn [el_x el_y c0 c1 c2 c3 c4 c5 nth v0 v1 v2 fst snd]. split; [split; f_equal; lra|lra]. Qed.
Lemma f2_valid : valid_el f2.
Proof. unfold valid_el, straight, corner_a, corner_b, corner_c, f2, side_nodes, gather, fX, fY, orient. cbn [el_x el_y c0 c1 c2 c3 c4 c5 nth v0 v1 v2 fst snd]. split; [split; f_equal; lra|lra]. Qed.
Lemma fine_mesh : mesh_on 9 fX fY [f1; f2].
Proof.
  intros el [<-|[<-|[]]].
  - split; [apply f1_valid|]. split; [change (NoDup [0;3;2;4;6;8]%nat); repeat (apply NoDup_cons; [cbn [In]; lia|]); apply NoDup_nil|]. split; [intros k; change (In k [0;3;2;4;6;8]%nat -> (k < 9)%nat); cbn [In]; lia|split; reflexivity].
  - split; [apply f2_valid|]. split; [change (NoDup [3;1;2;5;7;6]%nat); repeat (apply NoDup_cons; [cbn [In]; lia|]); apply NoDup_nil|]. split; [intros k; change (In k [3;1;2;5;7;6]%nat -> (k < 9)%nat); cbn [In]; lia|split; reflexivity].
Qed.
Lemma fine_pos : pos_moduli [f1; f2].
Proof. intros el [<-|[<-|[]]]; cbn [f1 f2 el_mat xm m_E]; lra. Qed.
Lemma fine_conn : connected [f1; f2].
Proof. intros a b [<-|[<-|[]]] [<-|[<-|[]]]; exists []; (split; [intros e []|]); exists 2%nat; (split; [change (In 2%nat [0;3;2;4;6;8]%nat) || change (In 2%nat [3;1;2;5;7;6]%nat)|change (In 2%nat [0;3;2;4;6;8]%nat) || change (In 2%nat [3;1;2;5;7;6]%nat)]); cbn [In]; lia. Qed.
Lemma fine_used : all_used 9 [f1; f2].
Proof.
  intros i Hi. assert (C : (In i [0;3;2;4;6;8] \/ In i [3;1;2;5;7;6])%nat) by (cbn [In]; lia).
  destruct C as [C|C]; [exists f1|exists f2]; (split; [cbn [In]; tauto|exact C]).
Qed.
Lemma half_mesh el : valid_el el -> mesh_on 6 (fun i => nth6 (el_x el) i) (fun i => nth6 (el_y el) i) [half el].
Proof.
  intros V e [<-|[]]. split; [exact V|]. split; [change (NoDup [0;1;2;3;4;5]%nat); repeat (apply NoDup_cons; [cbn [In]; lia|]); apply NoDup_nil|]. split; [intros k; change (In k [0;1;2;3;4;5]%nat -> (k < 6)%nat); cbn [In]; lia|].
  unfold half, gather, nth6. cbn [el_x el_y el_ids c0 c1 c2 c3 c4 c5]. destruct (el_x el), (el_y el). split; reflexivity.
Qed.
Lemma half_analysed el : valid_el el -> el_mat el = xm -> exists w, analysed 6 (fun i => nth6 (el_x el) i) (fun i => nth6 (el_y el) i) [half el] (best_solver 6) true w.
Proof.
  intros V M. assert (P : pos_moduli [half el]) by (intros e [<-|[]]; cbn [half el_mat]; rewrite M; cbn [xm m_E]; lra).
  destruct (analysis_exists 6 _ _ [half el] true (half_mesh el V) ltac:(discriminate) P) as [w W].
  - intros a b [<-|[]] [<-|[]]. exists []. split; [intros e []|]. exists 0%nat. split; left; reflexivity.
  - intros i Hi. exists (half el). split; [left; reflexivity|]. change (In i [0;1;2;3;4;5]%nat). cbn [In]. lia.
  - exists w. split; [apply half_mesh, V|]. split; [discriminate|]. split; [exact P|]. split; [discriminate|]. split; [apply best_exact|exact W].
Qed.
Lemma fine_refines : refines [xe] [f1; f2].
Proof.
  exists [(xe, [f1; f2])]. split; [reflexivity|]. split; [apply Permutation_refl|]. intros el ch [H|[]]. injection H as <- <-. split.
  - set (p0 := (0, 0) : point). set (p1 := (3, 0) : point). set (p2 := (15, 3) : point). set (p3 := (3/2, 0) : point).
    change (same_boundary [(xm, p0, p3); (xm, p3, p2); (xm, p2, p0); (xm, p3, p1); (xm, p1, p2); (xm, p2, p3)] [(xm, p0, p1); (xm, p1, p2); (xm, p2, p0)]).
    cancels xm p3 p2. apply sb_sym. splits xm p0 p1 p3 (1/2). apply sb_perm, perm_skip, Permutation_sym, (Permutation_cons_append [(xm, p3, p1); (xm, p1, p2)]).
  - intros c [<-|[<-|[]]]; (split; [reflexivity|]).
    + split; [exists 1, 0, 0|split; [exists (1/2), (1/2), 0|exists 0, 0, 1]]; unfold corner_a, corner_b, corner_c, f1, xe, gather, fX, fY, side_nodes, xa, xb, xc; cbn [el_x el_y c0 c1 c2 nth v0 v1 v2 fst snd]; repeat split; lra.
    + split; [exists (1/2), (1/2), 0|split; [exists 0, 1, 0|exists 0, 0, 1]]; unfold corner_a, corner_b, corner_c, f2, xe, gather, fX, fY, side_nodes, xa, xb, xc; cbn [el_x el_y c0 c1 c2 nth v0 v1 v2 fst snd]; repeat split; lra.
Qed.
Lemma coarse_analysed : exists w, analysed 6 xX xY [xe] (best_solver 6) true w.
Proof.
  destruct (analysis_exists 6 xX xY [xe] true xmesh ltac:(discriminate) xpos xconn xused) as [w W]. exists w.
  split; [apply xmesh|]. split; [discriminate|]. split; [apply xpos|]. split; [discriminate|]. split; [apply best_exact|exact W].
Qed.
Lemma fine_analysed : exists w, analysed 9 fX fY [f1; f2] (best_solver 9) true w.
Proof.
  destruct (analysis_exists 9 fX fY [f1; f2] true fine_mesh ltac:(discriminate) fine_pos fine_conn fine_used) as [w W]. exists w.
  split; [apply fine_mesh|]. split; [discriminate|]. split; [apply fine_pos|]. split; [discriminate|]. split; [apply best_exact|exact W].
Qed.

Example C95_refinement_met : exists w w', analysed 6 xX xY [xe] (best_solver 6) true w /\ analysed 9 fX fY [f1; f2] (best_solver 9) true w' /\
  conforming xX xY [xe] /\ refines [xe] [f1; f2] /\ w_j w' <= w_j w.
Proof.
  destruct coarse_analysed as [w W]. destruct fine_analysed as [w' W']. exists w, w'.
  assert (C : conforming xX xY [xe]) by (intros a b p [<-|[]] [<-|[]] _ _; left; reflexivity).
  split; [exact W|]. split; [exact W'|]. split; [exact C|]. split; [apply fine_refines|]. apply (C95_refinement _ _ _ _ _ _ _ _ _ _ _ _ _ W W' C fine_refines).
Qed.
(** A mesh of two elements with a common side is conforming. *)
Example C95_conforming_met : conforming fX fY [f1; f2].
Proof.
  assert (K : forall p, in_el f1 p -> in_el f2 p -> on_segment (fX 3, fY 3) (fX 2, fY 2) p).
  { intros p (e & f & g & E & F & G & S & Hx & Hy) (e' & f' & g' & E' & F' & G' & S' & Hx' & Hy').
    unfold corner_a, corner_b, corner_c, f1, f2, gather, fX, fY in *. cbn [el_x el_y c0 c1 c2 nth v0 v1 v2 fst snd] in *.
    assert (e = 0) by lra. assert (F1 : f = 1 - g) by lra. exists g. split; [lra|]. destruct p as [q r]. cbn [fst snd] in *. rewrite Hx, Hy, F1. f_equal; ring [H]. }
  intros a b p [<-|[<-|[]]] [<-|[<-|[]]] P Q; try (left; reflexivity); right; right; exists 3%nat, 2%nat, 6%nat.
  - split; [left; cbn [side_ids f1 el_ids c0 c1 c2 c3 c4 c5 In]; tauto|]. split; [left; cbn [side_ids f2 el_ids c0 c1 c2 c3 c4 c5 In]; tauto|]. apply K; assumption.
  - split; [left; cbn [side_ids f2 el_ids c0 c1 c2 c3 c4 c5 In]; tauto|]. split; [left; cbn [side_ids f1 el_ids c0 c1 c2 c3 c4 c5 In]; tauto|]. apply K; assumption.
Qed.
Lemma renumber_back el : renumber (back el) (half el) = el.
Proof. destruct el as [x y [a b c d e f] m]. reflexivity. Qed.
Example C95_parts_met : exists w w1 w2, analysed 9 fX fY [f1; f2] (best_solver 9) true w /\
  analysed 6 (fun i => nth6 (el_x f1) i) (fun i => nth6 (el_y f1) i) [half f1] (best_solver 6) true w1 /\
  analysed 6 (fun i => nth6 (el_x f2) i) (fun i => nth6 (el_y f2) i) [half f2] (best_solver 6) true w2 /\ 0 < w_j w1 /\ 0 < w_j w2 /\ w_j w1 + w_j w2 <= w_j w.
Proof.
  destruct fine_analysed as [w W]. destruct (half_analysed f1 f1_valid eq_refl) as [w1 W1]. destruct (half_analysed f2 f2_valid eq_refl) as [w2 W2]. exists w, w1, w2.
  split; [exact W|]. split; [exact W1|]. split; [exact W2|]. split; [apply (C22_torsion_constant _ _ _ _ _ _ _ W1)|]. split; [apply (C22_torsion_constant _ _ _ _ _ _ _ W2)|].
  apply (C95_parts _ _ _ _ _ _ _ _ _ _ _ _ _ _ _ _ _ _ _ (back f1) (back f2) W W1 W2). cbn [map app]. rewrite !renumber_back. apply Permutation_refl.
Qed.
Example C95_added_material_met : exists w w1, analysed 9 fX fY [f1; f2] (best_solver 9) true w /\
  analysed 6 (fun i => nth6 (el_x f1) i) (fun i => nth6 (el_y f1) i) [half f1] (best_solver 6) true w1 /\ w_j w1 <= w_j w.
Proof.
  destruct fine_analysed as [w W]. destruct (half_analysed f1 f1_valid eq_refl) as [w1 W1]. exists w, w1. split; [exact W|]. split; [exact W1|].
  apply (C95_added_material _ _ _ _ _ _ _ _ _ _ _ _ _ (back f1) [f2] W W1). cbn [map app]. rewrite renumber_back. apply Permutation_refl.
Qed.
Definition xe2 : tri6 := mkTri (el_x xe) (el_y xe) (el_ids xe) (mkMat 2 (1/4) 1 1).
Example C95_stiffer_met : exists w w', analysed 6 xX xY [xe] (best_solver 6) true w /\ analysed 6 xX xY [xe2] (best_solver 6) true w' /\ Forall2 stiffer [xe] [xe2] /\ w_j w <= w_j w'.
Proof.
  assert (M : mesh_on 6 xX xY [xe2]) by (intros el [<-|[]]; apply (xmesh xe (or_introl eq_refl))).
  assert (P : pos_moduli [xe2]) by (intros el [<-|[]]; cbn [xe2 el_mat m_E]; lra).
  destruct coarse_analysed as [w W]. destruct (analysis_exists 6 xX xY [xe2] true M ltac:(discriminate) P) as [w' W'].
  - intros a b [<-|[]] [<-|[]]. exists []. split; [intros e []|]. exists 0%nat. split; left; reflexivity.
  - intros i Hi. exists xe2. split; [left; reflexivity|]. change (In i [0;1;2;3;4;5]%nat). cbn [In]. lia.
  - assert (A : analysed 6 xX xY [xe2] (best_solver 6) true w'). { split; [exact M|]. split; [discriminate|]. split; [exact P|]. split; [discriminate|]. split; [apply best_exact|exact W']. }
    assert (F : Forall2 stiffer [xe] [xe2]). { constructor; [|constructor]. repeat split. cbn [xe xe2 el_mat xm m_E]. lra. }
    exists w, w'. split; [exact W|]. split; [exact A|]. split; [exact F|]. apply (C95_stiffer _ _ _ _ _ _ _ _ _ W A F).
Qed.

Print Assumptions C95_refinement.
Print Assumptions C95_parts.
Print Assumptions C95_added_material.
Print Assumptions C95_stiffer.
