(** Proofs about the linear solvers. *)
From Coq Require Import Reals ZArith Arith List Lra Lia ClassicalEpsilon.
From Coquelicot Require Import Coquelicot.
From Verif Require Import Base S_Integral M_Fea S_Fem M_Post M_Section S_Section S_Post S_Warp M_Stress
  P_Integral P_Fea P_Geom P_Elem P_Section P_Totals P_Post P_Yield P_Warp P_Warp2 P_Warp3 P_Warp4 P_Warp5 P_Warp6 P_Warp7 P_Warp8 P_Warp9 P_Warp10
  M_Solver S_Solver.
Import ListNotations.
Local Open Scope R_scope.

Lemma max_abs_spec n u : is_max_abs n u (max_abs n u).
Proof.
  induction n as [|n [A (i & Hi & E)]]; cbn [max_abs].
  - split; [intros i Hi; replace i with O by lia; lra|exists O; auto].
  - split.
    + intros j Hj. destruct (Nat.eq_dec j (S n)) as [->|]; [apply Rmax_r|]. eapply Rle_trans; [apply A; lia|apply Rmax_l].
    + unfold Rmax. destruct (Rle_dec _ _); [exists (S n); auto|exists i; split; [lia|exact E]].
Qed.
Lemma max_abs_unique n u m : is_max_abs n u m -> m = max_abs n u.
Proof.
  intros [A (i & Hi & E)]. destruct (max_abs_spec n u) as [B (j & Hj & F)].
  apply Rle_antisym; [rewrite <- E; apply B, Hi|rewrite <- F; apply A, Hj].
Qed.
(** a / m > t when m is at least |a| *)
Lemma ratio_gt a m t : Rabs a <= m -> (t < a / m <-> t * m < a) \/ m = 0.
Proof.
  intros H. destruct (Req_dec m 0) as [E|E]; [right; exact E|left].
  assert (0 < m) by (pose proof (Rabs_pos a); lra). split; intros L.
  - apply Rmult_lt_compat_r with (r := m) in L; [|assumption]. unfold Rdiv in L. rewrite Rmult_assoc, Rinv_l in L by assumption. lra.
  - apply Rmult_lt_reg_r with m; [assumption|]. unfold Rdiv. rewrite Rmult_assoc, Rinv_l by assumption. lra.
Qed.

Lemma direct_spec n sp K f m : let u := sp K (append_zero n f) in is_max_abs n u m ->
  let bad := 1 / 10 ^ 7 * m < Rabs (u n) /\ 10 * float_eps < Rabs (u n) in
  (bad -> solve_direct_lagrange n sp K f = Err RuntimeError) /\
  (~ bad -> solve_direct_lagrange n sp K f = Ok (drop_last n u)).
Proof.
  intros u Hm bad. pose proof (max_abs_unique n u m Hm) as ->. destruct Hm as [B _].
  unfold solve_direct_lagrange. fold u.
  assert (K0 : 1 / 10 ^ 7 < Rabs (u n) / max_abs n u <-> 1 / 10 ^ 7 * max_abs n u < Rabs (u n)).
  { assert (H : Rabs (Rabs (u n)) <= max_abs n u) by (rewrite Rabs_Rabsolu; apply B; lia).
    destruct (ratio_gt _ _ (1 / 10 ^ 7) H) as [E|E]; [exact E|]. rewrite E in *.
    assert (Z : Rabs (u n) = 0) by (pose proof (Rabs_pos (u n)); pose proof (B n (le_n n)); lra). rewrite Z. unfold Rdiv at 2. rewrite Rmult_0_l.
    assert (0 < 1 / 10 ^ 7) by (apply Rdiv_lt_0_compat; [lra|apply pow_lt; lra]). lra. }
  unfold bad. destruct (Rlt_dec _ _) as [L|L]; [destruct (Rlt_dec _ _) as [L'|L']|]; split; intros Hb; try reflexivity; exfalso; tauto.
Qed.

Lemma cgs_spec n cgs tol K f m : 0 <= tol -> let u := fst (cgs K (append_zero n f) tol) in is_max_abs n u m ->
  let info := snd (cgs K (append_zero n f) tol) in
  (info <> 0%Z \/ tol * m < u n -> solve_cgs_lagrange n cgs tol K f = Err RuntimeError) /\
  (info = 0%Z -> u n <= tol * m -> solve_cgs_lagrange n cgs tol K f = Ok (drop_last n u)).
Proof.
  intros Ht u Hm info. pose proof (max_abs_unique n u m Hm) as ->. destruct Hm as [B _].
  unfold solve_cgs_lagrange. unfold u, info in *. destruct (cgs K (append_zero n f) tol) as [v i]. cbn [fst snd] in *.
  destruct (Z.eq_dec i 0) as [->|Hi]; [|split; [reflexivity|intros; contradiction]].
  assert (K0 : tol < v n / max_abs n v <-> tol * max_abs n v < v n).
  { assert (H : Rabs (v n) <= max_abs n v) by (apply B; lia).
    destruct (ratio_gt _ _ tol H) as [E|E]; [exact E|]. rewrite E in *.
    assert (Z : Rabs (v n) = 0) by (pose proof (Rabs_pos (v n)); lra).
    assert (Z' : v n = 0) by (destruct (Req_dec (v n) 0) as [|N]; [assumption|apply Rabs_no_R0 in N; contradiction]).
    rewrite Z'. unfold Rdiv. rewrite Rmult_0_l. lra. }
  destruct (Rlt_dec _ _) as [L|L].
  - split; [reflexivity|]. intros _ Hv. apply K0 in L. lra.
  - split; [|reflexivity]. intros [Hi|Hv]; [contradiction|]. exfalso. tauto.
Qed.

(** ** The direct solver within the warping analysis *)
Lemma mulv_S n K u i : mulv (S n) K u i = mulv n K u i + K i n * u n.
Proof. reflexivity. Qed.
Lemma mulv_cut n K u i : mulv n K (drop_last n u) i = mulv n K u i.
Proof. unfold mulv. apply sumn_ext. intros j Hj. unfold drop_last. destruct (Nat.ltb_spec j n); [reflexivity|lia]. Qed.

Lemma direct_solves n sp K f : exact_direct n sp -> nonsingular n K ->
  let u := sp K (append_zero n f) in solves n K f (drop_last n u) (u n).
Proof.
  intros He Hn u. assert (A := He K (append_zero n f) Hn). fold u in A. split.
  - intros i Hi. rewrite mulv_cut, <- mulv_S. rewrite A by lia. unfold append_zero. destruct (Nat.ltb_spec i n); [reflexivity|lia].
  - rewrite mulv_cut, <- mulv_S. rewrite A by lia. unfold append_zero. rewrite Nat.ltb_irrefl. reflexivity.
Qed.

Section Mesh.
Context (n : nat) (X Y : nat -> R) (els : list tri6).
Context (Hm : mesh_on n X Y els) (Hn : els <> []) (Hp : pos_moduli els) (Hc : connected els) (Hu : all_used n els).
Context (sp : direct_oracle) (He : exact_direct n sp).
Let K := fst (assemble_torsion n els).

Lemma torsion_nonsingular : nonsingular n K.
Proof.
  intros u Hz. assert (S0 : solves n K (fun _ => 0) u (u n)).
  { split; [intros i Hi; rewrite <- mulv_S; apply Hz; lia|rewrite <- mulv_S; apply Hz; lia]. }
  destruct (bordered_injective n X Y els Hm Hp u (u n) Hc Hn Hu S0) as [A C].
  intros j Hj. destruct (Nat.eq_dec j n) as [->|]; [exact A|apply C; lia].
Qed.

Lemma direct_multiplier f : sp K (append_zero n f) n * t_ea (section_totals els) = sumn n f.
Proof. apply (multiplier n X Y els Hm f (drop_last n (sp K (append_zero n f)))). apply direct_solves; [exact He|apply torsion_nonsingular]. Qed.

Lemma direct_balanced f : sumn n f = 0 ->
  solve_direct_lagrange n sp K f = Ok (drop_last n (sp K (append_zero n f))) /\ sp K (append_zero n f) n = 0.
Proof.
  intros Hf. pose proof (direct_multiplier f) as E. rewrite Hf in E.
  pose proof (ea_pos els Hn (on_valid n X Y els Hm) Hp) as P.
  assert (Z : sp K (append_zero n f) n = 0) by (apply (Rmult_eq_reg_r (t_ea (section_totals els))); lra).
  split; [|exact Z]. apply (direct_spec n sp K f _ (max_abs_spec n _)). rewrite Z, Rabs_R0.
  intros [_ L]. assert (0 < float_eps) by (apply Rinv_0_lt_compat, pow_lt; lra). lra.
Qed.
End Mesh.

(** The direct solver restricted to non-singular systems. *)
Definition guarded (n : nat) (solve : lg_solver) : lg_solver := fun K f =>
  if excluded_middle_informative (nonsingular n K) then solve K f else Err RuntimeError.
Lemma guarded_exact n sp : exact_direct n sp -> exact_solver n (guarded n (solve_direct_lagrange n sp)).
Proof.
  intros He K f u H. unfold guarded in H. destruct (excluded_middle_informative _) as [N|N]; [|discriminate].
  exists (sp K (append_zero n f) n).
  destruct (direct_spec n sp K f _ (max_abs_spec n _)) as [A B].
  assert (E : u = drop_last n (sp K (append_zero n f))).
  { unfold solve_direct_lagrange in H. repeat destruct (Rlt_dec _ _); try discriminate; injection H as <-; reflexivity. }
  rewrite E. apply direct_solves; assumption.
Qed.

Lemma direct_analysis n X Y els composite sp :
  mesh_on n X Y els -> els <> [] -> pos_moduli els -> (composite = false -> unit_moduli els) -> connected els -> all_used n els ->
  exact_direct n sp ->
  exists w, warping_analysis n (solve_direct_lagrange n sp) composite (section_totals els) (centroidal_of (section_totals els)) els = Ok w /\
    exists solve, analysed n X Y els solve composite w.
Proof.
  intros Hm Hn Hp Hmode Hc Hu He. set (t := section_totals els). set (c := centroidal_of t). set (cx := p_cx c). set (cy := p_cy c).
  set (wels := map (shift_el cx cy) els).
  pose proof (shift_mesh_on n X Y els cx cy Hm) as Hmw. fold wels in Hmw.
  assert (Hpw : pos_moduli wels).
  { intros el H. apply in_map_iff in H. destruct H as [e [<- Hel]]. apply (Hp e Hel). }
  assert (Hnw : wels <> []) by (unfold wels; destruct els; [contradiction|discriminate]).
  assert (Hcw : connected wels) by (apply shift_connected, Hc).
  assert (Huw : all_used n wels) by (apply shift_used, Hu).
  pose proof (torsion_nonsingular n _ _ wels Hmw Hnw Hpw Hcw Huw) as NS.
  assert (S : forall f, sumn n f = 0 -> exists u, solve_direct_lagrange n sp (fst (assemble_torsion n wels)) f = Ok u /\
     guarded n (solve_direct_lagrange n sp) (fst (assemble_torsion n wels)) f = Ok u).
  { intros f Hf. destruct (direct_balanced n _ _ wels Hmw Hnw Hpw Hcw Huw sp He f Hf) as [E _]. eexists. split; [exact E|].
    unfold guarded. destruct (excluded_middle_informative _); [exact E|contradiction]. }
  assert (F0 : sumn n (snd (assemble_torsion n wels)) = 0) by (apply (load_sum n _ _ wels Hmw)).
  assert (FS : forall nu, sumn n (fst (assemble_shear_load (p_ixx_c c) (p_iyy_c c) (p_ixy_c c) nu wels)) = 0 /\
     sumn n (snd (assemble_shear_load (p_ixx_c c) (p_iyy_c c) (p_ixy_c c) nu wels)) = 0).
  { intros nu. exact (shear_loads_sum n X Y els (p_ixx_c c) (p_iyy_c c) (p_ixy_c c) nu Hm Hn Hp). }
  assert (G : exists w, warping_analysis n (solve_direct_lagrange n sp) composite t c els = Ok w /\
    warping_analysis n (guarded n (solve_direct_lagrange n sp)) composite t c els = Ok w).
  { unfold warping_analysis. fold cx cy wels. destruct (assemble_torsion n wels) as [K f] eqn:EA. cbn [fst snd] in S, F0.
    destruct (S f F0) as (om & -> & ->). cbn [bind].
    match goal with |- context [assemble_shear_load ?a ?b ?d ?e ?g] => pose proof (FS e) as [S1 S2]; destruct (assemble_shear_load a b d e g) as [fp fh] end.
    cbn [fst snd] in S1, S2.
    destruct (S fp S1) as (ps & -> & ->). cbn [bind]. destruct (S fh S2) as (ph & -> & ->). cbn [bind].
    destruct (principal_coordinate _ _ _) as [a b]. destruct (shear_deformation _ _ _ _ _ _ _) as [[kx ky] kxy].
    eexists. split; reflexivity. }
  destruct G as (w & W1 & W2). exists w. split; [exact W1|].
  exists (guarded n (solve_direct_lagrange n sp)). unfold analysed.
  split; [exact Hm|]. split; [exact Hn|]. split; [exact Hp|]. split; [exact Hmode|]. split; [apply guarded_exact, He|exact W2].
Qed.
