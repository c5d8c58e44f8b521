(** Theorems about the linear solvers: C45. *)
From Coq Require Import Reals ZArith Arith List Lra Lia ClassicalEpsilon.
From Verif Require Import Base M_Fea M_Post M_Section S_Section S_Post S_Warp P_Totals P_Warp9 P_WarpEx M_Solver S_Solver P_Solver.
Import ListNotations.
Local Open Scope R_scope.

(** solve_direct_lagrange returns the first n entries exactly if not both tests fail, otherwise RuntimeError. *)
Theorem C45_direct_acceptance : forall n spsolve K f m,
  let u := spsolve K (fun i => if Nat.ltb i n then f i else 0) in is_max_abs n u m ->
  let bad := 1 / 10 ^ 7 * m < Rabs (u n) /\ 10 * / 2 ^ 52 < Rabs (u n) in
  (bad -> solve_direct_lagrange n spsolve K f = Err RuntimeError) /\
  (~ bad -> exists v, solve_direct_lagrange n spsolve K f = Ok v /\ forall i, (i < n)%nat -> v i = u i).
Proof.
  intros n sp K f m u Hm bad. destruct (direct_spec n sp K f m Hm) as [A B]. split; [exact A|].
  intros Hb. eexists. split; [exact (B Hb)|]. intros i Hi. unfold drop_last. destruct (Nat.ltb_spec i n); [reflexivity|lia].
Qed.

(** solve_cgs_lagrange raises if the iteration reports failure or the signed multiplier error exceeds the
    tolerance, and otherwise returns the first n entries. *)
Theorem C45_cgs_acceptance : forall n cgs tol K f m, 0 <= tol ->
  let r := cgs K (fun i => if Nat.ltb i n then f i else 0) tol in let u := fst r in is_max_abs n u m ->
  (snd r <> 0%Z \/ tol * m < u n -> solve_cgs_lagrange n cgs tol K f = Err RuntimeError) /\
  (snd r = 0%Z /\ u n <= tol * m -> exists v, solve_cgs_lagrange n cgs tol K f = Ok v /\ forall i, (i < n)%nat -> v i = u i).
Proof.
  intros n cgs tol K f m Ht r u Hm. destruct (cgs_spec n cgs tol K f m Ht Hm) as [A B]. split; [exact A|].
  intros [H1 H2]. eexists. split; [exact (B H1 H2)|]. intros i Hi. unfold drop_last. destruct (Nat.ltb_spec i n); [reflexivity|lia].
Qed.

(** solve_cgs without multiplier: the iteration's solution if it reports success, otherwise RuntimeError. *)
Theorem C45_cgs_plain : forall cgs tol K f,
  (snd (cgs K f tol) = 0%Z -> solve_cgs cgs tol K f = Ok (fst (cgs K f tol))) /\ (snd (cgs K f tol) <> 0%Z -> solve_cgs cgs tol K f = Err RuntimeError).
Proof. intros cgs tol K f. unfold solve_cgs. destruct (cgs K f tol) as [u info]. cbn [fst snd]. destruct (Z.eq_dec info 0); split; congruence. Qed.

(** The cgs test does not bound the size of the multiplier: it accepts solutions whose multiplier is negative and
    as large as the largest entry, which the direct test rejects. *)
Theorem C45_cgs_bound_refuted : forall tol, 0 <= tol < 1 -> exists n cgs K f u m,
  cgs K (append_zero n f) tol = (u, 0%Z) /\ is_max_abs n u m /\ tol * m < Rabs (u n) /\
  solve_direct_lagrange n (fun _ _ => u) K f = Err RuntimeError /\ exists v, solve_cgs_lagrange n cgs tol K f = Ok v.
Proof.
  intros tol Ht. set (u := fun i : nat => match i with O => 1 | _ => -1 end).
  assert (M : is_max_abs 1 u 1).
  { split; [|exists O; unfold u; rewrite Rabs_R1; auto]. intros i Hi.
    assert (i = O \/ i = S O) as [E | E] by lia; rewrite E; unfold u; [rewrite Rabs_R1|rewrite Rabs_left by lra]; lra. }
  exists 1%nat, (fun _ _ _ => (u, 0%Z)), (fun _ _ => 0), (fun _ => 0), u, 1. split; [reflexivity|]. split; [exact M|].
  assert (A : Rabs (u 1%nat) = 1) by (unfold u; rewrite Rabs_left by lra; lra).
  split; [rewrite A; lra|]. split.
  - apply (C45_direct_acceptance 1 (fun _ _ => u) (fun _ _ => 0) (fun _ => 0) 1 M). rewrite A. split; lra.
  - destruct (C45_cgs_acceptance 1 (fun _ _ _ => (u, 0%Z)) tol (fun _ _ => 0) (fun _ => 0) 1 (proj1 Ht) M) as [_ H].
    destruct H as (v & E & _); [split; [reflexivity|cbn [fst]; unfold u; lra]|]. exists v. exact E.
Qed.

(** On the matrix of a connected section an exact direct solver gives a multiplier equal to the sum of the load
    divided by EA: the test measures how far the load is from equilibrium, and an equilibrium load is accepted. *)
Theorem C45_multiplier : forall n X Y els spsolve f, mesh_on n X Y els -> els <> [] -> pos_moduli els -> connected els -> all_used n els ->
  exact_direct n spsolve ->
  let K := fst (assemble_torsion n els) in let u := spsolve K (append_zero n f) in
  u n * t_ea (section_totals els) = sumn n f /\
  (sumn n f = 0 -> u n = 0 /\ exists v, solve_direct_lagrange n spsolve K f = Ok v /\ solves n K f v 0).
Proof.
  intros n X Y els sp f Hm Hn Hp Hc Hu He K u. split; [exact (direct_multiplier n X Y els Hm Hn Hp Hc Hu sp He f)|].
  intros Hf. destruct (direct_balanced n X Y els Hm Hn Hp Hc Hu sp He f Hf) as [E Z]. split; [exact Z|].
  eexists. split; [exact E|]. pose proof (direct_solves n sp K f He (torsion_nonsingular n X Y els Hm Hn Hp Hc Hu)) as S.
  cbv zeta in S. unfold u in Z. fold K in Z. rewrite Z in S. exact S.
Qed.

(** Therefore the warping analysis with an exact direct solver completes on every connected section, and its
    results are those the other theorems speak about. *)
Theorem C45_direct_analysis : forall n X Y els composite spsolve,
  mesh_on n X Y els -> els <> [] -> pos_moduli els -> (composite = false -> unit_moduli els) -> connected els -> all_used n els ->
  exact_direct n spsolve ->
  exists w, warping_analysis n (solve_direct_lagrange n spsolve) composite (section_totals els) (centroidal_of (section_totals els)) els = Ok w /\
    exists solve, analysed n X Y els solve composite w.
Proof. exact direct_analysis. Qed.

(** ** Examples *)

(** An exact direct solver exists for every size. *)
Example ex_exact_direct : forall n, exists spsolve, exact_direct n spsolve.
Proof.
  intros n.
  assert (H : forall K b, exists u, nonsingular n K -> forall i, (i <= n)%nat -> mulv (S n) K u i = b i).
  { intros K b. destruct (excluded_middle_informative (nonsingular n K)) as [N|N]; [|exists b; contradiction].
    destruct (square_solvable (S n) K) with (f := b) as [u Hu].
    - intros u Hz j Hj. apply (N u); [|lia]. intros i Hi. apply (Hz i). lia.
    - exists u. intros _ i Hi. apply (Hu i). lia. }
  exists (fun K b => proj1_sig (constructive_indefinite_description _ (H K b))).
  intros K b N i Hi. destruct (constructive_indefinite_description _ (H K b)) as [u Hu]. cbn [proj1_sig]. apply Hu; assumption.
Qed.
Example ex_direct_mesh : mesh_on 6 xX xY [xe] /\ pos_moduli [xe] /\ connected [xe] /\ all_used 6 [xe].
Proof. split; [apply xmesh|]. split; [apply xpos|]. split; [apply xconn|apply xused]. Qed.
(** A vector with a small and one with a large multiplier. *)
Example ex_acceptance : let u := fun i : nat => match i with O => 3 | _ => / 10 ^ 20 end in
  is_max_abs 1 u 3 /\ ~ (1 / 10 ^ 7 * 3 < Rabs (u 1%nat) /\ 10 * / 2 ^ 52 < Rabs (u 1%nat)).
Proof.
  cbv zeta. assert (P : 0 < / 10 ^ 20) by (apply Rinv_0_lt_compat, pow_lt; lra).
  assert (Q : / 10 ^ 20 < 1 / 10 ^ 7 * 3).
  { apply Rmult_lt_reg_l with (10 ^ 20); [apply pow_lt; lra|]. rewrite Rinv_r by (apply pow_nonzero; lra). lra. }
  assert (T : 1 / 10 ^ 7 * 3 < 3) by lra.
  split; [split|].
  - intros i Hi. assert (i = O \/ i = S O) as [E | E] by lia; rewrite E, Rabs_pos_eq; lra.
  - exists O. rewrite Rabs_pos_eq by lra. auto.
  - rewrite Rabs_pos_eq by lra. lra.
Qed.

Print Assumptions C45_direct_acceptance.
Print Assumptions C45_cgs_acceptance.
Print Assumptions C45_cgs_bound_refuted.
Print Assumptions C45_multiplier.
Print Assumptions C45_direct_analysis.
Print Assumptions C45_cgs_plain.
