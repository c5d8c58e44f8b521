(** Theorems: which solutions of the linear systems the warping and the frame analysis accept: C45. *)
From Coquelicot Require Import Coquelicot.
From Coq Require Import String Reals ZArith List Bool Arith Lra Lia.
From Verif Require Import Base M_Fea M_Section M_Stress M_Init M_Bisect M_Plastic M_Solver M_Props M_State S_Integral S_Init S_Fem S_Section S_Post S_Warp S_Solver S_Plastic S_Shape S_State.
From Verif Require Import P_Yield P_Init P_Solver P_State P_State2 P_State3 P_State4 P_State5 T_Section T_Init T_Plastic T_Solver T_State.
From Verif Require Import M_Post.
Import ListNotations.
Local Open Scope R_scope.

(** The solution that the library returns for the system with matrix K and load (f, 0), of n nodes and one multiplier, is good enough: for "cgs" the
    iteration, asked for a relative tolerance of 1e-5, reports success and the multiplier is at most 1e-5 of the largest entry; for "direct" the multiplier
    is in size at most 1e-7 of the largest entry, or at most ten times the machine epsilon. *)
Definition good_solution (l : libs) (st : string) (n : nat) (K : nat -> nat -> R) (f : nat -> R) : Prop :=
  let load := fun i => if Nat.ltb i n then f i else 0 in
  exists u m, is_max_abs n u m /\
  (st = "cgs"%string /\ l_cgs l K load (1 / 10 ^ 5) = (u, 0%Z) /\ u n <= 1 / 10 ^ 5 * m \/
   st = "direct"%string /\ l_spsolve l K load = u /\ (Rabs (u n) <= 1 / 10 ^ 7 * m \/ Rabs (u n) <= 10 * / 2 ^ 52)).

Lemma solver_good l st n K f : st = "cgs"%string \/ st = "direct"%string ->
  (good_solution l st n K f /\ exists u, choose_solver l st n n K f = Ok u) \/ (~ good_solution l st n K f /\ choose_solver l st n n K f = Err RuntimeError).
Proof.
  intros [-> | ->]; unfold choose_solver; cbn [String.eqb Ascii.eqb Bool.eqb]; [rewrite Nat.eqb_refl|].
  - unfold cgs_tol. assert (T : 0 <= 1 / 10 ^ 5) by (apply Rlt_le, Rdiv_lt_0_compat; [lra|apply pow_lt; lra]). set (r := l_cgs l K (append_zero n f) (1 / 10 ^ 5)).
    pose proof (max_abs_spec n (fst r)) as M. destruct (cgs_spec n (l_cgs l) (1 / 10 ^ 5) K f _ T M) as [A B]. fold r in A, B.
    destruct (Z.eq_dec (snd r) 0) as [Z|Z]; [destruct (Rle_dec (fst r n) (1 / 10 ^ 5 * max_abs n (fst r))) as [L|L]|].
    + left. split; [|eexists; exact (B Z L)]. exists (fst r), (max_abs n (fst r)). split; [exact M|]. left. split; [reflexivity|]. split; [|exact L]. change (r = (fst r, 0%Z)). rewrite <- Z. apply surjective_pairing.
    + right. split; [|apply A; right; lra]. intros (u & m & Hm & [(_ & E & H)|(C & _)]); [|discriminate C]. change (r = (u, 0%Z)) in E. rewrite E in L. cbn [fst] in L. rewrite <- (max_abs_unique n u m Hm) in L. contradiction.
    + right. split; [|apply A; left; exact Z]. intros (u & m & Hm & [(_ & E & H)|(C & _)]); [|discriminate C]. change (r = (u, 0%Z)) in E. rewrite E in Z. apply Z. reflexivity.
  - set (u := l_spsolve l K (append_zero n f)). pose proof (max_abs_spec n u) as M. destruct (direct_spec n (l_spsolve l) K f _ M) as [A B]. fold u in A, B. cbv zeta in A, B.
    destruct (Rle_dec (Rabs (u n)) (1 / 10 ^ 7 * max_abs n u)) as [L|L]; [|destruct (Rle_dec (Rabs (u n)) (10 * / 2 ^ 52)) as [L'|L']].
    + left. split; [|eexists; apply B; intros [C _]; lra]. exists u, (max_abs n u). split; [exact M|]. right. split; [reflexivity|]. split; [reflexivity|left; exact L].
    + left. split; [|eexists; apply B; intros [_ C]; unfold float_eps in C; lra]. exists u, (max_abs n u). split; [exact M|]. right. split; [reflexivity|]. split; [reflexivity|right; exact L'].
    + right. split; [|apply A; split; unfold float_eps; lra]. intros (v & m & Hm & [(C & _)|(_ & E & H)]); [discriminate C|]. change (u = v) in E. subst v. rewrite <- (max_abs_unique n u m Hm) in L. destruct H; contradiction.
Qed.

(** After a geometric analysis the warping analysis succeeds exactly if the solutions for torsion and for both shear loads are good enough, otherwise it
    raises RuntimeError. Another solver type raises ValueError. *)
Theorem C45_warping_run : forall l query g s st h, built g s -> Forall (uses st) h -> In CGeometric h ->
  let w := run l query (mkWorld g s no_props) h in let n := length (s_nodes s) in let c := the_centroidal s in
  let els := map (shift_el (p_cx c) (p_cy c)) (s_tris s) in let nu := if is_composite (s_mats s) then nu_eff (the_totals s) else 0 in
  let K := fst (assemble_torsion n els) in let f_torsion := snd (assemble_torsion n els) in
  let loads := assemble_shear_load (p_ixx_c c) (p_iyy_c c) (p_ixy_c c) nu els in
  let good := good_solution l st n K f_torsion /\ good_solution l st n K (fst loads) /\ good_solution l st n K (snd loads) in
  (st = "cgs"%string \/ st = "direct"%string -> (good -> snd (step l query w (CWarping st)) = Ok VUnit) /\ (~ good -> snd (step l query w (CWarping st)) = Err RuntimeError)) /\
  (st <> "cgs"%string -> st <> "direct"%string -> snd (step l query w (CWarping st)) = Err ValueError).
Proof.
  intros l query g s st h Hb U Hg w n c els nu K f_torsion loads good. destruct (C39_after l query g s st h Hb U Hg) as [W _]. fold w in W. rewrite W. clear W.
  unfold the_warping, warping_analysis, the_solver. fold n c els nu. rewrite (surjective_pairing (assemble_torsion n els)). fold K f_torsion. fold loads. rewrite (surjective_pairing loads). split.
  - intros S. destruct (solver_good l st n K f_torsion S) as [[G1 [u1 ->]]|[G1 ->]]; [|split; [intros G; destruct (G1 (proj1 G))|reflexivity]]. cbn [bind].
    destruct (solver_good l st n K (fst loads) S) as [[G2 [u2 ->]]|[G2 ->]]; [|split; [intros (_ & G & _); destruct (G2 G)|reflexivity]]. cbn [bind].
    destruct (solver_good l st n K (snd loads) S) as [[G3 [u3 ->]]|[G3 ->]]; [|split; [intros (_ & _ & G); destruct (G3 G)|reflexivity]]. cbn [bind].
    split; [intros _|intros G; destruct G; split; [exact G1|split; [exact G2|exact G3]]].
    destruct (principal_coordinate _ _ _). destruct (shear_deformation _ _ _ _ _ _ _) as [[? ?] ?]. reflexivity.
  - intros N1 N2. unfold choose_solver. apply String.eqb_neq in N1, N2. rewrite N1, N2. reflexivity.
Qed.

(** The frame analysis, which solves for torsion only, in any history. *)
Theorem C45_frame_run : forall l query g s st h, built g s -> Forall (uses st) h ->
  let w := run l query (mkWorld g s no_props) h in let n := length (s_nodes s) in let c := the_centroidal s in
  let els := map (shift_el (p_cx c) (p_cy c)) (s_tris s) in
  let good := good_solution l st n (fst (assemble_torsion n els)) (snd (assemble_torsion n els)) in
  (st = "cgs"%string \/ st = "direct"%string -> (good -> is_ok (snd (step l query w (CFrame st)))) /\ (~ good -> snd (step l query w (CFrame st)) = Err RuntimeError)) /\
  (st <> "cgs"%string -> st <> "direct"%string -> snd (step l query w (CFrame st)) = Err ValueError).
Proof.
  intros l query g s st h Hb U w n c els good. pose proof (ok_run l query g s st Hb h _ U (ok_new l g s st)) as OK. fold w in OK.
  rewrite step_result. cbn [method]. rewrite map_result, (okw_sec _ _ _ _ _ OK), (okw_geom _ _ _ _ _ OK), (frame_eval l g s st Hb (built_no_mod _ _ _ (proj1 Hb))). cbv zeta.
  unfold the_torsion, the_solver. fold n c els. rewrite (surjective_pairing (assemble_torsion n els)). split.
  - intros S. destruct (solver_good l st n (fst (assemble_torsion n els)) (snd (assemble_torsion n els)) S) as [[G [u ->]]|[G ->]]; cbn [bind]; (split; [intros H|intros H]); try reflexivity; try exact I; contradiction.
  - intros N1 N2. unfold choose_solver. apply String.eqb_neq in N1, N2. rewrite N1, N2. reflexivity.
Qed.

(** Cases: the direct solver of the example section gives good solutions; an iteration that reports failure raises. *)
Example C45_run_met : exists l query s h, built ex_geometry s /\ Forall (uses "direct") h /\ In CGeometric h /\ snd (step l query (run l query (mkWorld ex_geometry s no_props) h) (CWarping "direct")) = Ok VUnit.
Proof.
  destruct ex_libs as (l & He & _). destruct ex_built as (s & Hb & Hcomp & Hl & Hn & Hc & Hu & Hp). exists l, (fun _ => []), s, [CGeometric].
  split; [exact Hb|]. split; [repeat constructor|]. split; [left; reflexivity|].
  apply (C39_direct l _ ex_geometry s ex_raw [CGeometric] (mkActions 0 0 0 0 0 0 0 0) eq_refl ex_raw_ok Hb Hn Hc Hu Hp); [rewrite Hl; exact He|repeat constructor|left; reflexivity].
Qed.
Example C45_run_fails : forall sp br, exists s h, built ex_geometry s /\ Forall (uses "cgs") h /\ In CGeometric h /\
  forall query extra, let l := mkLibs sp (fun _ _ _ => ((fun _ => 0), 1%Z)) br extra in snd (step l query (run l query (mkWorld ex_geometry s no_props) h) (CWarping "cgs")) = Err RuntimeError.
Proof.
  intros sp br. destruct ex_built as (s & Hb & _). exists s, [CGeometric]. split; [exact Hb|]. split; [repeat constructor|]. split; [left; reflexivity|]. intros query extra l.
  apply (C45_warping_run l query ex_geometry s "cgs" [CGeometric] Hb); [repeat constructor|left; reflexivity|left; reflexivity|].
  intros [(u & m & _ & [(_ & E & _)|(C & _)]) _]; [injection E; discriminate|discriminate C].
Qed.

Print Assumptions C45_warping_run.
Print Assumptions C45_frame_run.
