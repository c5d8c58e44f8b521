(** Theorems about histories of calls on a Section: no side effects of stress calls, guards, getters, modes, transformed
    properties, re-meshing. *)
From Coquelicot Require Import Coquelicot.
From Coq Require Import String Reals List Bool Arith Lra Lia.
From Verif Require Import Base M_Fea M_Section M_Stress M_Init M_Bisect M_Plastic M_Solver M_Props M_State S_Integral S_Init S_Fem S_Section S_Post S_Warp S_Solver S_Plastic S_Shape S_State.
From Verif Require Import P_Yield P_Init P_Solver P_State P_State2 P_State3 P_State4 P_State5 P_Plastic6 P_Plastic7 T_Fea T_Section T_Warp T_Init T_Plastic T_Solver.
From Verif Require Import M_Post.
Import ListNotations.
Local Open Scope R_scope.

Lemma init_nodes_in m mats s : section_init (Some m) mats = Ok s -> mesher_mesh m -> mesh_nodes_in (s_tris s) (s_nodes s).
Proof.
  intros H Hm el q Hel Hq. destruct (init_mesh_on m mats s H Hm el Hel) as (_ & _ & K & EX & EY).
  assert (N : forall k, In k (ids_list (el_ids el)) -> In (fst (nth k (s_nodes s) (0, 0)), snd (nth k (s_nodes s) (0, 0))) (s_nodes s)).
  { intros k Hk. rewrite <- surjective_pairing. apply nth_In, K, Hk. }
  unfold corner_a, corner_b, corner_c in Hq. rewrite EX, EY in Hq. unfold ids_list in N. cbn [In] in Hq, N.
  destruct Hq as [<-|[<-|[<-|[]]]]; cbn [gather v0 v1 v2]; apply N; tauto.
Qed.

Lemma divisors_nonzero g s m : g_mesh g = Some m -> mesher_mesh m -> built g s -> s_tris s <> [] -> is_composite (s_mats s) = false ->
  forall pr q, In q (sf_divisors (is_composite (s_mats s)) pr) -> exists v, geometric_value g s q = Some v /\ v <> 0.
Proof.
  intros Em Hm Hb Hn Hcomp pr q Hq. rewrite Hcomp in Hq.
  pose proof (proj1 Hb) as HI. rewrite Em in HI. pose proof (init_nodes_in _ _ _ HI Hm) as NI. pose proof (init_mesh_on _ _ _ HI Hm) as MO.
  assert (V : valid_mesh (s_tris s)) by (intros el Hel; apply (MO el Hel)).
  assert (P : pos_moduli (s_tris s)) by (intros el Hel; rewrite (built_no_mod _ _ _ (proj1 Hb) Hcomp el Hel); lra).
  destruct (geometric_eval g s Hb no_props) as (z & Ez & _).
  pose proof (fun k => moduli_pos (s_tris s) (s_nodes s) z k Hn V P NI Ez) as MP.
  pose proof (MP axis_x) as [X1 X2]. pose proof (MP axis_y) as [Y1 Y2]. pose proof (MP axis_11) as [A1 A2]. pose proof (MP axis_22) as [B1 B2].
  cbn [z_plus z_minus] in *.
  destruct pr; cbn [sf_divisors In] in Hq; repeat (destruct Hq as [<-|Hq]; [cbn [geometric_value]; unfold of_moduli; rewrite Ez; eexists; split; [reflexivity|lra]|]); destruct Hq.
Qed.

(** ** C36 *)

(** Stress analyses, stress queries and getters change nothing: neither the stored properties nor the mesh and groups of
    the section nor the geometry. *)
Theorem C36_no_effect : forall l query w c, reads c = true -> fst (step l query w c) = w.
Proof. exact reads_step. Qed.

(** So a history of calls leaves the same world as its analyses alone, and every later call returns the same. *)
Theorem C36_history : forall l query w h, run l query w h = run l query w (filter (fun c => negb (reads c)) h).
Proof. intros l query w h. apply run_filter. Qed.

(** The result of a stress call is a function of the section and the actions alone: whatever was called before, in
    whatever order, as long as the analyses it needs are there. *)
Theorem C36_stress_value : forall l query g s st h a, built g s -> Forall (uses st) h -> In CGeometric h ->
  let w0 := mkWorld g s no_props in
  (needs_warping a = true -> succeeded l query w0 h (CWarping st)) ->
  let w := match the_warping l s st with Ok v => Some v | Err _ => None end in
  snd (step l query (run l query w0 h) (CStress a)) =
  bind (calc_stress (is_composite (s_mats s)) (the_totals s) (the_centroidal s) w a (s_group_tris s)) (fun r => Ok (VStress r)) /\
  is_ok (calc_stress (is_composite (s_mats s)) (the_totals s) (the_centroidal s) w a (s_group_tris s)).
Proof.
  intros l query g s st h a Hb U Hg w0 Hs w.
  pose proof (ok_run l query g s st Hb h w0 U (ok_new l g s st)) as OK. pose proof (geo_run l query g s st Hb h w0 U (ok_new l g s st) Hg) as G.
  assert (HW : needs_warping a = true -> exists v, w = Some v /\ warped v (w_props (run l query w0 h))).
  { intros Hn. destruct (warped_run l query g s st Hb h U (Hs Hn)) as [v [E W]]. exists v. split; [unfold w; rewrite E; reflexivity|exact W]. }
  split.
  - rewrite step_result. cbn [method]. rewrite map_result, (okw_sec _ _ _ _ _ OK).
    rewrite (stress_eval query g s (w_props (run l query w0 h)) a w G HW). reflexivity.
  - unfold calc_stress, stress_parameters. destruct (needs_warping a); [|exact I]. destruct (HW eq_refl) as [v [-> _]]. exact I.
Qed.

(** ** C39 *)

(** Before any geometric or frame analysis, warping, plastic and stress requests raise RuntimeError and change nothing. *)
Theorem C39_before : forall l query g s h c,
  (forall d, In d h -> d <> CGeometric /\ forall st, d <> CFrame st) ->
  match c with CWarping _ | CPlastic | CStress _ | CPoints _ _ _ => True | _ => False end ->
  let w := run l query (mkWorld g s no_props) h in
  step l query w c = (w, Err RuntimeError).
Proof.
  intros l query g s h c Hh Hc w.
  assert (N : num (w_props w) M_Props.p_cx = None).
  { unfold w. apply absent. intros d Hd. destruct (Hh d Hd) as [H1 H2]. destruct d; try notin; [contradiction H1; reflexivity|destruct (H2 solver_type); reflexivity]. }
  rewrite (surjective_pairing (step l query w c)). f_equal.
  - destruct c; try (destruct Hc; fail); try (apply reads_step; reflexivity); rewrite step_state; destruct w as [g' s' p]; cbn [method w_geom w_sec w_props] in *; f_equal; rewrite map_state.
    + unfold calculate_warping. rewrite (bind_err _ _ p p RuntimeError (guard_none p N)). reflexivity.
    + unfold calculate_plastic, mbind, mget. rewrite N. reflexivity.
  - rewrite step_result. destruct w as [g' s' p]. cbn [w_geom w_sec w_props] in *. destruct c; try (destruct Hc; fail); cbn [method]; rewrite map_result.
    + unfold calculate_warping. rewrite (bind_err _ _ p p RuntimeError (guard_none p N)). reflexivity.
    + unfold calculate_plastic, mbind, mget. rewrite N. reflexivity.
    + unfold calculate_stress. rewrite (bind_err _ _ p p RuntimeError (guard_none p N)). reflexivity.
    + rewrite (ok_or_runtime (stress_points s' query agg a pts) p); [reflexivity|apply e_points|]. intros r. unfold stress_points, mbind.
      pose proof (writes_nothing (guard_warping a) p (writes_gwarp [] [] a)) as E. destruct (guard_warping a p) as [p' [[]|er]]; cbn [fst snd] in *; [|discriminate].
      subst p'. pose proof (read_none (is_composite (s_mats s')) a p N) as RN. destruct (read_parameters _ a p) as [p2 r2]. cbn [snd] in RN. subst r2. discriminate.
Qed.

(** Before any warping analysis, stress requests with shear or torsion raise RuntimeError and change nothing (also after a
    frame analysis, which only solves for torsion). *)
Theorem C39_shear_before : forall l query g s h c, (forall st, ~ In (CWarping st) h) ->
  match c with CStress a | CPoints a _ _ => needs_warping a = true | _ => False end ->
  let w := run l query (mkWorld g s no_props) h in
  step l query w c = (w, Err RuntimeError).
Proof.
  intros l query g s h c Hh Hc w.
  assert (N : num (w_props w) M_Props.p_delta_s = None).
  { unfold w. apply absent. intros d Hd. destruct d; try notin. destruct (Hh solver_type Hd). }
  assert (Er : reads c = true) by (destruct c; try (destruct Hc; fail); reflexivity).
  rewrite (surjective_pairing (step l query w c)). rewrite (reads_step l query w c Er). f_equal.
  destruct (snd (step l query w c)) as [v|e] eqn:E; [exfalso|rewrite (reads_err l query w c e Er E); reflexivity].
  rewrite step_result in E. destruct w as [g' s' p]. cbn [w_geom w_sec w_props] in *. destruct c; try (destruct Hc; fail); cbn [method] in E; rewrite map_result in E.
  - unfold calculate_stress, mbind in E. pose proof (writes_nothing guard_geometric p (writes_guard [] [])) as E1. destruct (guard_geometric p) as [p1 [[]|e1]]; cbn [fst] in E1; [subst p1|discriminate E].
    pose proof (writes_nothing (guard_warping a) p (writes_gwarp [] [] a)) as E2. destruct (guard_warping a p) as [p1 [[]|e1]]; cbn [fst] in E2; [subst p1|discriminate E].
    pose proof (shear_none (is_composite (s_mats s')) a p Hc N) as RN. destruct (read_parameters _ a p) as [p2 r2]. cbn [snd] in RN. subst r2. discriminate E.
  - unfold stress_points, mbind in E.
    pose proof (writes_nothing (guard_warping a) p (writes_gwarp [] [] a)) as E2. destruct (guard_warping a p) as [p1 [[]|e1]]; cbn [fst] in E2; [subst p1|discriminate E].
    pose proof (shear_none (is_composite (s_mats s')) a p Hc N) as RN. destruct (read_parameters _ a p) as [p2 r2]. cbn [snd] in RN. subst r2. discriminate E.
Qed.

(** After a geometric analysis anywhere in the history no request fails for want of an analysis: the warping analysis
    raises exactly if one of its linear systems fails, the plastic analysis exactly if the search for a plastic centroid
    fails, a stress request never (with shear or torsion: after a successful warping analysis). *)
Theorem C39_after : forall l query g s st h, built g s -> Forall (uses st) h -> In CGeometric h ->
  let w := run l query (mkWorld g s no_props) h in
  snd (step l query w (CWarping st)) = bind (the_warping l s st) (fun _ => Ok VUnit) /\
  snd (step l query w CPlastic) = bind (snd (the_plastic l g s)) (fun _ => Ok VUnit) /\
  (forall a, needs_warping a = false \/ succeeded l query (mkWorld g s no_props) h (CWarping st) ->
     is_ok (snd (step l query w (CStress a))) /\ forall pts agg, is_ok (snd (step l query w (CPoints a pts agg)))).
Proof.
  intros l query g s st h Hb U Hg w.
  pose proof (ok_run l query g s st Hb h _ U (ok_new l g s st)) as OK. pose proof (geo_run l query g s st Hb h _ U (ok_new l g s st) Hg) as G. fold w in OK, G.
  split; [|split].
  - rewrite step_result. cbn [method]. rewrite map_result, (okw_sec _ _ _ _ _ OK), (okw_geom _ _ _ _ _ OK).
    destruct (ev_warping l query g s st Hb (w_props w) G) as [_ ->]. unfold unit_of. destruct (the_warping l s st); reflexivity.
  - rewrite step_result. cbn [method]. rewrite map_result, (okw_sec _ _ _ _ _ OK), (okw_geom _ _ _ _ _ OK).
    rewrite (plastic_eval l query g s (w_props w) G). destruct (snd (the_plastic l g s)); reflexivity.
  - intros a Ha. set (wo := match the_warping l s st with Ok v => Some v | Err _ => None end).
    assert (HW : needs_warping a = true -> exists v, wo = Some v /\ warped v (w_props w)).
    { intros Hn. destruct Ha as [Ha|Ha]; [rewrite Ha in Hn; discriminate Hn|].
      destruct (warped_run l query g s st Hb h U Ha) as [v [E W]]. exists v. split; [unfold wo; rewrite E; reflexivity|exact W]. }
    assert (P : is_ok (stress_parameters (is_composite (s_mats s)) (the_totals s) (the_centroidal s) wo a)).
    { unfold stress_parameters. destruct (needs_warping a); [|exact I]. destruct (HW eq_refl) as [v [-> _]]. exact I. }
    split.
    + rewrite step_result. cbn [method]. rewrite map_result, (okw_sec _ _ _ _ _ OK), (stress_eval query g s (w_props w) a wo G HW).
      unfold calc_stress. cbn [snd]. destruct (stress_parameters _ _ _ _ _) as [[[[sp om] ps] ph]|]; [exact I|destruct P].
    + intros pts agg. rewrite step_result. cbn [method]. rewrite map_result, (okw_sec _ _ _ _ _ OK), (points_eval query g s (w_props w) a wo query agg pts G HW).
      cbn [snd]. destruct (stress_parameters _ _ _ _ _) as [[[[sp om] ps] ph]|]; [exact I|destruct P].
Qed.

(** For a mesh of the mesher with all nodes used, a connected section and positive moduli, and a direct solver that is
    exact, all of them succeed. *)
Theorem C39_direct : forall l query g s m h a, g_mesh g = Some m -> mesher_mesh m -> built g s ->
  s_tris s <> [] -> connected (s_tris s) -> all_used (length (s_nodes s)) (s_tris s) -> pos_moduli (s_tris s) ->
  exact_direct (length (s_nodes s)) (l_spsolve l) ->
  Forall (uses "direct") h -> In CGeometric h ->
  let w := run l query (mkWorld g s no_props) h in
  snd (step l query w (CWarping "direct")) = Ok VUnit /\
  is_ok (snd (step l query (fst (step l query w (CWarping "direct"))) (CStress a))).
Proof.
  intros l query g s m h a Em Hm Hb Hn Hc Hall Hp He U Hg w.
  assert (EW : exists v, the_warping l s "direct" = Ok v).
  { pose proof (init_mesh_on m (g_mats g) s) as IM. rewrite <- Em in IM. specialize (IM (proj1 Hb) Hm).
    destruct (C45_direct_analysis _ _ _ (s_tris s) (is_composite (s_mats s)) (l_spsolve l) IM Hn Hp) as [v [E _]]; try assumption.
    - intros Hcomp el Hel. exact (built_no_mod _ _ _ (proj1 Hb) Hcomp el Hel).
    - exists v. unfold the_warping, the_solver, the_centroidal, the_totals. exact E. }
  destruct EW as [v EW]. destruct (C39_after l query g s "direct" h Hb U Hg) as [A [_ _]]. fold w in A. rewrite EW in A. cbn [bind] in A. split; [exact A|].
  assert (U' : Forall (uses "direct") (h ++ [CWarping "direct"])) by (apply Forall_app; split; [exact U|repeat constructor]).
  destruct (C39_after l query g s "direct" (h ++ [CWarping "direct"]) Hb U' ltac:(apply in_or_app; left; exact Hg)) as [_ [_ B]].
  destruct (B a) as [B1 _].
  { right. exists w. split; [exists h, []; split; reflexivity|]. fold w in A. rewrite A. exact I. }
  rewrite run_app in B1. exact B1.
Qed.

(** ** C40 *)

(** A getter returns if its mode is that of the section and an analysis that provides it was performed, at any time
    in the history and whatever else was called. *)
Theorem C40_available : forall l query g s h a c x e, built g s ->
  In a (provided_by x) -> shape_factor_getter x = false -> is_analysis a c ->
  succeeded l query (mkWorld g s no_props) h c -> allowed (is_composite (s_mats s)) x ->
  exists v, returns l query (run l query (mkWorld g s no_props) h) x e v.
Proof.
  intros l query g s h a c x e Hb Ha Hs Hc S Hal.
  pose proof (provided_has l query g s h a c x (built_no_mod _ _ _ (proj1 Hb)) (proj2 Hb) Ha Hs Hc S) as H.
  apply fields_has in H. destruct H as [u Hu]. exists (finish x e u). apply returns_iff. rewrite run_sec. split; [exact Hal|exists u; split; [exact Hu|reflexivity]].
Qed.

(** If a getter returns, the mode is right and an analysis that provides it was called. *)
Theorem C40_only : forall l query g s h x e v,
  returns l query (run l query (mkWorld g s no_props) h) x e v ->
  allowed (is_composite (s_mats s)) x /\ exists a c, In a (provided_by x) /\ In c h /\ is_analysis a c.
Proof.
  intros l query g s h x e v H. split; [|exact (returns_called l query g s h x e v H)].
  apply returns_iff in H. rewrite run_sec in H. apply H.
Qed.

(** Otherwise it raises RuntimeError. *)
Theorem C40_raises : forall l query w x e, (exists v, returns l query w x e v) \/ snd (step l query w (CGet x e)) = Err RuntimeError.
Proof.
  intros l query w x e. destruct (snd (step l query w (CGet x e))) as [v|er] eqn:E; [left|right; rewrite (reads_err l query w (CGet x e) er eq_refl E); reflexivity].
  unfold returns. rewrite E. rewrite step_result in E. cbn [method] in E. rewrite map_result in E. destruct (snd (run_getter _ _ _ _)) as [r|]; [|discriminate E].
  injection E as <-. exists r. reflexivity.
Qed.

(** What a getter returns is the value of the property, a function of the section alone: it does not depend on the
    history. The exception is the torsion constant when its linear system cannot be solved: it may be 0. *)
Theorem C40_value : forall l query g s st h x e v, built g s -> Forall (uses st) h ->
  returns l query (run l query (mkWorld g s no_props) h) x e v ->
  getter_value l g s st x e = Some v \/
  ((x = get_j \/ x = get_ej) /\ (exists er, the_torsion l s st = Err er) /\ v = finish x e [0]).
Proof. intros l query g s st h x e v Hb. apply (returns_value l query g s st Hb). Qed.

(** The values returned are the documented ones. *)
Theorem C40_documented : forall l query w x e v, returns l query w x e v -> documented (num (w_props w)) x (e_value e) v.
Proof.
  intros l query w x e v H. apply returns_iff in H. destruct H as [_ [u [Hu ->]]].
  destruct x; cbn [fields all_values] in Hu;
    repeat match type of Hu with match ?o with _ => _ end = _ => let E := fresh "E" in destruct o eqn:E; [|discriminate Hu] end;
    repeat match goal with E : match ?o with _ => _ end = Some _ |- _ => let F := fresh "F" in destruct o eqn:F; [|discriminate E] end;
    repeat match goal with E : Some _ = Some _ |- _ => injection E as E end; subst;
    cbn [documented finish has_e_ref map]; unfold plain, over, moved;
    try (repeat constructor; assumption);
    try (eexists; split; [repeat constructor; eassumption|repeat constructor]; fail);
    try (do 4 eexists; repeat (split; [eassumption|]); reflexivity).
  do 5 eexists; repeat (split; [eassumption|]). reflexivity.
Qed.

(** So two histories give the same. *)
Corollary C40_history_independent : forall l query g s st h h' x e v v', built g s -> Forall (uses st) h -> Forall (uses st) h' ->
  returns l query (run l query (mkWorld g s no_props) h) x e v ->
  returns l query (run l query (mkWorld g s no_props) h') x e v' -> v = v'.
Proof.
  intros l query g s st h h' x e v v' Hb U U' H H'.
  destruct (C40_value l query g s st h x e v Hb U H) as [E|[X [[er T] ->]]]; destruct (C40_value l query g s st h' x e v' Hb U' H') as [E'|[X' [[er' T'] ->]]].
  - rewrite E in E'. injection E' as <-. reflexivity.
  - exfalso. unfold getter_value in E. destruct X' as [-> | ->]; cbn [fields all_values property_value] in E; rewrite T' in E; discriminate E.
  - exfalso. unfold getter_value in E'. destruct X as [-> | ->]; cbn [fields all_values property_value] in E'; rewrite T in E'; discriminate E'.
  - reflexivity.
Qed.

(** Shape factors: available if a successful plastic analysis follows a geometric one and the moduli (yield moments for
    composite sections) are not zero; *)
Theorem C40_shape_factors : forall l query g s st h1 h2 (principal : bool) e, built g s -> Forall (uses st) (h1 ++ CPlastic :: h2) ->
  In CGeometric h1 -> is_ok (snd (the_plastic l g s)) ->
  (forall q, In q (sf_divisors (is_composite (s_mats s)) principal) -> exists v, geometric_value g s q = Some v /\ v <> 0) ->
  exists v, returns l query (run l query (mkWorld g s no_props) (h1 ++ CPlastic :: h2)) (if principal then get_sf_p else get_sf) e v.
Proof.
  intros l query g s st h1 h2 pr e Hb U Hg Hok Hd. pose proof (sf_after l query g s st h1 h2 pr Hb U Hg Hok Hd) as H. cbv zeta in H.
  apply fields_has in H. destruct H as [u Hu]. exists (finish (if pr then get_sf_p else get_sf) e u). apply returns_iff. split; [destruct pr; exact I|exists u; split; [exact Hu|reflexivity]].
Qed.
(** for sections of the default material the moduli are never zero; *)
Corollary C40_shape_factors_default : forall l query g s m st h1 h2 (principal : bool) e, g_mesh g = Some m -> mesher_mesh m -> built g s ->
  s_tris s <> [] -> is_composite (s_mats s) = false -> Forall (uses st) (h1 ++ CPlastic :: h2) ->
  In CGeometric h1 -> is_ok (snd (the_plastic l g s)) ->
  exists v, returns l query (run l query (mkWorld g s no_props) (h1 ++ CPlastic :: h2)) (if principal then get_sf_p else get_sf) e v.
Proof.
  intros l query g s m st h1 h2 pr e Em Hm Hb Hn Hcomp U Hg Hok. apply (C40_shape_factors l query g s st h1 h2 pr e Hb U Hg Hok).
  apply (divisors_nonzero g s m Em Hm Hb Hn Hcomp).
Qed.
(** and not available as long as no plastic analysis follows a geometric one, even if both were performed (a plastic
    analysis is accepted after a frame analysis). *)
Theorem C40_shape_factors_order : forall l query g s h1 h2 x e, shape_factor_getter x = true -> ~ In CGeometric h1 -> ~ In CPlastic h2 ->
  snd (step l query (run l query (mkWorld g s no_props) (h1 ++ h2)) (CGet x e)) = Err RuntimeError.
Proof.
  intros l query g s h1 h2 x e Hx H1 H2. destruct (C40_raises l query (run l query (mkWorld g s no_props) (h1 ++ h2)) x e) as [[v H]|H]; [exfalso|exact H].
  apply returns_iff in H. destruct H as [_ [u [Hu _]]].
  assert (F : forall f, In f (fields x) -> has (w_props (run l query (mkWorld g s no_props) (h1 ++ h2))) f) by (apply fields_has; exists u; exact Hu).
  destruct x; try discriminate Hx; [specialize (F p_sf_xx_plus)|specialize (F p_sf_11_plus)]; (apply F; [cbn [fields In]; tauto|]); apply sf_before; try assumption; unfold sf_props; cbn [In]; tauto.
Qed.

(** ** C41 *)

(** The mode: non-composite iff there are materials and all are equal, field by field, to the default material. *)
Theorem C41_mode : forall mats, is_composite mats = false <-> mats <> [] /\ forall m, In m mats -> same_fields m default_material.
Proof. exact not_composite. Qed.

(** Of each pair, exactly the one of the section's mode can return; the other raises RuntimeError in every state. Both
    read the same stored values, so that one returns once they are there. *)
Theorem C41_exactly_one : forall l query w x y, In (x, y) getter_pairs ->
  let comp := is_composite (s_mats (w_sec w)) in
  (comp = false -> (forall e, snd (step l query w (CGet y e)) = Err RuntimeError) /\
     ((forall q, In q (fields x) -> num (w_props w) q <> None) -> forall e, exists v, returns l query w x e v)) /\
  (comp = true -> (forall e, snd (step l query w (CGet x e)) = Err RuntimeError) /\
     ((forall q, In q (fields y) -> num (w_props w) q <> None) -> forall e, exists v, returns l query w y e v)).
Proof.
  intros l query w x y Hp comp.
  assert (A : (allowed false x /\ ~ allowed false y) /\ (allowed true y /\ ~ allowed true x)).
  { unfold getter_pairs in Hp. cbn [In] in Hp. repeat (destruct Hp as [Hp|Hp]; [injection Hp as <- <-; cbn [allowed]; repeat split; discriminate|]). destruct Hp. }
  destruct A as [[A1 A2] [A3 A4]].
  assert (N : forall z, ~ allowed comp z -> forall e, snd (step l query w (CGet z e)) = Err RuntimeError).
  { intros z Hz e. destruct (C40_raises l query w z e) as [[v H]|H]; [|exact H]. apply returns_iff in H. destruct Hz. apply H. }
  assert (Y : forall z, allowed comp z -> (forall q, In q (fields z) -> num (w_props w) q <> None) -> forall e, exists v, returns l query w z e v).
  { intros z Hz Hq e. apply fields_has in Hq. destruct Hq as [u Hu]. exists (finish z e u). apply returns_iff. split; [exact Hz|exists u; split; [exact Hu|reflexivity]]. }
  split; intros E; rewrite E in N, Y; (split; [apply N|apply Y]; assumption).
Qed.

(** ** C42 *)
Theorem C42_transformed : forall l query w x v, has_e_ref x = true -> returns l query w x (ENum 1) v ->
  (forall e, returns l query w x e (map (fun a => a / e_value e) v)) /\
  (forall m, snd (step l query w (CGet x (EMat m))) = snd (step l query w (CGet x (ENum (m_E m))))) /\
  exists u, all_values (num (w_props w)) (fields x) = Some u /\ v = u.
Proof.
  intros l query w x v Hx H. apply returns_iff in H. destruct H as [Ha [u [Hu Hv]]].
  assert (F : forall e, finish x e u = map (fun a => a / e_value e) u) by (intros e; destruct x; try discriminate Hx; reflexivity).
  assert (V : v = u) by (rewrite Hv, F; cbn [e_value]; rewrite (map_ext _ (fun a => a) Rdiv_one); apply map_id).
  split; [|split; [|exists u; split; assumption]].
  - intros e. rewrite V. apply returns_iff. split; [exact Ha|]. exists u. split; [exact Hu|symmetry; apply F].
  - intros m. assert (E : forall e, snd (step l query w (CGet x e)) = Ok (VNums (finish x e u))) by (intros e; change (returns l query w x e (finish x e u)); apply returns_iff; split; [exact Ha|exists u; split; [exact Hu|reflexivity]]).
    rewrite !E, !F. reflexivity.
Qed.

(** ** C71 *)

(** As long as the geometry object is not changed, every getter describes the mesh the section was created with. *)
Theorem C71_unchanged_geometry : forall l query g s st h x e v, built g s -> Forall (uses st) h -> is_ok (the_torsion l s st) ->
  returns l query (run l query (mkWorld g s no_props) h) x e v -> getter_value l g s st x e = Some v.
Proof.
  intros l query g s st h x e v Hb U Ht H. destruct (C40_value l query g s st h x e v Hb U H) as [E|[_ [[er T] _]]]; [exact E|].
  rewrite T in Ht. destruct Ht.
Qed.

(** If the geometry is meshed again with another number of nodes, the warping analysis of the section raises, whatever the
    solver, although it would have succeeded before; *)
Theorem C71_remesh_warping : forall l query g s st h g2 s2, built g s -> Forall (uses st) h -> In CGeometric h ->
  section_init (g_mesh g2) (g_mats g2) = Ok s2 -> length (s_nodes s2) <> length (s_nodes s) ->
  exists e, snd (step l query (run l query (mkWorld g s no_props) (h ++ [CGeometry g2])) (CWarping st)) = Err e.
Proof.
  intros l query g s st h g2 s2 Hb U Hg H2 Hn.
  pose proof (ok_run l query g s st Hb h _ U (ok_new l g s st)) as OK. pose proof (geo_run l query g s st Hb h _ U (ok_new l g s st) Hg) as G.
  rewrite run_app. set (w := run l query (mkWorld g s no_props) h) in *. cbn [run fold_left]. rewrite step_result, step_state. cbn [w_geom w_sec w_props method].
  rewrite map_result, (okw_sec _ _ _ _ _ OK). destruct (remesh_warping l g s st g2 s2 (w_props w) Hb H2 Hn G) as [e E]. cbn [mret fst]. rewrite E. exists e. reflexivity.
Qed.
(** and the frame analysis returns the torsion constant of the new mesh, computed about the centroid of the old. *)
Theorem C71_remesh_frame : forall l query g s st h g2 s2, built g s ->
  section_init (g_mesh g2) (g_mats g2) = Ok s2 ->
  let c := the_centroidal s in
  snd (step l query (run l query (mkWorld g s no_props) (h ++ [CGeometry g2])) (CFrame st)) =
  bind (torsion_on l s s2 st) (fun r => Ok (VFrame (mkFrame (t_area (the_totals s)) (p_ixx_c c) (p_iyy_c c) (p_ixy_c c) (snd r) (p_phi c)))).
Proof.
  intros l query g s st h g2 s2 Hb H2 c. rewrite run_app. pose proof (run_sec l query h (mkWorld g s no_props)) as Es. set (w := run l query (mkWorld g s no_props) h) in *.
  cbn [run fold_left]. rewrite step_result, step_state. cbn [w_geom w_sec w_props method]. rewrite map_result, Es. cbn [w_sec mret fst].
  rewrite (remesh_frame l s st g2 s2 _ (built_no_mod _ _ _ (proj1 Hb)) H2). destruct (torsion_on l s s2 st) as [[om j]|e]; reflexivity.
Qed.

(** ** A concrete section: the rectangle of T_Init.v in two regions of the default material, 9 nodes, 2 elements *)
Definition ex_geometry : geometry :=
  mkGeometry (Some ex_raw) [default_material; default_material] 12 (mesh_geom (-2) (-1) ex_plain).
Lemma ex_built : exists s, built ex_geometry s /\ is_composite (s_mats s) = false /\ length (s_nodes s) = 9%nat /\
  s_tris s <> [] /\ connected (s_tris s) /\ all_used (length (s_nodes s)) (s_tris s) /\ pos_moduli (s_tris s).
Proof.
  destruct (section_init (Some ex_raw) [default_material; default_material]) as [s|] eqn:E; [|discriminate E].
  exists s. unfold built. cbn [ex_geometry g_mesh g_mats]. rewrite E.
  unfold section_init in E. cbn [rm_attributes ex_raw] in E. change (Nat.eqb _ _) with true in E. cbv iota in E.
  apply (f_equal (fun r => match r with Ok x => x | Err _ => s end)) in E. cbn [rm_vertices rm_triangles ex_raw] in E. subst s. unfold s_tris. cbn [s_mats s_nodes s_els].
  split; [split; [reflexivity|discriminate]|]. split; [apply not_composite; split; [discriminate|intros m [<-|[<-|[]]]; repeat split]|]. split; [reflexivity|].
  cbn [build_from map build_element e_tri]. split; [discriminate|].
  assert (Z : forall e, In e (map e_tri (build_from (rm_vertices ex_raw) [default_material; default_material] [0; 1]%nat 0 (rm_triangles ex_raw))) -> In 0%nat (ids_list (el_ids e))) by (intros e [<-|[<-|[]]]; left; reflexivity).
  split; [|split].
  - intros a b Ha Hb. exists []. split; [intros e []|]. exists 0%nat. split; apply Z; assumption.
  - intros i Hi. change (i < 9)%nat in Hi. assert (C : In i [0;1;2;4;5;6]%nat \/ In i [0;2;3;6;7;8]%nat) by (cbn [In]; lia).
    destruct C as [C|C]; eexists; [split; [left; reflexivity|exact C]|split; [right; left; reflexivity|exact C]].
  - intros el [<-|[<-|[]]]; cbn; lra.
Qed.

(** Libraries with an exact direct solver and an exact root finder. *)
Lemma ex_libs : exists l, exact_direct 9 (l_spsolve l) /\ l_brentq l = exact_brentq.
Proof. destruct (ex_exact_direct 9) as [sp H]. exists (mkLibs sp (fun _ _ _ => (fun _ => 0, 1%Z)) exact_brentq (fun _ _ => [])). split; [exact H|reflexivity]. Qed.

(** A history that meets the hypotheses of C36, C39, C40 and C71: repeated and interleaved calls, all of which succeed. *)
Example ex_history : exists l query s h, built ex_geometry s /\ Forall (uses "direct") h /\ In CGeometric h /\
  succeeded l query (mkWorld ex_geometry s no_props) h (CWarping "direct") /\ is_ok (the_torsion l s "direct") /\
  (exists v, returns l query (run l query (mkWorld ex_geometry s no_props) h) get_j (ENum 1) v) /\
  (forall a, is_ok (snd (step l query (run l query (mkWorld ex_geometry s no_props) h) (CStress a)))).
Proof.
  destruct ex_built as (s & Hb & Hcomp & Hl & Hn & Hc & Hu & Hp). destruct ex_libs as (l & He & _).
  set (a0 := mkActions 1 0 0 0 0 0 0 0). set (q := fun _ : R * R => @nil nat).
  exists l, q, s, [CFrame "direct"; CGeometric; CStress a0; CGeometric; CWarping "direct"; CPlastic; CStress a0].
  set (h := [CFrame "direct"; CGeometric; CStress a0; CGeometric; CWarping "direct"; CPlastic; CStress a0]).
  assert (U : Forall (uses "direct") h) by (repeat constructor).
  assert (He' : exact_direct (length (s_nodes s)) (l_spsolve l)) by (rewrite Hl; exact He).
  destruct (C39_direct l q ex_geometry s ex_raw [CFrame "direct"; CGeometric; CStress a0; CGeometric] a0 eq_refl ex_raw_ok Hb Hn Hc Hu Hp He') as [W _]; [repeat constructor|right; left; reflexivity|].
  assert (S : succeeded l q (mkWorld ex_geometry s no_props) h (CWarping "direct")).
  { eexists. split; [exists [CFrame "direct"; CGeometric; CStress a0; CGeometric], [CPlastic; CStress a0]; split; reflexivity|]. rewrite W. exact I. }
  split; [exact Hb|]. split; [exact U|]. split; [right; left; reflexivity|]. split; [exact S|]. split; [|split].
  - destruct (warped_run l q ex_geometry s "direct" Hb h U S) as (v & E & _). rewrite (warping_torsion l s "direct" v E). exact I.
  - apply (C40_available l q ex_geometry s h Warping (CWarping "direct")); try assumption; [left; reflexivity|reflexivity|exact I].
  - intros a. destruct (C39_after l q ex_geometry s "direct" h Hb U) as [_ [_ B]]; [right; left; reflexivity|]. apply B. right. exact S.
Qed.

(** ** C40 is not true as stated: a getter may return a value no analysis computed. After a warping analysis get_j returns
    the torsion constant, which is positive; a frame analysis with a misspelt solver type raises ValueError and from then on
    get_j returns the placeholder 0. *)
Theorem C40_refuted : exists l query s h j, built ex_geometry s /\
  returns l query (run l query (mkWorld ex_geometry s no_props) h) get_j (ENum 1) [j] /\ 0 < j /\
  snd (step l query (run l query (mkWorld ex_geometry s no_props) h) (CFrame "sparse")) = Err ValueError /\
  returns l query (run l query (mkWorld ex_geometry s no_props) (h ++ [CFrame "sparse"])) get_j (ENum 1) [0].
Proof.
  destruct ex_built as (s & Hb & Hcomp & Hl & Hn & Hc & Hu & Hp). destruct ex_libs as (l & He & _). set (q := fun _ : R * R => @nil nat).
  set (h := [CGeometric; CWarping "direct"]). assert (U : Forall (uses "direct") h) by (repeat constructor).
  assert (He' : exact_direct (length (s_nodes s)) (l_spsolve l)) by (rewrite Hl; exact He).
  destruct (C39_direct l q ex_geometry s ex_raw [CGeometric] (mkActions 1 0 0 0 0 0 0 0) eq_refl ex_raw_ok Hb Hn Hc Hu Hp He') as [W _]; [repeat constructor|left; reflexivity|].
  assert (S : succeeded l q (mkWorld ex_geometry s no_props) h (CWarping "direct")).
  { eexists. split; [exists [CGeometric], []; split; reflexivity|]. rewrite W. exact I. }
  destruct (warped_run l q ex_geometry s "direct" Hb h U S) as (v & EW & J & _).
  assert (Jp : 0 < w_j v).
  { pose proof (init_mesh_on ex_raw (g_mats ex_geometry) s (proj1 Hb) ex_raw_ok) as IM.
    destruct (C45_direct_analysis _ _ _ (s_tris s) (is_composite (s_mats s)) (l_spsolve l) IM Hn Hp) as (v' & E & solve & A); try assumption.
    - intros Hcp el Hel. exact (built_no_mod _ _ _ (proj1 Hb) Hcp el Hel).
    - unfold the_warping, the_solver, the_centroidal, the_totals in EW. change (choose_solver l "direct" (length (s_nodes s)) (length (s_nodes s))) with (solve_direct_lagrange (length (s_nodes s)) (l_spsolve l)) in EW.
      rewrite E in EW. injection EW as ->. apply (C22_torsion_constant _ _ _ _ _ _ _ A). }
  exists l, q, s, h, (w_j v). split; [exact Hb|]. split; [|split; [exact Jp|]].
  - apply returns_iff. rewrite run_sec. cbn [w_sec]. rewrite Hcomp. split; [reflexivity|]. exists [w_j v]. cbn [fields all_values]. rewrite J. split; reflexivity.
  - set (w := run l q (mkWorld ex_geometry s no_props) h) in *. assert (OK : ok_world l ex_geometry s "direct" w) by (apply ok_run; [exact Hb|exact U|apply ok_new]).
    assert (F : calculate_frame l ex_geometry s "sparse" (w_props w) = (apply_writes (w_props w) (frame_head s), Err ValueError)).
    { rewrite (frame_eval l ex_geometry s "sparse" Hb (built_no_mod _ _ _ (proj1 Hb))). cbv zeta. unfold the_torsion, the_solver. destruct (assemble_torsion _ _) as [K f]. reflexivity. }
    split.
    + rewrite step_result. cbn [method]. rewrite map_result, (okw_sec _ _ _ _ _ OK), (okw_geom _ _ _ _ _ OK), F. reflexivity.
    + rewrite run_app. fold w. cbn [run fold_left]. apply returns_iff. rewrite step_state. cbn [w_sec w_props method]. rewrite map_state, (okw_sec _ _ _ _ _ OK), (okw_geom _ _ _ _ _ OK), F. cbn [fst].
      rewrite Hcomp. split; [reflexivity|]. exists [0]. cbn [fields all_values]. unfold frame_head. lookup. split; reflexivity.
Qed.

(** The hypotheses of C40_shape_factors. *)
Example ex_shape_factors : exists l s, built ex_geometry s /\ is_ok (snd (the_plastic l ex_geometry s)) /\
  (forall pr q, In q (sf_divisors (is_composite (s_mats s)) pr) -> exists v, geometric_value ex_geometry s q = Some v /\ v <> 0).
Proof.
  destruct ex_built as (s & Hb & Hcomp & Hl & Hn & Hc & Hu & Hp). destruct ex_libs as (l & _ & Eb).
  exists l, s. split; [exact Hb|]. split.
  - unfold the_plastic. rewrite Eb. cbn [ex_geometry g_plastic].
    assert (Hv : valid_mesh ex_plain) by (intros el [<-|[<-|[]]]; apply mk_el_valid; unfold orient; cbn [fst snd]; lra).
    destruct (mesh_geom_ok (-2) (-1) ex_plain ltac:(discriminate) Hv ltac:(intros el [<-|[<-|[]]]; cbn; lra)) as (A & B & _).
    destruct (exact_brentq_runs (mesh_geom (-2) (-1) ex_plain) (geometric_value ex_geometry s) (negb (is_composite (s_mats s))) (mesh_shapes (-2) (-1) ex_plain) (p_phi (the_centroidal s)) eq_refl A B) as (ws & H).
    rewrite H. exact I.
  - intros pr q. apply (divisors_nonzero ex_geometry s ex_raw eq_refl ex_raw_ok Hb Hn Hcomp).
Qed.

Print Assumptions C36_no_effect.
Print Assumptions C36_history.
Print Assumptions C36_stress_value.
Print Assumptions C39_before.
Print Assumptions C39_shear_before.
Print Assumptions C39_after.
Print Assumptions C39_direct.
Print Assumptions C40_available.
Print Assumptions C40_only.
Print Assumptions C40_raises.
Print Assumptions C40_value.
Print Assumptions C40_history_independent.
Print Assumptions C40_shape_factors.
Print Assumptions C40_shape_factors_default.
Print Assumptions C40_shape_factors_order.
Print Assumptions C41_mode.
Print Assumptions C41_exactly_one.
Print Assumptions C42_transformed.
Print Assumptions C71_unchanged_geometry.
Print Assumptions C71_remesh_warping.
Print Assumptions C71_remesh_frame.
Print Assumptions C40_refuted.
Print Assumptions C40_documented.
