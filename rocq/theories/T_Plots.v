(** The plots of stresses (C85). *)
From Coq Require Import String Reals List Bool Arith Sorted Permutation Lra Lia.
From Verif Require Import Base M_Fea S_Fem M_Init S_Init P_Init T_Init M_Post M_Section M_Stress S_Integral S_Stress P_Stress T_Stress M_StressPost S_StressPost P_StressPost T_StressPost M_Plots S_Plots P_Plots P_Plots2.
Import ListNotations.
Local Open Scope string_scope.
Local Open Scope R_scope.

(** ** C85: plot_stress *)

(** One set of contours for each material group that is plotted, on the triangles of the group, with the array that get_stress returns for this stress and
    group; the same levels for all groups: 15 from the least to the greatest value, or between the limits given. *)
Theorem C85_contours : forall mesh mats s composite t c w a res q titled limits ml,
  section_init mesh mats = Ok s -> calc_stress composite t c w a (s_group_tris s) = Ok res -> In q documented -> s_nodes s <> [] ->
  (limits = None -> exists k m els, nth_error (s_groups s) k = Some (m, els) /\ wanted ml m) ->
  exists draws ks, plot_stress s res (plot_name q) titled limits ml = Ok draws /\ plotted_groups s ml ks /\
    Forall2 (fun k d => exists m els dict, nth_error (s_groups s) k = Some (m, els) /\ nth_error (get_stress (length (s_nodes s)) (s_groups s) res) k = Some (mo_name m, dict) /\
        entry (stress_key q) dict = Some (ct_values d) /\ NoDup (ct_triangles d) /\ (forall i, In i (ct_triangles d) <-> exists e, In e els /\ e_id e = i)) ks draws /\
    exists lo hi, (forall d, In d draws -> levels_for lo hi (ct_levels d)) /\
      match limits with
      | Some l => l = (lo, hi)
      | None => least (map ct_values draws) (lo + / 10 ^ 12) /\ greatest (map ct_values draws) (hi - / 10 ^ 12)
      end.
Proof.
  intros mesh mats s composite t c w a res q titled limits ml HS HC I HN HL. pose proof (calc_length _ _ _ _ _ _ _ HC) as L.
  destruct (documented_key q I) as [_ Kq]. rewrite (plot_unfold s res q titled limits ml I L). cbv zeta. set (n := length (s_nodes s)) in *.
  set (sig := fun gr : item => match entry (stress_key q) (stress_dict n (snd gr)) with Some l => l | None => [] end).
  destruct (plotted_numbers s res ml L) as (ks & P & F).
  assert (V : forall lv, Forall2 (fun k d => exists m els dict, nth_error (s_groups s) k = Some (m, els) /\ nth_error (get_stress n (s_groups s) res) k = Some (mo_name m, dict) /\
        entry (stress_key q) dict = Some (ct_values d) /\ NoDup (ct_triangles d) /\ (forall i, In i (ct_triangles d) <-> exists e, In e els /\ e_id e = i)) ks
      (map (fun gr : item => mkContour (filter (fun i => existsb (Nat.eqb i) (map e_id (snd (fst gr)))) (seq 0 (length (s_els s)))) (sig gr) lv) (plotted_of s res ml))).
  { intros lv. apply (Forall2_and_map _ _ _ _ _ F). intros k [[m els] r] _ (G & Rk & _). cbn [fst snd] in *. exists m, els, (stress_dict n r). split; [exact G|]. split; [apply (get_stress_at _ _ _ _ _ els); assumption|].
    cbn [ct_values ct_triangles]. split; [unfold sig; cbn [snd]; destruct (entry_length n r _ Kq) as (l & -> & _); reflexivity|]. apply (shown_triangles mesh mats s m els HS). apply nth_error_In in G. exact G. }
  destruct limits as [[lo hi]|].
  - cbn [bind fst snd]. eexists. exists ks. split; [reflexivity|]. split; [exact P|]. split; [apply V|]. exists lo, hi. split; [|reflexivity].
    intros d Hd. apply in_map_iff in Hd. destruct Hd as (gr & <- & _). cbn [ct_levels]. apply levels_ok.
  - assert (Nn : map sig (plotted_of s res ml) <> []).
    { destruct (HL eq_refl) as (k & m & els & G & W). destruct P as [_ P]. destruct ks as [|k0 ks]; [exfalso; destruct (proj2 (P k) (ex_intro _ m (ex_intro _ els (conj G W))))|]. inversion F as [|x y ? ? _ _ E1 E2]. rewrite <- E2 in *. discriminate. }
    assert (Ne : forall l, In l (map sig (plotted_of s res ml)) -> l <> []).
    { intros l Hl. apply in_map_iff in Hl. destruct Hl as (gr & <- & _). unfold sig. destruct (entry_length n (snd gr) _ Kq) as (l & -> & El). intros ->. apply HN. destruct (s_nodes s); [reflexivity|discriminate El]. }
    destruct (min_lists _ Nn Ne) as (lo & El & Ll). destruct (max_lists _ Nn Ne) as (hi & Eh & Lh). rewrite El, Eh. cbn [bind fst snd]. eexists. exists ks. split; [reflexivity|]. split; [exact P|]. split; [apply V|].
    exists (lo - / 10 ^ 12), (hi + / 10 ^ 12). split; [intros d Hd; apply in_map_iff in Hd; destruct Hd as (gr & <- & _); cbn [ct_levels]; apply levels_ok|].
    rewrite map_map. cbn [ct_values]. replace (lo - / 10 ^ 12 + / 10 ^ 12) with lo by ring. replace (hi + / 10 ^ 12 - / 10 ^ 12) with hi by ring. split; assumption.
Qed.

(** Without a list of materials every element is shown exactly once, with the stresses of the group of its material. *)
Theorem C85_every_element_once : forall m mats s composite t c w a res q titled limits,
  length (rm_attributes m) = length (rm_triangles m) -> coherent mats -> shared mats -> section_init (Some m) mats = Ok s ->
  calc_stress composite t c w a (s_group_tris s) = Ok res -> In q documented -> s_nodes s <> [] -> s_els s <> [] ->
  exists draws, plot_stress s res (plot_name q) titled limits None = Ok draws /\
  forall e, In e (s_els s) -> exists j d k els dict, nth_error draws j = Some d /\ In (e_id e) (ct_triangles d) /\
    nth_error (s_groups s) k = Some (e_mat e, els) /\ nth_error (get_stress (length (s_nodes s)) (s_groups s) res) k = Some (mo_name (e_mat e), dict) /\
    entry (stress_key q) dict = Some (ct_values d) /\ forall j' d', nth_error draws j' = Some d' -> In (e_id e) (ct_triangles d') -> j' = j.
Proof.
  intros m mats s composite t c w a res q titled limits HL Hco Hsh HS HC I HN HE. destruct (C43_partition m mats s HL Hco Hsh HS) as ((Pm & Mt & Nd) & _ & _).
  assert (Own : forall e, In e (s_els s) -> exists k els, nth_error (s_groups s) k = Some (e_mat e, els) /\ In e els).
  { intros e He. apply (Permutation_in _ (Permutation_sym Pm)) in He. apply in_concat in He. destruct He as (els & Hg & He). apply in_map_iff in Hg. destruct Hg as ([m0 els0] & E & Hg). cbn in E. subst els0.
    pose proof (Mt m0 els e Hg He) as E. apply In_nth_error in Hg. destruct Hg as [k Hk]. exists k, els. rewrite E. auto. }
  destruct (C85_contours (Some m) mats s composite t c w a res q titled limits None HS HC I HN) as (draws & ks & Ed & (So & P) & F & _).
  { intros _. destruct (s_els s) as [|e es] eqn:Es; [contradiction|]. destruct (Own e (or_introl eq_refl)) as (k & els & G & _). exists k, (e_mat e), els. split; [exact G|left; reflexivity]. }
  exists draws. split; [exact Ed|]. intros e He. destruct (Own e He) as (k & els & G & Ie). assert (Ik : In k ks) by (apply P; exists (e_mat e), els; split; [exact G|left; reflexivity]).
  apply In_nth_error in Ik. destruct Ik as [j Hj]. destruct (Forall2_nth_l _ _ _ F j k Hj) as (d & Hd & m1 & els1 & dict & G1 & D & En & _ & T). rewrite G in G1. injection G1 as <- <-.
  exists j, d, k, els, dict. split; [exact Hd|]. split; [apply T; exists e; auto|]. split; [exact G|]. split; [exact D|]. split; [exact En|].
  intros j' d' Hd' It. destruct (Forall2_nth_r _ _ _ F j' d' Hd') as (k' & Hk' & m2 & els2 & dict2 & G2 & _ & _ & _ & T2). apply T2 in It. destruct It as (e2 & I2 & E2).
  assert (Ee : e2 = e). { pose proof (element_number _ _ _ e2 HS (group_members _ _ _ _ _ _ HS (nth_error_In _ _ G2) I2)) as N2. pose proof (element_number _ _ _ e HS He) as N1. rewrite E2 in N2. congruence. }
  subst e2. pose proof (Mt m2 els2 e (nth_error_In _ _ G2) I2) as E3. subst m2.
  assert (Ek : k' = k). { apply (proj1 (NoDup_nth_error (map fst (s_groups s))) Nd); [rewrite map_length; apply nth_error_Some; intros X; pose proof (eq_trans (eq_sym X) G2) as Y; discriminate Y|].
    exact (eq_trans (map_nth_error fst k' (s_groups s) G2) (eq_sym (map_nth_error fst k (s_groups s) G))). }
  subst k'. apply (proj1 (NoDup_nth_error ks)); [apply sorted_nodup, So|apply nth_error_Some; congruence|congruence].
Qed.

(** Refused: an unknown stress (unless nothing is plotted), and no material to plot without limits. *)
Theorem C85_errors : forall s composite t c w a res name titled limits ml, calc_stress composite t c w a (s_group_tris s) = Ok res ->
  (~ In name (map plot_name documented) -> titled = false \/ (exists k m els, nth_error (s_groups s) k = Some (m, els) /\ wanted ml m) -> plot_stress s res name titled limits ml = Err KeyError) /\
  (In name (map plot_name documented) -> (forall k m els, nth_error (s_groups s) k = Some (m, els) -> ~ wanted ml m) ->
     plot_stress s res name titled None ml = Err ValueError /\ forall l, plot_stress s res name titled (Some l) ml = Ok []).
Proof.
  intros s composite t c w a res name titled limits ml HC. pose proof (calc_length _ _ _ _ _ _ _ HC) as L. destruct (plotted_numbers s res ml L) as (ks & (_ & P) & F). split.
  - intros N H. rewrite <- dict_names in N. unfold plot_stress. rewrite (lookup_missing _ _ N). cbv zeta. change (filter _ (combine (s_groups s) res)) with (plotted_of s res ml).
    destruct (plotted_of s res ml) as [|x l] eqn:E; [|reflexivity]. destruct H as [->|(k & m & els & H)]; [reflexivity|]. inversion F. subst ks. destruct (proj2 (P k) (ex_intro _ m (ex_intro _ els H))).
  - intros I H. apply in_map_iff in I. destruct I as (q & <- & I). assert (E : plotted_of s res ml = []).
    { destruct (plotted_of s res ml) as [|x l] eqn:E; [reflexivity|]. exfalso. inversion F as [|k y ks' l' (A & _ & W) F' E1 E2]. destruct x as [[m els] r]. apply (H k m els A W). }
    split; [|intros l]; rewrite (plot_unfold s res q titled _ ml I L); cbv zeta; rewrite E; reflexivity.
Qed.

(** Where a group has not all the nodes, its array is 0 at the others; so the levels always go from below to above 0, also if all stresses of the section
    have the same sign. *)
Theorem C85_zero_in_levels : forall mesh mats s composite t c w a res p om ps ph q titled ml k m els i,
  section_init mesh mats = Ok s -> stress_parameters composite t c w a = Ok (p, om, ps, ph) -> calc_stress composite t c w a (s_group_tris s) = Ok res -> In q documented ->
  nth_error (s_groups s) k = Some (m, els) -> wanted ml m -> distinct_ids (map e_tri els) -> (i < length (s_nodes s))%nat -> ~ in_group (map e_tri els) i ->
  exists draws, plot_stress s res (plot_name q) titled None ml = Ok draws /\ forall d lo hi, In d draws -> levels_for lo hi (ct_levels d) ->
    forall v, ct_levels d = Given v -> lo < 0 < hi.
Proof.
  intros mesh mats s composite t c w a res p om ps ph q titled ml k m els i HS HP HC I G W D Hi Out.
  destruct (C85_contours mesh mats s composite t c w a res q titled None ml HS HC I) as (draws & ks & E & (_ & P) & F & lo0 & hi0 & Lv & Le & Gr).
  { intros E. rewrite E in Hi. inversion Hi. } { intros _. exists k, m, els. auto. }
  exists draws. split; [exact E|]. intros d lo hi Hd L v Ev.
  assert (Eq : lo = lo0 /\ hi = hi0).
  { pose proof (Lv d Hd) as L0. rewrite Ev in L, L0. destruct L as [[_ L]|(_ & v1 & (_ & A1 & B1 & _) & L)]; [discriminate L|]. destruct L0 as [[_ L0]|(_ & v2 & (_ & A2 & B2 & _) & L0)]; [discriminate L0|].
    injection L as <-. injection L0 as <-. split; congruence. }
  destruct Eq as [-> ->]. assert (Ik : In k ks) by (apply P; exists m, els; auto). apply In_nth_error in Ik. destruct Ik as [j Hj].
  destruct (Forall2_nth_l _ _ _ F j k Hj) as (d0 & Hd0 & m1 & els1 & dict & G1 & Dk & En & _). rewrite G in G1. injection G1 as <- <-.
  assert (Z : In 0 (ct_values d0)).
  { apply get_stress_nth in Dk as (m2 & els2 & r & G2 & Rk & _ & ->). rewrite G in G2. injection G2 as <- <-. destruct r as [ns cb].
    apply (zero_outside composite t c w a s res p om ps ph q k m els i (ns, cb) (ct_values d0) HP HC I G Rk D Hi Out En). }
  assert (T : 0 < / 10 ^ 12) by (apply Rinv_0_lt_compat; lra). pose proof (proj2 Le (ct_values d0) 0 (in_map ct_values _ _ (nth_error_In _ _ Hd0)) Z). pose proof (proj2 Gr (ct_values d0) 0 (in_map ct_values _ _ (nth_error_In _ _ Hd0)) Z). lra.
Qed.

(** ** plot_stress_vector *)

(** One set of arrows for each material group, at the nodes of the mesh, with the x- and y-components and the magnitude that get_stress returns for this action and
    group, all with the same scale; the ticks of the colour bar span the magnitudes. *)
Theorem C85_vectors : forall s composite t c w a scale res act titled, calc_stress composite t c w a (s_group_tris s) = Ok res -> In act documented_vectors -> s_nodes s <> [] -> s_groups s <> [] ->
  exists quivers ticks sc lo hi, plot_stress_vector scale s res (plot_name (act, "zxy")) titled = Ok (quivers, ticks) /\ length quivers = length (s_groups s) /\
    (forall k m els, nth_error (s_groups s) k = Some (m, els) -> exists dict v, nth_error (get_stress (length (s_nodes s)) (s_groups s) res) k = Some (mo_name m, dict) /\ nth_error quivers k = Some v /\
       qv_at v = s_nodes s /\ entry (stress_key (act, "zx")) dict = Some (qv_x v) /\ entry (stress_key (act, "zy")) dict = Some (qv_y v) /\ entry (stress_key (act, "zxy")) dict = Some (qv_color v) /\
       qv_scale v = sc /\ scale (qv_x v) (qv_y v) <= sc) /\
    least (map qv_color quivers) lo /\ greatest (map qv_color quivers) hi /\ spaced (lo - / 10 ^ 12) (hi + / 10 ^ 12) ticks /\
    (sc = 0 \/ exists v, In v quivers /\ sc = scale (qv_x v) (qv_y v)).
Proof. exact vectors. Qed.
Theorem C85_vectors_unknown : forall scale s res name titled, ~ In name (map (fun a => plot_name (a, "zxy")) documented_vectors) -> (titled = false \/ combine (s_groups s) res <> []) ->
  plot_stress_vector scale s res name titled = Err KeyError.
Proof.
  intros scale s res name titled N H. unfold plot_stress_vector. change (map (fun a => plot_name (a, "zxy")) documented_vectors) with (map fst vector_dict) in N. rewrite (lookup_missing _ _ N).
  destruct (combine (s_groups s) res) as [|x l]; [|reflexivity]. destruct H as [->|H]; [reflexivity|contradiction].
Qed.

(** The rectangle of two materials of C82 meets the hypotheses: two groups, and a node that is not in the first one. *)
Example C85_met : exists s res p om ps ph m els, section_init (Some ex_raw) [ex_steel 1; ex_timber 2] = Ok s /\
  let t := section_totals (s_tris s) in let a := mkActions 10 0 0 2 3 0 0 0 in
  stress_parameters true t (centroidal_of t) None a = Ok (p, om, ps, ph) /\ calc_stress true t (centroidal_of t) None a (s_group_tris s) = Ok res /\ s_nodes s <> [] /\ s_els s <> [] /\
  nth_error (s_groups s) 0 = Some (m, els) /\ wanted None m /\ wanted (Some [m]) m /\ distinct_ids (map e_tri els) /\ (3 < length (s_nodes s))%nat /\ ~ in_group (map e_tri els) 3.
Proof.
  destruct C82_mohr_met as (s & res & HS & _ & _ & _ & _ & _ & HC & _ & _ & HD). assert (HC' := HC). unfold calc_stress in HC'.
  destruct (stress_parameters true _ _ None (mkActions 10 0 0 2 3 0 0 0)) as [[[[p om] ps] ph]|] eqn:EP; [|discriminate HC'].
  assert (HS' := HS). unfold section_init in HS'. cbn [rm_attributes ex_raw] in HS'. change (Nat.eqb (length [ex_steel 1; ex_timber 2]) (list_max [0; 1]%nat + 1)) with true in HS'. cbv iota zeta in HS'. injection HS' as ES.
  assert (EG : nth_error (s_groups s) 0 = Some (ex_steel 1, [build_element (rm_vertices ex_raw) [ex_steel 1; ex_timber 2] [0; 1]%nat 0 (mkConn 0 1 2 5 6 4)])).
  { rewrite <- ES. cbn [s_groups]. unfold group_materials, mat_in, mat_is, mat_eqb. cbn. reflexivity. }
  exists s, res, p, om, ps, ph, (ex_steel 1), [build_element (rm_vertices ex_raw) [ex_steel 1; ex_timber 2] [0; 1]%nat 0 (mkConn 0 1 2 5 6 4)].
  split; [exact HS|]. cbv zeta. split; [exact EP|]. split; [exact HC|]. split; [rewrite <- ES; discriminate|]. split; [rewrite <- ES; discriminate|]. split; [exact EG|]. split; [left; reflexivity|].
  split; [right; right; exists [ex_steel 1], (ex_steel 1); split; [reflexivity|]; split; [left; reflexivity|left; reflexivity]|].
  split; [rewrite Forall_forall in HD; exact (HD _ (nth_error_In _ _ EG))|]. split; [rewrite <- ES; cbn; lia|].
  intros (el & [<-|[]] & H). cbn in H. repeat (destruct H as [H|H]; [discriminate H|]). exact H.
Qed.

Print Assumptions C85_contours.
Print Assumptions C85_every_element_once.
Print Assumptions C85_errors.
Print Assumptions C85_zero_in_levels.
Print Assumptions C85_vectors.
Print Assumptions C85_vectors_unknown.
