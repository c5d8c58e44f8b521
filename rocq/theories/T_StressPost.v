(** The stresses returned by get_stress (C81) and Mohr's circles (C82). *)
From Coq Require Import String Reals List Bool Arith Permutation Lra Lia.
From Verif Require Import Base M_Fea S_Fem P_Elem M_Init S_Init P_Init T_Init M_Post M_Section M_Stress S_Integral S_Stress P_Stress T_Fea T_Stress M_StressPost S_StressPost P_StressPost P_StressPost2.
Import ListNotations.
Local Open Scope string_scope.
Local Open Scope R_scope.

(** ** C81: get_stress *)

(** One dictionary for each material group, in the order of the groups, with the name of the material and with the documented keys, each once. The
    array of a stress caused by one action holds, at the nodes of the group, the weighted mean of the values of the elements of the group
    at the node, and 0 at the other nodes. *)
Theorem C81_values : forall s composite t c w a res p om ps ph,
  stress_parameters composite t c w a = Ok (p, om, ps, ph) -> calc_stress composite t c w a (s_group_tris s) = Ok res ->
  let n := length (s_nodes s) in
  let out := get_stress n (s_groups s) res in
  length out = length (s_groups s) /\
  forall k m els, nth_error (s_groups s) k = Some (m, els) -> exists d, nth_error out k = Some (mo_name m, d) /\
    NoDup (map fst d) /\ (forall key, In key (map fst d) <-> In key (map (fun x => fst (fst x)) direct_keys) \/ In key combined_keys) /\
    (distinct_ids (map e_tri els) -> forall key so act, In (key, so, act) direct_keys ->
      let h el := so (element_stress el a p (gather om (el_ids el)) (gather ps (el_ids el)) (gather ph (el_ids el))) in
      exists v, shows n d key v /\ forall i,
        (in_group (map e_tri els) i -> v i = weighted_mean (contributions h (map e_tri els) i)) /\ (~ in_group (map e_tri els) i -> v i = 0)).
Proof.
  intros s composite t c w a res p om ps ph HP H n out.
  assert (L : length res = length (s_groups s)). { destruct (calc_inv _ _ _ _ _ _ _ H) as (? & ? & ? & ? & _ & ->). unfold s_group_tris. rewrite !map_length. reflexivity. }
  split; [unfold out, get_stress; rewrite map_length, combine_length; lia|]. intros k m els G.
  destruct (nth_error res k) as [[ns cb]|] eqn:R; [|apply nth_error_None in R; assert (nth_error (s_groups s) k <> None) as K by congruence; apply nth_error_Some in K; lia].
  exists (stress_dict n (ns, cb)). split.
  { apply (get_stress_at n _ _ _ _ els); assumption. }
  split; [cbn; repeat constructor; cbn; intuition discriminate|]. split; [intros key; cbn; tauto|].
  intros D key so act I h.
  assert (Q : forall f, In (f, so, act) components -> forall i, (in_group (map e_tri els) i -> f ns i = weighted_mean (contributions h (map e_tri els) i)) /\ (~ in_group (map e_tri els) i -> f ns i = 0)).
  { intros f If i. destruct (C34_averaging composite t c w a (s_group_tris s) res k ns cb (mo_val m) (map e_tri els) p om ps ph HP H R) with (ns := f) (so := so) (act := act) (i := i) as [A B]; [exact (map_nth_error (fun g : group => (mo_val (fst g), map e_tri (snd g))) k (s_groups s) G)|exact D|exact If|].
    split; [intros J; apply (A J)|exact B]. }
  cbn [In direct_keys] in I.
  repeat (destruct I as [I|I]; [injection I as <- <- <-; eexists; split; [apply shows_map; reflexivity|]; apply Q; cbn [In components]; tauto|]). destruct I.
Qed.

(** The other entries follow from the arrays of the same dictionary: sums, magnitudes, principal stresses and the von Mises stress. *)
Theorem C81_combined : forall s composite t c w a res k name d,
  calc_stress composite t c w a (s_group_tris s) = Ok res -> nth_error (get_stress (length (s_nodes s)) (s_groups s) res) k = Some (name, d) ->
  exists v : string -> nat -> R, (forall key, In key (map fst d) -> shows (length (s_nodes s)) d key (v key)) /\ forall i,
    let f key := v key i in
    let magnitude r x y := 0 <= r /\ r ^ 2 = x ^ 2 + y ^ 2 in
    f "sig_zz_m" = f "sig_zz_mxx" + f "sig_zz_myy" + f "sig_zz_m11" + f "sig_zz_m22" /\
    f "sig_zx_v" = f "sig_zx_vx" + f "sig_zx_vy" /\ f "sig_zy_v" = f "sig_zy_vx" + f "sig_zy_vy" /\
    f "sig_zz" = f "sig_zz_n" + f "sig_zz_m" /\ f "sig_zx" = f "sig_zx_mzz" + f "sig_zx_v" /\ f "sig_zy" = f "sig_zy_mzz" + f "sig_zy_v" /\
    magnitude (f "sig_zxy_mzz") (f "sig_zx_mzz") (f "sig_zy_mzz") /\ magnitude (f "sig_zxy_vx") (f "sig_zx_vx") (f "sig_zy_vx") /\
    magnitude (f "sig_zxy_vy") (f "sig_zx_vy") (f "sig_zy_vy") /\ magnitude (f "sig_zxy_v") (f "sig_zx_v") (f "sig_zy_v") /\
    magnitude (f "sig_zxy") (f "sig_zx") (f "sig_zy") /\
    is_principal (f "sig_11") (f "sig_zz") (f "sig_zx") (f "sig_zy") /\ is_principal (f "sig_33") (f "sig_zz") (f "sig_zx") (f "sig_zy") /\
    (forall e, is_principal e (f "sig_zz") (f "sig_zx") (f "sig_zy") -> e = f "sig_11" \/ e = 0 \/ e = f "sig_33") /\
    f "sig_33" <= 0 <= f "sig_11" /\ f "sig_11" + f "sig_33" = f "sig_zz" /\
    0 <= f "sig_vm" /\ f "sig_vm" ^ 2 = f "sig_zz" ^ 2 + 3 * (f "sig_zx" ^ 2 + f "sig_zy" ^ 2).
Proof.
  intros s composite t c w a res k name d H E. apply get_stress_nth in E as (m & els & [ns cb] & G & RK & -> & ->).
  assert (C : forall i, cb i = combine_node ns i).
  { destruct (calc_inv _ _ _ _ _ _ _ H) as (? & ? & ? & ? & _ & ->). rewrite nth_error_map in RK. destruct (nth_error (s_group_tris s) k); [|discriminate RK]. cbn in RK. injection RK as <- <-. reflexivity. }
  set (n := length (s_nodes s)).
  exists (fun key i => nth i (match entry key (stress_dict (S i) (ns, cb)) with Some l => l | None => [] end) 0). split.
  - intros key I. cbn [map fst stress_dict In] in I.
    assert (W : forall f : nat -> R, (forall j, entry key (stress_dict j (ns, cb)) = Some (map f (seq 0 j))) -> shows n (stress_dict n (ns, cb)) key (fun i => nth i match entry key (stress_dict (S i) (ns, cb)) with Some l => l | None => [] end 0)).
    { intros f F. destruct (shows_map n (stress_dict n (ns, cb)) key f (F n)) as (l & A & B & D). exists l. split; [exact A|]. split; [exact B|]. intros i Hi. rewrite (D i Hi), F. f_equal.
      rewrite (nth_indep _ 0 (f 0%nat)) by (rewrite map_length, seq_length; lia). rewrite map_nth, seq_nth by lia. reflexivity. }
    repeat (destruct I as [<-|I]; [eapply W; intros j; reflexivity|]). destruct I.
  - intros i f magnitude.
    assert (N : forall g : nat -> R, nth i (map g (seq 0 (S i))) 0 = g i) by (intros g; rewrite (nth_indep _ 0 (g 0%nat)) by (rewrite map_length, seq_length; lia); rewrite map_nth, seq_nth by lia; reflexivity).
    unfold f. cbn [entry stress_dict String.eqb Ascii.eqb Bool.eqb]. rewrite !N, C.
    destruct (C33_combined ns i) as ((_ & _ & _) & (S1 & S2) & (P1 & P3 & _ & P & O & T) & (V1 & _ & V2 & _)).
    assert (MG : forall x y, magnitude (sqrt (x ^ 2 + y ^ 2)) x y) by (intros x y; split; [apply sqrt_pos|apply pow2_sqrt; pose proof (pow2_ge_0 x); pose proof (pow2_ge_0 y); lra]).
    do 6 (split; [reflexivity|]). do 5 (split; [apply MG|]). do 4 (split; [assumption|]). split; [exact T|]. split; assumption.
Qed.

(** Stresses caused by one action depend on this action only. *)
Theorem C81_no_coupling : forall s composite t c w a b ra rb k na da nb db key so act,
  calc_stress composite t c w a (s_group_tris s) = Ok ra -> calc_stress composite t c w b (s_group_tris s) = Ok rb ->
  nth_error (get_stress (length (s_nodes s)) (s_groups s) ra) k = Some (na, da) -> nth_error (get_stress (length (s_nodes s)) (s_groups s) rb) k = Some (nb, db) ->
  In (key, so, act) direct_keys -> act a = act b -> na = nb /\ entry key da = entry key db.
Proof.
  intros s composite t c w a b ra rb k na da nb db key so act Ha Hb Ea Eb I Q. apply get_stress_nth in Ea as (m & els & [nsa ca] & G & Ra & -> & ->). apply get_stress_nth in Eb as (m' & els' & [nsb cb] & G' & Rb & -> & ->).
  rewrite G in G'. injection G' as <- <-. split; [reflexivity|].
  assert (K : forall f, In (f, so, act) components -> map (f nsa) (seq 0 (length (s_nodes s))) = map (f nsb) (seq 0 (length (s_nodes s)))).
  { intros f If. apply map_ext. intros i. apply (C28_no_coupling composite t c w a b (s_group_tris s) ra rb k nsa ca nsb cb f so act i Ha Hb Ra Rb If Q). }
  cbn [In direct_keys] in I.
  repeat (destruct I as [I|I]; [injection I as <- <- <-; cbn [entry stress_dict String.eqb Ascii.eqb Bool.eqb]; f_equal; apply K; cbn [In components]; tauto|]). destruct I.
Qed.

(** ** C82: Mohr's circles *)
Lemma nth_lt {A : Type} (l : list A) k x : nth_error l k = Some x -> (k < length l)%nat.
Proof. intros H. apply nth_error_Some. rewrite H. discriminate. Qed.
Lemma ids_at (gs : list group) k ids : nth_error (map (fun g => map e_id (snd g)) gs) k = Some ids <-> exists g els, nth_error gs k = Some (g, els) /\ ids = map e_id els.
Proof.
  revert k. induction gs as [|[g els] gs IH]; intros k; [destruct k; split; [discriminate|intros (? & ? & H & _); discriminate H|discriminate|intros (? & ? & H & _); discriminate H]|].
  destruct k as [|k]; [|apply IH]. cbn. split; [intros H; injection H as <-; exists g, els; auto|intros (g' & els' & H & ->); injection H as <- <-; reflexivity].
Qed.

(** The circles and points are those of Mohr's diagram for the stresses at the point, which are linearly interpolated from the arrays
    sig_zz, sig_zx, sig_zy of the last material group that has the point in one of its elements; a point outside the mesh is a ValueError. *)
Theorem C82_mohr : forall mesh mats s find interp eig inv composite t c w a res pt,
  length (rm_attributes mesh) = length (rm_triangles mesh) -> coherent mats -> shared mats -> section_init (Some mesh) mats = Ok s ->
  exact_find (s_tris s) find -> linear_interp (s_tris s) interp -> (forall zz zx zy, eigen_ok eig inv (stress_tensor zz zx zy)) ->
  calc_stress composite t c w a (s_group_tris s) = Ok res ->
  let diagram := plot_mohrs_circles find interp eig inv (s_groups s) res pt in
  ((forall e, In e (s_els s) -> ~ contains (e_tri e) pt) -> diagram = Err ValueError) /\
  (forall e, In e (s_els s) -> contains (e_tri e) pt -> exists m, diagram = Ok m /\
     exists k g els e' d vz vx vy el zz zx zy s1 s3,
       nth_error (s_groups s) k = Some (g, els) /\ In e' els /\ contains (e_tri e') pt /\
       (forall k' g' els' e'', (k < k')%nat -> nth_error (s_groups s) k' = Some (g', els') -> In e'' els' -> ~ contains (e_tri e'') pt) /\
       nth_error (get_stress (length (s_nodes s)) (s_groups s) res) k = Some (mo_name g, d) /\
       shows (length (s_nodes s)) d "sig_zz" vz /\ shows (length (s_nodes s)) d "sig_zx" vx /\ shows (length (s_nodes s)) d "sig_zy" vy /\
       In el (s_els s) /\ interpolates (e_tri el) pt vz zz /\ interpolates (e_tri el) pt vx zx /\ interpolates (e_tri el) pt vy zy /\
       mohr_diagram zz zx zy s1 s3 m).
Proof.
  intros mesh mats s find interp eig inv composite t c w a res pt HL Hco Hsh HS HF HI HE H diagram.
  destruct (C43_partition mesh mats s HL Hco Hsh HS) as ((PE & _ & _) & _ & _).
  assert (L : length res = length (s_groups s)). { destruct (calc_inv _ _ _ _ _ _ _ H) as (? & ? & ? & ? & _ & ->). unfold s_group_tris. rewrite !map_length. reflexivity. }
  assert (GE : forall g els e, In (g, els) (s_groups s) -> In e els -> In e (s_els s)).
  { intros g els e Ig Ie. apply (Permutation_in e PE). apply in_concat. exists els. split; [apply in_map_iff; exists (g, els); auto|exact Ie]. }
  assert (NT : forall e, In e (s_els s) -> nth_error (s_tris s) (e_id e) = Some (e_tri e)).
  { intros e Ie. apply In_nth_error in Ie. destruct Ie as [i Ei]. destruct (C44_materials mesh mats s HL HS) as (_ & _ & M). destruct (M i e Ei) as [-> _]. unfold s_tris. rewrite nth_error_map, Ei. reflexivity. }
  assert (FN : forall g els, In (g, els) (s_groups s) -> (find (map e_id els) pt = None <-> forall e, In e els -> ~ contains (e_tri e) pt)).
  { intros g els Ig. specialize (HF (map e_id els) pt). split.
    - intros N e Ie Ce. rewrite N in HF. apply (HF (e_id e) (e_tri e)); [apply in_map; exact Ie|apply NT, (GE g els), Ie; exact Ig|exact Ce].
    - intros A. destruct (find (map e_id els) pt) as [i|]; [|reflexivity]. destruct HF as (Ii & el & Eel & Cel). exfalso. apply in_map_iff in Ii. destruct Ii as (e & <- & Ie). rewrite (NT e (GE _ _ _ Ig Ie)) in Eel. injection Eel as <-. apply (A e Ie Cel). }
  pose proof (point_group_spec find (combine (map (fun g => map e_id (snd g)) (s_groups s)) res) pt) as SP. unfold diagram, plot_mohrs_circles.
  split.
  - intros No. destruct (point_group find _ pt) as [[ns cb]|]; [|reflexivity]. exfalso. destruct SP as (k & ids & E & N & _). apply combine_nth_error in E. destruct E as [E _]. apply ids_at in E. destruct E as (g & els & G & ->). apply N. apply nth_error_In in G. apply (FN g els G). intros e Ie. apply No. apply (GE g els e G Ie).
  - intros e Ie Ce. destruct (point_group find _ pt) as [[ns cb]|].
    2: { exfalso. pose proof (Permutation_in e (Permutation_sym PE) Ie) as Hc. apply in_concat in Hc. destruct Hc as (els & Hk & Hek). apply in_map_iff in Hk. destruct Hk as ((g & els') & E & Hg). cbn [snd] in E. subst els'.
         destruct (In_nth_error _ _ Hg) as [k Ek]. destruct (nth_error res k) as [r|] eqn:R; [|apply nth_error_None in R; pose proof (nth_lt _ _ _ Ek) as K; unfold group in *; lia].
         assert (N : find (map e_id els) pt = None). { apply (SP _ r). apply (nth_error_In _ k). apply combine_nth_error. split; [apply ids_at; exists g, els; auto|exact R]. }
         apply (proj1 (FN g els Hg) N e Hek Ce). }
    destruct SP as (k & ids & E & N & LA). apply combine_nth_error in E. destruct E as [E R]. apply ids_at in E. destruct E as (g & els & G & ->).
    pose proof (nth_error_In _ _ G) as Ig.
    assert (Ex : exists e', In e' els /\ contains (e_tri e') pt).
    { destruct (find (map e_id els) pt) as [i|] eqn:Fi; [|contradiction N; reflexivity]. pose proof (HF (map e_id els) pt) as HF'. rewrite Fi in HF'. destruct HF' as (Ii & el & Eel & Cel). apply in_map_iff in Ii. destruct Ii as (e' & <- & Ie'). exists e'. split; [exact Ie'|]. rewrite (NT e' (GE _ _ _ Ig Ie')) in Eel. injection Eel as <-. exact Cel. }
    destruct Ex as (e' & Ie' & Ce').
    destruct (HI pt) as (tr & Itr & V). { exists (e_tri e). split; [apply in_map, Ie|exact Ce]. }
    unfold s_tris in Itr. apply in_map_iff in Itr. destruct Itr as (el & <- & Iel).
    eexists. split; [reflexivity|].
    destruct (mohr_of_diagram eig inv (interp (fun i => cb_zz (cb i)) pt) (interp (fun i => cb_zx (cb i)) pt) (interp (fun i => cb_zy (cb i)) pt) (HE _ _ _)) as (s1 & s3 & MD).
    exists k, g, els, e', (stress_dict (length (s_nodes s)) (ns, cb)), (fun i => cb_zz (cb i)), (fun i => cb_zx (cb i)), (fun i => cb_zy (cb i)), el.
    eexists _, _, _, s1, s3. split; [exact G|]. split; [exact Ie'|]. split; [exact Ce'|]. split.
    { intros k' g' els' e'' Lk G' Ie''. destruct (nth_error res k') as [r|] eqn:R'; [|apply nth_error_None in R'; pose proof (nth_lt _ _ _ G') as K; unfold group in *; lia].
      apply (proj1 (FN g' els' (nth_error_In _ _ G'))); [|exact Ie'']. apply (LA k' _ r Lk). apply combine_nth_error. split; [apply ids_at; exists g', els'; auto|exact R']. }
    split; [apply (get_stress_at _ _ _ _ _ els); assumption|].
    split; [apply shows_map; reflexivity|]. split; [apply shows_map; reflexivity|]. split; [apply shows_map; reflexivity|]. split; [exact Iel|].
    split; [apply V|]. split; [apply V|]. split; [apply V|]. exact MD.
Qed.

(** The three points are where they must be in Mohr's diagram: in the large circle and outside of the two small ones. *)
Theorem C82_region : forall zz zx zy s1 s3 m, mohr_diagram zz zx zy s1 s3 m -> forall q, In q (faces m) ->
  exists C1 C2 C3, circles m = [C1; C2; C3] /\
    let power (C : R * R * R) := (fst q - fst (fst C)) ^ 2 + (snd q - snd (fst C)) ^ 2 - snd C ^ 2 in
    0 <= power C1 /\ power C2 <= 0 /\ 0 <= power C3 /\ 0 <= snd C1 /\ 0 <= snd C2 /\ 0 <= snd C3.
Proof.
  intros zz zx zy s1 s3 m (B & P1 & P3 & U & S & C & F) q I. rewrite C. eexists _, _, _. split; [reflexivity|]. cbv zeta. cbn [fst snd].
  destruct (principal_facts zz zx zy) as (r1 & r3 & RB & R1 & R3 & RU & RS & RP).
  assert (E : s1 = r1 /\ s3 = r3). { destruct (RU s1 P1) as [|[|]]; destruct (RU s3 P3) as [|[|]]; destruct (U r1 R1) as [|[|]]; destruct (U r3 R3) as [|[|]]; split; lra. } destruct E as [-> ->].
  assert (T : sqrt (zx ^ 2 + zy ^ 2) ^ 2 = zx ^ 2 + zy ^ 2) by (apply pow2_sqrt; pose proof (pow2_ge_0 zx); pose proof (pow2_ge_0 zy); lra).
  pose proof (pow2_abs zx) as AX. pose proof (pow2_abs zy) as AY. pose proof (pow2_ge_0 zx) as X0. pose proof (pow2_ge_0 zy) as Y0. pose proof (pow2_ge_0 r1) as Q1. pose proof (pow2_ge_0 r3) as Q3. subst zz.
  rewrite F in I. cbn [In] in I. destruct I as [<-|[<-|[<-|[]]]]; cbn [fst snd]; repeat split; try lra; nra.
Qed.

(** ** The hypotheses about numpy and matplotlib can be met. *)
Example C82_eigen_met : forall zz zx zy, eigen_ok ex_eig ex_inv (stress_tensor zz zx zy).
Proof. exact ex_eigen. Qed.
(** A rectangle of two materials with an axial force and two moments: the hypotheses of the theorems above are met. *)
Example C82_mohr_met : exists s res, section_init (Some ex_raw) [ex_steel 1; ex_timber 2] = Ok s /\ length (rm_attributes ex_raw) = length (rm_triangles ex_raw) /\
  coherent [ex_steel 1; ex_timber 2] /\ shared [ex_steel 1; ex_timber 2] /\ exact_find (s_tris s) (ex_find (s_tris s)) /\ linear_interp (s_tris s) (ex_interp (s_tris s)) /\
  calc_stress true (section_totals (s_tris s)) (centroidal_of (section_totals (s_tris s))) None (mkActions 10 0 0 2 3 0 0 0) (s_group_tris s) = Ok res /\
  (exists e, In e (s_els s) /\ contains (e_tri e) (2, 1/2)) /\ length (s_groups s) = 2%nat /\ Forall (fun g => distinct_ids (map e_tri (snd g))) (s_groups s).
Proof.
  eexists. eexists. split; [reflexivity|]. split; [reflexivity|].
  split; [intros a b [<-|[<-|[]]] [<-|[<-|[]]] H; try reflexivity; discriminate H|].
  split; [intros a b [<-|[<-|[]]] [<-|[<-|[]]] H; try reflexivity; destruct H as [H _]; discriminate H|].
  assert (O : forall el, In el (map e_tri (build_from (rm_vertices ex_raw) [ex_steel 1; ex_timber 2] (rm_attributes ex_raw) 0 (rm_triangles ex_raw))) -> orient (corner_a el) (corner_b el) (corner_c el) <> 0).
  { intros el [<-|[<-|[]]]; unfold orient, corner_a, corner_b, corner_c; cbn; lra. }
  split; [apply ex_find_exact, O|]. split; [apply ex_interp_linear, O|].
  split. { unfold calc_stress, stress_parameters, needs_warping. cbn [a_vx a_vy a_mzz]. destruct (Req_EM_T 0 0) as [_|N]; [|contradiction N; reflexivity]. cbn [orb bind]. reflexivity. }
  split.
  { eexists. split; [left; reflexivity|]. exists (1/2), (1/4), (1/4). unfold corner_a, corner_b, corner_c. cbn. repeat split; lra. }
  split; [reflexivity|]. constructor; [|constructor; [|constructor]]; intros el [<-|[]]; [change (NoDup [0;1;2;4;5;6]%nat)|change (NoDup [0;2;3;6;7;8]%nat)]; repeat (apply NoDup_cons; [cbn [In]; lia|]); apply NoDup_nil.
Qed.

Print Assumptions C81_values.
Print Assumptions C81_combined.
Print Assumptions C81_no_coupling.
Print Assumptions C82_mohr.
Print Assumptions C82_region.
