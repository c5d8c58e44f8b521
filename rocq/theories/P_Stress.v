(** Proofs about the stress analysis: superposition, nodal averaging, resultants, combined stresses. *)
From Coq Require Import Reals List Lra Lia Bool.
From Coquelicot Require Import Coquelicot.
From Verif Require Import Base S_Integral M_Fea S_Fem M_Post M_Section S_Section S_Post S_Warp M_Stress S_Stress
  P_Integral P_Fea P_Geom P_Extrap P_Elem P_Section P_Totals P_Post P_Yield P_Warp P_Warp2 P_Warp3 P_Warp4 P_Warp5 P_Warp6.
Import ListNotations.
Local Open Scope R_scope.

(** ** Linearity *)

Lemma col6_at {A} (d : A) (f : gp -> A) (h : A -> R) :
  col6 h (at_gps6 d f) = mkV6 (h (f (nth 0 gps6 (mkGp 0 0 0 0)))) (h (f (nth 1 gps6 (mkGp 0 0 0 0)))) (h (f (nth 2 gps6 (mkGp 0 0 0 0))))
    (h (f (nth 3 gps6 (mkGp 0 0 0 0)))) (h (f (nth 4 gps6 (mkGp 0 0 0 0)))) (h (f (nth 5 gps6 (mkGp 0 0 0 0)))).
Proof. reflexivity. Qed.

Lemma extrapolate_scal k v : extrapolate_to_nodes (scal6 k v) = scal6 k (extrapolate_to_nodes v).
Proof.
  unfold extrapolate_to_nodes, mulM6. generalize h_inv. intros m. unfold scal6, map6. cbn [v0 v1 v2 v3 v4 v5].
  unfold dot6. cbn [v0 v1 v2 v3 v4 v5]. f_equal; ring.
Qed.

Lemma col_scal (f f' : gp -> stress_gp) (h : stress_gp -> R) k : (forall g, h (f g) = k * h (f' g)) ->
  extrapolate_to_nodes (col6 h (at_gps6 zero_stress_gp f)) = scal6 k (extrapolate_to_nodes (col6 h (at_gps6 zero_stress_gp f'))).
Proof.
  intros H. rewrite <- extrapolate_scal. f_equal. rewrite !col6_at. unfold scal6, map6. cbn [v0 v1 v2 v3 v4 v5]. rewrite !H. reflexivity.
Qed.

Definition ones : actions := mkActions 1 1 1 1 1 1 1 1.

Section Linear.
Context (composite : bool) (t : totals) (c : centroidal) (w : option warping).

(** the parameters with warping results, if there are any *)
Definition full_par : stress_par :=
  let ea := if composite then t_ea t else t_area t in
  match w with
  | Some w0 => mkStressPar ea (p_cx c) (p_cy c) (p_ixx_c c) (p_iyy_c c) (p_ixy_c c) (p_i11_c c) (p_i22_c c)
              (p_phi c) (w_j w0) (if composite then nu_eff t else 0) (w_delta_s w0)
  | None => mkStressPar ea (p_cx c) (p_cy c) (p_ixx_c c) (p_iyy_c c) (p_ixy_c c) (p_i11_c c) (p_i22_c c) (p_phi c) 0 0 0
  end.
Definition full_om (i : nat) := match w with Some w0 => w_omega w0 i | None => 0 end.
Definition full_ps (i : nat) := match w with Some w0 => w_psi w0 i | None => 0 end.
Definition full_ph (i : nat) := match w with Some w0 => w_phi w0 i | None => 0 end.

Definition unit_stress (el : tri6) : stress_out :=
  element_stress el ones full_par (gather full_om (el_ids el)) (gather full_ps (el_ids el)) (gather full_ph (el_ids el)).

Lemma params_cases a p om ps ph : stress_parameters composite t c w a = Ok (p, om, ps, ph) ->
  (st_ea p = st_ea full_par /\ st_cx p = p_cx c /\ st_cy p = p_cy c /\ st_ixx p = p_ixx_c c /\ st_iyy p = p_iyy_c c /\
   st_ixy p = p_ixy_c c /\ st_i11 p = p_i11_c c /\ st_i22 p = p_i22_c c /\ st_phi p = p_phi c) /\
  (needs_warping a = true -> p = full_par /\ (forall i, om i = full_om i) /\ (forall i, ps i = full_ps i) /\ (forall i, ph i = full_ph i)).
Proof.
  unfold stress_parameters, full_par, full_om, full_ps, full_ph. intros H. destruct (needs_warping a) eqn:N.
  - destruct w as [w0|]; [|discriminate]. injection H as <- <- <- <-.
    cbn [st_ea st_cx st_cy st_ixx st_iyy st_ixy st_i11 st_i22 st_phi]. repeat split.
  - injection H as <- <- <- <-. cbn [st_ea st_cx st_cy st_ixx st_iyy st_ixy st_i11 st_i22 st_phi]. split; [|discriminate].
    destruct w; cbn [st_ea]; repeat split.
Qed.

Lemma full_fields : st_cx full_par = p_cx c /\ st_cy full_par = p_cy c /\ st_ixx full_par = p_ixx_c c /\ st_iyy full_par = p_iyy_c c /\
   st_ixy full_par = p_ixy_c c /\ st_i11 full_par = p_i11_c c /\ st_i22 full_par = p_i22_c c /\ st_phi full_par = p_phi c.
Proof. unfold full_par. destruct w; cbn [st_cx st_cy st_ixx st_iyy st_ixy st_i11 st_i22 st_phi]; repeat split. Qed.

Lemma nw_zero a : needs_warping a = false -> a_vx a = 0 /\ a_vy a = 0 /\ a_mzz a = 0.
Proof.
  unfold needs_warping. destruct (Req_EM_T (a_vx a) 0), (Req_EM_T (a_vy a) 0), (Req_EM_T (a_mzz a) 0); cbn; intros; try discriminate; auto.
Qed.

Definition gp_pairs : list ((stress_gp -> R) * (actions -> R)) :=
  [(sg_zz_mxx, a_mxx); (sg_zz_myy, a_myy); (sg_zz_m11, a_m11); (sg_zz_m22, a_m22); (sg_zx_mzz, a_mzz); (sg_zy_mzz, a_mzz);
   (sg_zx_vx, a_vx); (sg_zy_vx, a_vx); (sg_zx_vy, a_vy); (sg_zy_vy, a_vy)].

Lemma gp_linear a p om ps ph el g : stress_parameters composite t c w a = Ok (p, om, ps, ph) ->
  forall h act, In (h, act) gp_pairs ->
  h (element_stress_gp el a p (gather om (el_ids el)) (gather ps (el_ids el)) (gather ph (el_ids el)) g) =
  act a * h (element_stress_gp el ones full_par (gather full_om (el_ids el)) (gather full_ps (el_ids el)) (gather full_ph (el_ids el)) g).
Proof.
  intros HP h act Hin. destruct (params_cases a p om ps ph HP) as [[_ [E1 [E2 [E3 [E4 [E5 [E6 [E7 E8]]]]]]]] HW].
  destruct full_fields as [F1 [F2 [F3 [F4 [F5 [F6 [F7 F8]]]]]]].
  assert (G : needs_warping a = true -> gather om (el_ids el) = gather full_om (el_ids el) /\ gather ps (el_ids el) = gather full_ps (el_ids el) /\
     gather ph (el_ids el) = gather full_ph (el_ids el)).
  { intros N. destruct (HW N) as [_ [W1 [W2 W3]]]. repeat split; unfold gather; rewrite ?W1, ?W2, ?W3; reflexivity. }
  unfold element_stress_gp. cbv zeta. rewrite E1, E2, E3, E4, E5, E8, F1, F2, F3, F4, F5, F8.
  destruct (principal_coordinate _ _ _) as [q1 q2].
  unfold ones. cbn [a_n a_vx a_vy a_mxx a_myy a_m11 a_m22 a_mzz].
  destruct (Req_EM_T 1 0) as [Z1|_]; [lra|]. cbv iota.
  assert (NV : forall (x : R), x = a_mzz a \/ x = a_vx a \/ x = a_vy a -> x <> 0 -> needs_warping a = true).
  { intros x Hx Hn. destruct (needs_warping a) eqn:N; [reflexivity|]. destruct (nw_zero a N) as [Z1 [Z2 Z3]].
    destruct Hx as [->|[->| ->]]; contradiction. }
  unfold gp_pairs in Hin. cbn [In] in Hin.
  destruct Hin as [H|[H|[H|[H|[H|[H|[H|[H|[H|[H|[]]]]]]]]]]]; injection H as <- <-;
    cbn [sg_zz_mxx sg_zz_myy sg_zz_m11 sg_zz_m22 sg_zx_mzz sg_zy_mzz sg_zx_vx sg_zy_vx sg_zx_vy sg_zy_vy].
  - unfold Rdiv. ring.
  - unfold Rdiv. ring.
  - rewrite E6, F6. unfold Rdiv. ring.
  - rewrite E7, F7. unfold Rdiv. ring.
  - destruct (Req_EM_T (a_mzz a) 0) as [Z|Z]; [rewrite Z; ring|]. pose proof (NV _ (or_introl eq_refl) Z) as N.
    destruct (HW N) as [-> _]. destruct (G N) as [G1 [G2 G3]]. rewrite ?G1, ?G2, ?G3. unfold Rdiv. ring.
  - destruct (Req_EM_T (a_mzz a) 0) as [Z|Z]; [rewrite Z; ring|]. pose proof (NV _ (or_introl eq_refl) Z) as N.
    destruct (HW N) as [-> _]. destruct (G N) as [G1 [G2 G3]]. rewrite ?G1, ?G2, ?G3. unfold Rdiv. ring.
  - destruct (Req_EM_T (a_vx a) 0) as [Z|Z]; [rewrite Z; ring|]. pose proof (NV _ (or_intror (or_introl eq_refl)) Z) as N.
    destruct (HW N) as [-> _]. destruct (G N) as [G1 [G2 G3]]. rewrite ?G1, ?G2, ?G3. unfold Rdiv. ring.
  - destruct (Req_EM_T (a_vx a) 0) as [Z|Z]; [rewrite Z; ring|]. pose proof (NV _ (or_intror (or_introl eq_refl)) Z) as N.
    destruct (HW N) as [-> _]. destruct (G N) as [G1 [G2 G3]]. rewrite ?G1, ?G2, ?G3. unfold Rdiv. ring.
  - destruct (Req_EM_T (a_vy a) 0) as [Z|Z]; [rewrite Z; ring|]. pose proof (NV _ (or_intror (or_intror eq_refl)) Z) as N.
    destruct (HW N) as [-> _]. destruct (G N) as [G1 [G2 G3]]. rewrite ?G1, ?G2, ?G3. unfold Rdiv. ring.
  - destruct (Req_EM_T (a_vy a) 0) as [Z|Z]; [rewrite Z; ring|]. pose proof (NV _ (or_intror (or_intror eq_refl)) Z) as N.
    destruct (HW N) as [-> _]. destruct (G N) as [G1 [G2 G3]]. rewrite ?G1, ?G2, ?G3. unfold Rdiv. ring.
Qed.

Lemma el_linear a p om ps ph el : stress_parameters composite t c w a = Ok (p, om, ps, ph) ->
  forall ns so act, In (ns, so, act) components ->
  so (element_stress el a p (gather om (el_ids el)) (gather ps (el_ids el)) (gather ph (el_ids el))) = scal6 (act a) (so (unit_stress el)).
Proof.
  intros HP ns so act Hin. pose proof (fun g => gp_linear a p om ps ph el g HP) as L.
  destruct (params_cases a p om ps ph HP) as [[E1 _] _].
  unfold components in Hin. cbn [In] in Hin. unfold unit_stress, element_stress.
  destruct Hin as [H|[H|[H|[H|[H|[H|[H|[H|[H|[H|[H|[]]]]]]]]]]]]; injection H as <- <- <-;
    cbn [so_zz_n so_zz_mxx so_zz_myy so_zz_m11 so_zz_m22 so_zx_mzz so_zy_mzz so_zx_vx so_zy_vx so_zx_vy so_zy_vy];
    try (apply col_scal; intros g; apply L; unfold gp_pairs; cbn [In]; tauto).
  rewrite E1. unfold ones, const6, scal6, map6. cbn [a_n v0 v1 v2 v3 v4 v5]. f_equal; unfold Rdiv; ring.
Qed.
End Linear.

(** ** Nodal averaging *)

Definition pick (cc : conn6) (v : V6) (i : nat) : R := scatter_add (fun _ => 0) cc v i.
Lemma scatter_pick f cc v i : scatter_add f cc v i = f i + pick cc v i.
Proof. unfold pick, scatter_add. repeat destruct (Nat.eqb _ _); ring. Qed.
Lemma pick_scal cc k v i : pick cc (scal6 k v) i = k * pick cc v i.
Proof. unfold pick, scatter_add, scal6, map6. cbn [v0 v1 v2 v3 v4 v5]. repeat destruct (Nat.eqb _ _); ring. Qed.

Definition wv (v : V6) : V6 := zip6 Rmult v stress_weights.
Definition num (h : tri6 -> V6) (els : list tri6) (i : nat) : R := sumf (fun el => pick (el_ids el) (wv (h el)) i) els.
Definition den (els : list tri6) (i : nat) : R := sumf (fun el => pick (el_ids el) stress_weights i) els.

Lemma group_form a p om ps ph els :
  let es el := element_stress el a p (gather om (el_ids el)) (gather ps (el_ids el)) (gather ph (el_ids el)) in
  forall ns so act, In (ns, so, act) components -> forall i,
  ns (group_stress a p om ps ph els) i = average (num (fun el => so (es el)) els) (den els) i.
Proof.
  intros es.
  assert (G : forall l st, 
    let r := fold_left (stress_step a p om ps ph) l st in
    (forall i, snd r i = snd st i + den l i) /\
    (forall ns so act, In (ns, so, act) components -> forall i, ns (fst r) i = ns (fst st) i + num (fun el => so (es el)) l i)).
  { induction l as [|el l IH]; intros st.
    - cbn [fold_left]. cbv zeta. unfold den, num. split; intros; rewrite sumf_nil; ring.
    - cbn [fold_left]. cbv zeta. destruct (IH (stress_step a p om ps ph st el)) as [D N]. clear IH. destruct st as [s wts].
      split.
      + intros i. rewrite D. unfold stress_step. cbn [snd]. rewrite scatter_pick. unfold den. rewrite sumf_cons. ring.
      + intros ns so act Hin i. rewrite (N ns so act Hin). unfold num. rewrite sumf_cons.
        unfold stress_step. cbn [fst]. unfold components in Hin. cbn [In] in Hin.
        destruct Hin as [H|[H|[H|[H|[H|[H|[H|[H|[H|[H|[H|[]]]]]]]]]]]]; injection H as <- <- <-;
        cbn [ns_zz_n ns_zz_mxx ns_zz_myy ns_zz_m11 ns_zz_m22 ns_zx_mzz ns_zy_mzz ns_zx_vx ns_zy_vx ns_zx_vy ns_zy_vy];
        rewrite scatter_pick; unfold wv, es; ring. }
  intros ns so act Hin i. unfold group_stress. destruct (G els (zero_nodal_stress, fun _ => 0)) as [D N]. cbv zeta in D, N.
  destruct (fold_left (stress_step a p om ps ph) els (zero_nodal_stress, fun _ => 0)) as [s wt]. cbn [fst snd] in D, N.
  specialize (N ns so act Hin i). specialize (D i). unfold components in Hin. cbn [In] in Hin.
  destruct Hin as [H|[H|[H|[H|[H|[H|[H|[H|[H|[H|[H|[]]]]]]]]]]]]; injection H as <- <- <-;
  cbn [ns_zz_n ns_zz_mxx ns_zz_myy ns_zz_m11 ns_zz_m22 ns_zx_mzz ns_zy_mzz ns_zx_vx ns_zy_vx ns_zx_vy ns_zy_vy zero_nodal_stress] in *;
  unfold average; rewrite N, D, !Rplus_0_l; reflexivity.
Qed.

Lemma group_linear composite t c w a p om ps ph els : stress_parameters composite t c w a = Ok (p, om, ps, ph) ->
  forall ns so act, In (ns, so, act) components -> forall i,
  ns (group_stress a p om ps ph els) i = act a * average (num (fun el => so (unit_stress composite t c w el)) els) (den els) i.
Proof.
  intros HP ns so act Hin i. rewrite (group_form a p om ps ph els ns so act Hin i).
  assert (E : num (fun el => so (element_stress el a p (gather om (el_ids el)) (gather ps (el_ids el)) (gather ph (el_ids el)))) els i =
     act a * num (fun el => so (unit_stress composite t c w el)) els i).
  { unfold num. rewrite <- sumf_scal. apply sumf_ext. intros el _. rewrite (el_linear composite t c w a p om ps ph el HP ns so act Hin).
    rewrite <- pick_scal. f_equal. unfold wv, zip6, scal6, map6. cbn [v0 v1 v2 v3 v4 v5]. f_equal; ring. }
  unfold average. rewrite E. destruct (Req_EM_T (den els i) 0); ring.
Qed.

(** weights *)
Lemma sw_pos : 0 < v0 stress_weights /\ 0 < v1 stress_weights /\ 0 < v2 stress_weights /\ 0 < v3 stress_weights /\ 0 < v4 stress_weights /\ 0 < v5 stress_weights
  /\ v1 stress_weights = v0 stress_weights /\ v2 stress_weights = v0 stress_weights /\ v4 stress_weights = v3 stress_weights /\ v5 stress_weights = v3 stress_weights.
Proof.
  unfold stress_weights. rewrite col6_at. cbn [nth gps6 g_w v0 v1 v2 v3 v4 v5].
  assert (P : 0 < g6_w1 /\ 0 < g6_w2).
  { unfold g6_w1, g6_w2. set (q := sqrt (213125 - 53320 * sqrt 10)).
    assert (H : 0 <= q < 620).
    { split; [apply sqrt_pos|]. unfold q. replace 620 with (sqrt (620 * 620)) by (apply sqrt_square; lra).
      apply sqrt_lt_1_alt. split.
      - assert (sqrt 10 <= 3.9); [|lra]. replace 3.9 with (sqrt (3.9 * 3.9)) by (apply sqrt_square; lra). apply sqrt_le_1_alt. lra.
      - pose proof (sqrt_pos 10). lra. }
    unfold Rdiv. split; apply Rmult_lt_0_compat; lra. }
  repeat split; tauto.
Qed.
Lemma sw_nth j : (j < 6)%nat -> 0 < nth6 stress_weights j.
Proof. pose proof sw_pos as P. intros H. do 6 (destruct j as [|j]; [cbn [nth6]; tauto|]). lia. Qed.

Lemma contrib_cases el i : NoDup (ids_list (el_ids el)) ->
  (~ In i (ids_list (el_ids el)) /\ (forall h, el_contributions h i el = []) /\ (forall v, pick (el_ids el) v i = 0)) \/
  (exists j, (j < 6)%nat /\ has_node el j i /\ (forall h, el_contributions h i el = [(nth6 stress_weights j, nth6 (h el) j)]) /\
     (forall v, pick (el_ids el) v i = nth6 v j) /\ (forall j', has_node el j' i -> j' = j)).
Proof.
  unfold has_node, el_contributions, pick, scatter_add. destruct (el_ids el) as [n0 n1 n2 n3 n4 n5].
  unfold ids_list, v6_list. cbn [c0 c1 c2 c3 c4 c5 combine]. intros Hd.
  repeat match goal with H : NoDup (_ :: _) |- _ => inversion H; clear H; subst end. cbn [In] in *.
  destruct (Nat.eq_dec n0 i) as [E0|E0]; [right; exists 0%nat; subst n0|
  destruct (Nat.eq_dec n1 i) as [E1|E1]; [right; exists 1%nat; subst n1|
  destruct (Nat.eq_dec n2 i) as [E2|E2]; [right; exists 2%nat; subst n2|
  destruct (Nat.eq_dec n3 i) as [E3|E3]; [right; exists 3%nat; subst n3|
  destruct (Nat.eq_dec n4 i) as [E4|E4]; [right; exists 4%nat; subst n4|
  destruct (Nat.eq_dec n5 i) as [E5|E5]; [right; exists 5%nat; subst n5|left]]]]]].
  7:{ split; [tauto|]. split; intros.
    - cbn [filter fst].
      rewrite (proj2 (Nat.eqb_neq n0 i)), (proj2 (Nat.eqb_neq n1 i)), (proj2 (Nat.eqb_neq n2 i)), (proj2 (Nat.eqb_neq n3 i)),
       (proj2 (Nat.eqb_neq n4 i)), (proj2 (Nat.eqb_neq n5 i)) by congruence. reflexivity.
    - rewrite (proj2 (Nat.eqb_neq i n0)), (proj2 (Nat.eqb_neq i n1)), (proj2 (Nat.eqb_neq i n2)), (proj2 (Nat.eqb_neq i n3)),
       (proj2 (Nat.eqb_neq i n4)), (proj2 (Nat.eqb_neq i n5)) by congruence. reflexivity. }
  all: (split; [lia|]; split; [reflexivity|]; split; [|split]).
  all: try (intros h; cbn [filter fst];
    repeat match goal with |- context [Nat.eqb ?a ?b] =>
      first [rewrite (proj2 (Nat.eqb_neq a b)) by (intros HH; subst; tauto) | rewrite (proj2 (Nat.eqb_eq a b)) by reflexivity] end;
    reflexivity).
  all: try (intros v; 
    repeat match goal with |- context [Nat.eqb ?a ?b] =>
      first [rewrite (proj2 (Nat.eqb_neq a b)) by (intros HH; subst; tauto) | rewrite (proj2 (Nat.eqb_eq a b)) by reflexivity] end;
    cbn [nth6]; ring).
  all: intros j' Hj'; do 6 (destruct j' as [|j']; [cbn [nth_error] in Hj'; try reflexivity; exfalso; injection Hj' as Hj'; subst; tauto|]);
    destruct j'; discriminate.
Qed.

Lemma num_contrib h els i : distinct_ids els -> num h els i = sumf (fun q => fst q * snd q) (contributions h els i).
Proof.
  intros Hd. unfold num, contributions. rewrite sumf_concat, sumf_map. apply sumf_ext. intros el Hel.
  destruct (contrib_cases el i (Hd el Hel)) as [[_ [E1 E2]]|[j [Hj [_ [E1 [E2 _]]]]]].
  - rewrite E1, E2, sumf_nil. reflexivity.
  - rewrite E1, E2, sumf_cons, sumf_nil. cbn [fst snd]. unfold wv. clear - Hj.
    generalize (h el) stress_weights. intros v u. do 6 (destruct j as [|j]; [unfold zip6, nth6; cbn [v0 v1 v2 v3 v4 v5]; ring|]). lia.
Qed.
Lemma den_contrib h els i : distinct_ids els -> den els i = sumf fst (contributions h els i).
Proof.
  intros Hd. unfold den, contributions. rewrite sumf_concat, sumf_map. apply sumf_ext. intros el Hel.
  destruct (contrib_cases el i (Hd el Hel)) as [[_ [E1 E2]]|[j [Hj [_ [E1 [E2 _]]]]]].
  - rewrite E1, E2, sumf_nil. reflexivity.
  - rewrite E1, E2, sumf_cons, sumf_nil. cbn [fst snd]. ring.
Qed.

Lemma contrib_in h els i q : distinct_ids els -> In q (contributions h els i) ->
  exists el j, In el els /\ has_node el j i /\ (j < 6)%nat /\ q = (nth6 stress_weights j, nth6 (h el) j).
Proof.
  intros Hd Hin. unfold contributions in Hin. apply in_concat in Hin as [l [Hl Hq]]. apply in_map_iff in Hl as [el [<- Hel]].
  destruct (contrib_cases el i (Hd el Hel)) as [[_ [E1 E2]]|[j [Hj [Hn [E1 [E2 _]]]]]]; rewrite E1 in Hq; [contradiction|].
  destruct Hq as [<-|[]]. exists el, j. auto.
Qed.
Lemma has_node_in el j i : has_node el j i -> In i (ids_list (el_ids el)).
Proof. apply nth_error_In. Qed.
Lemma contrib_mem h els el j i : distinct_ids els -> In el els -> has_node el j i ->
  In (nth6 stress_weights j, nth6 (h el) j) (contributions h els i).
Proof.
  intros Hd Hel Hn. unfold contributions. apply in_concat. exists (el_contributions h i el). split; [apply in_map, Hel|].
  destruct (contrib_cases el i (Hd el Hel)) as [[Hni _]|[j' [_ [_ [E1 [_ U]]]]]]; [exfalso; apply Hni, (has_node_in _ _ _ Hn)|].
  rewrite E1, (U j Hn). left. reflexivity.
Qed.
Lemma contrib_ne h els i : distinct_ids els -> in_group els i -> contributions h els i <> [].
Proof.
  intros Hd [el [Hel Hi]]. apply In_nth_error in Hi as [j Hj]. pose proof (contrib_mem h els el j i Hd Hel Hj) as M.
  intros E. rewrite E in M. exact M.
Qed.
Lemma contrib_w_pos h els i q : distinct_ids els -> In q (contributions h els i) -> 0 < fst q.
Proof. intros Hd Hq. destruct (contrib_in h els i q Hd Hq) as [el [j [_ [_ [Hj ->]]]]]. cbn [fst]. apply sw_nth, Hj. Qed.

Lemma average_wm h els i : distinct_ids els ->
  (in_group els i -> average (num h els) (den els) i = weighted_mean (contributions h els i)) /\
  (~ in_group els i -> average (num h els) (den els) i = 0).
Proof.
  intros Hd. unfold average, weighted_mean. rewrite (num_contrib h els i Hd), (den_contrib h els i Hd). split; intros Hg.
  - assert (P : 0 < sumf fst (contributions h els i)).
    { apply sumf_pos; [apply contrib_ne; assumption|]. intros q Hq. apply (contrib_w_pos h els i q Hd Hq). }
    destruct (Req_EM_T _ _) as [Z|Z]; [lra|]. field. exact Z.
  - assert (E : contributions h els i = []).
    { destruct (contributions h els i) as [|q l] eqn:E; [reflexivity|]. exfalso. apply Hg.
      destruct (contrib_in h els i q Hd) as [el [j [Hel [Hn _]]]]; [rewrite E; left; reflexivity|].
      exists el. split; [exact Hel|]. apply (has_node_in _ _ _ Hn). }
    rewrite E, !sumf_nil. destruct (Req_EM_T 0 0); [reflexivity|contradiction].
Qed.

(** equal weights: plain mean *)
Lemma wm_equal w0 l : w0 <> 0 -> l <> [] -> (forall q, In q l -> fst q = w0) -> weighted_mean l = mean (map snd l).
Proof.
  intros Hw Hl H. unfold weighted_mean, mean. rewrite sumf_map, map_length.
  rewrite (sumf_ext (fun q => fst q * snd q) (fun q => w0 * snd q) l) by (intros q Hq; rewrite (H q Hq); reflexivity).
  rewrite (sumf_ext fst (fun _ => w0) l) by exact H. rewrite sumf_scal.
  assert (E : sumf (fun _ : R * R => w0) l = w0 * INR (length l)).
  { clear. induction l as [|q l IH]; [rewrite sumf_nil; cbn [length INR]; ring|]. rewrite sumf_cons, IH. cbn [length]. rewrite S_INR. ring. }
  rewrite E. assert (0 < INR (length l)). { apply lt_0_INR. destruct l; [congruence|cbn; lia]. }
  change (sumf (fun x : R * R => snd x) l) with (sumf snd l). generalize (sumf (@snd R R) l). intros S. field. split; lra.
Qed.

(** a weighted mean of values close to v is close to v *)
Lemma wm_close v eps l : l <> [] -> (forall q, In q l -> 0 < fst q /\ Rabs (snd q - v) <= eps) -> Rabs (weighted_mean l - v) <= eps.
Proof.
  intros Hl H. assert (P : 0 < sumf fst l) by (apply sumf_pos; [exact Hl|intros q Hq; apply H, Hq]).
  unfold weighted_mean. replace (sumf (fun q => fst q * snd q) l / sumf fst l - v) with (sumf (fun q => fst q * (snd q - v)) l / sumf fst l).
  - assert (B : - eps * sumf fst l <= sumf (fun q => fst q * (snd q - v)) l <= eps * sumf fst l).
    { rewrite <- !sumf_scal. split; apply sumf_le; intros q Hq; destruct (H q Hq) as [Hp Ha]; apply Rabs_le_between in Ha; nra. }
    apply Rabs_le. split; [apply Rmult_le_reg_r with (sumf fst l)|apply Rmult_le_reg_r with (sumf fst l)]; try exact P;
    unfold Rdiv; rewrite ?Rmult_assoc, ?Rinv_l by lra; lra.
  - assert (E : sumf (fun q => fst q * (snd q - v)) l = sumf (fun q => fst q * snd q) l - v * sumf fst l).
    { clear. induction l as [|q l IH]; [rewrite !sumf_nil; ring|]. rewrite !sumf_cons, IH. ring. }
    rewrite E. field. lra.
Qed.

(** ** calc_stress *)

Lemma calc_inv composite t c w a groups res : calc_stress composite t c w a groups = Ok res ->
  exists p om ps ph, stress_parameters composite t c w a = Ok (p, om, ps, ph) /\
  res = map (fun g => (group_stress a p om ps ph (snd g), combine_node (group_stress a p om ps ph (snd g)))) groups.
Proof.
  unfold calc_stress, bind. destruct (stress_parameters composite t c w a) as [[[[p om] ps] ph]|e]; [|discriminate].
  intros H. injection H as <-. exists p, om, ps, ph. split; reflexivity.
Qed.

Lemma calc_nth composite t c w a groups res k s cb : calc_stress composite t c w a groups = Ok res -> nth_error res k = Some (s, cb) ->
  exists m els p om ps ph, nth_error groups k = Some (m, els) /\ stress_parameters composite t c w a = Ok (p, om, ps, ph) /\
  s = group_stress a p om ps ph els /\ cb = combine_node s.
Proof.
  intros H Hk. destruct (calc_inv _ _ _ _ _ _ _ H) as [p [om [ps [ph [HP ->]]]]].
  rewrite nth_error_map in Hk. destruct (nth_error groups k) as [[m els]|]; [|discriminate]. cbn [option_map snd] in Hk. injection Hk as <- <-.
  exists m, els, p, om, ps, ph. repeat split. exact HP.
Qed.

Lemma lin_act k a l b ns so act : In (ns, so, act) components -> act (lin_actions k a l b) = k * act a + l * act b.
Proof.
  unfold components. cbn [In]. intros Hin.
  destruct Hin as [H|[H|[H|[H|[H|[H|[H|[H|[H|[H|[H|[]]]]]]]]]]]]; injection H as <- <- <-; reflexivity.
Qed.

Lemma needs_lin k a l b : needs_warping (lin_actions k a l b) = true -> needs_warping a = true \/ needs_warping b = true.
Proof.
  intros H. destruct (needs_warping a) eqn:A; [auto|]. destruct (needs_warping b) eqn:B; [auto|]. exfalso.
  destruct (nw_zero a A) as [A1 [A2 A3]]. destruct (nw_zero b B) as [B1 [B2 B3]].
  unfold needs_warping, lin_actions in H. cbn [a_vx a_vy a_mzz] in H. rewrite A1, A2, A3, B1, B2, B3 in H.
  rewrite !Rmult_0_r, !Rplus_0_r in H. destruct (Req_EM_T 0 0); [discriminate|contradiction].
Qed.

Lemma sp_total composite t c w a : (needs_warping a = true -> w <> None) -> exists q, stress_parameters composite t c w a = Ok q.
Proof.
  unfold stress_parameters. intros H. destruct (needs_warping a); [|eexists; reflexivity].
  destruct w; [eexists; reflexivity|]. exfalso. apply H; reflexivity.
Qed.
Lemma sp_some composite t c w a q : stress_parameters composite t c w a = Ok q -> needs_warping a = true -> w <> None.
Proof. unfold stress_parameters. intros H N. rewrite N in H. destruct w; [discriminate|discriminate H]. Qed.

Lemma superposition composite t c w a b k l groups ra rb :
  calc_stress composite t c w a groups = Ok ra -> calc_stress composite t c w b groups = Ok rb ->
  exists rc, calc_stress composite t c w (lin_actions k a l b) groups = Ok rc /\ length rc = length groups /\
  forall g sa ca sb cb sc cc, nth_error ra g = Some (sa, ca) -> nth_error rb g = Some (sb, cb) -> nth_error rc g = Some (sc, cc) ->
  (forall ns so act i, In (ns, so, act) components -> ns sc i = k * ns sa i + l * ns sb i) /\
  (forall i, cb_zz (cc i) = k * cb_zz (ca i) + l * cb_zz (cb i) /\ cb_zx (cc i) = k * cb_zx (ca i) + l * cb_zx (cb i) /\
     cb_zy (cc i) = k * cb_zy (ca i) + l * cb_zy (cb i)).
Proof.
  intros Ha Hb. destruct (calc_inv _ _ _ _ _ _ _ Ha) as [pa [oa [sa' [ha [PA _]]]]]. destruct (calc_inv _ _ _ _ _ _ _ Hb) as [pb [ob [sb' [hb [PB _]]]]].
  destruct (sp_total composite t c w (lin_actions k a l b)) as [[[[pc oc] sc'] hc] PC].
  { intros N. destruct (needs_lin _ _ _ _ N) as [N'|N']; [apply (sp_some _ _ _ _ _ _ PA N')|apply (sp_some _ _ _ _ _ _ PB N')]. }
  eexists. split; [unfold calc_stress, bind; rewrite PC; reflexivity|]. split; [apply map_length|].
  intros g sa ca sb cb sc cc Na Nb Nc.
  destruct (calc_nth _ _ _ _ _ _ _ _ _ _ Ha Na) as [m [els [p1 [o1 [s1 [h1 [G1 [P1 [E1 E1']]]]]]]]].
  destruct (calc_nth _ _ _ _ _ _ _ _ _ _ Hb Nb) as [m2 [els2 [p2 [o2 [s2 [h2 [G2 [P2 [E2 E2']]]]]]]]].
  rewrite G1 in G2. injection G2 as <- <-.
  rewrite nth_error_map, G1 in Nc. cbn [option_map snd] in Nc. injection Nc as <- <-.
  assert (L : forall ns so act i, In (ns, so, act) components ->
     ns (group_stress (lin_actions k a l b) pc oc sc' hc els) i = k * ns sa i + l * ns sb i).
  { intros ns so act i Hin. subst sa sb. rewrite (group_linear _ _ _ _ _ _ _ _ _ els PC ns so act Hin i), (group_linear _ _ _ _ _ _ _ _ _ els P1 ns so act Hin i),
      (group_linear _ _ _ _ _ _ _ _ _ els P2 ns so act Hin i), (lin_act k a l b ns so act Hin). ring. }
  split; [exact L|]. intros i. rewrite E1', E2'. unfold combine_node. cbn [cb_zz cb_zx cb_zy].
  assert (C : forall x, In x components -> fst (fst x) (group_stress (lin_actions k a l b) pc oc sc' hc els) i = k * fst (fst x) sa i + l * fst (fst x) sb i).
  { intros [[ns so] act] Hx. exact (L ns so act i Hx). }
  unfold components in C. cbn [In] in C.
  pose proof (C _ (or_introl eq_refl)) as C0.
  pose proof (C _ (or_intror (or_introl eq_refl))) as C1.
  pose proof (C _ (or_intror (or_intror (or_introl eq_refl)))) as C2.
  pose proof (C _ (or_intror (or_intror (or_intror (or_introl eq_refl))))) as C3.
  pose proof (C _ (or_intror (or_intror (or_intror (or_intror (or_introl eq_refl)))))) as C4.
  pose proof (C _ (or_intror (or_intror (or_intror (or_intror (or_intror (or_introl eq_refl))))))) as C5.
  pose proof (C _ (or_intror (or_intror (or_intror (or_intror (or_intror (or_intror (or_introl eq_refl)))))))) as C6.
  pose proof (C _ (or_intror (or_intror (or_intror (or_intror (or_intror (or_intror (or_intror (or_introl eq_refl))))))))) as C7.
  pose proof (C _ (or_intror (or_intror (or_intror (or_intror (or_intror (or_intror (or_intror (or_intror (or_introl eq_refl)))))))))) as C8.
  pose proof (C _ (or_intror (or_intror (or_intror (or_intror (or_intror (or_intror (or_intror (or_intror (or_intror (or_introl eq_refl))))))))))) as C9.
  pose proof (C _ (or_intror (or_intror (or_intror (or_intror (or_intror (or_intror (or_intror (or_intror (or_intror (or_intror (or_introl eq_refl)))))))))))) as C10.
  cbn [fst snd] in C0, C1, C2, C3, C4, C5, C6, C7, C8, C9, C10.
  rewrite C0, C1, C2, C3, C4, C5, C6, C7, C8, C9, C10. repeat split; ring.
Qed.

(** a stress component depends only on the stress resultant that causes it *)
Lemma no_coupling composite t c w a b groups ra rb g sa ca sb cb ns so act i :
  calc_stress composite t c w a groups = Ok ra -> calc_stress composite t c w b groups = Ok rb ->
  nth_error ra g = Some (sa, ca) -> nth_error rb g = Some (sb, cb) -> In (ns, so, act) components -> act a = act b ->
  ns sa i = ns sb i.
Proof.
  intros Ha Hb Na Nb Hin E.
  destruct (calc_nth _ _ _ _ _ _ _ _ _ _ Ha Na) as [m [els [p1 [o1 [s1 [h1 [G1 [P1 [E1 E1']]]]]]]]].
  destruct (calc_nth _ _ _ _ _ _ _ _ _ _ Hb Nb) as [m2 [els2 [p2 [o2 [s2 [h2 [G2 [P2 [E2 E2']]]]]]]]].
  rewrite G1 in G2. injection G2 as <- <-. subst sa sb.
  rewrite (group_linear _ _ _ _ _ _ _ _ _ els P1 ns so act Hin i), (group_linear _ _ _ _ _ _ _ _ _ els P2 ns so act Hin i), E. reflexivity.
Qed.

Lemma averaging composite t c w a groups res k s cb m els p om ps ph :
  stress_parameters composite t c w a = Ok (p, om, ps, ph) ->
  calc_stress composite t c w a groups = Ok res -> nth_error res k = Some (s, cb) -> nth_error groups k = Some (m, els) ->
  distinct_ids els ->
  forall ns so act i, In (ns, so, act) components ->
  let h el := so (element_stress el a p (gather om (el_ids el)) (gather ps (el_ids el)) (gather ph (el_ids el))) in
  (in_group els i ->
    ns s i = weighted_mean (contributions h els i) /\ (forall q, In q (contributions h els i) -> 0 < fst q) /\
    ((forall el j, In el els -> has_node el j i -> (j < 3)%nat) \/ (forall el j, In el els -> has_node el j i -> (3 <= j)%nat) ->
     ns s i = mean (map snd (contributions h els i)))) /\
  (~ in_group els i -> ns s i = 0).
Proof.
  intros HP Hc Hk Hg Hd ns so act i Hin h.
  destruct (calc_nth _ _ _ _ _ _ _ _ _ _ Hc Hk) as [m' [els' [p' [om' [ps' [ph' [G1 [P1 [E1 _]]]]]]]]].
  rewrite HP in P1. injection P1 as <- <- <- <-. rewrite Hg in G1. injection G1 as <- <-.
  assert (F : ns s i = average (num h els) (den els) i). { rewrite E1. exact (group_form a p om ps ph els ns so act Hin i). }
  destruct (average_wm h els i Hd) as [A1 A2]. split.
  - intros Hi. rewrite F, (A1 Hi). split; [reflexivity|]. split; [intros q; apply contrib_w_pos, Hd|].
    intros Hpos. pose proof sw_pos as W. destruct Hpos as [Hj|Hj].
    + apply (wm_equal (v0 stress_weights)); [lra|apply contrib_ne; assumption|]. intros q Hq.
      destruct (contrib_in h els i q Hd Hq) as [el [j [Hel [Hn [_ ->]]]]]. specialize (Hj el j Hel Hn). cbn [fst].
      do 3 (destruct j as [|j]; [cbn [nth6]; tauto|]). lia.
    + apply (wm_equal (v3 stress_weights)); [lra|apply contrib_ne; assumption|]. intros q Hq.
      destruct (contrib_in h els i q Hd Hq) as [el [j [Hel [Hn [H6 ->]]]]]. specialize (Hj el j Hel Hn). cbn [fst].
      do 6 (destruct j as [|j]; [try lia; cbn [nth6]; tauto|]). lia.
  - intros Hi. rewrite F. exact (A2 Hi).
Qed.

Lemma groups_separate composite t c w a groups groups' res res' k k' :
  calc_stress composite t c w a groups = Ok res -> calc_stress composite t c w a groups' = Ok res' ->
  nth_error groups k = nth_error groups' k' -> nth_error res k = nth_error res' k'.
Proof.
  intros H H' E. destruct (calc_inv _ _ _ _ _ _ _ H) as [p [om [ps [ph [HP ->]]]]]. destruct (calc_inv _ _ _ _ _ _ _ H') as [p' [om' [ps' [ph' [HP' ->]]]]].
  rewrite HP in HP'. injection HP' as <- <- <- <-. rewrite !nth_error_map, E. reflexivity.
Qed.

(** ** Combined stresses *)

Lemma combined_facts s i : let b := combine_node s i in
  cb_zxy b ^ 2 = cb_zx b ^ 2 + cb_zy b ^ 2 /\ 0 <= cb_zxy b /\
  is_principal (cb_11 b) (cb_zz b) (cb_zx b) (cb_zy b) /\ is_principal (cb_33 b) (cb_zz b) (cb_zx b) (cb_zy b) /\
  is_principal 0 (cb_zz b) (cb_zx b) (cb_zy b) /\
  (forall e, is_principal e (cb_zz b) (cb_zx b) (cb_zy b) -> e = cb_11 b \/ e = 0 \/ e = cb_33 b) /\
  cb_33 b <= 0 <= cb_11 b /\ cb_11 b + cb_33 b = cb_zz b /\
  cb_vm b ^ 2 = cb_zz b ^ 2 + 3 * (cb_zx b ^ 2 + cb_zy b ^ 2) /\
  cb_vm b ^ 2 = cb_11 b ^ 2 - cb_11 b * cb_33 b + cb_33 b ^ 2 /\
  0 <= cb_vm b /\ (cb_vm b = 0 <-> cb_zz b = 0 /\ cb_zx b = 0 /\ cb_zy b = 0).
Proof.
  intros b. unfold b, combine_node. cbn [cb_zz cb_zx cb_zy cb_zxy cb_11 cb_33 cb_vm].
  set (zz := ns_zz_n s i + _). set (zx := ns_zx_mzz s i + _). set (zy := ns_zy_mzz s i + _). clearbody zz zx zy. clear b s i.
  pose proof (pow2_ge_0 zx) as X. pose proof (pow2_ge_0 zy) as Y. pose proof (pow2_ge_0 zz) as Z.
  assert (E : sqrt (zx ^ 2 + zy ^ 2) ^ 2 = zx ^ 2 + zy ^ 2) by (apply pow2_sqrt; lra). rewrite E.
  set (d := sqrt ((zz / 2) ^ 2 + (zx ^ 2 + zy ^ 2))).
  assert (D : d ^ 2 = (zz / 2) ^ 2 + (zx ^ 2 + zy ^ 2)). { apply pow2_sqrt. pose proof (pow2_ge_0 (zz / 2)). lra. }
  assert (D0 : 0 <= d) by apply sqrt_pos.
  assert (V : sqrt (zz ^ 2 + 3 * (zx ^ 2 + zy ^ 2)) ^ 2 = zz ^ 2 + 3 * (zx ^ 2 + zy ^ 2)) by (apply pow2_sqrt; lra).
  assert (V0 : 0 <= sqrt (zz ^ 2 + 3 * (zx ^ 2 + zy ^ 2))) by apply sqrt_pos.
  assert (PR : forall e, e ^ 2 - zz * e - (zx ^ 2 + zy ^ 2) = 0 -> is_principal e zz zx zy).
  { intros e He. destruct (Req_dec e 0) as [Z0|Z0].
    - subst e. assert (zx = 0 /\ zy = 0) as [-> ->]. { split; nra. } exists 1, 0, 0. repeat split; try ring. left. lra.
    - exists zx, zy, e. repeat split; try ring; [right; right; exact Z0|]. nra. }
  assert (DH : Rabs (zz / 2) <= d). { apply Rsqr_incr_0; [|apply Rabs_pos|exact D0]. rewrite <- Rsqr_abs. unfold Rsqr. nra. }
  pose proof (Rabs_le_between (zz / 2) d) as [RB _]. specialize (RB DH).
  split; [reflexivity|]. split; [apply sqrt_pos|]. split; [apply PR; nra|]. split; [apply PR; nra|].
  split. { destruct (Req_dec zx 0) as [Z0|Z0]; [subst; exists 1, 0, 0|exists (- zy), zx, 0]; repeat split; try ring; [left; lra|right; left; exact Z0]. }
  split.
  { intros e [x [y [z [Hn [H1 [H2 H3]]]]]]. destruct (Req_dec e 0) as [Z0|Z0]; [auto|].
    assert (Hz : z <> 0). { intros ->. destruct Hn as [N|[N|N]]; try lra; apply N; [apply (Rmult_eq_reg_l e)|apply (Rmult_eq_reg_l e)]; lra. }
    assert (Q : e ^ 2 - zz * e - (zx ^ 2 + zy ^ 2) = 0).
    { apply (Rmult_eq_reg_l z); [|exact Hz]. replace (z * (e ^ 2 - zz * e - (zx ^ 2 + zy ^ 2))) with (e * (e * z) - zz * z * e - zx * (zx * z) - zy * (zy * z)) by ring.
      rewrite H1, H2, <- H3. ring. }
    assert (F : (e - (zz / 2 + d)) * (e - (zz / 2 - d)) = 0) by nra.
    apply Rmult_integral in F as [F|F]; [left|right; right]; lra. }
  split; [lra|]. split; [field|]. split; [exact V|]. split; [rewrite V; nra|]. split; [exact V0|].
  split.
  - intros H. rewrite H in V. repeat split; nra.
  - intros [-> [-> ->]]. apply Rsqr_0_uniq. unfold Rsqr. nra.
Qed.
