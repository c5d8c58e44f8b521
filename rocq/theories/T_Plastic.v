(** Theorems about the plastic analysis: C46, C47, C48, C49, C57. *)
From Coquelicot Require Import Coquelicot.
From Coq Require Import Reals List Lra Lia Permutation Bool ClassicalDescription IndefiniteDescription.
From Verif Require Import Base S_Integral P_Integral M_Fea S_Fem P_Fea P_Geom M_Section S_Section S_Post P_Section P_Totals P_Post P_Yield M_Bisect M_Props M_Plastic S_Plastic P_Ridge P_Plastic P_Plastic2 P_Plastic3 P_Plastic4 P_Clip P_Shape S_Shape P_Plastic5 P_Plastic6 P_Plastic7 M_Post T_Fea T_Section.
Import ListNotations.
Local Open Scope R_scope.

(** ** C46 *)

Theorem C46_force_split : forall gs shapes u axis1 d, unit_vec u -> section_covers gs shapes ->
  let p := line_point d (perpendicular u axis1) in
  let f := calculate_plastic_force gs u p in
  0 <= fo_top f /\ 0 <= fo_bot f /\ fo_top f + fo_bot f = total_yield_force (concat shapes) /\
  -1 <= evaluate_force_eq gs d u (perpendicular u axis1) <= 1.
Proof.
  intros gs shapes u axis1 d Hu Hc p f.
  destruct (force_nonneg gs shapes u axis1 Hu Hc d) as [A B].
  split; [exact A|]. split; [exact B|]. split; [exact (force_total gs shapes u axis1 Hu Hc d)|].
  exact (imb_range gs shapes u axis1 Hu Hc d).
Qed.

Theorem C46_monotone : forall gs shapes u axis1, unit_vec u -> section_covers gs shapes ->
  let f d := evaluate_force_eq gs d u (perpendicular u axis1) in
  (forall d d', d <= d' -> f d <= f d') \/ (forall d d', d <= d' -> f d' <= f d).
Proof.
  intros gs shapes u axis1 Hu Hc f. pose proof (imb_monotone gs shapes u axis1 Hu Hc) as M.
  unfold imbalance in M. destruct (axis_sign_cases u axis1) as [E|E]; rewrite E in M; [right|left];
    intros d d' H; specialize (M d d' H); unfold f; lra.
Qed.

(** The root finder is only ever started on an interval at whose ends the imbalance is +1 and -1: its behaviour
    elsewhere does not influence the analysis. *)
Theorem C46_bracket : forall b1 b2 g get default shapes,
  section_covers (pl_geoms g) shapes -> surrounds (pl_points g) (concat shapes) ->
  (forall f lo hi s, lo <= hi -> (s = 1 \/ s = -1) -> f lo = s -> f hi = - s -> b1 f lo hi = b2 f lo hi) ->
  plastic_analysis b1 g get default = plastic_analysis b2 g get default.
Proof. exact bracket_only. Qed.

(** Between two lines that enclose the section there is a line of zero imbalance. *)
Theorem C46_balanced_line : forall gs shapes u axis1 lo hi, unit_vec u -> section_covers gs shapes -> lo <= hi ->
  let n := perpendicular u axis1 in
  (forall t p, In t (concat shapes) -> In p (corners t) -> lo <= height n (fst p) (snd p) <= hi) ->
  evaluate_force_eq gs lo u n * evaluate_force_eq gs hi u n = -1 /\
  exists d, lo <= d <= hi /\ evaluate_force_eq gs d u n = 0.
Proof.
  intros gs shapes u axis1 lo hi Hu Hc L n Hb. split.
  - pose proof (imb_low gs shapes u axis1 Hu Hc lo (fun t p Ht Hp => proj1 (Hb t p Ht Hp))) as A.
    pose proof (imb_high gs shapes u axis1 Hu Hc hi (fun t p Ht Hp => proj2 (Hb t p Ht Hp))) as B.
    unfold imbalance in A, B. fold n in A, B. rewrite A, B.
    destruct (axis_sign_cases u axis1) as [E|E]; rewrite E; ring.
  - destruct (balanced_exists gs shapes u axis1 Hu Hc lo hi L Hb) as (d & Hd & E). exists d. split; [exact Hd|].
    unfold evaluate_force_eq. fold n in E. rewrite E. unfold Rdiv. ring.
Qed.

(** ** C47 *)

(** The stored modulus is the integral of fy times the distance to the stored neutral axis (up to the tolerance
    of the root finder, exactly when the last evaluation was at the root), and up to the tolerance it is the
    largest moment of any stress field within yield and without axial force; such a largest moment exists. *)
Theorem C47_plastic_modulus : forall brentq tol g get default ws shapes phi P k,
  section_covers (pl_geoms g) shapes -> surrounds (pl_points g) (concat shapes) -> root_within tol brentq ->
  get M_Props.p_phi = Some phi -> plastic_analysis brentq g get default = (ws, Ok tt) ->
  let n := direction phi k in let sec := concat shapes in let F := total_yield_force sec in
  exists pc s, num (apply_writes P ws) (pc_prop k) = Some pc /\ num (apply_writes P ws) (s_prop k) = Some s /\
    yield_moment_about sec n pc - 2 * F * tol <= s <= yield_moment_about sec n pc /\
    (exists m, is_plastic_moment sec n m) /\
    (forall m, is_plastic_moment sec n m -> m - 2 * F * tol <= s <= m + F * tol).
Proof.
  intros brentq tol g get default ws shapes phi P k Hc Hs Hr Hphi H n sec F.
  destruct (analysis_axis brentq tol g get default ws shapes phi P k Hc Hs Hr Hphi H) as (pc & s & E1 & E2 & B & M).
  fold n in B, M. fold sec in B, M. fold F in B, M.
  exists pc, s. split; [exact E1|]. split; [exact E2|]. split; [exact B|].
  destruct (balanced_axis g shapes phi k Hc Hs) as (d0 & fld & A & E). fold n in A, E. fold sec in A, E.
  assert (PM : is_plastic_moment sec n (yield_moment_about sec n d0)).
  { split; [exists fld; auto|]. intros fld' A'. exact (max_axis g shapes phi k fld' d0 Hc A'). }
  split; [exists (yield_moment_about sec n d0); exact PM|].
  intros m [(f1 & A1 & E3) U].
  assert (Em : m = yield_moment_about sec n d0).
  { apply Rle_antisym; [rewrite <- E3; apply PM, A1|rewrite <- E; apply U, A]. }
  assert (m <= yield_moment_about sec n pc). { rewrite <- E3. exact (max_axis g shapes phi k f1 pc Hc A1). }
  specialize (M d0). rewrite Em in *. lra.
Qed.

(** The analysis completes exactly when the four root findings converge, otherwise it raises RuntimeError. *)
Theorem C47_completes : forall brentq g get default phi, get M_Props.p_phi = Some phi ->
  let run k := brentq (fun d => evaluate_force_eq (pl_geoms g) d (axis_u phi k) (perpendicular (axis_u phi k) (axis_b k)))
                 (fst (axis_lim (pl_points g) phi k)) (snd (axis_lim (pl_points g) phi k)) in
  ((forall k, rr_converged (run k) = true) <-> exists ws, plastic_analysis brentq g get default = (ws, Ok tt)) /\
  (forall ws e, plastic_analysis brentq g get default = (ws, Err e) -> e = RuntimeError).
Proof. exact analysis_total. Qed.

(** With a root finder that stops exactly at a root the modulus is the plastic moment. *)
Corollary C47_exact : forall brentq g get default ws shapes phi P k,
  section_covers (pl_geoms g) shapes -> surrounds (pl_points g) (concat shapes) -> root_within 0 brentq ->
  get M_Props.p_phi = Some phi -> plastic_analysis brentq g get default = (ws, Ok tt) ->
  exists pc s, num (apply_writes P ws) (pc_prop k) = Some pc /\ num (apply_writes P ws) (s_prop k) = Some s /\
    s = yield_moment_about (concat shapes) (direction phi k) pc /\
    is_plastic_moment (concat shapes) (direction phi k) s.
Proof.
  intros brentq g get default ws shapes phi P k Hc Hs Hr Hphi H.
  destruct (C47_plastic_modulus brentq 0 g get default ws shapes phi P k Hc Hs Hr Hphi H) as (pc & s & E1 & E2 & B & (m & Hm) & U).
  exists pc, s. split; [exact E1|]. split; [exact E2|]. split; [lra|].
  specialize (U m Hm). replace s with m by lra. exact Hm.
Qed.

(** ** C48 *)

(** A section of the default material (E = 1, fy = 1): the plastic modulus is at least the smaller elastic
    modulus and the larger shape factor is at least one, up to the tolerance of the root finder and, for the
    11-axis, the relative tolerance 1e-12 of the principal angle. *)
Theorem C48_shape_factor : forall brentq tol g get ws shapes els nodes m sx sy P k,
  section_covers (pl_geoms g) shapes -> surrounds (pl_points g) (concat shapes) -> root_within tol brentq ->
  els <> [] -> valid_mesh els -> (forall el, In el els -> m_E (el_mat el) = 1 /\ m_fy (el_mat el) = 1) ->
  mesh_nodes_in els nodes -> same_section els sx sy shapes ->
  let t := section_totals els in let c := centroidal_of t in
  moduli_of t c nodes = Ok m -> get M_Props.p_phi = Some (p_phi c) ->
  (forall k, get (z_plus_prop k) = Some (z_plus m k) /\ get (z_minus_prop k) = Some (z_minus m k)) ->
  plastic_analysis brentq g get true = (ws, Ok tt) ->
  let slack := 2 * total_yield_force (concat shapes) * tol in
  let z := Rmin (z_plus m k) (z_minus m k) in
  exists s sfp sfm, num (apply_writes P ws) (s_prop k) = Some s /\
    num (apply_writes P ws) (sf_plus_prop k) = Some sfp /\ num (apply_writes P ws) (sf_minus_prop k) = Some sfm /\
    0 < z /\ z * (1 - axis_tol k) <= s + slack /\ 1 - axis_tol k <= Rmax sfp sfm + slack / z.
Proof.
  intros brentq tol g get ws shapes els nodes m sx sy P k Hc Hs Hr Hn Hv Hd Hno Hb t c HM Hphi Hz H slack z.
  set (ratio := about els (direction (p_phi c) k) / inertia_of c k).
  assert (Hp : pos_moduli els) by (intros el Hel; destruct (Hd el Hel) as [-> _]; lra).
  pose proof (ea_pos els Hn Hv Hp) as He.
  pose proof (inertia_all els k Hn Hv Hp) as HI. fold t in HI. fold c in HI.
  pose proof (fun k => moduli_pos els nodes m k Hn Hv Hp Hno HM) as Zp.
  assert (HR : 1 - axis_tol k <= ratio).
  { unfold ratio. apply Rmult_le_reg_r with (inertia_of c k); [exact HI|]. unfold Rdiv. rewrite Rmult_assoc, Rinv_l by lra. rewrite Rmult_1_r.
    exact (about_ge els k Hn Hv Hp). }
  destruct (analysis_axis brentq tol g get true ws shapes (p_phi c) P k Hc Hs Hr Hphi H) as (pc & s & E1 & E2 & B & M).
  assert (X : z * ratio <= s + slack).
  { destruct (elastic_bound els nodes m sx sy shapes k Hn Hv Hd Hno Hb HM) as (fld & A & E). fold t in A, E. fold c in A, E. fold z in E.
    pose proof (max_axis g shapes (p_phi c) k fld pc Hc A) as U.
    assert (z * ratio = field_moment (direction (p_phi c) k) fld).
    { unfold ratio. apply Rmult_eq_reg_r with (inertia_of c k); [|lra]. rewrite E. field. lra. }
    unfold slack. lra. }
  assert (Z0 : 0 < z) by (destruct (Zp k); apply Rmin_pos; assumption).
  destruct (analysis_writes _ _ _ _ _ _ Hphi H) as [_ EW].
  destruct (stored brentq g get true (p_phi c) ws P k Hphi H) as [_ ES]. rewrite E2 in ES. injection ES as ES.
  set (SS := axis_s brentq g (p_phi c)) in *.
  assert (AV : forall k, available get (z_plus_prop k) /\ available get (z_minus_prop k)).
  { intros k0. destruct (Hz k0) as [Z1 Z2]. destruct (Zp k0). split; [exists (z_plus m k0)|exists (z_minus m k0)]; split; try assumption; lra. }
  assert (V : forall k, value (get (z_plus_prop k)) = z_plus m k /\ value (get (z_minus_prop k)) = z_minus m k).
  { intros k0. destruct (Hz k0) as [-> ->]. split; reflexivity. }
  assert (Q : num (apply_writes P ws) (sf_plus_prop k) = Some (s / z_plus m k) /\ num (apply_writes P ws) (sf_minus_prop k) = Some (s / z_minus m k)).
  { rewrite EW, apply_writes_app. set (P1 := apply_writes P _).
    destruct (sf_default get (SS axis_x) (SS axis_y) (SS axis_11) (SS axis_22) P1) as [D1 D2]. cbv zeta in D1, D2. fold SS.
    pose proof (AV axis_x) as [a1 a2]. pose proof (AV axis_y) as [a3 a4]. pose proof (AV axis_11) as [a5 a6]. pose proof (AV axis_22) as [a7 a8].
    cbn [z_plus_prop z_minus_prop] in a1, a2, a3, a4, a5, a6, a7, a8.
    destruct D1 as [(_ & F1 & F2 & F3 & F4)|[N _]]; [|tauto].
    destruct D2 as [(_ & F5 & F6 & F7 & F8)|[N _]]; [|tauto].
    destruct (V k) as [V1 V2]. rewrite <- V1, <- V2, ES. destruct k; cbn [sf_plus_prop sf_minus_prop z_plus_prop z_minus_prop]; auto. }
  destruct Q as [Q1 Q2].
  exists s, (s / z_plus m k), (s / z_minus m k).
  split; [exact E2|]. split; [exact Q1|]. split; [exact Q2|]. split; [exact Z0|].
  split; [apply Rle_trans with (z * ratio); [apply Rmult_le_compat_l; lra|exact X]|].
  destruct (Zp k) as [Zk1 Zk2].
  assert (Y : s / z <= Rmax (s / z_plus m k) (s / z_minus m k)).
  { unfold z. unfold Rmin. destruct (Rle_dec (z_plus m k) (z_minus m k)); [apply Rmax_l|apply Rmax_r]. }
  assert (ratio <= s / z + slack / z); [|lra].
  apply Rmult_le_reg_r with z; [exact Z0|]. replace ((s / z + slack / z) * z) with (s + slack) by (field; lra). lra.
Qed.

(** ** C49 *)

Theorem C49_default_factors : forall brentq g get phi ws P,
  get M_Props.p_phi = Some phi -> plastic_analysis brentq g get true = (ws, Ok tt) ->
  let P' := apply_writes P ws in
  let avail k := available get (z_plus_prop k) /\ available get (z_minus_prop k) in
  forall k, exists s, num P' (s_prop k) = Some s /\
    (avail k /\ avail (partner k) -> exists zp zm, get (z_plus_prop k) = Some zp /\ get (z_minus_prop k) = Some zm /\
       num P' (sf_plus_prop k) = Some (s / zp) /\ num P' (sf_minus_prop k) = Some (s / zm)) /\
    (~ (avail k /\ avail (partner k)) -> num P' (sf_plus_prop k) = num P (sf_plus_prop k) /\ num P' (sf_minus_prop k) = num P (sf_minus_prop k)).
Proof.
  intros brentq g get phi ws P Hphi H P' avail k.
  destruct (analysis_writes _ _ _ _ _ _ Hphi H) as [_ EW].
  destruct (stored brentq g get true phi ws P k Hphi H) as [_ ES].
  exists (axis_s brentq g phi k). split; [exact ES|].
  set (SS := axis_s brentq g phi) in *.
  unfold P'. rewrite EW, apply_writes_app. set (W1 := concat _). fold SS.
  assert (EO : forall q, is_sf q -> num (apply_writes P W1) q = num P q).
  { intros q Hq. apply apply_other. intros w Hw. unfold W1 in Hw. cbn [map concat app In] in Hw.
    unfold is_sf in Hq. cbn [In] in Hq.
    repeat destruct Hw as [<-|Hw]; try contradiction; cbn [writes_of pc_prop s_prop]; intros Y; injection Y as <-;
      repeat (destruct Hq as [Hq|Hq]; [discriminate|]); exact Hq. }
  destruct (sf_default get (SS axis_x) (SS axis_y) (SS axis_11) (SS axis_22) (apply_writes P W1)) as [D1 D2]. cbv zeta in D1, D2.
  assert (VA : forall q, available get q -> get q = Some (value (get q))).
  { intros q (v & E & _). rewrite E. reflexivity. }
  split.
  - intros [[A1 A2] [A3 A4]]. exists (value (get (z_plus_prop k))), (value (get (z_minus_prop k))).
    split; [apply VA, A1|]. split; [apply VA, A2|].
    destruct k; cbn [z_plus_prop z_minus_prop sf_plus_prop sf_minus_prop partner] in *.
    + destruct D1 as [(_ & F)|[N _]]; [tauto|exfalso; tauto].
    + destruct D1 as [(_ & F)|[N _]]; [tauto|exfalso; tauto].
    + destruct D2 as [(_ & F)|[N _]]; [tauto|exfalso; tauto].
    + destruct D2 as [(_ & F)|[N _]]; [tauto|exfalso; tauto].
  - unfold avail. intros N. rewrite <- !EO by (unfold is_sf; destruct k; cbn [sf_plus_prop sf_minus_prop In]; tauto).
    destruct k; cbn [z_plus_prop z_minus_prop sf_plus_prop sf_minus_prop partner] in *.
    + destruct D1 as [(A & _)|[_ F]]; [exfalso; tauto|]. split; apply F; cbn [In]; tauto.
    + destruct D1 as [(A & _)|[_ F]]; [exfalso; tauto|]. split; apply F; cbn [In]; tauto.
    + destruct D2 as [(A & _)|[_ F]]; [exfalso; tauto|]. split; apply F; cbn [In]; tauto.
    + destruct D2 as [(A & _)|[_ F]]; [exfalso; tauto|]. split; apply F; cbn [In]; tauto.
Qed.

Theorem C49_composite_factors : forall brentq g get phi ws P,
  get M_Props.p_phi = Some phi -> plastic_analysis brentq g get false = (ws, Ok tt) ->
  let P' := apply_writes P ws in
  forall k, exists s, num P' (s_prop k) = Some s /\
    (available get (my_prop k) /\ available get (my_prop (partner k)) -> exists my, get (my_prop k) = Some my /\
       num P' (sf_plus_prop k) = Some (s / my) /\ num P' (sf_minus_prop k) = Some (s / my)) /\
    (~ (available get (my_prop k) /\ available get (my_prop (partner k))) ->
       num P' (sf_plus_prop k) = num P (sf_plus_prop k) /\ num P' (sf_minus_prop k) = num P (sf_minus_prop k)).
Proof.
  intros brentq g get phi ws P Hphi H P' k.
  destruct (analysis_writes _ _ _ _ _ _ Hphi H) as [_ EW].
  destruct (stored brentq g get false phi ws P k Hphi H) as [_ ES].
  exists (axis_s brentq g phi k). split; [exact ES|].
  set (SS := axis_s brentq g phi) in *.
  unfold P'. rewrite EW, apply_writes_app. set (W1 := concat _). fold SS.
  assert (EO : forall q, is_sf q -> num (apply_writes P W1) q = num P q).
  { intros q Hq. apply apply_other. intros w Hw. unfold W1 in Hw. cbn [map concat app In] in Hw.
    unfold is_sf in Hq. cbn [In] in Hq.
    repeat destruct Hw as [<-|Hw]; try contradiction; cbn [writes_of pc_prop s_prop]; intros Y; injection Y as <-;
      repeat (destruct Hq as [Hq|Hq]; [discriminate|]); exact Hq. }
  destruct (sf_composite get (SS axis_x) (SS axis_y) (SS axis_11) (SS axis_22) (apply_writes P W1)) as [D1 D2]. cbv zeta in D1, D2.
  assert (VA : forall q, available get q -> get q = Some (value (get q))).
  { intros q (v & E & _). rewrite E. reflexivity. }
  split.
  - intros [A1 A2]. exists (value (get (my_prop k))). split; [apply VA, A1|].
    destruct k; cbn [my_prop sf_plus_prop sf_minus_prop partner] in *.
    + destruct D1 as [(_ & F)|[N _]]; [tauto|exfalso; tauto].
    + destruct D1 as [(_ & F)|[N _]]; [tauto|exfalso; tauto].
    + destruct D2 as [(_ & F)|[N _]]; [tauto|exfalso; tauto].
    + destruct D2 as [(_ & F)|[N _]]; [tauto|exfalso; tauto].
  - intros N. rewrite <- !EO by (unfold is_sf; destruct k; cbn [sf_plus_prop sf_minus_prop In]; tauto).
    destruct k; cbn [my_prop sf_plus_prop sf_minus_prop partner] in *.
    + destruct D1 as [(A & _)|[_ F]]; [exfalso; tauto|]. split; apply F; cbn [In]; tauto.
    + destruct D1 as [(A & _)|[_ F]]; [exfalso; tauto|]. split; apply F; cbn [In]; tauto.
    + destruct D2 as [(A & _)|[_ F]]; [exfalso; tauto|]. split; apply F; cbn [In]; tauto.
    + destruct D2 as [(A & _)|[_ F]]; [exfalso; tauto|]. split; apply F; cbn [In]; tauto.
Qed.

(** The plastic moment is at least the yield moment, for any materials. *)
Theorem C49_at_least_yield : forall brentq tol g get default ws shapes els groups sx sy P k,
  section_covers (pl_geoms g) shapes -> surrounds (pl_points g) (concat shapes) -> root_within tol brentq ->
  els <> [] -> valid_mesh els -> pos_moduli els -> groups_ok groups els -> (forall el, In el els -> 0 < m_fy (el_mat el)) ->
  same_section els sx sy shapes ->
  let c := centroidal_of (section_totals els) in let my := yield_moments c groups in
  get M_Props.p_phi = Some (p_phi c) -> plastic_analysis brentq g get default = (ws, Ok tt) ->
  let slack := 2 * total_yield_force (concat shapes) * tol in
  exists s, num (apply_writes P ws) (s_prop k) = Some s /\ 0 < my_of my k /\
    my_of my k * (1 - axis_tol k) <= s + slack.
Proof.
  intros brentq tol g get default ws shapes els groups sx sy P k Hc Hs Hr Hn Hv Hp Hg Hfy Hb c my Hphi H slack.
  set (ratio := about els (direction (p_phi c) k) / inertia_of c k).
  pose proof (ea_pos els Hn Hv Hp) as He.
  pose proof (inertia_all els k Hn Hv Hp) as HI. fold c in HI.
  assert (HR : 1 - axis_tol k <= ratio).
  { unfold ratio. apply Rmult_le_reg_r with (inertia_of c k); [exact HI|]. unfold Rdiv. rewrite Rmult_assoc, Rinv_l by lra. rewrite Rmult_1_r.
    exact (about_ge els k Hn Hv Hp). }
  pose proof (my_pos els groups k Hn Hv Hp Hg Hfy) as MP. fold c my in MP.
  destruct (analysis_axis brentq tol g get default ws shapes (p_phi c) P k Hc Hs Hr Hphi H) as (pc & s & E1 & E2 & B & M).
  exists s. split; [exact E2|]. split; [exact MP|].
  destruct (yield_bound els groups sx sy shapes k Hn Hv Hp Hg Hfy Hb) as (fld & A & E). fold c in A, E. fold my in E.
  pose proof (max_axis g shapes (p_phi c) k fld pc Hc A) as U.
  assert (my_of my k * ratio = field_moment (direction (p_phi c) k) fld).
  { unfold ratio. apply Rmult_eq_reg_r with (inertia_of c k); [|lra]. rewrite E. field. lra. }
  apply Rle_trans with (my_of my k * ratio); [apply Rmult_le_compat_l; lra|]. unfold slack. lra.
Qed.

(** ** C57 *)

(** For every direction that is not (nearly) zero and every bounding box the segment is on the line through p in
    the direction v and crosses the box from side to side. *)
Theorem C57_line_segment : forall p v xmin xmax ymin ymax, xmin < xmax -> ymin < ymax ->
  (1 / 10 ^ 12 < Rabs (fst v) \/ snd v <> 0) ->
  let b := (xmin, xmax, ymin, ymax) in
  exists k1 k2, k1 <> k2 /\
    create_line_segment p v b = ((fst p + k1 * fst v, snd p + k1 * snd v), (fst p + k2 * fst v, snd p + k2 * snd v)) /\
    spans b (create_line_segment p v b).
Proof.
  intros p v xmin xmax ymin ymax Hx Hy Hv b.
  destruct (line_form p v b) as (k1 & k2 & E & Hk & Hs).
  - split; assumption.
  - exact Hv.
  - exists k1, k2. auto.
Qed.

(** The polygons are distributed by their representative points: above the line (to the right of a vertical
    line) to the top, below (left) to the bottom; those exactly on the line are dropped. *)
Theorem C57_grouping : forall polys x1 y1 x2 y2,
  let line := ((x1, y1), (x2, y2)) in
  let above (q : R * R) := if Req_EM_T x1 x2 then fst q - x1 else (snd q - y1) - (y2 - y1) / (x2 - x1) * (fst q - x1) in
  let '(top, bot) := group_top_and_bottom_polys polys line in
  (forall q, In q top <-> In q polys /\ 0 < above (pc_rep q)) /\
  (forall q, In q bot <-> In q polys /\ above (pc_rep q) < 0) /\
  ((forall q, In q polys -> above (pc_rep q) <> 0) -> Permutation (top ++ bot) polys).
Proof.
  intros polys x1 y1 x2 y2 line above.
  assert (S : forall q, side_of line q = if Rlt_dec (above q) 0 then Bottom else if Rlt_dec 0 (above q) then Top else On).
  { intros [qx qy]. unfold side_of, line_mx_plus_b, line, above. cbn [fst snd].
    destruct (Req_EM_T (x2 - x1) 0) as [E|E]; destruct (Req_EM_T x1 x2) as [E'|E']; try lra.
    - destruct (Rlt_dec qx x1), (Rlt_dec (qx - x1) 0); try lra; try reflexivity.
      destruct (Rlt_dec x1 qx), (Rlt_dec 0 (qx - x1)); try lra; reflexivity.
    - set (m := (y2 - y1) / (x2 - x1)).
      destruct (Rlt_dec qy (m * qx + (y1 - m * x1))), (Rlt_dec (qy - y1 - m * (qx - x1)) 0); try lra; try reflexivity.
      destruct (Rlt_dec (m * qx + (y1 - m * x1)) qy), (Rlt_dec 0 (qy - y1 - m * (qx - x1))); try lra; reflexivity. }
  induction polys as [|q polys IH]; cbn [group_top_and_bottom_polys].
  - repeat split; try tauto. intros. apply perm_nil.
  - destruct (group_top_and_bottom_polys polys line) as [top bot]. destruct IH as (I1 & I2 & I3). rewrite S.
    destruct (Rlt_dec (above (pc_rep q)) 0) as [L|L]; [|destruct (Rlt_dec 0 (above (pc_rep q))) as [G|G]]; (split; [|split]).
    + intros r. rewrite I1. cbn [In]. split; [tauto|]. intros [[<-|Hr] Hp]; [lra|auto].
    + intros r. cbn [In]. rewrite I2. split; [intros [<-|[? ?]]; auto|]. intros [[<-|Hr] Hp]; auto.
    + intros Hn. eapply Permutation_trans; [apply Permutation_sym, Permutation_middle|]. apply perm_skip, I3. intros r Hr. apply Hn. right; exact Hr.
    + intros r. cbn [In]. rewrite I1. split; [intros [<-|[? ?]]; auto|]. intros [[<-|Hr] Hp]; auto.
    + intros r. rewrite I2. cbn [In]. split; [tauto|]. intros [[<-|Hr] Hp]; [lra|auto].
    + intros Hn. cbn [app]. apply perm_skip, I3. intros r Hr. apply Hn. right; exact Hr.
    + intros r. rewrite I1. cbn [In]. split; [tauto|]. intros [[<-|Hr] Hp]; [lra|auto].
    + intros r. rewrite I2. cbn [In]. split; [tauto|]. intros [[<-|Hr] Hp]; [lra|auto].
    + intros Hn. exfalso. apply (Hn q (or_introl eq_refl)). lra.
Qed.

(** ** Examples *)

(** Every mesh of straight triangles is the mesh of a geometry that can be cut exactly along every line. *)
Example ex_covers : section_covers (pl_geoms (mesh_geom (-2) (-1) ex_mesh)) (mesh_shapes (-2) (-1) ex_mesh) /\
  surrounds (pl_points (mesh_geom (-2) (-1) ex_mesh)) (concat (mesh_shapes (-2) (-1) ex_mesh)) /\
  same_section ex_mesh (-2) (-1) (mesh_shapes (-2) (-1) ex_mesh).
Proof. destruct ex_mesh_valid as (A & B & _ & C). exact (mesh_geom_ok (-2) (-1) ex_mesh A B C). Qed.

(** The hypotheses of C47 and C49_at_least_yield are met by the two-material rectangle. *)
Example ex_C49 : exists ws, 
  let c := centroidal_of (section_totals ex_mesh) in
  let get p := if prop_eq_dec p M_Props.p_phi then Some (p_phi c) else None in
  root_within 0 exact_brentq /\ groups_ok (map (fun el => (el_mat el, [el])) ex_mesh) ex_mesh /\ get M_Props.p_phi = Some (p_phi c) /\
  plastic_analysis exact_brentq (mesh_geom (-2) (-1) ex_mesh) get false = (ws, Ok tt).
Proof.
  set (c := centroidal_of (section_totals ex_mesh)).
  set (get := fun p => if prop_eq_dec p M_Props.p_phi then Some (p_phi c) else None).
  assert (G : get M_Props.p_phi = Some (p_phi c)) by (unfold get; destruct (prop_eq_dec _ _); congruence).
  destruct ex_covers as (A & B & _).
  destruct (exact_brentq_runs (mesh_geom (-2) (-1) ex_mesh) get false (mesh_shapes (-2) (-1) ex_mesh) (p_phi c) G A B) as (ws & H).
  exists ws. cbv zeta. fold c. fold get. split; [apply exact_brentq_within|]. split; [exact ex_groups|]. auto.
Qed.

(** The same rectangle of the default material. *)
Definition default_mat : material := mkMat 1 0 1 1.
Definition ex_plain : list tri6 :=
  [ mk_el default_mat (mkConn 0 1 2 4 5 6) (0,0) (4,0) (4,2); mk_el default_mat (mkConn 0 2 3 6 7 8) (0,0) (4,2) (0,2) ].
Definition ex_nodes : list point := [(0,0); (4,0); (4,2); (0,2)].
Example ex_C48 : exists ws m get, 
  let els := ex_plain in let t := section_totals els in let c := centroidal_of t in let shapes := mesh_shapes (-2) (-1) els in
  let g := mesh_geom (-2) (-1) els in
  section_covers (pl_geoms g) shapes /\ surrounds (pl_points g) (concat shapes) /\ root_within 0 exact_brentq /\
  els <> [] /\ valid_mesh els /\ (forall el, In el els -> m_E (el_mat el) = 1 /\ m_fy (el_mat el) = 1) /\
  mesh_nodes_in els ex_nodes /\ same_section els (-2) (-1) shapes /\
  moduli_of t c ex_nodes = Ok m /\ get M_Props.p_phi = Some (p_phi c) /\
  (forall k, get (z_plus_prop k) = Some (z_plus m k) /\ get (z_minus_prop k) = Some (z_minus m k)) /\
  plastic_analysis exact_brentq g get true = (ws, Ok tt).
Proof.
  set (els := ex_plain). set (t := section_totals els). set (c := centroidal_of t).
  assert (Hv : valid_mesh els).
  { intros el [<-|[<-|[]]]; apply mk_el_valid; unfold orient; cbn [fst snd]; lra. }
  assert (Hd : forall el, In el els -> m_E (el_mat el) = 1 /\ m_fy (el_mat el) = 1) by (intros el [<-|[<-|[]]]; split; reflexivity).
  destruct (mesh_geom_ok (-2) (-1) els ltac:(discriminate) Hv ltac:(intros el Hel; destruct (Hd el Hel) as [_ ->]; lra)) as (A & B & S).
  destruct (moduli_of t c ex_nodes) as [m|] eqn:M; [|discriminate].
  set (get := fun p => match p with
    | M_Props.p_phi => Some (p_phi c)
    | p_zxx_plus => Some (z_xx_plus m) | p_zxx_minus => Some (z_xx_minus m)
    | p_zyy_plus => Some (z_yy_plus m) | p_zyy_minus => Some (z_yy_minus m)
    | p_z11_plus => Some (z_11_plus m) | p_z11_minus => Some (z_11_minus m)
    | p_z22_plus => Some (z_22_plus m) | p_z22_minus => Some (z_22_minus m) | _ => None end).
  destruct (exact_brentq_runs (mesh_geom (-2) (-1) els) get true (mesh_shapes (-2) (-1) els) (p_phi c) eq_refl A B) as (ws & H).
  exists ws, m, get. cbv zeta. fold t. fold c.
  split; [exact A|]. split; [exact B|]. split; [apply exact_brentq_within|]. split; [discriminate|]. split; [exact Hv|]. split; [exact Hd|].
  split.
  { intros el q [<-|[<-|[]]] Hq; cbn [In mk_el corner_a corner_b corner_c el_x el_y side_nodes v0 v1 v2 fst snd] in Hq;
      unfold corner_a, corner_b, corner_c, ex_nodes in *; cbn [el_x el_y side_nodes v0 v1 v2 fst snd mk_el] in *; cbn [In]; intuition. }
  split; [exact S|]. split; [exact M|]. split; [reflexivity|]. split; [intros [| | |]; split; reflexivity|exact H].
Qed.

(** A usable direction and a bounding box; a polygon on each side, and one whose representative point is on the line. *)
Example ex_C57 : create_line_segment (1, 1) (1, 2) (0, 4, 0, 2) = ((0, -1), (4, 7)).
Proof.
  unfold create_line_segment. assert (T : 1 / 10 ^ 12 < 1) by apply tiny_lt1.
  destruct (Rlt_dec (1 / 10 ^ 12) (Rabs 1)) as [H|H]; [|exfalso; apply H; rewrite Rabs_R1; exact T].
  unfold Rmin, Rmax. repeat destruct Rle_dec; try lra. f_equal; f_equal; field.
Qed.
Example ex_C57_dropped : 
  group_top_and_bottom_polys [mkPiece (0, 1) 1 0 1; mkPiece (0, 0) 1 0 0; mkPiece (0, -1) 1 0 (-1)] ((-1, 0), (1, 0)) =
  ([mkPiece (0, 1) 1 0 1], [mkPiece (0, -1) 1 0 (-1)]).
Proof.
  cbn [group_top_and_bottom_polys pc_rep side_of line_mx_plus_b].
  destruct (Req_EM_T (1 - -1) 0); [lra|].
  repeat destruct (Rlt_dec _ _); try lra. reflexivity.
Qed.

Print Assumptions C46_force_split.
Print Assumptions C46_monotone.
Print Assumptions C46_bracket.
Print Assumptions C46_balanced_line.
Print Assumptions C47_plastic_modulus.
Print Assumptions C47_completes.
Print Assumptions C47_exact.
Print Assumptions C48_shape_factor.
Print Assumptions C49_default_factors.
Print Assumptions C49_composite_factors.
Print Assumptions C49_at_least_yield.
Print Assumptions C57_line_segment.
Print Assumptions C57_grouping.
