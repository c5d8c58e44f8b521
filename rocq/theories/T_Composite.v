(** Theorems: the results of a whole analysis of a composite section: C88. *)
From Coquelicot Require Import Coquelicot.
From Coq Require Import String Reals List Permutation Lra Lia.
From Verif Require Import Base S_Integral M_Fea S_Fem M_Section S_Section M_Init M_Props M_State S_State M_Geometry S_Geometry P_Geom P_Section P_Totals P_Geometry3 P_Library P_Library2 P_State P_State3 P_State4 P_State5 S_Outline P_Outline P_Outline2 P_Outline3 S_PlasticForms P_PlasticForms P_PlasticForms2 S_Init T_Section T_Init T_Plastic T_State T_Outline T_PlasticForms T_Rects S_Composite.
From Verif Require Import M_Post.
Import ListNotations.
Local Open Scope list_scope.
Local Open Scope R_scope.

Lemma region_sums w m p :
  boundary_sum w b_area (poly_edges m p) = w m * poly_area p /\ boundary_sum w b_qy (poly_edges m p) = w m * poly_mx p /\ boundary_sum w b_qx (poly_edges m p) = w m * poly_my p /\
  boundary_sum w b_ixx (poly_edges m p) = w m * poly_ixx p /\ boundary_sum w b_iyy (poly_edges m p) = w m * poly_iyy p /\ boundary_sum w b_ixy (poly_edges m p) = w m * poly_ixy p.
Proof.
  assert (A : forall a b, S_Section.cross b a = - S_Section.cross a b) by (intros; unfold S_Section.cross; ring).
  assert (EA : poly_sum (around b_area) p = poly_area p). { unfold poly_area. change (poly_sum (around b_area) p = poly_sum ring_area p). rewrite <- (Rmult_1_l (poly_sum ring_area p)). apply poly_sum_scale. intros l. unfold ring_area. rewrite (around_scale (1 / 2) b_area M_Geometry.cross) by (intros; unfold b_area, S_Section.cross, M_Geometry.cross; field). field. }
  assert (EX : poly_sum (around b_qy) p = poly_mx p). { change (poly_mx p) with (poly_sum ring_mx p). rewrite <- (Rmult_1_l (poly_sum ring_mx p)). apply poly_sum_scale. intros l. unfold ring_mx. rewrite (around_scale (1 / 6) b_qy (fun a b => (fst a + fst b) * M_Geometry.cross a b)) by (intros; unfold b_qy, S_Section.cross, M_Geometry.cross; field). field. }
  assert (EY : poly_sum (around b_qx) p = poly_my p). { change (poly_my p) with (poly_sum ring_my p). rewrite <- (Rmult_1_l (poly_sum ring_my p)). apply poly_sum_scale. intros l. unfold ring_my. rewrite (around_scale (1 / 6) b_qx (fun a b => (snd a + snd b) * M_Geometry.cross a b)) by (intros; unfold b_qx, S_Section.cross, M_Geometry.cross; field). field. }
  assert (EXX : poly_sum (around b_ixx) p = poly_ixx p). { unfold poly_ixx. rewrite <- (Rmult_1_l (poly_sum ring_ixx p)). apply poly_sum_scale. intros l. unfold ring_ixx. rewrite (around_scale (1 / 12) b_ixx (fun a b => (snd a ^ 2 + snd a * snd b + snd b ^ 2) * M_Geometry.cross a b)) by (intros; unfold b_ixx, S_Section.cross, M_Geometry.cross; field). field. }
  assert (EYY : poly_sum (around b_iyy) p = poly_iyy p). { unfold poly_iyy. rewrite <- (Rmult_1_l (poly_sum ring_iyy p)). apply poly_sum_scale. intros l. unfold ring_iyy. rewrite (around_scale (1 / 12) b_iyy (fun a b => (fst a ^ 2 + fst a * fst b + fst b ^ 2) * M_Geometry.cross a b)) by (intros; unfold b_iyy, S_Section.cross, M_Geometry.cross; field). field. }
  assert (EXY : poly_sum (around b_ixy) p = poly_ixy p). { unfold poly_ixy. rewrite <- (Rmult_1_l (poly_sum ring_ixy p)). apply poly_sum_scale. intros l. unfold ring_ixy. rewrite (around_scale (1 / 24) b_ixy (fun a b => (fst a * snd b + 2 * fst a * snd a + 2 * fst b * snd b + fst b * snd a) * M_Geometry.cross a b)) by (intros; unfold b_ixy, S_Section.cross, M_Geometry.cross; field). field. }
  rewrite !poly_total by (intros a b; unfold b_area, b_qx, b_qy, b_ixx, b_iyy, b_ixy; rewrite (A a b); field). rewrite EA, EX, EY, EXX, EYY, EXY. repeat split.
Qed.
Lemma regions_sum w f (v : polygon -> R) rs : (forall m p, boundary_sum w f (poly_edges m p) = w m * v p) -> boundary_sum w f (concat (map (fun q => poly_edges (fst q) (snd q)) rs)) = weighted w v rs.
Proof.
  intros H. unfold weighted. induction rs as [|q rs IH]; [reflexivity|]. cbn [map concat]. rewrite sum_app, sumf_cons, H, IH. reflexivity.
Qed.
Lemma regions_totals els rs : fills_regions els rs -> section_totals els =
  mkTotals (weighted (fun _ => 1) poly_area rs) (weighted m_rho poly_area rs) (weighted m_E poly_area rs) (weighted shear_modulus poly_area rs) (weighted m_E poly_my rs) (weighted m_E poly_mx rs) (weighted m_E poly_ixx rs) (weighted m_E poly_iyy rs) (weighted m_E poly_ixy rs).
Proof.
  intros [V B]. rewrite (section_totals_boundary els _ V B). unfold one_w.
  f_equal; apply regions_sum; intros m p; match goal with |- boundary_sum ?w _ _ = _ => destruct (region_sums w m p) as (E1 & E2 & E3 & E4 & E5 & E6) end; assumption.
Qed.

Lemma weighted_lin3 w f1 f2 f3 k1 k2 k3 rs : weighted w (fun p => k1 * f1 p + k2 * f2 p + k3 * f3 p) rs = k1 * weighted w f1 rs + k2 * weighted w f2 rs + k3 * weighted w f3 rs.
Proof. unfold weighted. induction rs as [|q rs IH]; [unfold sumf; cbn; ring|]. rewrite !sumf_cons, IH. ring. Qed.
Lemma weighted_ext w f1 f2 rs : Forall (fun q : region => f1 (snd q) = f2 (snd q)) rs -> weighted w f1 rs = weighted w f2 rs.
Proof. unfold weighted. intros H. induction H as [|q rs E _ IH]; [reflexivity|]. rewrite !sumf_cons, IH, E. reflexivity. Qed.
Lemma over_values l query g s st h x v : built g s -> Forall (uses st) h -> In CGeometric h -> allowed (is_composite (s_mats s)) x -> incl (fields x) geometric_props ->
  all_values (geometric_value g s) (fields x) = Some v -> (forall e, finish x e v = map (fun a => a / e_value e) v) -> gives_over l query g s h x v.
Proof.
  intros Hb U Hi A I V Fi e. apply returns_iff. rewrite run_sec. cbn [w_sec]. split; [exact A|]. exists v. split; [|symmetry; apply Fi].
  apply (same_values _ (geometric_value g s)); [|exact V]. intros q Hq. apply (geo_run l query g s st Hb h (mkWorld g s no_props) U (ok_new l g s st) Hi). apply I, Hq.
Qed.

Lemma composite_values s rs : fills_regions (s_tris s) rs -> Forall (fun q => poly_area (snd q) <> 0) rs -> weighted m_E poly_area rs <> 0 ->
  let ea := weighted m_E poly_area rs in let cx := elastic_cx rs in let cy := elastic_cy rs in
  (p_cx (the_centroidal s) = cx /\ p_cy (the_centroidal s) = cy /\ p_ixx_c (the_centroidal s) = rigidity_xx cy rs /\ p_iyy_c (the_centroidal s) = rigidity_yy cx rs /\ p_ixy_c (the_centroidal s) = rigidity_xy cx cy rs) /\
  weighted m_E poly_mx rs = ea * cx /\ weighted m_E poly_my rs = ea * cy /\
  (forall y, rigidity_xx y rs = weighted m_E poly_ixx rs - 2 * y * (ea * cy) + ea * y ^ 2) /\ (forall x, rigidity_yy x rs = weighted m_E poly_iyy rs - 2 * x * (ea * cx) + ea * x ^ 2) /\
  (forall x y, rigidity_xy x y rs = weighted m_E poly_ixy rs - y * (ea * cx) - x * (ea * cy) + ea * (x * y)).
Proof.
  intros F Na N ea cx cy. pose proof (regions_totals _ _ F) as T.
  assert (Mx : weighted m_E poly_mx rs = ea * cx). { unfold cx, elastic_cx. fold ea. rewrite (weighted_ext m_E poly_mx (fun p => poly_area p * fst (poly_centroid p))); [field; exact N|]. eapply Forall_impl; [|exact Na]. intros q Hq. unfold poly_centroid. cbn [fst]. field. exact Hq. }
  assert (My : weighted m_E poly_my rs = ea * cy). { unfold cy, elastic_cy. fold ea. rewrite (weighted_ext m_E poly_my (fun p => poly_area p * snd (poly_centroid p))); [field; exact N|]. eapply Forall_impl; [|exact Na]. intros q Hq. unfold poly_centroid. cbn [snd]. field. exact Hq. }
  assert (XX : forall y, rigidity_xx y rs = weighted m_E poly_ixx rs - 2 * y * (ea * cy) + ea * y ^ 2).
  { intros y. unfold rigidity_xx. rewrite <- My. unfold ea. replace (weighted m_E poly_ixx rs - 2 * y * weighted m_E poly_my rs + weighted m_E poly_area rs * y ^ 2) with (1 * weighted m_E poly_ixx rs + - 2 * y * weighted m_E poly_my rs + y ^ 2 * weighted m_E poly_area rs) by ring.
    rewrite <- weighted_lin3. apply weighted_ext. eapply Forall_impl; [|exact Na]. intros q Hq. unfold poly_ixx_c, poly_centroid. cbn [snd]. field. exact Hq. }
  assert (YY : forall x, rigidity_yy x rs = weighted m_E poly_iyy rs - 2 * x * (ea * cx) + ea * x ^ 2).
  { intros x. unfold rigidity_yy. rewrite <- Mx. unfold ea. replace (weighted m_E poly_iyy rs - 2 * x * weighted m_E poly_mx rs + weighted m_E poly_area rs * x ^ 2) with (1 * weighted m_E poly_iyy rs + - 2 * x * weighted m_E poly_mx rs + x ^ 2 * weighted m_E poly_area rs) by ring.
    rewrite <- weighted_lin3. apply weighted_ext. eapply Forall_impl; [|exact Na]. intros q Hq. unfold poly_iyy_c, poly_centroid. cbn [fst]. field. exact Hq. }
  assert (XY : forall x y, rigidity_xy x y rs = weighted m_E poly_ixy rs - y * (ea * cx) - x * (ea * cy) + ea * (x * y)).
  { intros x y. unfold rigidity_xy. rewrite <- Mx, <- My. unfold ea.
    rewrite (weighted_ext m_E _ (fun p => 1 * (1 * poly_ixy p + - y * poly_mx p + - x * poly_my p) + x * y * poly_area p + 0 * poly_area p)).
    - rewrite (weighted_lin3 m_E (fun p => 1 * poly_ixy p + - y * poly_mx p + - x * poly_my p)), weighted_lin3. ring.
    - eapply Forall_impl; [|exact Na]. intros q Hq. unfold poly_ixy_c, poly_centroid. cbn [fst snd]. field. exact Hq. }
  assert (C1 : p_cx (the_centroidal s) = cx /\ p_cy (the_centroidal s) = cy /\ p_ixx_c (the_centroidal s) = rigidity_xx cy rs /\ p_iyy_c (the_centroidal s) = rigidity_yy cx rs /\ p_ixy_c (the_centroidal s) = rigidity_xy cx cy rs).
  { unfold the_centroidal, the_totals. rewrite T. unfold centroidal_of. cbn [t_area t_mass t_ea t_ga t_qx t_qy t_ixx_g t_iyy_g t_ixy_g p_cx p_cy p_ixx_c p_iyy_c p_ixy_c]. rewrite XX, YY, XY, Mx, My. fold ea. repeat split; field; exact N. }
  split; [exact C1|]. split; [exact Mx|]. split; [exact My|]. split; [exact XX|]. split; [exact YY|exact XY].
Qed.

(** A mesh that fills polygons of several materials: after the geometric analysis, in any history, the getters return the sums over the polygons, weighted by
    the material: area, mass, axial rigidity, first moments, elastic centroid, flexural rigidities about the global axes and (parallel axis theorem) about
    the axes through the elastic centroid, effective moduli. *)
Theorem C88_composite l query g s st h rs : built g s -> Forall (uses st) h -> In CGeometric h -> is_composite (s_mats s) = true -> fills_regions (s_tris s) rs ->
  Forall (fun q => poly_area (snd q) <> 0) rs -> weighted m_E poly_area rs <> 0 ->
  let area := weighted (fun _ => 1) poly_area rs in let ea := weighted m_E poly_area rs in let ga := weighted shear_modulus poly_area rs in let cx := elastic_cx rs in let cy := elastic_cy rs in
  gives l query g s h get_area [area] /\ gives l query g s h get_mass [weighted m_rho poly_area rs] /\ gives_over l query g s h get_ea [ea] /\
  gives_over l query g s h get_eq [ea * cy; ea * cx] /\ gives l query g s h get_c [cx; cy] /\
  gives_over l query g s h get_eig [rigidity_xx 0 rs; rigidity_yy 0 rs; rigidity_xy 0 0 rs] /\
  gives_over l query g s h get_eic [rigidity_xx cy rs; rigidity_yy cx rs; rigidity_xy cx cy rs] /\
  gives l query g s h get_e_eff [ea / area] /\ gives l query g s h get_g_eff [ga / area] /\ gives l query g s h get_nu_eff [ea / (2 * ga) - 1].
Proof.
  intros Hb U Hi Hc F Na N area ea ga cx cy. pose proof (regions_totals _ _ F) as T. destruct (composite_values s rs F Na N) as ((C1 & C2 & C3 & C4 & C5) & Mx & My & XX & YY & XY). fold ea cx cy in C1, C2, C3, C4, C5, Mx, My, XX, YY, XY.
  assert (TT : the_totals s = section_totals (s_tris s)) by reflexivity.
  split; [|split; [|split; [|split; [|split; [|split; [|split; [|split; [|split]]]]]]]].
  all: first [eapply gives_values | eapply over_values]; [eassumption|eassumption|assumption|first [exact I|exact Hc]|intros q Hq; cbn [fields In] in Hq; unfold geometric_props; cbn [In]; intuition congruence| |reflexivity].
  all: cbn [fields all_values geometric_value]; rewrite ?TT, ?C1, ?C2, ?C3, ?C4, ?C5, ?T; unfold nu_eff, e_eff, g_eff; cbn [t_area t_mass t_ea t_ga t_qx t_qy t_ixx_g t_iyy_g t_ixy_g]; rewrite ?XX, ?YY, ?XY, ?Mx, ?My; repeat f_equal; try reflexivity; try ring.
Qed.

(** Elastic moduli (over the reference modulus) and radii of gyration from the extreme coordinates of the nodes *)
Theorem C88_composite_moduli l query g s st h rs x1 y1 x2 y2 : built g s -> Forall (uses st) h -> In CGeometric h -> is_composite (s_mats s) = true -> fills_regions (s_tris s) rs ->
  Forall (fun q => poly_area (snd q) <> 0) rs -> weighted m_E poly_area rs <> 0 -> S_Library.spans (s_nodes s) x1 y1 x2 y2 ->
  let cx := elastic_cx rs in let cy := elastic_cy rs in let eixx := rigidity_xx cy rs in let eiyy := rigidity_yy cx rs in
  gives_over l query g s h get_ez [eixx / Rabs (y2 - cy); eixx / Rabs (y1 - cy); eiyy / Rabs (x2 - cx); eiyy / Rabs (x1 - cx)] /\
  gives l query g s h get_rc [sqrt (eixx / weighted m_E poly_area rs); sqrt (eiyy / weighted m_E poly_area rs)].
Proof.
  intros Hb U Hi Hc F Na N (X1 & X2 & Y1 & Y2) cx cy eixx eiyy. pose proof (regions_totals _ _ F) as T. destruct (composite_values s rs F Na N) as ((C1 & C2 & C3 & C4 & C5) & _). fold cx cy in C1, C2, C3, C4, C5. fold eixx in C3. fold eiyy in C4.
  destruct (moduli_of (the_totals s) (the_centroidal s) (s_nodes s)) as [z|] eqn:Z; [|exfalso; unfold moduli_of in Z; destruct (s_nodes s) eqn:Es; [apply (proj2 Hb); exact Es|discriminate Z]].
  assert (R1 : z_rx z = sqrt (eixx / weighted m_E poly_area rs) /\ z_ry z = sqrt (eiyy / weighted m_E poly_area rs)).
  { destruct (moduli_radii _ _ _ _ Z) as [-> ->]. rewrite C3, C4. unfold the_totals. rewrite T. split; reflexivity. }
  destruct (C14_section_moduli _ _ _ _ Z) as ((q1 & (I1 & A1) & Z1) & (q2 & (I2 & A2) & Z2) & (q3 & (I3 & A3) & Z3) & (q4 & (I4 & A4) & Z4) & _). rewrite C2, C3 in Z1, Z2. rewrite C1, C4 in Z3, Z4.
  assert (Q1 : snd q1 = y2). { destruct Y2 as [Iy Ly]. apply Rle_antisym; [apply Ly, in_map, I1|]. apply in_map_iff in Iy. destruct Iy as (q & <- & Iq). apply A1, Iq. }
  assert (Q2 : snd q2 = y1). { destruct Y1 as [Iy Ly]. apply Rle_antisym; [|apply Ly, in_map, I2]. apply in_map_iff in Iy. destruct Iy as (q & <- & Iq). specialize (A2 q Iq). cbv beta in A2. lra. }
  assert (Q3 : fst q3 = x2). { destruct X2 as [Iy Ly]. apply Rle_antisym; [apply Ly, in_map, I3|]. apply in_map_iff in Iy. destruct Iy as (q & <- & Iq). apply A3, Iq. }
  assert (Q4 : fst q4 = x1). { destruct X1 as [Iy Ly]. apply Rle_antisym; [|apply Ly, in_map, I4]. apply in_map_iff in Iy. destruct Iy as (q & <- & Iq). specialize (A4 q Iq). cbv beta in A4. lra. }
  rewrite Q1 in Z1. rewrite Q2 in Z2. rewrite Q3 in Z3. rewrite Q4 in Z4. destruct R1 as [R1 R2].
  split; (first [eapply gives_values | eapply over_values]; [eassumption|eassumption|assumption|first [exact I|exact Hc]|intros q Hq; cbn [fields In] in Hq; unfold geometric_props; cbn [In]; intuition congruence| |reflexivity]);
    cbn [fields all_values geometric_value]; unfold of_moduli; rewrite Z, ?Z1, ?Z2, ?Z3, ?Z4, ?R1, ?R2; reflexivity.
Qed.

(** A composite section whose product of inertia about the elastic centroid is zero (a symmetric one): the principal rigidities and angle *)
Theorem C88_composite_principal l query g s st h rs : built g s -> Forall (uses st) h -> In CGeometric h -> is_composite (s_mats s) = true -> fills_regions (s_tris s) rs ->
  Forall (fun q => poly_area (snd q) <> 0) rs -> weighted m_E poly_area rs <> 0 -> pos_moduli (s_tris s) ->
  let cx := elastic_cx rs in let cy := elastic_cy rs in let eixx := rigidity_xx cy rs in let eiyy := rigidity_yy cx rs in rigidity_xy cx cy rs = 0 ->
  gives_over l query g s h get_eip [Rmax eixx eiyy; Rmin eixx eiyy] /\ 0 < eixx /\ 0 < eiyy /\
  (eiyy <= eixx -> gives l query g s h get_phi [0]) /\ (eixx <= (1 - 1 / 10 ^ 12) * eiyy -> gives l query g s h get_phi [-90]).
Proof.
  intros Hb U Hi Hc F Na N P cx cy eixx eiyy Z. pose proof (regions_totals _ _ F) as T. destruct (composite_values s rs F Na N) as ((C1 & C2 & C3 & C4 & C5) & _). fold cx cy in C1, C2, C3, C4, C5. fold eixx in C3. fold eiyy in C4. rewrite Z in C5.
  assert (Hn : s_tris s <> []). { intros E0. apply N. apply (f_equal t_ea) in T. cbn [t_ea] in T. rewrite <- T, E0. reflexivity. }
  destruct (C09_positivity (s_tris s) Hn (proj1 F) P) as (_ & _ & P1 & P2 & _). change (0 < p_ixx_c (the_centroidal s)) in P1. change (0 < p_iyy_c (the_centroidal s)) in P2. rewrite C3 in P1. rewrite C4 in P2. destruct (principal_zero eixx eiyy) as [I1 I2].
  assert (J1 : p_i11_c (the_centroidal s) = Rmax eixx eiyy). { rewrite <- I1, <- C3, <- C4. rewrite <- C5 at 1. reflexivity. }
  assert (J2 : p_i22_c (the_centroidal s) = Rmin eixx eiyy). { rewrite <- I2, <- C3, <- C4. rewrite <- C5 at 1. reflexivity. }
  assert (J3 : p_phi (the_centroidal s) = principal_phi eixx 0 (Rmax eixx eiyy)). { rewrite <- J1. rewrite <- C3. rewrite <- C5 at 1. reflexivity. }
  assert (G : forall v, p_phi (the_centroidal s) = v -> gives l query g s h get_phi [v]).
  { intros v E. eapply gives_values; [eassumption|eassumption|assumption|exact I|intros q Hq; cbn [fields In] in Hq; unfold geometric_props; cbn [In]; intuition congruence| |reflexivity].
    cbn [fields all_values geometric_value]. rewrite E. reflexivity. }
  split; [|split; [exact P1|split; [exact P2|split]]].
  - eapply over_values; [eassumption|eassumption|assumption|exact Hc|intros q Hq; cbn [fields In] in Hq; unfold geometric_props; cbn [In]; intuition congruence| |reflexivity].
    cbn [fields all_values geometric_value]. rewrite J1, J2. reflexivity.
  - intros L. apply G. rewrite J3. apply phi_zero; [exact P1|]. apply Rmax_left, L.
  - intros L. apply G. assert (L' : eixx <= eiyy) by nra. rewrite J3, Rmax_right by exact L'. apply phi_quarter; assumption.
Qed.

(** ** A case: the timber layer under the steel layer *)
Example layers_raw_ok : mesher_mesh layers_raw.
Proof.
  split; [reflexivity|]. intros row Hr. assert (Hr' : row = mkConn 0 1 2 7 8 6 \/ row = mkConn 0 2 3 9 10 8 \/ row = mkConn 3 2 4 11 12 9 \/ row = mkConn 3 4 5 13 14 12) by (destruct Hr as [<-|[<-|[<-|[<-|[]]]]]; tauto).
  destruct Hr' as [->|[->|[->| ->]]]; (split; [|split; [unfold ids_list; cbn [c0 c1 c2 c3 c4 c5]; repeat (apply NoDup_cons; [cbn [In]; lia|]); apply NoDup_nil|]];
    [unfold mesher_row, midpoint, S_Integral.orient, layers_raw; cbn [rm_vertices nth c0 c1 c2 c3 c4 c5 fst snd]; split; [f_equal; lra|split; [f_equal; lra|split; [f_equal; lra|lra]]]
    |intros k; unfold ids_list; cbn [In c0 c1 c2 c3 c4 c5 layers_raw rm_vertices length]; lia]).
Qed.
Example C88_composite_met l query : exists s rs, built layers_geometry s /\ is_composite (s_mats s) = true /\ fills_regions (s_tris s) rs /\ Forall (fun q => poly_area (snd q) <> 0) rs /\ weighted m_E poly_area rs <> 0 /\
  gives_over l query layers_geometry s [CGeometric] get_ea [8] /\ gives l query layers_geometry s [CGeometric] get_c [1; 5 / 4] /\ gives_over l query layers_geometry s [CGeometric] get_eic [13 / 6; 8 / 3; 0] /\
  gives_over l query layers_geometry s [CGeometric] get_ez [26 / 9; 26 / 15; 8 / 3; 8 / 3] /\ gives_over l query layers_geometry s [CGeometric] get_eip [8 / 3; 13 / 6] /\ gives l query layers_geometry s [CGeometric] get_phi [-90].
Proof.
  destruct (section_init (Some layers_raw) [timber; steel]) as [s|] eqn:Es; [|discriminate Es].
  assert (Hb : built layers_geometry s) by (split; [exact Es|injection Es as <-; discriminate]).
  assert (Hc : is_composite (s_mats s) = true) by (injection Es as <-; reflexivity).
  set (r1 := [(0, 0); (2, 0); (2, 1); (0, 1)]). set (r2 := [(0, 1); (2, 1); (2, 2); (0, 2)]). set (p1 := mkPoly r1 []). set (p2 := mkPoly r2 []). set (rs := [(mo_val timber, p1); (mo_val steel, p2)]).
  assert (L1 : 0 <= ring_area r1) by (unfold r1; unring; lra). assert (L2 : 0 <= ring_area r2) by (unfold r2; unring; lra).
  assert (S1 : forall f, poly_sum f p1 = f r1) by (intros f; apply one_sum, L1). assert (S2 : forall f, poly_sum f p2 = f r2) by (intros f; apply one_sum, L2).
  assert (F : fills_regions (s_tris s) rs).
  { split.
    - apply (C17_node_order layers_raw [timber; steel] s layers_raw_ok Es).
    - injection Es as <-. unfold s_tris. cbn [s_els]. unfold rs, p1, p2. cbn [map concat fst snd]. unfold r1, r2 in *. rewrite !one_edges by assumption. set (m := mo_val timber). set (n := mo_val steel).
      set (a := (0, 0)). set (b := (2, 0)). set (c := (2, 1)). set (d := (0, 1)). set (e := (2, 2)). set (f := (0, 2)).
      change (same_boundary [(m, a, b); (m, b, c); (m, c, a); (m, a, c); (m, c, d); (m, d, a); (n, d, c); (n, c, e); (n, e, d); (n, d, e); (n, e, f); (n, f, d)] [(m, a, b); (m, b, c); (m, c, d); (m, d, a); (n, d, c); (n, c, e); (n, e, f); (n, f, d)]).
      cancels m c a. cancels n e d. apply sb_perm. perms. }
  assert (A1 : poly_area p1 = 2) by (change (poly_sum ring_area p1 = 2); rewrite S1; unfold r1; unring; field). assert (A2 : poly_area p2 = 2) by (change (poly_sum ring_area p2 = 2); rewrite S2; unfold r2; unring; field).
  assert (Ce1 : poly_centroid p1 = (1, 1 / 2)). { unfold poly_centroid. rewrite A1. change (poly_mx p1) with (poly_sum ring_mx p1). change (poly_my p1) with (poly_sum ring_my p1). rewrite !S1. unfold r1. unring. f_equal; field. }
  assert (Ce2 : poly_centroid p2 = (1, 3 / 2)). { unfold poly_centroid. rewrite A2. change (poly_mx p2) with (poly_sum ring_mx p2). change (poly_my p2) with (poly_sum ring_my p2). rewrite !S2. unfold r2. unring. f_equal; field. }
  assert (I1 : poly_ixx_c p1 = 1 / 6 /\ poly_iyy_c p1 = 2 / 3 /\ poly_ixy_c p1 = 0). { unfold poly_ixx_c, poly_iyy_c, poly_ixy_c, poly_ixx, poly_iyy, poly_ixy. rewrite A1, Ce1, !S1. unfold r1, ring_ixx, ring_iyy, ring_ixy. unring. repeat split; field. }
  assert (I2 : poly_ixx_c p2 = 1 / 6 /\ poly_iyy_c p2 = 2 / 3 /\ poly_ixy_c p2 = 0). { unfold poly_ixx_c, poly_iyy_c, poly_ixy_c, poly_ixx, poly_iyy, poly_ixy. rewrite A2, Ce2, !S2. unfold r2, ring_ixx, ring_iyy, ring_ixy. unring. repeat split; field. }
  destruct I1 as (X1 & Y1 & Z1). destruct I2 as (X2 & Y2 & Z2).
  assert (Na : Forall (fun q => poly_area (snd q) <> 0) rs) by (unfold rs; constructor; [cbn [snd]; rewrite A1; lra|constructor; [cbn [snd]; rewrite A2; lra|constructor]]).
  assert (W : forall w f, weighted w f rs = w (mo_val timber) * f p1 + w (mo_val steel) * f p2) by (intros; unfold weighted, rs, sumf, Rsum; cbn [map fold_right fst snd]; ring).
  assert (Ew : m_E (mo_val timber) = 1 /\ m_E (mo_val steel) = 3) by (split; reflexivity). destruct Ew as [Et Ee].
  assert (EA : weighted m_E poly_area rs = 8) by (rewrite W, Et, Ee, A1, A2; ring). assert (N : weighted m_E poly_area rs <> 0) by lra.
  assert (Cx : elastic_cx rs = 1) by (unfold elastic_cx; rewrite EA, W, Et, Ee, A1, A2, Ce1, Ce2; cbn [fst]; field).
  assert (Cy : elastic_cy rs = 5 / 4) by (unfold elastic_cy; rewrite EA, W, Et, Ee, A1, A2, Ce1, Ce2; cbn [snd]; field).
  exists s, rs. split; [exact Hb|]. split; [exact Hc|]. split; [exact F|]. split; [exact Na|]. split; [exact N|].
  destruct (C88_composite l query layers_geometry s "direct" [CGeometric] rs Hb ltac:(repeat constructor) (or_introl eq_refl) Hc F Na N) as (_ & _ & G1 & _ & G2 & _ & G3 & _).
  rewrite EA in G1. rewrite Cx, Cy in G2, G3.
  replace (rigidity_xx (5 / 4) rs) with (13 / 6) in G3 by (unfold rigidity_xx; rewrite W, Et, Ee, A1, A2, X1, X2, Ce1, Ce2; cbn [snd]; field).
  replace (rigidity_yy 1 rs) with (8 / 3) in G3 by (unfold rigidity_yy; rewrite W, Et, Ee, A1, A2, Y1, Y2, Ce1, Ce2; cbn [fst]; field).
  replace (rigidity_xy 1 (5 / 4) rs) with 0 in G3 by (unfold rigidity_xy; rewrite W, Et, Ee, A1, A2, Z1, Z2, Ce1, Ce2; cbn [fst snd]; field).
  assert (Exx : rigidity_xx (5 / 4) rs = 13 / 6) by (unfold rigidity_xx; rewrite W, Et, Ee, A1, A2, X1, X2, Ce1, Ce2; cbn [snd]; field).
  assert (Eyy : rigidity_yy 1 rs = 8 / 3) by (unfold rigidity_yy; rewrite W, Et, Ee, A1, A2, Y1, Y2, Ce1, Ce2; cbn [fst]; field).
  assert (Exy : rigidity_xy 1 (5 / 4) rs = 0) by (unfold rigidity_xy; rewrite W, Et, Ee, A1, A2, Z1, Z2, Ce1, Ce2; cbn [fst snd]; field).
  assert (Sp : S_Library.spans (s_nodes s) 0 0 2 2).
  { injection Es as <-. unfold S_Library.spans, least, greatest. cbn [s_nodes layers_raw rm_vertices map fst snd]. repeat split; cbn [In]; try tauto; intros x Hx; repeat (destruct Hx as [<-|Hx]; [lra|]); destruct Hx. }
  destruct (C88_composite_moduli l query layers_geometry s "direct" [CGeometric] rs 0 0 2 2 Hb ltac:(repeat constructor) (or_introl eq_refl) Hc F Na N Sp) as [G4 _]. rewrite Cx, Cy, Exx, Eyy in G4.
  rewrite (Rabs_right (2 - 5 / 4)), (Rabs_left (0 - 5 / 4)), (Rabs_right (2 - 1)), (Rabs_left (0 - 1)) in G4 by lra.
  replace (13 / 6 / (2 - 5 / 4)) with (26 / 9) in G4 by field. replace (13 / 6 / - (0 - 5 / 4)) with (26 / 15) in G4 by field. replace (8 / 3 / (2 - 1)) with (8 / 3) in G4 by field. replace (8 / 3 / - (0 - 1)) with (8 / 3) in G4 by field.
  assert (P : pos_moduli (s_tris s)). { injection Es as <-. intros el Hel. cbn in Hel. repeat (destruct Hel as [<-|Hel]; [cbn; lra|]). destruct Hel. }
  destruct (C88_composite_principal l query layers_geometry s "direct" [CGeometric] rs Hb ltac:(repeat constructor) (or_introl eq_refl) Hc F Na N P) as (G5 & _ & _ & _ & G6); [rewrite Cx, Cy; exact Exy|]. rewrite Cx, Cy, Exx, Eyy in G5, G6. rewrite Rmax_right, Rmin_left in G5 by lra.
  repeat split; try assumption. apply G6. lra.
Qed.

Print Assumptions C88_composite.
Print Assumptions C88_composite_moduli.
Print Assumptions C88_composite_principal.
Print Assumptions C88_composite_met.
