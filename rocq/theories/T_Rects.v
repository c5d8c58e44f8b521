(** Theorems: the plastic moduli of any section made of rectangles of one or several materials: C89. *)
From Coquelicot Require Import Coquelicot.
From Coq Require Import String Reals List Permutation Lra Lia.
From Verif Require Import Base S_Integral M_Fea S_Fem M_Section S_Section M_Bisect M_Plastic S_Plastic M_Init M_Props M_State S_State P_Geom P_Section P_Geometry5 P_Plastic P_Plastic6 P_Plastic7.
From Verif Require Import S_Outline S_PlasticForms P_PlasticForms P_PlasticForms2 P_PlasticForms3 S_Rects P_Rects T_Section T_Plastic T_State T_PlasticForms.
From Verif Require Import M_Post.
Import ListNotations.
Local Open Scope list_scope.
Local Open Scope R_scope.

(** The section, moved by any vector (the plastic analysis moves it to the elastic centroid), is made of the rectangles [ps]. Then what get_s (get_mp for
    composite sections) returns is the integral of the yield stress times the distance from the lines that halve the yield force. *)
Theorem C89_rectangles l query g s st h1 h2 shapes tol c ps dx dy : plastic_done l query g s st h1 h2 shapes tol ->
  same_boundary (region_edges (concat shapes)) (moved_edges c (parts_edges ps)) -> Forall proper_part ps -> horizontal_axis ps dx -> vertical_axis ps dy ->
  gives_near l query g s (h1 ++ CPlastic :: h2) (modulus_getter s) (sumf part_force ps * tol) [moment_about_horizontal ps dx; moment_about_vertical ps dy].
Proof.
  intros D B P X Y.
  assert (Cy : Forall (cuts_well (cut1_y dx) (0, 1) dx _ _ _) ps) by (eapply Forall_impl; [|exact P]; intros q (W & H & _); exact (cuts_y dx q W H)).
  assert (Cx : Forall (cuts_well (cut1_x dy) (1, 0) dy _ _ _) ps) by (eapply Forall_impl; [|exact P]; intros q (W & H & _); exact (cuts_x dy q W H)).
  destruct (cut_all _ _ _ _ _ _ ps Cy) as (Y1 & Y2 & Y3 & Y4 & Y5 & Y6 & Y7). destruct (cut_all _ _ _ _ _ _ ps Cx) as (X1 & X2 & X3 & X4 & X5 & X6 & X7).
  set (up := ups (cut1_y dx) ps) in *. set (dn := dns (cut1_y dx) ps) in *. set (rt := ups (cut1_x dy) ps) in *. set (lf := dns (cut1_x dy) ps) in *.
  assert (A : cut_at (parts_edges ps) (0, 1) dx up dn) by (split; [exact Y1|split; [exact Y2|split; [exact Y3|rewrite Y4, Y5; exact X]]]).
  assert (A' : cut_at (parts_edges ps) (1, 0) dy rt lf) by (split; [exact X1|split; [exact X2|split; [exact X3|rewrite X4, X5; exact Y]]]).
  destruct (cut_moved _ _ (0, 1) dx c up dn B A) as [V Mv]. destruct (cut_moved _ _ (1, 0) dy c rt lf B A') as [W Mw].
  assert (F : sumf part_force (map (moved_part c) up ++ map (moved_part c) dn) = sumf part_force ps).
  { rewrite <- map_app, sumf_map. rewrite (sumf_ext _ part_force) by (intros; apply force_moved). rewrite sumf_app, Y4, Y5, <- sumf_plus. apply sumf_ext_Forall. eapply Forall_impl; [|exact Cy]. intros q (_ & _ & _ & _ & _ & _ & E & _). symmetry. exact E. }
  replace (moment_about_horizontal ps dx) with (parts_moment (0, 1) dx up dn) by exact Y6. replace (moment_about_vertical ps dy) with (parts_moment (1, 0) dy rt lf) by exact X6. rewrite <- Mv, <- Mw, <- F.
  apply (C89_parts l query g s st h1 h2 shapes tol _ _ _ _ _ _ D V W).
  intros q Hq. rewrite <- !map_app in Hq. apply in_map_iff in Hq. destruct Hq as (r & <- & Hr). rewrite app_assoc in Hr. apply in_app_iff in Hr. rewrite Forall_forall in P.
  destruct Hr as [Hr|Hr]; [destruct (Y7 r Hr) as (z & Hz & E)|destruct (X7 r Hr) as (z & Hz & E)]; cbn [moved_part fst]; rewrite E; apply (P z Hz).
Qed.

(** There always are such lines. *)
Theorem C89_axes_exist ps : Forall proper_part ps -> (exists dx, horizontal_axis ps dx) /\ (exists dy, vertical_axis ps dy).
Proof.
  intros P. split.
  - apply (axis_exists (fun q => m_fy (fst q) * r_w (snd q)) (fun q => r_y1 (snd q)) (fun q => r_y2 (snd q))). eapply Forall_impl; [|exact P]. intros q (W & H & F). unfold r_h in H. split; [apply Rmult_le_pos|]; lra.
  - apply (axis_exists (fun q => m_fy (fst q) * r_h (snd q)) (fun q => r_x1 (snd q)) (fun q => r_x2 (snd q))). eapply Forall_impl; [|exact P]. intros q (W & H & F). unfold r_w in W. split; [apply Rmult_le_pos|]; lra.
Qed.

(** Two layers of width b bonded together, the lower of thickness d1 and yield strength f1, the upper of thickness d2 and yield strength f2: the plastic
    axis lies in the stronger layer. *)
Theorem C89_two_layers l query g s st h1 h2 shapes tol c m1 m2 b d1 d2 : plastic_done l query g s st h1 h2 shapes tol ->
  same_boundary (region_edges (concat shapes)) (moved_edges c (parts_edges [(m1, rect 0 0 b d1); (m2, rect 0 d1 b (d1 + d2))])) -> 0 < b -> 0 < d1 -> 0 < d2 ->
  let f1 := m_fy m1 in let f2 := m_fy m2 in 0 <= f1 -> 0 <= f2 ->
  let force := b * (f1 * d1 + f2 * d2) in let my := (f1 * d1 + f2 * d2) * b ^ 2 / 4 in
  (0 < f1 -> f2 * d2 <= f1 * d1 ->
   let y := (f1 * d1 + f2 * d2) / (2 * f1) in
   gives_near l query g s (h1 ++ CPlastic :: h2) (modulus_getter s) (force * tol) [f1 * b * (y ^ 2 + (d1 - y) ^ 2) / 2 + f2 * b * d2 * (d1 + d2 / 2 - y); my]) /\
  (0 < f2 -> f1 * d1 <= f2 * d2 ->
   let z := (f1 * d1 + f2 * d2) / (2 * f2) in
   gives_near l query g s (h1 ++ CPlastic :: h2) (modulus_getter s) (force * tol) [f2 * b * (z ^ 2 + (d2 - z) ^ 2) / 2 + f1 * b * d1 * (d2 + d1 / 2 - z); my]).
Proof.
  intros D B Hb H1 H2 f1 f2 F1 F2 force my. set (ps := [(m1, rect 0 0 b d1); (m2, rect 0 d1 b (d1 + d2))]) in *.
  assert (P : Forall proper_part ps) by (unfold ps; constructor; [|constructor; [|constructor]]; (split; [|split]); unfold r_w, r_h; cbn [fst snd r_x1 r_y1 r_x2 r_y2]; try lra; assumption).
  assert (Fo : sumf part_force ps = force) by (unfold ps, force, f1, f2; forces; ring).
  assert (V : vertical_axis ps (b / 2)).
  { unfold vertical_axis, ps, length_above, length_below, sumf, Rsum, r_h. cbn [map fold_right fst snd r_x1 r_y1 r_x2 r_y2]. rewrite (Rmax_left b), (Rmax_right 0), (Rmin_right b), (Rmin_left 0) by lra. field. }
  assert (M : moment_about_vertical ps (b / 2) = my).
  { unfold moment_about_vertical, ps, sumf, Rsum, r_h, my, f1, f2. cbn [map fold_right fst snd r_x1 r_y1 r_x2 r_y2]. rewrite abs_mid by lra. field. }
  split; intros Fp L.
  - intros y. assert (Hy : y * (2 * f1) = f1 * d1 + f2 * d2) by (unfold y; field; lra). assert (0 <= f2 * d2) by (apply Rmult_le_pos; lra).
    assert (Y1 : y <= d1) by (apply Rmult_le_reg_r with (2 * f1); lra). assert (Y0 : 0 <= y) by (apply Rmult_le_reg_r with (2 * f1); [lra|]; assert (0 <= f1 * d1) by (apply Rmult_le_pos; lra); lra).
    replace (f1 * b * (y ^ 2 + (d1 - y) ^ 2) / 2 + f2 * b * d2 * (d1 + d2 / 2 - y)) with (moment_about_horizontal ps y).
    + rewrite <- M, <- Fo. apply (C89_rectangles l query g s st h1 h2 shapes tol c ps y (b / 2) D B P); [|exact V].
      unfold horizontal_axis, ps, length_above, length_below, sumf, Rsum, r_w. cbn [map fold_right fst snd r_x1 r_y1 r_x2 r_y2]. rewrite (Rmax_left d1), (Rmax_right 0), (Rmin_right d1), (Rmin_left 0), (Rmax_left (d1 + d2)), (Rmin_right (d1 + d2)) by lra. fold f1 f2.
      replace (f1 * (b - 0) * (d1 - y) + (f2 * (b - 0) * (d1 + d2 - d1) + 0)) with (b * (f1 * d1 + f2 * d2 - f1 * y)) by ring. rewrite <- Hy. ring.
    + unfold moment_about_horizontal, ps, sumf, Rsum, r_w. cbn [map fold_right fst snd r_x1 r_y1 r_x2 r_y2]. rewrite abs_mid, abs_right by lra. fold f1 f2. field.
  - intros z. assert (Hz : z * (2 * f2) = f1 * d1 + f2 * d2) by (unfold z; field; lra). assert (0 <= f1 * d1) by (apply Rmult_le_pos; lra).
    assert (Z1 : z <= d2) by (apply Rmult_le_reg_r with (2 * f2); lra). assert (Z0 : 0 <= z) by (apply Rmult_le_reg_r with (2 * f2); [lra|]; assert (0 <= f2 * d2) by (apply Rmult_le_pos; lra); lra).
    set (y := d1 + d2 - z). replace (f2 * b * (z ^ 2 + (d2 - z) ^ 2) / 2 + f1 * b * d1 * (d2 + d1 / 2 - z)) with (moment_about_horizontal ps y).
    + rewrite <- M, <- Fo. apply (C89_rectangles l query g s st h1 h2 shapes tol c ps y (b / 2) D B P); [|exact V].
      unfold horizontal_axis, ps, length_above, length_below, sumf, Rsum, r_w. cbn [map fold_right fst snd r_x1 r_y1 r_x2 r_y2]. unfold y. rewrite (Rmax_right d1), (Rmax_right 0), (Rmin_left d1), (Rmin_left 0), (Rmax_left (d1 + d2)), (Rmin_right (d1 + d2)) by lra. fold f1 f2.
      replace (f1 * (b - 0) * (d1 - 0) + (f2 * (b - 0) * (d1 + d2 - z - d1) + 0)) with (b * (f1 * d1 + f2 * d2 - z * f2)) by ring. rewrite <- Hz. ring.
    + unfold moment_about_horizontal, ps, sumf, Rsum, r_w. cbn [map fold_right fst snd r_x1 r_y1 r_x2 r_y2]. unfold y. rewrite abs_left, abs_mid by lra. fold f1 f2. field.
Qed.

(** ** A case: a timber layer under a steel layer, each 2 wide and 1 thick, meshed with four triangles; its elastic centroid is (1, 5/4) *)
Definition timber : mat_obj := mkMatObj 1 "timber" (mkMat 1 0 1 1) "burlywood".
Definition steel : mat_obj := mkMatObj 2 "steel" (mkMat 3 0 3 1) "grey".
Definition layers_raw : raw_mesh :=
  mkRaw [(0, 0); (2, 0); (2, 1); (0, 1); (2, 2); (0, 2); (1, 0); (2, 1 / 2); (1, 1 / 2); (1, 1); (0, 1 / 2); (2, 3 / 2); (1, 3 / 2); (1, 2); (0, 3 / 2)]
    [mkConn 0 1 2 7 8 6; mkConn 0 2 3 9 10 8; mkConn 3 2 4 11 12 9; mkConn 3 4 5 13 14 12] [0; 0; 1; 1]%nat.
Definition layers_els : list tri6 :=
  let m := mo_val timber in let n := mo_val steel in
  [mk_el m (mkConn 0 1 2 6 7 8) (0, 0) (2, 0) (2, 1); mk_el m (mkConn 0 2 3 8 9 10) (0, 0) (2, 1) (0, 1); mk_el n (mkConn 3 2 4 9 11 12) (0, 1) (2, 1) (2, 2); mk_el n (mkConn 3 4 5 12 13 14) (0, 1) (2, 2) (0, 2)].
Definition layers_geometry : geometry := mkGeometry (Some layers_raw) [timber; steel] 8 (mesh_geom (- (1)) (- (5 / 4)) layers_els).
Example C89_layers_met : exists l query s h1 h2 shapes, plastic_done l query layers_geometry s "direct" h1 h2 shapes 0 /\ is_composite (s_mats s) = true /\
  same_boundary (region_edges (concat shapes)) (moved_edges (1, 5 / 4) (parts_edges [(mo_val timber, rect 0 0 2 1); (mo_val steel, rect 0 1 2 (1 + 1))])) /\
  gives l query layers_geometry s (h1 ++ CPlastic :: h2) get_mp [10 / 3; 4].
Proof.
  destruct ex_libs as (l & _ & Eb). set (query := fun _ : R * R => @nil nat).
  destruct (section_init (Some layers_raw) [timber; steel]) as [s|] eqn:Es; [|discriminate Es].
  assert (Hb : built layers_geometry s) by (split; [exact Es|injection Es as <-; discriminate]).
  assert (Hc : is_composite (s_mats s) = true) by (injection Es as <-; reflexivity).
  set (h1 := [CGeometric]). set (h2 := [CFrame "direct"]). set (shapes := mesh_shapes (- (1)) (- (5 / 4)) layers_els).
  assert (Hv : valid_mesh layers_els) by (intros el [<-|[<-|[<-|[<-|[]]]]]; apply mk_el_valid; unfold S_Integral.orient; cbn [fst snd]; lra).
  destruct (mesh_geom_ok (- (1)) (- (5 / 4)) layers_els ltac:(discriminate) Hv ltac:(intros el [<-|[<-|[<-|[<-|[]]]]]; cbn; lra)) as (A & S & _).
  assert (U1 : Forall (uses "direct") h1) by (repeat constructor). assert (Ig : In CGeometric h1) by (left; reflexivity).
  assert (D : plastic_done l query layers_geometry s "direct" h1 h2 shapes 0).
  { split; [exact Hb|]. split; [apply Forall_app; split; [exact U1|repeat constructor]|]. split; [exact Ig|]. split; [|split; [exact A|split; [exact S|rewrite Eb; apply exact_brentq_within]]].
    destruct (C39_after l query layers_geometry s "direct" h1 Hb U1 Ig) as [_ [K _]]. cbv zeta in K. rewrite K. unfold the_plastic. rewrite Eb. cbn [layers_geometry g_plastic].
    destruct (exact_brentq_runs (mesh_geom (- (1)) (- (5 / 4)) layers_els) (geometric_value layers_geometry s) (negb (is_composite (s_mats s))) shapes (p_phi (the_centroidal s)) eq_refl A S) as (ws & H). rewrite H. exact I. }
  assert (B : same_boundary (region_edges (concat shapes)) (moved_edges (1, 5 / 4) (parts_edges [(mo_val timber, rect 0 0 2 1); (mo_val steel, rect 0 1 2 (1 + 1))]))).
  { set (m := mo_val timber). set (n := mo_val steel).
    set (a := (0 - 1, 0 - 5 / 4)). set (b := (2 - 1, 0 - 5 / 4)). set (c := (2 - 1, 1 - 5 / 4)). set (d := (0 - 1, 1 - 5 / 4)). set (e := (2 - 1, 2 - 5 / 4)). set (f := (0 - 1, 2 - 5 / 4)).
    replace (1 + 1) with 2 by ring.
    change (same_boundary [(m, a, b); (m, b, c); (m, c, a); (m, a, c); (m, c, d); (m, d, a); (n, d, c); (n, c, e); (n, e, d); (n, d, e); (n, e, f); (n, f, d)] [(m, a, b); (m, b, c); (m, c, d); (m, d, a); (n, d, c); (n, c, e); (n, e, f); (n, f, d)]).
    cancels m c a. cancels n e d. apply sb_perm. perms. }
  exists l, query, s, h1, h2, shapes. split; [exact D|]. split; [exact Hc|]. split; [exact B|].
  destruct (C89_two_layers l query layers_geometry s "direct" h1 h2 shapes 0 (1, 5 / 4) (mo_val timber) (mo_val steel) 2 1 1 D B ltac:(lra) ltac:(lra) ltac:(lra)) as [_ K]; [cbn; lra|cbn; lra|].
  destruct K as (ws & Gs & Ws); [cbn; lra|cbn; lra|]. unfold modulus_getter in Gs. rewrite Hc in Gs. inversion Ws as [|? w1 ? ws' W1 Ws']; subst. inversion Ws' as [|? w2 ? ws'' W2 Ws'']; subst. inversion Ws''; subst.
  change (m_fy (mo_val timber)) with 1 in W1, W2. change (m_fy (mo_val steel)) with 3 in W1, W2.
  replace ((1 * 1 + 3 * 1) / (2 * 3)) with (2 / 3) in W1 by field.
  replace w1 with (10 / 3) in Gs by lra. replace w2 with 4 in Gs by lra. exact Gs.
Qed.

Print Assumptions C89_rectangles.
Print Assumptions C89_axes_exist.
Print Assumptions C89_two_layers.
Print Assumptions C89_layers_met.
