(** Theorems: geometric properties of the NASTRAN hexagon, from the library function to the getters: C105. *)
From Coquelicot Require Import Coquelicot.
From Coq Require Import String Reals List Permutation Lra Lia.
From Verif Require Import Base S_Integral M_Fea S_Fem M_Section S_Section M_Init M_Props M_State S_State M_Geometry S_Geometry P_Geom P_Geometry P_Geometry3 P_Section P_Totals P_Geometry8 M_Library S_Library P_Library P_Library2 P_Library8 P_Geometry6 M_Nastran P_Nastran2.
From Verif Require Import S_Outline P_Outline P_Outline2 P_Outline3 S_PlasticForms P_PlasticForms2 S_Init T_Init T_State T_Outline.
Import ListNotations.
Local Open Scope list_scope.
Local Open Scope R_scope.

(** A hexagon of the width d2 and the height d3 whose left and right corners stand out by d1: a rectangle and two triangles. *)
Theorem C105_nastran_hexa l query g s st h sh d1 d2 d3 gm pts : analysed g s st h -> nastran_hexa sh d1 d2 d3 default_material = Ok (gm, pts) -> fills (s_tris s) (mo_val default_material) (gm_poly gm) ->
  0 < d1 -> 0 < d3 -> 2 * d1 < d2 -> on_grid 12 d1 -> on_grid 12 d2 -> on_grid 12 (d3 / 2) ->
  gives l query g s h get_area [(d2 - d1) * d3] /\ gives l query g s h get_c [d2 / 2; d3 / 2] /\
  gives l query g s h get_ic [(d2 - 2 * d1) * d3 ^ 3 / 12 + 2 * (d1 * d3 ^ 3 / 48); (d2 - 2 * d1) ^ 3 * d3 / 12 + 2 * (d1 ^ 3 * d3 / 36 + d1 * d3 / 2 * ((d2 - 2 * d1) / 2 + d1 / 3) ^ 2); 0].
Proof.
  intros A E F H1 H3 H2 G1 G2 G3. unfold nastran_hexa, checked in E. destruct (lt_b d1 d2); [|discriminate]. unfold with_points, bind in E. destruct (polygon_geometry sh (hexa_points d1 d2 d3) default_material) as [gm'|] eqn:E'; [|discriminate]. injection E as -> _.
  assert (G : on_grid 12 d3) by (replace d3 with (d3 / 2 + d3 / 2) by field; apply grid_plus; assumption).
  assert (Q : gm_poly gm = mkPoly (hexa_points d1 d2 d3) []).
  { apply (plain_exact sh _ default_material); [exact E'|unfold hexa_points; opened|unfold hexa_points; grids|]. exists (d1, 0). split; [left; reflexivity|]. intros Q. injection Q. lra. }
  rewrite Q in F. set (p := mkPoly (hexa_points d1 d2 d3) []) in *. assert (Pa : 0 < (d2 - d1) * d3) by (apply Rmult_lt_0_compat; lra).
  assert (Pr : ring_area (hexa_points d1 d2 d3) = (d2 - d1) * d3) by (unfold hexa_points; unring; field).
  assert (S : forall f, poly_sum f p = f (hexa_points d1 d2 d3)) by (intros f; apply one_sum; lra).
  assert (Ar : poly_area p = (d2 - d1) * d3) by (change (poly_area p) with (poly_sum ring_area p); rewrite S; exact Pr). assert (N : poly_area p <> 0) by lra.
  assert (C : poly_centroid p = (d2 / 2, d3 / 2)).
  { unfold poly_centroid. rewrite Ar. change (poly_mx p) with (poly_sum ring_mx p). change (poly_my p) with (poly_sum ring_my p). rewrite !S. unfold hexa_points. unring. f_equal; field; split; lra. }
  destruct (C88_polygon l query g s st h p A F N) as (K1 & _ & _ & K4 & K5). unfold poly_ixx_c, poly_iyy_c, poly_ixy_c, poly_ixx, poly_iyy, poly_ixy in K5. rewrite C in K4, K5. rewrite Ar in K1, K5. rewrite !S in K5. cbn [fst snd] in K4, K5.
  split; [exact K1|]. split; [exact K4|]. match type of K5 with gives _ _ _ _ _ _ [?a; ?b; ?c] => replace a with ((d2 - 2 * d1) * d3 ^ 3 / 12 + 2 * (d1 * d3 ^ 3 / 48)) in K5 by (unfold hexa_points, ring_ixx; unring; field);
    replace b with ((d2 - 2 * d1) ^ 3 * d3 / 12 + 2 * (d1 ^ 3 * d3 / 36 + d1 * d3 / 2 * ((d2 - 2 * d1) / 2 + d1 / 3) ^ 2)) in K5 by (unfold hexa_points, ring_iyy; unring; field); replace c with 0 in K5 by (unfold hexa_points, ring_ixy; unring; field) end.
  exact K5.
Qed.

(** ** A case: a hexagon 4 wide and 2 high, meshed with four triangles *)
Definition hexa_raw : raw_mesh :=
  mkRaw [(1, 0); (3, 0); (4, 1); (3, 2); (1, 2); (0, 1); (2, 0); (7 / 2, 1 / 2); (5 / 2, 1 / 2); (7 / 2, 3 / 2); (2, 1); (2, 2); (1, 1); (1 / 2, 3 / 2); (1 / 2, 1 / 2)]
    [mkConn 0 1 2 7 8 6; mkConn 0 2 3 9 10 8; mkConn 0 3 4 11 12 10; mkConn 0 4 5 13 14 12] [0; 0; 0; 0]%nat.
Example hexa_raw_ok : mesher_mesh hexa_raw.
Proof.
  split; [reflexivity|]. intros row Hr. assert (Hr' : row = mkConn 0 1 2 7 8 6 \/ row = mkConn 0 2 3 9 10 8 \/ row = mkConn 0 3 4 11 12 10 \/ row = mkConn 0 4 5 13 14 12) by (destruct Hr as [<-|[<-|[<-|[<-|[]]]]]; tauto).
  destruct Hr' as [->|[->|[->| ->]]]; (split; [|split; [unfold ids_list; cbn [c0 c1 c2 c3 c4 c5]; repeat (apply NoDup_cons; [cbn [In]; lia|]); apply NoDup_nil|]];
    [unfold mesher_row, midpoint, S_Integral.orient, hexa_raw; cbn [rm_vertices nth c0 c1 c2 c3 c4 c5 fst snd]; split; [f_equal; lra|split; [f_equal; lra|split; [f_equal; lra|lra]]]
    |intros k; unfold ids_list; cbn [In c0 c1 c2 c3 c4 c5 hexa_raw rm_vertices length]; lia]).
Qed.
Definition hexa_geometry : geometry := mkGeometry (Some hexa_raw) [default_material] 8 (g_plastic ex_geometry).
Example C105_nastran_hexa_met : exists l query s h gm pts, analysed hexa_geometry s "direct" h /\ nastran_hexa toy 1 4 2 default_material = Ok (gm, pts) /\ fills (s_tris s) (mo_val default_material) (gm_poly gm) /\
  gives l query hexa_geometry s h get_area [6] /\ gives l query hexa_geometry s h get_c [2; 1].
Proof.
  destruct ex_libs as (l & _). set (query := fun _ : R * R => @nil nat). set (h := [CPlastic; CGeometric; CFrame "direct"]).
  destruct (section_init (Some hexa_raw) [default_material]) as [s|] eqn:Es; [|discriminate Es].
  assert (Hb : built hexa_geometry s) by (split; [exact Es|injection Es as <-; discriminate]).
  assert (A : analysed hexa_geometry s "direct" h) by (split; [exact Hb|split; [repeat constructor|split; [right; left; reflexivity|injection Es as <-; cbn [s_mats]; unfold is_composite; cbn [forallb]; replace (mat_eqb default_material default_material) with true; [reflexivity|]; unfold mat_eqb; rewrite !String.eqb_refl; unfold Reqb; repeat destruct (Req_EM_T _ _); try congruence; reflexivity]]]).
  assert (O : open_loop (hexa_points 1 4 2)) by (unfold hexa_points; opened).
  set (gm := new_geometry toy (mkPoly (hexa_points 1 4 2) []) default_material None 12).
  assert (E : nastran_hexa toy 1 4 2 default_material = Ok (gm, [(0, 2 / 2); (0, - 2 / 2); (4 / 2, 0); (- 4 / 2, 0)])).
  { unfold nastran_hexa, checked, lt_b. destruct (Rlt_dec 1 4) as [_|]; [|lra]. unfold polygon_geometry. rewrite (open_loop_ring _ O). reflexivity. }
  assert (G2 : on_grid 12 (2 / 2)) by (replace (2 / 2) with 1 by field; apply int_grid).
  assert (Q : gm_poly gm = mkPoly [(1, 0); (3, 0); (4, 1); (3, 2); (1, 2); (0, 1)] []).
  { replace [(1, 0); (3, 0); (4, 1); (3, 2); (1, 2); (0, 1)] with (hexa_points 1 4 2) by (unfold hexa_points; repeat (apply f_equal2; [f_equal; lra|]); reflexivity).
    apply (plain_exact toy (hexa_points 1 4 2) default_material); [unfold polygon_geometry; rewrite (open_loop_ring _ O); reflexivity|exact O|unfold hexa_points; assert (G1 : on_grid 12 1) by apply int_grid; assert (G4 : on_grid 12 4) by apply int_grid; assert (G22 : on_grid 12 2) by apply int_grid; grids|].
    exists (1, 0). split; [left; reflexivity|]. intros K. injection K. lra. }
  assert (F : fills (s_tris s) (mo_val default_material) (gm_poly gm)).
  { rewrite Q. split; [apply (C17_node_order hexa_raw [default_material] s hexa_raw_ok Es)|]. injection Es as <-. unfold s_tris. cbn [s_els]. rewrite one_edges by (unring; lra). set (m := mo_val default_material).
    set (q0 := (1, 0)). set (q1 := (3, 0)). set (q2 := (4, 1)). set (q3 := (3, 2)). set (q4 := (1, 2)). set (q5 := (0, 1)).
    change (same_boundary [(m, q0, q1); (m, q1, q2); (m, q2, q0); (m, q0, q2); (m, q2, q3); (m, q3, q0); (m, q0, q3); (m, q3, q4); (m, q4, q0); (m, q0, q4); (m, q4, q5); (m, q5, q0)] [(m, q0, q1); (m, q1, q2); (m, q2, q3); (m, q3, q4); (m, q4, q5); (m, q5, q0)]).
    cancels m q0 q2. cancels m q0 q3. cancels m q0 q4. apply sb_perm. perms. }
  exists l, query, s, h, gm. eexists. split; [exact A|]. split; [exact E|]. split; [exact F|].
  destruct (C105_nastran_hexa l query hexa_geometry s "direct" h toy 1 4 2 gm _ A E F) as (K1 & K2 & _); [lra|lra|lra|apply int_grid|apply int_grid|exact G2|].
  split; [replace 6 with ((4 - 1) * 2) by ring; exact K1|]. replace 2 with (4 / 2) at 1 by field. replace 1 with (2 / 2) at 1 by field. exact K2.
Qed.

Print Assumptions C105_nastran_hexa.
Print Assumptions C105_nastran_hexa_met.
