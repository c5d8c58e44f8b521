(** Theorems: closed forms of the plastic modulus of further library sections, from the library function to the getters: C89. *)
From Coquelicot Require Import Coquelicot.
From Coq Require Import String Reals List Permutation Lra Lia.
From Verif Require Import Base S_Integral M_Fea S_Fem M_Section S_Section M_Bisect M_Plastic S_Plastic S_Shape M_Init S_Init M_Props M_State S_State M_Geometry S_Geometry P_Geom P_Geometry P_Geometry3 P_Section P_Plastic P_Plastic2 P_Plastic4 P_Plastic6 P_Plastic7 P_State P_State3 P_State4 P_State5 P_Geometry6 P_Geometry8 M_Library S_Library P_Library8 P_Library2.
From Verif Require Import S_Outline P_Outline P_Outline2 P_Outline3 S_PlasticForms P_PlasticForms P_PlasticForms2 P_PlasticForms3 P_PlasticForms4 T_Section T_Init T_Plastic T_State T_Outline T_PlasticForms.
From Verif Require Import M_Post.
Import ListNotations.
Local Open Scope list_scope.
Local Open Scope R_scope.

Lemma cuts_reported l query g s st h1 h2 shapes tol m p A A' Sx Sy : plastic_done l query g s st h1 h2 shapes tol -> fills_centred (concat shapes) m p -> 0 <= m_fy m ->
  cut_gives (poly_edges m p) m (0, 1) A Sx -> cut_gives (poly_edges m p) m (1, 0) A' Sy ->
  gives_near l query g s (h1 ++ CPlastic :: h2) (modulus_getter s) (m_fy m * A * tol) [m_fy m * Sx; m_fy m * Sy].
Proof.
  intros D B F (dx & up & dn & X & MX & FX & PX) (dy & rt & lf & Y & MY & _ & PY). rewrite <- FX, <- PX, <- PY. apply (C89_polygon l query g s st h1 h2 shapes tol m p dx up dn dy rt lf D B X Y).
  apply (one_mat m _ F). rewrite app_assoc. apply Forall_app. split; assumption.
Qed.

(** The cruciform with sharp corners *)
Theorem C89_cruciform_section l query g s st h1 h2 shapes tol sh d b t n_r mat gm : plastic_done l query g s st h1 h2 shapes tol -> cruciform_section sh d b t 0 n_r mat = Ok gm ->
  let m := mo_val mat in let fy := m_fy m in fills_centred (concat shapes) m (gm_poly gm) -> 0 <= fy ->
  0 < t -> t < d -> t < b -> on_grid 12 (d / 2) -> on_grid 12 (b / 2) -> on_grid 12 (t / 2) ->
  gives_near l query g s (h1 ++ CPlastic :: h2) (modulus_getter s) (fy * (t * (b + d - t)) * tol) [fy * (t * d ^ 2 / 4 + (b - t) * t ^ 2 / 4); fy * (t * b ^ 2 / 4 + (d - t) * t ^ 2 / 4)].
Proof.
  intros D E m fy B Hf H1 H2 H3 Gd Gb Gt. pose proof (cross_out sh d b t n_r m mat gm E H1 H2 H3 Gd Gb Gt) as O.
  eapply near_eq; [| |apply (cuts_reported l query g s st h1 h2 shapes tol m (gm_poly gm) _ _ _ _ D B Hf (cross_cut_x m _ (b / 2) (d / 2) (t / 2) ltac:(lra) ltac:(lra) ltac:(lra) O) (cross_cut_y m _ (b / 2) (d / 2) (t / 2) ltac:(lra) ltac:(lra) ltac:(lra) O))].
  - unfold fy. field.
  - unfold fy. apply f_equal2; [field|apply f_equal2; [field|reflexivity]].
Qed.

(** The I with unequal flanges and sharp corners: the horizontal plastic axis is in the bottom flange if this is at least half of the section, in the top
    flange if that is, otherwise in the web. *)
Theorem C89_mono_i_section l query g s st h1 h2 shapes tol sh d b_t b_b t_ft t_fb t_w n_r mat gm : plastic_done l query g s st h1 h2 shapes tol -> mono_i_section sh d b_t b_b t_ft t_fb t_w 0 n_r mat = Ok gm ->
  let m := mo_val mat in let fy := m_fy m in fills_centred (concat shapes) m (gm_poly gm) -> 0 <= fy ->
  0 < t_ft -> 0 < t_fb -> 0 < t_w -> t_ft + t_fb < d -> t_w <= b_t -> t_w <= b_b ->
  let c := Rmax b_t b_b / 2 in on_grid 12 d -> on_grid 12 t_ft -> on_grid 12 t_fb -> on_grid 12 (c - b_t / 2) -> on_grid 12 (c + b_t / 2) -> on_grid 12 (c - b_b / 2) -> on_grid 12 (c + b_b / 2) -> on_grid 12 (c - t_w / 2) -> on_grid 12 (c + t_w / 2) ->
  let dw := d - t_ft - t_fb in let Ab := b_b * t_fb in let Aw := t_w * dw in let At := b_t * t_ft in let A := Ab + Aw + At in
  (** the heights of the middles of the flanges and of the web, and of the plastic axis *)
  let yb := t_fb / 2 in let yw := t_fb + dw / 2 in let yt := d - t_ft / 2 in
  let y := if Rle_dec (A / 2) Ab then A / (2 * b_b) else if Rle_dec (A / 2) At then d - A / (2 * b_t) else t_fb + (A / 2 - Ab) / t_w in
  let sxx := if Rle_dec (A / 2) Ab then b_b * y ^ 2 / 2 + b_b * (t_fb - y) ^ 2 / 2 + Aw * (yw - y) + At * (yt - y)
             else if Rle_dec (A / 2) At then b_t * (d - y) ^ 2 / 2 + b_t * (y - (d - t_ft)) ^ 2 / 2 + Aw * (y - yw) + Ab * (y - yb)
             else t_w * (y - t_fb) ^ 2 / 2 + t_w * (d - t_ft - y) ^ 2 / 2 + Ab * (y - yb) + At * (yt - y) in
  gives_near l query g s (h1 ++ CPlastic :: h2) (modulus_getter s) (fy * A * tol) [fy * sxx; fy * (t_fb * b_b ^ 2 / 4 + t_ft * b_t ^ 2 / 4 + dw * t_w ^ 2 / 4)].
Proof.
  intros D E m fy B Hf H1 H2 H3 H4 H5 H6 c Gd G1 G2 G3 G4 G5 G6 G7 G8 dw Ab Aw At A yb yw yt y sxx.
  pose proof (mono_out sh d b_t b_b t_ft t_fb t_w n_r m mat gm E H1 H2 H3 H4 H5 H6 Gd G1 G2 G3 G4 G5 G6 G7 G8) as O. cbv zeta in O. fold c in O.
  assert (PB : 0 < Ab) by (unfold Ab; apply Rmult_lt_0_compat; lra). assert (PW : 0 < Aw) by (unfold Aw, dw; apply Rmult_lt_0_compat; lra). assert (PT : 0 < At) by (unfold At; apply Rmult_lt_0_compat; lra).
  assert (PA : 0 < A) by (unfold A; lra).
  assert (EA : b_b * t_fb + t_w * (d - t_ft - t_fb) + b_t * (d - (d - t_ft)) = A) by (unfold A, Ab, Aw, At, dw; ring).
  pose proof (stack_cut_y m _ c b_b t_w b_t t_fb (d - t_ft) d ltac:(lra) H3 ltac:(lra) H2 ltac:(lra) ltac:(lra) O) as Y.
  assert (ES : forall s1 s2 s3 s4, s1 = s3 -> s2 = s4 -> [m_fy m * s1; m_fy m * s2] = [fy * s3; fy * s4]) by (intros; subst; reflexivity).
  unfold sxx, y. destruct (Rle_dec (A / 2) Ab) as [L|L]; [|destruct (Rle_dec (A / 2) At) as [L'|L']].
  - set (y0 := A / (2 * b_b)). assert (Ey : 2 * b_b * y0 = A) by (unfold y0; field; lra).
    assert (Y0 : 0 < y0) by (unfold y0; apply Rdiv_lt_0_compat; lra). assert (Y1 : y0 <= t_fb) by (apply Rmult_le_reg_l with (2 * b_b); [lra|rewrite Ey; unfold Ab in L; lra]).
    pose proof (stack_cut_low m _ c b_b t_w b_t t_fb (d - t_ft) d y0 ltac:(lra) H3 ltac:(lra) H2 ltac:(lra) ltac:(lra) Y0 Y1 ltac:(rewrite EA; exact Ey) O) as X.
    eapply near_eq; [| |apply (cuts_reported l query g s st h1 h2 shapes tol m (gm_poly gm) _ _ _ _ D B Hf X Y)]; [unfold fy; rewrite EA; reflexivity|].
    apply ES; unfold yw, yt, Aw, At, dw; field.
  - set (y0 := d - A / (2 * b_t)). assert (Ey : 2 * b_t * (d - y0) = A) by (unfold y0; field; lra).
    assert (Y0 : y0 < d) by (assert (0 < A / (2 * b_t)) by (apply Rdiv_lt_0_compat; lra); unfold y0; lra). assert (Y1 : d - t_ft <= y0) by (assert (d - y0 <= t_ft); [apply Rmult_le_reg_l with (2 * b_t); [lra|rewrite Ey; unfold At in L'; lra]|lra]).
    pose proof (stack_cut_high m _ c b_b t_w b_t t_fb (d - t_ft) d y0 ltac:(lra) H3 ltac:(lra) H2 ltac:(lra) ltac:(lra) Y1 Y0 ltac:(rewrite EA; exact Ey) O) as X.
    eapply near_eq; [| |apply (cuts_reported l query g s st h1 h2 shapes tol m (gm_poly gm) _ _ _ _ D B Hf X Y)]; [unfold fy; rewrite EA; reflexivity|].
    apply ES; unfold yw, yb, Aw, Ab, dw; field.
  - set (y0 := t_fb + (A / 2 - Ab) / t_w). assert (Ey : 2 * (b_b * t_fb + t_w * (y0 - t_fb)) = A) by (unfold y0, Ab; field; lra).
    assert (Y0 : t_fb < y0) by (assert (0 < (A / 2 - Ab) / t_w) by (apply Rdiv_lt_0_compat; lra); unfold y0; lra).
    assert (Y1 : y0 < d - t_ft) by (assert (y0 - t_fb < dw); [apply Rmult_lt_reg_l with t_w; [lra|]; unfold A, Aw, Ab in *; lra|unfold dw in *; lra]).
    pose proof (stack_cut_mid m _ c b_b t_w b_t t_fb (d - t_ft) d y0 ltac:(lra) H3 ltac:(lra) H2 ltac:(lra) ltac:(lra) Y0 Y1 ltac:(rewrite EA; exact Ey) O) as X.
    eapply near_eq; [| |apply (cuts_reported l query g s st h1 h2 shapes tol m (gm_poly gm) _ _ _ _ D B Hf X Y)]; [unfold fy; rewrite EA; reflexivity|].
    apply ES; unfold yb, yt, Ab, At, dw; field.
Qed.

(** The angle with sharp corners: each plastic axis (parallel to a leg) is in this leg, if this is at least half of the section, otherwise in the other leg. *)
Theorem C89_angle_section l query g s st h1 h2 shapes tol sh d b t n_r mat gm : plastic_done l query g s st h1 h2 shapes tol -> angle_section sh d b t 0 0 n_r mat = Ok gm ->
  let m := mo_val mat in let fy := m_fy m in fills_centred (concat shapes) m (gm_poly gm) -> 0 <= fy ->
  1 / 10 ^ 8 < t -> t < d -> t < b -> on_grid 12 d -> on_grid 12 b -> on_grid 12 t ->
  let A := t * (b + d - t) in
  let modulus p q := let u := A / (2 * p) in let v := A / (2 * t) in
    if Rlt_dec p (q - t) then t * v ^ 2 / 2 + t * (q - t - v) ^ 2 / 2 + p * t * (q - v - t / 2) else p * u ^ 2 / 2 + p * (t - u) ^ 2 / 2 + t * (q - t) * ((q + t) / 2 - u) in
  gives_near l query g s (h1 ++ CPlastic :: h2) (modulus_getter s) (fy * A * tol) [fy * modulus b d; fy * modulus d b].
Proof.
  intros D E m fy B Hf H1 H2 H3 Gd Gb Gt A modulus. destruct (angle_out sh d b t n_r m mat gm E H1 H2 H3 Gd Gb Gt) as [O O'].
  eapply near_eq; [| |apply (cuts_reported l query g s st h1 h2 shapes tol m (gm_poly gm) _ _ _ _ D B Hf (leg_cut_x m _ b d t ltac:(lra) H3 H2 O) (leg_cut_y m _ b d t ltac:(lra) H3 H2 O'))]; [reflexivity|].
  unfold leg_modulus, modulus, A, fy. replace (d + b - t) with (b + d - t) by ring. reflexivity.
Qed.

(** Dimensions that meet the conditions: the I with a wide bottom flange has its plastic axis in this flange, with flanges of similar size in the web; so
    all three cases occur. *)
Example C89_mono_cases :
  (exists gm, mono_i_section toy 10 2 12 1 2 1 0 4 default_material = Ok gm) /\
  (2 * (12 * 2) >= 12 * 2 + 1 * 7 + 2 * 1) /\ (exists gm, mono_i_section toy 10 4 6 1 1 1 0 4 default_material = Ok gm) /\
  (2 * (6 * 1) < 6 * 1 + 1 * 8 + 4 * 1 /\ 2 * (4 * 1) < 6 * 1 + 1 * 8 + 4 * 1).
Proof.
  split; [|split; [lra|split; [|lra]]]; unfold mono_i_section.
  all: match goal with |- exists gm, polygon_geometry toy (mono_i_points ?d ?bt ?bb ?tt ?tb ?tw 0 4) _ = _ =>
    assert (P : mono_i_points d bt bb tt tb tw 0 4 = [(Rmax bt bb / 2 - bb / 2, 0); (Rmax bt bb / 2 + bb / 2, 0); (Rmax bt bb / 2 + bb / 2, tb); (Rmax bt bb / 2 + tw / 2, tb); (Rmax bt bb / 2 + tw / 2, d - tt); (Rmax bt bb / 2 + bt / 2, d - tt); (Rmax bt bb / 2 + bt / 2, d); (Rmax bt bb / 2 - bt / 2, d); (Rmax bt bb / 2 - bt / 2, d - tt); (Rmax bt bb / 2 - tw / 2, d - tt); (Rmax bt bb / 2 - tw / 2, tb); (Rmax bt bb / 2 - bb / 2, tb)]) by (unfold mono_i_points; sharp) end;
    rewrite P, Rmax_right by lra; unfold polygon_geometry; rewrite open_loop_ring by opened; eexists; reflexivity.
Qed.

(** ** A case: the angle with two legs of length 2 and thickness 1, meshed with four triangles *)
Definition angle_raw : raw_mesh :=
  mkRaw [(0, 0); (2, 0); (2, 1); (1, 1); (1, 2); (0, 2); (1, 0); (3 / 2, 1 / 2); (1 / 2, 1 / 2); (2, 1 / 2); (3 / 2, 1); (1, 3 / 2); (1 / 2, 2); (1 / 2, 3 / 2); (0, 1)]
    [mkConn 0 1 3 7 8 6; mkConn 1 2 3 10 7 9; mkConn 3 4 5 12 13 11; mkConn 0 3 5 13 14 8] [0; 0; 0; 0]%nat.
Example angle_raw_ok : mesher_mesh angle_raw.
Proof.
  split; [reflexivity|]. intros row Hr. assert (Hr' : row = mkConn 0 1 3 7 8 6 \/ row = mkConn 1 2 3 10 7 9 \/ row = mkConn 3 4 5 12 13 11 \/ row = mkConn 0 3 5 13 14 8) by (destruct Hr as [<-|[<-|[<-|[<-|[]]]]]; tauto).
  destruct Hr' as [->|[->|[->| ->]]]; (split; [|split; [unfold ids_list; cbn [c0 c1 c2 c3 c4 c5]; repeat (apply NoDup_cons; [cbn [In]; lia|]); apply NoDup_nil|]];
    [unfold mesher_row, midpoint, S_Integral.orient, angle_raw; cbn [rm_vertices nth c0 c1 c2 c3 c4 c5 fst snd]; split; [f_equal; lra|split; [f_equal; lra|split; [f_equal; lra|lra]]]
    |intros k; unfold ids_list; cbn [In c0 c1 c2 c3 c4 c5 angle_raw rm_vertices length]; lia]).
Qed.
Definition angle_els : list tri6 :=
  let m := mo_val default_material in
  [mk_el m (mkConn 0 1 3 6 7 8) (0, 0) (2, 0) (1, 1); mk_el m (mkConn 1 2 3 9 10 7) (2, 0) (2, 1) (1, 1); mk_el m (mkConn 3 4 5 11 12 13) (1, 1) (1, 2) (0, 2); mk_el m (mkConn 0 3 5 8 13 14) (0, 0) (1, 1) (0, 2)].
Definition angle_geometry : geometry := mkGeometry (Some angle_raw) [default_material] 8 (mesh_geom (- (5 / 6)) (- (5 / 6)) angle_els).
Example C89_angle_met : exists l query s h1 h2 shapes gm, plastic_done l query angle_geometry s "direct" h1 h2 shapes 0 /\ angle_section toy 2 2 1 0 0 4 default_material = Ok gm /\
  fills (s_tris s) (mo_val default_material) (gm_poly gm) /\ fills_centred (concat shapes) (mo_val default_material) (gm_poly gm) /\ gives l query angle_geometry s (h1 ++ CPlastic :: h2) get_s [11 / 8; 11 / 8].
Proof.
  destruct ex_libs as (l & _ & Eb). set (query := fun _ : R * R => @nil nat).
  destruct (section_init (Some angle_raw) [default_material]) as [s|] eqn:Es; [|discriminate Es].
  assert (Hb : built angle_geometry s) by (split; [exact Es|injection Es as <-; discriminate]).
  assert (Hc : is_composite (s_mats s) = false).
  { injection Es as <-. cbn [s_mats]. unfold is_composite. cbn [forallb]. replace (mat_eqb default_material default_material) with true; [reflexivity|]. unfold mat_eqb. rewrite !String.eqb_refl. unfold Reqb. repeat destruct (Req_EM_T _ _); try congruence. reflexivity. }
  set (h1 := [CGeometric]). set (h2 := [CFrame "direct"]). set (shapes := mesh_shapes (- (5 / 6)) (- (5 / 6)) angle_els).
  assert (Hv : valid_mesh angle_els) by (intros el [<-|[<-|[<-|[<-|[]]]]]; apply mk_el_valid; unfold S_Integral.orient; cbn [fst snd]; lra).
  destruct (mesh_geom_ok (- (5 / 6)) (- (5 / 6)) angle_els ltac:(discriminate) Hv ltac:(intros el [<-|[<-|[<-|[<-|[]]]]]; cbn; lra)) as (A & S & _).
  assert (U1 : Forall (uses "direct") h1) by (repeat constructor). assert (Ig : In CGeometric h1) by (left; reflexivity).
  assert (D : plastic_done l query angle_geometry s "direct" h1 h2 shapes 0).
  { split; [exact Hb|]. split; [apply Forall_app; split; [exact U1|repeat constructor]|]. split; [exact Ig|]. split; [|split; [exact A|split; [exact S|rewrite Eb; apply exact_brentq_within]]].
    destruct (C39_after l query angle_geometry s "direct" h1 Hb U1 Ig) as [_ [K _]]. cbv zeta in K. rewrite K. unfold the_plastic. rewrite Eb. cbn [angle_geometry g_plastic].
    destruct (exact_brentq_runs (mesh_geom (- (5 / 6)) (- (5 / 6)) angle_els) (geometric_value angle_geometry s) (negb (is_composite (s_mats s))) shapes (p_phi (the_centroidal s)) eq_refl A S) as (ws & H). rewrite H. exact I. }
  set (ring := [(0, 0); (2, 0); (2, 1); (1, 1); (1, 2); (0, 2)]). assert (O : open_loop ring) by (unfold ring; opened). set (p := mkPoly ring []).
  assert (E : angle_section toy 2 2 1 0 0 4 default_material = Ok (new_geometry toy p default_material None 12)).
  { unfold angle_section. destruct (Rlt_dec 1 0) as [|_]; [lra|].
    assert (P : angle_points 2 2 1 0 0 4 = ring). { unfold angle_points, isclose. destruct (Rle_dec _ _) as [L|_]; [exfalso; rewrite Rabs_R0 in L; rewrite Rabs_right in L by lra; lra|]. unfold ring. sharp. }
    unfold polygon_geometry. rewrite P, (open_loop_ring _ O). reflexivity. }
  assert (G : gm_poly (new_geometry toy p default_material None 12) = p).
  { eapply (plain_exact toy ring default_material); [unfold polygon_geometry; rewrite (open_loop_ring _ O); reflexivity|exact O|repeat constructor; apply int_grid|]. exists (2, 0). split; [right; left; reflexivity|]. intros Q. injection Q. lra. }
  assert (F : fills (s_tris s) (mo_val default_material) p).
  { split.
    - apply (C17_node_order angle_raw [default_material] s angle_raw_ok Es).
    - injection Es as <-. unfold s_tris. cbn [s_els]. assert (L : 0 <= ring_area ring) by (unfold ring; unring; lra). unfold p, ring in *. rewrite one_edges by exact L. set (m := mo_val default_material).
      set (a := (0, 0)). set (b := (2, 0)). set (c := (2, 1)). set (d := (1, 1)). set (e := (1, 2)). set (f := (0, 2)).
      change (same_boundary [(m, a, b); (m, b, d); (m, d, a); (m, b, c); (m, c, d); (m, d, b); (m, d, e); (m, e, f); (m, f, d); (m, a, d); (m, d, f); (m, f, a)] [(m, a, b); (m, b, c); (m, c, d); (m, d, e); (m, e, f); (m, f, a)]).
      cancels m b d. cancels m d a. cancels m f d. apply sb_perm. perms. }
  assert (B : fills_centred (concat shapes) (mo_val default_material) p).
  { assert (L : 0 <= ring_area ring) by (unfold ring; unring; lra). assert (SS : forall f, poly_sum f p = f ring) by (intros f; apply one_sum, L).
    assert (Ce : poly_centroid p = (5 / 6, 5 / 6)).
    { unfold poly_centroid. change (poly_area p) with (poly_sum ring_area p). change (poly_mx p) with (poly_sum ring_mx p). change (poly_my p) with (poly_sum ring_my p). rewrite !SS. unfold ring. unring. f_equal; field. }
    unfold fills_centred. rewrite Ce. unfold p, ring in *. rewrite one_edges by exact L. set (m := mo_val default_material).
    set (a := (0 - 5 / 6, 0 - 5 / 6)). set (b := (2 - 5 / 6, 0 - 5 / 6)). set (c := (2 - 5 / 6, 1 - 5 / 6)). set (d := (1 - 5 / 6, 1 - 5 / 6)). set (e := (1 - 5 / 6, 2 - 5 / 6)). set (f := (0 - 5 / 6, 2 - 5 / 6)).
    change (same_boundary [(m, a, b); (m, b, d); (m, d, a); (m, b, c); (m, c, d); (m, d, b); (m, d, e); (m, e, f); (m, f, d); (m, a, d); (m, d, f); (m, f, a)] [(m, a, b); (m, b, c); (m, c, d); (m, d, e); (m, e, f); (m, f, a)]).
    cancels m b d. cancels m d a. cancels m f d. apply sb_perm. perms. }
  exists l, query, s, h1, h2, shapes, (new_geometry toy p default_material None 12). rewrite G. split; [exact D|]. split; [exact E|]. split; [exact F|]. split; [exact B|]. rewrite <- G in B.
  destruct (C89_angle_section l query angle_geometry s "direct" h1 h2 shapes 0 toy 2 2 1 4 default_material _ D E B) as (ws & Gs & Ws); [cbn; lra|lra|lra|lra|apply int_grid|apply int_grid|apply int_grid|].
  cbv zeta in Ws. destruct (Rlt_dec 2 (2 - 1)) as [Q|_]; [lra|]. unfold modulus_getter in Gs. rewrite Hc in Gs. inversion Ws as [|? w1 ? ws' W1 Ws']; subst. inversion Ws' as [|? w2 ? ws'' W2 Ws'']; subst. inversion Ws''; subst. change (m_fy (mo_val default_material)) with 1 in W1, W2.
  replace w1 with (11 / 8) in Gs by lra. replace w2 with (11 / 8) in Gs by lra. exact Gs.
Qed.

Print Assumptions C89_cruciform_section.
Print Assumptions C89_mono_i_section.
Print Assumptions C89_angle_section.
Print Assumptions C89_angle_met.
