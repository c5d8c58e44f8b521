(** Theorems: plastic moduli of the cee and zed sections: C89. *)
From Coquelicot Require Import Coquelicot.
From Coq Require Import String Reals List Permutation Lra Lia.
From Verif Require Import Base S_Integral M_Fea S_Fem M_Section S_Section M_Bisect M_Plastic S_Plastic M_Init M_Props M_State S_State M_Geometry S_Geometry P_Geom P_Geometry P_Geometry3 P_Section P_Plastic P_Plastic2 P_Plastic4 P_State P_State3 P_State4 P_State5 P_Geometry6 P_Geometry8 M_Library S_Library P_Library8 P_Library2 S_Outline P_Outline P_Outline2 P_Outline3.
From Verif Require Import S_PlasticForms P_PlasticForms P_PlasticForms2 P_PlasticForms3 P_PlasticForms4 S_Shape S_Init P_Plastic6 P_Plastic7 S_Rects P_Rects T_Section T_Init T_Plastic T_State T_Outline T_PlasticForms T_Rects.
From Verif Require Import M_Post.
Import ListNotations.
Local Open Scope list_scope.
Local Open Scope R_scope.

(** A polygon of one material that is made of plates *)
Theorem C89_plates l query g s st h1 h2 shapes tol m p ps dx dy : plastic_done l query g s st h1 h2 shapes tol -> fills_centred (concat shapes) m p ->
  same_boundary (poly_edges m p) (parts_edges (map (pair m) ps)) -> Forall (fun r => 0 < r_w r /\ 0 < r_h r) ps -> 0 <= m_fy m ->
  horizontal_axis (map (pair m) ps) dx -> vertical_axis (map (pair m) ps) dy ->
  gives_near l query g s (h1 ++ CPlastic :: h2) (modulus_getter s) (m_fy m * plates_area ps * tol) [moment_about_horizontal (map (pair m) ps) dx; moment_about_vertical (map (pair m) ps) dy].
Proof.
  intros D B S P F X Y. assert (Fo : m_fy m * plates_area ps = sumf part_force (map (pair m) ps)).
  { unfold plates_area. rewrite sumf_map. unfold part_force. cbn [fst snd]. symmetry. apply (sumf_scal (m_fy m) r_area). }
  rewrite Fo. apply (C89_rectangles l query g s st h1 h2 shapes tol (poly_centroid p)); [exact D| | |exact X|exact Y].
  - eapply sb_trans; [exact B|]. apply sb_moved. exact S.
  - apply Forall_map. eapply Forall_impl; [|exact P]. intros r [W H]. split; [exact W|split; [exact H|exact F]].
Qed.

Definition cee_plates (d b lip t : R) : list plate_at := [rect 0 0 b t; rect 0 t t (d - t); rect 0 (d - t) b d; rect (b - t) t b lip; rect (b - t) (d - lip) b (d - t)].
Definition zed_plates (d b_l b_r lip t : R) : list plate_at := [rect 0 0 b_r t; rect 0 t t (d - t); rect (t - b_l) (d - t) t d; rect (b_r - t) t b_r lip; rect (t - b_l) (d - lip) (t - b_l + t) (d - t)].

Lemma cee_outline m d b l t : 0 < t -> t < l -> 2 * t < b -> 2 * l < d -> same_boundary (parts_edges (map (pair m) (cee_plates d b l t)))
  (S_Section.ring_edges m [(0, 0); (b, 0); (b, l); (b - t, l); (b - t, t); (t, t); (t, d - t); (b - t, d - t); (b - t, d - l); (b, d - l); (b, d); (0, d)]).
Proof.
  intros H1 H2 H3 H4. set (p1 := (0, 0)). set (p2 := (b, 0)). set (p3 := (b, l)). set (p4 := (b - t, l)). set (p5 := (b - t, t)). set (p6 := (t, t)). set (p7 := (t, d - t)). set (p8 := (b - t, d - t)). set (p9 := (b - t, d - l)). set (p10 := (b, d - l)). set (p11 := (b, d)). set (p12 := (0, d)).
  set (e := (b, t)). set (f := (0, t)). set (u := (0, d - t)). set (v := (b, d - t)).
  change (same_boundary [(m, p1, p2); (m, p2, e); (m, e, f); (m, f, p1); (m, f, p6); (m, p6, p7); (m, p7, u); (m, u, f); (m, u, v); (m, v, p11); (m, p11, p12); (m, p12, u); (m, p5, e); (m, e, p3); (m, p3, p4); (m, p4, p5); (m, p9, p10); (m, p10, v); (m, v, p8); (m, p8, p9)]
    [(m, p1, p2); (m, p2, p3); (m, p3, p4); (m, p4, p5); (m, p5, p6); (m, p6, p7); (m, p7, p8); (m, p8, p9); (m, p9, p10); (m, p10, p11); (m, p11, p12); (m, p12, p1)]).
  splits2 m e f p5 p6 (t / b) ((b - t) / b). splits2 m u v p7 p8 (t / b) ((b - t) / b). cancels m e p5. cancels m p6 f. cancels m u p7. cancels m p8 v. apply sb_sym.
  splits m p2 p3 e (t / l). splits m p10 p11 v ((l - t) / l). splits2 m p12 p1 u f (t / d) ((d - t) / d). apply sb_perm. perms.
Qed.
Lemma zed_outline m d bl br l t : 0 < t -> t < l -> 2 * t < bl -> 2 * t < br -> 2 * l < d -> same_boundary (parts_edges (map (pair m) (zed_plates d bl br l t)))
  (S_Section.ring_edges m [(0, 0); (br, 0); (br, l); (br - t, l); (br - t, t); (t, t); (t, d); (t - bl, d); (t - bl, d - l); (t - bl + t, d - l); (t - bl + t, d - t); (0, d - t)]).
Proof.
  intros H1 H2 H3 H3' H4. set (p1 := (0, 0)). set (p2 := (br, 0)). set (p3 := (br, l)). set (p4 := (br - t, l)). set (p5 := (br - t, t)). set (p6 := (t, t)). set (p7 := (t, d)). set (p8 := (t - bl, d)). set (p9 := (t - bl, d - l)). set (p10 := (t - bl + t, d - l)). set (p11 := (t - bl + t, d - t)). set (p12 := (0, d - t)).
  set (e := (br, t)). set (f := (0, t)). set (h := (t, d - t)). set (k := (t - bl, d - t)).
  change (same_boundary [(m, p1, p2); (m, p2, e); (m, e, f); (m, f, p1); (m, f, p6); (m, p6, h); (m, h, p12); (m, p12, f); (m, k, h); (m, h, p7); (m, p7, p8); (m, p8, k); (m, p5, e); (m, e, p3); (m, p3, p4); (m, p4, p5); (m, p9, p10); (m, p10, p11); (m, p11, k); (m, k, p9)]
    [(m, p1, p2); (m, p2, p3); (m, p3, p4); (m, p4, p5); (m, p5, p6); (m, p6, p7); (m, p7, p8); (m, p8, p9); (m, p9, p10); (m, p10, p11); (m, p11, p12); (m, p12, p1)]).
  splits2 m e f p5 p6 (t / br) ((br - t) / br). splits2 m k h p11 p12 (t / bl) ((bl - t) / bl). cancels m e p5. cancels m p6 f. cancels m k p11. cancels m p12 h. apply sb_sym.
  splits m p2 p3 e (t / l). splits m p6 p7 h ((d - 2 * t) / (d - t)). splits m p8 p9 k (t / l). splits m p12 p1 f ((d - 2 * t) / (d - t)). apply sb_perm. perms.
Qed.
Lemma cee_out sh d b l t n m mat g : cee_section sh d b l t 0 n mat = Ok g -> 0 < t -> t < l -> 2 * t < b -> 2 * l < d -> on_grid 12 d -> on_grid 12 b -> on_grid 12 l -> on_grid 12 t ->
  same_boundary (poly_edges m (gm_poly g)) (parts_edges (map (pair m) (cee_plates d b l t))).
Proof.
  intros E H1 H2 H3 H4 Gd Gb Gl Gt. unfold cee_section in E.
  assert (P : cee_points d b l t 0 n = [(0, 0); (b, 0); (b, l); (b - t, l); (b - t, t); (t, t); (t, d - t); (b - t, d - t); (b - t, d - l); (b, d - l); (b, d); (0, d)]).
  { unfold cee_points. destruct (Rlt_dec 0 l) as [_|]; [|lra]. replace (Rmax (0 - t) 0) with 0 by (rewrite Rmax_right; lra). sharp. }
  rewrite P in E. apply (ring_out sh _ m mat g _ E); [opened|grids| |unring; nra|apply cee_outline; lra]. exists (b, 0). split; [right; left; reflexivity|]. intros Q. injection Q. lra.
Qed.
Lemma zed_out sh d bl br l t n m mat g : zed_section sh d bl br l t 0 n mat = Ok g -> 0 < t -> t < l -> 2 * t < bl -> 2 * t < br -> 2 * l < d -> on_grid 12 d -> on_grid 12 bl -> on_grid 12 br -> on_grid 12 l -> on_grid 12 t ->
  same_boundary (poly_edges m (gm_poly g)) (parts_edges (map (pair m) (zed_plates d bl br l t))).
Proof.
  intros E H1 H2 H3 H4 H5 Gd Gb Gr Gl Gt. unfold zed_section in E.
  assert (P : zed_points d bl br l t 0 n = [(0, 0); (br, 0); (br, l); (br - t, l); (br - t, t); (t, t); (t, d); (t - bl, d); (t - bl, d - l); (t - bl + t, d - l); (t - bl + t, d - t); (0, d - t)]).
  { unfold zed_points. destruct (Rlt_dec 0 l) as [_|]; [|lra]. replace (Rmax (0 - t) 0) with 0 by (rewrite Rmax_right; lra). sharp. }
  rewrite P in E. apply (ring_out sh _ m mat g _ E); [opened|grids| |unring; nra|apply zed_outline; lra]. exists (br, 0). split; [right; left; reflexivity|]. intros Q. injection Q. lra.
Qed.

Ltac sides_of := repeat match goal with
  | |- context [Rmax ?a ?b] => first [rewrite (Rmax_left a b) by lra|rewrite (Rmax_right a b) by lra]
  | |- context [Rmin ?a ?b] => first [rewrite (Rmin_left a b) by lra|rewrite (Rmin_right a b) by lra] end.
Ltac axis ps := unfold horizontal_axis, vertical_axis, ps, length_above, length_below, sumf, Rsum, r_w, r_h; cbn [map fold_right fst snd r_x1 r_y1 r_x2 r_y2]; sides_of.
Ltac arms_of := repeat match goal with |- context [RInt (fun z => Rabs (z - ?d)) ?a ?b] => first [rewrite (abs_right d a b) by lra|rewrite (abs_left d a b) by lra|rewrite (abs_mid d a b) by lra] end.
Ltac lever ps := unfold moment_about_horizontal, moment_about_vertical, ps, sumf, Rsum, r_w, r_h; cbn [map fold_right fst snd r_x1 r_y1 r_x2 r_y2]; arms_of.

(** The cee with lips and sharp corners: the horizontal plastic axis is at mid height; the vertical one is in the web if this is at least half of the
    section, otherwise in the flanges (never in the lips). *)
Theorem C89_cee_section l query g s st h1 h2 shapes tol sh d b lip t n_r mat gm : plastic_done l query g s st h1 h2 shapes tol -> cee_section sh d b lip t 0 n_r mat = Ok gm ->
  let m := mo_val mat in let fy := m_fy m in fills_centred (concat shapes) m (gm_poly gm) -> 0 <= fy ->
  0 < t -> t < lip -> 2 * t < b -> 2 * lip < d -> on_grid 12 d -> on_grid 12 b -> on_grid 12 lip -> on_grid 12 t ->
  (** areas of the web over the whole depth, of a flange beside the web and of a lip beyond its flange *)
  let Aw := d * t in let Af := (b - t) * t in let Al := (lip - t) * t in let A := Aw + 2 * Af + 2 * Al in
  let sxx := t * d ^ 2 / 4 + 2 * Af * ((d - t) / 2) + 2 * Al * ((d - t - lip) / 2) in
  let x := if Rle_dec (A / 2) Aw then A / (2 * d) else t + (A / 2 - Aw) / (2 * t) in
  let syy := if Rle_dec (A / 2) Aw then d * x ^ 2 / 2 + d * (t - x) ^ 2 / 2 + 2 * Af * ((b + t) / 2 - x) + 2 * Al * (b - t / 2 - x)
             else Aw * (x - t / 2) + 2 * t * ((x - t) ^ 2 / 2 + (b - x) ^ 2 / 2) + 2 * Al * (b - t / 2 - x) in
  gives_near l query g s (h1 ++ CPlastic :: h2) (modulus_getter s) (fy * A * tol) [fy * sxx; fy * syy].
Proof.
  intros D E m fy B Hf H1 H2 H3 H4 Gd Gb Gl Gt Aw Af Al A sxx x syy. pose proof (cee_out sh d b lip t n_r m mat gm E H1 H2 H3 H4 Gd Gb Gl Gt) as O.
  assert (P : Forall (fun r => 0 < r_w r /\ 0 < r_h r) (cee_plates d b lip t)) by (unfold cee_plates, r_w, r_h; repeat (constructor; [cbn [r_x1 r_y1 r_x2 r_y2]; lra|]); constructor).
  assert (EA : plates_area (cee_plates d b lip t) = A) by (unfold plates_area, cee_plates, A, Aw, Af, Al, r_area, r_w, r_h, sumf, Rsum; cbn [map fold_right r_x1 r_y1 r_x2 r_y2]; ring).
  assert (X : horizontal_axis (map (pair m) (cee_plates d b lip t)) (d / 2)) by (axis cee_plates; field).
  assert (MX : moment_about_horizontal (map (pair m) (cee_plates d b lip t)) (d / 2) = fy * sxx) by (lever cee_plates; unfold sxx, Af, Al, fy; field).
  assert (PA : 0 < A) by (unfold A, Aw, Af, Al; assert (0 < d * t) by (apply Rmult_lt_0_compat; lra); assert (0 < (b - t) * t) by (apply Rmult_lt_0_compat; lra); assert (0 < (lip - t) * t) by (apply Rmult_lt_0_compat; lra); lra).
  rewrite <- MX, <- EA. replace (fy * syy) with (moment_about_vertical (map (pair m) (cee_plates d b lip t)) x).
  - apply (C89_plates l query g s st h1 h2 shapes tol m (gm_poly gm) (cee_plates d b lip t) (d / 2) x D B O P Hf X).
    unfold x. destruct (Rle_dec (A / 2) Aw) as [L|L].
    + set (x0 := A / (2 * d)). assert (Ex : 2 * d * x0 = A) by (unfold x0; field; lra). assert (0 < x0) by (unfold x0; apply Rdiv_lt_0_compat; lra). assert (x0 <= t) by (apply Rmult_le_reg_l with (2 * d); [lra|unfold Aw in L; lra]).
      axis cee_plates. fold fy. unfold A, Aw, Af, Al in Ex. replace (2 * d * x0) with (d * x0 + d * x0) in Ex by ring. nra.
    + set (x0 := t + (A / 2 - Aw) / (2 * t)). assert (Ex : 2 * t * (x0 - t) = A / 2 - Aw) by (unfold x0; field; lra). assert (0 < x0 - t) by (apply Rmult_lt_reg_l with (2 * t); lra).
      assert (x0 <= b - t). { assert (x0 - t <= b - 2 * t); [|lra]. apply Rmult_le_reg_l with (2 * t); [lra|]. rewrite Ex. unfold A, Aw, Af, Al. assert (0 <= t * (d - 2 * lip)) by (apply Rmult_le_pos; lra). assert (0 <= t * (2 * b - 4 * t)) by (apply Rmult_le_pos; lra). lra. }
      axis cee_plates. fold fy. unfold A, Aw, Af, Al in Ex. nra.
  - unfold syy, x. destruct (Rle_dec (A / 2) Aw) as [L|L].
    + set (x0 := A / (2 * d)). assert (Ex : 2 * d * x0 = A) by (unfold x0; field; lra). assert (0 < x0) by (unfold x0; apply Rdiv_lt_0_compat; lra). assert (x0 <= t) by (apply Rmult_le_reg_l with (2 * d); [lra|unfold Aw in L; lra]).
      lever cee_plates. unfold Af, Al, fy. field.
    + set (x0 := t + (A / 2 - Aw) / (2 * t)). assert (Ex : 2 * t * (x0 - t) = A / 2 - Aw) by (unfold x0; field; lra). assert (0 < x0 - t) by (apply Rmult_lt_reg_l with (2 * t); lra).
      assert (x0 <= b - t). { assert (x0 - t <= b - 2 * t); [|lra]. apply Rmult_le_reg_l with (2 * t); [lra|]. rewrite Ex. unfold A, Aw, Af, Al. assert (0 <= t * (d - 2 * lip)) by (apply Rmult_le_pos; lra). assert (0 <= t * (2 * b - 4 * t)) by (apply Rmult_le_pos; lra). lra. }
      lever cee_plates. unfold Aw, Al, fy. field.
Qed.

(** The zed with lips and sharp corners: with equal flanges both plastic axes go through the middle of the web. *)
Theorem C89_zed_section l query g s st h1 h2 shapes tol sh d b lip t n_r mat gm : plastic_done l query g s st h1 h2 shapes tol -> zed_section sh d b b lip t 0 n_r mat = Ok gm ->
  let m := mo_val mat in let fy := m_fy m in fills_centred (concat shapes) m (gm_poly gm) -> 0 <= fy ->
  0 < t -> t < lip -> 2 * t < b -> 2 * lip < d -> on_grid 12 d -> on_grid 12 b -> on_grid 12 lip -> on_grid 12 t ->
  let Aw := d * t in let Af := (b - t) * t in let Al := (lip - t) * t in let A := Aw + 2 * Af + 2 * Al in
  gives_near l query g s (h1 ++ CPlastic :: h2) (modulus_getter s) (fy * A * tol)
    [fy * (t * d ^ 2 / 4 + 2 * Af * ((d - t) / 2) + 2 * Al * ((d - t - lip) / 2)); fy * (d * t ^ 2 / 4 + 2 * Af * (b / 2) + 2 * Al * (b - t))].
Proof.
  intros D E m fy B Hf H1 H2 H3 H4 Gd Gb Gl Gt Aw Af Al A. pose proof (zed_out sh d b b lip t n_r m mat gm E H1 H2 H3 H3 H4 Gd Gb Gb Gl Gt) as O.
  assert (P : Forall (fun r => 0 < r_w r /\ 0 < r_h r) (zed_plates d b b lip t)) by (unfold zed_plates, r_w, r_h; repeat (constructor; [cbn [r_x1 r_y1 r_x2 r_y2]; lra|]); constructor).
  assert (EA : plates_area (zed_plates d b b lip t) = A) by (unfold plates_area, zed_plates, A, Aw, Af, Al, r_area, r_w, r_h, sumf, Rsum; cbn [map fold_right r_x1 r_y1 r_x2 r_y2]; ring).
  eapply near_eq; [| |apply (C89_plates l query g s st h1 h2 shapes tol m (gm_poly gm) (zed_plates d b b lip t) (d / 2) (t / 2) D B O P Hf)].
  - rewrite EA. reflexivity.
  - apply f_equal2; [lever zed_plates; unfold Af, Al, fy; field|apply f_equal2; [lever zed_plates; unfold Af, Al, fy; field|reflexivity]].
  - axis zed_plates. field.
  - axis zed_plates. field.
Qed.

(** The zed with any flanges: about the axes that halve its plates. *)
Theorem C89_zed_any l query g s st h1 h2 shapes tol sh d b_l b_r lip t n_r mat gm dx dy : plastic_done l query g s st h1 h2 shapes tol -> zed_section sh d b_l b_r lip t 0 n_r mat = Ok gm ->
  let m := mo_val mat in let ps := map (pair m) (zed_plates d b_l b_r lip t) in fills_centred (concat shapes) m (gm_poly gm) -> 0 <= m_fy m ->
  0 < t -> t < lip -> 2 * t < b_l -> 2 * t < b_r -> 2 * lip < d -> on_grid 12 d -> on_grid 12 b_l -> on_grid 12 b_r -> on_grid 12 lip -> on_grid 12 t ->
  horizontal_axis ps dx -> vertical_axis ps dy ->
  gives_near l query g s (h1 ++ CPlastic :: h2) (modulus_getter s) (m_fy m * (t * (b_l + b_r + d + 2 * lip - 4 * t)) * tol) [moment_about_horizontal ps dx; moment_about_vertical ps dy].
Proof.
  intros D E m ps B Hf H1 H2 H3 H4 H5 Gd Gb Gr Gl Gt X Y. pose proof (zed_out sh d b_l b_r lip t n_r m mat gm E H1 H2 H3 H4 H5 Gd Gb Gr Gl Gt) as O.
  assert (P : Forall (fun r => 0 < r_w r /\ 0 < r_h r) (zed_plates d b_l b_r lip t)) by (unfold zed_plates, r_w, r_h; repeat (constructor; [cbn [r_x1 r_y1 r_x2 r_y2]; lra|]); constructor).
  assert (EA : plates_area (zed_plates d b_l b_r lip t) = t * (b_l + b_r + d + 2 * lip - 4 * t)) by (unfold plates_area, zed_plates, r_area, r_w, r_h, sumf, Rsum; cbn [map fold_right r_x1 r_y1 r_x2 r_y2]; ring).
  rewrite <- EA. apply (C89_plates l query g s st h1 h2 shapes tol m (gm_poly gm) _ dx dy D B O P Hf X Y).
Qed.

(** ** A case: the cee of depth 5, width 3, lip 2 and thickness 1, meshed with ten triangles; its centroid is (31 / 22, 5 / 2) *)
Definition cee_raw : raw_mesh :=
  mkRaw [(0, 0); (3, 0); (3, 2); (2, 2); (2, 1); (1, 1); (1, 4); (2, 4); (2, 3); (3, 3); (3, 5); (0, 5); (3 / 2, 0); (5 / 2, 1 / 2); (1, 1 / 2); (3, 1); (5 / 2, 3 / 2); (5 / 2, 2); (2, 3 / 2); (3 / 2, 1); (1 / 2, 1 / 2); (1, 5 / 2); (1 / 2, 2); (1 / 2, 9 / 2); (0, 5 / 2); (3 / 2, 4); (1, 9 / 2); (5 / 2, 9 / 2); (3 / 2, 5); (5 / 2, 7 / 2); (3, 4); (2, 7 / 2); (5 / 2, 3)]
    [mkConn 0 1 4 13 14 12; mkConn 1 2 4 16 13 15; mkConn 2 3 4 18 16 17; mkConn 0 4 5 19 20 14; mkConn 0 5 6 21 22 20; mkConn 0 6 11 23 24 22; mkConn 11 6 7 25 26 23; mkConn 11 7 10 27 28 26; mkConn 7 9 10 30 27 29; mkConn 7 8 9 32 29 31] [0; 0; 0; 0; 0; 0; 0; 0; 0; 0]%nat.
Definition cee_ring : list (R * R) := [(0, 0); (3, 0); (3, 2); (2, 2); (2, 1); (1, 1); (1, 4); (2, 4); (2, 3); (3, 3); (3, 5); (0, 5)].
Example cee_raw_ok : mesher_mesh cee_raw.
Proof.
  split; [reflexivity|]. intros row Hr. assert (Hr' : row = mkConn 0 1 4 13 14 12 \/ row = mkConn 1 2 4 16 13 15 \/ row = mkConn 2 3 4 18 16 17 \/ row = mkConn 0 4 5 19 20 14 \/ row = mkConn 0 5 6 21 22 20 \/ row = mkConn 0 6 11 23 24 22 \/ row = mkConn 11 6 7 25 26 23 \/ row = mkConn 11 7 10 27 28 26 \/ row = mkConn 7 9 10 30 27 29 \/ row = mkConn 7 8 9 32 29 31) by (destruct Hr as [<-|[<-|[<-|[<-|[<-|[<-|[<-|[<-|[<-|[<-|[]]]]]]]]]]]; tauto).
  destruct Hr' as [->|[->|[->|[->|[->|[->|[->|[->|[->| ->]]]]]]]]]; (split; [|split; [unfold ids_list; cbn [c0 c1 c2 c3 c4 c5]; repeat (apply NoDup_cons; [cbn [In]; lia|]); apply NoDup_nil|]];
    [unfold mesher_row, midpoint, S_Integral.orient, cee_raw; cbn [rm_vertices nth c0 c1 c2 c3 c4 c5 fst snd]; split; [f_equal; lra|split; [f_equal; lra|split; [f_equal; lra|lra]]]
    |intros k; unfold ids_list; cbn [In c0 c1 c2 c3 c4 c5 cee_raw rm_vertices length]; lia]).
Qed.
Definition cee_els : list tri6 :=
  let m := mo_val default_material in
  [mk_el m (mkConn 0 1 4 12 13 14) (0, 0) (3, 0) (2, 1); mk_el m (mkConn 1 2 4 15 16 13) (3, 0) (3, 2) (2, 1); mk_el m (mkConn 2 3 4 17 18 16) (3, 2) (2, 2) (2, 1); mk_el m (mkConn 0 4 5 14 19 20) (0, 0) (2, 1) (1, 1); mk_el m (mkConn 0 5 6 20 21 22) (0, 0) (1, 1) (1, 4); mk_el m (mkConn 0 6 11 22 23 24) (0, 0) (1, 4) (0, 5); mk_el m (mkConn 11 6 7 23 25 26) (0, 5) (1, 4) (2, 4); mk_el m (mkConn 11 7 10 26 27 28) (0, 5) (2, 4) (3, 5); mk_el m (mkConn 7 9 10 29 30 27) (2, 4) (3, 3) (3, 5); mk_el m (mkConn 7 8 9 31 32 29) (2, 4) (2, 3) (3, 3)].
Definition cee_geometry : geometry := mkGeometry (Some cee_raw) [default_material] 8 (mesh_geom (- (31 / 22)) (- (5 / 2)) cee_els).
Example C89_cee_met : exists l query s h1 h2 shapes gm, plastic_done l query cee_geometry s "direct" h1 h2 shapes 0 /\ cee_section toy 5 3 2 1 0 4 default_material = Ok gm /\
  fills (s_tris s) (mo_val default_material) (gm_poly gm) /\ fills_centred (concat shapes) (mo_val default_material) (gm_poly gm) /\ gives l query cee_geometry s (h1 ++ CPlastic :: h2) get_s [65 / 4; 75 / 8].
Proof.
  destruct ex_libs as (l & _ & Eb). set (query := fun _ : R * R => @nil nat).
  destruct (section_init (Some cee_raw) [default_material]) as [s|] eqn:Es; [|discriminate Es].
  assert (Hb : built cee_geometry s) by (split; [exact Es|injection Es as <-; discriminate]).
  assert (Hc : is_composite (s_mats s) = false).
  { injection Es as <-. cbn [s_mats]. unfold is_composite. cbn [forallb]. replace (mat_eqb default_material default_material) with true; [reflexivity|]. unfold mat_eqb. rewrite !String.eqb_refl. unfold Reqb. repeat destruct (Req_EM_T _ _); try congruence. reflexivity. }
  set (h1 := [CGeometric]). set (h2 := [CFrame "direct"]). set (shapes := mesh_shapes (- (31 / 22)) (- (5 / 2)) cee_els).
  assert (Hv : valid_mesh cee_els) by (intros el [<-|[<-|[<-|[<-|[<-|[<-|[<-|[<-|[<-|[<-|[]]]]]]]]]]]; apply mk_el_valid; unfold S_Integral.orient; cbn [fst snd]; lra).
  destruct (mesh_geom_ok (- (31 / 22)) (- (5 / 2)) cee_els ltac:(discriminate) Hv ltac:(intros el [<-|[<-|[<-|[<-|[<-|[<-|[<-|[<-|[<-|[<-|[]]]]]]]]]]]; cbn; lra)) as (A & S & _).
  assert (U1 : Forall (uses "direct") h1) by (repeat constructor). assert (Ig : In CGeometric h1) by (left; reflexivity).
  assert (D : plastic_done l query cee_geometry s "direct" h1 h2 shapes 0).
  { split; [exact Hb|]. split; [apply Forall_app; split; [exact U1|repeat constructor]|]. split; [exact Ig|]. split; [|split; [exact A|split; [exact S|rewrite Eb; apply exact_brentq_within]]].
    destruct (C39_after l query cee_geometry s "direct" h1 Hb U1 Ig) as [_ [K _]]. cbv zeta in K. rewrite K. unfold the_plastic. rewrite Eb. cbn [cee_geometry g_plastic].
    destruct (exact_brentq_runs (mesh_geom (- (31 / 22)) (- (5 / 2)) cee_els) (geometric_value cee_geometry s) (negb (is_composite (s_mats s))) shapes (p_phi (the_centroidal s)) eq_refl A S) as (ws & H). rewrite H. exact I. }
  assert (O : open_loop cee_ring) by (unfold cee_ring; opened). set (p := mkPoly cee_ring []).
  assert (E : cee_section toy 5 3 2 1 0 4 default_material = Ok (new_geometry toy p default_material None 12)).
  { unfold cee_section.
    assert (P : cee_points 5 3 2 1 0 4 = cee_ring). { unfold cee_points. destruct (Rlt_dec 0 2) as [_|]; [|lra]. replace (Rmax (0 - 1) 0) with 0 by (rewrite Rmax_right; lra). unfold cee_ring. sharp. }
    unfold polygon_geometry. rewrite P, (open_loop_ring _ O). reflexivity. }
  assert (G : gm_poly (new_geometry toy p default_material None 12) = p).
  { eapply (plain_exact toy cee_ring default_material); [unfold polygon_geometry; rewrite (open_loop_ring _ O); reflexivity|exact O|repeat constructor; apply int_grid|]. exists (3, 0). split; [right; left; reflexivity|]. intros Q. injection Q. lra. }
  assert (L : 0 <= ring_area cee_ring) by (unfold cee_ring; unring; lra).
  assert (F : fills (s_tris s) (mo_val default_material) p).
  { split.
    - apply (C17_node_order cee_raw [default_material] s cee_raw_ok Es).
    - injection Es as <-. unfold s_tris. cbn [s_els]. unfold p, cee_ring in *. rewrite one_edges by exact L. set (m := mo_val default_material).
      set (q0 := (0, 0)). set (q1 := (3, 0)). set (q2 := (3, 2)). set (q3 := (2, 2)). set (q4 := (2, 1)). set (q5 := (1, 1)). set (q6 := (1, 4)). set (q7 := (2, 4)). set (q8 := (2, 3)). set (q9 := (3, 3)). set (q10 := (3, 5)). set (q11 := (0, 5)).
      change (same_boundary [(m, q0, q1); (m, q1, q4); (m, q4, q0); (m, q1, q2); (m, q2, q4); (m, q4, q1); (m, q2, q3); (m, q3, q4); (m, q4, q2); (m, q0, q4); (m, q4, q5); (m, q5, q0); (m, q0, q5); (m, q5, q6); (m, q6, q0); (m, q0, q6); (m, q6, q11); (m, q11, q0); (m, q11, q6); (m, q6, q7); (m, q7, q11); (m, q11, q7); (m, q7, q10); (m, q10, q11); (m, q7, q9); (m, q9, q10); (m, q10, q7); (m, q7, q8); (m, q8, q9); (m, q9, q7)] [(m, q0, q1); (m, q1, q2); (m, q2, q3); (m, q3, q4); (m, q4, q5); (m, q5, q6); (m, q6, q7); (m, q7, q8); (m, q8, q9); (m, q9, q10); (m, q10, q11); (m, q11, q0)]).
      cancels m q1 q4. cancels m q0 q4. cancels m q2 q4. cancels m q0 q5. cancels m q0 q6. cancels m q6 q11. cancels m q7 q11. cancels m q7 q10. cancels m q7 q9. apply sb_perm. perms. }
  assert (B : fills_centred (concat shapes) (mo_val default_material) p).
  { assert (SS : forall f, poly_sum f p = f cee_ring) by (intros f; apply one_sum, L).
    assert (Ce : poly_centroid p = (31 / 22, 5 / 2)).
    { unfold poly_centroid. change (poly_area p) with (poly_sum ring_area p). change (poly_mx p) with (poly_sum ring_mx p). change (poly_my p) with (poly_sum ring_my p). rewrite !SS. unfold cee_ring. unring. f_equal; field. }
    unfold fills_centred. rewrite Ce. unfold p, cee_ring in *. rewrite one_edges by exact L. set (m := mo_val default_material).
    set (q0 := (0 - 31 / 22, 0 - 5 / 2)). set (q1 := (3 - 31 / 22, 0 - 5 / 2)). set (q2 := (3 - 31 / 22, 2 - 5 / 2)). set (q3 := (2 - 31 / 22, 2 - 5 / 2)). set (q4 := (2 - 31 / 22, 1 - 5 / 2)). set (q5 := (1 - 31 / 22, 1 - 5 / 2)). set (q6 := (1 - 31 / 22, 4 - 5 / 2)). set (q7 := (2 - 31 / 22, 4 - 5 / 2)). set (q8 := (2 - 31 / 22, 3 - 5 / 2)). set (q9 := (3 - 31 / 22, 3 - 5 / 2)). set (q10 := (3 - 31 / 22, 5 - 5 / 2)). set (q11 := (0 - 31 / 22, 5 - 5 / 2)).
    change (same_boundary [(m, q0, q1); (m, q1, q4); (m, q4, q0); (m, q1, q2); (m, q2, q4); (m, q4, q1); (m, q2, q3); (m, q3, q4); (m, q4, q2); (m, q0, q4); (m, q4, q5); (m, q5, q0); (m, q0, q5); (m, q5, q6); (m, q6, q0); (m, q0, q6); (m, q6, q11); (m, q11, q0); (m, q11, q6); (m, q6, q7); (m, q7, q11); (m, q11, q7); (m, q7, q10); (m, q10, q11); (m, q7, q9); (m, q9, q10); (m, q10, q7); (m, q7, q8); (m, q8, q9); (m, q9, q7)] [(m, q0, q1); (m, q1, q2); (m, q2, q3); (m, q3, q4); (m, q4, q5); (m, q5, q6); (m, q6, q7); (m, q7, q8); (m, q8, q9); (m, q9, q10); (m, q10, q11); (m, q11, q0)]).
    cancels m q1 q4. cancels m q0 q4. cancels m q2 q4. cancels m q0 q5. cancels m q0 q6. cancels m q6 q11. cancels m q7 q11. cancels m q7 q10. cancels m q7 q9. apply sb_perm. perms. }
  exists l, query, s, h1, h2, shapes, (new_geometry toy p default_material None 12). rewrite G. split; [exact D|]. split; [exact E|]. split; [exact F|]. split; [exact B|]. rewrite <- G in B.
  destruct (C89_cee_section l query cee_geometry s "direct" h1 h2 shapes 0 toy 5 3 2 1 4 default_material _ D E B) as (ws & Gs & Ws); [cbn; lra|lra|lra|lra|lra|apply int_grid|apply int_grid|apply int_grid|apply int_grid|].
  cbv zeta in Ws. destruct (Rle_dec _ _) as [Q|_]; [lra|]. unfold modulus_getter in Gs. rewrite Hc in Gs. inversion Ws as [|? w1 ? ws' W1 Ws']; subst. inversion Ws' as [|? w2 ? ws'' W2 Ws'']; subst. inversion Ws''; subst. change (m_fy (mo_val default_material)) with 1 in W1, W2.
  replace w1 with (65 / 4) in Gs by lra. replace w2 with (75 / 8) in Gs by lra. exact Gs.
Qed.

(** With a deep web the vertical plastic axis of the cee is in the web; zeds. *)
Example C89_cee_cases : (exists gm, cee_section toy 9 3 2 1 0 4 default_material = Ok gm) /\ (9 * 1 + 2 * ((3 - 1) * 1) + 2 * ((2 - 1) * 1)) / 2 <= 9 * 1 /\
  (exists gm, zed_section toy 5 3 3 2 1 0 4 default_material = Ok gm) /\ (exists gm, zed_section toy 5 3 4 2 1 0 4 default_material = Ok gm).
Proof.
  assert (C : forall ps, open_loop ps -> exists gm, polygon_geometry toy ps default_material = Ok gm) by (intros ps O; unfold polygon_geometry; rewrite (open_loop_ring _ O); eexists; reflexivity).
  split; [|split; [lra|split]].
  - unfold cee_section. apply C. unfold cee_points, draw_radius. destruct (Rlt_dec 0 2) as [_|]; [|lra]. replace (Rmax (0 - 1) 0) with 0 by (rewrite Rmax_right; lra). destruct (Req_EM_T 0 0) as [_|N0]; [|contradiction]. cbn [app]. opened.
  - unfold zed_section. apply C. unfold zed_points, draw_radius. destruct (Rlt_dec 0 2) as [_|]; [|lra]. replace (Rmax (0 - 1) 0) with 0 by (rewrite Rmax_right; lra). destruct (Req_EM_T 0 0) as [_|N0]; [|contradiction]. cbn [app]. opened.
  - unfold zed_section. apply C. unfold zed_points, draw_radius. destruct (Rlt_dec 0 2) as [_|]; [|lra]. replace (Rmax (0 - 1) 0) with 0 by (rewrite Rmax_right; lra). destruct (Req_EM_T 0 0) as [_|N0]; [|contradiction]. cbn [app]. opened.
Qed.

Print Assumptions C89_plates.
Print Assumptions C89_cee_section.
Print Assumptions C89_zed_section.
Print Assumptions C89_zed_any.
Print Assumptions C89_cee_met.
