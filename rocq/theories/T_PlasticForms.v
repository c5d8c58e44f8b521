(** Theorems: closed forms of the plastic modulus, from the library function to the getters: C89. *)
From Coquelicot Require Import Coquelicot.
From Coq Require Import String Reals List Permutation Lra Lia.
From Verif Require Import Base S_Integral M_Fea S_Fem M_Section S_Section M_Bisect M_Plastic S_Plastic S_Shape M_Init M_Props M_State S_State M_Geometry S_Geometry P_Geom P_Geometry P_Geometry3 P_Section P_Plastic P_Plastic2 P_Plastic4 P_Plastic6 P_Plastic7 P_State P_State3 P_State4 P_State5 P_Geometry6 P_Geometry8 M_Library S_Library P_Library8 P_Library2.
From Verif Require Import S_Outline P_Outline P_Outline2 P_Outline3 S_PlasticForms P_PlasticForms P_PlasticForms2 P_PlasticForms3 T_Section T_Init T_Plastic T_State T_Outline.
From Verif Require Import M_Post.
Import ListNotations.
Local Open Scope list_scope.
Local Open Scope R_scope.

(** A section, of one or several materials, that a horizontal line cuts into rectangles of equal yield force and a vertical line into others: what
    get_s (get_mp for composite sections) returns is force times arm. *)
Theorem C89_parts l query g s st h1 h2 shapes tol dx up dn dy rt lf : plastic_done l query g s st h1 h2 shapes tol ->
  cut_at (region_edges (concat shapes)) (0, 1) dx up dn -> cut_at (region_edges (concat shapes)) (1, 0) dy rt lf -> (forall q, In q (up ++ dn ++ rt ++ lf) -> 0 <= m_fy (fst q)) ->
  gives_near l query g s (h1 ++ CPlastic :: h2) (modulus_getter s) (sumf part_force (up ++ dn) * tol) [parts_moment (0, 1) dx up dn; parts_moment (1, 0) dy rt lf].
Proof.
  intros D X Y F. pose proof D as (_ & _ & _ & _ & C & _).
  rewrite <- (cut_force (concat shapes) (0, 1) dx up dn (sec_ccw _ _ C) (dir_unit 0 axis_x) X).
  apply (pair_reported l query g s st h1 h2 shapes tol D false).
  - apply (cut_plastic (g_plastic g) shapes _ axis_x dx up dn C X). intros q Hq. apply F. rewrite app_assoc. apply in_or_app. left. exact Hq.
  - apply (cut_plastic (g_plastic g) shapes _ axis_y dy rt lf C Y). intros q Hq. apply F. rewrite app_assoc. apply in_or_app. right. exact Hq.
Qed.
(** The same for the principal axes, which are at the angle that get_phi returns. *)
Theorem C89_parts_principal l query g s st h1 h2 shapes tol phi dx up dn dy rt lf : plastic_done l query g s st h1 h2 shapes tol ->
  gives l query g s (h1 ++ CPlastic :: h2) get_phi [phi] ->
  let n1 := direction phi axis_11 in let n2 := direction phi axis_22 in
  cut_at (region_edges (concat shapes)) n1 dx up dn -> cut_at (region_edges (concat shapes)) n2 dy rt lf -> (forall q, In q (up ++ dn ++ rt ++ lf) -> 0 <= m_fy (fst q)) ->
  gives_near l query g s (h1 ++ CPlastic :: h2) (modulus_getter_p s) (sumf part_force (up ++ dn) * tol) [parts_moment n1 dx up dn; parts_moment n2 dy rt lf].
Proof.
  intros D G n1 n2 X Y F. pose proof D as (Hb & U & _ & _ & C & _).
  assert (P : phi = p_phi (the_centroidal s)).
  { destruct (C40_value l query g s st _ get_phi (ENum 1) [phi] Hb U (G (ENum 1))) as [K|[[K|K] _]]; [|discriminate K|discriminate K]. cbn in K. injection K as <-. reflexivity. }
  rewrite <- (cut_force (concat shapes) n1 dx up dn (sec_ccw _ _ C) (dir_unit phi axis_11) X).
  apply (pair_reported l query g s st h1 h2 shapes tol D true); rewrite <- P.
  - apply (cut_plastic (g_plastic g) shapes phi axis_11 dx up dn C X). intros q Hq. apply F. rewrite app_assoc. apply in_or_app. left. exact Hq.
  - apply (cut_plastic (g_plastic g) shapes phi axis_22 dy rt lf C Y). intros q Hq. apply F. rewrite app_assoc. apply in_or_app. right. exact Hq.
Qed.
(** A polygon of one material: the lines may be drawn before the polygon is moved to its centroid. *)
Theorem C89_polygon l query g s st h1 h2 shapes tol m p dx up dn dy rt lf : plastic_done l query g s st h1 h2 shapes tol -> fills_centred (concat shapes) m p ->
  cut_at (poly_edges m p) (0, 1) dx up dn -> cut_at (poly_edges m p) (1, 0) dy rt lf -> (forall q, In q (up ++ dn ++ rt ++ lf) -> 0 <= m_fy (fst q)) ->
  gives_near l query g s (h1 ++ CPlastic :: h2) (modulus_getter s) (sumf part_force (up ++ dn) * tol) [parts_moment (0, 1) dx up dn; parts_moment (1, 0) dy rt lf].
Proof.
  intros D B X Y F. set (c := poly_centroid p) in *.
  destruct (cut_moved _ _ (0, 1) dx c up dn B X) as [X' Mx]. destruct (cut_moved _ _ (1, 0) dy c rt lf B Y) as [Y' My].
  rewrite <- Mx, <- My. replace (sumf part_force (up ++ dn)) with (sumf part_force (map (moved_part c) up ++ map (moved_part c) dn)).
  - apply (C89_parts l query g s st h1 h2 shapes tol _ _ _ _ _ _ D X' Y'). intros q Hq. rewrite <- !map_app in Hq. apply in_map_iff in Hq. destruct Hq as (r & <- & Hr). exact (F r Hr).
  - rewrite <- map_app, sumf_map. apply sumf_ext. intros; apply force_moved.
Qed.

Lemma one_mat m (l : list part) : 0 <= m_fy m -> Forall (fun q => fst q = m) l -> forall q, In q l -> 0 <= m_fy (fst q).
Proof. intros F H q Hq. rewrite Forall_forall in H. rewrite (H q Hq). exact F. Qed.
Lemma near_eq l query g s h x k k' vs vs' : k = k' -> vs = vs' -> gives_near l query g s h x k vs -> gives_near l query g s h x k' vs'.
Proof. intros -> ->. exact (fun H => H). Qed.
Ltac mats := eapply one_mat; [eassumption|cbn [app]; repeat (constructor; [reflexivity|]); constructor].
Ltac two := apply f_equal2; [|apply f_equal2; [|reflexivity]]; arms.

(** The rectangle: b d^2 / 4 and b^2 d / 4. *)
Theorem C89_rectangle l query g s st h1 h2 shapes tol sh d b mat gm : plastic_done l query g s st h1 h2 shapes tol -> rectangular_section sh d b mat = Ok gm ->
  let m := mo_val mat in let fy := m_fy m in fills_centred (concat shapes) m (gm_poly gm) -> 0 <= fy -> 0 < d -> 0 < b -> on_grid 12 d -> on_grid 12 b ->
  gives_near l query g s (h1 ++ CPlastic :: h2) (modulus_getter s) (fy * (b * d) * tol) [fy * (b * d ^ 2 / 4); fy * (b ^ 2 * d / 4)].
Proof.
  intros D E m fy B Hf Hd Hb Gd Gb. pose proof (rect_out sh d b m mat gm E Hd Hb Gd Gb) as O.
  eapply near_eq; [| |apply (C89_polygon l query g s st h1 h2 shapes tol m (gm_poly gm) _ _ _ _ _ _ D B (rect_cut_x m _ b d Hb Hd O) (rect_cut_y m _ b d Hb Hd O))].
  - cbn [app]. forces. unfold fy. field.
  - unfold fy. two; field.
  - mats.
Qed.
(** The I-section with sharp corners: b t_f (d - t_f) + t_w (d - 2 t_f)^2 / 4 and t_f b^2 / 2 + (d - 2 t_f) t_w^2 / 4. *)
Theorem C89_i_section l query g s st h1 h2 shapes tol sh d b t_f t_w n_r mat gm : plastic_done l query g s st h1 h2 shapes tol -> i_section sh d b t_f t_w 0 n_r mat = Ok gm ->
  let m := mo_val mat in let fy := m_fy m in fills_centred (concat shapes) m (gm_poly gm) -> 0 <= fy ->
  0 < t_f -> 0 < t_w -> 2 * t_f < d -> t_w <= b -> on_grid 12 d -> on_grid 12 b -> on_grid 12 t_f -> on_grid 12 ((b - t_w) / 2) ->
  gives_near l query g s (h1 ++ CPlastic :: h2) (modulus_getter s) (fy * (2 * b * t_f + (d - 2 * t_f) * t_w) * tol)
    [fy * (b * t_f * (d - t_f) + t_w * (d - 2 * t_f) ^ 2 / 4); fy * (t_f * b ^ 2 / 2 + (d - 2 * t_f) * t_w ^ 2 / 4)].
Proof.
  intros D E m fy B Hf H1 H2 H3 H4 Gd Gb Gf Gw. pose proof (i_out sh d b t_f t_w n_r m mat gm E H1 H2 H3 H4 Gd Gb Gf Gw) as O.
  eapply near_eq; [| |apply (C89_polygon l query g s st h1 h2 shapes tol m (gm_poly gm) _ _ _ _ _ _ D B (i_cut_x m _ b d t_f ((b - t_w) / 2) (b - (b - t_w) / 2) ltac:(lra) H1 H3 ltac:(lra) O) (i_cut_y m _ b d t_f ((b - t_w) / 2) (b - (b - t_w) / 2) ltac:(lra) H1 H3 ltac:(lra) ltac:(lra) O))].
  - cbn [app]. forces. unfold fy. field.
  - unfold fy. two; field.
  - mats.
Qed.
(** The rectangular hollow section with sharp corners: outer minus inner rectangle. *)
Theorem C89_rectangular_hollow_section l query g s st h1 h2 shapes tol sh d b t w n_r mat gm o i : plastic_done l query g s st h1 h2 shapes tol ->
  let t_w := match w with None => t | Some x => x end in rectangular_hollow_section sh d b t 0 n_r (Some 0) w mat = Ok gm ->
  let m := mo_val mat in let fy := m_fy m in fills_centred (concat shapes) m (gm_poly gm) -> 0 <= fy ->
  0 < t -> 0 < t_w -> 2 * t < d -> 2 * t_w < b -> on_grid 12 d -> on_grid 12 b -> on_grid 12 t -> on_grid 12 t_w ->
  same_cycle [(0, 0); (b, 0); (b, d); (0, d)] o -> same_cycle [(t_w, t); (b - t_w, t); (b - t_w, d - t); (t_w, d - t)] i ->
  sh_difference sh (mkPoly [(0, 0); (b, 0); (b, d); (0, d)] []) [mkPoly [(t_w, t); (b - t_w, t); (b - t_w, d - t); (t_w, d - t)] []] = Some (mkPoly o [i]) ->
  let bi := b - 2 * t_w in let di := d - 2 * t in
  gives_near l query g s (h1 ++ CPlastic :: h2) (modulus_getter s) (fy * (b * d - bi * di) * tol) [fy * (b * d ^ 2 / 4 - bi * di ^ 2 / 4); fy * (b ^ 2 * d / 4 - bi ^ 2 * di / 4)].
Proof.
  intros D t_w E m fy B Hf H1 H2 H3 H4 Gd Gb Gt Gw So Si Di bi di. pose proof (rhs_out sh d b t w n_r m mat gm o i E H1 H2 H3 H4 Gd Gb Gt Gw So Si Di) as O. fold t_w in O.
  eapply near_eq; [| |apply (C89_polygon l query g s st h1 h2 shapes tol m (gm_poly gm) _ _ _ _ _ _ D B (rhs_cut_x m _ b d t t_w H1 H2 H3 H4 O) (rhs_cut_y m _ b d t t_w H1 H2 H3 H4 O))].
  - cbn [app]. forces. unfold fy, bi, di. field.
  - unfold fy, bi, di. two; field.
  - mats.
Qed.
(** The channel with sharp corners: the vertical plastic axis is in the web if the web (with the ends of the flanges) is more than half of the
    section, otherwise it crosses the flanges only. *)
Theorem C89_channel_section l query g s st h1 h2 shapes tol sh d b t_f t_w n_r mat gm : plastic_done l query g s st h1 h2 shapes tol -> channel_section sh d b t_f t_w 0 n_r mat = Ok gm ->
  let m := mo_val mat in let fy := m_fy m in fills_centred (concat shapes) m (gm_poly gm) -> 0 <= fy ->
  0 < t_f -> 0 < t_w -> 2 * t_f < d -> t_w < b -> on_grid 12 d -> on_grid 12 b -> on_grid 12 t_f -> on_grid 12 t_w ->
  let A := 2 * b * t_f + (d - 2 * t_f) * t_w in
  let xw := A / (2 * d) in let xf := b - A / (4 * t_f) in
  let syy := if Rlt_dec A (2 * d * t_w) then d * xw ^ 2 / 2 + (d - 2 * t_f) * (t_w - xw) ^ 2 / 2 + t_f * (b - xw) ^ 2
             else t_f * (xf ^ 2 + (b - xf) ^ 2) + (d - 2 * t_f) * t_w * (xf - t_w / 2) in
  gives_near l query g s (h1 ++ CPlastic :: h2) (modulus_getter s) (fy * A * tol) [fy * (b * t_f * (d - t_f) + t_w * (d - 2 * t_f) ^ 2 / 4); fy * syy].
Proof.
  intros D E m fy B Hf H1 H2 H3 H4 Gd Gb Gf Gw A xw xf syy. pose proof (channel_out sh d b t_f t_w n_r m mat gm E H1 H2 H3 ltac:(lra) Gd Gb Gf Gw) as O.
  assert (PA : 0 < A) by (unfold A; assert (0 < b * t_f) by (apply Rmult_lt_0_compat; lra); assert (0 < (d - 2 * t_f) * t_w) by (apply Rmult_lt_0_compat; lra); lra).
  pose proof (i_cut_x m _ b d t_f 0 t_w ltac:(lra) H1 H3 H2 O) as X. unfold syy. destruct (Rlt_dec A (2 * d * t_w)) as [L|L].
  - assert (Ex : 2 * d * xw = A) by (unfold xw; field; lra).
    assert (X0 : 0 < xw) by (unfold xw; apply Rdiv_lt_0_compat; lra). assert (X1 : xw < t_w) by (apply Rmult_lt_reg_l with (2 * d); lra).
    eapply near_eq; [| |apply (C89_polygon l query g s st h1 h2 shapes tol m (gm_poly gm) _ _ _ _ _ _ D B X (channel_cut_web m _ b d t_f t_w xw H1 H3 X0 X1 H4 Ex O))].
    + cbn [app]. forces. unfold fy, A. field.
    + unfold fy. two; field.
    + mats.
  - assert (Ex : 4 * t_f * (b - xf) = A) by (unfold xf; field; lra).
    assert (X0 : xf < b) by (apply Rmult_lt_reg_l with (4 * t_f); lra). assert (X1 : t_w <= xf).
    { apply Rmult_le_reg_l with (4 * t_f); [lra|]. replace (4 * t_f * xf) with (4 * t_f * b - A) by lra. revert L. unfold A. intros L. nra. }
    eapply near_eq; [| |apply (C89_polygon l query g s st h1 h2 shapes tol m (gm_poly gm) _ _ _ _ _ _ D B X (channel_cut_flanges m _ b d t_f t_w xf H1 H3 H2 X1 X0 Ex O))].
    + cbn [app]. forces. unfold fy, A. field.
    + unfold fy. two; field.
    + mats.
Qed.
(** The tee with sharp corners: the horizontal plastic axis is in the larger of web and flange. *)
Theorem C89_tee_section l query g s st h1 h2 shapes tol sh d b t_f t_w n_r mat gm : plastic_done l query g s st h1 h2 shapes tol -> tee_section sh d b t_f t_w 0 n_r mat = Ok gm ->
  let m := mo_val mat in let fy := m_fy m in fills_centred (concat shapes) m (gm_poly gm) -> 0 <= fy ->
  0 < t_f -> 0 < t_w -> t_f < d -> t_w <= b -> on_grid 12 d -> on_grid 12 b -> on_grid 12 t_f -> on_grid 12 ((b - t_w) / 2) ->
  let dw := d - t_f in let A := b * t_f + dw * t_w in
  let yw := A / (2 * t_w) in let yf := A / (2 * b) in
  let sxx := if Rlt_dec (b * t_f) (dw * t_w) then t_w * yw ^ 2 / 2 + t_w * (dw - yw) ^ 2 / 2 + b * t_f * (d - t_f / 2 - yw)
             else b * yf ^ 2 / 2 + b * (t_f - yf) ^ 2 / 2 + dw * t_w * (d - yf - dw / 2) in
  gives_near l query g s (h1 ++ CPlastic :: h2) (modulus_getter s) (fy * A * tol) [fy * sxx; fy * (t_f * b ^ 2 / 4 + dw * t_w ^ 2 / 4)].
Proof.
  intros D E m fy B Hf H1 H2 H3 H4 Gd Gb Gf Gw dw A yw yf sxx. pose proof (tee_out sh d b t_f t_w n_r m mat gm E H1 H2 H3 H4 Gd Gb Gf Gw) as O.
  assert (P1 : 0 < b * t_f) by (apply Rmult_lt_0_compat; lra). assert (P2 : 0 < dw * t_w) by (unfold dw; apply Rmult_lt_0_compat; lra).
  pose proof (tee_cut_y m _ b d t_f ((b - t_w) / 2) (b - (b - t_w) / 2) ltac:(lra) H1 H3 ltac:(lra) ltac:(lra) O) as Y. unfold sxx.
  set (xl := (b - t_w) / 2) in *. assert (W : b - xl - xl = t_w) by (unfold xl; lra). destruct (Rlt_dec (b * t_f) (dw * t_w)) as [L|L].
  - assert (Ey : 2 * t_w * yw = A) by (unfold yw; field; lra).
    assert (Y0 : 0 < yw) by (unfold yw, A; apply Rdiv_lt_0_compat; lra). assert (Y1 : yw < d - t_f) by (apply Rmult_lt_reg_l with (2 * t_w); [lra|rewrite Ey; unfold A, dw in *; lra]).
    assert (X := tee_cut_web m _ b d t_f xl (b - xl) yw ltac:(lra) H1 Y0 Y1 ltac:(unfold xl; lra) ltac:(rewrite W; exact Ey) O).
    eapply near_eq; [| |apply (C89_polygon l query g s st h1 h2 shapes tol m (gm_poly gm) _ _ _ _ _ _ D B X Y)].
    + cbn [app]. forces. unfold fy, A, dw, xl. field.
    + unfold fy. two; unfold dw, xl; field.
    + mats.
  - assert (Ey : 2 * b * yf = A) by (unfold yf; field; lra). assert (Y0 : 0 < yf) by (unfold yf, A; apply Rdiv_lt_0_compat; lra).
    destruct (Req_dec (b * t_f) (dw * t_w)) as [Q|Q].
    + assert (Yt : yf = t_f) by (apply Rmult_eq_reg_l with (2 * b); [rewrite Ey; unfold A; lra|lra]). rewrite Yt.
      assert (X := tee_cut_joint m _ b d t_f xl (b - xl) ltac:(lra) H1 H3 ltac:(unfold xl; lra) ltac:(rewrite W; exact Q) O).
      eapply near_eq; [| |apply (C89_polygon l query g s st h1 h2 shapes tol m (gm_poly gm) _ _ _ _ _ _ D B X Y)].
      * cbn [app]. forces. unfold fy, A, dw, xl. field.
      * unfold fy. two; unfold dw, xl; field.
      * mats.
    + assert (Y1 : yf < t_f) by (apply Rmult_lt_reg_l with (2 * b); [lra|rewrite Ey; unfold A; lra]).
      assert (X := tee_cut_flange m _ b d t_f xl (b - xl) (d - yf) ltac:(lra) H1 H3 ltac:(lra) ltac:(lra) ltac:(unfold xl; lra) ltac:(rewrite W; unfold A, dw in Ey; lra) O).
      eapply near_eq; [| |apply (C89_polygon l query g s st h1 h2 shapes tol m (gm_poly gm) _ _ _ _ _ _ D B X Y)].
      * cbn [app]. forces. unfold fy, A, dw, xl. field.
      * unfold fy. two; unfold dw, xl; field.
      * mats.
Qed.

(** The shape factors of the rectangle are 3/2. *)
Theorem C89_rectangle_shape_factors l query g s st h1 h2 shapes tol sh d b gm : plastic_done l query g s st h1 h2 shapes tol -> rectangular_section sh d b default_material = Ok gm ->
  is_composite (s_mats s) = false -> fills (s_tris s) (mo_val default_material) (gm_poly gm) -> spans (s_nodes s) 0 0 b d -> fills_centred (concat shapes) (mo_val default_material) (gm_poly gm) ->
  0 < d -> 0 < b -> on_grid 12 d -> on_grid 12 b ->
  exists v1 v2 v3 v4, gives l query g s (h1 ++ CPlastic :: h2) get_sf [v1; v2; v3; v4] /\
    (3 / 2 - 12 * tol / d <= v1 <= 3 / 2 + 6 * tol / d) /\ v2 = v1 /\ (3 / 2 - 12 * tol / b <= v3 <= 3 / 2 + 6 * tol / b) /\ v4 = v3.
Proof.
  intros D E N F Sp B Hd Hb Gd Gb. pose proof D as (Hbt & U & Hg & Hok & C & _).
  assert (A : analysed g s st (h1 ++ CPlastic :: h2)) by (split; [exact Hbt|split; [exact U|split; [apply in_or_app; left; exact Hg|exact N]]]).
  destruct (C88_rectangle l query g s st _ sh d b gm A E F Hd Hb Gd Gb Sp) as (_ & _ & _ & _ & Z & _).
  destruct (C40_value l query g s st _ get_z (ENum 1) _ Hbt U (Z (ENum 1))) as [K|[[K|K] _]]; [|discriminate K|discriminate K].
  unfold getter_value in K. cbn [fields all_values property_value] in K.
  destruct (geometric_value g s p_zxx_plus) as [z1|] eqn:Z1; [|discriminate K]. destruct (geometric_value g s p_zxx_minus) as [z2|] eqn:Z2; [|discriminate K].
  destruct (geometric_value g s p_zyy_plus) as [z3|] eqn:Z3; [|discriminate K]. destruct (geometric_value g s p_zyy_minus) as [z4|] eqn:Z4; [|discriminate K].
  cbn [finish] in K. injection K as K1 K2 K3 K4. subst z1 z2 z3 z4. change (geometric_value g s p_zxx_plus = Some (b * d ^ 2 / 6)) in Z1. change (geometric_value g s p_zxx_minus = Some (b * d ^ 2 / 6)) in Z2. change (geometric_value g s p_zyy_plus = Some (b ^ 2 * d / 6)) in Z3. change (geometric_value g s p_zyy_minus = Some (b ^ 2 * d / 6)) in Z4.
  assert (P : 0 < b * d) by (apply Rmult_lt_0_compat; assumption). assert (P1 : 0 < b * d ^ 2 / 6) by nra. assert (P2 : 0 < b ^ 2 * d / 6) by nra.
  destruct (C89_rectangle l query g s st h1 h2 shapes tol sh d b default_material gm D E B ltac:(cbn; lra) Hd Hb Gd Gb) as (ws & G & Ws). unfold modulus_getter in G. rewrite N in G.
  inversion Ws as [|? w1 ? ws' W1 Ws']; subst. inversion Ws' as [|? w2 ? ws'' W2 Ws'']; subst. inversion Ws''; subst. clear Ws Ws' Ws''.
  change (m_fy (mo_val default_material)) with 1 in W1, W2.
  destruct (C40_value l query g s st _ get_s (ENum 1) _ Hbt U (G (ENum 1))) as [K|[[K|K] _]]; [|discriminate K|discriminate K].
  unfold getter_value in K. cbn [fields all_values property_value] in K.
  destruct (plastic_ok l query g s st h1 h2 shapes tol D) as (wr & Ep). rewrite Ep in K. cbn [fst] in K.
  destruct (last_write wr p_sxx) as [s1|] eqn:S1; [|discriminate K]. destruct (last_write wr p_syy) as [s2|] eqn:S2; [|discriminate K]. cbn [finish] in K. injection K as K5 K6. subst s1 s2.
  pose proof Ep as Ep'. unfold the_plastic in Ep'. rewrite N in Ep'. cbn [negb] in Ep'.
  pose proof (C49_default_factors (l_brentq l) (g_plastic g) (geometric_value g s) (p_phi (the_centroidal s)) wr no_props eq_refl Ep') as FF. cbv zeta in FF.
  assert (Av : forall q v, geometric_value g s q = Some v -> 0 < v -> available (geometric_value g s) q) by (intros q v Q Q'; exists v; split; [exact Q|lra]).
  assert (V : forall k, k = axis_x \/ k = axis_y -> exists zp zm sv, geometric_value g s (z_plus_prop k) = Some zp /\ geometric_value g s (z_minus_prop k) = Some zm /\ last_write wr (s_prop k) = Some sv /\ last_write wr (sf_plus_prop k) = Some (sv / zp) /\ last_write wr (sf_minus_prop k) = Some (sv / zm)).
  { intros k Hk. destruct (FF k) as (sv & Es & Q & _). destruct Q as (zp & zm & Ezp & Ezm & Ea & Em).
    - destruct Hk as [-> | ->]; cbn [partner z_plus_prop z_minus_prop]; repeat split; eapply Av; eauto; lra.
    - exists zp, zm, sv. split; [exact Ezp|]. split; [exact Ezm|]. rewrite num_writes in Es, Ea, Em. repeat split; match goal with H : match ?o with Some _ => _ | None => _ end = _ |- ?o = _ => destruct o; [exact H|discriminate H] end. }
  destruct (V axis_x (or_introl eq_refl)) as (a1 & a2 & a3 & A1 & A2 & A3 & A4 & A5). destruct (V axis_y (or_intror eq_refl)) as (b1 & b2 & b3 & B1 & B2 & B3 & B4 & B5). clear V FF.
  cbn [z_plus_prop z_minus_prop s_prop sf_plus_prop sf_minus_prop] in *.
  assert (a1 = b * d ^ 2 / 6) by congruence. assert (a2 = b * d ^ 2 / 6) by congruence. assert (a3 = w1) by congruence. assert (b1 = b ^ 2 * d / 6) by congruence. assert (b2 = b ^ 2 * d / 6) by congruence. assert (b3 = w2) by congruence. subst a1 a2 a3 b1 b2 b3.
  exists (w1 / (b * d ^ 2 / 6)), (w1 / (b * d ^ 2 / 6)), (w2 / (b ^ 2 * d / 6)), (w2 / (b ^ 2 * d / 6)). split.
  - intros e.
    destruct (C40_shape_factors l query g s st h1 h2 false e Hbt U Hg) as [v Hv].
    + rewrite Ep. exact I.
    + rewrite N. cbn [sf_divisors In]. intros q Hq. repeat (destruct Hq as [<-|Hq]; [eexists; split; [eassumption|lra]|]). destruct Hq.
    + destruct (C40_value l query g s st _ get_sf e v Hbt U Hv) as [Q|[[Q|Q] _]]; [|discriminate Q|discriminate Q].
      unfold getter_value in Q. cbn [fields all_values property_value] in Q. rewrite Ep in Q. cbn [fst] in Q. rewrite A4, A5, B4, B5 in Q. cbn [finish] in Q. injection Q as <-. exact Hv.
  - assert (Q : forall w z lo hi, 0 < z -> lo * z <= w <= hi * z -> lo <= w / z <= hi).
    { intros w z lo hi Hz [L1 L2]. split; (apply Rmult_le_reg_r with z; [exact Hz|]; unfold Rdiv; rewrite Rmult_assoc, Rinv_l, Rmult_1_r by lra; assumption). }
    split; [|split; [reflexivity|split; [|reflexivity]]]; apply Q; try assumption.
    + replace ((3 / 2 - 12 * tol / d) * (b * d ^ 2 / 6)) with (1 * (b * d ^ 2 / 4) - 2 * (1 * (b * d) * tol)) by (field; lra). replace ((3 / 2 + 6 * tol / d) * (b * d ^ 2 / 6)) with (1 * (b * d ^ 2 / 4) + 1 * (b * d) * tol) by (field; lra). exact W1.
    + replace ((3 / 2 - 12 * tol / b) * (b ^ 2 * d / 6)) with (1 * (b ^ 2 * d / 4) - 2 * (1 * (b * d) * tol)) by (field; lra). replace ((3 / 2 + 6 * tol / b) * (b ^ 2 * d / 6)) with (1 * (b ^ 2 * d / 4) + 1 * (b * d) * tol) by (field; lra). exact W2.
Qed.

(** ** A case: the 4 x 2 rectangle with a root finder that stops at the root *)
Example C89_met : exists l query s h1 h2 shapes gm, plastic_done l query ex_geometry s "direct" h1 h2 shapes 0 /\ rectangular_section toy 2 4 default_material = Ok gm /\
  is_composite (s_mats s) = false /\ fills (s_tris s) (mo_val default_material) (gm_poly gm) /\ spans (s_nodes s) 0 0 4 2 /\ fills_centred (concat shapes) (mo_val default_material) (gm_poly gm) /\
  gives l query ex_geometry s (h1 ++ CPlastic :: h2) get_s [4; 8] /\ gives l query ex_geometry s (h1 ++ CPlastic :: h2) get_sf [3 / 2; 3 / 2; 3 / 2; 3 / 2].
Proof.
  destruct ex_libs as (l & _ & Eb). destruct ex_built as (s & Hb & Hc & _ & Hn & _). destruct (ex_fills s Hb) as [F Sp]. set (query := fun _ : R * R => @nil nat).
  set (h1 := [CPlastic; CGeometric; CFrame "direct"]). set (h2 := [CWarping "direct"]). set (shapes := mesh_shapes (-2) (-1) ex_plain).
  assert (Hv : valid_mesh ex_plain) by (intros el [<-|[<-|[]]]; apply mk_el_valid; unfold S_Integral.orient; cbn [fst snd]; lra).
  destruct (mesh_geom_ok (-2) (-1) ex_plain ltac:(discriminate) Hv ltac:(intros el [<-|[<-|[]]]; cbn; lra)) as (A & S & _).
  assert (U1 : Forall (uses "direct") h1) by (repeat constructor). assert (Ig : In CGeometric h1) by (right; left; reflexivity).
  assert (D : plastic_done l query ex_geometry s "direct" h1 h2 shapes 0).
  { split; [exact Hb|]. split; [apply Forall_app; split; [exact U1|repeat constructor]|]. split; [exact Ig|]. split; [|split; [exact A|split; [exact S|rewrite Eb; apply exact_brentq_within]]].
    destruct (C39_after l query ex_geometry s "direct" h1 Hb U1 Ig) as [_ [K _]]. cbv zeta in K. rewrite K. unfold the_plastic. rewrite Eb. cbn [ex_geometry g_plastic].
    destruct (exact_brentq_runs (mesh_geom (-2) (-1) ex_plain) (geometric_value ex_geometry s) (negb (is_composite (s_mats s))) shapes (p_phi (the_centroidal s)) eq_refl A S) as (ws & H). rewrite H. exact I. }
  assert (O : open_loop [(0, 0); (4, 0); (4, 2); (0, 2)]) by opened. set (p := mkPoly [(0, 0); (4, 0); (4, 2); (0, 2)] []) in *.
  assert (E : rectangular_section toy 2 4 default_material = Ok (new_geometry toy p default_material None 12)) by (unfold rectangular_section, polygon_geometry, rectangle_points; rewrite (open_loop_ring _ O); reflexivity).
  assert (G : gm_poly (new_geometry toy p default_material None 12) = p).
  { eapply (plain_exact toy _ default_material); [exact E|exact O|repeat constructor; apply int_grid|]. exists (4, 0). split; [right; left; reflexivity|]. intros Q. injection Q. lra. }
  assert (B : fills_centred (concat shapes) (mo_val default_material) p).
  { assert (L : 0 <= ring_area [(0, 0); (4, 0); (4, 2); (0, 2)]) by (unring; lra). assert (SS : forall f, poly_sum f p = f [(0, 0); (4, 0); (4, 2); (0, 2)]) by (intros f; apply one_sum, L).
    assert (Ce : poly_centroid p = (2, 1)).
    { unfold poly_centroid. change (poly_area p) with (poly_sum ring_area p). change (poly_mx p) with (poly_sum ring_mx p). change (poly_my p) with (poly_sum ring_my p). rewrite !SS. unring. f_equal; field. }
    unfold fills_centred. rewrite Ce. unfold p. rewrite one_edges by exact L. set (m := mo_val default_material).
    set (a := (0 - 2, 0 - 1)). set (b := (4 - 2, 0 - 1)). set (c := (4 - 2, 2 - 1)). set (d := (0 - 2, 2 - 1)).
    change (same_boundary [(m, a, b); (m, b, c); (m, c, a); (m, a, c); (m, c, d); (m, d, a)] [(m, a, b); (m, b, c); (m, c, d); (m, d, a)]). cancels m c a. apply sb_perm. perms. }
  exists l, query, s, h1, h2, shapes, (new_geometry toy p default_material None 12). rewrite G. split; [exact D|]. split; [exact E|]. split; [exact Hc|]. split; [exact F|]. split; [exact Sp|]. split; [exact B|].
  rewrite <- G in F, B. split.
  - destruct (C89_rectangle l query ex_geometry s "direct" h1 h2 shapes 0 toy 2 4 default_material _ D E B) as (ws & Gs & Ws); [cbn; lra|lra|lra|apply int_grid|apply int_grid|].
    unfold modulus_getter in Gs. rewrite Hc in Gs. inversion Ws as [|? w1 ? ws' W1 Ws']; subst. inversion Ws' as [|? w2 ? ws'' W2 Ws'']; subst. inversion Ws''; subst. change (m_fy (mo_val default_material)) with 1 in W1, W2.
    replace w1 with 4 in Gs by lra. replace w2 with 8 in Gs by lra. exact Gs.
  - destruct (C89_rectangle_shape_factors l query ex_geometry s "direct" h1 h2 shapes 0 toy 2 4 _ D E Hc F Sp B) as (v1 & v2 & v3 & v4 & Gs & W1 & -> & W3 & ->); [lra|lra|apply int_grid|apply int_grid|].
    replace v1 with (3 / 2) in Gs by lra. replace v3 with (3 / 2) in Gs by lra. exact Gs.
Qed.

Print Assumptions C89_parts.
Print Assumptions C89_parts_principal.
Print Assumptions C89_polygon.
Print Assumptions C89_rectangle.
Print Assumptions C89_i_section.
Print Assumptions C89_rectangular_hollow_section.
Print Assumptions C89_channel_section.
Print Assumptions C89_tee_section.
Print Assumptions C89_rectangle_shape_factors.
Print Assumptions C89_met.
