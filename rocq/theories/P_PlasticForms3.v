(** Proofs: the plates of library shapes cut at the plastic axes; the moduli reported. *)
From Coquelicot Require Import Coquelicot.
From Coq Require Import String Reals List Permutation Lra Lia.
From Verif Require Import Base S_Integral M_Fea S_Fem M_Section S_Section M_Bisect M_Plastic S_Plastic M_Init M_Props M_State S_State M_Geometry S_Geometry P_Geom P_Geometry P_Geometry3 P_Section P_Plastic P_Plastic2 P_Plastic4 P_State P_State3 P_State4 P_State5 P_Geometry6 P_Geometry8 M_Library S_Library P_Library8 P_Library2 S_Outline P_Outline P_Outline2 P_Outline3 S_PlasticForms P_PlasticForms P_PlasticForms2 T_Plastic T_State.
From Verif Require Import M_Post.
Import ListNotations.
Local Open Scope list_scope.
Local Open Scope R_scope.

Lemma above m x1 y1 x2 y2 D : x1 < x2 -> y1 < y2 -> D <= y1 -> beyond (0, 1) D 1 (m, rect x1 y1 x2 y2).
Proof. intros H1 H2 H3. unfold beyond, r_w, r_h, rect_ring, height. cbn [fst snd r_x1 r_y1 r_x2 r_y2]. split; [lra|]. split; [lra|]. intros v [<-|[<-|[<-|[<-|[]]]]]; cbn [fst snd]; lra. Qed.
Lemma below m x1 y1 x2 y2 D : x1 < x2 -> y1 < y2 -> y2 <= D -> beyond (0, 1) D (-1) (m, rect x1 y1 x2 y2).
Proof. intros H1 H2 H3. unfold beyond, r_w, r_h, rect_ring, height. cbn [fst snd r_x1 r_y1 r_x2 r_y2]. split; [lra|]. split; [lra|]. intros v [<-|[<-|[<-|[<-|[]]]]]; cbn [fst snd]; lra. Qed.
Lemma right_of m x1 y1 x2 y2 D : x1 < x2 -> y1 < y2 -> D <= x1 -> beyond (1, 0) D 1 (m, rect x1 y1 x2 y2).
Proof. intros H1 H2 H3. unfold beyond, r_w, r_h, rect_ring, height. cbn [fst snd r_x1 r_y1 r_x2 r_y2]. split; [lra|]. split; [lra|]. intros v [<-|[<-|[<-|[<-|[]]]]]; cbn [fst snd]; lra. Qed.
Lemma left_to m x1 y1 x2 y2 D : x1 < x2 -> y1 < y2 -> x2 <= D -> beyond (1, 0) D (-1) (m, rect x1 y1 x2 y2).
Proof. intros H1 H2 H3. unfold beyond, r_w, r_h, rect_ring, height. cbn [fst snd r_x1 r_y1 r_x2 r_y2]. split; [lra|]. split; [lra|]. intros v [<-|[<-|[<-|[<-|[]]]]]; cbn [fst snd]; lra. Qed.
Ltac sides := repeat (constructor; [first [apply above|apply below|apply right_of|apply left_to]; lra|]); constructor.
Ltac forces := unfold part_force, r_area, r_w, r_h, sumf, Rsum; cbn [map fold_right fst snd r_x1 r_y1 r_x2 r_y2]; try field.
Ltac arms := unfold parts_moment, part_force, part_arm, height, r_area, r_w, r_h, r_cx, r_cy, sumf, Rsum; cbn [map fold_right fst snd r_x1 r_y1 r_x2 r_y2].
(** bring a plate to the front *)
Ltac plate1 e := match goal with |- same_boundary (parts_edges ?l) ?r => let t := rest_of e l in apply (sb_trans (parts_edges l) (parts_edges (e :: t)) r); [apply parts_perm, Permutation_sym; perms|] end.
Ltac cut_y m x1 y1 x2 y2 y := plate1 (m, rect x1 y1 x2 y2); eapply sb_trans; [apply (split_y m x1 y1 x2 y2 y); lra|].
Ltac cut_x m x1 y1 x2 y2 x := plate1 (m, rect x1 y1 x2 y2); eapply sb_trans; [apply (split_x m x1 y1 x2 y2 x); lra|].

Section Shapes.
Variables (m : material) (E : list edge).

Lemma rect_cut_x b d : 0 < b -> 0 < d -> same_boundary E (parts_edges [(m, rect 0 0 b d)]) ->
  cut_at E (0, 1) (d / 2) [(m, rect 0 (d / 2) b d)] [(m, rect 0 0 b (d / 2))].
Proof.
  intros Hb Hd B. split; [sides|]. split; [sides|]. split; [|forces]. eapply sb_trans; [exact B|]. cut_y m 0 0 b d (d / 2). apply parts_perm. cbn [app]. perms.
Qed.
Lemma rect_cut_y b d : 0 < b -> 0 < d -> same_boundary E (parts_edges [(m, rect 0 0 b d)]) ->
  cut_at E (1, 0) (b / 2) [(m, rect (b / 2) 0 b d)] [(m, rect 0 0 (b / 2) d)].
Proof.
  intros Hb Hd B. split; [sides|]. split; [sides|]. split; [|forces]. eapply sb_trans; [exact B|]. cut_x m 0 0 b d (b / 2). apply parts_perm. cbn [app]. perms.
Qed.

Definition i_shape b d tf xl xr : list part := [(m, rect 0 0 b tf); (m, rect xl tf xr (d - tf)); (m, rect 0 (d - tf) b d)].
(** also the channel: xl = 0, xr = t_w *)
Lemma i_cut_x b d tf xl xr : 0 < b -> 0 < tf -> 2 * tf < d -> xl < xr -> same_boundary E (parts_edges (i_shape b d tf xl xr)) ->
  cut_at E (0, 1) (d / 2) [(m, rect xl (d / 2) xr (d - tf)); (m, rect 0 (d - tf) b d)] [(m, rect 0 0 b tf); (m, rect xl tf xr (d / 2))].
Proof.
  intros Hb Hf Hd Hx B. split; [sides|]. split; [sides|]. split; [|forces]. eapply sb_trans; [exact B|]. unfold i_shape. cut_y m xl tf xr (d - tf) (d / 2). apply parts_perm. cbn [app]. perms.
Qed.
Lemma i_cut_y b d tf xl xr : 0 < b -> 0 < tf -> 2 * tf < d -> xl < xr -> xl + xr = b -> same_boundary E (parts_edges (i_shape b d tf xl xr)) ->
  cut_at E (1, 0) (b / 2) [(m, rect (b / 2) 0 b tf); (m, rect (b / 2) tf xr (d - tf)); (m, rect (b / 2) (d - tf) b d)] [(m, rect 0 0 (b / 2) tf); (m, rect xl tf (b / 2) (d - tf)); (m, rect 0 (d - tf) (b / 2) d)].
Proof.
  intros Hb Hf Hd Hx Hs B. split; [sides|]. split; [sides|]. split; [|forces; replace b with (xl + xr) by lra; field]. eapply sb_trans; [exact B|]. unfold i_shape.
  cut_x m 0 0 b tf (b / 2). cut_x m xl tf xr (d - tf) (b / 2). cut_x m 0 (d - tf) b d (b / 2). apply parts_perm. cbn [app]. perms.
Qed.
(** the channel about the vertical axis: the plastic axis in the web (both flanges and the web are cut) or beyond the web *)
Lemma channel_cut_web b d tf tw x : 0 < tf -> 2 * tf < d -> 0 < x -> x < tw -> tw < b -> 2 * d * x = 2 * b * tf + (d - 2 * tf) * tw ->
  same_boundary E (parts_edges (i_shape b d tf 0 tw)) ->
  cut_at E (1, 0) x [(m, rect x 0 b tf); (m, rect x tf tw (d - tf)); (m, rect x (d - tf) b d)] [(m, rect 0 0 x tf); (m, rect 0 tf x (d - tf)); (m, rect 0 (d - tf) x d)].
Proof.
  intros Hf Hd H1 H2 H3 Hx B. split; [sides|]. split; [sides|]. split; [|forces]. 2:{ replace (m_fy m * ((b - x) * (tf - 0)) + (m_fy m * ((tw - x) * (d - tf - tf)) + (m_fy m * ((b - x) * (d - (d - tf))) + 0))) with (m_fy m * (2 * b * tf + (d - 2 * tf) * tw - x * d)) by ring. rewrite <- Hx. ring. }
  eapply sb_trans; [exact B|]. unfold i_shape. cut_x m 0 0 b tf x. cut_x m 0 tf tw (d - tf) x. cut_x m 0 (d - tf) b d x. apply parts_perm. cbn [app]. perms.
Qed.
Lemma channel_cut_flanges b d tf tw x : 0 < tf -> 2 * tf < d -> 0 < tw -> tw <= x -> x < b -> 4 * tf * (b - x) = 2 * b * tf + (d - 2 * tf) * tw ->
  same_boundary E (parts_edges (i_shape b d tf 0 tw)) ->
  cut_at E (1, 0) x [(m, rect x 0 b tf); (m, rect x (d - tf) b d)] [(m, rect 0 0 x tf); (m, rect 0 tf tw (d - tf)); (m, rect 0 (d - tf) x d)].
Proof.
  intros Hf Hd H1 H2 H3 Hx B. split; [sides|]. split; [sides|]. split; [|forces]. 2:{ replace (m_fy m * ((x - 0) * (tf - 0)) + (m_fy m * ((tw - 0) * (d - tf - tf)) + (m_fy m * ((x - 0) * (d - (d - tf))) + 0))) with (m_fy m * (2 * b * tf + (d - 2 * tf) * tw - 2 * tf * (b - x))) by ring. rewrite <- Hx. ring. }
  eapply sb_trans; [exact B|]. unfold i_shape. cut_x m 0 0 b tf x. cut_x m 0 (d - tf) b d x. apply parts_perm. cbn [app]. perms.
Qed.

Definition tee_shape b d tf xl xr : list part := [(m, rect xl 0 xr (d - tf)); (m, rect 0 (d - tf) b d)].
Lemma tee_cut_web b d tf xl xr y : 0 < b -> 0 < tf -> 0 < y -> y < d - tf -> xl < xr -> 2 * (xr - xl) * y = b * tf + (d - tf) * (xr - xl) ->
  same_boundary E (parts_edges (tee_shape b d tf xl xr)) ->
  cut_at E (0, 1) y [(m, rect xl y xr (d - tf)); (m, rect 0 (d - tf) b d)] [(m, rect xl 0 xr y)].
Proof.
  intros Hb Hf Hy Hy' Hx Hc B. split; [sides|]. split; [sides|]. split; [|forces].
  2:{ replace (m_fy m * ((xr - xl) * (d - tf - y)) + (m_fy m * ((b - 0) * (d - (d - tf))) + 0)) with (m_fy m * (b * tf + (d - tf) * (xr - xl) - (xr - xl) * y)) by ring. rewrite <- Hc. ring. }
  eapply sb_trans; [exact B|]. unfold tee_shape. cut_y m xl 0 xr (d - tf) y. apply parts_perm. cbn [app]. perms.
Qed.
Lemma tee_cut_flange b d tf xl xr y : 0 < b -> 0 < tf -> tf < d -> d - tf < y -> y < d -> xl < xr -> 2 * b * (d - y) = b * tf + (d - tf) * (xr - xl) ->
  same_boundary E (parts_edges (tee_shape b d tf xl xr)) ->
  cut_at E (0, 1) y [(m, rect 0 y b d)] [(m, rect 0 (d - tf) b y); (m, rect xl 0 xr (d - tf))].
Proof.
  intros Hb Hf Hd Hy Hy' Hx Hc B. split; [sides|]. split; [sides|]. split; [|forces].
  2:{ replace (m_fy m * ((b - 0) * (y - (d - tf))) + (m_fy m * ((xr - xl) * (d - tf - 0)) + 0)) with (m_fy m * (b * tf + (d - tf) * (xr - xl) - b * (d - y))) by ring. rewrite <- Hc. ring. }
  eapply sb_trans; [exact B|]. unfold tee_shape. cut_y m 0 (d - tf) b d y. apply parts_perm. cbn [app]. perms.
Qed.
(** the axis between flange and web *)
Lemma tee_cut_joint b d tf xl xr : 0 < b -> 0 < tf -> tf < d -> xl < xr -> b * tf = (d - tf) * (xr - xl) ->
  same_boundary E (parts_edges (tee_shape b d tf xl xr)) ->
  cut_at E (0, 1) (d - tf) [(m, rect 0 (d - tf) b d)] [(m, rect xl 0 xr (d - tf))].
Proof.
  intros Hb Hf Hd Hx Hc B. split; [sides|]. split; [sides|]. split; [|forces].
  2:{ replace (m_fy m * ((b - 0) * (d - (d - tf))) + 0) with (m_fy m * (b * tf)) by ring. rewrite Hc. ring. }
  eapply sb_trans; [exact B|]. unfold tee_shape. apply parts_perm. cbn [app]. perms.
Qed.
Lemma tee_cut_y b d tf xl xr : 0 < b -> 0 < tf -> tf < d -> xl < xr -> xl + xr = b -> same_boundary E (parts_edges (tee_shape b d tf xl xr)) ->
  cut_at E (1, 0) (b / 2) [(m, rect (b / 2) (d - tf) b d); (m, rect (b / 2) 0 xr (d - tf))] [(m, rect 0 (d - tf) (b / 2) d); (m, rect xl 0 (b / 2) (d - tf))].
Proof.
  intros Hb Hf Hd Hx Hs B. split; [sides|]. split; [sides|]. split; [|forces; replace b with (xl + xr) by lra; field]. eapply sb_trans; [exact B|]. unfold tee_shape.
  cut_x m xl 0 xr (d - tf) (b / 2). cut_x m 0 (d - tf) b d (b / 2). apply parts_perm. cbn [app]. perms.
Qed.

Definition rhs_shape b d t w : list part := [(m, rect 0 0 b t); (m, rect 0 (d - t) b d); (m, rect 0 t w (d - t)); (m, rect (b - w) t b (d - t))].
Lemma rhs_cut_x b d t w : 0 < t -> 0 < w -> 2 * t < d -> 2 * w < b -> same_boundary E (parts_edges (rhs_shape b d t w)) ->
  cut_at E (0, 1) (d / 2) [(m, rect 0 (d - t) b d); (m, rect 0 (d / 2) w (d - t)); (m, rect (b - w) (d / 2) b (d - t))] [(m, rect 0 0 b t); (m, rect 0 t w (d / 2)); (m, rect (b - w) t b (d / 2))].
Proof.
  intros Ht Hw Hd Hb B. split; [sides|]. split; [sides|]. split; [|forces]. eapply sb_trans; [exact B|]. unfold rhs_shape. cut_y m 0 t w (d - t) (d / 2). cut_y m (b - w) t b (d - t) (d / 2). apply parts_perm. cbn [app]. perms.
Qed.
Lemma rhs_cut_y b d t w : 0 < t -> 0 < w -> 2 * t < d -> 2 * w < b -> same_boundary E (parts_edges (rhs_shape b d t w)) ->
  cut_at E (1, 0) (b / 2) [(m, rect (b / 2) 0 b t); (m, rect (b / 2) (d - t) b d); (m, rect (b - w) t b (d - t))] [(m, rect 0 0 (b / 2) t); (m, rect 0 (d - t) (b / 2) d); (m, rect 0 t w (d - t))].
Proof.
  intros Ht Hw Hd Hb B. split; [sides|]. split; [sides|]. split; [|forces]. eapply sb_trans; [exact B|]. unfold rhs_shape. cut_x m 0 0 b t (b / 2). cut_x m 0 (d - t) b d (b / 2). apply parts_perm. cbn [app]. perms.
Qed.
End Shapes.

(** ** From the library function to the plates *)
Lemma ring_out sh l m mat g E : polygon_geometry sh l mat = Ok g -> open_loop l -> Forall (pt_on_grid 12) l -> (exists v, In v l /\ v <> (0, 0)) -> 0 < ring_area l ->
  same_boundary E (S_Section.ring_edges m l) -> same_boundary (poly_edges m (gm_poly g)) E.
Proof. intros E1 O G V A B. rewrite (plain_exact sh l mat g E1 O G V), one_edges by lra. apply sb_sym, B. Qed.
Lemma rect_out sh d b m mat g : rectangular_section sh d b mat = Ok g -> 0 < d -> 0 < b -> on_grid 12 d -> on_grid 12 b -> same_boundary (poly_edges m (gm_poly g)) (parts_edges [(m, rect 0 0 b d)]).
Proof.
  intros E Hd Hb Gd Gb. apply (ring_out sh _ m mat g _ E); unfold rectangle_points; [opened|grids| |unring; nra|apply sb_refl]. exists (b, 0). split; [right; left; reflexivity|]. intros Q. injection Q. lra.
Qed.
Lemma i_out sh d b t_f t_w n m mat g : i_section sh d b t_f t_w 0 n mat = Ok g -> 0 < t_f -> 0 < t_w -> 2 * t_f < d -> t_w <= b ->
  on_grid 12 d -> on_grid 12 b -> on_grid 12 t_f -> on_grid 12 ((b - t_w) / 2) ->
  same_boundary (poly_edges m (gm_poly g)) (parts_edges (i_shape m b d t_f ((b - t_w) / 2) (b - (b - t_w) / 2))).
Proof.
  intros E H1 H2 H3 H4 Gd Gb Gf Gw. unfold i_section in E.
  assert (P : i_points d b t_f t_w 0 n = [(0, 0); (b, 0); (b, t_f); (b - (b - t_w) / 2, t_f); (b - (b - t_w) / 2, d - t_f); (b, d - t_f); (b, d); (0, d); (0, d - t_f); ((b - t_w) / 2, d - t_f); ((b - t_w) / 2, t_f); (0, t_f)]) by (unfold i_points; sharp).
  rewrite P in E. apply (ring_out sh _ m mat g _ E); [opened|grids| |unring; nra|apply i_plates; lra]. exists (b, 0). split; [right; left; reflexivity|]. intros Q. injection Q. lra.
Qed.
Lemma channel_out sh d b t_f t_w n m mat g : channel_section sh d b t_f t_w 0 n mat = Ok g -> 0 < t_f -> 0 < t_w -> 2 * t_f < d -> t_w <= b ->
  on_grid 12 d -> on_grid 12 b -> on_grid 12 t_f -> on_grid 12 t_w -> same_boundary (poly_edges m (gm_poly g)) (parts_edges (i_shape m b d t_f 0 t_w)).
Proof.
  intros E H1 H2 H3 H4 Gd Gb Gf Gw. unfold channel_section in E.
  assert (P : channel_points d b t_f t_w 0 n = [(0, 0); (b, 0); (b, t_f); (t_w, t_f); (t_w, d - t_f); (b, d - t_f); (b, d); (0, d)]) by (unfold channel_points; sharp).
  rewrite P in E. apply (ring_out sh _ m mat g _ E); [opened|grids| |unring; nra|apply channel_plates; lra]. exists (b, 0). split; [right; left; reflexivity|]. intros Q. injection Q. lra.
Qed.
Lemma tee_out sh d b t_f t_w n m mat g : tee_section sh d b t_f t_w 0 n mat = Ok g -> 0 < t_f -> 0 < t_w -> t_f < d -> t_w <= b ->
  on_grid 12 d -> on_grid 12 b -> on_grid 12 t_f -> on_grid 12 ((b - t_w) / 2) -> same_boundary (poly_edges m (gm_poly g)) (parts_edges (tee_shape m b d t_f ((b - t_w) / 2) (b - (b - t_w) / 2))).
Proof.
  intros E H1 H2 H3 H4 Gd Gb Gf Gw. unfold tee_section in E.
  assert (P : tee_points d b t_f t_w 0 n = [((b - t_w) / 2, 0); (b - (b - t_w) / 2, 0); (b - (b - t_w) / 2, d - t_f); (b, d - t_f); (b, d); (0, d); (0, d - t_f); ((b - t_w) / 2, d - t_f)]) by (unfold tee_points; sharp).
  rewrite P in E. apply (ring_out sh _ m mat g _ E); [opened|grids| |unring; nra|apply tee_plates; lra]. exists (0, d). split; [do 5 right; left; reflexivity|]. intros Q. injection Q. lra.
Qed.
Lemma rhs_out sh d b t w n m mat g o i : let t_w := match w with None => t | Some x => x end in rectangular_hollow_section sh d b t 0 n (Some 0) w mat = Ok g -> 0 < t -> 0 < t_w -> 2 * t < d -> 2 * t_w < b ->
  on_grid 12 d -> on_grid 12 b -> on_grid 12 t -> on_grid 12 t_w ->
  same_cycle [(0, 0); (b, 0); (b, d); (0, d)] o -> same_cycle [(t_w, t); (b - t_w, t); (b - t_w, d - t); (t_w, d - t)] i ->
  sh_difference sh (mkPoly [(0, 0); (b, 0); (b, d); (0, d)] []) [mkPoly [(t_w, t); (b - t_w, t); (b - t_w, d - t); (t_w, d - t)] []] = Some (mkPoly o [i]) ->
  same_boundary (poly_edges m (gm_poly g)) (parts_edges (rhs_shape m b d t t_w)).
Proof.
  intros t_w E H1 H2 H3 H4 Gd Gb Gt Gw So Si D. unfold rectangular_hollow_section in E. fold t_w in E.
  assert (Po : rhs_outer d b 0 n = [(0, 0); (b, 0); (b, d); (0, d)]) by (unfold rhs_outer; sharp).
  assert (Pi : rhs_inner d b t t_w 0 n = [(t_w, t); (b - t_w, t); (b - t_w, d - t); (t_w, d - t)]) by (unfold rhs_inner; sharp).
  rewrite Po, Pi in E. clear Po Pi.
  unfold hollow_geometry in E. rewrite (open_loop_ring [(0, 0); (b, 0); (b, d); (0, d)]) in E by opened. rewrite (open_loop_ring [(t_w, t); (b - t_w, t); (b - t_w, d - t); (t_w, d - t)]) in E by opened. cbn [bind] in E. rewrite D in E. injection E as <-.
  assert (G : forall r l, same_cycle l r -> Forall (pt_on_grid 12) l -> Forall (pt_on_grid 12) r). { intros r l S F. rewrite Forall_forall in *. intros v Hv. apply F, (cycle_in l r v S), Hv. }
  rewrite new_grid_poly.
  - destruct (cycle4 m _ _ _ _ _ So ltac:(unring; nra)) as [P1 _]. destruct (cycle4 m _ _ _ _ _ Si ltac:(unring; nra)) as [_ P2].
    unfold poly_edges. cbn [ext ints map concat]. rewrite app_nil_r. eapply sb_trans; [apply sb_perm, Permutation_app; [exact P1|exact P2]|]. apply sb_sym. apply (rhs_plates m d b t t_w); lra.
  - unfold poly_on_grid, rings. cbn [ext ints]. constructor; [apply (G _ _ So); grids|]. constructor; [|constructor]. apply (G _ _ Si). grids.
  - exists (b, 0). split; [cbn [ext]; apply (cycle_in _ o _ So); right; left; reflexivity|]. intros Q. injection Q. lra.
Qed.

(** ** The values reported *)
Section Reported.
Variables (l : libs) (query : R * R -> list nat) (g : geometry) (s : section_obj) (st : string) (h1 h2 : list call) (shapes : list (list mtri)) (tol : R).
Hypothesis D : plastic_done l query g s st h1 h2 shapes tol.
Let h := h1 ++ CPlastic :: h2.
Let sec := concat shapes.
Let phi := M_Post.p_phi (the_centroidal s).

Lemma plastic_ok : exists ws, the_plastic l g s = (ws, Ok tt).
Proof.
  destruct D as (Hb & U & Hg & Hok & _). assert (U1 : Forall (uses st) h1) by (apply Forall_app in U; apply U).
  destruct (C39_after l query g s st h1 Hb U1 Hg) as [_ [A _]]. cbv zeta in A. rewrite A in Hok. destruct (the_plastic l g s) as [ws [[]|er]]; [exists ws; reflexivity|destruct Hok].
Qed.
Lemma axis_reported k : exists v, property_value l g s st (s_prop k) = Some v /\ forall mm, is_plastic_moment sec (direction phi k) mm -> mm - 2 * (total_yield_force sec * tol) <= v <= mm + total_yield_force sec * tol.
Proof.
  destruct plastic_ok as (ws & E). destruct D as (_ & _ & _ & _ & C & S & Rt).
  destruct (C47_plastic_modulus (l_brentq l) tol (g_plastic g) (geometric_value g s) (negb (is_composite (s_mats s))) ws shapes phi no_props k C S Rt eq_refl E) as (pc & v & _ & Ev & _ & _ & K).
  exists v. split; [|intros mm Hm; specialize (K mm Hm); fold sec in K; lra].
  rewrite num_writes in Ev. rewrite plastic_props_value by (destruct k; unfold plastic_props; cbn [s_prop In]; tauto). rewrite E. cbn [fst]. destruct (last_write ws (s_prop k)); [congruence|discriminate Ev].
Qed.
Lemma getter_reported x vs : allowed (is_composite (s_mats s)) x -> In x [get_s; get_mp; get_sp; get_mp_p] -> all_values (property_value l g s st) (fields x) = Some vs -> gives l query g s h x vs.
Proof.
  intros A Ix E e. destruct D as (Hb & U & Hg & Hok & _).
  assert (Ip : In Plastic (provided_by x) /\ shape_factor_getter x = false) by (cbn [In] in Ix; repeat (destruct Ix as [<-|Ix]; [split; [left|]; reflexivity|]); destruct Ix). destruct Ip as [Ip Is].
  destruct (C40_available l query g s h Plastic CPlastic x e Hb Ip Is I) as [v Hv].
  { exists (run l query (mkWorld g s no_props) h1). split; [exists h1, h2; split; reflexivity|exact Hok]. }
  { exact A. }
  destruct (C40_value l query g s st h x e v Hb U Hv) as [K|[[-> | ->] _]].
  - unfold getter_value in K. rewrite E in K. injection K as <-. replace (finish x e vs) with vs in Hv; [exact Hv|]. cbn [In] in Ix. repeat (destruct Ix as [<-|Ix]; [reflexivity|]). destruct Ix.
  - cbn [In] in Ix. repeat (destruct Ix as [Ix|Ix]; [discriminate Ix|]). destruct Ix.
  - cbn [In] in Ix. repeat (destruct Ix as [Ix|Ix]; [discriminate Ix|]). destruct Ix.
Qed.
Lemma pair_reported (p : bool) m1 m2 : let k1 := if p then axis_11 else axis_x in let k2 := if p then axis_22 else axis_y in
  is_plastic_moment sec (direction phi k1) m1 -> is_plastic_moment sec (direction phi k2) m2 ->
  gives_near l query g s h (if p then modulus_getter_p s else modulus_getter s) (total_yield_force sec * tol) [m1; m2].
Proof.
  intros k1 k2 H1 H2. destruct (axis_reported k1) as (v1 & E1 & B1). destruct (axis_reported k2) as (v2 & E2 & B2). exists [v1; v2]. split.
  - apply getter_reported.
    + unfold modulus_getter_p, modulus_getter. destruct p, (is_composite (s_mats s)); exact eq_refl.
    + unfold modulus_getter_p, modulus_getter. destruct p, (is_composite (s_mats s)); cbn [In]; tauto.
    + replace (fields (if p then modulus_getter_p s else modulus_getter s)) with [s_prop k1; s_prop k2] by (unfold k1, k2, modulus_getter_p, modulus_getter; destruct p, (is_composite (s_mats s)); reflexivity).
      cbn [all_values]. rewrite E1, E2. reflexivity.
  - constructor; [apply B1, H1|]. constructor; [apply B2, H2|constructor].
Qed.
End Reported.
