(** Proofs: the library shapes made of plates have the moments of the plates. *)
From Coq Require Import Reals List Arith Lra Lia.
From Verif Require Import Base M_Fea M_Init M_Geometry S_Geometry P_Geom P_Geometry P_Geometry3 P_Geometry6 P_Geometry8 M_Library S_Library P_Library P_Library2 P_Library8 S_Outline P_Outline P_Outline2.
Import ListNotations.
Local Open Scope R_scope.

Lemma near_exact tol a b : near tol a b -> pt_on_grid tol a -> b = a. Proof. intros (_ & _ & H). exact H. Qed.
Lemma nears_exact tol l l' : Forall2 (Forall2 (near tol)) l l' -> Forall (Forall (pt_on_grid tol)) l -> l' = l.
Proof.
  induction 1 as [|a b l l' N _ IH]; [reflexivity|]. intros G. inversion G as [|? ? Ga Gl]; subst. f_equal; [|apply IH, Gl]. clear - N Ga.
  induction N as [|x y a b Nx _ IH]; [reflexivity|]. inversion Ga; subst. f_equal; [eapply near_exact; eassumption|apply IH; assumption].
Qed.
Lemma outlined_exact res p m g : outlined res p m -> poly_on_grid 12 p -> (exists v, In v (ext p) /\ v <> (0, 0)) -> res = Ok g -> gm_poly g = p.
Proof.
  intros (g' & E & _ & _ & _ & N) G (v & Iv & Nv) E'. assert (g' = g) as -> by congruence. pose proof G as G'. unfold poly_on_grid, rings in G. inversion G as [|? ? Ge _]; subst.
  assert (K : rings (gm_poly g) = rings p).
  { apply (nears_exact 12); [|exact G']. apply N. exists v. split; [exact Iv|]. rewrite Forall_forall in Ge. destruct (Ge v Iv) as [Gx Gy]. destruct (Req_dec (fst v) 0) as [E1|N1].
    - right. apply grid_away; [exact Gy|]. intros E2. apply Nv. rewrite (surjective_pairing v), E1, E2. reflexivity.
    - left. apply grid_away; assumption. }
  unfold rings in K. destruct (gm_poly g) as [e1 i1], p as [e2 i2]. cbn [ext ints] in K. congruence.
Qed.
Lemma plain_exact sh l m g : polygon_geometry sh l m = Ok g -> open_loop l -> Forall (pt_on_grid 12) l -> (exists v, In v l /\ v <> (0, 0)) -> gm_poly g = mkPoly l [].
Proof.
  intros E O G V. unfold polygon_geometry in E. rewrite (open_loop_ring l O) in E. cbn [bind] in E. injection E as <-. apply new_grid_poly; [|exact V]. repeat constructor. exact G.
Qed.
Lemma one_sum f l : 0 <= ring_area l -> poly_sum f (mkPoly l []) = f l.
Proof. intros H. unfold poly_sum, M_Geometry.orient. cbn [ext ints]. unfold sumf, Rsum. cbn [map fold_right]. destruct (Rlt_dec _ _); lra. Qed.
Lemma hollow_sum f o i : 0 <= ring_area o -> 0 <= ring_area i -> poly_sum f (mkPoly o [i]) = f o - f i.
Proof. intros H H'. unfold poly_sum, M_Geometry.orient. cbn [ext ints]. unfold sumf, Rsum. cbn [map fold_right]. destruct (Rlt_dec (ring_area o) 0); [lra|]. destruct (Rlt_dec (ring_area i) 0); lra. Qed.

Ltac unring := unfold ring_area, ring_mx, ring_my, ring_ixx, ring_iyy, ring_ixy, plates_area, plates_ixx, plates_iyy, plates_ixy, sumf, Rsum, M_Geometry.cross, r_area, r_cx, r_cy, r_w, r_h;
  cbn [around shoelace fst snd map fold_right r_x1 r_x2 r_y1 r_y2].
Ltac moments1 := unfold origin_moments;
  match goal with |- poly_area ?p = _ /\ _ => change (poly_area p) with (poly_sum ring_area p); change (poly_mx p) with (poly_sum ring_mx p); change (poly_my p) with (poly_sum ring_my p) end;
  unfold poly_ixx, poly_iyy, poly_ixy; rewrite !one_sum by lra; repeat split; unring; field.
Ltac grid1 := repeat first [assumption|apply grid_plus|apply grid_minus|apply grid_opp|apply grid_0].
Ltac grids := repeat (constructor; [split; cbn [fst snd]; grid1|]); constructor.
Ltac sharp := unfold draw_radius; destruct (Req_EM_T 0 0) as [_|N0]; [|contradiction]; cbn [app]; repeat (apply f_equal2; [apply f_equal2; lra|]); reflexivity.
Ltac opened := split; [cbn [length]; lia|let q := fresh in let Q := fresh in intros q Q; cbn in Q; injection Q; intros; lra].

(** From the ring to the moments. *)
Lemma ring_case sh l m g ps : polygon_geometry sh l m = Ok g -> open_loop l -> Forall (pt_on_grid 12) l -> (exists v, In v l /\ v <> (0, 0)) ->
  0 < ring_area l -> (0 <= ring_area l -> origin_moments (mkPoly l []) ps) -> origin_moments (gm_poly g) ps /\ poly_area (gm_poly g) <> 0.
Proof.
  intros E O G V A M. rewrite (plain_exact sh l m g E O G V). split; [apply M; lra|]. change (poly_area (mkPoly l [])) with (poly_sum ring_area (mkPoly l [])). rewrite one_sum; lra.
Qed.

Lemma rectangle_case sh d b m g : rectangular_section sh d b m = Ok g -> 0 < d -> 0 < b -> on_grid 12 d -> on_grid 12 b ->
  origin_moments (gm_poly g) [rect 0 0 b d] /\ poly_area (gm_poly g) <> 0.
Proof.
  intros E Hd Hb Gd Gb. apply (ring_case sh _ m g _ E); unfold rectangle_points.
  - opened.
  - grids.
  - exists (b, 0). split; [right; left; reflexivity|]. intros Q. injection Q. lra.
  - unring. nra.
  - intros A. moments1.
Qed.

Lemma i_case sh d b t_f t_w n m g : i_section sh d b t_f t_w 0 n m = Ok g -> 0 < t_f -> 0 < t_w -> 2 * t_f < d -> t_w <= b ->
  on_grid 12 d -> on_grid 12 b -> on_grid 12 t_f -> on_grid 12 ((b - t_w) / 2) ->
  origin_moments (gm_poly g) [rect 0 0 b t_f; rect ((b - t_w) / 2) t_f ((b + t_w) / 2) (d - t_f); rect 0 (d - t_f) b d] /\ poly_area (gm_poly g) <> 0.
Proof.
  intros E H1 H2 H3 H4 Gd Gb Gf Gw. unfold i_section in E.
  assert (P : i_points d b t_f t_w 0 n = [(0, 0); (b, 0); (b, t_f); (b - (b - t_w) / 2, t_f); (b - (b - t_w) / 2, d - t_f); (b, d - t_f); (b, d); (0, d); (0, d - t_f); ((b - t_w) / 2, d - t_f); ((b - t_w) / 2, t_f); (0, t_f)]) by (unfold i_points; sharp).
  rewrite P in E. apply (ring_case sh _ m g _ E).
  - opened.
  - grids.
  - exists (b, 0). split; [right; left; reflexivity|]. intros Q. injection Q. lra.
  - unring. nra.
  - intros A. moments1.
Qed.
Lemma mono_i_case sh d b_t b_b t_ft t_fb t_w n m g : let c := Rmax b_t b_b / 2 in mono_i_section sh d b_t b_b t_ft t_fb t_w 0 n m = Ok g -> 0 < t_ft -> 0 < t_fb -> 0 < t_w -> t_ft + t_fb < d -> t_w <= b_t -> t_w <= b_b ->
  on_grid 12 d -> on_grid 12 t_ft -> on_grid 12 t_fb -> on_grid 12 (c - b_t / 2) -> on_grid 12 (c + b_t / 2) -> on_grid 12 (c - b_b / 2) -> on_grid 12 (c + b_b / 2) -> on_grid 12 (c - t_w / 2) -> on_grid 12 (c + t_w / 2) ->
  origin_moments (gm_poly g) [rect (c - b_b / 2) 0 (c + b_b / 2) t_fb; rect (c - t_w / 2) t_fb (c + t_w / 2) (d - t_ft); rect (c - b_t / 2) (d - t_ft) (c + b_t / 2) d] /\ poly_area (gm_poly g) <> 0.
Proof.
  intros c E H1 H2 H3 H4 H5 H6 Gd G1 G2 G3 G4 G5 G6 G7 G8. unfold mono_i_section in E.
  assert (P : mono_i_points d b_t b_b t_ft t_fb t_w 0 n = [(c - b_b / 2, 0); (c + b_b / 2, 0); (c + b_b / 2, t_fb); (c + t_w / 2, t_fb); (c + t_w / 2, d - t_ft); (c + b_t / 2, d - t_ft); (c + b_t / 2, d); (c - b_t / 2, d); (c - b_t / 2, d - t_ft); (c - t_w / 2, d - t_ft); (c - t_w / 2, t_fb); (c - b_b / 2, t_fb)]) by (unfold mono_i_points; fold c; sharp).
  rewrite P in E. apply (ring_case sh _ m g _ E).
  - opened.
  - grids.
  - exists (c - b_t / 2, d). split; [do 7 right; left; reflexivity|]. intros Q. injection Q. lra.
  - unring. nra.
  - intros A. moments1.
Qed.
Lemma channel_case sh d b t_f t_w n m g : channel_section sh d b t_f t_w 0 n m = Ok g -> 0 < t_f -> 0 < t_w -> 2 * t_f < d -> t_w <= b ->
  on_grid 12 d -> on_grid 12 b -> on_grid 12 t_f -> on_grid 12 t_w ->
  origin_moments (gm_poly g) [rect 0 0 b t_f; rect 0 t_f t_w (d - t_f); rect 0 (d - t_f) b d] /\ poly_area (gm_poly g) <> 0.
Proof.
  intros E H1 H2 H3 H4 Gd Gb Gf Gw. unfold channel_section in E.
  assert (P : channel_points d b t_f t_w 0 n = [(0, 0); (b, 0); (b, t_f); (t_w, t_f); (t_w, d - t_f); (b, d - t_f); (b, d); (0, d)]) by (unfold channel_points; sharp).
  rewrite P in E. apply (ring_case sh _ m g _ E).
  - opened.
  - grids.
  - exists (b, 0). split; [right; left; reflexivity|]. intros Q. injection Q. lra.
  - unring. nra.
  - intros A. moments1.
Qed.
Lemma tee_case sh d b t_f t_w n m g : tee_section sh d b t_f t_w 0 n m = Ok g -> 0 < t_f -> 0 < t_w -> t_f < d -> t_w <= b ->
  on_grid 12 d -> on_grid 12 b -> on_grid 12 t_f -> on_grid 12 ((b - t_w) / 2) ->
  origin_moments (gm_poly g) [rect ((b - t_w) / 2) 0 ((b + t_w) / 2) (d - t_f); rect 0 (d - t_f) b d] /\ poly_area (gm_poly g) <> 0.
Proof.
  intros E H1 H2 H3 H4 Gd Gb Gf Gw. unfold tee_section in E.
  assert (P : tee_points d b t_f t_w 0 n = [((b - t_w) / 2, 0); (b - (b - t_w) / 2, 0); (b - (b - t_w) / 2, d - t_f); (b, d - t_f); (b, d); (0, d); (0, d - t_f); ((b - t_w) / 2, d - t_f)]) by (unfold tee_points; sharp).
  rewrite P in E. apply (ring_case sh _ m g _ E).
  - opened.
  - grids.
  - exists (0, d). split; [do 5 right; left; reflexivity|]. intros Q. injection Q. lra.
  - unring. nra.
  - intros A. moments1.
Qed.
(** The outline of the angle has the corner (b, 0) only if the toe radius is not close to the thickness. *)
Lemma angle_case sh d b t n m g : angle_section sh d b t 0 0 n m = Ok g -> 1 / 10 ^ 8 < t -> t < d -> t < b -> on_grid 12 d -> on_grid 12 b -> on_grid 12 t ->
  origin_moments (gm_poly g) [rect 0 0 b t; rect 0 t t d] /\ poly_area (gm_poly g) <> 0.
Proof.
  intros E H1 H3 H4 Gd Gb Gf. unfold angle_section in E. destruct (Rlt_dec t 0) as [|_]; [discriminate E|].
  assert (P : angle_points d b t 0 0 n = [(0, 0); (b, 0); (b, t); (t, t); (t, d); (0, d)]).
  { unfold angle_points, isclose. destruct (Rle_dec _ _) as [L|_]; [exfalso; rewrite Rabs_R0 in L; rewrite Rabs_right in L by lra; lra|]. sharp. }
  rewrite P in E. apply (ring_case sh _ m g _ E).
  - opened.
  - grids.
  - exists (b, 0). split; [right; left; reflexivity|]. intros Q. injection Q. lra.
  - unring. nra.
  - intros A. moments1.
Qed.
Lemma cruciform_case sh d b t n m g : cruciform_section sh d b t 0 n m = Ok g -> 0 < t -> t < d -> t < b -> on_grid 12 (d / 2) -> on_grid 12 (b / 2) -> on_grid 12 (t / 2) ->
  origin_moments (gm_poly g) [rect (- t / 2) (- d / 2) (t / 2) (d / 2); rect (- b / 2) (- t / 2) (- t / 2) (t / 2); rect (t / 2) (- t / 2) (b / 2) (t / 2)] /\ poly_area (gm_poly g) <> 0.
Proof.
  intros E H1 H3 H4 Gd Gb Gf. unfold cruciform_section in E.
  assert (P : cruciform_points d b t 0 n = [(- (t / 2), - (d / 2)); (t / 2, - (d / 2)); (t / 2, - (t / 2)); (b / 2, - (t / 2)); (b / 2, t / 2); (t / 2, t / 2); (t / 2, d / 2); (- (t / 2), d / 2); (- (t / 2), t / 2); (- (b / 2), t / 2); (- (b / 2), - (t / 2)); (- (t / 2), - (t / 2))]) by (unfold cruciform_points; sharp).
  rewrite P in E. apply (ring_case sh _ m g _ E).
  - opened.
  - grids.
  - exists (b / 2, t / 2). split; [do 4 right; left; reflexivity|]. intros Q. injection Q. lra.
  - unring. nra.
  - intros A. moments1.
Qed.
(** cee and zed with sharp corners and lips longer than the thickness *)
Lemma cee_case sh d b l t n m g : cee_section sh d b l t 0 n m = Ok g -> 0 < t -> t < l -> 2 * t < b -> 2 * l < d -> on_grid 12 d -> on_grid 12 b -> on_grid 12 l -> on_grid 12 t ->
  origin_moments (gm_poly g) [rect 0 0 t d; rect t 0 b t; rect (b - t) t b l; rect t (d - t) b d; rect (b - t) (d - l) b (d - t)] /\ poly_area (gm_poly g) <> 0.
Proof.
  intros E H1 H2 H3 H4 Gd Gb Gl Gt. unfold cee_section in E.
  assert (P : cee_points d b l t 0 n = [(0, 0); (b, 0); (b, l); (b - t, l); (b - t, t); (t, t); (t, d - t); (b - t, d - t); (b - t, d - l); (b, d - l); (b, d); (0, d)]).
  { unfold cee_points. destruct (Rlt_dec 0 l) as [_|]; [|lra]. replace (Rmax (0 - t) 0) with 0 by (rewrite Rmax_right; lra). sharp. }
  rewrite P in E. apply (ring_case sh _ m g _ E).
  - opened.
  - grids.
  - exists (b, 0). split; [right; left; reflexivity|]. intros Q. injection Q. lra.
  - unring. nra.
  - intros A. moments1.
Qed.
Lemma zed_case sh d b_l b_r l t n m g : zed_section sh d b_l b_r l t 0 n m = Ok g -> 0 < t -> t < l -> 2 * t < b_l -> 2 * t < b_r -> 2 * l < d -> on_grid 12 d -> on_grid 12 b_l -> on_grid 12 b_r -> on_grid 12 l -> on_grid 12 t ->
  origin_moments (gm_poly g) [rect 0 0 t d; rect t 0 b_r t; rect (b_r - t) t b_r l; rect (t - b_l) (d - t) 0 d; rect (t - b_l) (d - l) (2 * t - b_l) (d - t)] /\ poly_area (gm_poly g) <> 0.
Proof.
  intros E H1 H2 H3 H4 H5 Gd Gb Gr Gl Gt. unfold zed_section in E.
  assert (P : zed_points d b_l b_r l t 0 n = [(0, 0); (b_r, 0); (b_r, l); (b_r - t, l); (b_r - t, t); (t, t); (t, d); (t - b_l, d); (t - b_l, d - l); (t - b_l + t, d - l); (t - b_l + t, d - t); (0, d - t)]).
  { unfold zed_points. destruct (Rlt_dec 0 l) as [_|]; [|lra]. replace (Rmax (0 - t) 0) with 0 by (rewrite Rmax_right; lra). sharp. }
  rewrite P in E. apply (ring_case sh _ m g _ E).
  - opened.
  - grids.
  - exists (b_r, 0). split; [right; left; reflexivity|]. intros Q. injection Q. lra.
  - unring. nra.
  - intros A. moments1.
Qed.

Lemma orient_cycle f l l' : (forall a b, f b a = - f a b) -> same_cycle l l' -> 0 < ring_area l -> M_Geometry.orient l' (around f l') = around f l.
Proof.
  intros A [S|S] P; unfold M_Geometry.orient.
  - assert (E : ring_area l' = ring_area l) by (unfold ring_area; rewrite (same_ring_around _ _ _ S); reflexivity). rewrite E, (same_ring_around f _ _ S). destruct (Rlt_dec _ _); lra.
  - assert (E : ring_area l' = - ring_area l). { unfold ring_area. rewrite <- (same_ring_around _ _ _ S), (around_neg M_Geometry.cross) by (intros; unfold M_Geometry.cross; ring). lra. }
    rewrite E, <- (same_ring_around f _ _ S), (around_neg f l A). destruct (Rlt_dec _ _); lra.
Qed.
Lemma orient_scale l a k : M_Geometry.orient l (a / k) = M_Geometry.orient l a / k.
Proof. unfold M_Geometry.orient. destruct (Rlt_dec _ _); [unfold Rdiv; ring|reflexivity]. Qed.
Lemma orient_moments l l' : same_cycle l l' -> 0 < ring_area l ->
  M_Geometry.orient l' (ring_area l') = ring_area l /\ M_Geometry.orient l' (ring_mx l') = ring_mx l /\ M_Geometry.orient l' (ring_my l') = ring_my l /\
  M_Geometry.orient l' (ring_ixx l') = ring_ixx l /\ M_Geometry.orient l' (ring_iyy l') = ring_iyy l /\ M_Geometry.orient l' (ring_ixy l') = ring_ixy l.
Proof.
  intros S P. pose proof P as P0. unfold ring_area, ring_mx, ring_my, ring_ixx, ring_iyy, ring_ixy. rewrite !orient_scale.
  rewrite (orient_cycle M_Geometry.cross l l'), (orient_cycle (fun a b => (fst a + fst b) * M_Geometry.cross a b) l l'), (orient_cycle (fun a b => (snd a + snd b) * M_Geometry.cross a b) l l'),
    (orient_cycle (fun a b => (snd a ^ 2 + snd a * snd b + snd b ^ 2) * M_Geometry.cross a b) l l'), (orient_cycle (fun a b => (fst a ^ 2 + fst a * fst b + fst b ^ 2) * M_Geometry.cross a b) l l'),
    (orient_cycle (fun a b => (fst a * snd b + 2 * fst a * snd a + 2 * fst b * snd b + fst b * snd a) * M_Geometry.cross a b) l l') by (first [assumption|intros; unfold M_Geometry.cross; ring]).
  repeat split.
Qed.
Lemma cycle_in l l' v : same_cycle l l' -> In v l' <-> In v l.
Proof.
  intros [(a & b & -> & ->)|(a & b & E & ->)]; [rewrite !in_app_iff; tauto|]. rewrite (in_rev l), E, !in_app_iff. tauto.
Qed.
(** d x b with walls t (top and bottom) and t_w (sides), sharp corners *)
Lemma rhs_case sh d b t w n m g o i : let t_w := match w with None => t | Some x => x end in rectangular_hollow_section sh d b t 0 n (Some 0) w m = Ok g -> 0 < t -> 0 < t_w -> 2 * t < d -> 2 * t_w < b ->
  on_grid 12 d -> on_grid 12 b -> on_grid 12 t -> on_grid 12 t_w ->
  same_cycle [(0, 0); (b, 0); (b, d); (0, d)] o -> same_cycle [(t_w, t); (b - t_w, t); (b - t_w, d - t); (t_w, d - t)] i ->
  sh_difference sh (mkPoly [(0, 0); (b, 0); (b, d); (0, d)] []) [mkPoly [(t_w, t); (b - t_w, t); (b - t_w, d - t); (t_w, d - t)] []] = Some (mkPoly o [i]) ->
  origin_moments (gm_poly g) [rect 0 0 b t; rect 0 (d - t) b d; rect 0 t t_w (d - t); rect (b - t_w) t b (d - t)] /\ poly_area (gm_poly g) <> 0.
Proof.
  intros t_w E H1 H2 H3 H4 Gd Gb Gt Gw So Si D. unfold rectangular_hollow_section in E. fold t_w in E.
  assert (Po : rhs_outer d b 0 n = [(0, 0); (b, 0); (b, d); (0, d)]) by (unfold rhs_outer; sharp).
  assert (Pi : rhs_inner d b t t_w 0 n = [(t_w, t); (b - t_w, t); (b - t_w, d - t); (t_w, d - t)]) by (unfold rhs_inner; sharp).
  rewrite Po, Pi in E. clear Po Pi. set (lo := [(0, 0); (b, 0); (b, d); (0, d)]) in *. set (li := [(t_w, t); (b - t_w, t); (b - t_w, d - t); (t_w, d - t)]) in *.
  unfold hollow_geometry in E. rewrite (open_loop_ring lo) in E by (unfold lo; opened). rewrite (open_loop_ring li) in E by (unfold li; opened). cbn [bind] in E. rewrite D in E. injection E as <-.
  assert (G : forall r l, same_cycle l r -> Forall (pt_on_grid 12) l -> Forall (pt_on_grid 12) r). { intros r l S F. rewrite Forall_forall in *. intros v Hv. apply F, (cycle_in l r v S), Hv. }
  rewrite new_grid_poly.
  - assert (Ao : 0 < ring_area lo) by (unfold lo; unring; nra). assert (Ai : 0 < ring_area li) by (unfold li; unring; nra).
    destruct (orient_moments lo o So Ao) as (A1 & A2 & A3 & A4 & A5 & A6). destruct (orient_moments li i Si Ai) as (B1 & B2 & B3 & B4 & B5 & B6).
    assert (S : forall f, poly_sum f (mkPoly o [i]) = M_Geometry.orient o (f o) - M_Geometry.orient i (f i)) by (intros f; unfold poly_sum; cbn [ext ints]; unfold sumf, Rsum; cbn [map fold_right]; ring).
    assert (AA : poly_area (mkPoly o [i]) = ring_area lo - ring_area li) by (change (poly_area (mkPoly o [i])) with (poly_sum ring_area (mkPoly o [i])); rewrite S; lra).
    split.
    + split; [rewrite AA; unfold lo, li; unring; field|]. change (poly_mx (mkPoly o [i])) with (poly_sum ring_mx (mkPoly o [i])). change (poly_my (mkPoly o [i])) with (poly_sum ring_my (mkPoly o [i])). unfold poly_ixx, poly_iyy, poly_ixy.
      rewrite !S, A2, A3, A4, A5, A6, B2, B3, B4, B5, B6. unfold lo, li. repeat split; unring; field.
    + rewrite AA. unfold lo, li. unring. nra.
  - unfold poly_on_grid, rings. cbn [ext ints]. constructor; [apply (G _ _ So); unfold lo; grids|]. constructor; [|constructor]. apply (G _ _ Si). unfold li. grids.
  - exists (b, 0). split; [cbn [ext]; apply (cycle_in lo o _ So); right; left; reflexivity|]. intros Q. injection Q. lra.
Qed.
