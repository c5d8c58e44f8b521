(** Proofs about the set operations. *)
From Coq Require Import String Reals List Bool Arith Lra Lia.
From Verif Require Import Base M_Fea M_Init M_Bisect P_Plastic M_Geometry S_Geometry P_Geometry P_Geometry3 P_Geometry4 P_Geometry5 M_SetOps S_SetOps.
Import ListNotations.
Local Open Scope R_scope.

Lemma map_polygon_same p : map_polygon (fun v => v) p = p.
Proof. destruct p as [e is_]. unfold map_polygon. cbn [ext ints]. rewrite map_id. f_equal. rewrite (map_ext _ (fun x => x)) by (intros; apply map_id). apply map_id. Qed.
Lemma new_shows sh p m c tol : shows sh m p (new_geometry sh p m c tol).
Proof.
  split; [apply new_is_geometry|]. destruct (new_geometry_poly sh p m c tol) as (P & M & _ & T). split; [exact M|]. split.
  - rewrite T. intros (v & Iv & Hv). pose proof (moved_by sh (fun v => v) (mkGeom p m c tol [] [] [] []) c m) as K. cbn [gm_poly gm_tol gm_mat gm_assigned] in K.
    rewrite map_polygon_same in K. apply K; [exists v; split; assumption|reflexivity|destruct c; reflexivity].
  - intros E. rewrite P. unfold round_polygon_vertices, map_polygon. cbn [ext]. rewrite E. reflexivity.
Qed.
Lemma new_members sh l : cp_geoms (new_compound sh l) = concat (map members_of l).
Proof. unfold new_compound. rewrite compile_geoms, flatten_eq. reflexivity. Qed.
Lemma compound_of_shows sh ps m : Forall2 (shows sh m) ps (members_of (ICompound (compound_of sh ps m))).
Proof.
  cbn [members_of]. unfold compound_of. rewrite new_members, map_map. induction ps as [|p ps IH]; [constructor|]. cbn [map members_of concat app]. constructor; [apply new_shows|exact IH].
Qed.
Lemma filter_spec s r : filter_non_polygons s = Ok r ->
  (exists p, r = One p /\ (polygons_in s = [p] \/ polygons_in s = [] /\ p = empty_polygon)) \/ (exists ps, r = Many ps /\ polygons_in s = ps).
Proof.
  destruct s as [p|ps|l| |]; cbn [filter_non_polygons]; intros H; try (injection H as <-); try discriminate H.
  - left. exists p. auto.
  - right. exists ps. auto.
  - cbn [polygons_in].
    assert (E : concat (map (fun q => match q with PtPolygon p => [p] | PtMulti ps => ps | PtOther => [] end) l) =
                concat (map (fun q => match q with PtPolygon p => [p] | PtMulti ps => ps | PtOther => [] end) (polygon_parts l))).
    { clear H. induction l as [|q l IH]; [reflexivity|]. cbn [polygon_parts filter map concat]. destruct q; cbn [map concat]; rewrite IH; reflexivity. }
    rewrite E. assert (O : forall acc ps, only_polygons acc = Ok ps -> concat (map (fun q => match q with PtPolygon p => [p] | PtMulti ps => ps | PtOther => [] end) acc) = ps).
    { induction acc as [|[p|ps|] acc IH]; cbn [only_polygons]; intros qs Q; try discriminate Q; [injection Q as <-; reflexivity|].
      destruct (only_polygons acc) as [r'|]; [|discriminate Q]. cbn [bind] in Q. injection Q as <-. cbn [map concat app]. rewrite (IH r' eq_refl). reflexivity. }
    destruct (polygon_parts l) as [|q1 [|q2 qs]].
    + injection H as <-. left. exists empty_polygon. split; [reflexivity|]. right. auto.
    + destruct q1; injection H as <- || idtac; [left; eexists; split; [reflexivity|]; left; reflexivity|right; eexists; split; [reflexivity|]; cbn [map concat]; apply app_nil_r|discriminate H].
    + assert (Q : bind (only_polygons (q1 :: q2 :: qs)) (fun ps => Ok (Many ps)) = Ok r) by (destruct q1; exact H). clear H.
      destruct (only_polygons (q1 :: q2 :: qs)) as [ps|] eqn:Eo; [|discriminate Q]. cbn [bind] in Q. injection Q as <-. right. exists ps. split; [reflexivity|]. apply O, Eo.
  - left. exists empty_polygon. auto.
Qed.
Lemma finish_consists sh m s (k : polygon -> result item) i :
  (forall p i, k p = Ok i -> exists c t, i = ISingle (new_geometry sh p m c t)) ->
  as_value_error (bind (filter_non_polygons s) (fun r => match r with Many ps => Ok (ICompound (compound_of sh ps m)) | One p => k p end)) = Ok i ->
  consists sh m s i.
Proof.
  intros K H. destruct (filter_non_polygons s) as [r|] eqn:F; cbn [bind as_value_error] in H; [|discriminate H]. apply filter_spec in F.
  destruct F as [(p & -> & F)|(ps & -> & F)].
  - destruct (k p) as [i'|] eqn:Ek; [|discriminate H]. injection H as <-. destruct (K p i' Ek) as (c & t & ->). destruct F as [F|[F ->]].
    + left. rewrite F. cbn [members_of]. constructor; [apply new_shows|constructor].
    + right. split; [exact F|]. eexists. split; [reflexivity|]. apply new_shows.
  - injection H as <-. left. rewrite F. apply compound_of_shows.
Qed.
Lemma sub_consists sh so g other i : sub_single sh so g other = Ok i -> consists sh (gm_mat g) (so_difference so [gm_poly g] (item_polys other)) i.
Proof.
  unfold sub_single. apply (finish_consists sh (gm_mat g) _ (fun p => _)). intros p i'. cbv beta. destruct (gm_assigned g) as [c|]; [destruct (sh_contains sh p c)|]; intros E; injection E as <-; eauto.
Qed.
Lemma or_consists sh so a b i : geom_or sh so a b = Ok i -> consists sh (material_or (item_material a) (item_material b)) (so_union so (item_polys a) (item_polys b)) i.
Proof.
  unfold geom_or. apply (finish_consists sh _ _ (fun p => _)). intros p i'. cbv beta. destruct (item_control a) as [|c l]; intros E; [discriminate E|]. injection E as <-. eauto.
Qed.
Lemma plain_consists sh op a b i : geom_plain sh op a b = Ok i -> consists sh (material_or (item_material a) (item_material b)) (op (item_polys a) (item_polys b)) i.
Proof. unfold geom_plain. apply (finish_consists sh _ _ (fun p => _)). intros p i' E. injection E as <-. eauto. Qed.
Lemma value_error {A} (r : result A) e : as_value_error r = Err e -> e = ValueError.
Proof. destruct r; cbn; congruence. Qed.
Lemma map_result_err {A B} (f : A -> result B) l e : (forall a e, f a = Err e -> e = ValueError) -> map_result f l = Err e -> e = ValueError.
Proof.
  intros H. induction l as [|a l IH]; cbn [map_result]; [discriminate|]. destruct (f a) as [b|e'] eqn:E; cbn [bind]; [|intros Q; injection Q as <-; apply (H a), E].
  destruct (map_result f l) as [r|e']; cbn [bind]; [discriminate|]. intros Q. injection Q as <-. apply IH. reflexivity.
Qed.
Lemma map_result_Forall2 {A B} (f : A -> result B) l r : map_result f l = Ok r -> Forall2 (fun a b => f a = Ok b) l r.
Proof.
  revert r. induction l as [|a l IH]; cbn [map_result]; intros r H; [injection H as <-; constructor|].
  destruct (f a) as [b|] eqn:E; cbn [bind] in H; [|discriminate H]. destruct (map_result f l) as [r'|]; cbn [bind] in H; [|discriminate H]. injection H as <-. constructor; [exact E|]. apply IH. reflexivity.
Qed.
Lemma map_result_ok {A B} (f : A -> result B) l : (forall a, In a l -> exists b, f a = Ok b) -> exists r, map_result f l = Ok r.
Proof.
  induction l as [|a l IH]; intros H; [exists []; reflexivity|]. destruct (H a) as [b E]; [left; reflexivity|]. destruct IH as [r R]; [intros x Hx; apply H; right; exact Hx|].
  exists (b :: r). cbn [map_result]. rewrite E, R. reflexivity.
Qed.
(** materials of consisting items *)
Lemma consists_mat sh m s i : consists sh m s i -> Forall (fun g => gm_mat g = m) (members_of i).
Proof.
  intros [H|(_ & g & -> & _ & M & _)]; [|constructor; [exact M|constructor]]. induction H as [|p g ps gs (_ & M & _) _ IH]; constructor; assumption.
Qed.
Lemma finish_mat sh g s i : offset_finish sh g s = Ok i -> Forall (fun h => gm_mat h = gm_mat g) (members_of i).
Proof.
  destruct s as [p|ps|l| |]; cbn [offset_finish]; intros H; try discriminate H; injection H as <-.
  - constructor; [|constructor]. unfold keep_control. destruct (gm_assigned g) as [c|]; [destruct (sh_contains sh p c)|]; apply new_geometry_poly.
  - pose proof (compound_of_shows sh ps (gm_mat g)) as F. induction F as [|p h ps' hs (_ & M & _) _ IH]; constructor; assumption.
Qed.
Lemma members_concat_in i l : In i l -> forall g, In g (members_of i) -> In g (concat (map members_of l)).
Proof. intros H g Hg. apply in_concat. exists (members_of i). split; [apply in_map; exact H|exact Hg]. Qed.
Lemma network_many sh lop : (2 <= length lop)%nat -> map fst (build_geometry_network sh lop) = seq 0 (length lop).
Proof. intros H. unfold build_geometry_network. destruct (Nat.ltb (length lop) 2) eqn:E; [apply Nat.ltb_lt in E; lia|]. rewrite map_map. cbn [fst]. apply map_id. Qed.
Lemma network_few sh lop : (length lop < 2)%nat -> build_geometry_network sh lop = [].
Proof. intros H. unfold build_geometry_network. destruct (Nat.ltb (length lop) 2) eqn:E; [reflexivity|apply Nat.ltb_ge in E; lia]. Qed.

Lemma usable_ok s : usable s -> exists r, filter_non_polygons s = Ok r.
Proof.
  destruct s as [p|ps|l| |]; cbn [usable filter_non_polygons]; intros H; try (eexists; reflexivity); [|contradiction].
  assert (O : forall acc, (forall q, In q acc -> exists p, q = PtPolygon p) -> exists ps, only_polygons acc = Ok ps).
  { induction acc as [|q acc IH]; intros A; [exists []; reflexivity|]. destruct (A q) as [p ->]; [left; reflexivity|]. destruct IH as [ps E]; [intros x Hx; apply A; right; exact Hx|].
    exists (p :: ps). cbn [only_polygons]. rewrite E. reflexivity. }
  destruct H as [H|(a & ps & b & -> & F)].
  - assert (A : forall q, In q (polygon_parts l) -> exists p, q = PtPolygon p).
    { intros q Hq. apply filter_In in Hq. destruct Hq as [Hq Q]. destruct q as [p|ps|]; [exists p; reflexivity|exfalso; exact (H ps Hq)|discriminate Q]. }
    destruct (polygon_parts l) as [|q1 [|q2 qs]]; [eexists; reflexivity| |].
    + destruct (A q1) as [p ->]; [left; reflexivity|]. eexists; reflexivity.
    + destruct (O (q1 :: q2 :: qs) A) as [ps E]. exists (Many ps). destruct (A q1) as [p ->]; [left; reflexivity|]. rewrite E. reflexivity.
  - apply Forall_app in F. destruct F as [Fa Fb]. assert (N : forall l, Forall (eq PtOther) l -> polygon_parts l = []) by (intros l X; induction X as [|q l <- _ IH]; [reflexivity|exact IH]).
    assert (E : polygon_parts (a ++ PtMulti ps :: b) = [PtMulti ps]). { unfold polygon_parts in *. rewrite filter_app. cbn [filter]. rewrite (N a Fa), (N b Fb). reflexivity. }
    rewrite E. eexists; reflexivity.
Qed.

(** * The line of split_section *)
Lemma split_line g p v : (1 / 10 ^ 12 < Rabs (fst v) \/ snd v <> 0) ->
  (exists a b, In a (ext (gm_poly g)) /\ In b (ext (gm_poly g)) /\ fst a < fst b) -> (exists a b, In a (ext (gm_poly g)) /\ In b (ext (gm_poly g)) /\ snd a < snd b) ->
  exists k1 k2, create_line_segment p v (extents [gm_poly g]) = ((fst p + k1 * fst v, snd p + k1 * snd v), (fst p + k2 * fst v, snd p + k2 * snd v)) /\ k1 <> k2 /\
  forall b, In b (ext (gm_poly g)) -> if Rlt_dec (1 / 10 ^ 12) (Rabs (fst v)) then fst p + k1 * fst v <= fst b <= fst p + k2 * fst v else snd p + k1 * snd v <= snd b <= snd p + k2 * snd v.
Proof.
  intros Hv (xa & xb & Ia & Ib & Hx) (ya & yb & Ja & Jb & Hy). assert (N : exterior_points [gm_poly g] <> []) by (rewrite exterior_single; intros Z; rewrite Z in Ia; destruct Ia).
  pose proof (extents_extreme _ AtLeft N) as L. pose proof (extents_extreme _ AtRight N) as R_. pose proof (extents_extreme _ AtBottom N) as B. pose proof (extents_extreme _ AtTop N) as T.
  rewrite exterior_single in *.
  destruct (extents [gm_poly g]) as [[[x1 x2] y1] y2] eqn:E. cbn [side_index nth4] in *. unfold extreme in *. destruct L as [_ L], R_ as [_ R_], B as [_ B], T as [_ T].
  assert (X : forall b, In b (ext (gm_poly g)) -> x1 <= fst b <= x2) by (intros b Hb; split; [apply L|apply R_]; apply in_map, Hb).
  assert (Y : forall b, In b (ext (gm_poly g)) -> y1 <= snd b <= y2) by (intros b Hb; split; [apply B|apply T]; apply in_map, Hb).
  assert (Lx : x1 < x2) by (pose proof (X xa Ia); pose proof (X xb Ib); lra). assert (Ly : y1 < y2) by (pose proof (Y ya Ja); pose proof (Y yb Jb); lra).
  pose proof (box_extremes x1 x2 y1 y2 Lx Ly) as M. cbv zeta in M. destruct p as [px py]. destruct v as [vx vy]. cbn [fst snd] in *. unfold create_line_segment.
  set (b2 := Rmax (Rmax (Rmax x1 x2) y1) y2) in *. set (b1 := Rmin (Rmin (Rmin x1 x2) y1) y2) in *. destruct M as (M1 & M2 & M3 & M4 & M5). pose proof tiny_pos as TP.
  destruct (Rlt_dec (1 / 10 ^ 12) (Rabs vx)) as [V|V].
  - assert (Zx : vx <> 0) by (intros ->; rewrite Rabs_R0 in V; lra). exists ((b1 - px) / vx), ((b2 - px) / vx). split; [f_equal; f_equal; field; exact Zx|].
    split; [intros Q; apply (f_equal (fun k => k * vx)) in Q; unfold Rdiv in Q; rewrite !Rmult_assoc, !Rinv_l, !Rmult_1_r in Q by exact Zx; lra|].
    intros b Hb. pose proof (X b Hb). replace (px + (b1 - px) / vx * vx) with b1 by (field; exact Zx). replace (px + (b2 - px) / vx * vx) with b2 by (field; exact Zx). lra.
  - assert (Zy : vy <> 0) by (destruct Hv; [contradiction|assumption]). exists ((b1 - py) / vy), ((b2 - py) / vy). split; [f_equal; f_equal; field; exact Zy|].
    split; [intros Q; apply (f_equal (fun k => k * vy)) in Q; unfold Rdiv in Q; rewrite !Rmult_assoc, !Rinv_l, !Rmult_1_r in Q by exact Zy; lra|].
    intros b Hb. pose proof (Y b Hb). replace (py + (b1 - py) / vy * vy) with b1 by (field; exact Zy). replace (py + (b2 - py) / vy * vy) with b2 by (field; exact Zy). lra.
Qed.
Lemma split_side p v k1 k2 q : k1 <> k2 -> (fst v <> 0 \/ snd v <> 0) ->
  let d := if Req_EM_T (fst v) 0 then fst q - fst p else (snd q - snd p) - snd v / fst v * (fst q - fst p) in
  side_of ((fst p + k1 * fst v, snd p + k1 * snd v), (fst p + k2 * fst v, snd p + k2 * snd v)) q = if Rlt_dec d 0 then Bottom else if Rlt_dec 0 d then Top else On.
Proof.
  destruct p as [px py], v as [vx vy], q as [qx qy]. cbn [fst snd]. intros K Hv. unfold side_of, line_mx_plus_b. cbn [fst snd].
  replace (px + k2 * vx - (px + k1 * vx)) with ((k2 - k1) * vx) by ring. replace (py + k2 * vy - (py + k1 * vy)) with ((k2 - k1) * vy) by ring.
  destruct (Req_EM_T vx 0) as [->|Zx].
  - destruct (Req_EM_T ((k2 - k1) * 0) 0) as [_|C]; [|exfalso; apply C; ring]. rewrite Rmult_0_r, Rplus_0_r.
    destruct (Rlt_dec qx px), (Rlt_dec (qx - px) 0); try lra; try reflexivity. destruct (Rlt_dec px qx), (Rlt_dec 0 (qx - px)); try lra; reflexivity.
  - destruct (Req_EM_T ((k2 - k1) * vx) 0) as [C|_]; [exfalso; apply Rmult_integral in C; destruct C; lra|].
    replace ((k2 - k1) * vy / ((k2 - k1) * vx) * qx + (py + k1 * vy - (k2 - k1) * vy / ((k2 - k1) * vx) * (px + k1 * vx))) with (py + vy / vx * (qx - px)) by (field; split; [exact Zx|lra]).
    destruct (Rlt_dec qy _), (Rlt_dec (qy - _ - _) 0); try lra; try reflexivity. destruct (Rlt_dec _ qy), (Rlt_dec 0 _); try lra; reflexivity.
Qed.
