(** Theorems: geometric and plastic properties of the NASTRAN sections made of rectangular plates, from the library function to the getters: C88, C89. *)
From Coquelicot Require Import Coquelicot.
From Coq Require Import String Reals List Permutation Lra Lia.
From Verif Require Import Base S_Integral M_Fea S_Fem M_Section S_Section M_Bisect M_Plastic S_Plastic M_Init M_Props M_State S_State M_Geometry S_Geometry P_Geom P_Geometry P_Geometry3 P_Section P_Totals P_Geometry8 M_Library S_Library P_Library P_Library2 P_Library8 P_Geometry6 M_SetOps S_Concrete P_Concrete6 M_Nastran P_Nastran2.
From Verif Require Import S_Outline P_Outline P_Outline2 P_Outline3 S_PlasticForms P_PlasticForms P_PlasticForms2 P_PlasticForms3 P_PlasticForms4 S_Rects P_Rects T_Outline T_PlasticForms T_PlasticForms2 T_Rects T_Rects2 S_Composite T_Composite S_Clt S_Plates T_Rects3 P_Plastic P_Nastran3.
Import ListNotations.
Local Open Scope list_scope.
Local Open Scope R_scope.

(** The boundary sums of plates *)
Lemma plates_sums m (b : point -> point -> R) (v : plate_at -> R) ps : (forall x1 y1 x2 y2, b (x1, y1) (x2, y1) + (b (x2, y1) (x2, y2) + (b (x2, y2) (x1, y2) + b (x1, y2) (x1, y1))) = v (rect x1 y1 x2 y2)) ->
  boundary_sum (fun _ => 1) b (parts_edges (map (pair m) ps)) = sumf v ps.
Proof.
  intros H. unfold boundary_sum. induction ps as [|r ps IH]; [reflexivity|]. destruct r as [x1 y1 x2 y2]. rewrite sumf_cons, <- IH, <- H.
  change (parts_edges (map (pair m) (rect x1 y1 x2 y2 :: ps))) with ([(m, (x1, y1), (x2, y1)); (m, (x2, y1), (x2, y2)); (m, (x2, y2), (x1, y2)); (m, (x1, y2), (x1, y1))] ++ parts_edges (map (pair m) ps)). rewrite sumf_app.
  unfold sumf at 1, Rsum. cbn [map fold_right]. ring.
Qed.
Lemma plates_moments m p ps : same_boundary (poly_edges m p) (parts_edges (map (pair m) ps)) -> origin_moments p ps.
Proof.
  intros B. destruct (region_sums (fun _ => 1) m p) as (E1 & E2 & E3 & E4 & E5 & E6). rewrite Rmult_1_l in E1, E2, E3, E4, E5, E6.
  unfold origin_moments. rewrite <- E1, <- E2, <- E3, <- E4, <- E5, <- E6.
  rewrite !(boundary_sum_same _ _ _ _ edge_fun_area B), !(boundary_sum_same _ _ _ _ edge_fun_qx B), !(boundary_sum_same _ _ _ _ edge_fun_qy B), !(boundary_sum_same _ _ _ _ edge_fun_ixx B), !(boundary_sum_same _ _ _ _ edge_fun_iyy B), !(boundary_sum_same _ _ _ _ edge_fun_ixy B).
  unfold plates_area, plates_ixx, plates_iyy, plates_ixy. repeat split; apply plates_sums; intros; unfold b_area, b_qx, b_qy, b_ixx, b_iyy, b_ixy, S_Section.cross, r_area, r_cx, r_cy, r_w, r_h; cbn [fst snd r_x1 r_x2 r_y1 r_y2]; field.
Qed.
Lemma plates_positive ps : ps <> [] -> Forall (fun r => 0 < r_w r /\ 0 < r_h r) ps -> 0 < plates_area ps.
Proof.
  intros N H. unfold plates_area. induction H as [|r ps [W Hh] _ IH]; [contradiction|]. rewrite sumf_cons. assert (0 < r_area r) by (unfold r_area; apply Rmult_lt_0_compat; assumption).
  destruct ps as [|r' ps]; [change (sumf r_area []) with 0; lra|]. specialize (IH ltac:(discriminate)). lra.
Qed.
(** A section given by one outline is the plates that make up the outline. *)
Lemma same_material_sum m f ps : parts_sum m_E f (map (pair m) ps) = m_E m * sumf f ps.
Proof. unfold parts_sum. rewrite sumf_map. cbn [fst snd]. apply (sumf_scal (m_E m) f). Qed.
Lemma boundary_plates mat gm ps : same_boundary (poly_edges (mo_val mat) (gm_poly gm)) (parts_edges (map (pair (mo_val mat)) ps)) -> Forall (fun r => 0 < r_w r /\ 0 < r_h r) ps -> ps <> [] -> as_plates mat gm ps.
Proof.
  intros B P N. pose proof (plates_positive ps N P) as A. split; [|split].
  - intros -> l query g s st h An [V F]. apply (C88_plates l query g s st h ps An V); [eapply sb_trans; [exact F|exact B]|exact P|lra].
  - intros E l query g s st h An [V F]. apply (C88_rectangles l query g s st h _ An V); [eapply sb_trans; [exact F|exact B]|apply Forall_map; exact P|].
    rewrite same_material_sum. apply Rmult_integral_contrapositive_currified; [exact E|change (plates_area ps <> 0); lra].
  - intros Fy l query g s st h1 h2 shapes tol dx dy D F X Y. apply (C89_plates l query g s st h1 h2 shapes tol _ (gm_poly gm) ps dx dy D F B P Fy X Y).
Qed.
Lemma compound_boundary_plates mat c ps : same_boundary (compound_edges c) (parts_edges (map (pair (mo_val mat)) ps)) -> Forall (fun r => 0 < r_w r /\ 0 < r_h r) ps -> ps <> [] -> compound_as_plates mat c ps.
Proof.
  intros B P N. pose proof (plates_positive ps N P) as A. split; [|split].
  - intros -> l query g s st h An [V F]. apply (C88_plates l query g s st h ps An V); [eapply sb_trans; [exact F|exact B]|exact P|lra].
  - intros E l query g s st h An [V F]. apply (C88_rectangles l query g s st h _ An V); [eapply sb_trans; [exact F|exact B]|apply Forall_map; exact P|].
    rewrite same_material_sum. apply Rmult_integral_contrapositive_currified; [exact E|change (plates_area ps <> 0); lra].
  - intros Fy l query g s st h1 h2 shapes tol v dx dy D F X Y.
    replace (m_fy (mo_val mat) * plates_area ps) with (sumf part_force (map (pair (mo_val mat)) ps)) by (unfold plates_area; rewrite sumf_map; unfold part_force; cbn [fst snd]; apply (sumf_scal (m_fy (mo_val mat)) r_area)).
    apply (C89_rectangles l query g s st h1 h2 shapes tol v); [exact D|eapply sb_trans; [exact F|apply sb_moved; exact B]| |exact X|exact Y].
    apply Forall_map. eapply Forall_impl; [|exact P]. intros r [W H]. split; [exact W|split; [exact H|exact Fy]].
Qed.

Lemma outline_plates sh l ring ps mat gm : polygon_geometry sh l mat = Ok gm -> l = ring -> open_loop ring -> Forall (pt_on_grid 12) ring -> (exists v, In v ring /\ v <> (0, 0)) ->
  Forall (fun r => 0 < r_w r /\ 0 < r_h r) ps -> ps <> [] -> (forall m, same_boundary (parts_edges (map (pair m) ps)) (S_Section.ring_edges m ring)) -> as_plates mat gm ps.
Proof.
  intros E -> O G V P N S. assert (A : 0 < plates_area ps) by (apply plates_positive; assumption). set (m := mo_val mat).
  assert (Ar : 0 < ring_area ring).
  { destruct (Rlt_dec 0 (ring_area ring)) as [L|L]; [exact L|exfalso].
    assert (Q : boundary_sum (fun _ => 1) b_area (S_Section.ring_edges m ring) = plates_area ps).
    { rewrite <- (boundary_sum_same _ _ _ _ edge_fun_area (S m)). apply plates_sums. intros; unfold b_area, S_Section.cross, r_area, r_w, r_h; cbn [fst snd r_x1 r_x2 r_y1 r_y2]; field. }
    rewrite ring_sum, Rmult_1_l in Q. rewrite (around_scale (1 / 2) b_area M_Geometry.cross) in Q by (intros; unfold b_area, S_Section.cross, M_Geometry.cross; field). unfold ring_area in L. lra. }
  assert (B : same_boundary (poly_edges m (gm_poly gm)) (parts_edges (map (pair m) ps))) by (apply (ring_out sh ring m mat gm _ E O G V Ar (S m))).
  apply boundary_plates; assumption.
Qed.

Lemma path_app m c y b : forall a, path_edges m c (a ++ y :: b) = path_edges m y a ++ path_edges m c (y :: b).
Proof. induction a as [|x a IH]; [reflexivity|]. destruct a as [|x' a]; [reflexivity|]. cbn [app path_edges] in *. rewrite IH. reflexivity. Qed.
Lemma turned_edges m l l' : S_Library.same_ring l l' -> Permutation (S_Section.ring_edges m l') (S_Section.ring_edges m l).
Proof.
  intros (a & b & -> & ->). destruct a as [|x a]; [rewrite app_nil_r; apply Permutation_refl|]. destruct b as [|y b]; [rewrite app_nil_r; apply Permutation_refl|].
  change (Permutation (path_edges m y ((y :: b) ++ x :: a)) (path_edges m x ((x :: a) ++ y :: b))). rewrite !path_app. apply Permutation_app_comm.
Qed.
Lemma turned_rev l l' : S_Library.same_ring l l' -> S_Library.same_ring (rev l) (rev l').
Proof. intros (a & b & -> & ->). exists (rev b), (rev a). rewrite !rev_app_distr. split; reflexivity. Qed.
Lemma cycle_edges m l l' : same_cycle l l' -> 0 < ring_area l ->
  Permutation (S_Section.ring_edges m (left_ring l')) (S_Section.ring_edges m l) /\ Permutation (S_Section.ring_edges m (rev (left_ring l'))) (S_Section.ring_edges m (rev l)).
Proof.
  intros [S|S] P; unfold left_ring.
  - assert (E : ring_area l' = ring_area l) by (unfold ring_area; rewrite (same_ring_around _ _ _ S); reflexivity). destruct (Rlt_dec _ _); [lra|]. split; apply turned_edges; [exact S|apply turned_rev, S].
  - assert (E : ring_area l' = - ring_area l). { unfold ring_area. rewrite <- (same_ring_around _ _ _ S), (around_neg M_Geometry.cross) by (intros; unfold M_Geometry.cross; ring). lra. }
    destruct (Rlt_dec _ _); [|lra]. rewrite rev_involutive. split; apply turned_edges; [|exact S]. pose proof (turned_rev _ _ S) as S'. rewrite rev_involutive in S'. exact S'.
Qed.
(** A section with one hole, for every shapely whose difference is the outer outline with the inner one as its hole. *)
Lemma hollow_plates sh l1 l2 lo li ps mat gm o i : hollow_geometry sh l1 l2 mat = Ok gm -> l1 = lo -> l2 = li -> open_loop lo -> open_loop li -> Forall (pt_on_grid 12) lo -> Forall (pt_on_grid 12) li ->
  (exists v, In v lo /\ v <> (0, 0)) -> 0 < ring_area lo -> 0 < ring_area li -> Forall (fun r => 0 < r_w r /\ 0 < r_h r) ps -> ps <> [] ->
  same_cycle lo o -> same_cycle li i -> sh_difference sh (mkPoly lo []) [mkPoly li []] = Some (mkPoly o [i]) ->
  (forall m, same_boundary (parts_edges (map (pair m) ps)) (S_Section.ring_edges m lo ++ S_Section.ring_edges m (rev li))) -> as_plates mat gm ps.
Proof.
  intros E -> -> Oo Oi Go Gi (v & Iv & Nv) Ao Ai P N So Si D S. set (m := mo_val mat).
  unfold hollow_geometry in E. rewrite (open_loop_ring lo Oo), (open_loop_ring li Oi) in E. cbn [bind] in E. rewrite D in E. injection E as <-.
  assert (G : forall r l, same_cycle l r -> Forall (pt_on_grid 12) l -> Forall (pt_on_grid 12) r). { intros r l C F. rewrite Forall_forall in *. intros w Hw. apply F, (cycle_in l r w C), Hw. }
  assert (Q : gm_poly (new_geometry sh (mkPoly o [i]) mat None 12) = mkPoly o [i]).
  { apply new_grid_poly.
    - unfold poly_on_grid, rings. cbn [ext ints]. constructor; [apply (G _ _ So Go)|]. constructor; [|constructor]. apply (G _ _ Si Gi).
    - exists v. split; [cbn [ext]; apply (cycle_in _ o _ So), Iv|exact Nv]. }
  apply boundary_plates; [|exact P|exact N]. rewrite Q. assert (B : same_boundary (poly_edges m (mkPoly o [i])) (parts_edges (map (pair m) ps))).
  { destruct (cycle_edges m lo o So Ao) as [P1 _]. destruct (cycle_edges m li i Si Ai) as [_ P2]. unfold poly_edges. cbn [ext ints map concat]. rewrite app_nil_r.
    eapply sb_trans; [apply sb_perm, Permutation_app; [exact P1|exact P2]|]. apply sb_sym, S. }
  exact B.
Qed.

(** The edges of a ring in the vocabulary of the concrete sections. *)
Definition fwd (m : material) (e : pt * pt) : edge := (m, fst e, snd e).
Definition bwd (m : material) (e : pt * pt) : edge := (m, snd e, fst e).
Lemma path_of_edges m c : forall l, path_edges m c l = map (fwd m) (combine l (tl l ++ [c])).
Proof. induction l as [|x l IH]; [reflexivity|]. destruct l as [|y l]; [reflexivity|]. cbn [path_edges] in *. rewrite IH. reflexivity. Qed.
Lemma ring_of_edges m l : S_Section.ring_edges m l = map (fwd m) (S_Concrete.edges l).
Proof. destruct l as [|x l]; [reflexivity|]. unfold S_Section.ring_edges. rewrite path_of_edges. reflexivity. Qed.
Lemma rev_path m c : forall l a, Permutation (path_edges m c (rev (a :: l))) ((m, a, c) :: map (bwd m) (combine (a :: l) l)).
Proof.
  intros l. revert c. induction l as [|b l IH]; intros c a; [apply Permutation_refl|].
  change (rev (a :: b :: l)) with (rev (b :: l) ++ [a]). rewrite path_app. eapply Permutation_trans; [apply Permutation_app_tail, IH|]. cbn [path_edges]. apply Permutation_sym. apply (Permutation_cons_append ((m, b, a) :: map (bwd m) (combine (b :: l) l)) (m, a, c)).
Qed.
Lemma combine_last {A B} : forall (l : list A) (l' : list B) x y, length l = length l' -> combine (l ++ [x]) (l' ++ [y]) = combine l l' ++ [(x, y)].
Proof. induction l as [|a l IH]; intros [|b l'] x y H; try discriminate H; [reflexivity|]. cbn [app combine]. rewrite IH by (injection H as H; exact H). reflexivity. Qed.
Lemma combine_short {A B} : forall (l : list A) (l' : list B) x, length l = length l' -> combine (l ++ [x]) l' = combine l l'.
Proof. induction l as [|a l IH]; intros [|b l'] x H; try discriminate H; [reflexivity|]. cbn [app combine]. rewrite IH by (injection H as H; exact H). reflexivity. Qed.
Lemma rev_of_edges m l : Permutation (S_Section.ring_edges m (rev l)) (map (bwd m) (S_Concrete.edges l)).
Proof.
  destruct l as [|a l]; [apply Permutation_refl|]. destruct (@exists_last _ (a :: l) ltac:(discriminate)) as (l0 & z & E).
  assert (H : S_Section.ring_edges m (rev (a :: l)) = path_edges m z (rev (a :: l))) by (rewrite E, rev_app_distr; reflexivity). rewrite H.
  eapply Permutation_trans; [apply rev_path|]. unfold S_Concrete.edges. cbn [tl firstn]. rewrite E.
  assert (L : length l0 = length l) by (pose proof (f_equal (fun u => length u) E) as K; cbv beta in K; rewrite app_length in K; cbn [length] in K; rewrite Nat.add_1_r in K; injection K as K; symmetry; exact K).
  rewrite combine_last, combine_short, map_app by exact L. apply Permutation_cons_append.
Qed.
Lemma edges_cycle m l l' : S_Concrete.same_ring l l' -> 0 < ring_area l ->
  Permutation (S_Section.ring_edges m (left_ring l')) (S_Section.ring_edges m l) /\ Permutation (S_Section.ring_edges m (rev (left_ring l'))) (S_Section.ring_edges m (rev l)).
Proof.
  assert (Su : forall (f : pt * pt -> R) u v, Permutation u v -> Rsum (map f u) = Rsum (map f v)) by (intros f u v P; apply (sumf_perm f u v P)).
  intros [S|S] P; unfold left_ring.
  - assert (E : ring_area l' = ring_area l) by (unfold ring_area; rewrite !around_edges, (Su _ _ _ S); reflexivity). destruct (Rlt_dec _ _); [lra|]. split.
    + rewrite !ring_of_edges. apply Permutation_map, Permutation_sym, S.
    + eapply Permutation_trans; [apply rev_of_edges|]. eapply Permutation_trans; [|apply Permutation_sym, rev_of_edges]. apply Permutation_map, Permutation_sym, S.
  - assert (E : ring_area l' = - ring_area l).
    { unfold ring_area. rewrite !around_edges, (Su _ _ _ S), map_map. generalize (S_Concrete.edges l'). intros es.
      enough (Q : Rsum (map (fun e => M_Geometry.cross (fst (back e)) (snd (back e))) es) = - Rsum (map (fun e => M_Geometry.cross (fst e) (snd e)) es)) by (rewrite Q; lra).
      induction es as [|e es IH]; [unfold Rsum; cbn [map fold_right]; ring|]. unfold Rsum in *. cbn [map fold_right]. rewrite IH. unfold back, M_Geometry.cross. cbn [fst snd]. ring. }
    destruct (Rlt_dec _ _); [|lra]. rewrite rev_involutive. split.
    + eapply Permutation_trans; [apply rev_of_edges|]. rewrite ring_of_edges. replace (map (bwd m) (S_Concrete.edges l')) with (map (fwd m) (map back (S_Concrete.edges l'))) by (rewrite map_map; reflexivity). apply Permutation_map, Permutation_sym, S.
    + eapply Permutation_trans; [|apply Permutation_sym, rev_of_edges]. rewrite ring_of_edges. eapply Permutation_trans; [|apply Permutation_map, Permutation_sym, S]. rewrite map_map. apply Permutation_refl.
Qed.
(** A polygon with any number of holes. *)
Definition holed_edges (m : material) (o : list pt) (hs : list (list pt)) : list edge := S_Section.ring_edges m o ++ concat (map (fun h => S_Section.ring_edges m (rev h)) hs).
Lemma holes_edges m : forall hs js, Forall2 S_Concrete.same_ring hs js -> Forall (fun h => 0 < ring_area h) hs ->
  Permutation (concat (map (fun h => S_Section.ring_edges m (rev (left_ring h))) js)) (concat (map (fun h => S_Section.ring_edges m (rev h)) hs)).
Proof. induction 1 as [|h j hs js S F IH]; intros A; [apply Permutation_refl|]. inversion A; subst. cbn [map concat]. apply Permutation_app; [apply (edges_cycle m h j S); assumption|apply IH; assumption]. Qed.
Lemma holes_plates sh p o hs ps mat : S_Concrete.same_ring o (ext p) -> same_rings hs (ints p) -> Forall (pt_on_grid 12) o -> Forall (Forall (pt_on_grid 12)) hs -> (exists v, In v o /\ v <> (0, 0)) ->
  0 < ring_area o -> Forall (fun h => 0 < ring_area h) hs -> Forall (fun r => 0 < r_w r /\ 0 < r_h r) ps -> ps <> [] ->
  (forall m, same_boundary (parts_edges (map (pair m) ps)) (holed_edges m o hs)) -> as_plates mat (new_geometry sh p mat None 12) ps.
Proof.
  intros So (hs' & Pe & Si) Go Gi (v & Iv & Nv) Ao Ai P N S. set (m := mo_val mat).
  assert (G : forall r l, S_Concrete.same_ring l r -> Forall (pt_on_grid 12) l -> Forall (pt_on_grid 12) r). { intros r l C F. rewrite Forall_forall in *. intros w Hw. apply F. eapply Permutation_in; [apply Permutation_sym, same_vertices, C|exact Hw]. }
  assert (Gi' : Forall (Forall (pt_on_grid 12)) hs') by (eapply Permutation_Forall; [apply Permutation_sym, Pe|exact Gi]).
  assert (Ai' : Forall (fun h => 0 < ring_area h) hs') by (eapply Permutation_Forall; [apply Permutation_sym, Pe|exact Ai]).
  assert (Q : gm_poly (new_geometry sh p mat None 12) = p).
  { apply new_grid_poly.
    - unfold poly_on_grid, rings. constructor; [apply (G _ _ So Go)|]. clear - Si Gi' G. induction Si as [|h j hs js C _ IH]; [constructor|]. inversion Gi'; subst. constructor; [apply (G _ _ C); assumption|apply IH; assumption].
    - exists v. split; [eapply Permutation_in; [apply same_vertices, So|exact Iv]|exact Nv]. }
  apply boundary_plates; [|exact P|exact N]. rewrite Q. assert (B : same_boundary (poly_edges m p) (parts_edges (map (pair m) ps))).
  { apply sb_sym. eapply sb_trans; [apply S|]. apply sb_perm, Permutation_sym. unfold poly_edges, holed_edges. apply Permutation_app; [apply (edges_cycle m o (ext p) So Ao)|].
    eapply Permutation_trans; [apply (holes_edges m _ _ Si Ai')|]. rewrite <- !flat_map_concat_map. apply Permutation_flat_map, Pe. }
  exact B.
Qed.

Lemma nas_plain {A} (r : result A) pts' gm pts : with_points r pts' = Ok (gm, pts) -> r = Ok gm.
Proof. unfold with_points, bind. destruct r; [|discriminate]. intros E. injection E as -> _. reflexivity. Qed.
Lemma nas_ok {A} ok (r : result A) pts' gm pts : checked ok (with_points r pts') = Ok (gm, pts) -> r = Ok gm.
Proof. unfold checked. destruct ok; [apply nas_plain|discriminate]. Qed.

Ltac same_points := cbv zeta; repeat (apply f_equal2; [apply f_equal2; lra|]); reflexivity.
Ltac grid_of G := let go := fresh in repeat match type of G with Forall _ (_ :: _) => inversion G as [|? ? ? go]; clear G; rename go into G; subst end; grids.
Ltac plates_of := repeat (constructor; [split; unfold r_w, r_h; cbn [r_x1 r_x2 r_y1 r_y2]; lra|]); constructor.


Lemma nas_bar_outline m d1 d2 : 0 < d1 -> 0 < d2 -> same_boundary (parts_edges (map (pair m) [rect (- d1 / 2) (- d2 / 2) (d1 / 2) (d2 / 2)])) (S_Section.ring_edges m [(- d1 / 2, - d2 / 2); (d1 / 2, - d2 / 2); (d1 / 2, d2 / 2); (- d1 / 2, d2 / 2)]).
Proof.
  intros H0 H1. set (v0 := (- d1 / 2, - d2 / 2)). set (v1 := (d1 / 2, - d2 / 2)). set (v2 := (d1 / 2, d2 / 2)). set (v3 := (- d1 / 2, d2 / 2)).
  change (same_boundary [(m, v0, v1); (m, v1, v2); (m, v2, v3); (m, v3, v0)] [(m, v0, v1); (m, v1, v2); (m, v2, v3); (m, v3, v0)]).
   apply sb_sym.
   apply sb_perm. perms.
Qed.
Theorem C105_nastran_bar sh d1 d2 mat gm pts : nastran_bar sh d1 d2 mat = Ok (gm, pts) -> 0 < d1 -> 0 < d2 -> Forall (on_grid 12) [- d1 / 2; - d2 / 2; d1 / 2; d2 / 2] ->
  as_plates mat gm [rect (- d1 / 2) (- d2 / 2) (d1 / 2) (d2 / 2)].
Proof.
  intros E H0 H1 G. unfold nastran_bar in E. apply nas_plain in E.
  eapply (outline_plates sh _ [(- d1 / 2, - d2 / 2); (d1 / 2, - d2 / 2); (d1 / 2, d2 / 2); (- d1 / 2, d2 / 2)]); [exact E|unfold bar_points; same_points|opened|grid_of G| |plates_of|discriminate|intros m; apply nas_bar_outline; assumption].
  exists (- d1 / 2, - d2 / 2). split; [cbn [In]; tauto|]. intros Q. injection Q. lra.
Qed.

Lemma nas_chan_outline m d1 d2 d3 d4 : 0 < d3 -> 0 < d4 -> 2 * d4 < d2 -> d3 < d1 -> same_boundary (parts_edges (map (pair m) [rect 0 0 d3 d2; rect d3 0 d1 d4; rect d3 (d2 - d4) d1 d2])) (S_Section.ring_edges m [(0, 0); (d1, 0); (d1, d4); (d3, d4); (d3, d2 - d4); (d1, d2 - d4); (d1, d2); (0, d2)]).
Proof.
  intros H0 H1 H2 H3. set (v0 := (0, 0)). set (v1 := (d1, 0)). set (v2 := (d1, d4)). set (v3 := (d3, d4)). set (v4 := (d3, d2 - d4)). set (v5 := (d1, d2 - d4)). set (v6 := (d1, d2)). set (v7 := (0, d2)). set (v8 := (d3, 0)). set (v9 := (d3, d2)).
  change (same_boundary [(m, v0, v8); (m, v8, v9); (m, v9, v7); (m, v7, v0); (m, v8, v1); (m, v1, v2); (m, v2, v3); (m, v3, v8); (m, v4, v5); (m, v5, v6); (m, v6, v9); (m, v9, v4)] [(m, v0, v1); (m, v1, v2); (m, v2, v3); (m, v3, v4); (m, v4, v5); (m, v5, v6); (m, v6, v7); (m, v7, v0)]).
  splits m v8 v9 v3 ((d4 - 0) / (d2 - 0)). splits m v3 v9 v4 (((d2 - d4) - d4) / (d2 - d4)). cancels m v8 v3. cancels m v4 v9. apply sb_sym.
  splits m v0 v1 v8 ((d3 - 0) / (d1 - 0)). splits m v6 v7 v9 ((d3 - d1) / (0 - d1)). apply sb_perm. perms.
Qed.
Theorem C105_nastran_chan sh d1 d2 d3 d4 mat gm pts : nastran_chan sh d1 d2 d3 d4 mat = Ok (gm, pts) -> 0 < d3 -> 0 < d4 -> 2 * d4 < d2 -> d3 < d1 -> Forall (on_grid 12) [d1; d4; d3; d2 - d4; d2] ->
  as_plates mat gm [rect 0 0 d3 d2; rect d3 0 d1 d4; rect d3 (d2 - d4) d1 d2].
Proof.
  intros E H0 H1 H2 H3 G. unfold nastran_chan in E. apply nas_ok in E.
  eapply (outline_plates sh _ [(0, 0); (d1, 0); (d1, d4); (d3, d4); (d3, d2 - d4); (d1, d2 - d4); (d1, d2); (0, d2)]); [exact E|unfold chan_points; same_points|opened|grid_of G| |plates_of|discriminate|intros m; apply nas_chan_outline; assumption].
  exists (d1, 0). split; [cbn [In]; tauto|]. intros Q. injection Q. lra.
Qed.

Lemma nas_chan1_outline m d1 d2 d3 d4 : 0 < d1 -> 0 < d2 -> 0 < d3 -> d3 < d4 -> same_boundary (parts_edges (map (pair m) [rect 0 0 d2 d4; rect d2 0 (d1 + d2) ((d4 - d3) / 2); rect d2 ((d4 + d3) / 2) (d1 + d2) d4])) (S_Section.ring_edges m [(0, 0); (d1 + d2, 0); (d1 + d2, (d4 - d3) / 2); (d2, (d4 - d3) / 2); (d2, (d4 + d3) / 2); (d1 + d2, (d4 + d3) / 2); (d1 + d2, d4); (0, d4)]).
Proof.
  intros H0 H1 H2 H3. set (v0 := (0, 0)). set (v1 := (d1 + d2, 0)). set (v2 := (d1 + d2, (d4 - d3) / 2)). set (v3 := (d2, (d4 - d3) / 2)). set (v4 := (d2, (d4 + d3) / 2)). set (v5 := (d1 + d2, (d4 + d3) / 2)). set (v6 := (d1 + d2, d4)). set (v7 := (0, d4)). set (v8 := (d2, 0)). set (v9 := (d2, d4)).
  change (same_boundary [(m, v0, v8); (m, v8, v9); (m, v9, v7); (m, v7, v0); (m, v8, v1); (m, v1, v2); (m, v2, v3); (m, v3, v8); (m, v4, v5); (m, v5, v6); (m, v6, v9); (m, v9, v4)] [(m, v0, v1); (m, v1, v2); (m, v2, v3); (m, v3, v4); (m, v4, v5); (m, v5, v6); (m, v6, v7); (m, v7, v0)]).
  splits m v8 v9 v3 ((((d4 - d3) / 2) - 0) / (d4 - 0)). splits m v3 v9 v4 ((((d4 + d3) / 2) - ((d4 - d3) / 2)) / (d4 - ((d4 - d3) / 2))). cancels m v8 v3. cancels m v4 v9. apply sb_sym.
  splits m v0 v1 v8 ((d2 - 0) / ((d1 + d2) - 0)). splits m v6 v7 v9 ((d2 - (d1 + d2)) / (0 - (d1 + d2))). apply sb_perm. perms.
Qed.
Theorem C105_nastran_chan1 sh d1 d2 d3 d4 mat gm pts : nastran_chan1 sh d1 d2 d3 d4 mat = Ok (gm, pts) -> 0 < d1 -> 0 < d2 -> 0 < d3 -> d3 < d4 -> Forall (on_grid 12) [d1 + d2; (d4 - d3) / 2; d2; (d4 + d3) / 2; d4] ->
  as_plates mat gm [rect 0 0 d2 d4; rect d2 0 (d1 + d2) ((d4 - d3) / 2); rect d2 ((d4 + d3) / 2) (d1 + d2) d4].
Proof.
  intros E H0 H1 H2 H3 G. unfold nastran_chan1 in E. apply nas_ok in E.
  eapply (outline_plates sh _ [(0, 0); (d1 + d2, 0); (d1 + d2, (d4 - d3) / 2); (d2, (d4 - d3) / 2); (d2, (d4 + d3) / 2); (d1 + d2, (d4 + d3) / 2); (d1 + d2, d4); (0, d4)]); [exact E|unfold chan1_points; same_points|opened|grid_of G| |plates_of|discriminate|intros m; apply nas_chan1_outline; assumption].
  exists (d1 + d2, 0). split; [cbn [In]; tauto|]. intros Q. injection Q. lra.
Qed.

Lemma nas_chan2_outline m d1 d2 d3 d4 : 0 < d1 -> 0 < d2 -> 2 * d1 < d4 -> d2 < d3 -> same_boundary (parts_edges (map (pair m) [rect 0 0 d4 d2; rect 0 d2 d1 d3; rect (d4 - d1) d2 d4 d3])) (S_Section.ring_edges m [(0, 0); (d4, 0); (d4, d3); (d4 - d1, d3); (d4 - d1, d2); (d1, d2); (d1, d3); (0, d3)]).
Proof.
  intros H0 H1 H2 H3. set (v0 := (0, 0)). set (v1 := (d4, 0)). set (v2 := (d4, d3)). set (v3 := (d4 - d1, d3)). set (v4 := (d4 - d1, d2)). set (v5 := (d1, d2)). set (v6 := (d1, d3)). set (v7 := (0, d3)). set (v8 := (d4, d2)). set (v9 := (0, d2)).
  change (same_boundary [(m, v0, v1); (m, v1, v8); (m, v8, v9); (m, v9, v0); (m, v9, v5); (m, v5, v6); (m, v6, v7); (m, v7, v9); (m, v4, v8); (m, v8, v2); (m, v2, v3); (m, v3, v4)] [(m, v0, v1); (m, v1, v2); (m, v2, v3); (m, v3, v4); (m, v4, v5); (m, v5, v6); (m, v6, v7); (m, v7, v0)]).
  splits m v8 v9 v4 (((d4 - d1) - d4) / (0 - d4)). splits m v4 v9 v5 ((d1 - (d4 - d1)) / (0 - (d4 - d1))). cancels m v8 v4. cancels m v5 v9. apply sb_sym.
  splits m v1 v2 v8 ((d2 - 0) / (d3 - 0)). splits m v7 v0 v9 ((d2 - d3) / (0 - d3)). apply sb_perm. perms.
Qed.
Theorem C105_nastran_chan2 sh d1 d2 d3 d4 mat gm pts : nastran_chan2 sh d1 d2 d3 d4 mat = Ok (gm, pts) -> 0 < d1 -> 0 < d2 -> 2 * d1 < d4 -> d2 < d3 -> Forall (on_grid 12) [d4; d3; d4 - d1; d2; d1] ->
  as_plates mat gm [rect 0 0 d4 d2; rect 0 d2 d1 d3; rect (d4 - d1) d2 d4 d3].
Proof.
  intros E H0 H1 H2 H3 G. unfold nastran_chan2 in E. apply nas_ok in E.
  eapply (outline_plates sh _ [(0, 0); (d4, 0); (d4, d3); (d4 - d1, d3); (d4 - d1, d2); (d1, d2); (d1, d3); (0, d3)]); [exact E|unfold chan2_points; same_points|opened|grid_of G| |plates_of|discriminate|intros m; apply nas_chan2_outline; assumption].
  exists (d4, 0). split; [cbn [In]; tauto|]. intros Q. injection Q. lra.
Qed.

Lemma nas_cross_outline m d1 d2 d3 d4 : 0 < d1 -> 0 < d2 -> 0 < d4 -> d4 < d3 -> same_boundary (parts_edges (map (pair m) [rect (d1 / 2) 0 (d1 / 2 + d2) d3; rect 0 ((d3 - d4) / 2) (d1 / 2) ((d3 + d4) / 2); rect (d1 / 2 + d2) ((d3 - d4) / 2) (d1 + d2) ((d3 + d4) / 2)])) (S_Section.ring_edges m [(d1 / 2, 0); (d1 / 2 + d2, 0); (d1 / 2 + d2, (d3 - d4) / 2); (d1 + d2, (d3 - d4) / 2); (d1 + d2, (d3 + d4) / 2); (d1 / 2 + d2, (d3 + d4) / 2); (d1 / 2 + d2, d3); (d1 / 2, d3); (d1 / 2, (d3 + d4) / 2); (0, (d3 + d4) / 2); (0, (d3 - d4) / 2); (d1 / 2, (d3 - d4) / 2)]).
Proof.
  intros H0 H1 H2 H3. set (v0 := (d1 / 2, 0)). set (v1 := (d1 / 2 + d2, 0)). set (v2 := (d1 / 2 + d2, (d3 - d4) / 2)). set (v3 := (d1 + d2, (d3 - d4) / 2)). set (v4 := (d1 + d2, (d3 + d4) / 2)). set (v5 := (d1 / 2 + d2, (d3 + d4) / 2)). set (v6 := (d1 / 2 + d2, d3)). set (v7 := (d1 / 2, d3)). set (v8 := (d1 / 2, (d3 + d4) / 2)). set (v9 := (0, (d3 + d4) / 2)). set (v10 := (0, (d3 - d4) / 2)). set (v11 := (d1 / 2, (d3 - d4) / 2)).
  change (same_boundary [(m, v0, v1); (m, v1, v6); (m, v6, v7); (m, v7, v0); (m, v10, v11); (m, v11, v8); (m, v8, v9); (m, v9, v10); (m, v2, v3); (m, v3, v4); (m, v4, v5); (m, v5, v2)] [(m, v0, v1); (m, v1, v2); (m, v2, v3); (m, v3, v4); (m, v4, v5); (m, v5, v6); (m, v6, v7); (m, v7, v8); (m, v8, v9); (m, v9, v10); (m, v10, v11); (m, v11, v0)]).
  splits m v1 v6 v2 ((((d3 - d4) / 2) - 0) / (d3 - 0)). splits m v2 v6 v5 ((((d3 + d4) / 2) - ((d3 - d4) / 2)) / (d3 - ((d3 - d4) / 2))). splits m v7 v0 v8 ((((d3 + d4) / 2) - d3) / (0 - d3)). splits m v8 v0 v11 ((((d3 - d4) / 2) - ((d3 + d4) / 2)) / (0 - ((d3 + d4) / 2))). cancels m v2 v5. cancels m v8 v11. apply sb_sym.
   apply sb_perm. perms.
Qed.
Theorem C105_nastran_cross sh d1 d2 d3 d4 mat gm pts : nastran_cross sh d1 d2 d3 d4 mat = Ok (gm, pts) -> 0 < d1 -> 0 < d2 -> 0 < d4 -> d4 < d3 -> Forall (on_grid 12) [d1 / 2; d1 / 2 + d2; (d3 - d4) / 2; d1 + d2; (d3 + d4) / 2; d3] ->
  as_plates mat gm [rect (d1 / 2) 0 (d1 / 2 + d2) d3; rect 0 ((d3 - d4) / 2) (d1 / 2) ((d3 + d4) / 2); rect (d1 / 2 + d2) ((d3 - d4) / 2) (d1 + d2) ((d3 + d4) / 2)].
Proof.
  intros E H0 H1 H2 H3 G. unfold nastran_cross in E. apply nas_ok in E.
  eapply (outline_plates sh _ [(d1 / 2, 0); (d1 / 2 + d2, 0); (d1 / 2 + d2, (d3 - d4) / 2); (d1 + d2, (d3 - d4) / 2); (d1 + d2, (d3 + d4) / 2); (d1 / 2 + d2, (d3 + d4) / 2); (d1 / 2 + d2, d3); (d1 / 2, d3); (d1 / 2, (d3 + d4) / 2); (0, (d3 + d4) / 2); (0, (d3 - d4) / 2); (d1 / 2, (d3 - d4) / 2)]); [exact E|unfold cross_points; same_points|opened|grid_of G| |plates_of|discriminate|intros m; apply nas_cross_outline; assumption].
  exists (d1 / 2, 0). split; [cbn [In]; tauto|]. intros Q. injection Q. lra.
Qed.

Lemma nas_h_outline m d1 d2 d3 d4 : 0 < d1 -> 0 < d2 -> 0 < d4 -> d4 < d3 -> same_boundary (parts_edges (map (pair m) [rect 0 0 (d2 / 2) d3; rect (d2 / 2) ((d3 - d4) / 2) (d2 / 2 + d1) ((d3 + d4) / 2); rect (d2 / 2 + d1) 0 (d1 + d2) d3])) (S_Section.ring_edges m [(0, 0); (d2 / 2, 0); (d2 / 2, (d3 - d4) / 2); (d2 / 2 + d1, (d3 - d4) / 2); (d2 / 2 + d1, 0); (d1 + d2, 0); (d1 + d2, d3); (d2 / 2 + d1, d3); (d2 / 2 + d1, (d3 + d4) / 2); (d2 / 2, (d3 + d4) / 2); (d2 / 2, d3); (0, d3)]).
Proof.
  intros H0 H1 H2 H3. set (v0 := (0, 0)). set (v1 := (d2 / 2, 0)). set (v2 := (d2 / 2, (d3 - d4) / 2)). set (v3 := (d2 / 2 + d1, (d3 - d4) / 2)). set (v4 := (d2 / 2 + d1, 0)). set (v5 := (d1 + d2, 0)). set (v6 := (d1 + d2, d3)). set (v7 := (d2 / 2 + d1, d3)). set (v8 := (d2 / 2 + d1, (d3 + d4) / 2)). set (v9 := (d2 / 2, (d3 + d4) / 2)). set (v10 := (d2 / 2, d3)). set (v11 := (0, d3)).
  change (same_boundary [(m, v0, v1); (m, v1, v10); (m, v10, v11); (m, v11, v0); (m, v2, v3); (m, v3, v8); (m, v8, v9); (m, v9, v2); (m, v4, v5); (m, v5, v6); (m, v6, v7); (m, v7, v4)] [(m, v0, v1); (m, v1, v2); (m, v2, v3); (m, v3, v4); (m, v4, v5); (m, v5, v6); (m, v6, v7); (m, v7, v8); (m, v8, v9); (m, v9, v10); (m, v10, v11); (m, v11, v0)]).
  splits m v1 v10 v2 ((((d3 - d4) / 2) - 0) / (d3 - 0)). splits m v2 v10 v9 ((((d3 + d4) / 2) - ((d3 - d4) / 2)) / (d3 - ((d3 - d4) / 2))). splits m v7 v4 v8 ((((d3 + d4) / 2) - d3) / (0 - d3)). splits m v8 v4 v3 ((((d3 - d4) / 2) - ((d3 + d4) / 2)) / (0 - ((d3 + d4) / 2))). cancels m v2 v9. cancels m v3 v8. apply sb_sym.
   apply sb_perm. perms.
Qed.
Theorem C105_nastran_h sh d1 d2 d3 d4 mat gm pts : nastran_h sh d1 d2 d3 d4 mat = Ok (gm, pts) -> 0 < d1 -> 0 < d2 -> 0 < d4 -> d4 < d3 -> Forall (on_grid 12) [d2 / 2; (d3 - d4) / 2; d2 / 2 + d1; d1 + d2; d3; (d3 + d4) / 2] ->
  as_plates mat gm [rect 0 0 (d2 / 2) d3; rect (d2 / 2) ((d3 - d4) / 2) (d2 / 2 + d1) ((d3 + d4) / 2); rect (d2 / 2 + d1) 0 (d1 + d2) d3].
Proof.
  intros E H0 H1 H2 H3 G. unfold nastran_h in E. apply nas_ok in E.
  eapply (outline_plates sh _ [(0, 0); (d2 / 2, 0); (d2 / 2, (d3 - d4) / 2); (d2 / 2 + d1, (d3 - d4) / 2); (d2 / 2 + d1, 0); (d1 + d2, 0); (d1 + d2, d3); (d2 / 2 + d1, d3); (d2 / 2 + d1, (d3 + d4) / 2); (d2 / 2, (d3 + d4) / 2); (d2 / 2, d3); (0, d3)]); [exact E|unfold h_points; same_points|opened|grid_of G| |plates_of|discriminate|intros m; apply nas_h_outline; assumption].
  exists (d2 / 2, 0). split; [cbn [In]; tauto|]. intros Q. injection Q. lra.
Qed.

Lemma nas_i_outline m d1 d2 d3 d4 d5 d6 : 0 < d4 -> 0 < d5 -> 0 < d6 -> d5 + d6 < d1 -> d4 < d3 -> d4 < d2 -> same_boundary (parts_edges (map (pair m) [rect 0 0 d2 d5; rect ((d2 - d4) / 2) d5 ((d2 + d4) / 2) (d1 - d6); rect ((d2 - d3) / 2) (d1 - d6) ((d2 + d3) / 2) d1])) (S_Section.ring_edges m [(0, 0); (d2, 0); (d2, d5); ((d2 + d4) / 2, d5); ((d2 + d4) / 2, d1 - d6); ((d2 + d3) / 2, d1 - d6); ((d2 + d3) / 2, d1); ((d2 - d3) / 2, d1); ((d2 - d3) / 2, d1 - d6); ((d2 - d4) / 2, d1 - d6); ((d2 - d4) / 2, d5); (0, d5)]).
Proof.
  intros H0 H1 H2 H3 H4 H5. set (v0 := (0, 0)). set (v1 := (d2, 0)). set (v2 := (d2, d5)). set (v3 := ((d2 + d4) / 2, d5)). set (v4 := ((d2 + d4) / 2, d1 - d6)). set (v5 := ((d2 + d3) / 2, d1 - d6)). set (v6 := ((d2 + d3) / 2, d1)). set (v7 := ((d2 - d3) / 2, d1)). set (v8 := ((d2 - d3) / 2, d1 - d6)). set (v9 := ((d2 - d4) / 2, d1 - d6)). set (v10 := ((d2 - d4) / 2, d5)). set (v11 := (0, d5)).
  change (same_boundary [(m, v0, v1); (m, v1, v2); (m, v2, v11); (m, v11, v0); (m, v10, v3); (m, v3, v4); (m, v4, v9); (m, v9, v10); (m, v8, v5); (m, v5, v6); (m, v6, v7); (m, v7, v8)] [(m, v0, v1); (m, v1, v2); (m, v2, v3); (m, v3, v4); (m, v4, v5); (m, v5, v6); (m, v6, v7); (m, v7, v8); (m, v8, v9); (m, v9, v10); (m, v10, v11); (m, v11, v0)]).
  splits m v2 v11 v3 ((((d2 + d4) / 2) - d2) / (0 - d2)). splits m v3 v11 v10 ((((d2 - d4) / 2) - ((d2 + d4) / 2)) / (0 - ((d2 + d4) / 2))). splits m v8 v5 v9 ((((d2 - d4) / 2) - ((d2 - d3) / 2)) / (((d2 + d3) / 2) - ((d2 - d3) / 2))). splits m v9 v5 v4 ((((d2 + d4) / 2) - ((d2 - d4) / 2)) / (((d2 + d3) / 2) - ((d2 - d4) / 2))). cancels m v3 v10. cancels m v4 v9. apply sb_sym.
   apply sb_perm. perms.
Qed.
Theorem C105_nastran_i sh d1 d2 d3 d4 d5 d6 mat gm pts : nastran_i sh d1 d2 d3 d4 d5 d6 mat = Ok (gm, pts) -> 0 < d4 -> 0 < d5 -> 0 < d6 -> d5 + d6 < d1 -> d4 < d3 -> d4 < d2 -> Forall (on_grid 12) [d2; d5; (d2 + d4) / 2; d1 - d6; (d2 + d3) / 2; d1; (d2 - d3) / 2; (d2 - d4) / 2] ->
  as_plates mat gm [rect 0 0 d2 d5; rect ((d2 - d4) / 2) d5 ((d2 + d4) / 2) (d1 - d6); rect ((d2 - d3) / 2) (d1 - d6) ((d2 + d3) / 2) d1].
Proof.
  intros E H0 H1 H2 H3 H4 H5 G. unfold nastran_i in E. apply nas_ok in E.
  eapply (outline_plates sh _ [(0, 0); (d2, 0); (d2, d5); ((d2 + d4) / 2, d5); ((d2 + d4) / 2, d1 - d6); ((d2 + d3) / 2, d1 - d6); ((d2 + d3) / 2, d1); ((d2 - d3) / 2, d1); ((d2 - d3) / 2, d1 - d6); ((d2 - d4) / 2, d1 - d6); ((d2 - d4) / 2, d5); (0, d5)]); [exact E|unfold i_points; same_points|opened|grid_of G| |plates_of|discriminate|intros m; apply nas_i_outline; assumption].
  exists (d2, 0). split; [cbn [In]; tauto|]. intros Q. injection Q. lra.
Qed.

Lemma nas_i1_outline m d1 d2 d3 d4 : 0 < d1 -> 0 < d2 -> 0 < d3 -> d3 < d4 -> same_boundary (parts_edges (map (pair m) [rect 0 0 (d1 + d2) ((d4 - d3) / 2); rect (d1 / 2) ((d4 - d3) / 2) (d1 / 2 + d2) ((d4 + d3) / 2); rect 0 ((d4 + d3) / 2) (d1 + d2) d4])) (S_Section.ring_edges m [(0, 0); (d1 + d2, 0); (d1 + d2, (d4 - d3) / 2); (d1 / 2 + d2, (d4 - d3) / 2); (d1 / 2 + d2, (d4 + d3) / 2); (d1 + d2, (d4 + d3) / 2); (d1 + d2, d4); (0, d4); (0, (d4 + d3) / 2); (d1 / 2, (d4 + d3) / 2); (d1 / 2, (d4 - d3) / 2); (0, (d4 - d3) / 2)]).
Proof.
  intros H0 H1 H2 H3. set (v0 := (0, 0)). set (v1 := (d1 + d2, 0)). set (v2 := (d1 + d2, (d4 - d3) / 2)). set (v3 := (d1 / 2 + d2, (d4 - d3) / 2)). set (v4 := (d1 / 2 + d2, (d4 + d3) / 2)). set (v5 := (d1 + d2, (d4 + d3) / 2)). set (v6 := (d1 + d2, d4)). set (v7 := (0, d4)). set (v8 := (0, (d4 + d3) / 2)). set (v9 := (d1 / 2, (d4 + d3) / 2)). set (v10 := (d1 / 2, (d4 - d3) / 2)). set (v11 := (0, (d4 - d3) / 2)).
  change (same_boundary [(m, v0, v1); (m, v1, v2); (m, v2, v11); (m, v11, v0); (m, v10, v3); (m, v3, v4); (m, v4, v9); (m, v9, v10); (m, v8, v5); (m, v5, v6); (m, v6, v7); (m, v7, v8)] [(m, v0, v1); (m, v1, v2); (m, v2, v3); (m, v3, v4); (m, v4, v5); (m, v5, v6); (m, v6, v7); (m, v7, v8); (m, v8, v9); (m, v9, v10); (m, v10, v11); (m, v11, v0)]).
  splits m v2 v11 v3 (((d1 / 2 + d2) - (d1 + d2)) / (0 - (d1 + d2))). splits m v3 v11 v10 (((d1 / 2) - (d1 / 2 + d2)) / (0 - (d1 / 2 + d2))). splits m v8 v5 v9 (((d1 / 2) - 0) / ((d1 + d2) - 0)). splits m v9 v5 v4 (((d1 / 2 + d2) - (d1 / 2)) / ((d1 + d2) - (d1 / 2))). cancels m v3 v10. cancels m v4 v9. apply sb_sym.
   apply sb_perm. perms.
Qed.
Theorem C105_nastran_i1 sh d1 d2 d3 d4 mat gm pts : nastran_i1 sh d1 d2 d3 d4 mat = Ok (gm, pts) -> 0 < d1 -> 0 < d2 -> 0 < d3 -> d3 < d4 -> Forall (on_grid 12) [d1 + d2; (d4 - d3) / 2; d1 / 2 + d2; (d4 + d3) / 2; d4; d1 / 2] ->
  as_plates mat gm [rect 0 0 (d1 + d2) ((d4 - d3) / 2); rect (d1 / 2) ((d4 - d3) / 2) (d1 / 2 + d2) ((d4 + d3) / 2); rect 0 ((d4 + d3) / 2) (d1 + d2) d4].
Proof.
  intros E H0 H1 H2 H3 G. unfold nastran_i1 in E. apply nas_ok in E.
  eapply (outline_plates sh _ [(0, 0); (d1 + d2, 0); (d1 + d2, (d4 - d3) / 2); (d1 / 2 + d2, (d4 - d3) / 2); (d1 / 2 + d2, (d4 + d3) / 2); (d1 + d2, (d4 + d3) / 2); (d1 + d2, d4); (0, d4); (0, (d4 + d3) / 2); (d1 / 2, (d4 + d3) / 2); (d1 / 2, (d4 - d3) / 2); (0, (d4 - d3) / 2)]); [exact E|unfold i1_points; same_points|opened|grid_of G| |plates_of|discriminate|intros m; apply nas_i1_outline; assumption].
  exists (d1 + d2, 0). split; [cbn [In]; tauto|]. intros Q. injection Q. lra.
Qed.

Lemma nas_l_outline m d1 d2 d3 d4 : 0 < d3 -> 0 < d4 -> d4 < d1 -> d3 < d2 -> same_boundary (parts_edges (map (pair m) [rect 0 0 d1 d3; rect 0 d3 d4 d2])) (S_Section.ring_edges m [(0, 0); (d1, 0); (d1, d3); (d4, d3); (d4, d2); (0, d2)]).
Proof.
  intros H0 H1 H2 H3. set (v0 := (0, 0)). set (v1 := (d1, 0)). set (v2 := (d1, d3)). set (v3 := (d4, d3)). set (v4 := (d4, d2)). set (v5 := (0, d2)). set (v6 := (0, d3)).
  change (same_boundary [(m, v0, v1); (m, v1, v2); (m, v2, v6); (m, v6, v0); (m, v6, v3); (m, v3, v4); (m, v4, v5); (m, v5, v6)] [(m, v0, v1); (m, v1, v2); (m, v2, v3); (m, v3, v4); (m, v4, v5); (m, v5, v0)]).
  splits m v2 v6 v3 ((d4 - d1) / (0 - d1)). cancels m v3 v6. apply sb_sym.
  splits m v5 v0 v6 ((d3 - d2) / (0 - d2)). apply sb_perm. perms.
Qed.
Theorem C105_nastran_l sh d1 d2 d3 d4 mat gm pts : nastran_l sh d1 d2 d3 d4 mat = Ok (gm, pts) -> 0 < d3 -> 0 < d4 -> d4 < d1 -> d3 < d2 -> Forall (on_grid 12) [d1; d3; d4; d2] ->
  as_plates mat gm [rect 0 0 d1 d3; rect 0 d3 d4 d2].
Proof.
  intros E H0 H1 H2 H3 G. unfold nastran_l in E. apply nas_ok in E.
  eapply (outline_plates sh _ [(0, 0); (d1, 0); (d1, d3); (d4, d3); (d4, d2); (0, d2)]); [exact E|unfold l_points; same_points|opened|grid_of G| |plates_of|discriminate|intros m; apply nas_l_outline; assumption].
  exists (d1, 0). split; [cbn [In]; tauto|]. intros Q. injection Q. lra.
Qed.

Lemma nas_tee_outline m d1 d2 d3 d4 : 0 < d3 -> 0 < d4 -> d4 < d1 -> d3 < d2 -> same_boundary (parts_edges (map (pair m) [rect ((d1 - d4) / 2) 0 ((d1 + d4) / 2) (d2 - d3); rect 0 (d2 - d3) d1 d2])) (S_Section.ring_edges m [((d1 - d4) / 2, 0); ((d1 + d4) / 2, 0); ((d1 + d4) / 2, d2 - d3); (d1, d2 - d3); (d1, d2); (0, d2); (0, d2 - d3); ((d1 - d4) / 2, d2 - d3)]).
Proof.
  intros H0 H1 H2 H3. set (v0 := ((d1 - d4) / 2, 0)). set (v1 := ((d1 + d4) / 2, 0)). set (v2 := ((d1 + d4) / 2, d2 - d3)). set (v3 := (d1, d2 - d3)). set (v4 := (d1, d2)). set (v5 := (0, d2)). set (v6 := (0, d2 - d3)). set (v7 := ((d1 - d4) / 2, d2 - d3)).
  change (same_boundary [(m, v0, v1); (m, v1, v2); (m, v2, v7); (m, v7, v0); (m, v6, v3); (m, v3, v4); (m, v4, v5); (m, v5, v6)] [(m, v0, v1); (m, v1, v2); (m, v2, v3); (m, v3, v4); (m, v4, v5); (m, v5, v6); (m, v6, v7); (m, v7, v0)]).
  splits m v6 v3 v7 ((((d1 - d4) / 2) - 0) / (d1 - 0)). splits m v7 v3 v2 ((((d1 + d4) / 2) - ((d1 - d4) / 2)) / (d1 - ((d1 - d4) / 2))). cancels m v2 v7. apply sb_sym.
   apply sb_perm. perms.
Qed.
Theorem C105_nastran_tee sh d1 d2 d3 d4 mat gm pts : nastran_tee sh d1 d2 d3 d4 mat = Ok (gm, pts) -> 0 < d3 -> 0 < d4 -> d4 < d1 -> d3 < d2 -> Forall (on_grid 12) [(d1 - d4) / 2; (d1 + d4) / 2; d2 - d3; d1; d2] ->
  as_plates mat gm [rect ((d1 - d4) / 2) 0 ((d1 + d4) / 2) (d2 - d3); rect 0 (d2 - d3) d1 d2].
Proof.
  intros E H0 H1 H2 H3 G. unfold nastran_tee in E. apply nas_ok in E.
  eapply (outline_plates sh _ [((d1 - d4) / 2, 0); ((d1 + d4) / 2, 0); ((d1 + d4) / 2, d2 - d3); (d1, d2 - d3); (d1, d2); (0, d2); (0, d2 - d3); ((d1 - d4) / 2, d2 - d3)]); [exact E|unfold nas_tee_points, draw_radius; destruct (Req_EM_T 0 0) as [_|N]; [|contradiction]; cbn [app]; same_points|opened|grid_of G| |plates_of|discriminate|intros m; apply nas_tee_outline; assumption].
  exists ((d1 - d4) / 2, 0). split; [cbn [In]; tauto|]. intros Q. injection Q. lra.
Qed.

Lemma nas_tee1_outline m d1 d2 d3 d4 : 0 < d2 -> 0 < d3 -> 0 < d4 -> d4 < d1 -> same_boundary (parts_edges (map (pair m) [rect 0 0 d3 d1; rect (- d2) ((d1 - d4) / 2) 0 ((d1 + d4) / 2)])) (S_Section.ring_edges m [(0, 0); (d3, 0); (d3, d1); (0, d1); (0, (d1 + d4) / 2); (- d2, (d1 + d4) / 2); (- d2, (d1 - d4) / 2); (0, (d1 - d4) / 2)]).
Proof.
  intros H0 H1 H2 H3. set (v0 := (0, 0)). set (v1 := (d3, 0)). set (v2 := (d3, d1)). set (v3 := (0, d1)). set (v4 := (0, (d1 + d4) / 2)). set (v5 := (- d2, (d1 + d4) / 2)). set (v6 := (- d2, (d1 - d4) / 2)). set (v7 := (0, (d1 - d4) / 2)).
  change (same_boundary [(m, v0, v1); (m, v1, v2); (m, v2, v3); (m, v3, v0); (m, v6, v7); (m, v7, v4); (m, v4, v5); (m, v5, v6)] [(m, v0, v1); (m, v1, v2); (m, v2, v3); (m, v3, v4); (m, v4, v5); (m, v5, v6); (m, v6, v7); (m, v7, v0)]).
  splits m v3 v0 v4 ((((d1 + d4) / 2) - d1) / (0 - d1)). splits m v4 v0 v7 ((((d1 - d4) / 2) - ((d1 + d4) / 2)) / (0 - ((d1 + d4) / 2))). cancels m v4 v7. apply sb_sym.
   apply sb_perm. perms.
Qed.
Theorem C105_nastran_tee1 sh d1 d2 d3 d4 mat gm pts : nastran_tee1 sh d1 d2 d3 d4 mat = Ok (gm, pts) -> 0 < d2 -> 0 < d3 -> 0 < d4 -> d4 < d1 -> Forall (on_grid 12) [d3; d1; (d1 + d4) / 2; - d2; (d1 - d4) / 2] ->
  as_plates mat gm [rect 0 0 d3 d1; rect (- d2) ((d1 - d4) / 2) 0 ((d1 + d4) / 2)].
Proof.
  intros E H0 H1 H2 H3 G. unfold nastran_tee1 in E. apply nas_ok in E.
  eapply (outline_plates sh _ [(0, 0); (d3, 0); (d3, d1); (0, d1); (0, (d1 + d4) / 2); (- d2, (d1 + d4) / 2); (- d2, (d1 - d4) / 2); (0, (d1 - d4) / 2)]); [exact E|unfold tee1_points; same_points|opened|grid_of G| |plates_of|discriminate|intros m; apply nas_tee1_outline; assumption].
  exists (d3, 0). split; [cbn [In]; tauto|]. intros Q. injection Q. lra.
Qed.

Lemma nas_tee2_outline m d1 d2 d3 d4 : 0 < d3 -> 0 < d4 -> d4 < d1 -> d3 < d2 -> same_boundary (parts_edges (map (pair m) [rect 0 0 d1 d3; rect ((d1 - d4) / 2) d3 ((d1 + d4) / 2) d2])) (S_Section.ring_edges m [(0, 0); (d1, 0); (d1, d3); ((d1 + d4) / 2, d3); ((d1 + d4) / 2, d2); ((d1 - d4) / 2, d2); ((d1 - d4) / 2, d3); (0, d3)]).
Proof.
  intros H0 H1 H2 H3. set (v0 := (0, 0)). set (v1 := (d1, 0)). set (v2 := (d1, d3)). set (v3 := ((d1 + d4) / 2, d3)). set (v4 := ((d1 + d4) / 2, d2)). set (v5 := ((d1 - d4) / 2, d2)). set (v6 := ((d1 - d4) / 2, d3)). set (v7 := (0, d3)).
  change (same_boundary [(m, v0, v1); (m, v1, v2); (m, v2, v7); (m, v7, v0); (m, v6, v3); (m, v3, v4); (m, v4, v5); (m, v5, v6)] [(m, v0, v1); (m, v1, v2); (m, v2, v3); (m, v3, v4); (m, v4, v5); (m, v5, v6); (m, v6, v7); (m, v7, v0)]).
  splits m v2 v7 v3 ((((d1 + d4) / 2) - d1) / (0 - d1)). splits m v3 v7 v6 ((((d1 - d4) / 2) - ((d1 + d4) / 2)) / (0 - ((d1 + d4) / 2))). cancels m v3 v6. apply sb_sym.
   apply sb_perm. perms.
Qed.
Theorem C105_nastran_tee2 sh d1 d2 d3 d4 mat gm pts : nastran_tee2 sh d1 d2 d3 d4 mat = Ok (gm, pts) -> 0 < d3 -> 0 < d4 -> d4 < d1 -> d3 < d2 -> Forall (on_grid 12) [d1; d3; (d1 + d4) / 2; d2; (d1 - d4) / 2] ->
  as_plates mat gm [rect 0 0 d1 d3; rect ((d1 - d4) / 2) d3 ((d1 + d4) / 2) d2].
Proof.
  intros E H0 H1 H2 H3 G. unfold nastran_tee2 in E. apply nas_ok in E.
  eapply (outline_plates sh _ [(0, 0); (d1, 0); (d1, d3); ((d1 + d4) / 2, d3); ((d1 + d4) / 2, d2); ((d1 - d4) / 2, d2); ((d1 - d4) / 2, d3); (0, d3)]); [exact E|unfold tee2_points; same_points|opened|grid_of G| |plates_of|discriminate|intros m; apply nas_tee2_outline; assumption].
  exists (d1, 0). split; [cbn [In]; tauto|]. intros Q. injection Q. lra.
Qed.

Lemma nas_zed_outline m d1 d2 d3 d4 : 0 < d1 -> 0 < d2 -> 0 < d3 -> d3 < d4 -> same_boundary (parts_edges (map (pair m) [rect d1 0 (d1 + d2) d4; rect (d1 + d2) 0 (2 * d1 + d2) ((d4 - d3) / 2); rect 0 ((d4 + d3) / 2) d1 d4])) (S_Section.ring_edges m [(d1, 0); (2 * d1 + d2, 0); (2 * d1 + d2, (d4 - d3) / 2); (d1 + d2, (d4 - d3) / 2); (d1 + d2, d4); (0, d4); (0, (d4 + d3) / 2); (d1, (d4 + d3) / 2)]).
Proof.
  intros H0 H1 H2 H3. set (v0 := (d1, 0)). set (v1 := (2 * d1 + d2, 0)). set (v2 := (2 * d1 + d2, (d4 - d3) / 2)). set (v3 := (d1 + d2, (d4 - d3) / 2)). set (v4 := (d1 + d2, d4)). set (v5 := (0, d4)). set (v6 := (0, (d4 + d3) / 2)). set (v7 := (d1, (d4 + d3) / 2)). set (v8 := (d1 + d2, 0)). set (v9 := (d1, d4)).
  change (same_boundary [(m, v0, v8); (m, v8, v4); (m, v4, v9); (m, v9, v0); (m, v8, v1); (m, v1, v2); (m, v2, v3); (m, v3, v8); (m, v6, v7); (m, v7, v9); (m, v9, v5); (m, v5, v6)] [(m, v0, v1); (m, v1, v2); (m, v2, v3); (m, v3, v4); (m, v4, v5); (m, v5, v6); (m, v6, v7); (m, v7, v0)]).
  splits m v8 v4 v3 ((((d4 - d3) / 2) - 0) / (d4 - 0)). splits m v9 v0 v7 ((((d4 + d3) / 2) - d4) / (0 - d4)). cancels m v8 v3. cancels m v9 v7. apply sb_sym.
  splits m v0 v1 v8 (((d1 + d2) - d1) / ((2 * d1 + d2) - d1)). splits m v4 v5 v9 ((d1 - (d1 + d2)) / (0 - (d1 + d2))). apply sb_perm. perms.
Qed.
Theorem C105_nastran_zed sh d1 d2 d3 d4 mat gm pts : nastran_zed sh d1 d2 d3 d4 mat = Ok (gm, pts) -> 0 < d1 -> 0 < d2 -> 0 < d3 -> d3 < d4 -> Forall (on_grid 12) [d1; 2 * d1 + d2; (d4 - d3) / 2; d1 + d2; d4; (d4 + d3) / 2] ->
  as_plates mat gm [rect d1 0 (d1 + d2) d4; rect (d1 + d2) 0 (2 * d1 + d2) ((d4 - d3) / 2); rect 0 ((d4 + d3) / 2) d1 d4].
Proof.
  intros E H0 H1 H2 H3 G. unfold nastran_zed in E. apply nas_ok in E.
  eapply (outline_plates sh _ [(d1, 0); (2 * d1 + d2, 0); (2 * d1 + d2, (d4 - d3) / 2); (d1 + d2, (d4 - d3) / 2); (d1 + d2, d4); (0, d4); (0, (d4 + d3) / 2); (d1, (d4 + d3) / 2)]); [exact E|unfold zed_points; same_points|opened|grid_of G| |plates_of|discriminate|intros m; apply nas_zed_outline; assumption].
  exists (d1, 0). split; [cbn [In]; tauto|]. intros Q. injection Q. lra.
Qed.

Lemma nas_hat_outline m d1 d2 d3 d4 : 0 < d2 -> 0 < d4 -> 2 * d2 < d1 -> 2 * d2 < d3 -> same_boundary (parts_edges (map (pair m) [rect 0 0 d4 d2; rect d4 0 (d4 + d2) (d1 - d2); rect d4 (d1 - d2) (d4 + d3) d1; rect (d4 + d3 - d2) 0 (d4 + d3) (d1 - d2); rect (d4 + d3) 0 (2 * d4 + d3) d2])) (S_Section.ring_edges m [(0, 0); (d4 + d2, 0); (d4 + d2, d1 - d2); (d4 + d3 - d2, d1 - d2); (d4 + d3 - d2, 0); (2 * d4 + d3, 0); (2 * d4 + d3, d2); (d4 + d3, d2); (d4 + d3, d1); (d4, d1); (d4, d2); (0, d2)]).
Proof.
  intros H0 H1 H2 H3. set (v0 := (0, 0)). set (v1 := (d4 + d2, 0)). set (v2 := (d4 + d2, d1 - d2)). set (v3 := (d4 + d3 - d2, d1 - d2)). set (v4 := (d4 + d3 - d2, 0)). set (v5 := (2 * d4 + d3, 0)). set (v6 := (2 * d4 + d3, d2)). set (v7 := (d4 + d3, d2)). set (v8 := (d4 + d3, d1)). set (v9 := (d4, d1)). set (v10 := (d4, d2)). set (v11 := (0, d2)). set (v12 := (d4, 0)). set (v13 := (d4, d1 - d2)). set (v14 := (d4 + d3, d1 - d2)). set (v15 := (d4 + d3, 0)).
  change (same_boundary [(m, v0, v12); (m, v12, v10); (m, v10, v11); (m, v11, v0); (m, v12, v1); (m, v1, v2); (m, v2, v13); (m, v13, v12); (m, v13, v14); (m, v14, v8); (m, v8, v9); (m, v9, v13); (m, v4, v15); (m, v15, v14); (m, v14, v3); (m, v3, v4); (m, v15, v5); (m, v5, v6); (m, v6, v7); (m, v7, v15)] [(m, v0, v1); (m, v1, v2); (m, v2, v3); (m, v3, v4); (m, v4, v5); (m, v5, v6); (m, v6, v7); (m, v7, v8); (m, v8, v9); (m, v9, v10); (m, v10, v11); (m, v11, v0)]).
  splits m v13 v12 v10 ((d2 - (d1 - d2)) / (0 - (d1 - d2))). splits m v13 v14 v2 (((d4 + d2) - d4) / ((d4 + d3) - d4)). splits m v2 v14 v3 (((d4 + d3 - d2) - (d4 + d2)) / ((d4 + d3) - (d4 + d2))). splits m v15 v14 v7 ((d2 - 0) / ((d1 - d2) - 0)). cancels m v12 v10. cancels m v2 v13. cancels m v3 v14. cancels m v15 v7. apply sb_sym.
  splits m v0 v1 v12 ((d4 - 0) / ((d4 + d2) - 0)). splits m v4 v5 v15 (((d4 + d3) - (d4 + d3 - d2)) / ((2 * d4 + d3) - (d4 + d3 - d2))). splits m v7 v8 v14 (((d1 - d2) - d2) / (d1 - d2)). splits m v9 v10 v13 (((d1 - d2) - d1) / (d2 - d1)). apply sb_perm. perms.
Qed.
Theorem C105_nastran_hat sh d1 d2 d3 d4 mat gm pts : nastran_hat sh d1 d2 d3 d4 mat = Ok (gm, pts) -> 0 < d2 -> 0 < d4 -> 2 * d2 < d1 -> 2 * d2 < d3 -> Forall (on_grid 12) [d4 + d2; d1 - d2; d4 + d3 - d2; 2 * d4 + d3; d2; d4 + d3; d1; d4] ->
  as_plates mat gm [rect 0 0 d4 d2; rect d4 0 (d4 + d2) (d1 - d2); rect d4 (d1 - d2) (d4 + d3) d1; rect (d4 + d3 - d2) 0 (d4 + d3) (d1 - d2); rect (d4 + d3) 0 (2 * d4 + d3) d2].
Proof.
  intros E H0 H1 H2 H3 G. unfold nastran_hat in E. apply nas_ok in E.
  eapply (outline_plates sh _ [(0, 0); (d4 + d2, 0); (d4 + d2, d1 - d2); (d4 + d3 - d2, d1 - d2); (d4 + d3 - d2, 0); (2 * d4 + d3, 0); (2 * d4 + d3, d2); (d4 + d3, d2); (d4 + d3, d1); (d4, d1); (d4, d2); (0, d2)]); [exact E|unfold hat_points; same_points|opened|grid_of G| |plates_of|discriminate|intros m; apply nas_hat_outline; assumption].
  exists (d4 + d2, 0). split; [cbn [In]; tauto|]. intros Q. injection Q. lra.
Qed.

Lemma nas_fcross_outline m d1 d2 d3 d4 d5 d6 d7 d8 : 0 < d3 -> 0 < d4 -> 0 < d6 -> 0 < d8 -> d3 < d5 -> d4 < d7 -> d7 < d1 -> d5 < d2 -> d8 < d2 / 2 - d3 / 2 -> d6 < d1 / 2 - d4 / 2 -> same_boundary (parts_edges (map (pair m) [rect (- d2 / 2 + d8) (- d4 / 2) (d2 / 2 - d8) (d4 / 2); rect (- d3 / 2) (d4 / 2) (d3 / 2) (d1 / 2 - d6); rect (- d3 / 2) (- d1 / 2 + d6) (d3 / 2) (- d4 / 2); rect (d2 / 2 - d8) (- d7 / 2) (d2 / 2) (d7 / 2); rect (- d2 / 2) (- d7 / 2) (- d2 / 2 + d8) (d7 / 2); rect (- d5 / 2) (d1 / 2 - d6) (d5 / 2) (d1 / 2); rect (- d5 / 2) (- d1 / 2) (d5 / 2) (- d1 / 2 + d6)])) (S_Section.ring_edges m [(d3 / 2, - d4 / 2); (d2 / 2 - d8, - d4 / 2); (d2 / 2 - d8, - d7 / 2); (d2 / 2, - d7 / 2); (d2 / 2, d7 / 2); (d2 / 2 - d8, d7 / 2); (d2 / 2 - d8, d4 / 2); (d3 / 2, d4 / 2); (d3 / 2, d1 / 2 - d6); (d5 / 2, d1 / 2 - d6); (d5 / 2, d1 / 2); (- d5 / 2, d1 / 2); (- d5 / 2, d1 / 2 - d6); (- d3 / 2, d1 / 2 - d6); (- d3 / 2, d4 / 2); (- d2 / 2 + d8, d4 / 2); (- d2 / 2 + d8, d7 / 2); (- d2 / 2, d7 / 2); (- d2 / 2, - d7 / 2); (- d2 / 2 + d8, - d7 / 2); (- d2 / 2 + d8, - d4 / 2); (- d3 / 2, - d4 / 2); (- d3 / 2, - d1 / 2 + d6); (- d5 / 2, - d1 / 2 + d6); (- d5 / 2, - d1 / 2); (d5 / 2, - d1 / 2); (d5 / 2, - d1 / 2 + d6); (d3 / 2, - d1 / 2 + d6)]).
Proof.
  intros H0 H1 H2 H3 H4 H5 H6 H7 H8 H9. set (v0 := (d3 / 2, - d4 / 2)). set (v1 := (d2 / 2 - d8, - d4 / 2)). set (v2 := (d2 / 2 - d8, - d7 / 2)). set (v3 := (d2 / 2, - d7 / 2)). set (v4 := (d2 / 2, d7 / 2)). set (v5 := (d2 / 2 - d8, d7 / 2)). set (v6 := (d2 / 2 - d8, d4 / 2)). set (v7 := (d3 / 2, d4 / 2)). set (v8 := (d3 / 2, d1 / 2 - d6)). set (v9 := (d5 / 2, d1 / 2 - d6)). set (v10 := (d5 / 2, d1 / 2)). set (v11 := (- d5 / 2, d1 / 2)). set (v12 := (- d5 / 2, d1 / 2 - d6)). set (v13 := (- d3 / 2, d1 / 2 - d6)). set (v14 := (- d3 / 2, d4 / 2)). set (v15 := (- d2 / 2 + d8, d4 / 2)). set (v16 := (- d2 / 2 + d8, d7 / 2)). set (v17 := (- d2 / 2, d7 / 2)). set (v18 := (- d2 / 2, - d7 / 2)). set (v19 := (- d2 / 2 + d8, - d7 / 2)). set (v20 := (- d2 / 2 + d8, - d4 / 2)). set (v21 := (- d3 / 2, - d4 / 2)). set (v22 := (- d3 / 2, - d1 / 2 + d6)). set (v23 := (- d5 / 2, - d1 / 2 + d6)). set (v24 := (- d5 / 2, - d1 / 2)). set (v25 := (d5 / 2, - d1 / 2)). set (v26 := (d5 / 2, - d1 / 2 + d6)). set (v27 := (d3 / 2, - d1 / 2 + d6)).
  change (same_boundary [(m, v20, v1); (m, v1, v6); (m, v6, v15); (m, v15, v20); (m, v14, v7); (m, v7, v8); (m, v8, v13); (m, v13, v14); (m, v22, v27); (m, v27, v0); (m, v0, v21); (m, v21, v22); (m, v2, v3); (m, v3, v4); (m, v4, v5); (m, v5, v2); (m, v18, v19); (m, v19, v16); (m, v16, v17); (m, v17, v18); (m, v12, v9); (m, v9, v10); (m, v10, v11); (m, v11, v12); (m, v24, v25); (m, v25, v26); (m, v26, v23); (m, v23, v24)] [(m, v0, v1); (m, v1, v2); (m, v2, v3); (m, v3, v4); (m, v4, v5); (m, v5, v6); (m, v6, v7); (m, v7, v8); (m, v8, v9); (m, v9, v10); (m, v10, v11); (m, v11, v12); (m, v12, v13); (m, v13, v14); (m, v14, v15); (m, v15, v16); (m, v16, v17); (m, v17, v18); (m, v18, v19); (m, v19, v20); (m, v20, v21); (m, v21, v22); (m, v22, v23); (m, v23, v24); (m, v24, v25); (m, v25, v26); (m, v26, v27); (m, v27, v0)]).
  splits m v20 v1 v21 (((- d3 / 2) - (- d2 / 2 + d8)) / ((d2 / 2 - d8) - (- d2 / 2 + d8))). splits m v21 v1 v0 (((d3 / 2) - (- d3 / 2)) / ((d2 / 2 - d8) - (- d3 / 2))). splits m v6 v15 v7 (((d3 / 2) - (d2 / 2 - d8)) / ((- d2 / 2 + d8) - (d2 / 2 - d8))). splits m v7 v15 v14 (((- d3 / 2) - (d3 / 2)) / ((- d2 / 2 + d8) - (d3 / 2))). splits m v5 v2 v6 (((d4 / 2) - (d7 / 2)) / ((- d7 / 2) - (d7 / 2))). splits m v6 v2 v1 (((- d4 / 2) - (d4 / 2)) / ((- d7 / 2) - (d4 / 2))). splits m v19 v16 v20 (((- d4 / 2) - (- d7 / 2)) / ((d7 / 2) - (- d7 / 2))). splits m v20 v16 v15 (((d4 / 2) - (- d4 / 2)) / ((d7 / 2) - (- d4 / 2))). splits m v12 v9 v13 (((- d3 / 2) - (- d5 / 2)) / ((d5 / 2) - (- d5 / 2))). splits m v13 v9 v8 (((d3 / 2) - (- d3 / 2)) / ((d5 / 2) - (- d3 / 2))). splits m v26 v23 v27 (((d3 / 2) - (d5 / 2)) / ((- d5 / 2) - (d5 / 2))). splits m v27 v23 v22 (((- d3 / 2) - (d3 / 2)) / ((- d5 / 2) - (d3 / 2))). cancels m v21 v0. cancels m v1 v6. cancels m v7 v14. cancels m v15 v20. cancels m v8 v13. cancels m v22 v27. apply sb_sym.
   apply sb_perm. perms.
Qed.
Theorem C105_nastran_fcross sh d1 d2 d3 d4 d5 d6 d7 d8 mat gm pts : nastran_fcross sh d1 d2 d3 d4 d5 d6 d7 d8 mat = Ok (gm, pts) -> 0 < d3 -> 0 < d4 -> 0 < d6 -> 0 < d8 -> d3 < d5 -> d4 < d7 -> d7 < d1 -> d5 < d2 -> d8 < d2 / 2 - d3 / 2 -> d6 < d1 / 2 - d4 / 2 -> Forall (on_grid 12) [d3 / 2; - d4 / 2; d2 / 2 - d8; - d7 / 2; d2 / 2; d7 / 2; d4 / 2; d1 / 2 - d6; d5 / 2; d1 / 2; - d5 / 2; - d3 / 2; - d2 / 2 + d8; - d2 / 2; - d1 / 2 + d6; - d1 / 2] ->
  as_plates mat gm [rect (- d2 / 2 + d8) (- d4 / 2) (d2 / 2 - d8) (d4 / 2); rect (- d3 / 2) (d4 / 2) (d3 / 2) (d1 / 2 - d6); rect (- d3 / 2) (- d1 / 2 + d6) (d3 / 2) (- d4 / 2); rect (d2 / 2 - d8) (- d7 / 2) (d2 / 2) (d7 / 2); rect (- d2 / 2) (- d7 / 2) (- d2 / 2 + d8) (d7 / 2); rect (- d5 / 2) (d1 / 2 - d6) (d5 / 2) (d1 / 2); rect (- d5 / 2) (- d1 / 2) (d5 / 2) (- d1 / 2 + d6)].
Proof.
  intros E H0 H1 H2 H3 H4 H5 H6 H7 H8 H9 G. unfold nastran_fcross in E. apply nas_ok in E.
  eapply (outline_plates sh _ [(d3 / 2, - d4 / 2); (d2 / 2 - d8, - d4 / 2); (d2 / 2 - d8, - d7 / 2); (d2 / 2, - d7 / 2); (d2 / 2, d7 / 2); (d2 / 2 - d8, d7 / 2); (d2 / 2 - d8, d4 / 2); (d3 / 2, d4 / 2); (d3 / 2, d1 / 2 - d6); (d5 / 2, d1 / 2 - d6); (d5 / 2, d1 / 2); (- d5 / 2, d1 / 2); (- d5 / 2, d1 / 2 - d6); (- d3 / 2, d1 / 2 - d6); (- d3 / 2, d4 / 2); (- d2 / 2 + d8, d4 / 2); (- d2 / 2 + d8, d7 / 2); (- d2 / 2, d7 / 2); (- d2 / 2, - d7 / 2); (- d2 / 2 + d8, - d7 / 2); (- d2 / 2 + d8, - d4 / 2); (- d3 / 2, - d4 / 2); (- d3 / 2, - d1 / 2 + d6); (- d5 / 2, - d1 / 2 + d6); (- d5 / 2, - d1 / 2); (d5 / 2, - d1 / 2); (d5 / 2, - d1 / 2 + d6); (d3 / 2, - d1 / 2 + d6)]); [exact E|unfold fcross_points; same_points|opened|grid_of G| |plates_of|discriminate|intros m; apply nas_fcross_outline; assumption].
  exists (d3 / 2, - d4 / 2). split; [cbn [In]; tauto|]. intros Q. injection Q. lra.
Qed.

Lemma nas_box_outline m d1 d2 d3 d4 : 0 < d3 -> 0 < d4 -> 2 * d4 < d1 -> 2 * d3 < d2 -> same_boundary (parts_edges (map (pair m) [rect (- d1 / 2) (- d2 / 2) (d1 / 2) (- d2 / 2 + d3); rect (- d1 / 2) (d2 / 2 - d3) (d1 / 2) (d2 / 2); rect (- d1 / 2) (- d2 / 2 + d3) (- d1 / 2 + d4) (d2 / 2 - d3); rect (d1 / 2 - d4) (- d2 / 2 + d3) (d1 / 2) (d2 / 2 - d3)])) (S_Section.ring_edges m [(- d1 / 2, - d2 / 2); (d1 / 2, - d2 / 2); (d1 / 2, d2 / 2); (- d1 / 2, d2 / 2)] ++ S_Section.ring_edges m (rev [(- d1 / 2 + d4, - d2 / 2 + d3); (d1 / 2 - d4, - d2 / 2 + d3); (d1 / 2 - d4, d2 / 2 - d3); (- d1 / 2 + d4, d2 / 2 - d3)])).
Proof.
  intros H0 H1 H2 H3. set (v0 := (- d1 / 2, - d2 / 2)). set (v1 := (d1 / 2, - d2 / 2)). set (v2 := (d1 / 2, d2 / 2)). set (v3 := (- d1 / 2, d2 / 2)). set (v4 := (- d1 / 2 + d4, - d2 / 2 + d3)). set (v5 := (d1 / 2 - d4, - d2 / 2 + d3)). set (v6 := (d1 / 2 - d4, d2 / 2 - d3)). set (v7 := (- d1 / 2 + d4, d2 / 2 - d3)). set (v8 := (d1 / 2, - d2 / 2 + d3)). set (v9 := (- d1 / 2, - d2 / 2 + d3)). set (v10 := (- d1 / 2, d2 / 2 - d3)). set (v11 := (d1 / 2, d2 / 2 - d3)).
  change (same_boundary [(m, v0, v1); (m, v1, v8); (m, v8, v9); (m, v9, v0); (m, v10, v11); (m, v11, v2); (m, v2, v3); (m, v3, v10); (m, v9, v4); (m, v4, v7); (m, v7, v10); (m, v10, v9); (m, v5, v8); (m, v8, v11); (m, v11, v6); (m, v6, v5)] [(m, v0, v1); (m, v1, v2); (m, v2, v3); (m, v3, v0); (m, v7, v6); (m, v6, v5); (m, v5, v4); (m, v4, v7)]).
  splits m v8 v9 v5 (((d1 / 2 - d4) - (d1 / 2)) / ((- d1 / 2) - (d1 / 2))). splits m v5 v9 v4 (((- d1 / 2 + d4) - (d1 / 2 - d4)) / ((- d1 / 2) - (d1 / 2 - d4))). splits m v10 v11 v7 (((- d1 / 2 + d4) - (- d1 / 2)) / ((d1 / 2) - (- d1 / 2))). splits m v7 v11 v6 (((d1 / 2 - d4) - (- d1 / 2 + d4)) / ((d1 / 2) - (- d1 / 2 + d4))). cancels m v8 v5. cancels m v4 v9. cancels m v10 v7. cancels m v6 v11. apply sb_sym.
  splits m v1 v2 v8 (((- d2 / 2 + d3) - (- d2 / 2)) / ((d2 / 2) - (- d2 / 2))). splits m v8 v2 v11 (((d2 / 2 - d3) - (- d2 / 2 + d3)) / ((d2 / 2) - (- d2 / 2 + d3))). splits m v3 v0 v10 (((d2 / 2 - d3) - (d2 / 2)) / ((- d2 / 2) - (d2 / 2))). splits m v10 v0 v9 (((- d2 / 2 + d3) - (d2 / 2 - d3)) / ((- d2 / 2) - (d2 / 2 - d3))). apply sb_perm. perms.
Qed.
Theorem C105_nastran_box sh d1 d2 d3 d4 mat gm pts o i : nastran_box sh d1 d2 d3 d4 mat = Ok (gm, pts) -> 0 < d3 -> 0 < d4 -> 2 * d4 < d1 -> 2 * d3 < d2 -> Forall (on_grid 12) [- d1 / 2; - d2 / 2; d1 / 2; d2 / 2; - d1 / 2 + d4; - d2 / 2 + d3; d1 / 2 - d4; d2 / 2 - d3] ->
  let outer := [(- d1 / 2, - d2 / 2); (d1 / 2, - d2 / 2); (d1 / 2, d2 / 2); (- d1 / 2, d2 / 2)] in let inner := [(- d1 / 2 + d4, - d2 / 2 + d3); (d1 / 2 - d4, - d2 / 2 + d3); (d1 / 2 - d4, d2 / 2 - d3); (- d1 / 2 + d4, d2 / 2 - d3)] in
  same_cycle outer o -> same_cycle inner i -> sh_difference sh (mkPoly outer []) [mkPoly inner []] = Some (mkPoly o [i]) ->
  as_plates mat gm [rect (- d1 / 2) (- d2 / 2) (d1 / 2) (- d2 / 2 + d3); rect (- d1 / 2) (d2 / 2 - d3) (d1 / 2) (d2 / 2); rect (- d1 / 2) (- d2 / 2 + d3) (- d1 / 2 + d4) (d2 / 2 - d3); rect (d1 / 2 - d4) (- d2 / 2 + d3) (d1 / 2) (d2 / 2 - d3)].
Proof.
  intros E H0 H1 H2 H3 G outer inner So Si D. unfold nastran_box in E. apply nas_ok in E.
  eapply (hollow_plates sh _ _ outer inner); [exact E|unfold bar_points; same_points|unfold box_inner; same_points|unfold outer; opened|unfold inner; opened|unfold outer; grid_of G|unfold inner; grid_of G| | | |plates_of|discriminate|exact So|exact Si|exact D|intros m; apply nas_box_outline; assumption].
  - exists (- d1 / 2, - d2 / 2). split; [cbn [In outer]; tauto|]. intros Q. injection Q. lra.
  - replace (ring_area outer) with (((d1 / 2) - (- d1 / 2)) * ((- d2 / 2 + d3) - (- d2 / 2)) + ((d1 / 2) - (- d1 / 2)) * ((d2 / 2) - (d2 / 2 - d3)) + ((- d1 / 2 + d4) - (- d1 / 2)) * ((d2 / 2 - d3) - (- d2 / 2 + d3)) + ((d1 / 2) - (d1 / 2 - d4)) * ((d2 / 2 - d3) - (- d2 / 2 + d3)) + ((d1 / 2 - d4) - (- d1 / 2 + d4)) * ((d2 / 2 - d3) - (- d2 / 2 + d3))) by (unfold outer; unring; field). repeat apply Rplus_lt_0_compat; apply Rmult_lt_0_compat; lra.
  - replace (ring_area inner) with (((d1 / 2 - d4) - (- d1 / 2 + d4)) * ((d2 / 2 - d3) - (- d2 / 2 + d3))) by (unfold inner; unring; field). apply Rmult_lt_0_compat; lra.
Qed.

Lemma nas_box1_outline m d1 d2 d3 d4 d5 d6 : 0 < d3 -> 0 < d4 -> 0 < d5 -> 0 < d6 -> d5 + d6 < d1 -> d3 + d4 < d2 -> same_boundary (parts_edges (map (pair m) [rect 0 0 d1 d4; rect 0 (d2 - d3) d1 d2; rect 0 d4 d6 (d2 - d3); rect (d1 - d5) d4 d1 (d2 - d3)])) (S_Section.ring_edges m [(0, 0); (d1, 0); (d1, d2); (0, d2)] ++ S_Section.ring_edges m (rev [(d6, d4); (d1 - d5, d4); (d1 - d5, d2 - d3); (d6, d2 - d3)])).
Proof.
  intros H0 H1 H2 H3 H4 H5. set (v0 := (0, 0)). set (v1 := (d1, 0)). set (v2 := (d1, d2)). set (v3 := (0, d2)). set (v4 := (d6, d4)). set (v5 := (d1 - d5, d4)). set (v6 := (d1 - d5, d2 - d3)). set (v7 := (d6, d2 - d3)). set (v8 := (d1, d4)). set (v9 := (0, d4)). set (v10 := (0, d2 - d3)). set (v11 := (d1, d2 - d3)).
  change (same_boundary [(m, v0, v1); (m, v1, v8); (m, v8, v9); (m, v9, v0); (m, v10, v11); (m, v11, v2); (m, v2, v3); (m, v3, v10); (m, v9, v4); (m, v4, v7); (m, v7, v10); (m, v10, v9); (m, v5, v8); (m, v8, v11); (m, v11, v6); (m, v6, v5)] [(m, v0, v1); (m, v1, v2); (m, v2, v3); (m, v3, v0); (m, v7, v6); (m, v6, v5); (m, v5, v4); (m, v4, v7)]).
  splits m v8 v9 v5 (((d1 - d5) - d1) / (0 - d1)). splits m v5 v9 v4 ((d6 - (d1 - d5)) / (0 - (d1 - d5))). splits m v10 v11 v7 ((d6 - 0) / (d1 - 0)). splits m v7 v11 v6 (((d1 - d5) - d6) / (d1 - d6)). cancels m v8 v5. cancels m v4 v9. cancels m v10 v7. cancels m v6 v11. apply sb_sym.
  splits m v1 v2 v8 ((d4 - 0) / (d2 - 0)). splits m v8 v2 v11 (((d2 - d3) - d4) / (d2 - d4)). splits m v3 v0 v10 (((d2 - d3) - d2) / (0 - d2)). splits m v10 v0 v9 ((d4 - (d2 - d3)) / (0 - (d2 - d3))). apply sb_perm. perms.
Qed.
Theorem C105_nastran_box1 sh d1 d2 d3 d4 d5 d6 mat gm pts o i : nastran_box1 sh d1 d2 d3 d4 d5 d6 mat = Ok (gm, pts) -> 0 < d3 -> 0 < d4 -> 0 < d5 -> 0 < d6 -> d5 + d6 < d1 -> d3 + d4 < d2 -> Forall (on_grid 12) [d1; d2; d6; d4; d1 - d5; d2 - d3] ->
  let outer := [(0, 0); (d1, 0); (d1, d2); (0, d2)] in let inner := [(d6, d4); (d1 - d5, d4); (d1 - d5, d2 - d3); (d6, d2 - d3)] in
  same_cycle outer o -> same_cycle inner i -> sh_difference sh (mkPoly outer []) [mkPoly inner []] = Some (mkPoly o [i]) ->
  as_plates mat gm [rect 0 0 d1 d4; rect 0 (d2 - d3) d1 d2; rect 0 d4 d6 (d2 - d3); rect (d1 - d5) d4 d1 (d2 - d3)].
Proof.
  intros E H0 H1 H2 H3 H4 H5 G outer inner So Si D. unfold nastran_box1 in E. apply nas_ok in E.
  eapply (hollow_plates sh _ _ outer inner); [exact E|unfold box1_outer; same_points|unfold box1_inner; same_points|unfold outer; opened|unfold inner; opened|unfold outer; grid_of G|unfold inner; grid_of G| | | |plates_of|discriminate|exact So|exact Si|exact D|intros m; apply nas_box1_outline; assumption].
  - exists (d1, 0). split; [cbn [In outer]; tauto|]. intros Q. injection Q. lra.
  - replace (ring_area outer) with ((d1 - 0) * (d4 - 0) + (d1 - 0) * (d2 - (d2 - d3)) + (d6 - 0) * ((d2 - d3) - d4) + (d1 - (d1 - d5)) * ((d2 - d3) - d4) + ((d1 - d5) - d6) * ((d2 - d3) - d4)) by (unfold outer; unring; field). repeat apply Rplus_lt_0_compat; apply Rmult_lt_0_compat; lra.
  - replace (ring_area inner) with (((d1 - d5) - d6) * ((d2 - d3) - d4)) by (unfold inner; unring; field). apply Rmult_lt_0_compat; lra.
Qed.

Lemma nas_gbox_outline m d1 d2 d3 d4 d5 d6 : 0 < d3 -> 0 < d4 -> 0 < d5 -> 0 < d6 -> 2 * d5 + d6 < d1 -> d3 + d4 < d2 -> same_boundary (parts_edges (map (pair m) [rect 0 0 d1 d4; rect 0 (d2 - d3) d1 d2; rect ((d1 - d6) / 2 - d5) d4 ((d1 - d6) / 2) (d2 - d3); rect ((d1 + d6) / 2) d4 ((d1 + d6) / 2 + d5) (d2 - d3)])) (S_Section.ring_edges m [(0, 0); (d1, 0); (d1, d4); ((d1 + d6) / 2 + d5, d4); ((d1 + d6) / 2 + d5, d2 - d3); (d1, d2 - d3); (d1, d2); (0, d2); (0, d2 - d3); ((d1 - d6) / 2 - d5, d2 - d3); ((d1 - d6) / 2 - d5, d4); (0, d4)] ++ S_Section.ring_edges m (rev [((d1 - d6) / 2, d4); ((d1 + d6) / 2, d4); ((d1 + d6) / 2, d2 - d3); ((d1 - d6) / 2, d2 - d3)])).
Proof.
  intros H0 H1 H2 H3 H4 H5. set (v0 := (0, 0)). set (v1 := (d1, 0)). set (v2 := (d1, d4)). set (v3 := ((d1 + d6) / 2 + d5, d4)). set (v4 := ((d1 + d6) / 2 + d5, d2 - d3)). set (v5 := (d1, d2 - d3)). set (v6 := (d1, d2)). set (v7 := (0, d2)). set (v8 := (0, d2 - d3)). set (v9 := ((d1 - d6) / 2 - d5, d2 - d3)). set (v10 := ((d1 - d6) / 2 - d5, d4)). set (v11 := (0, d4)). set (v12 := ((d1 - d6) / 2, d4)). set (v13 := ((d1 + d6) / 2, d4)). set (v14 := ((d1 + d6) / 2, d2 - d3)). set (v15 := ((d1 - d6) / 2, d2 - d3)).
  change (same_boundary [(m, v0, v1); (m, v1, v2); (m, v2, v11); (m, v11, v0); (m, v8, v5); (m, v5, v6); (m, v6, v7); (m, v7, v8); (m, v10, v12); (m, v12, v15); (m, v15, v9); (m, v9, v10); (m, v13, v3); (m, v3, v4); (m, v4, v14); (m, v14, v13)] [(m, v0, v1); (m, v1, v2); (m, v2, v3); (m, v3, v4); (m, v4, v5); (m, v5, v6); (m, v6, v7); (m, v7, v8); (m, v8, v9); (m, v9, v10); (m, v10, v11); (m, v11, v0); (m, v15, v14); (m, v14, v13); (m, v13, v12); (m, v12, v15)]).
  splits m v2 v11 v3 ((((d1 + d6) / 2 + d5) - d1) / (0 - d1)). splits m v3 v11 v13 ((((d1 + d6) / 2) - ((d1 + d6) / 2 + d5)) / (0 - ((d1 + d6) / 2 + d5))). splits m v13 v11 v12 ((((d1 - d6) / 2) - ((d1 + d6) / 2)) / (0 - ((d1 + d6) / 2))). splits m v12 v11 v10 ((((d1 - d6) / 2 - d5) - ((d1 - d6) / 2)) / (0 - ((d1 - d6) / 2))). splits m v8 v5 v9 ((((d1 - d6) / 2 - d5) - 0) / (d1 - 0)). splits m v9 v5 v15 ((((d1 - d6) / 2) - ((d1 - d6) / 2 - d5)) / (d1 - ((d1 - d6) / 2 - d5))). splits m v15 v5 v14 ((((d1 + d6) / 2) - ((d1 - d6) / 2)) / (d1 - ((d1 - d6) / 2))). splits m v14 v5 v4 ((((d1 + d6) / 2 + d5) - ((d1 + d6) / 2)) / (d1 - ((d1 + d6) / 2))). cancels m v3 v13. cancels m v12 v10. cancels m v9 v15. cancels m v14 v4. apply sb_sym.
   apply sb_perm. perms.
Qed.
Theorem C105_nastran_gbox sh d1 d2 d3 d4 d5 d6 mat gm pts o i : nastran_gbox sh d1 d2 d3 d4 d5 d6 mat = Ok (gm, pts) -> 0 < d3 -> 0 < d4 -> 0 < d5 -> 0 < d6 -> 2 * d5 + d6 < d1 -> d3 + d4 < d2 -> Forall (on_grid 12) [d1; d4; (d1 + d6) / 2 + d5; d2 - d3; d2; (d1 - d6) / 2 - d5; (d1 - d6) / 2; (d1 + d6) / 2] ->
  let outer := [(0, 0); (d1, 0); (d1, d4); ((d1 + d6) / 2 + d5, d4); ((d1 + d6) / 2 + d5, d2 - d3); (d1, d2 - d3); (d1, d2); (0, d2); (0, d2 - d3); ((d1 - d6) / 2 - d5, d2 - d3); ((d1 - d6) / 2 - d5, d4); (0, d4)] in let inner := [((d1 - d6) / 2, d4); ((d1 + d6) / 2, d4); ((d1 + d6) / 2, d2 - d3); ((d1 - d6) / 2, d2 - d3)] in
  same_cycle outer o -> same_cycle inner i -> sh_difference sh (mkPoly outer []) [mkPoly inner []] = Some (mkPoly o [i]) ->
  as_plates mat gm [rect 0 0 d1 d4; rect 0 (d2 - d3) d1 d2; rect ((d1 - d6) / 2 - d5) d4 ((d1 - d6) / 2) (d2 - d3); rect ((d1 + d6) / 2) d4 ((d1 + d6) / 2 + d5) (d2 - d3)].
Proof.
  intros E H0 H1 H2 H3 H4 H5 G outer inner So Si D. unfold nastran_gbox in E. apply nas_ok in E.
  eapply (hollow_plates sh _ _ outer inner); [exact E|unfold gbox_outer; same_points|unfold gbox_inner; same_points|unfold outer; opened|unfold inner; opened|unfold outer; grid_of G|unfold inner; grid_of G| | | |plates_of|discriminate|exact So|exact Si|exact D|intros m; apply nas_gbox_outline; assumption].
  - exists (d1, 0). split; [cbn [In outer]; tauto|]. intros Q. injection Q. lra.
  - replace (ring_area outer) with ((d1 - 0) * (d4 - 0) + (d1 - 0) * (d2 - (d2 - d3)) + (((d1 - d6) / 2) - ((d1 - d6) / 2 - d5)) * ((d2 - d3) - d4) + (((d1 + d6) / 2 + d5) - ((d1 + d6) / 2)) * ((d2 - d3) - d4) + (((d1 + d6) / 2) - ((d1 - d6) / 2)) * ((d2 - d3) - d4)) by (unfold outer; unring; field). repeat apply Rplus_lt_0_compat; apply Rmult_lt_0_compat; lra.
  - replace (ring_area inner) with ((((d1 + d6) / 2) - ((d1 - d6) / 2)) * ((d2 - d3) - d4)) by (unfold inner; unring; field). apply Rmult_lt_0_compat; lra.
Qed.

Lemma nas_dbox_outline m d1 d2 d3 d4 d5 d6 d7 d8 d9 d10 : 0 < d4 -> 0 < d5 -> 0 < d6 -> 0 < d7 -> 0 < d8 -> 0 < d9 -> 0 < d10 -> d4 + d5 / 2 < d3 -> d3 + d5 / 2 < d1 - d6 -> d7 + d8 < d2 -> d9 + d10 < d2 -> same_boundary (parts_edges (map (pair m) [rect 0 0 d4 d2; rect (d3 - d5 / 2) 0 (d3 + d5 / 2) d2; rect (d1 - d6) 0 d1 d2; rect d4 0 (d3 - d5 / 2) d8; rect d4 (d2 - d7) (d3 - d5 / 2) d2; rect (d3 + d5 / 2) 0 (d1 - d6) d10; rect (d3 + d5 / 2) (d2 - d9) (d1 - d6) d2])) (S_Section.ring_edges m [(0, 0); (d1, 0); (d1, d2); (0, d2)] ++ S_Section.ring_edges m (rev [(d4, d8); (d3 - d5 / 2, d8); (d3 - d5 / 2, d2 - d7); (d4, d2 - d7)]) ++ S_Section.ring_edges m (rev [(d3 + d5 / 2, d10); (d1 - d6, d10); (d1 - d6, d2 - d9); (d3 + d5 / 2, d2 - d9)])).
Proof.
  intros H0 H1 H2 H3 H4 H5 H6 H7 H8 H9 H10. set (v0 := (0, 0)). set (v1 := (d1, 0)). set (v2 := (d1, d2)). set (v3 := (0, d2)). set (v4 := (d4, d8)). set (v5 := (d3 - d5 / 2, d8)). set (v6 := (d3 - d5 / 2, d2 - d7)). set (v7 := (d4, d2 - d7)). set (v8 := (d3 + d5 / 2, d10)). set (v9 := (d1 - d6, d10)). set (v10 := (d1 - d6, d2 - d9)). set (v11 := (d3 + d5 / 2, d2 - d9)). set (v12 := (d4, 0)). set (v13 := (d4, d2)). set (v14 := (d3 - d5 / 2, 0)). set (v15 := (d3 + d5 / 2, 0)). set (v16 := (d3 + d5 / 2, d2)). set (v17 := (d3 - d5 / 2, d2)). set (v18 := (d1 - d6, 0)). set (v19 := (d1 - d6, d2)).
  change (same_boundary [(m, v0, v12); (m, v12, v13); (m, v13, v3); (m, v3, v0); (m, v14, v15); (m, v15, v16); (m, v16, v17); (m, v17, v14); (m, v18, v1); (m, v1, v2); (m, v2, v19); (m, v19, v18); (m, v12, v14); (m, v14, v5); (m, v5, v4); (m, v4, v12); (m, v7, v6); (m, v6, v17); (m, v17, v13); (m, v13, v7); (m, v15, v18); (m, v18, v9); (m, v9, v8); (m, v8, v15); (m, v11, v10); (m, v10, v19); (m, v19, v16); (m, v16, v11)] [(m, v0, v1); (m, v1, v2); (m, v2, v3); (m, v3, v0); (m, v7, v6); (m, v6, v5); (m, v5, v4); (m, v4, v7); (m, v11, v10); (m, v10, v9); (m, v9, v8); (m, v8, v11)]).
  splits m v12 v13 v4 ((d8 - 0) / (d2 - 0)). splits m v4 v13 v7 (((d2 - d7) - d8) / (d2 - d8)). splits m v15 v16 v8 ((d10 - 0) / (d2 - 0)). splits m v8 v16 v11 (((d2 - d9) - d10) / (d2 - d10)). splits m v17 v14 v6 (((d2 - d7) - d2) / (0 - d2)). splits m v6 v14 v5 ((d8 - (d2 - d7)) / (0 - (d2 - d7))). splits m v19 v18 v10 (((d2 - d9) - d2) / (0 - d2)). splits m v10 v18 v9 ((d10 - (d2 - d9)) / (0 - (d2 - d9))). cancels m v12 v4. cancels m v7 v13. cancels m v15 v8. cancels m v11 v16. cancels m v17 v6. cancels m v5 v14. cancels m v19 v10. cancels m v9 v18. apply sb_sym.
  splits m v0 v1 v12 ((d4 - 0) / (d1 - 0)). splits m v12 v1 v14 (((d3 - d5 / 2) - d4) / (d1 - d4)). splits m v14 v1 v15 (((d3 + d5 / 2) - (d3 - d5 / 2)) / (d1 - (d3 - d5 / 2))). splits m v15 v1 v18 (((d1 - d6) - (d3 + d5 / 2)) / (d1 - (d3 + d5 / 2))). splits m v2 v3 v19 (((d1 - d6) - d1) / (0 - d1)). splits m v19 v3 v16 (((d3 + d5 / 2) - (d1 - d6)) / (0 - (d1 - d6))). splits m v16 v3 v17 (((d3 - d5 / 2) - (d3 + d5 / 2)) / (0 - (d3 + d5 / 2))). splits m v17 v3 v13 ((d4 - (d3 - d5 / 2)) / (0 - (d3 - d5 / 2))). apply sb_perm. perms.
Qed.
Theorem C105_nastran_dbox sh so d1 d2 d3 d4 d5 d6 d7 d8 d9 d10 mat gm pts : cuts so -> nastran_dbox sh so d1 d2 d3 d4 d5 d6 d7 d8 d9 d10 mat = Ok (gm, pts) -> 0 < d4 -> 0 < d5 -> 0 < d6 -> 0 < d7 -> 0 < d8 -> 0 < d9 -> 0 < d10 -> d4 + d5 / 2 < d3 -> d3 + d5 / 2 < d1 - d6 -> d7 + d8 < d2 -> d9 + d10 < d2 -> Forall (on_grid 12) [d1; d2; d4; d8; d3 - d5 / 2; d2 - d7; d3 + d5 / 2; d10; d1 - d6; d2 - d9] ->
  as_plates mat gm [rect 0 0 d4 d2; rect (d3 - d5 / 2) 0 (d3 + d5 / 2) d2; rect (d1 - d6) 0 d1 d2; rect d4 0 (d3 - d5 / 2) d8; rect d4 (d2 - d7) (d3 - d5 / 2) d2; rect (d3 + d5 / 2) 0 (d1 - d6) d10; rect (d3 + d5 / 2) (d2 - d9) (d1 - d6) d2].
Proof.
  intros C E H0 H1 H2 H3 H4 H5 H6 H7 H8 H9 H10 G. unfold nastran_dbox in E. apply nas_ok in E.
  destruct (two_cuts so (box1_outer d1 d2) (dbox_left d2 d3 d4 d5 d7 d8) (dbox_right d1 d2 d3 d5 d6 d9 d10) C) as (a & w & E1 & E2 & S & Q); try discriminate.
  - left. unfold dbox_left, box1_outer, S_Concrete.edges. cbn [tl firstn combine app]. repeat (apply Forall_cons; [repeat (apply Forall_cons; [unfold turn; cbn [fst snd]; nra|]); apply Forall_nil|]); apply Forall_nil.
  - left. unfold dbox_right, box1_outer, S_Concrete.edges. cbn [tl firstn combine app]. repeat (apply Forall_cons; [repeat (apply Forall_cons; [unfold turn; cbn [fst snd]; nra|]); apply Forall_nil|]); apply Forall_nil.
  - exists 1, 0, d3. unfold dbox_left, dbox_right. split; repeat (apply Forall_cons; [cbn [fst snd]; lra|]); apply Forall_nil.
  - rewrite !open_loop_ring in E by (unfold box1_outer, dbox_left, dbox_right; opened). cbn [bind] in E. rewrite E1 in E. cbn [bind] in E. rewrite E2 in E. injection E as <-.
    apply (holes_plates sh w (box1_outer d1 d2) [dbox_left d2 d3 d4 d5 d7 d8; dbox_right d1 d2 d3 d5 d6 d9 d10]); [exact S|exact Q|unfold box1_outer; pose proof G as G'; grid_of G'| | |unfold box1_outer; unring; nra| |plates_of|discriminate|].
    + unfold dbox_left, dbox_right. constructor; [pose proof G as G'; grid_of G'|constructor; [pose proof G as G'; grid_of G'|constructor]].
    + exists (d1, 0). split; [right; left; reflexivity|]. intros K. injection K. lra.
    + constructor; [|constructor; [|constructor]].
      * replace (ring_area (dbox_left d2 d3 d4 d5 d7 d8)) with ((d3 - d5 / 2 - d4) * (d2 - d7 - d8)) by (unfold dbox_left; unring; field). apply Rmult_lt_0_compat; lra.
      * replace (ring_area (dbox_right d1 d2 d3 d5 d6 d9 d10)) with ((d1 - d6 - (d3 + d5 / 2)) * (d2 - d9 - d10)) by (unfold dbox_right; unring; field). apply Rmult_lt_0_compat; lra.
    + intros m. unfold holed_edges. cbn [map concat]. rewrite app_nil_r. apply nas_dbox_outline; assumption.
Qed.

(** A hat welded to a plate: a compound of two geometries. *)
Theorem C105_nastran_hat1 sh d1 d2 d3 d4 d5 mat c pts : nastran_hat1 sh d1 d2 d3 d4 d5 mat = Ok (c, pts) -> on_grid 12 (d1 / 2) -> on_grid 12 d2 -> on_grid 12 (d3 / 2) -> on_grid 12 d4 -> on_grid 12 (d5 / 2) ->
  0 < d4 -> 0 < d5 -> 2 * d4 + d5 < d2 -> d3 < d1 -> 2 * d4 < d3 ->
  compound_as_plates mat c [rect (- d1 / 2) d5 (- d3 / 2) (d5 + d4); rect (- d3 / 2) d5 (- d3 / 2 + d4) (d2 - d4); rect (- d3 / 2) (d2 - d4) (d3 / 2) d2; rect (d3 / 2 - d4) d5 (d3 / 2) (d2 - d4);
    rect (d3 / 2) d5 (d1 / 2) (d5 + d4); rect (- d1 / 2) 0 (d1 / 2) d5].
Proof.
  intros E G1 G2 G3 G4 G5 P4 P5 L2 L3 L4. destruct (hat1_made sh d1 d2 d3 d4 d5 mat) as (c' & h & w & E' & C & Mh & Mp & Eh & Ep); try assumption. rewrite E in E'. injection E' as <- _.
  apply compound_boundary_plates; [|plates_of|discriminate]. set (m := mo_val mat).
  unfold compound_edges, compound_regions. rewrite C. cbn [map concat fst snd]. rewrite Mh, Mp, Eh, Ep. fold m. rewrite app_nil_r.
  pose proof (hat_ring_pos d1 d2 d3 d4 d5 P4 L2 L3 L4) as Hp. assert (Ht : ring_area (map (translate_pt (- d1 / 2) d5) (hat_ring d1 d2 d3 d4 d5)) = ring_area (hat_ring d1 d2 d3 d4 d5)) by (unfold hat_ring, hat_points, translate_pt; cbn [map fst snd]; unring; field).
  rewrite (one_edges m (map (translate_pt (- d1 / 2) d5) (hat_ring d1 d2 d3 d4 d5))) by lra. rewrite (one_edges m (plate_ring d1 d5)) by (destruct (plate_mx d1 d5) as [-> _]; apply Rmult_le_pos; lra).
  pose proof (sb_moved (d1 / 2, - d5) _ _ (nas_hat_outline m (d2 - d5) d4 d3 ((d1 - d3) / 2) P4 ltac:(lra) ltac:(lra) L4)) as B.
  match type of B with same_boundary ?x ?y => set (pe := x) in B; set (re := y) in B end.
  assert (Er : re = S_Section.ring_edges m (map (translate_pt (- d1 / 2) d5) (hat_ring d1 d2 d3 d4 d5))).
  { subst re. unfold hat_ring, hat_points, translate_pt, moved_edges, moved_point. cbn [S_Section.ring_edges path_edges map fst snd]. repeat (apply f_equal2; [apply f_equal2; [apply f_equal2; [reflexivity|apply f_equal2; field]|apply f_equal2; field]|]). reflexivity. }
  rewrite <- Er. clearbody re. apply sb_sym.
  match goal with |- same_boundary (parts_edges [(_, ?a); (_, ?b); (_, ?q); (_, ?d); (_, ?e); (_, ?f)]) _ => change (parts_edges [(m, a); (m, b); (m, q); (m, d); (m, e); (m, f)]) with (parts_edges (map (pair m) [a; b; q; d; e]) ++ S_Section.ring_edges m (plate_ring d1 d5)) end.
  apply sb_app; [|apply sb_perm, Permutation_refl]. eapply sb_trans; [|exact B]. apply sb_perm. match goal with |- Permutation ?x ?y => replace x with y; [apply Permutation_refl|] end.
  unfold pe, parts_edges, moved_edges, moved_point, rect_ring. cbn [S_Section.ring_edges path_edges map concat app fst snd r_x1 r_x2 r_y1 r_y2]. repeat (apply f_equal2; [apply f_equal2; [apply f_equal2; [reflexivity|apply f_equal2; field]|apply f_equal2; field]|]). reflexivity.
Qed.

(** The hypotheses are met: the 2 x 2 x 1 angle as a NASTRAN section, meshed by four triangles, with the area 3, the centroid (5/6, 5/6) and the plastic moduli 11/8. *)
Example C105_nastran_met : exists l query s h1 h2 shapes gm pts, plastic_done l query angle_geometry s "direct" h1 h2 shapes 0 /\ nastran_l toy 2 2 1 1 default_material = Ok (gm, pts) /\
  analysed angle_geometry s "direct" (h1 ++ CPlastic :: h2) /\ fills (s_tris s) (mo_val default_material) (gm_poly gm) /\ fills_centred (concat shapes) (mo_val default_material) (gm_poly gm) /\
  gives l query angle_geometry s (h1 ++ CPlastic :: h2) get_area [3] /\ gives_near l query angle_geometry s (h1 ++ CPlastic :: h2) (modulus_getter s) 0 [11 / 8; 11 / 8].
Proof.
  destruct C89_angle_met as (l & query & s & h1 & h2 & shapes & gm & D & E & F & B & _).
  assert (P : angle_points 2 2 1 0 0 4 = l_points 2 2 1 1). { unfold angle_points, isclose. destruct (Rle_dec _ _) as [L|_]; [exfalso; rewrite Rabs_R0 in L; rewrite Rabs_right in L by lra; lra|]. unfold l_points. sharp. }
  unfold angle_section in E. destruct (Rlt_dec 1 0) as [|_]; [lra|]. rewrite P in E.
  assert (N : nastran_l toy 2 2 1 1 default_material = Ok (gm, [(1 / 2, 2 - 1 / 2); (2 - 1 / 2, - (1) / 2); (- (1) / 2, - (1) / 2); (- (1) / 2, 2 - 1 / 2)])).
  { unfold nastran_l, checked, lt_b. destruct (Rlt_dec 1 2) as [_|]; [|lra]. cbn [andb]. rewrite E. reflexivity. }
  destruct (C105_nastran_l toy 2 2 1 1 default_material gm _ N) as (El & _ & Pl); [lra|lra|lra|lra|repeat constructor; apply int_grid|].
  assert (An : analysed angle_geometry s "direct" (h1 ++ CPlastic :: h2)).
  { destruct D as (Hb & U & I & _). split; [exact Hb|]. split; [exact U|]. split; [apply in_or_app; left; exact I|]. destruct Hb as [Es _]. injection Es as <-. cbn [s_mats]. unfold is_composite. cbn [forallb]. replace (mat_eqb default_material default_material) with true; [reflexivity|]. unfold mat_eqb. rewrite !String.eqb_refl. unfold Reqb. repeat destruct (Req_EM_T _ _); try congruence. reflexivity. }
  exists l, query, s, h1, h2, shapes, gm. eexists. split; [exact D|]. split; [exact N|]. split; [exact An|]. split; [exact F|]. split; [exact B|]. split.
  - destruct (El eq_refl l query _ s _ _ An F) as (G & _). replace 3 with (plates_area [rect 0 0 2 1; rect 0 1 1 2]); [exact G|]. unfold plates_area, r_area, r_w, r_h, sumf, Rsum. cbn [map fold_right r_x1 r_x2 r_y1 r_y2]. lra.
  - assert (X : horizontal_axis (map (pair (mo_val default_material)) [rect 0 0 2 1; rect 0 1 1 2]) (3 / 4)) by (unfold horizontal_axis, length_above, length_below, sumf, Rsum, r_w, r_h; cbn [map fold_right fst snd r_x1 r_y1 r_x2 r_y2]; sides_of; cbn; lra).
    assert (Y : vertical_axis (map (pair (mo_val default_material)) [rect 0 0 2 1; rect 0 1 1 2]) (3 / 4)) by (unfold vertical_axis, length_above, length_below, sumf, Rsum, r_w, r_h; cbn [map fold_right fst snd r_x1 r_y1 r_x2 r_y2]; sides_of; cbn; lra).
    eapply near_eq; [| |apply (Pl ltac:(cbn; lra) l query _ s _ h1 h2 shapes 0 (3 / 4) (3 / 4) D B X Y)].
    + ring.
    + unfold moment_about_horizontal, moment_about_vertical, sumf, Rsum, r_w, r_h. cbn [map fold_right fst snd r_x1 r_y1 r_x2 r_y2]. arms_of. change (m_fy (mo_val default_material)) with 1. apply f_equal2; [lra|apply f_equal2; [lra|reflexivity]].
Qed.
(** A hollow section: a girder box 10 wide and 6 deep. *)
Example C105_nastran_hollow_met : exists gm pts, nastran_gbox toy 10 6 1 1 1 2 default_material = Ok (gm, pts) /\
  as_plates default_material gm [rect 0 0 10 1; rect 0 (6 - 1) 10 6; rect ((10 - 2) / 2 - 1) 1 ((10 - 2) / 2) (6 - 1); rect ((10 + 2) / 2) 1 ((10 + 2) / 2 + 1) (6 - 1)].
Proof.
  assert (E : exists gm pts, nastran_gbox toy 10 6 1 1 1 2 default_material = Ok (gm, pts)).
  { unfold nastran_gbox, checked, lt_b. destruct (Rlt_dec _ _) as [_|]; [|lra]. destruct (Rlt_dec _ _) as [_|]; [|lra]. cbn [andb]. unfold hollow_geometry.
    rewrite (open_loop_ring (gbox_outer 10 6 1 1 1 2)) by (unfold gbox_outer; cbv zeta; opened). rewrite (open_loop_ring (gbox_inner 10 6 1 1 1 2)) by (unfold gbox_inner; cbv zeta; opened). eexists. eexists. reflexivity. }
  destruct E as (gm & pts & E). exists gm, pts. split; [exact E|]. eapply (C105_nastran_gbox toy 10 6 1 1 1 2 default_material gm pts _ _ E); try lra.
  - assert (G : forall x k, x = IZR k -> on_grid 12 x) by (intros x k ->; apply int_grid).
    repeat (constructor; [first [apply (G _ 10%Z); lra|apply (G _ 1%Z); lra|apply (G _ 7%Z); lra|apply (G _ 5%Z); lra|apply (G _ 6%Z); lra|apply (G _ 3%Z); lra|apply (G _ 4%Z); lra]|]). constructor.
  - left. eexists []. eexists. split; [reflexivity|rewrite app_nil_r; reflexivity].
  - left. eexists []. eexists. split; [reflexivity|rewrite app_nil_r; reflexivity].
  - reflexivity.
Qed.

(** A compound: a hat 8 high on a plate 10 wide. *)
Example C105_nastran_compound_met : exists c pts, nastran_hat1 toy 10 8 6 1 2 steel = Ok (c, pts) /\
  compound_as_plates steel c [rect (- 10 / 2) 2 (- 6 / 2) (2 + 1); rect (- 6 / 2) 2 (- 6 / 2 + 1) (8 - 1); rect (- 6 / 2) (8 - 1) (6 / 2) 8; rect (6 / 2 - 1) 2 (6 / 2) (8 - 1); rect (6 / 2) 2 (10 / 2) (2 + 1); rect (- 10 / 2) 0 (10 / 2) 2].
Proof.
  assert (G : forall x k, x = IZR k -> on_grid 12 x) by (intros x k ->; apply int_grid).
  assert (G1 : on_grid 12 (10 / 2)) by (apply (G _ 5%Z); lra). assert (G3 : on_grid 12 (6 / 2)) by (apply (G _ 3%Z); lra). assert (G5 : on_grid 12 (2 / 2)) by (apply (G _ 1%Z); lra).
  destruct (hat1_made toy 10 8 6 1 2 steel) as (c & h & w & E & _); try lra; try apply int_grid; try assumption. exists c. eexists. split; [exact E|].
  eapply C105_nastran_hat1; [exact E| | | | | | | | | |]; try lra; try apply int_grid; assumption.
Qed.

Print Assumptions C105_nastran_bar.
Print Assumptions C105_nastran_chan.
Print Assumptions C105_nastran_chan1.
Print Assumptions C105_nastran_chan2.
Print Assumptions C105_nastran_cross.
Print Assumptions C105_nastran_h.
Print Assumptions C105_nastran_i.
Print Assumptions C105_nastran_i1.
Print Assumptions C105_nastran_l.
Print Assumptions C105_nastran_tee.
Print Assumptions C105_nastran_tee1.
Print Assumptions C105_nastran_tee2.
Print Assumptions C105_nastran_zed.
Print Assumptions C105_nastran_hat.
Print Assumptions C105_nastran_fcross.
Print Assumptions C105_nastran_box.
Print Assumptions C105_nastran_box1.
Print Assumptions C105_nastran_gbox.
Print Assumptions C105_nastran_dbox.
Print Assumptions C105_nastran_hat1.
Print Assumptions C105_nastran_met.
Print Assumptions C105_nastran_hollow_met.
Print Assumptions C105_nastran_compound_met.
