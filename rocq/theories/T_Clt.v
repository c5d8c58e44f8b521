(** Theorems: elastic and plastic properties of panels of bonded layers, from the library function to the getters: C88, C89. *)
From Coquelicot Require Import Coquelicot.
From Coq Require Import String Reals List Permutation Lra Lia.
From Verif Require Import Base S_Integral M_Fea S_Fem M_Section S_Section M_Bisect M_Plastic S_Plastic M_Init M_Props M_State S_State M_Geometry S_Geometry P_Geom P_Section P_Totals P_Geometry3 M_Library S_Library P_Library P_Library2 P_Library9 P_State P_State3 P_State4 P_State5 S_Outline P_Outline P_Outline2 P_Outline3 S_PlasticForms P_PlasticForms P_PlasticForms2 P_PlasticForms3 S_Init S_Rects P_Rects.
From Verif Require Import P_Geometry8 P_Plastic6 P_Plastic7 T_Section T_Init T_Plastic T_Library T_State T_Outline T_PlasticForms T_Rects S_Composite T_Composite S_Clt.
From Verif Require Import M_Post.
Import ListNotations.
Local Open Scope list_scope.
Local Open Scope R_scope.

Lemma slab_values b y1 y2 : 0 < b -> y1 < y2 -> poly_area (slab b y1 y2) = b * (y2 - y1) /\ poly_centroid (slab b y1 y2) = (b / 2, (y1 + y2) / 2) /\
  poly_ixx_c (slab b y1 y2) = b * (y2 - y1) ^ 3 / 12 /\ poly_iyy_c (slab b y1 y2) = (y2 - y1) * b ^ 3 / 12 /\ poly_ixy_c (slab b y1 y2) = 0.
Proof.
  intros Hb Hy. set (r := [(0, y1); (b, y1); (b, y2); (0, y2)]). assert (Pos : 0 < b * (y2 - y1)) by (apply Rmult_lt_0_compat; lra).
  assert (Ar : ring_area r = b * (y2 - y1)) by (unfold r; unring; field). assert (L : 0 <= ring_area r) by lra.
  assert (S1 : forall f, poly_sum f (slab b y1 y2) = f r) by (intros f; apply one_sum, L).
  assert (A1 : poly_area (slab b y1 y2) = b * (y2 - y1)) by (change (poly_sum ring_area (slab b y1 y2) = b * (y2 - y1)); rewrite S1; exact Ar).
  assert (C1 : poly_centroid (slab b y1 y2) = (b / 2, (y1 + y2) / 2)). { unfold poly_centroid. rewrite A1. change (poly_mx (slab b y1 y2)) with (poly_sum ring_mx (slab b y1 y2)). change (poly_my (slab b y1 y2)) with (poly_sum ring_my (slab b y1 y2)). rewrite !S1. unfold r. unring. f_equal; field; lra. }
  split; [exact A1|]. split; [exact C1|]. unfold poly_ixx_c, poly_iyy_c, poly_ixy_c, poly_ixx, poly_iyy, poly_ixy. rewrite A1, C1, !S1. unfold r, ring_ixx, ring_iyy, ring_ixy. unring. repeat split; field.
Qed.

Lemma combine_nth (mats : list mat_obj) : forall i, combine mats (seq i (length mats)) = map (fun k => (nth (k - i) mats default_material, k)) (seq i (length mats)).
Proof.
  induction mats as [|m mats IH]; intros i; [reflexivity|]. cbn [length seq combine map]. rewrite Nat.sub_diag. cbn [nth]. f_equal. rewrite IH. apply map_ext_in. intros k Hk. apply in_seq in Hk. replace (k - i)%nat with (S (k - S i)) by lia. reflexivity.
Qed.
Lemma regions_combine (q : nat -> polygon) : forall gs mats i, map gm_mat gs = mats -> map gm_poly gs = map q (seq i (length mats)) ->
  map (fun gm => (mo_val (gm_mat gm), gm_poly gm)) gs = map (fun p => (mo_val (fst p), q (snd p))) (combine mats (seq i (length mats))).
Proof.
  induction gs as [|g gs IH]; intros mats i <- P; [reflexivity|]. cbn [map length seq combine] in *. injection P as P1 P2. f_equal; [cbn [fst snd]; rewrite P1; reflexivity|]. apply IH; [reflexivity|exact P2].
Qed.
Lemma clt_regions sh h mats b c : 0 < b -> on_grid 12 b -> 0 < h -> on_grid 12 h -> clt_rectangular_section sh (repeat h (length mats)) mats b = Ok c ->
  compound_regions c = map (fun k => (layer mats k, slab b (- (h * INR (S k))) (- (h * INR k)))) (seq 0 (length mats)).
Proof.
  intros Hb Gb Hh Gh E. destruct (C62_layers sh (repeat h (length mats)) mats b Hb Gb) as (c' & E' & M & P); [apply Forall_forall; intros x X; apply repeat_spec in X; subst; auto|rewrite repeat_length; lia|].
  rewrite E in E'. injection E' as <-. rewrite repeat_length in M, P. rewrite firstn_all in M.
  assert (P' : map gm_poly (cp_geoms c) = map (fun k => slab b (- (h * INR (S k))) (- (h * INR k))) (seq 0 (length mats))).
  { rewrite P. apply map_ext_in. intros k Hk. apply in_seq in Hk. rewrite (nth_indep _ 0 h) by (rewrite repeat_length; lia). rewrite nth_repeat. replace (S k) with (k + 1)%nat by lia. reflexivity. }
  unfold compound_regions. rewrite (regions_combine _ _ _ _ M P'), combine_nth, map_map. apply map_ext. intros k. cbn [fst snd]. rewrite Nat.sub_0_r. reflexivity.
Qed.

Lemma layer_ext w f1 f2 mats : (forall k, f1 k = f2 k) -> layer_sum w f1 mats = layer_sum w f2 mats.
Proof. intros H. unfold layer_sum. apply sumf_ext. intros k _. rewrite H. reflexivity. Qed.
Lemma layer_scal w f c mats : layer_sum w (fun k => c * f k) mats = c * layer_sum w f mats.
Proof. unfold layer_sum. rewrite <- (sumf_scal c (fun k => w (layer mats k) * f k)). apply sumf_ext. intros k _. ring. Qed.

Lemma rev_seq n : rev (seq 0 n) = map (fun k => (n - 1 - k)%nat) (seq 0 n).
Proof.
  apply (nth_ext _ _ 0%nat 0%nat); [rewrite rev_length, map_length; reflexivity|]. intros i Hi. rewrite rev_length, seq_length in Hi. rewrite rev_nth by (rewrite seq_length; exact Hi). rewrite seq_length, seq_nth by lia.
  rewrite (nth_indep _ 0%nat (n - 1 - 0)%nat) by (rewrite map_length, seq_length; exact Hi). rewrite (map_nth (fun k => (n - 1 - k)%nat)), seq_nth by exact Hi. lia.
Qed.
Lemma layer_reflect w f mats : balanced w mats -> layer_sum w f mats = layer_sum w (fun k => f (length mats - 1 - k)%nat) mats.
Proof.
  intros H. unfold layer_sum. rewrite (sumf_perm _ _ _ (Permutation_rev (seq 0 (length mats)))), rev_seq, sumf_map. apply sumf_ext. intros k Hk. apply in_seq in Hk. rewrite (H k) by lia. reflexivity.
Qed.
Lemma mid_reflect h n k : (k < n)%nat -> mid_height h (n - 1 - k) = - (INR n * h) - mid_height h k.
Proof. intros H. unfold mid_height. rewrite !minus_INR by lia. cbn [INR]. field. Qed.

Lemma clt_weighted w f h b mats : weighted w f (map (fun k => (layer mats k, slab b (- (h * INR (S k))) (- (h * INR k)))) (seq 0 (length mats))) = layer_sum w (fun k => f (slab b (- (h * INR (S k))) (- (h * INR k)))) mats.
Proof. unfold weighted, layer_sum. rewrite sumf_map. reflexivity. Qed.

(** A panel of layers of one thickness made by the library function, each layer of any material: the getters return the sums over the layers by the
    parallel axis theorem, [cy] being the mean height of the layers weighted by their moduli. *)
Theorem C88_clt l query g s st hist sh h b mats c : built g s -> Forall (uses st) hist -> In CGeometric hist -> is_composite (s_mats s) = true ->
  clt_rectangular_section sh (repeat h (length mats)) mats b = Ok c -> fills_regions (s_tris s) (compound_regions c) ->
  0 < b -> on_grid 12 b -> 0 < h -> on_grid 12 h -> layer_sum m_E (fun _ => 1) mats <> 0 ->
  let ea := b * h * layer_sum m_E (fun _ => 1) mats in let cy := layer_sum m_E (mid_height h) mats / layer_sum m_E (fun _ => 1) mats in
  gives l query g s hist get_area [INR (length mats) * (b * h)] /\ gives l query g s hist get_mass [b * h * layer_sum m_rho (fun _ => 1) mats] /\
  gives_over l query g s hist get_ea [ea] /\ gives l query g s hist get_c [b / 2; cy] /\
  gives_over l query g s hist get_eic [layer_sum m_E (fun k => b * h ^ 3 / 12 + b * h * (mid_height h k - cy) ^ 2) mats; h * b ^ 3 / 12 * layer_sum m_E (fun _ => 1) mats; 0] /\
  (balanced m_E mats -> cy = - (INR (length mats) * h / 2)).
Proof.
  intros Hb U Hi Hc E F Pb Gb Ph Gh N ea cy. rewrite (clt_regions sh h mats b c Pb Gb Ph Gh E) in F. set (rs := map (fun k => (layer mats k, slab b (- (h * INR (S k))) (- (h * INR k)))) (seq 0 (length mats))) in *.
  assert (Y : forall k, - (h * INR (S k)) < - (h * INR k)) by (intros k; rewrite S_INR; lra).
  assert (Th : forall k, - (h * INR k) - - (h * INR (S k)) = h) by (intros k; rewrite S_INR; ring).
  assert (Md : forall k, (- (h * INR (S k)) + - (h * INR k)) / 2 = mid_height h k) by (intros k; unfold mid_height; rewrite S_INR; field).
  assert (V : forall k, let p := slab b (- (h * INR (S k))) (- (h * INR k)) in poly_area p = b * h /\ poly_centroid p = (b / 2, mid_height h k) /\ poly_ixx_c p = b * h ^ 3 / 12 /\ poly_iyy_c p = h * b ^ 3 / 12 /\ poly_ixy_c p = 0).
  { intros k p. destruct (slab_values b _ _ Pb (Y k)) as (A1 & A2 & A3 & A4 & A5). rewrite Th in A1, A3, A4. rewrite Md in A2. auto. }
  assert (Pbh : 0 < b * h) by (apply Rmult_lt_0_compat; assumption).
  assert (Wa : forall w, weighted w poly_area rs = b * h * layer_sum w (fun _ => 1) mats).
  { intros w. unfold rs. rewrite clt_weighted, <- layer_scal. apply layer_ext. intros k. destruct (V k) as (-> & _). ring. }
  assert (Na : Forall (fun q => poly_area (snd q) <> 0) rs). { apply Forall_map, Forall_forall. intros k _. cbn [snd]. destruct (V k) as (-> & _). lra. }
  assert (Ne : weighted m_E poly_area rs <> 0). { rewrite Wa. apply Rmult_integral_contrapositive_currified; [lra|exact N]. }
  assert (Cx : elastic_cx rs = b / 2).
  { unfold elastic_cx. rewrite Wa. unfold rs. rewrite clt_weighted. rewrite (layer_ext _ _ (fun _ => b * h * (b / 2) * 1)), layer_scal by (intros k; destruct (V k) as (-> & -> & _); cbn [fst]; ring). field. split; [exact N|lra]. }
  assert (Cy : elastic_cy rs = cy).
  { unfold elastic_cy. rewrite Wa. unfold rs. rewrite clt_weighted. rewrite (layer_ext _ _ (fun k => b * h * mid_height h k)), layer_scal by (intros k; destruct (V k) as (-> & -> & _); cbn [snd]; ring). unfold cy. field. split; [exact N|lra]. }
  destruct (C88_composite l query g s st hist rs Hb U Hi Hc F Na Ne) as (G1 & G2 & G3 & _ & G5 & _ & G7 & _). rewrite Cx, Cy in G5, G7. rewrite Wa in G1, G2, G3.
  split; [|split; [exact G2|split; [exact G3|split; [exact G5|split]]]].
  - replace (INR (length mats) * (b * h)) with (b * h * layer_sum (fun _ : material => 1) (fun _ => 1) mats); [exact G1|]. rewrite Rmult_comm. f_equal. unfold layer_sum. rewrite (sumf_ext _ (fun _ => 1)) by (intros; ring). rewrite <- (seq_length (length mats) 0) at 2. generalize (seq 0 (length mats)). intros q. induction q as [|x q IH]; [unfold sumf; reflexivity|]. rewrite sumf_cons, IH. cbn [length]. rewrite S_INR. ring.
  - replace (layer_sum m_E (fun k => b * h ^ 3 / 12 + b * h * (mid_height h k - cy) ^ 2) mats) with (rigidity_xx cy rs). replace (h * b ^ 3 / 12 * layer_sum m_E (fun _ => 1) mats) with (rigidity_yy (b / 2) rs). replace 0 with (rigidity_xy (b / 2) cy rs).
    + exact G7.
    + unfold rigidity_xy, rs. rewrite clt_weighted, (layer_ext _ _ (fun k => 0 * 1)), layer_scal by (intros k; destruct (V k) as (-> & -> & _ & _ & ->); cbn [fst snd]; field). ring.
    + unfold rigidity_yy, rs. rewrite clt_weighted, <- layer_scal. apply layer_ext. intros k. destruct (V k) as (-> & -> & _ & -> & _). cbn [fst]. field.
    + unfold rigidity_xx, rs. rewrite clt_weighted. apply layer_ext. intros k. destruct (V k) as (-> & -> & -> & _). cbn [snd]. reflexivity.
  - intros B. assert (Q : 2 * layer_sum m_E (mid_height h) mats = - (INR (length mats) * h) * layer_sum m_E (fun _ => 1) mats).
    { rewrite <- (layer_scal m_E (fun _ => 1) (- (INR (length mats) * h))). replace (2 * layer_sum m_E (mid_height h) mats) with (layer_sum m_E (mid_height h) mats + layer_sum m_E (fun k => mid_height h (length mats - 1 - k)%nat) mats) by (rewrite <- (layer_reflect m_E (mid_height h) mats B); ring).
      unfold layer_sum. rewrite <- sumf_plus. apply sumf_ext. intros k Hk. apply in_seq in Hk. rewrite mid_reflect by lia. ring. }
    unfold cy. apply Rmult_eq_reg_l with (2 * layer_sum m_E (fun _ => 1) mats); [|lra]. replace (2 * layer_sum m_E (fun _ => 1) mats * (layer_sum m_E (mid_height h) mats / layer_sum m_E (fun _ => 1) mats)) with (2 * layer_sum m_E (mid_height h) mats) by (field; exact N). rewrite Q. field.
Qed.

(** The layers as rectangles *)
Lemma clt_edges sh h mats b c : 0 < b -> on_grid 12 b -> 0 < h -> on_grid 12 h -> clt_rectangular_section sh (repeat h (length mats)) mats b = Ok c -> compound_edges c = parts_edges (layer_parts h b mats).
Proof.
  intros Pb Gb Ph Gh E. unfold compound_edges, parts_edges, layer_parts. rewrite (clt_regions sh h mats b c Pb Gb Ph Gh E), !map_map. f_equal. apply map_ext. intros k. cbn [fst snd].
  unfold slab. rewrite one_edges; [reflexivity|]. assert (0 < b * h) by (apply Rmult_lt_0_compat; assumption). unring. rewrite S_INR. lra.
Qed.

(** The plastic moments of the panel about any axes that halve the yield force *)
Theorem C89_clt l query g s st h1 h2 shapes tol v sh h b mats c dx dy : plastic_done l query g s st h1 h2 shapes tol -> clt_rectangular_section sh (repeat h (length mats)) mats b = Ok c ->
  same_boundary (region_edges (concat shapes)) (moved_edges v (compound_edges c)) -> 0 < b -> on_grid 12 b -> 0 < h -> on_grid 12 h -> (forall k, 0 <= m_fy (layer mats k)) ->
  horizontal_axis (layer_parts h b mats) dx -> vertical_axis (layer_parts h b mats) dy ->
  gives_near l query g s (h1 ++ CPlastic :: h2) (modulus_getter s) (b * h * layer_sum m_fy (fun _ => 1) mats * tol) [moment_about_horizontal (layer_parts h b mats) dx; moment_about_vertical (layer_parts h b mats) dy].
Proof.
  intros D E B Pb Gb Ph Gh Fy X Y. rewrite (clt_edges sh h mats b c Pb Gb Ph Gh E) in B.
  assert (P : Forall proper_part (layer_parts h b mats)). { apply Forall_map, Forall_forall. intros k _. unfold proper_part, r_w, r_h. cbn [fst snd r_x1 r_y1 r_x2 r_y2]. rewrite S_INR. split; [lra|split; [lra|apply Fy]]. }
  replace (b * h * layer_sum m_fy (fun _ => 1) mats) with (sumf part_force (layer_parts h b mats)); [apply (C89_rectangles l query g s st h1 h2 shapes tol v _ dx dy D B P X Y)|].
  rewrite <- layer_scal. unfold layer_parts, layer_sum. rewrite sumf_map. apply sumf_ext. intros k _. unfold part_force, r_area, r_w, r_h. cbn [fst snd r_x1 r_y1 r_x2 r_y2]. rewrite S_INR. ring.
Qed.

(** A panel whose yield strengths read the same from the bottom as from the top: the axis is at mid height; each layer contributes its force times the
    distance of its middle, the middle layer (of an odd number) the plastic modulus of a rectangle. *)
Theorem C89_clt_balanced l query g s st h1 h2 shapes tol v sh h b mats c : plastic_done l query g s st h1 h2 shapes tol -> clt_rectangular_section sh (repeat h (length mats)) mats b = Ok c ->
  same_boundary (region_edges (concat shapes)) (moved_edges v (compound_edges c)) -> 0 < b -> on_grid 12 b -> 0 < h -> on_grid 12 h -> (forall k, 0 <= m_fy (layer mats k)) -> balanced m_fy mats ->
  let mid := - (INR (length mats) * h / 2) in let modulus k := if (2 * k + 1 =? length mats)%nat then b * h ^ 2 / 4 else b * h * Rabs (mid_height h k - mid) in
  gives_near l query g s (h1 ++ CPlastic :: h2) (modulus_getter s) (b * h * layer_sum m_fy (fun _ => 1) mats * tol) [layer_sum m_fy modulus mats; h * b ^ 2 / 4 * layer_sum m_fy (fun _ => 1) mats].
Proof.
  intros D E B Pb Gb Ph Gh Fy Ba mid modulus. set (n := length mats) in *.
  assert (Lo : forall k, - (h * INR (S k)) = mid_height h k - h / 2) by (intros k; unfold mid_height; rewrite S_INR; field).
  assert (Hi : forall k, - (h * INR k) = mid_height h k + h / 2) by (intros k; unfold mid_height; field).
  assert (Dist : forall k, (k < n)%nat -> (2 * k + 1 = n)%nat /\ mid_height h k = mid \/ mid + h / 2 <= mid_height h k \/ mid_height h k <= mid - h / 2).
  { intros k Hk. unfold mid_height, mid. destruct (Nat.lt_trichotomy (2 * k + 1) n) as [L|[L|L]].
    - right. left. assert (Q : INR (2 * k + 2) <= INR n) by (apply le_INR; lia). rewrite plus_INR, mult_INR in Q. cbn [INR] in Q. nra.
    - left. split; [exact L|]. rewrite <- L, plus_INR, mult_INR. cbn [INR]. field.
    - right. right. assert (Q : INR n <= INR (2 * k)) by (apply le_INR; lia). rewrite mult_INR in Q. cbn [INR] in Q. nra. }
  assert (X : horizontal_axis (layer_parts h b mats) mid).
  { unfold horizontal_axis, layer_parts. rewrite !sumf_map. cbn [fst snd r_x1 r_y1 r_x2 r_y2]. unfold r_w. cbn [r_x1 r_x2].
    transitivity (layer_sum m_fy (fun k => b * length_above mid (- (h * INR (S k))) (- (h * INR k))) mats); [apply sumf_ext; intros k _; ring|].
    rewrite (layer_reflect m_fy _ mats Ba). fold n. apply sumf_ext. intros k Hk. apply in_seq in Hk. rewrite !Lo, !Hi, mid_reflect by lia.
    replace (length_above mid (- (INR n * h) - mid_height h k - h / 2) (- (INR n * h) - mid_height h k + h / 2)) with (length_below mid (mid_height h k - h / 2) (mid_height h k + h / 2)); [ring|].
    unfold length_above, length_below, Rmax, Rmin. unfold mid. repeat destruct (Rle_dec _ _); lra. }
  assert (Y : vertical_axis (layer_parts h b mats) (b / 2)).
  { unfold vertical_axis, layer_parts. rewrite !sumf_map. apply sumf_ext. intros k _. cbn [fst snd r_x1 r_y1 r_x2 r_y2]. unfold length_above, length_below. rewrite (Rmax_left b), (Rmax_right 0), (Rmin_right b), (Rmin_left 0) by lra. field. }
  eapply near_eq; [| |apply (C89_clt l query g s st h1 h2 shapes tol v sh h b mats c mid (b / 2) D E B Pb Gb Ph Gh Fy X Y)]; [reflexivity|].
  apply f_equal2; [|apply f_equal2; [|reflexivity]].
  - unfold moment_about_horizontal, layer_parts. rewrite sumf_map. apply sumf_ext. intros k Hk. apply in_seq in Hk. fold n in Hk. unfold modulus, r_w. cbn [fst snd r_x1 r_y1 r_x2 r_y2]. rewrite Lo, Hi.
    destruct (Dist k ltac:(lia)) as [[Q1 Q2]|Q].
    + rewrite (proj2 (Nat.eqb_eq _ _) Q1), Q2. rewrite abs_mid by lra. field.
    + destruct (2 * k + 1 =? n)%nat eqn:Eq.
      * exfalso. apply Nat.eqb_eq in Eq. assert (mid_height h k = mid) by (unfold mid_height, mid; rewrite <- Eq, plus_INR, mult_INR; cbn [INR]; field). lra.
      * destruct Q as [Q|Q]; [rewrite abs_right, Rabs_right by lra|rewrite abs_left, Rabs_left1 by lra]; field.
  - rewrite <- layer_scal. unfold moment_about_vertical, layer_parts. rewrite sumf_map. apply sumf_ext. intros k _. unfold r_h. cbn [fst snd r_x1 r_y1 r_x2 r_y2]. rewrite abs_mid by lra. rewrite S_INR. field.
Qed.

(** ** A case: a panel of three layers, each 2 wide and 1 thick, timber between steel, meshed with six triangles *)
Definition panel_mats : list mat_obj := [steel; timber; steel].
Definition panel_raw : raw_mesh :=
  mkRaw [(0, 0); (2, 0); (2, -1); (0, -1); (2, -2); (0, -2); (2, -3); (0, -3); (1, -1); (2, -1 / 2); (1, -1 / 2); (1, 0); (0, -1 / 2); (1, -2); (2, -3 / 2); (1, -3 / 2); (0, -3 / 2); (1, -3); (2, -5 / 2); (1, -5 / 2); (0, -5 / 2)]
    [mkConn 3 2 1 9 10 8; mkConn 3 1 0 11 12 10; mkConn 5 4 2 14 15 13; mkConn 5 2 3 8 16 15; mkConn 7 6 4 18 19 17; mkConn 7 4 5 13 20 19] [0; 0; 1; 1; 2; 2]%nat.
Example panel_raw_ok : mesher_mesh panel_raw.
Proof.
  split; [reflexivity|]. intros row Hr. assert (Hr' : row = mkConn 3 2 1 9 10 8 \/ row = mkConn 3 1 0 11 12 10 \/ row = mkConn 5 4 2 14 15 13 \/ row = mkConn 5 2 3 8 16 15 \/ row = mkConn 7 6 4 18 19 17 \/ row = mkConn 7 4 5 13 20 19) by (destruct Hr as [<-|[<-|[<-|[<-|[<-|[<-|[]]]]]]]; tauto).
  destruct Hr' as [->|[->|[->|[->|[->| ->]]]]]; (split; [|split; [unfold ids_list; cbn [c0 c1 c2 c3 c4 c5]; repeat (apply NoDup_cons; [cbn [In]; lia|]); apply NoDup_nil|]];
    [unfold mesher_row, midpoint, S_Integral.orient, panel_raw; cbn [rm_vertices nth c0 c1 c2 c3 c4 c5 fst snd]; split; [f_equal; lra|split; [f_equal; lra|split; [f_equal; lra|lra]]]
    |intros k; unfold ids_list; cbn [In c0 c1 c2 c3 c4 c5 panel_raw rm_vertices length]; lia]).
Qed.
Definition panel_els : list tri6 :=
  let m := mo_val steel in let n := mo_val timber in
  [mk_el m (mkConn 3 2 1 8 9 10) (0, -1) (2, -1) (2, 0); mk_el m (mkConn 3 1 0 10 11 12) (0, -1) (2, 0) (0, 0); mk_el n (mkConn 5 4 2 13 14 15) (0, -2) (2, -2) (2, -1); mk_el n (mkConn 5 2 3 15 8 16) (0, -2) (2, -1) (0, -1); mk_el m (mkConn 7 6 4 17 18 19) (0, -3) (2, -3) (2, -2); mk_el m (mkConn 7 4 5 19 13 20) (0, -3) (2, -2) (0, -2)].
Definition panel_geometry : geometry := mkGeometry (Some panel_raw) panel_mats 8 (mesh_geom (- (1)) (- (- (3 / 2))) panel_els).
Example C89_clt_met : exists l query s h1 h2 shapes c, plastic_done l query panel_geometry s "direct" h1 h2 shapes 0 /\ clt_rectangular_section toy (repeat 1 3) panel_mats 2 = Ok c /\ is_composite (s_mats s) = true /\
  fills_regions (s_tris s) (compound_regions c) /\ same_boundary (region_edges (concat shapes)) (moved_edges (1, - (3 / 2)) (compound_edges c)) /\ balanced m_E panel_mats /\ balanced m_fy panel_mats /\
  gives_over l query panel_geometry s (h1 ++ CPlastic :: h2) get_ea [14] /\ gives l query panel_geometry s (h1 ++ CPlastic :: h2) get_c [1; - (3 / 2)] /\
  gives_over l query panel_geometry s (h1 ++ CPlastic :: h2) get_eic [79 / 6; 14 / 3; 0] /\ gives l query panel_geometry s (h1 ++ CPlastic :: h2) get_mp [25 / 2; 7].
Proof.
  destruct ex_libs as (l & _ & Eb). set (query := fun _ : R * R => @nil nat).
  destruct (section_init (Some panel_raw) panel_mats) as [s|] eqn:Es; [|discriminate Es].
  assert (Hb : built panel_geometry s) by (split; [exact Es|injection Es as <-; discriminate]).
  assert (Hc : is_composite (s_mats s) = true) by (injection Es as <-; reflexivity).
  set (h1 := [CGeometric]). set (h2 := [CFrame "direct"]). set (shapes := mesh_shapes (- (1)) (- (- (3 / 2))) panel_els).
  assert (Hv : valid_mesh panel_els) by (intros el [<-|[<-|[<-|[<-|[<-|[<-|[]]]]]]]; apply mk_el_valid; unfold S_Integral.orient; cbn [fst snd]; lra).
  destruct (mesh_geom_ok (- (1)) (- (- (3 / 2))) panel_els ltac:(discriminate) Hv ltac:(intros el [<-|[<-|[<-|[<-|[<-|[<-|[]]]]]]]; cbn; lra)) as (A & S & _).
  assert (U1 : Forall (uses "direct") h1) by (repeat constructor). assert (Ig : In CGeometric h1) by (left; reflexivity).
  assert (U : Forall (uses "direct") (h1 ++ CPlastic :: h2)) by (apply Forall_app; split; [exact U1|repeat constructor]).
  assert (D : plastic_done l query panel_geometry s "direct" h1 h2 shapes 0).
  { split; [exact Hb|]. split; [exact U|]. split; [exact Ig|]. split; [|split; [exact A|split; [exact S|rewrite Eb; apply exact_brentq_within]]].
    destruct (C39_after l query panel_geometry s "direct" h1 Hb U1 Ig) as [_ [K _]]. cbv zeta in K. rewrite K. unfold the_plastic. rewrite Eb. cbn [panel_geometry g_plastic].
    destruct (exact_brentq_runs (mesh_geom (- (1)) (- (- (3 / 2))) panel_els) (geometric_value panel_geometry s) (negb (is_composite (s_mats s))) shapes (p_phi (the_centroidal s)) eq_refl A S) as (ws & H). rewrite H. exact I. }
  destruct (C62_equal_layers toy 1 3 panel_mats 2) as (c & E & _); [lra|apply (int_grid 12 2)|lra|apply (int_grid 12 1)|reflexivity|].
  assert (Rg : compound_regions c = [(mo_val steel, slab 2 (-1) 0); (mo_val timber, slab 2 (-2) (-1)); (mo_val steel, slab 2 (-3) (-2))]).
  { rewrite (clt_regions toy 1 panel_mats 2 c ltac:(lra) (int_grid 12 2) ltac:(lra) (int_grid 12 1) E). unfold panel_mats, layer, slab. cbn [length seq map nth INR]. repeat f_equal; lra. }
  assert (L1 : 0 <= ring_area [(0, -1); (2, -1); (2, 0); (0, 0)]) by (unring; lra). assert (L2 : 0 <= ring_area [(0, -2); (2, -2); (2, -1); (0, -1)]) by (unring; lra). assert (L3 : 0 <= ring_area [(0, -3); (2, -3); (2, -2); (0, -2)]) by (unring; lra).
  assert (F : fills_regions (s_tris s) (compound_regions c)).
  { rewrite Rg. split.
    - apply (C17_node_order panel_raw panel_mats s panel_raw_ok Es).
    - injection Es as <-. unfold s_tris. cbn [s_els]. unfold slab. cbn [map concat fst snd]. rewrite !one_edges by assumption. set (m := mo_val steel). set (n := mo_val timber).
      set (q0 := (0, 0)). set (q1 := (2, 0)). set (q2 := (2, -1)). set (q3 := (0, -1)). set (q4 := (2, -2)). set (q5 := (0, -2)). set (q6 := (2, -3)). set (q7 := (0, -3)).
      change (same_boundary [(m, q3, q2); (m, q2, q1); (m, q1, q3); (m, q3, q1); (m, q1, q0); (m, q0, q3); (n, q5, q4); (n, q4, q2); (n, q2, q5); (n, q5, q2); (n, q2, q3); (n, q3, q5); (m, q7, q6); (m, q6, q4); (m, q4, q7); (m, q7, q4); (m, q4, q5); (m, q5, q7)] [(m, q3, q2); (m, q2, q1); (m, q1, q0); (m, q0, q3); (n, q5, q4); (n, q4, q2); (n, q2, q3); (n, q3, q5); (m, q7, q6); (m, q6, q4); (m, q4, q5); (m, q5, q7)]).
      cancels m q3 q1. cancels n q5 q2. cancels m q7 q4. apply sb_perm. perms. }
  assert (B : same_boundary (region_edges (concat shapes)) (moved_edges (1, - (3 / 2)) (compound_edges c))).
  { unfold compound_edges. rewrite Rg. unfold slab. cbn [map concat fst snd]. rewrite !one_edges by assumption. set (m := mo_val steel). set (n := mo_val timber).
    set (q0 := (0 - 1, 0 - - (3 / 2))). set (q1 := (2 - 1, 0 - - (3 / 2))). set (q2 := (2 - 1, -1 - - (3 / 2))). set (q3 := (0 - 1, -1 - - (3 / 2))). set (q4 := (2 - 1, -2 - - (3 / 2))). set (q5 := (0 - 1, -2 - - (3 / 2))). set (q6 := (2 - 1, -3 - - (3 / 2))). set (q7 := (0 - 1, -3 - - (3 / 2))).
    change (same_boundary [(m, q3, q2); (m, q2, q1); (m, q1, q3); (m, q3, q1); (m, q1, q0); (m, q0, q3); (n, q5, q4); (n, q4, q2); (n, q2, q5); (n, q5, q2); (n, q2, q3); (n, q3, q5); (m, q7, q6); (m, q6, q4); (m, q4, q7); (m, q7, q4); (m, q4, q5); (m, q5, q7)] [(m, q3, q2); (m, q2, q1); (m, q1, q0); (m, q0, q3); (n, q5, q4); (n, q4, q2); (n, q2, q3); (n, q3, q5); (m, q7, q6); (m, q6, q4); (m, q4, q5); (m, q5, q7)]).
    cancels m q3 q1. cancels n q5 q2. cancels m q7 q4. apply sb_perm. perms. }
  assert (Be : forall w, balanced w panel_mats) by (intros w k Hk; cbn [panel_mats length] in Hk; destruct k as [|[|[|k]]]; [reflexivity|reflexivity|reflexivity|lia]).
  assert (Su : forall w f, layer_sum w f panel_mats = w (mo_val steel) * f 0%nat + w (mo_val timber) * f 1%nat + w (mo_val steel) * f 2%nat) by (intros; unfold layer_sum, sumf, Rsum, layer, panel_mats; cbn [length seq map fold_right nth]; ring).
  assert (Es' : layer_sum m_E (fun _ => 1) panel_mats = 7) by (rewrite Su; cbn; ring). assert (Fs : layer_sum m_fy (fun _ => 1) panel_mats = 7) by (rewrite Su; cbn; ring).
  exists l, query, s, h1, h2, shapes, c. split; [exact D|]. split; [exact E|]. split; [exact Hc|]. split; [exact F|]. split; [exact B|]. split; [apply Be|]. split; [apply Be|].
  destruct (C88_clt l query panel_geometry s "direct" (h1 ++ CPlastic :: h2) toy 1 2 panel_mats c Hb U ltac:(apply in_app_iff; left; exact Ig) Hc E F ltac:(lra) (int_grid 12 2) ltac:(lra) (int_grid 12 1) ltac:(rewrite Es'; lra)) as (_ & _ & G1 & G2 & G3 & G4).
  specialize (G4 (Be m_E)). rewrite G4 in G2, G3. rewrite Es' in G1, G3. replace (- (INR (length panel_mats) * 1 / 2)) with (- (3 / 2)) in G2, G3 by (cbn; field). rewrite Su in G3. unfold mid_height in G3. cbn [INR] in G3. change (m_E (mo_val steel)) with 3 in G3. change (m_E (mo_val timber)) with 1 in G3.
  split; [replace 14 with (2 * 1 * 7) by ring; exact G1|]. split; [replace 1 with (2 / 2) at 1 by field; exact G2|]. split.
  - match type of G3 with gives_over _ _ _ _ _ _ [?a; ?b; 0] => replace (79 / 6) with a by field; replace (14 / 3) with b by field end. exact G3.
  - destruct (C89_clt_balanced l query panel_geometry s "direct" h1 h2 shapes 0 _ toy 1 2 panel_mats c D E B ltac:(lra) (int_grid 12 2) ltac:(lra) (int_grid 12 1)) as (ws & Gs & Ws); [intros k; unfold layer, panel_mats; destruct k as [|[|[|[|k]]]]; cbn; lra|apply Be|].
    unfold modulus_getter in Gs. rewrite Hc in Gs. inversion Ws as [|? w1 ? ws' W1 Ws']; subst. inversion Ws' as [|? w2 ? ws'' W2 Ws'']; subst. inversion Ws''; subst. rewrite Fs in W1, W2. rewrite Su in W1. cbn [Nat.eqb Nat.mul Nat.add length panel_mats] in W1. unfold mid_height in W1. cbn [INR] in W1.
    change (m_fy (mo_val steel)) with 3 in W1. change (m_fy (mo_val timber)) with 1 in W1. rewrite Rabs_right in W1 by lra. rewrite Rabs_left in W1 by lra.
    replace w1 with (25 / 2) in Gs by lra. replace w2 with 7 in Gs by lra. exact Gs.
Qed.

Print Assumptions C88_clt.
Print Assumptions C89_clt.
Print Assumptions C89_clt_balanced.
Print Assumptions C89_clt_met.
