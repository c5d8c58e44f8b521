(** Proofs: the plastic moment of a section made of rectangles. *)
From Coquelicot Require Import Coquelicot.
From Coq Require Import Reals List Permutation Lra Lia.
From Verif Require Import Base S_Integral M_Fea S_Fem S_Section M_Bisect M_Props M_Plastic S_Plastic P_Geom P_Section P_Ridge P_Plastic P_Plastic2 P_Plastic3 P_Plastic4 S_Outline S_PlasticForms.
Import ListNotations.
Local Open Scope R_scope.

Definition rect_tris (m : material) (r : plate_at) : list mtri :=
  [mkMtri m (r_x1 r, r_y1 r) (r_x2 r, r_y1 r) (r_x2 r, r_y2 r); mkMtri m (r_x1 r, r_y1 r) (r_x2 r, r_y2 r) (r_x1 r, r_y2 r)].
Definition parts_tris (l : list part) : list mtri := concat (map (fun q => rect_tris (fst q) (snd q)) l).
Lemma rect_sb m r : same_boundary (region_edges (rect_tris m r)) (S_Section.ring_edges m (rect_ring r)).
Proof.
  set (a := (r_x1 r, r_y1 r)). set (b := (r_x2 r, r_y1 r)). set (c := (r_x2 r, r_y2 r)). set (d := (r_x1 r, r_y2 r)).
  change (same_boundary [(m, a, b); (m, b, c); (m, c, a); (m, a, c); (m, c, d); (m, d, a)] [(m, a, b); (m, b, c); (m, c, d); (m, d, a)]).
  eapply sb_trans; [apply sb_perm|apply (sb_cancel m c a)]. apply (Permutation_app_tail [(m, c, d); (m, d, a)] (Permutation_app_comm [(m, a, b); (m, b, c)] [(m, c, a); (m, a, c)])).
Qed.
Lemma parts_sb l : same_boundary (region_edges (parts_tris l)) (parts_edges l).
Proof.
  induction l as [|q l IH]; [apply sb_refl|]. unfold parts_tris, parts_edges. cbn [map concat]. rewrite region_edges_app. apply sb_app; [apply rect_sb|exact IH].
Qed.
Lemma parts_tris_app a b : parts_tris (a ++ b) = parts_tris a ++ parts_tris b. Proof. unfold parts_tris. rewrite map_app, concat_app. reflexivity. Qed.
Lemma parts_ccw n d s l : Forall (beyond n d s) l -> Forall ccw (parts_tris l).
Proof.
  induction 1 as [|q l (W & H & _) _ IH]; [constructor|]. change (parts_tris (q :: l)) with (rect_tris (fst q) (snd q) ++ parts_tris l). apply Forall_app. split; [|exact IH].
  unfold r_w, r_h in *. assert (P : 0 < (r_x2 (snd q) - r_x1 (snd q)) * (r_y2 (snd q) - r_y1 (snd q))) by (apply Rmult_lt_0_compat; lra).
  repeat constructor; unfold ccw, orient; cbn [mt_a mt_b mt_c fst snd]; lra.
Qed.
Lemma parts_sides n d s l : Forall (beyond n d s) l -> forall t p, In t (parts_tris l) -> In p (corners t) -> 0 <= s * (height n (fst p) (snd p) - d).
Proof.
  induction 1 as [|q l (_ & _ & K) _ IH]; [intros t p []|]. intros t p Ht Hp. change (parts_tris (q :: l)) with (rect_tris (fst q) (snd q) ++ parts_tris l) in Ht. apply in_app_iff in Ht. destruct Ht as [Ht|Ht]; [|exact (IH t p Ht Hp)].
  apply K. unfold rect_ring. destruct Ht as [<-|[<-|[]]]; cbn [corners mt_a mt_b mt_c In] in *; tauto.
Qed.
Lemma rect_area_pos m r t : 0 < r_w r -> 0 < r_h r -> In t (rect_tris m r) -> Rabs (orient (mt_a t) (mt_b t) (mt_c t)) = r_area r.
Proof.
  intros W H [<-|[<-|[]]]; unfold orient, r_area, r_w, r_h in *; cbn [mt_a mt_b mt_c fst snd]; (rewrite Rabs_pos_eq; [ring|]); assert (P : 0 < (r_x2 r - r_x1 r) * (r_y2 r - r_y1 r)) by (apply Rmult_lt_0_compat; lra); lra.
Qed.
Lemma parts_one n d s l : Forall (beyond n d s) l -> region_int m_fy (fun _ _ => 1) (parts_tris l) = sumf part_force l.
Proof.
  induction 1 as [|q l (W & H & _) _ IH]; [reflexivity|]. change (parts_tris (q :: l)) with (rect_tris (fst q) (snd q) ++ parts_tris l). rewrite region_app, IH, sumf_cons. f_equal.
  unfold region_int, rect_tris. rewrite !sumf_cons, sumf_nil. unfold mt_int. rewrite !tri_int_one.
  rewrite (rect_area_pos (fst q) (snd q) (mkMtri (fst q) (r_x1 (snd q), r_y1 (snd q)) (r_x2 (snd q), r_y1 (snd q)) (r_x2 (snd q), r_y2 (snd q))) W H (or_introl eq_refl)),
    (rect_area_pos (fst q) (snd q) (mkMtri (fst q) (r_x1 (snd q), r_y1 (snd q)) (r_x2 (snd q), r_y2 (snd q)) (r_x1 (snd q), r_y2 (snd q))) W H (or_intror (or_introl eq_refl))).
  unfold part_force. cbn [mt_mat]. field.
Qed.
Lemma parts_height n d s l : Forall (beyond n d s) l -> region_int m_fy (fun x y => height n x y - d) (parts_tris l) = sumf (fun q => part_force q * part_arm n d q) l.
Proof.
  induction 1 as [|q l (W & H & _) _ IH]; [reflexivity|]. change (parts_tris (q :: l)) with (rect_tris (fst q) (snd q) ++ parts_tris l). rewrite region_app, IH, sumf_cons. f_equal.
  unfold region_int, rect_tris. rewrite !sumf_cons, sumf_nil. unfold mt_int. rewrite !tri_int_height.
  rewrite (rect_area_pos (fst q) (snd q) (mkMtri (fst q) (r_x1 (snd q), r_y1 (snd q)) (r_x2 (snd q), r_y1 (snd q)) (r_x2 (snd q), r_y2 (snd q))) W H (or_introl eq_refl)),
    (rect_area_pos (fst q) (snd q) (mkMtri (fst q) (r_x1 (snd q), r_y1 (snd q)) (r_x2 (snd q), r_y2 (snd q)) (r_x1 (snd q), r_y2 (snd q))) W H (or_intror (or_introl eq_refl))).
  unfold part_force, part_arm, height, r_cx, r_cy. cbn [mt_mat mt_a mt_b mt_c fst snd]. field.
Qed.

Section Cut.
Variables (sec : list mtri) (n : R * R) (d : R) (up dn : list part).
Hypothesis (Hn : unit_vec n) (Hsec : Forall ccw sec) (Hcut : cut_at (region_edges sec) n d up dn) (Hfy : forall q, In q (up ++ dn) -> 0 <= m_fy (fst q)).

Definition cut_field : stress_field := map (fun t => (t, fun _ _ : R => m_fy (mt_mat t))) (parts_tris up) ++ map (fun t => (t, fun _ _ : R => - m_fy (mt_mat t))) (parts_tris dn).
Lemma cut_abs : yield_moment_about sec n d = parts_moment n d up dn.
Proof.
  destruct Hcut as (Hu & Hd & HB & _). unfold yield_moment_about, parts_moment.
  rewrite <- (region_abs_same m_fy n d (parts_tris (up ++ dn)) sec Hn).
  - rewrite parts_tris_app, region_app. f_equal.
    + rewrite (region_abs_eq m_fy n d 1) by (first [left; reflexivity|exact (parts_sides n d 1 up Hu)]). rewrite (parts_height n d 1 up Hu). ring.
    + rewrite (region_abs_eq m_fy n d (-1)) by (first [right; reflexivity|exact (parts_sides n d (-1) dn Hd)]). rewrite (parts_height n d (-1) dn Hd).
      rewrite <- sumf_scal. apply sumf_ext. intros; ring.
  - rewrite parts_tris_app. apply Forall_app. split; eapply parts_ccw; eassumption.
  - exact Hsec.
  - eapply sb_trans; [apply parts_sb|]. apply sb_sym, HB.
Qed.
Lemma mt_fy t l : In t (parts_tris l) -> exists q, In q l /\ mt_mat t = fst q.
Proof. intros H. unfold parts_tris in H. apply in_concat in H. destruct H as (x & Hx & Ht). apply in_map_iff in Hx. destruct Hx as (q & <- & Hq). exists q. split; [exact Hq|]. destruct Ht as [<-|[<-|[]]]; reflexivity. Qed.
Lemma const_int t k : mt_int t (fun _ _ => k) = k * mt_int t (fun _ _ => 1).
Proof.
  unfold mt_int. rewrite (tri_int_ext _ _ _ (fun _ _ => k) (fun x y => k * 1 + 0 * 1)) by (intros; ring). rewrite (tri_int_lin _ _ _ (fun _ _ => 1) (fun _ _ => 1) k 0 (const_tri_ok _ _ _ _) (const_tri_ok _ _ _ _)). ring.
Qed.
Lemma const_height t k : mt_int t (fun x y => k * height n x y) = k * mt_int t (fun x y => height n x y - d) + k * d * mt_int t (fun _ _ => 1).
Proof.
  unfold mt_int. rewrite (tri_int_ext _ _ _ (fun x y => k * height n x y) (fun x y => k * (height n x y - d) + (k * d) * 1)) by (intros; ring).
  apply (tri_int_lin _ _ _ (fun x y => height n x y - d) (fun _ _ => 1) k (k * d) (hd_tri_ok _ _ _ _ _) (const_tri_ok _ _ _ _)).
Qed.
Lemma cut_admissible : admissible sec n cut_field.
Proof.
  destruct Hcut as (Hu & Hd & HB & HF). assert (Cu := parts_ccw _ _ _ _ Hu). assert (Cd := parts_ccw _ _ _ _ Hd). rewrite Forall_forall in Cu, Cd.
  assert (OK : forall t k, mt_ok t (fun _ _ => k)).
  { intros t k. apply (tri_ok_ext _ _ _ (fun x y => k * 1 + 0 * 1)); [intros; ring|]. apply (tri_ok_lin _ _ _ (fun _ _ => 1) (fun _ _ => 1)); apply const_tri_ok. }
  assert (OKh : forall t k, mt_ok t (fun x y => k * height n x y)).
  { intros t k. apply (tri_ok_ext _ _ _ (fun x y => k * height n x y + 0 * 1)); [intros; ring|]. apply (tri_ok_lin _ _ _ (height n) (fun _ _ => 1)); [apply height_tri_ok|apply const_tri_ok]. }
  split; [|split].
  - apply Forall_forall. intros tf I. unfold cut_field in I. apply in_app_iff in I. destruct I as [I|I]; apply in_map_iff in I; destruct I as (t & <- & It).
    + split; [apply Cu, It|]. split; [apply OK|]. split; [apply OKh|]. intros p _. destruct (mt_fy t up It) as (q & Iq & ->). rewrite Rabs_pos_eq; [lra|]. apply Hfy, in_app_iff. left. exact Iq.
    + split; [apply Cd, It|]. split; [apply OK|]. split; [apply OKh|]. intros p _. destruct (mt_fy t dn It) as (q & Iq & ->). rewrite Rabs_Ropp, Rabs_pos_eq; [lra|]. apply Hfy, in_app_iff. right. exact Iq.
  - unfold cut_field. rewrite map_app, !map_map. cbn [fst]. rewrite !map_id, <- parts_tris_app. eapply sb_trans; [apply parts_sb|]. apply sb_sym, HB.
  - unfold cut_field. rewrite sumf_app, !sumf_map. cbn [fst snd].
    rewrite (sumf_ext (fun t => mt_int t (fun _ _ => m_fy (mt_mat t))) (fun t => m_fy (mt_mat t) * mt_int t (fun _ _ => 1))) by (intros; apply const_int).
    rewrite (sumf_ext (fun t => mt_int t (fun _ _ => - m_fy (mt_mat t))) (fun t => -1 * (m_fy (mt_mat t) * mt_int t (fun _ _ => 1)))) by (intros; rewrite const_int; ring). rewrite sumf_scal.
    change (sumf (fun t => m_fy (mt_mat t) * mt_int t (fun _ _ => 1)) (parts_tris up)) with (region_int m_fy (fun _ _ => 1) (parts_tris up)). change (sumf (fun t => m_fy (mt_mat t) * mt_int t (fun _ _ => 1)) (parts_tris dn)) with (region_int m_fy (fun _ _ => 1) (parts_tris dn)).
    rewrite (parts_one n d 1 up Hu), (parts_one n d (-1) dn Hd). lra.
Qed.
Lemma cut_moment : field_moment n cut_field = parts_moment n d up dn.
Proof.
  destruct Hcut as (Hu & Hd & HB & HF). unfold field_moment, cut_field, parts_moment. rewrite sumf_app, !sumf_map. cbn [fst snd].
  rewrite (sumf_ext (fun t => mt_int t (fun x y => m_fy (mt_mat t) * height n x y)) (fun t => 1 * (m_fy (mt_mat t) * mt_int t (fun x y => height n x y - d)) + d * (m_fy (mt_mat t) * mt_int t (fun _ _ => 1)))) by (intros; rewrite const_height; ring).
  rewrite (sumf_ext (fun t => mt_int t (fun x y => - m_fy (mt_mat t) * height n x y)) (fun t => -1 * (m_fy (mt_mat t) * mt_int t (fun x y => height n x y - d)) + - d * (m_fy (mt_mat t) * mt_int t (fun _ _ => 1)))) by (intros; rewrite const_height; ring).
  rewrite !sumf_plus2.
  change (sumf (fun t => m_fy (mt_mat t) * mt_int t (fun _ _ => 1)) (parts_tris up)) with (region_int m_fy (fun _ _ => 1) (parts_tris up)). change (sumf (fun t => m_fy (mt_mat t) * mt_int t (fun _ _ => 1)) (parts_tris dn)) with (region_int m_fy (fun _ _ => 1) (parts_tris dn)).
  change (sumf (fun t => m_fy (mt_mat t) * mt_int t (fun x y => height n x y - d)) (parts_tris up)) with (region_int m_fy (fun x y => height n x y - d) (parts_tris up)). change (sumf (fun t => m_fy (mt_mat t) * mt_int t (fun x y => height n x y - d)) (parts_tris dn)) with (region_int m_fy (fun x y => height n x y - d) (parts_tris dn)).
  rewrite (parts_one n d 1 up Hu), (parts_one n d (-1) dn Hd), (parts_height n d 1 up Hu), (parts_height n d (-1) dn Hd), HF.
  rewrite (sumf_ext (fun q => part_force q * - part_arm n d q) (fun q => -1 * (part_force q * part_arm n d q))) by (intros; ring). rewrite sumf_scal. ring.
Qed.
End Cut.

Lemma cut_plastic g shapes phi k d up dn : section_covers (pl_geoms g) shapes -> cut_at (region_edges (concat shapes)) (direction phi k) d up dn -> (forall q, In q (up ++ dn) -> 0 <= m_fy (fst q)) ->
  is_plastic_moment (concat shapes) (direction phi k) (parts_moment (direction phi k) d up dn).
Proof.
  intros C H F. assert (W : Forall ccw (concat shapes)) by (exact (sec_ccw _ _ C)).
  split.
  - exists (cut_field up dn). split; [eapply cut_admissible; eassumption|eapply cut_moment; eassumption].
  - intros fld A. rewrite <- (cut_abs (concat shapes) (direction phi k) d up dn ltac:(rewrite <- axis_dir; apply perp_unit, axis_u_unit) W H). exact (max_axis g shapes phi k fld d C A).
Qed.
Lemma cut_force sec n d up dn : Forall ccw sec -> unit_vec n -> cut_at (region_edges sec) n d up dn -> total_yield_force sec = sumf part_force (up ++ dn).
Proof.
  intros W N (Hu & Hd & HB & HF). unfold total_yield_force. rewrite sumf_app, <- (parts_one n d 1 up Hu), <- (parts_one n d (-1) dn Hd), <- region_app, <- parts_tris_app.
  symmetry. apply (region_one_same m_fy n _ _ N); [|exact W|].
  - rewrite parts_tris_app. apply Forall_app. split; eapply parts_ccw; eassumption.
  - eapply sb_trans; [apply parts_sb|]. apply sb_sym, HB.
Qed.
Lemma dir_unit phi k : unit_vec (direction phi k). Proof. rewrite <- axis_dir. apply perp_unit, axis_u_unit. Qed.

(** ** Outlines *)
Lemma sb_map f l l' : (forall m p q t, let r := (fst p + t * (fst q - fst p), snd p + t * (snd q - snd p)) in f r = (fst (f p) + t * (fst (f q) - fst (f p)), snd (f p) + t * (snd (f q) - snd (f p))) /\ m = m :> material) ->
  same_boundary l l' -> let g := map (fun e : edge => (fst (fst e), f (snd (fst e)), f (snd e))) in same_boundary (g l) (g l').
Proof.
  intros A H g. induction H.
  - apply sb_refl.
  - apply sb_sym; assumption.
  - eapply sb_trans; eassumption.
  - apply sb_perm, Permutation_map; assumption.
  - apply sb_cancel.
  - unfold g. cbn [map fst snd]. unfold r. destruct (A m p q t) as [E _]. cbv zeta in E. rewrite E. apply sb_split.
Qed.
Lemma sb_moved c l l' : same_boundary l l' -> same_boundary (moved_edges c l) (moved_edges c l').
Proof. apply sb_map. intros m p q t r. split; [|reflexivity]. unfold r, moved_point. cbn [fst snd]. f_equal; ring. Qed.
Definition moved_part (c : R * R) (q : part) : part := (fst q, rect (r_x1 (snd q) - fst c) (r_y1 (snd q) - snd c) (r_x2 (snd q) - fst c) (r_y2 (snd q) - snd c)).
Lemma moved_parts c l : moved_edges c (parts_edges l) = parts_edges (map (moved_part c) l).
Proof.
  induction l as [|q l IH]; [reflexivity|]. change (parts_edges (q :: l)) with (S_Section.ring_edges (fst q) (rect_ring (snd q)) ++ parts_edges l). unfold moved_edges. rewrite map_app.
  change (moved_edges c (S_Section.ring_edges (fst q) (rect_ring (snd q))) ++ moved_edges c (parts_edges l) = parts_edges (map (moved_part c) (q :: l))). rewrite IH. reflexivity.
Qed.
Lemma parts_perm l l' : Permutation l l' -> same_boundary (parts_edges l) (parts_edges l').
Proof.
  intros H. apply sb_perm. unfold parts_edges. induction H; cbn [map concat].
  - constructor.
  - apply Permutation_app_head. exact IHPermutation.
  - rewrite !app_assoc. apply Permutation_app_tail, Permutation_app_comm.
  - eapply Permutation_trans; eassumption.
Qed.
Lemma parts_edges_app a b : parts_edges (a ++ b) = parts_edges a ++ parts_edges b. Proof. unfold parts_edges. rewrite map_app, concat_app. reflexivity. Qed.
Lemma sb_split_at m p q r l : (exists t, r = (fst p + t * (fst q - fst p), snd p + t * (snd q - snd p))) -> same_boundary ((m, p, q) :: l) ((m, p, r) :: (m, r, q) :: l).
Proof. intros (t & ->). apply sb_split. Qed.
(** a plate cut by a horizontal or vertical line *)
Lemma split_y m x1 y1 x2 y2 y l : y1 < y2 -> same_boundary (parts_edges ((m, rect x1 y1 x2 y2) :: l)) (parts_edges ((m, rect x1 y1 x2 y) :: (m, rect x1 y x2 y2) :: l)).
Proof.
  intros H. change (parts_edges ((m, rect x1 y1 x2 y2) :: l)) with (parts_edges [(m, rect x1 y1 x2 y2)] ++ parts_edges l). change (parts_edges ((m, rect x1 y1 x2 y) :: (m, rect x1 y x2 y2) :: l)) with (parts_edges [(m, rect x1 y1 x2 y); (m, rect x1 y x2 y2)] ++ parts_edges l).
  apply sb_app; [|apply sb_refl].
  set (a := (x1, y1)). set (b := (x2, y1)). set (c := (x2, y2)). set (d := (x1, y2)). set (e := (x2, y)). set (f := (x1, y)).
  change (same_boundary [(m, a, b); (m, b, c); (m, c, d); (m, d, a)] [(m, a, b); (m, b, e); (m, e, f); (m, f, a); (m, f, e); (m, e, c); (m, c, d); (m, d, f)]).
  eapply sb_trans; [apply sb_perm; apply (Permutation_app_comm [(m, a, b)] [(m, b, c); (m, c, d); (m, d, a)])|]. cbn [app].
  eapply sb_trans; [apply (sb_split_at m b c e); exists ((y - y1) / (y2 - y1)); unfold b, c, e; cbn [fst snd]; f_equal; field; lra|].
  eapply sb_trans; [apply sb_perm; apply (Permutation_app_comm [(m, b, e); (m, e, c); (m, c, d)] [(m, d, a); (m, a, b)])|]. cbn [app].
  eapply sb_trans; [apply (sb_split_at m d a f); exists ((y2 - y) / (y2 - y1)); unfold d, a, f; cbn [fst snd]; f_equal; field; lra|].
  eapply sb_trans; [apply sb_sym, (sb_cancel m e f)|]. apply sb_perm.
  apply Permutation_sym. eapply perm_trans; [apply (Permutation_app_comm [(m, a, b); (m, b, e)] [(m, e, f); (m, f, a); (m, f, e); (m, e, c); (m, c, d); (m, d, f)])|]. cbn [app]. apply perm_skip.
  eapply perm_trans; [apply (perm_swap (m, f, e) (m, f, a))|]. apply perm_skip.
  eapply perm_trans; [apply (Permutation_app_comm [(m, f, a); (m, e, c); (m, c, d)] [(m, d, f); (m, a, b); (m, b, e)])|]. cbn [app]. apply perm_skip.
  eapply perm_trans; [apply (Permutation_app_comm [(m, a, b); (m, b, e)] [(m, f, a); (m, e, c); (m, c, d)])|]. cbn [app]. apply perm_skip.
  apply (Permutation_app_comm [(m, e, c); (m, c, d)] [(m, a, b); (m, b, e)]).
Qed.
Lemma split_x m x1 y1 x2 y2 x l : x1 < x2 -> same_boundary (parts_edges ((m, rect x1 y1 x2 y2) :: l)) (parts_edges ((m, rect x1 y1 x y2) :: (m, rect x y1 x2 y2) :: l)).
Proof.
  intros H. change (parts_edges ((m, rect x1 y1 x2 y2) :: l)) with (parts_edges [(m, rect x1 y1 x2 y2)] ++ parts_edges l). change (parts_edges ((m, rect x1 y1 x y2) :: (m, rect x y1 x2 y2) :: l)) with (parts_edges [(m, rect x1 y1 x y2); (m, rect x y1 x2 y2)] ++ parts_edges l).
  apply sb_app; [|apply sb_refl].
  set (a := (x1, y1)). set (b := (x2, y1)). set (c := (x2, y2)). set (d := (x1, y2)). set (e := (x, y1)). set (f := (x, y2)).
  change (same_boundary [(m, a, b); (m, b, c); (m, c, d); (m, d, a)] [(m, a, e); (m, e, f); (m, f, d); (m, d, a); (m, e, b); (m, b, c); (m, c, f); (m, f, e)]).
  eapply sb_trans; [apply (sb_split_at m a b e); exists ((x - x1) / (x2 - x1)); unfold a, b, e; cbn [fst snd]; f_equal; field; lra|].
  eapply sb_trans; [apply sb_perm; apply (Permutation_app_comm [(m, a, e); (m, e, b); (m, b, c)] [(m, c, d); (m, d, a)])|]. cbn [app].
  eapply sb_trans; [apply (sb_split_at m c d f); exists ((x2 - x) / (x2 - x1)); unfold d, c, f; cbn [fst snd]; f_equal; field; lra|].
  eapply sb_trans; [apply sb_sym, (sb_cancel m e f)|]. apply sb_perm.
  apply Permutation_sym. eapply perm_trans; [apply (perm_swap (m, e, f) (m, a, e))|]. apply perm_skip.
  eapply perm_trans; [apply (Permutation_app_comm [(m, a, e); (m, f, d); (m, d, a); (m, e, b); (m, b, c); (m, c, f)] [(m, f, e)])|]. cbn [app]. apply perm_skip.
  eapply perm_trans; [apply (Permutation_app_comm [(m, a, e); (m, f, d); (m, d, a); (m, e, b); (m, b, c)] [(m, c, f)])|]. cbn [app]. apply perm_skip.
  eapply perm_trans; [apply (perm_swap (m, f, d) (m, a, e))|]. apply perm_skip.
  apply (perm_swap (m, d, a) (m, a, e)).
Qed.

(** ** The section moved to its centroid *)
Lemma beyond_moved n D s c q : beyond n D s q -> beyond n (D - height n (fst c) (snd c)) s (moved_part c q).
Proof.
  intros (W & H & K). unfold moved_part. destruct q as [m [x1 y1 x2 y2]]. cbn [fst snd r_x1 r_y1 r_x2 r_y2] in *. unfold beyond, r_w, r_h in *. cbn [fst snd r_x1 r_y1 r_x2 r_y2] in *.
  split; [cbn [snd r_x1 r_x2]; lra|]. split; [cbn [snd r_y1 r_y2]; lra|]. unfold rect_ring in *. cbn [snd r_x1 r_y1 r_x2 r_y2] in *.
  intros v Hv. assert (V : In (fst v + fst c, snd v + snd c) [(x1, y1); (x2, y1); (x2, y2); (x1, y2)]).
  { cbn [In] in *. destruct Hv as [<-|[<-|[<-|[<-|[]]]]]; cbn [fst snd]; [left|right; left|do 2 right; left|do 3 right; left]; f_equal; ring. }
  specialize (K _ V). cbn [fst snd] in K. unfold height in *. replace (fst n * fst v + snd n * snd v - (D - (fst n * fst c + snd n * snd c))) with (fst n * (fst v + fst c) + snd n * (snd v + snd c) - D) by ring. exact K.
Qed.
Lemma force_moved c q : part_force (moved_part c q) = part_force q.
Proof. unfold part_force, moved_part, r_area, r_w, r_h. cbn [fst snd r_x1 r_y1 r_x2 r_y2]. ring. Qed.
Lemma arm_moved n D c q : part_arm n (D - height n (fst c) (snd c)) (moved_part c q) = part_arm n D q.
Proof. unfold part_arm, moved_part, r_cx, r_cy, height. cbn [fst snd r_x1 r_y1 r_x2 r_y2]. field. Qed.
Lemma cut_moved E E' n D c up dn : same_boundary E' (moved_edges c E) -> cut_at E n D up dn ->
  cut_at E' n (D - height n (fst c) (snd c)) (map (moved_part c) up) (map (moved_part c) dn) /\
  parts_moment n (D - height n (fst c) (snd c)) (map (moved_part c) up) (map (moved_part c) dn) = parts_moment n D up dn.
Proof.
  intros B (Hu & Hd & HB & HF). split; [split; [|split; [|split]]|].
  - rewrite Forall_map. eapply Forall_impl; [|exact Hu]. intros q. apply beyond_moved.
  - rewrite Forall_map. eapply Forall_impl; [|exact Hd]. intros q. apply beyond_moved.
  - rewrite <- map_app, <- moved_parts. eapply sb_trans; [exact B|]. apply sb_moved, HB.
  - rewrite !sumf_map. rewrite !(sumf_ext (fun q => part_force (moved_part c q)) part_force) by (intros; apply force_moved). exact HF.
  - unfold parts_moment. rewrite !sumf_map. f_equal; apply sumf_ext; intros; rewrite force_moved, arm_moved; reflexivity.
Qed.
