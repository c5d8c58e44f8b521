(** Second moments about the four axes; an exact root finder; the geometry made of the triangles of a mesh. *)
From Coquelicot Require Import Coquelicot.
From Coq Require Import Reals List Lra Lia ClassicalDescription IndefiniteDescription.
From Verif Require Import Base S_Integral P_Integral M_Fea S_Fem P_Fea P_Geom M_Section S_Section S_Post P_Section P_Totals P_Post P_Yield M_Bisect M_Props M_Plastic S_Plastic P_Ridge P_Plastic P_Plastic2 P_Plastic3 P_Plastic4 P_Clip P_Shape S_Shape P_Plastic5 P_Plastic6 M_Post.
Import ListNotations.
Local Open Scope R_scope.

Lemma about_ge els k : els <> [] -> valid_mesh els -> pos_moduli els ->
  let c := centroidal_of (section_totals els) in
  (1 - axis_tol k) * inertia_of c k <= about els (direction (p_phi c) k).
Proof.
  intros Hn Hv Hp c. pose proof (ea_pos els Hn Hv Hp) as He. assert (He' : t_ea (section_totals els) <> 0) by lra.
  pose proof (inertia_all els axis_11 Hn Hv Hp) as HI. fold c in HI. cbn [inertia_of] in HI.
  destruct k.
  - rewrite (about_xy els Hv He') by auto. fold c. cbn [axis_tol]. lra.
  - rewrite (about_xy els Hv He') by auto. fold c. cbn [axis_tol]. lra.
  - destruct (principal_axes_mesh els Hn Hv Hp) as [_ A]. fold c in A.
    assert (E : about els (direction (p_phi c) axis_11) = mesh_int m_E (fun x y => snd (pr11 c (x, y)) ^ 2) els).
    { unfold about. fold c. apply mesh_int_ext. intros x y. destruct (dir_h c (x, y)) as (_ & H & _). cbn [fst snd] in H. rewrite H. reflexivity. }
    rewrite E. cbn [axis_tol inertia_of].
    assert (0 < 1 / 10 ^ 12) by (apply tiny_pos). set (e := 1 / 10 ^ 12) in *.
    assert (0 < e * p_i11_c c) by (apply Rmult_lt_0_compat; assumption).
    destruct A as [(_ & A & _)|(_ & _ & A & _)].
    + rewrite A. lra.
    + apply Rabs_le_between in A. lra.
  - pose proof (principal_extreme_mesh els (p_phi c * PI / 180 - PI / 2) Hv He') as A. cbv zeta in A. fold c in A.
    assert (E : about els (direction (p_phi c) axis_22) =
      mesh_int m_E (fun x y => ((y - p_cy c) * cos (p_phi c * PI / 180 - PI / 2) - (x - p_cx c) * sin (p_phi c * PI / 180 - PI / 2)) ^ 2) els).
    { unfold about. fold c. apply mesh_int_ext. intros x y. unfold height, direction. cbn [fst snd].
      rewrite cos_minus, sin_minus, cos_PI2, sin_PI2. ring. }
    rewrite E. cbn [axis_tol inertia_of]. lra.
Qed.

Lemma my_pos els groups k : els <> [] -> valid_mesh els -> pos_moduli els -> groups_ok groups els -> (forall el, In el els -> 0 < m_fy (el_mat el)) ->
  0 < my_of (yield_moments (centroidal_of (section_totals els)) groups) k.
Proof.
  intros Hn Hv Hp Hg Hfy. destruct (yield_all els groups Hn Hv Hp Hg Hfy) as (Y1 & Y2 & Y3 & Y4).
  destruct k; cbn [my_of]; [apply Y1|apply Y2|apply Y3|apply Y4].
Qed.

(** When the analysis completes. *)
Lemma analysis_total brentq g get default phi : get M_Props.p_phi = Some phi ->
  ((forall k, rr_converged (axis_root brentq g phi k) = true) <-> exists ws, plastic_analysis brentq g get default = (ws, Ok tt)) /\
  (forall ws e, plastic_analysis brentq g get default = (ws, Err e) -> e = RuntimeError).
Proof.
  intros Hphi. unfold plastic_analysis. rewrite Hphi.
  unfold axis_root, axis_imb, axis_lim.
  destruct (calculate_extreme_fibres (pl_points g) 0) as [[[x1 x2] y1] y2].
  destruct (calculate_extreme_fibres (pl_points g) phi) as [[[u1 u2] v1] v2]. cbn [fst snd].
  unfold pc_algorithm. cbn [fst snd].
  set (fx := fun d => evaluate_force_eq (pl_geoms g) d (1, 0) (perpendicular (1, 0) true)).
  set (fy := fun d => evaluate_force_eq (pl_geoms g) d (0, 1) (perpendicular (0, 1) false)).
  set (t := phi * PI / 180).
  set (f1 := fun d => evaluate_force_eq (pl_geoms g) d (cos t, sin t) (perpendicular (cos t, sin t) true)).
  set (f2 := fun d => evaluate_force_eq (pl_geoms g) d (- sin t, cos t) (perpendicular (- sin t, cos t) false)).
  assert (K : (forall k, rr_converged (let lim := match k with axis_x => (y1, y2) | axis_y => (x1, x2) | axis_11 => (v1, v2) | axis_22 => (u1, u2) end in
      brentq (fun d => evaluate_force_eq (pl_geoms g) d (axis_u phi k) (perpendicular (axis_u phi k) (axis_b k))) (fst lim) (snd lim)) = true) <->
    (rr_converged (brentq fx y1 y2) = true /\ rr_converged (brentq fy x1 x2) = true /\
     rr_converged (brentq f1 v1 v2) = true /\ rr_converged (brentq f2 u1 u2) = true)).
  { split.
    - intros H. pose proof (H axis_x). pose proof (H axis_y). pose proof (H axis_11). pose proof (H axis_22). auto.
    - intros (A & B & C & D) [| | |]; cbn [axis_u axis_b fst snd]; assumption. }
  cbv zeta in K. rewrite K. clear K.
  destruct (rr_converged (brentq fx y1 y2)) eqn:Cx;
    [destruct (rr_converged (brentq fy x1 x2)) eqn:Cy;
      [destruct (rr_converged (brentq f1 v1 v2)) eqn:C1;
        [destruct (rr_converged (brentq f2 u1 u2)) eqn:C2|]|]|];
    unfold wbind, wlift, tell; cbn [snd fst];
    (split; [split; [intros (? & ? & ? & ?); try discriminate; eexists; reflexivity
                    |intros (ws & E); try discriminate; auto]
            |intros ws e E; injection E; intros; subst; try discriminate; try reflexivity; congruence]).
Qed.

(** A root finder that always finds a root in the bracket. *)
Definition exact_brentq : root_finder := fun f a b =>
  match excluded_middle_informative (exists x, a <= x <= b /\ f x = 0) with
  | left H => let x := proj1_sig (constructive_indefinite_description _ H) in mkRoot x true x
  | right _ => mkRoot a false a
  end.
Lemma exact_brentq_within : root_within 0 exact_brentq.
Proof.
  intros f a b L S. cbv zeta. unfold exact_brentq. destruct (excluded_middle_informative _) as [H|H]; cbn [rr_converged rr_root rr_last]; [|discriminate].
  destruct (constructive_indefinite_description _ H) as [x [Hx E]]. cbn [proj1_sig]. intros _.
  replace (x - x) with 0 by ring. rewrite Rabs_R0. split; [lra|].
  exists x, x. replace (x - x) with 0 by ring. rewrite Rabs_R0, E. lra.
Qed.
Lemma exact_brentq_runs g get default shapes phi : get M_Props.p_phi = Some phi ->
  section_covers (pl_geoms g) shapes -> surrounds (pl_points g) (concat shapes) ->
  exists ws, plastic_analysis exact_brentq g get default = (ws, Ok tt).
Proof.
  intros Hphi Hc Hs. apply (analysis_total exact_brentq g get default phi Hphi). intros k.
  unfold axis_root, exact_brentq. destruct (excluded_middle_informative _) as [H|H]; [reflexivity|exfalso]. apply H.
  destruct (bracket_axis g shapes phi k Hc Hs) as [L _].
  assert (B : forall t p, In t (concat shapes) -> In p (corners t) ->
    fst (axis_lim (pl_points g) phi k) <= height (perpendicular (axis_u phi k) (axis_b k)) (fst p) (snd p) <= snd (axis_lim (pl_points g) phi k)).
  { intros t p Ht Hp. rewrite axis_dir. exact (lim_section _ _ _ _ t p Hs Ht Hp). }
  destruct (balanced_exists (pl_geoms g) shapes (axis_u phi k) (axis_b k) (axis_u_unit phi k) Hc _ _ L B) as (d & Hd & E).
  exists d. split; [exact Hd|]. unfold axis_imb, evaluate_force_eq. rewrite E. unfold Rdiv. ring.
Qed.

(** ** The geometry made of the triangles of a mesh *)
Definition tri_bounds (t : mtri) : R * R * R * R :=
  let x p := fst (p t) in let y p := snd (p t) in
  (Rmin (x mt_a) (Rmin (x mt_b) (x mt_c)), Rmax (x mt_a) (Rmax (x mt_b) (x mt_c)),
   Rmin (y mt_a) (Rmin (y mt_b) (y mt_c)), Rmax (y mt_a) (Rmax (y mt_b) (y mt_c))).
Definition tri_geom (t : mtri) : plane_geom := mkPlane (mt_mat t) (tri_bounds t) (clip_split [t]).
Definition mesh_shapes (sx sy : R) (els : list tri6) : list (list mtri) := map (fun el => [mtri_of (translate_el sx sy el)]) els.
Definition mesh_geom (sx sy : R) (els : list tri6) : plastic_geom :=
  let ts := concat (mesh_shapes sx sy els) in mkPlasticGeom (map tri_geom ts) (concat (map corners ts)).

Lemma mesh_shapes_concat sx sy els : concat (mesh_shapes sx sy els) = map mtri_of (map (translate_el sx sy) els).
Proof. unfold mesh_shapes. induction els as [|el els IH]; cbn [map concat app]; [reflexivity|]. rewrite IH. reflexivity. Qed.

Lemma tri_covers t : ccw t -> covers (tri_geom t) [t].
Proof.
  intros H. apply clip_covers; [discriminate|auto|intros t' [<-|[]]; reflexivity|].
  intros t' p [<-|[]] Hp. unfold tri_bounds, in_bounds. cbn [corners In] in Hp.
  destruct Hp as [<-|[<-|[<-|[]]]]; unfold Rmin, Rmax; repeat destruct Rle_dec; lra.
Qed.

Lemma mesh_geom_ok sx sy els : els <> [] -> valid_mesh els -> (forall el, In el els -> 0 < m_fy (el_mat el)) ->
  section_covers (pl_geoms (mesh_geom sx sy els)) (mesh_shapes sx sy els) /\
  surrounds (pl_points (mesh_geom sx sy els)) (concat (mesh_shapes sx sy els)) /\
  same_section els sx sy (mesh_shapes sx sy els).
Proof.
  intros Hn Hv Hfy. split; [|split].
  - unfold section_covers, mesh_geom. cbn [pl_geoms]. rewrite mesh_shapes_concat. split; [destruct els; [congruence|discriminate]|].
    rewrite !map_map. split.
    + unfold mesh_shapes. clear Hn Hfy. induction els as [|el els IH]; cbn [map]; constructor.
      * apply tri_covers. unfold ccw, mtri_of. cbn [mt_a mt_b mt_c].
        destruct (translate_corners sx sy el) as (-> & -> & ->).
        pose proof (Hv el (or_introl eq_refl)) as H. unfold valid_el in H. destruct H as [_ H]. unfold orient, shift_tri in *. cbn [fst snd] in *. lra.
      * apply IH. intros e He. apply Hv. right; exact He.
    + intros g Hg. apply in_map_iff in Hg. destruct Hg as (el & <- & Hel). cbn [tri_geom pg_mat mtri_of mt_mat]. apply (Hfy el Hel).
  - intros n d Hq t p Ht Hp. apply Hq. unfold mesh_geom. cbn [pl_points]. apply in_concat. exists (corners t). split; [apply in_map, Ht|exact Hp].
  - unfold same_section. rewrite mesh_shapes_concat, edges_map_mtri. apply sb_refl.
Qed.
