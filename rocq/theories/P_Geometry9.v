(** Proofs: statements about whole operations, used in T_Geometry. *)
From Coq Require Import String Reals List Bool Arith ZArith Lia Lra Permutation.
From Verif Require Import Base M_Fea M_Init M_Geometry S_Geometry P_Geometry P_Geometry2 P_Geometry3 P_Geometry4 P_Geometry5 P_Geometry6 P_Geometry7 P_Geometry8.
Import ListNotations.
Local Open Scope R_scope.

(** ** Finer grids *)
Lemma grid_finer t t' x : (t <= t')%nat -> on_grid t x -> on_grid t' x.
Proof.
  intros L [k K]. exists (k * 10 ^ Z.of_nat (t' - t))%Z. rewrite mult_IZR, <- pow_IZR, <- K. replace t' with (t + (t' - t))%nat at 1 by lia. rewrite pow_add. ring.
Qed.
Lemma poly_finer t t' p : (t <= t')%nat -> poly_on_grid t p -> poly_on_grid t' p.
Proof. intros L. apply Forall_impl. intros r. apply Forall_impl. intros v [A B]. split; apply (grid_finer t t'); assumption. Qed.
Lemma round_finer t t' p : (t <= t')%nat -> poly_on_grid t p -> round_polygon_vertices p t = p -> round_polygon_vertices p t' = p.
Proof.
  intros L G E. unfold round_polygon_vertices in *. rewrite (map_polygon_round_id t' p (poly_finer t t' p L G)). rewrite (map_polygon_round_id t p G) in E. exact E.
Qed.

(** ** Too few hole points *)
Lemma more_loops_short points holes E : forall ls I more s j, Forall (fun l => l <> [] /\ Forall (fun i => (i < length points)%nat) l) ls -> holes <> [] ->
  loop_done E I more s j -> separate j ls -> ~ In E I -> Forall (fun l => map (at_ points) l <> E) ls -> (more < length ls)%nat ->
  fold_result (from_points_step points holes) (concat (map ring_facets ls)) s = Err IndexError.
Proof.
  induction ls as [|l ls IH]; intros I more s j Hr Hh D Hs Hn He L; [cbn in L; lia|]. cbn [map concat length] in *.
  apply Forall_cons_iff in Hr. destruct Hr as [[Nl Rl] Hr]. apply Forall_cons_iff in He. destruct He as [El He]. destruct Hs as [Hj Hs]. rewrite fold_result_app.
  destruct more as [|more].
  - destruct D as (DE & DI & (i & DP) & DA). destruct l as [|h t]; [contradiction|]. rewrite ring_facets_cons. cbn [fold_result]. apply Forall_cons_iff in Rl. destruct Rl as [Rh Rt].
    unfold from_points_step at 1. cbn [fst]. rewrite nth_error_at by exact Rh. rewrite DP. cbn [snd]. cbn [head_of hd] in Hj. apply Nat.eqb_neq in Hj. rewrite Hj.
    assert (Eh : negb (match holes with [] => true | _ => false end) = true) by (destruct holes; [contradiction|reflexivity]). rewrite Eh. cbn [negb andb].
    assert (Ec : (length (lp_ints s) <= if pts_eqb (active s) (lp_ext s) then lp_count s else S (lp_count s))%nat).
    { rewrite DI. cbn [repeat]. rewrite app_nil_r. unfold active. destruct I as [|a I'].
      - destruct DA as [-> ->]. rewrite (proj2 (pts_eqb_spec _ _) eq_refl). cbn. lia.
      - destruct DA as [-> ->]. rewrite DE, DI. assert (X : pts_eqb (nth (length (a :: I') - 1) ((a :: I') ++ repeat [] 0) []) E = false).
        { destruct (pts_eqb _ E) eqn:Q; [|reflexivity]. apply pts_eqb_spec in Q. exfalso. apply Hn. rewrite <- Q. rewrite app_nth1 by (cbn; lia). apply nth_In. cbn; lia. }
        rewrite X. cbn. lia. }
    replace (_ <? length (lp_ints s))%nat with false by (symmetry; apply Nat.ltb_ge; exact Ec). reflexivity.
  - destruct (next_loop points holes E I more s j l Nl Rl Hh D Hj Hn) as (s1 & F1 & D1). rewrite F1. cbn [bind].
    apply (IH (I ++ [map (at_ points) l]) more s1 (head_of l)); try assumption; [|lia].
    intros X. apply in_app_iff in X. destruct X as [X|[X|[]]]; [exact (Hn X)|exact (El X)].
Qed.
Lemma from_points_short sh points l ls c holes m :
  Forall (fun l => l <> [] /\ Forall (fun i => (i < length points)%nat) l) (l :: ls) -> separate (head_of l) ls ->
  holes <> [] -> (length holes < length ls)%nat -> Forall (fun k => map (at_ points) k <> map (at_ points) l) ls ->
  from_points sh points (concat (map ring_facets (l :: ls))) [c] holes m = Err IndexError.
Proof.
  intros Hr Hs Hh L He. unfold from_points. cbn [map concat]. rewrite fold_result_app. apply Forall_cons_iff in Hr. destruct Hr as [[Nl Rl] Hr].
  assert (Er : map (fun _ : pt => @nil pt) holes = repeat [] (length holes)) by (clear; induction holes; cbn; [reflexivity|f_equal; assumption]).
  rewrite Er. destruct (first_loop points holes (length holes) l Nl Rl) as (s1 & F1 & D1). rewrite F1. cbn [bind].
  rewrite (more_loops_short points holes (map (at_ points) l) ls [] (length holes) s1 (head_of l)); try assumption; [reflexivity|intros []].
Qed.

(** ** Alignment of one geometry *)
Lemma shift_across sh g dx dy (s : side) : is_geometry sh g -> away (translate_pt dx dy) g -> (if horizontal s then dy else dx) = 0 ->
  Forall2 (Forall2 (fun a b => across s b = across s a)) (rings (gm_poly g)) (rings (gm_poly (shift_section sh g dx dy))).
Proof.
  intros G A Z. rewrite (shift_poly sh g dx dy A). destruct (geometry_points sh g G) as (Gr & _). unfold poly_on_grid in Gr.
  assert (X : rings (map_polygon (fun v => round_pt (gm_tol g) (translate_pt dx dy v)) (gm_poly g)) = map (map (fun v => round_pt (gm_tol g) (translate_pt dx dy v))) (rings (gm_poly g))) by reflexivity.
  rewrite X. clear X. induction Gr as [|r rs H _ IH]; cbn [map]; constructor; [|exact IH]. induction H as [|v r [Vx Vy] _ IHr]; cbn [map]; constructor; [|exact IHr].
  unfold across, round_pt, translate_pt. cbn [fst snd]. destruct (horizontal s); rewrite Z, Rplus_0_r; apply round_to_id; assumption.
Qed.
Lemma extreme_grid sh g s e : is_geometry sh g -> extreme s e (ext (gm_poly g)) -> on_grid (gm_tol g) e.
Proof.
  intros G X. destruct (geometry_points sh g G) as (Gr & _). unfold poly_on_grid, rings in Gr. apply Forall_cons_iff in Gr. destruct Gr as [Ge _]. rewrite Forall_forall in Ge.
  destruct s; destruct X as [I _]; apply in_map_iff in I; destruct I as (v & <- & Iv); apply (Ge v Iv).
Qed.
Lemma tie_minus tol t x : on_grid tol x -> ~ tie tol t -> ~ tie tol (t - x).
Proof. intros [k K] N [j J]. apply N. exists (j + k)%Z. rewrite plus_IZR. lra. Qed.
Lemma align_places sh g s s' t off : is_geometry sh g -> proper g -> ~ tie (gm_tol g) t -> horizontal s' = horizontal s ->
  off = t - nth4 (extents [gm_poly g]) (side_index s') ->
  let o := if horizontal s then (off, 0) else (0, off) in placed g (shift_section sh g (fst o) (snd o)) s s' t.
Proof.
  intros G P N Hh E o. assert (NE : exterior_points [gm_poly g] <> []) by (rewrite exterior_single; apply proper_ext, P).
  assert (Go : on_grid (gm_tol g) (nth4 (extents [gm_poly g]) (side_index s'))).
  { apply (extreme_grid sh g s'); [exact G|]. pose proof (extents_extreme [gm_poly g] s' NE) as X. rewrite exterior_single in X. exact X. }
  assert (No : ~ tie (gm_tol g) off) by (rewrite E; apply tie_minus; assumption).
  assert (A : away (translate_pt (fst o) (snd o)) g).
  { apply (away_ext (axis_map 1 1 (fst o) (snd o))); [intros v; symmetry; apply translate_axis|].
    apply (axis_away sh); auto; unfold o; destruct (horizontal s); cbn [fst snd]; try exact No; apply grid_not_tie, grid_0. }
  split; [|split].
  - exists off. pose proof (shift_moved sh g (fst o) (snd o) A) as M. unfold o in *. destruct (horizontal s); exact M.
  - apply shift_across; [exact G|exact A|]. unfold o. destruct (horizontal s); reflexivity.
  - intros e X. apply rounded_spec. apply (aligned (gm_tol g) [gm_poly g] s s' t e off Hh NE E). fold o. rewrite (shift_poly sh g _ _ A) in X. rewrite exterior_single. exact X.
Qed.

(** ** Alignment of compounds, all members with the same tolerance *)
Lemma members_points sh tol c : members sh tol c -> compound_points c <> [] /\ Forall (pt_on_grid tol) (compound_points c).
Proof.
  intros [H N]. unfold compound_points, exterior_points. split.
  - destruct (cp_geoms c) as [|g gs]; [contradiction|]. apply Forall_cons_iff in H. destruct H as [(_ & P & _) _]. apply proper_ext in P. cbn [map concat].
    destruct (ext (gm_poly g)); [contradiction|discriminate].
  - clear N. induction H as [|g gs (G & _ & T) _ IH]; cbn [map concat]; [constructor|]. apply Forall_app. split; [|exact IH]. destruct (geometry_points sh g G) as (Gr & _).
    rewrite T in Gr. unfold poly_on_grid, rings in Gr. apply Forall_cons_iff in Gr. apply Gr.
Qed.
Lemma compound_places sh tol c s s' t off : members sh tol c -> ~ tie tol t -> horizontal s' = horizontal s ->
  off = t - nth4 (extents (map gm_poly (cp_geoms c))) (side_index s') ->
  let o := if horizontal s then (off, 0) else (0, off) in
  let c' := compound_shift sh c (fst o) (snd o) in
  Forall2 (moved (translate_pt (fst o) (snd o))) (cp_geoms c) (cp_geoms c') /\
  forall e, extreme s' e (compound_points c') -> Rabs (e - t) <= half tol /\ (on_grid tol t -> e = t).
Proof.
  intros Hm N Hh E o c'. destruct (members_points sh tol c Hm) as [NE Gr]. destruct Hm as [Hm _].
  assert (Go : on_grid tol (nth4 (extents (map gm_poly (cp_geoms c))) (side_index s'))).
  { pose proof (extents_extreme _ s' NE) as X. rewrite Forall_forall in Gr. destruct s'; destruct X as [I _]; apply in_map_iff in I; destruct I as (v & Ev & Iv); cbn [side_index] in *; rewrite <- Ev; apply (Gr v Iv). }
  assert (No : ~ tie tol off) by (rewrite E; apply tie_minus; assumption).
  assert (A : Forall (fun g => gm_tol g = tol /\ away (translate_pt (fst o) (snd o)) g) (cp_geoms c)).
  { eapply Forall_impl; [|exact Hm]. intros g (G & P & T). split; [exact T|]. apply (away_ext (axis_map 1 1 (fst o) (snd o))); [intros v; symmetry; apply translate_axis|].
    apply (axis_away sh); auto; rewrite T; unfold o; destruct (horizontal s); cbn [fst snd]; try exact No; apply grid_not_tie, grid_0. }
  assert (Cg : cp_geoms c' = map (fun g => shift_section sh g (fst o) (snd o)) (cp_geoms c)) by apply (compound_map sh (fun g => shift_section sh g (fst o) (snd o))).
  split.
  - rewrite Cg. apply Forall2_map_self. eapply Forall_impl; [|exact A]. intros g [_ Ag]. apply shift_moved, Ag.
  - intros e X. unfold compound_points in X. rewrite Cg, (shifted_points sh tol) in X by exact A. apply rounded_spec. eapply (aligned tol (map gm_poly (cp_geoms c)) s s' t e off Hh NE E). exact X.
Qed.
Lemma Forall2_impl {A B} (P Q : A -> B -> Prop) l m : (forall a b, P a b -> Q a b) -> Forall2 P l m -> Forall2 Q l m.
Proof. intros H F. induction F; constructor; auto. Qed.
