(** C94: the stresses move with the section. *)
From Coq Require Import Reals List Lra Lia Permutation.
From Coquelicot Require Import Coquelicot.
From Verif Require Import Base S_Integral M_Fea S_Fem M_Post M_Section M_Stress S_Section S_Post S_Warp S_Stress S_Similar S_StressImage
  P_Integral P_Fea P_Geom P_Elem P_Section P_Totals P_Post P_Yield P_Warp P_Warp2 P_Warp3 P_Warp5 P_Warp7 P_Warp9 P_Warp10 P_WarpEx P_Similar P_Similar2 P_Similar3
  P_Stress P_Similar4 P_Similar5 T_Similar.
From Verif Require T_Stress.
Import ListNotations.
Local Open Scope R_scope.

(** Any similarity, numbering and order, also mirror images. The corners of the triangles of a mirror image are listed in another order, and
    the table for the extrapolation to the nodes, given to 15 digits, is symmetric in the corners only up to the last digit. *)
Theorem C94_moved_stresses : forall n m p q els els' composite w w' sg a groups groups' M res res',
  analysed_image n m p q els els' composite w w' -> a_m11 a = 0 /\ a_m22 a = 0 \/ axes_follow m sg els els' ->
  moved_groups (mesh_image m p) els groups groups' -> stresses_below M composite els w a groups ->
  stresses composite els w a groups = Ok res -> stresses composite els' w' (moved_actions m sg a) groups' = Ok res' ->
  Forall2 (fun r r' => forall i, (i < n)%nat -> stress_follows m (2 / 10 ^ 15 * M) (fst r) (fst r') i (p i)) res res'.
Proof.
  intros n m p q els els' composite w w' sg a groups groups' M res res' (Hs & Hpq & HI & Hnu & (X & Y & solve & HA) & (X' & Y' & solve' & HA')) Hax HG [HM HB] E E'.
  assert (N := nu_ok composite els (a_ne _ _ _ _ _ _ _ HA) (on_valid _ _ _ _ (a_on _ _ _ _ _ _ _ HA)) (a_pos _ _ _ _ _ _ _ HA) Hnu).
  unfold stresses, calc_stress, bind in E, E'. destruct (stress_parameters _ _ _ _ a) as [[[[P om] ps] ph]|] eqn:HP in E; [|discriminate]. destruct (stress_parameters _ _ _ _ (moved_actions m sg a)) as [[[[P' om'] ps'] ph']|] eqn:HP' in E'; [|discriminate].
  injection E as <-. injection E' as <-. specialize (HB P om ps ph). revert HB. induction HG as [|g g' l l' [Hin Himg] HG IH]; intros HB; cbn [map]; constructor.
  - intros i Hi. cbn [fst]. apply (group_follows n m Hs p q Hpq X Y X' Y' els els' solve solve' composite w w' HI HA HA' ltac:(lra) sg a P P' om ps ph om' ps' ph' Hax HP HP' (snd g) (snd g') Hin i Hi M Himg HM). apply HB; [exact HP|left; reflexivity].
  - apply IH. intros g0 E0 H0. apply HB; [exact E0|right; exact H0].
Qed.

(** The corners of the elements listed in the same order, as in every rotated, translated or enlarged mesh: exactly the same stresses, and the
    same combined stresses *)
Theorem C94_moved_stresses_same : forall n m p q els els' composite w w' sg a groups groups' res res',
  analysed_image n m p q els els' composite w w' -> a_m11 a = 0 /\ a_m22 a = 0 \/ axes_follow m sg els els' ->
  moved_groups (plain_image m p) els groups groups' ->
  stresses composite els w a groups = Ok res -> stresses composite els' w' (moved_actions m sg a) groups' = Ok res' ->
  Forall2 (fun r r' => forall i, (i < n)%nat -> stress_follows m 0 (fst r) (fst r') i (p i) /\ combined_follows m (snd r i) (snd r' (p i))) res res'.
Proof.
  intros n m p q els els' composite w w' sg a groups groups' res res' (Hs & Hpq & HI & Hnu & (X & Y & solve & HA) & (X' & Y' & solve' & HA')) Hax HG E E'.
  assert (N := nu_ok composite els (a_ne _ _ _ _ _ _ _ HA) (on_valid _ _ _ _ (a_on _ _ _ _ _ _ _ HA)) (a_pos _ _ _ _ _ _ _ HA) Hnu).
  unfold stresses, calc_stress, bind in E, E'. destruct (stress_parameters _ _ _ _ a) as [[[[P om] ps] ph]|] eqn:HP in E; [|discriminate]. destruct (stress_parameters _ _ _ _ (moved_actions m sg a)) as [[[[P' om'] ps'] ph']|] eqn:HP' in E'; [|discriminate].
  injection E as <-. injection E' as <-. induction HG as [|g g' l l' [Hin Himg] HG IH]; cbn [map]; constructor.
  - intros i Hi. cbn [fst snd]. assert (F := group_same n m Hs p q Hpq X Y X' Y' els els' solve solve' composite w w' HI HA HA' ltac:(lra) sg a P P' om ps ph om' ps' ph' Hax HP HP' (snd g) (snd g') Hin i Hi Himg).
    split; [exact F|]. apply (combined_same m Hs). exact F.
  - exact IH.
Qed.

(** The principal axes of the image are the images of the principal axes if the map keeps the directions of the coordinate axes, or the analysis
    finds the axes of both sections. *)
Theorem C94_axes_follow : forall n m p q els els' composite w w', analysed_image n m p q els els' composite w w' ->
  s_b m = 0 \/ axes_found els /\ axes_found els' -> exists sg, axes_follow m sg els els'.
Proof.
  intros n m p q els els' composite w w' (Hs & Hpq & HI & Hnu & (X & Y & solve & HA) & (X' & Y' & solve' & HA')) HX.
  assert (SA : exists sg, same_axes m els els' sg).
  { destruct HX as [B|[F F']]; [apply (axes_straight n m Hs p X Y X' Y' els els' solve solve' composite w w' HI HA HA' B)|apply (axes_general n m Hs p X Y X' Y' els els' solve solve' composite w w' HI HA HA' F F')]. }
  destruct SA as (sg & S1 & S2 & S3). exists sg. destruct (k_pos m Hs) as (Kp & _ & _ & Kn). fold (scale m) in S2, S3. unfold axes_follow. cbv zeta. split; [exact S1|].
  unfold rot_x, rot_y, lin_x, lin_y. split; (apply Rmult_eq_reg_l with (scale m); [|exact Kn]); [rewrite S2|rewrite S3]; field; exact Kn.
Qed.

(** Stresses at arbitrary points: the elements in the same order, the spatial index finds the same elements, and the mean of their stresses is taken. *)
Theorem C94_stress_at_points : forall n m p q els composite w w' sg a query query' pts res res',
  let els' := map (move_el m p) els in let image pt := (sim_x m (fst pt) (snd pt), sim_y m (fst pt) (snd pt)) in
  analysed_image n m p q els els' composite w w' -> a_m11 a = 0 /\ a_m22 a = 0 \/ axes_follow m sg els els' ->
  (forall pt, query' (image pt) = query pt) ->
  stress_at_points els query mean composite (section_totals els) (centroidal_of (section_totals els)) (Some w) a pts = Ok res ->
  stress_at_points els' query' mean composite (section_totals els') (centroidal_of (section_totals els')) (Some w') (moved_actions m sg a) (map image pts) = Ok res' ->
  Forall2 (point_follows m) res res'.
Proof.
  intros n m p q els composite w w' sg a query query' pts res res' els' image (Hs & Hpq & HI & Hnu & (X & Y & solve & HA) & (X' & Y' & solve' & HA')) Hax Hq E E'.
  assert (N := nu_ok composite els (a_ne _ _ _ _ _ _ _ HA) (on_valid _ _ _ _ (a_on _ _ _ _ _ _ _ HA)) (a_pos _ _ _ _ _ _ _ HA) Hnu).
  unfold stress_at_points, bind in E, E'. destruct (stress_parameters _ _ _ _ a) as [[[[P om] ps] ph]|] eqn:HP in E; [|discriminate]. destruct (stress_parameters _ _ _ _ (moved_actions m sg a)) as [[[[P' om'] ps'] ph']|] eqn:HP' in E'; [|discriminate].
  injection E as <-. injection E' as <-. rewrite map_map. induction pts as [|pt pts IH]; cbn [map]; constructor; [|exact IH]. clear IH.
  rewrite Hq. generalize (query pt). intros ids.
  assert (PI := fun el => point_image n m Hs p q Hpq X Y X' Y' els els' solve solve' composite w w' HI HA HA' ltac:(lra) sg a P P' om ps ph om' ps' ph' Hax HP HP' el pt).
  unfold stress_at_point.
  set (one := fun i : nat => match nth_error els i with Some tri => Some (local_element_stress tri pt a P (gather om (el_ids tri)) (gather ps (el_ids tri)) (gather ph (el_ids tri))) | None => None end).
  set (one' := fun i : nat => match nth_error els' i with Some tri => Some (local_element_stress tri (image pt) (moved_actions m sg a) P' (gather om' (el_ids tri)) (gather ps' (el_ids tri)) (gather ph' (el_ids tri))) | None => None end).
  assert (ON : forall i, match one i, one' i with Some o, Some o' => follows m o o' | None, None => True | _, _ => False end).
  { intros i. unfold one, one', els'. rewrite nth_error_map. destruct (nth_error els i) as [el|] eqn:En; cbn [option_map]; [|exact I]. apply PI. apply nth_error_In with i, En. }
  assert (FP : forall o o', follows m o o' -> point_follows m (Some o) (Some o')) by (intros [[zz zx] zy] [[zz' zx'] zy'] F; exact F).
  destruct ids as [|i [|j ids]]; [exact I| |].
  - change (point_follows m (one i) (one' i)). specialize (ON i). destruct (one i) as [o|], (one' i) as [o'|]; try contradiction; [apply FP, ON|exact I].
  - set (L := i :: j :: ids). pose (sig := fun one : nat -> option (R * R * R) => concat (map (fun i => match one i with Some s => [s] | None => [] end) L)).
    change (point_follows m (Some (mean (map (fun s => fst (fst s)) (sig one)), mean (map (fun s => snd (fst s)) (sig one)), mean (map snd (sig one))))
      (Some (mean (map (fun s => fst (fst s)) (sig one')), mean (map (fun s => snd (fst s)) (sig one')), mean (map snd (sig one'))))). unfold sig. clear sig. clearbody L. clear i j ids. rename L into ids.
    assert (F2 : Forall2 (follows m) (concat (map (fun i => match one i with Some s => [s] | None => [] end) ids)) (concat (map (fun i => match one' i with Some s => [s] | None => [] end) ids))).
    { induction ids as [|i ids IH]; cbn [map concat]; [constructor|]. specialize (ON i). destruct (one i) as [o|], (one' i) as [o'|]; try contradiction; cbn [app]; [constructor; assumption|exact IH]. }
    revert F2. generalize (concat (map (fun i => match one i with Some s => [s] | None => [] end) ids)) (concat (map (fun i => match one' i with Some s => [s] | None => [] end) ids)).
    intros l l' F2. unfold point_follows, mean. rewrite !map_length. assert (LL : length l' = length l) by (clear -F2; induction F2; cbn; congruence). rewrite LL. clear LL.
    assert (S : sumf (fun x => x) (map (fun s => fst (fst s)) l') = sumf (fun x => x) (map (fun s => fst (fst s)) l) /\
      sumf (fun x => x) (map (fun s => snd (fst s)) l') = rot_x m (sumf (fun x => x) (map (fun s => snd (fst s)) l)) (sumf (fun x => x) (map snd l)) /\
      sumf (fun x => x) (map snd l') = rot_y m (sumf (fun x => x) (map (fun s => snd (fst s)) l)) (sumf (fun x => x) (map snd l))).
    { clear -F2. induction F2 as [|o o' l l' (F1 & F2 & F3) F IH]; cbn [map]; [rewrite !sumf_nil; unfold rot_x, rot_y, lin_x, lin_y, Rdiv; repeat split; ring|].
      rewrite !sumf_cons. destruct IH as (-> & -> & ->). rewrite F1, F2, F3. unfold rot_x, rot_y, lin_x, lin_y, Rdiv. repeat split; ring. }
    destruct S as (-> & -> & ->). unfold rot_x, rot_y, lin_x, lin_y, Rdiv. repeat split; ring.
Qed.

(** A section that is its own mirror image, under an axial force, a shear force along the axis of symmetry and bending about the other axis, has
    symmetric normal stresses; the shear stresses are mirrored. *)
Theorem C94_mirror_symmetric : forall n X Y els solve composite w x0 p q a g M,
  analysed n X Y els solve composite w -> physical_nu els -> renumbering n p q -> let m := mkSim (-1) 0 (-1) (2 * x0) 0 in
  mesh_image m p els els -> incl (snd g) els -> mesh_image m p (snd g) (snd g) ->
  a_vx a = 0 -> a_myy a = 0 -> a_m11 a = 0 -> a_m22 a = 0 -> a_mzz a = 0 -> stresses_below M composite els w a [g] ->
  forall s cb, stresses composite els w a [g] = Ok [(s, cb)] -> forall i, (i < n)%nat ->
  ns_zz_n s (p i) = ns_zz_n s i /\ close (2 / 10 ^ 15 * M) (ns_zz_mxx s (p i) + ns_zz_myy s (p i)) (ns_zz_mxx s i + ns_zz_myy s i) /\
  close (2 / 10 ^ 15 * M) (ns_zx_vx s (p i) + ns_zx_vy s (p i)) (- (ns_zx_vx s i + ns_zx_vy s i)) /\ close (2 / 10 ^ 15 * M) (ns_zy_vx s (p i) + ns_zy_vy s (p i)) (ns_zy_vx s i + ns_zy_vy s i).
Proof.
  intros n X Y els solve composite w x0 p q a g M HA Hnu Hpq m HI Hin HG Z1 Z2 Z3 Z4 Z5 HB s cb E i Hi.
  assert (Sc : scale m = 1) by (unfold scale, m, scale2; cbn [s_a s_b]; replace ((-1) ^ 2 + 0 ^ 2) with 1 by ring; apply sqrt_1).
  assert (RX : forall x y, rot_x m x y = - x /\ rot_y m x y = y) by (intros x y; unfold rot_x, rot_y; rewrite Sc; unfold lin_x, lin_y, m; cbn [s_a s_b s_e]; split; field).
  assert (EA : moved_actions m 1 a = a).
  { unfold moved_actions. rewrite Sc, !(proj1 (RX _ _)), !(proj2 (RX _ _)), Z1, Z2, Z3, Z4, Z5. destruct a as [an vx vy mx my m1 m2 mz]. cbn [a_n a_vx a_vy a_mxx a_myy a_m11 a_m22 a_mzz] in *. subst. f_equal; ring. }
  assert (AI : analysed_image n m p q els els composite w w).
  { split; [split; [right; reflexivity|unfold m; cbn [s_a s_b]; lra]|]. split; [exact Hpq|]. split; [exact HI|]. split; [exact Hnu|]. split; exists X, Y, solve; exact HA. }
  assert (T := C94_moved_stresses n m p q els els composite w w 1 a [g] [g] M [(s, cb)] [(s, cb)] AI (or_introl (conj Z3 Z4))).
  specialize (T ltac:(constructor; [split; assumption|constructor]) HB E). rewrite EA in T. specialize (T E). inversion T as [|? ? ? ? H0 _]. subst. cbn [fst] in H0.
  destruct (H0 i Hi) as (F0 & F1 & _ & _ & _ & _ & F2 & F3). rewrite (proj1 (RX _ _)) in F2. rewrite (proj2 (RX _ _)) in F3. repeat split; assumption.
Qed.

(** ** Examples *)

(** There is always a bound M as in C94_moved_stresses. *)
Theorem C94_bound_exists : forall composite els w a groups, exists M, stresses_below M composite els w a groups.
Proof.
  intros composite els w a groups. unfold stresses_below.
  destruct (stress_parameters composite (section_totals els) (centroidal_of (section_totals els)) (Some w) a) as [[[[P om] ps] ph]|e] eqn:HP; [|exists 0; split; [lra|intros; discriminate]].
  set (S := fun el g => element_stress_gp el a P (gather om (el_ids el)) (gather ps (el_ids el)) (gather ph (el_ids el)) g).
  set (v := fun el g => Rabs (sg_zz_mxx (S el g) + sg_zz_myy (S el g)) + Rabs (sg_zz_m11 (S el g)) + Rabs (sg_zz_m22 (S el g)) + Rabs (sg_zx_mzz (S el g)) + Rabs (sg_zy_mzz (S el g)) +
    Rabs (sg_zx_vx (S el g) + sg_zx_vy (S el g)) + Rabs (sg_zy_vx (S el g) + sg_zy_vy (S el g))).
  assert (V0 : forall el g, 0 <= v el g) by (intros el g; unfold v; repeat match goal with |- context [Rabs ?x] => pose proof (Rabs_pos x); generalize dependent (Rabs x); intros end; lra).
  exists (sumf (fun gr => sumf (fun el => sumf (v el) gps6) (snd gr)) groups).
  assert (LE : forall (A : Type) (f : A -> R) (l : list A) x, (forall y, 0 <= f y) -> In x l -> f x <= sumf f l).
  { intros A f l x H Hx. induction l as [|y l IH]; [destruct Hx|]. rewrite sumf_cons. pose proof (H y). assert (0 <= sumf f l) by (apply sumf_nonneg; intros; apply H). destruct Hx as [->|Hx]; [lra|specialize (IH Hx); lra]. }
  assert (V1 : forall el, 0 <= sumf (v el) gps6) by (intros el; apply sumf_nonneg; intros; apply V0).
  assert (V2 : forall gr : material * list tri6, 0 <= sumf (fun el => sumf (v el) gps6) (snd gr)) by (intros gr; apply sumf_nonneg; intros; apply V1).
  split; [apply sumf_nonneg; intros; apply V2|]. intros p om0 ps0 ph0 gr E Hg. injection E as <- <- <- <-. intros el g He Hgp. cbv zeta. fold (S el g).
  assert (B : v el g <= sumf (fun gr => sumf (fun el => sumf (v el) gps6) (snd gr)) groups).
  { eapply Rle_trans; [apply (LE _ (v el) gps6 g (V0 el) Hgp)|]. eapply Rle_trans; [apply (LE _ (fun el => sumf (v el) gps6) (snd gr) el V1 He)|]. apply (LE _ _ groups gr V2 Hg). }
  set (M := sumf _ groups) in *. clearbody M. unfold v in B.
  assert (Q : forall x, 0 <= Rabs x /\ x ^ 2 = Rabs x ^ 2) by (intros x; split; [apply Rabs_pos|rewrite RPow_abs, Rabs_right; [reflexivity|apply Rle_ge, pow2_ge_0]]).
  rewrite (proj2 (Q (sg_zx_mzz (S el g)))), (proj2 (Q (sg_zy_mzz (S el g)))), (proj2 (Q (sg_zx_vx (S el g) + sg_zx_vy (S el g)))), (proj2 (Q (sg_zy_vx (S el g) + sg_zy_vy (S el g)))).
  pose proof (proj1 (Q (sg_zz_mxx (S el g) + sg_zz_myy (S el g)))). pose proof (proj1 (Q (sg_zz_m11 (S el g)))). pose proof (proj1 (Q (sg_zz_m22 (S el g)))). pose proof (proj1 (Q (sg_zx_mzz (S el g)))).
  pose proof (proj1 (Q (sg_zy_mzz (S el g)))). pose proof (proj1 (Q (sg_zx_vx (S el g) + sg_zx_vy (S el g)))). pose proof (proj1 (Q (sg_zy_vx (S el g) + sg_zy_vy (S el g)))).
  repeat match goal with |- context [Rabs ?x] => generalize dependent (Rabs x); intros end. repeat split; nra.
Qed.
(** The stresses of an analysed section can be calculated. *)
Theorem C94_stresses_exist : forall composite els w a groups, exists res, stresses composite els w a groups = Ok res /\ length res = length groups.
Proof. intros. unfold stresses, calc_stress, stress_parameters. destruct (needs_warping a); cbn [bind]; eexists; (split; [reflexivity|apply map_length]). Qed.

(** A section that is its own image under a half turn, under any actions: at the opposite point the stress of the axial force and the shear
    stresses of the shear forces are the same, those of the bending moments and of the twisting moment are opposite. *)
Theorem C94_half_turn : forall n X Y els solve composite w x0 y0 p q a g M,
  analysed n X Y els solve composite w -> physical_nu els -> renumbering n p q -> let m := mkSim (-1) 0 1 (2 * x0) (2 * y0) in
  mesh_image m p els els -> incl (snd g) els -> mesh_image m p (snd g) (snd g) -> stresses_below M composite els w a [g] ->
  forall s cb, stresses composite els w a [g] = Ok [(s, cb)] -> forall i, (i < n)%nat -> let eps := 2 / 10 ^ 15 * M in
  ns_zz_n s (p i) = ns_zz_n s i /\ close eps (ns_zz_mxx s (p i) + ns_zz_myy s (p i)) (- (ns_zz_mxx s i + ns_zz_myy s i)) /\
  close eps (ns_zz_m11 s (p i)) (- ns_zz_m11 s i) /\ close eps (ns_zz_m22 s (p i)) (- ns_zz_m22 s i) /\
  close eps (ns_zx_mzz s (p i)) (- ns_zx_mzz s i) /\ close eps (ns_zy_mzz s (p i)) (- ns_zy_mzz s i) /\
  close eps (ns_zx_vx s (p i) + ns_zx_vy s (p i)) (ns_zx_vx s i + ns_zx_vy s i) /\ close eps (ns_zy_vx s (p i) + ns_zy_vy s (p i)) (ns_zy_vx s i + ns_zy_vy s i).
Proof.
  intros n X Y els solve composite w x0 y0 p q a g M HA Hnu Hpq m HI Hin HG HB s cb E i Hi eps.
  assert (Sc : scale m = 1) by (unfold scale, m, scale2; cbn [s_a s_b]; replace ((-1) ^ 2 + 0 ^ 2) with 1 by ring; apply sqrt_1).
  assert (RX : forall x y, rot_x m x y = - x /\ rot_y m x y = - y) by (intros x y; unfold rot_x, rot_y; rewrite Sc; unfold lin_x, lin_y, m; cbn [s_a s_b s_e]; split; field).
  assert (AI : analysed_image n m p q els els composite w w).
  { split; [split; [left; reflexivity|unfold m; cbn [s_a s_b]; lra]|]. split; [exact Hpq|]. split; [exact HI|]. split; [exact Hnu|]. split; exists X, Y, solve; exact HA. }
  assert (AX : axes_follow m (-1) els els) by (unfold axes_follow; cbv zeta; split; [right; reflexivity|]; rewrite (proj1 (RX _ _)), (proj2 (RX _ _)); split; ring).
  set (b := moved_actions m (-1) a). destruct (C94_stresses_exist composite els w b [g]) as ([|[s' cb'] [|]] & E' & L'); try discriminate.
  assert (T := C94_moved_stresses n m p q els els composite w w (-1) a [g] [g] M [(s, cb)] [(s', cb')] AI (or_intror AX)).
  specialize (T ltac:(constructor; [split; assumption|constructor]) HB E E'). inversion T as [|? ? ? ? H0 _]. subst. cbn [fst] in H0.
  destruct (T_Stress.C28_superposition composite _ _ (Some w) a a (-1) 0 [g] [(s, cb)] [(s, cb)] E E) as ([|[sc cc] [|]] & Ec & Lc & C); try discriminate.
  destruct (C 0%nat s cb s cb sc cc eq_refl eq_refl eq_refl) as [CN _].
  assert (B : a_n b = a_n a /\ a_mzz b = a_mzz a /\ a_mxx b = - a_mxx a /\ a_myy b = - a_myy a /\ a_m11 b = - a_m11 a /\ a_m22 b = - a_m22 a /\ a_vx b = - a_vx a /\ a_vy b = - a_vy a).
  { unfold b, moved_actions. cbn [a_n a_vx a_vy a_mxx a_myy a_m11 a_m22 a_mzz]. rewrite Sc, !(proj1 (RX _ _)), !(proj2 (RX _ _)). unfold m. cbn [s_e]. repeat split; ring. }
  destruct B as (Bn & Bz & Bx & By & B1 & B2 & Bvx & Bvy).
  assert (SAME : forall ns so act j, In (ns, so, act) components -> act b = act a -> ns s' j = ns s j).
  { intros ns so act j Hc He. apply (T_Stress.C28_no_coupling composite _ _ (Some w) b a [g] _ _ 0%nat s' cb' s cb ns so act j E' E eq_refl eq_refl Hc He). }
  assert (OPP : forall ns so act j, In (ns, so, act) components -> act b = act (lin_actions (-1) a 0 a) -> ns s' j = - ns s j).
  { intros ns so act j Hc He. rewrite (T_Stress.C28_no_coupling composite _ _ (Some w) b _ [g] _ _ 0%nat s' cb' sc cc ns so act j E' Ec eq_refl eq_refl Hc He). rewrite (CN _ _ _ j Hc). ring. }
  destruct (H0 i Hi) as (F0 & F1 & F2 & F3 & F4 & F5 & F6 & F7). rewrite (proj1 (RX _ _)) in F4. rewrite (proj1 (RX _ _)) in F6. rewrite (proj2 (RX _ _)) in F5. rewrite (proj2 (RX _ _)) in F7. fold eps in F1, F2, F3, F4, F5, F6, F7.
  rewrite (SAME ns_zz_n so_zz_n a_n) in F0 by (cbn [components In]; tauto). rewrite (SAME ns_zx_mzz so_zx_mzz a_mzz) in F4 by (cbn [components In]; tauto). rewrite (SAME ns_zy_mzz so_zy_mzz a_mzz) in F5 by (cbn [components In]; tauto).
  assert (LA : forall x y, x = - y -> x = -1 * y + 0 * y) by (intros; lra).
  rewrite (OPP ns_zz_mxx so_zz_mxx a_mxx), (OPP ns_zz_myy so_zz_myy a_myy) in F1 by (first [cbn [components In]; tauto|cbn [lin_actions a_mxx a_myy]; apply LA; assumption]).
  rewrite (OPP ns_zz_m11 so_zz_m11 a_m11) in F2 by (first [cbn [components In]; tauto|cbn [lin_actions a_m11]; apply LA; assumption]).
  rewrite (OPP ns_zz_m22 so_zz_m22 a_m22) in F3 by (first [cbn [components In]; tauto|cbn [lin_actions a_m22]; apply LA; assumption]).
  rewrite (OPP ns_zx_vx so_zx_vx a_vx), (OPP ns_zx_vy so_zx_vy a_vy) in F6 by (first [cbn [components In]; tauto|cbn [lin_actions a_vx a_vy]; apply LA; assumption]).
  rewrite (OPP ns_zy_vx so_zy_vx a_vx), (OPP ns_zy_vy so_zy_vy a_vy) in F7 by (first [cbn [components In]; tauto|cbn [lin_actions a_vx a_vy]; apply LA; assumption]).
  assert (CO : forall x y x' y', x' - y' = x - y \/ x' - y' = - (x - y) -> close eps x y -> close eps x' y') by (intros x y x' y' [D|D] H; unfold close in *; rewrite D; [exact H|rewrite Rabs_Ropp; exact H]).
  split; [exact F0|]. split; [revert F1; apply CO; right; ring|]. split; [revert F2; apply CO; right; ring|]. split; [revert F3; apply CO; right; ring|]. split; [exact F4|]. split; [exact F5|].
  split; [revert F6; apply CO; right; ring|revert F7; apply CO; right; ring].
Qed.
(** a triangle under all eight stress resultants, turned by any angle *)
Example C94_ex_turned : forall t a, a_m11 a = 0 -> a_m22 a = 0 -> exists els' w w' res res', analysed_image 6 (turned_by t) (fun i => i) (fun i => i) [xe] els' true w w' /\
  moved_groups (plain_image (turned_by t) (fun i => i)) [xe] [(xm, [xe])] [(xm, els')] /\
  stresses true [xe] w a [(xm, [xe])] = Ok [res] /\ stresses true els' w' (moved_actions (turned_by t) 1 a) [(xm, els')] = Ok [res'] /\
  forall i, (i < 6)%nat -> cb_vm (snd res' i) = cb_vm (snd res i).
Proof.
  intros t a Z1 Z2. assert (Hs : proper_sim (turned_by t)) by (split; [left; reflexivity|unfold turned_by; cbn [s_a s_b]; pose proof (sin2_cos2 t) as Q; unfold Rsqr in Q; nra]).
  destruct (analysed_exists 6 xX xY [xe] true xmesh) as [w Hw]; [discriminate|apply xpos|discriminate|apply xconn|apply xused|].
  set (els' := map (image_el (turned_by t)) [xe]).
  destruct (analysed_exists 6 _ _ els' true (image_mesh_on 6 xX xY [xe] (turned_by t) Hs xmesh)) as [w' Hw'].
  - discriminate.
  - intros el Hel. apply in_map_iff in Hel. destruct Hel as (e & <- & He). rewrite image_mat. apply xpos, He.
  - discriminate.
  - apply image_connected, xconn.
  - apply image_used, xused.
  - assert (AI : analysed_image 6 (turned_by t) (fun i => i) (fun i => i) [xe] els' true w w').
    { split; [exact Hs|]. split; [intros i Hi; split; [exact Hi|reflexivity]|]. split; [apply image_of|]. split; [apply x_nu|]. split; do 3 eexists; eassumption. }
    assert (G : moved_groups (plain_image (turned_by t) (fun i => i)) [xe] [(xm, [xe])] [(xm, els')]).
    { constructor; [|constructor]. split; [intros z Hz; exact Hz|]. unfold plain_image, els'. cbn [snd map]. unfold image_el, turned_by. cbn [s_e]. destruct (Rlt_dec 0 1); [apply Permutation_refl|lra]. }
    destruct (C94_stresses_exist true [xe] w a [(xm, [xe])]) as ([|r [|]] & E1 & L1); try discriminate. destruct (C94_stresses_exist true els' w' (moved_actions (turned_by t) 1 a) [(xm, els')]) as ([|r' [|]] & E2 & L2); try discriminate.
    exists els', w, w', r, r'. split; [exact AI|]. split; [exact G|]. split; [exact E1|]. split; [exact E2|].
    assert (T := C94_moved_stresses_same 6 (turned_by t) _ _ [xe] els' true w w' 1 a _ _ _ _ AI (or_introl (conj Z1 Z2)) G E1 E2). inversion T as [|? ? ? ? H0 _]. subst.
    intros i Hi. apply (H0 i Hi).
Qed.
(** the isosceles triangle of C91 under its own mirror image *)
Example C94_ex_mirror : exists p q w M res, let a := mkActions 1 0 2 3 0 0 0 0 in analysed 6 yX yY [ys] (best_solver 6) true w /\ renumbering 6 p q /\
  mesh_image (mkSim (-1) 0 (-1) (2 * 0) 0) p [ys] [ys] /\ stresses_below M true [ys] w a [(xm, [ys])] /\ stresses true [ys] w a [(xm, [ys])] = Ok [res] /\
  forall i, (i < 6)%nat -> ns_zz_n (fst res) (p i) = ns_zz_n (fst res) i.
Proof.
  destruct y_sym as (p & q & Hpq & HI). destruct y_analysed as [w HA]. cbv zeta. set (a := mkActions 1 0 2 3 0 0 0 0).
  destruct (C94_bound_exists true [ys] w a [(xm, [ys])]) as [M HM]. destruct (C94_stresses_exist true [ys] w a [(xm, [ys])]) as ([|r [|]] & E1 & L1); try discriminate.
  exists p, q, w, M, r. repeat (split; [assumption|]). intros i Hi. destruct r as [s cb].
  apply (C94_mirror_symmetric 6 yX yY [ys] (best_solver 6) true w 0 p q a (xm, [ys]) M HA ltac:(intros el [<-|[]]; cbn; lra) Hpq HI (fun z Hz => Hz) HI eq_refl eq_refl eq_refl eq_refl eq_refl HM s cb E1 i Hi).
Qed.

(** The square of two triangles is its own image under a half turn about its centre, under all eight actions. *)
Example C94_ex_half_turn : exists p q w M res, let a := mkActions 1 2 3 4 5 6 7 8 in analysed 9 zX zY [zt; zu] (best_solver 9) true w /\ renumbering 9 p q /\
  mesh_image (mkSim (-1) 0 1 (2 * (1/2)) (2 * (1/2))) p [zt; zu] [zt; zu] /\ stresses_below M true [zt; zu] w a [(xm, [zt; zu])] /\ stresses true [zt; zu] w a [(xm, [zt; zu])] = Ok [res] /\
  forall i, (i < 9)%nat -> close (2 / 10 ^ 15 * M) (ns_zx_mzz (fst res) (p i)) (- ns_zx_mzz (fst res) i).
Proof.
  destruct z_sym as (p & q & Hpq & HI). destruct z_analysed as [w HA]. cbv zeta. set (a := mkActions 1 2 3 4 5 6 7 8).
  destruct (C94_bound_exists true [zt; zu] w a [(xm, [zt; zu])]) as [M HM]. destruct (C94_stresses_exist true [zt; zu] w a [(xm, [zt; zu])]) as ([|r [|]] & E1 & L1); try discriminate.
  exists p, q, w, M, r. repeat (split; [assumption|]). intros i Hi. destruct r as [s cb].
  apply (C94_half_turn 9 zX zY [zt; zu] (best_solver 9) true w (1/2) (1/2) p q a (xm, [zt; zu]) M HA ltac:(intros el [<-|[<-|[]]]; cbn; lra) Hpq HI (fun z Hz => Hz) HI HM s cb E1 i Hi).
Qed.

Print Assumptions C94_moved_stresses.
Print Assumptions C94_moved_stresses_same.
Print Assumptions C94_axes_follow.
Print Assumptions C94_stress_at_points.
Print Assumptions C94_mirror_symmetric.
Print Assumptions C94_half_turn.
Print Assumptions C94_bound_exists.
Print Assumptions C94_stresses_exist.
