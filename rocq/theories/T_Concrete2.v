(** Theorems about concrete beams and columns: C63. *)
From Coq Require Import String Reals List Bool Arith ZArith Lra Lia Permutation.
From Verif Require Import Base M_Fea M_Init M_Bisect M_Geometry S_Geometry P_Geometry8 M_Library M_SetOps S_SetOps M_Concrete S_Concrete P_Concrete P_Concrete2 P_Concrete3 P_Concrete6 P_Concrete7 P_Concrete9 P_Concrete10 P_Concrete11 P_Concrete12 P_Concrete13 T_Concrete.
Import ListNotations.
Local Open Scope R_scope.

(** Rectangular beam: a row of bars at the top, one at the bottom, and side bars that divide the height between these rows into equal
    parts, on both sides. If the bars fit, the section is the concrete with the bars as holes, followed by exactly these bars. *)
Theorem C63_rectangular sh so d b dia_top area_top n_top c_top dia_bot area_bot n_bot c_bot dia_side area_side n_side c_side n conc steel sides :
  cuts so -> (3 <= n)%nat ->
  let cover c := if Req_EM_T c_side 0 then c else c_side in
  let xt := cover c_top + dia_top / 2 in let xb := cover c_bot + dia_bot / 2 in
  let yt := d - c_top - dia_top / 2 in let yb := c_bot + dia_bot / 2 in
  (sides = [] /\ (area_side = None \/ n_side = 0%nat) \/
   exists ds a, dia_side = Some ds /\ ds <> 0 /\ area_side = Some a /\ sides = bars_at a (fun _ => 0%nat) (both_sides (b / 2) (between n_side (c_side + ds / 2, yb) (c_side + ds / 2, yt)))) ->
  let bars := bars_at area_top (fun _ => 0%nat) (row_of n_top (xt, yt) (b - xt, yt)) ++ bars_at area_bot (fun _ => 0%nat) (row_of n_bot (xb, yb) (b - xb, yb)) ++ sides in
  bars <> [] -> fits n [((0, 0), (b, d))] bars ->
  exists c, concrete_rectangular_section sh so d b dia_top area_top n_top c_top dia_bot area_bot n_bot c_bot dia_side area_side n_side c_side n conc steel = Ok c /\
    cast [outline ((0, 0), (b, d))] conc steel n bars c.
Proof. apply rectangular_made. Qed.

(** Tee beam, about x = 0; every bar is in the web or in the flange, according to its height. *)
Theorem C63_tee sh so d b d_f b_f dia_top area_top n_top c_top dia_bot area_bot n_bot c_bot dia_side area_side n_side c_side n conc steel sides :
  cuts so -> (3 <= n)%nat -> tiny <= d_f -> tiny <= d - d_f -> tiny <= b -> tiny <= b_f ->
  let cover c := if Req_EM_T c_side 0 then c else c_side in
  let xt := b_f / 2 - (cover c_top + dia_top / 2) in let xb := b / 2 - (cover c_bot + dia_bot / 2) in
  let yt := d - c_top - dia_top / 2 in let yb := c_bot + dia_bot / 2 in let body := flange_above (d - d_f) in
  (sides = [] /\ (area_side = None \/ n_side = 0%nat) \/
   exists ds a, dia_side = Some ds /\ ds <> 0 /\ area_side = Some a /\ sides = bars_at a body (both_sides 0 (between n_side (- (b / 2 - (c_side + ds / 2)), yb) (- (b / 2 - (c_side + ds / 2)), yt)))) ->
  let bars := bars_at area_top body (row_of n_top (- xt, yt) (xt, yt)) ++ bars_at area_bot body (row_of n_bot (- xb, yb) (xb, yb)) ++ sides in
  let web := ((- (b / 2), 0), (b / 2, d - d_f)) in let flange := ((- (b_f / 2), d - d_f), (b_f / 2, d)) in
  bars <> [] -> fits n [web; flange] bars ->
  exists c, concrete_tee_section sh so d b d_f b_f dia_top area_top n_top c_top dia_bot area_bot n_bot c_bot dia_side area_side n_side c_side n conc steel = Ok c /\
    cast [outline web; outline flange] conc steel n bars c.
Proof. apply tee_made. Qed.

(** Circular column: the bars are at equal angles on a circle; the concrete is a regular polygon of the given area. *)
Theorem C63_circular sh so d area_conc n_conc dia_bar area_bar n_bar cover n conc steel :
  cuts so -> (3 <= n)%nat -> (3 <= n_conc)%nat -> (2 <= n_bar)%nat -> 1 / 10 ^ 20 <= area_conc -> 1 / 10 ^ 20 <= area_bar ->
  let r := d / 2 - cover - dia_bar / 2 in
  0 <= r -> r + circumradius n area_bar + INR n_conc * tiny <= circumradius n_conc area_conc * cos (PI / INR n_conc) -> 2 * circumradius n area_bar + tiny <= 2 * r * sin (PI / INR n_bar) ->
  exists c, concrete_circular_section sh so d area_conc n_conc dia_bar area_bar n_bar cover n conc steel = Ok c /\
    cast [ngon n_conc (0, 0) (circumradius n_conc area_conc)] conc steel n (bars_at area_bar (fun _ => 0%nat) (ngon n_bar (0, 0) r)) c.
Proof. apply circular_made. Qed.

(** Rectangular column: one bar at every point of a lattice (or of its border), none twice. *)
Theorem C63_column sh so order d b dia_bar area_bar n_x n_y cover n filled conc steel :
  cuts so -> insets so -> (forall l, Permutation l (order l)) -> (3 <= n)%nat -> (2 <= n_x)%nat -> (2 <= n_y)%nat -> 1 / 10 ^ 20 <= area_bar ->
  let m := cover + dia_bar / 2 in let r := circumradius n area_bar in
  r + 2 * tiny <= m -> 2 * r + 2 * tiny <= (b - 2 * m) / (INR n_x - 1) -> 2 * r + 2 * tiny <= (d - 2 * m) / (INR n_y - 1) ->
  exists ijs pts c, concrete_column_section sh so order d b dia_bar area_bar n_x n_y cover n filled conc steel = Ok c /\
    NoDup ijs /\ (forall ij, In ij ijs <-> wanted filled n_x n_y ij) /\ length ijs = how_many filled n_x n_y /\
    Forall2 close (map (lattice n_x n_y ((m, m), (b - m, d - m))) ijs) pts /\ cast [outline ((0, 0), (b, d))] conc steel n (bars_at area_bar (fun _ => 0%nat) pts) c.
Proof. apply column_made. Qed.

(** ** The guards are needed *)

(** A column with a single row across its width is not symmetric: all bars are at the left face. *)
Theorem C63_column_one_row sh so order d b dia_bar area_bar n_y cover n conc steel : cuts so -> insets so -> (3 <= n)%nat -> (2 <= n_y)%nat -> 1 / 10 ^ 20 <= area_bar ->
  let m := cover + dia_bar / 2 in let r := circumradius n area_bar in
  r + 2 * tiny <= m -> 2 * r + 2 * tiny <= b - 2 * m -> 2 * r + 2 * tiny <= (d - 2 * m) / (INR n_y - 1) ->
  exists pts c, concrete_column_section sh so order d b dia_bar area_bar 1 n_y cover n true conc steel = Ok c /\ length pts = n_y /\
    Forall (fun p => Rabs (fst p - m) <= 1 / 10 ^ 11) pts /\ cast [outline ((0, 0), (b, d))] conc steel n (bars_at area_bar (fun _ => 0%nat) pts) c.
Proof. apply column_one_row. Qed.
(** Side bars with an area and no diameter: not an error; left and right bars are at the same place, on the left face. *)
Theorem C63_side_bars_refuted sh so d b dia_top area_top n_top c_top dia_bot area_bot n_bot c_bot area_side n_side c_side n conc steel : workable so -> (3 <= n)%nat ->
  1 / 10 ^ 20 <= area_top -> 1 / 10 ^ 20 <= area_bot -> 1 / 10 ^ 20 <= area_side -> tiny <= d -> tiny <= b -> (1 <= n_side)%nat ->
  exists c gs gl gr, concrete_rectangular_section sh so d b dia_top area_top n_top c_top dia_bot area_bot n_bot c_bot None (Some area_side) n_side c_side n conc steel = Ok c /\
    cp_geoms c = gs ++ [gl; gr] /\ bar area_side n steel (0, c_bot + dia_bot / 2) gl /\ bar area_side n steel (0, c_bot + dia_bot / 2) gr.
Proof. apply side_bars_lost. Qed.
(** No bars, or fewer than two in a circle: an error. *)
Theorem C63_no_bars sh so d b dia_top area_top c_top dia_bot area_bot c_bot dia_side area_side n_side c_side n conc steel : tiny <= d -> tiny <= b -> area_side = None \/ n_side = 0%nat ->
  concrete_rectangular_section sh so d b dia_top area_top 0 c_top dia_bot area_bot 0 c_bot dia_side area_side n_side c_side n conc steel = Err ValueError.
Proof. apply no_bars. Qed.
Theorem C63_few_bars sh so d area_conc n_conc dia_bar area_bar n_bar cover n conc steel : (n_bar < 2)%nat ->
  concrete_circular_section sh so d area_conc n_conc dia_bar area_bar n_bar cover n conc steel = Err ValueError.
Proof. intros H. unfold concrete_circular_section. destruct (Nat.ltb_spec n_bar 2); [reflexivity|lia]. Qed.

(** ** Cases *)
(** A set operation that cuts as asked exists ([cutter], in P_Concrete13). *)
Example cuts_exist : cuts cutter /\ insets cutter /\ workable cutter.
Proof. exact (conj cutter_cuts (conj cutter_insets cutter_works)). Qed.
Lemma tiny_value : tiny = 1 / 10000000000. Proof. unfold tiny. field. Qed.
Lemma area_20 a : 1 <= a -> 1 / 10 ^ 20 <= a.
Proof. intros H. assert (1 / 10 ^ 20 <= 1); [|lra]. apply (Rmult_le_reg_r (10 ^ 20)); [apply pow_lt; lra|]. replace (1 / 10 ^ 20 * 10 ^ 20) with 1 by (field; apply pow_nonzero; lra). rewrite Rmult_1_l. apply pow_R1_Rle. lra. Qed.
(** bars with 12 points: the radius for an area *)
Lemma circum_12 a r : 0 <= r -> 0 <= a -> a <= 3 * r ^ 2 -> circumradius 12 a <= r.
Proof.
  intros H A B. unfold circumradius. replace (2 * PI / INR 12) with (PI / 6) by (rewrite INR_IZR_INZ; simpl IZR; lra). rewrite sin_PI6. rewrite <- (sqrt_square r H). apply sqrt_le_1_alt. rewrite INR_IZR_INZ. simpl IZR. lra.
Qed.
Lemma far_apart P Q m : 0 <= m -> (m <= Rabs (fst Q - fst P) \/ m <= Rabs (snd Q - snd P)) -> m <= distance P Q.
Proof.
  intros M H. unfold distance. rewrite <- (sqrt_square m M). apply sqrt_le_1_alt. pose proof (pow2_ge_0 (fst Q - fst P)). pose proof (pow2_ge_0 (snd Q - snd P)). replace (m * m) with (m ^ 2) by ring.
  destruct H as [H|H]; apply pow_maj_Rabs in H || idtac; [assert (m ^ 2 <= Rabs (fst Q - fst P) ^ 2) by (apply pow_incr; lra)|assert (m ^ 2 <= Rabs (snd Q - snd P) ^ 2) by (apply pow_incr; lra)]; rewrite pow2_abs in *; lra.
Qed.
(** A beam 300 x 600 with three bars at the bottom, two at the top and a bar on each side. *)
Definition beam_bars : list rebar :=
  bars_at 200 (fun _ => 0%nat) (row_of 2 (38, 562) (262, 562)) ++ bars_at 300 (fun _ => 0%nat) (row_of 3 (40, 40) (260, 40)) ++ bars_at 200 (fun _ => 0%nat) (both_sides 150 (between 1 (38, 40) (38, 562))).
Lemma beam_bars_are : beam_bars =
  [mkRebar (38, 562) 200 0; mkRebar (262, 562) 200 0; mkRebar (40, 40) 300 0; mkRebar (150, 40) 300 0; mkRebar (260, 40) 300 0; mkRebar (38, 301) 200 0; mkRebar (262, 301) 200 0].
Proof. unfold beam_bars, bars_at, row_of, both_sides, between, toward. cbn [Nat.eqb map seq concat app fst snd INR]. repeat f_equal; lra. Qed.
Example beam_fits : fits 12 [((0, 0), (300, 600))] beam_bars.
Proof.
  rewrite beam_bars_are. pose proof (circum_12 200 10 ltac:(lra) ltac:(lra) ltac:(lra)). pose proof (circum_12 300 10 ltac:(lra) ltac:(lra) ltac:(lra)). pose proof tiny_value as T. split.
  - repeat (constructor; [cbn [rb_at rb_area rb_body]; split; [apply area_20; lra|eexists; split; [reflexivity|]; unfold within; cbn [fst snd]; lra]|]). constructor.
  - repeat (constructor; [repeat (constructor; [unfold clear_of; cbn [rb_at rb_area]; eapply Rle_trans; [|apply (far_apart _ _ 60); [lra|cbn [fst snd]; unfold Rabs; repeat destruct Rcase_abs; lra]]; lra|]); constructor|]). constructor.
Qed.
Example beam_case conc steel : exists c, concrete_rectangular_section toy cutter 600 300 16 200 2 30 20 300 3 30 (Some 16) (Some 200) 1 30 12 conc steel = Ok c /\
  cast [[(0, 0); (300, 0); (300, 600); (0, 600)]] conc steel 12 beam_bars c.
Proof.
  pose proof beam_fits as F. assert (E : beam_bars <> []) by (rewrite beam_bars_are; discriminate).
  pose proof (C63_rectangular toy cutter 600 300 16 200 2 30 20 300 3 30 (Some 16) (Some 200) 1 30 12 conc steel (bars_at 200 (fun _ => 0%nat) (both_sides 150 (between 1 (38, 40) (38, 562)))) cutter_cuts ltac:(lia)) as K.
  cbv zeta in K. destruct (Req_EM_T 30 0) as [E0|_] in K; [exfalso; lra|].
  replace (30 + 16 / 2) with 38 in K by lra. replace (30 + 20 / 2) with 40 in K by lra. replace (600 - 30 - 16 / 2) with 562 in K by lra. replace (300 - 38) with 262 in K by lra. replace (300 - 40) with 260 in K by lra. replace (300 / 2) with 150 in K by lra.
  apply K; [right; exists 16, 200; split; [reflexivity|]; split; [lra|split; [reflexivity|replace (30 + 16 / 2) with 38 by lra; reflexivity]]|exact E|exact F].
Qed.
(** A tee beam with a bar in the web and one in each half of the flange. *)
Definition tee_bars : list rebar := [mkRebar (-160, 362) 200 1; mkRebar (160, 362) 200 1; mkRebar (0, 40) 300 0].
Example tee_case conc steel : exists c, concrete_tee_section toy cutter 400 100 80 400 16 200 2 30 20 300 1 30 None None 0 32 12 conc steel = Ok c /\
  cast [[(-50, 0); (50, 0); (50, 320); (-50, 320)]; [(-200, 320); (200, 320); (200, 400); (-200, 400)]] conc steel 12 tee_bars c.
Proof.
  pose proof (circum_12 200 10 ltac:(lra) ltac:(lra) ltac:(lra)). pose proof (circum_12 300 10 ltac:(lra) ltac:(lra) ltac:(lra)). pose proof tiny_value as T.
  pose proof (C63_tee toy cutter 400 100 80 400 16 200 2 30 20 300 1 30 None None 0 32 12 conc steel [] cutter_cuts ltac:(lia) ltac:(lra) ltac:(lra) ltac:(lra) ltac:(lra)) as K. cbv zeta in K.
  destruct (Req_EM_T 32 0) as [E|_] in K; [exfalso; lra|]. rewrite app_nil_r in K.
  assert (B : bars_at 200 (flange_above (400 - 80)) (row_of 2 (- (400 / 2 - (32 + 16 / 2)), 400 - 30 - 16 / 2) (400 / 2 - (32 + 16 / 2), 400 - 30 - 16 / 2)) ++ bars_at 300 (flange_above (400 - 80)) (row_of 1 (- (100 / 2 - (32 + 20 / 2)), 30 + 20 / 2) (100 / 2 - (32 + 20 / 2), 30 + 20 / 2)) = tee_bars).
  { unfold bars_at, row_of, toward, flange_above, tee_bars. cbn [Nat.eqb map seq app fst snd INR]. repeat destruct Rle_dec; try (exfalso; lra). repeat f_equal; lra. }
  rewrite B in K. destruct K as (c & E & C).
  - left. split; [reflexivity|left; reflexivity].
  - discriminate.
  - split.
    + unfold tee_bars. repeat (constructor; [cbn [rb_at rb_area rb_body]; split; [apply area_20; lra|eexists; split; [reflexivity|]; unfold within; cbn [fst snd]; lra]|]). constructor.
    + unfold tee_bars. repeat (constructor; [repeat (constructor; [unfold clear_of; cbn [rb_at rb_area]; eapply Rle_trans; [|apply (far_apart _ _ 60); [lra|cbn [fst snd]; unfold Rabs; repeat destruct Rcase_abs; lra]]; lra|]); constructor|]). constructor.
  - exists c. split; [exact E|]. unfold outline in C. replace (100 / 2) with 50 in C by lra. replace (400 / 2) with 200 in C by lra. replace (400 - 80) with 320 in C by lra. exact C.
Qed.
(** A column with 3 x 2 bars, and a single row. *)
Example column_case filled conc steel : exists ijs pts c, concrete_column_section toy cutter (fun l => l) 400 300 20 300 3 2 30 12 filled conc steel = Ok c /\
  NoDup ijs /\ (forall ij, In ij ijs <-> wanted filled 3 2 ij) /\ length ijs = 6%nat /\
  Forall2 close (map (lattice 3 2 ((40, 40), (260, 360))) ijs) pts /\ cast [outline ((0, 0), (300, 400))] conc steel 12 (bars_at 300 (fun _ => 0%nat) pts) c.
Proof.
  pose proof (circum_12 300 10 ltac:(lra) ltac:(lra) ltac:(lra)). pose proof tiny_value as T.
  pose proof (C63_column toy cutter (fun l => l) 400 300 20 300 3 2 30 12 filled conc steel cutter_cuts cutter_insets (fun l => Permutation_refl l) ltac:(lia) ltac:(lia) ltac:(lia) ltac:(apply area_20; lra)) as K. cbv zeta in K.
  replace (30 + 20 / 2) with 40 in K by lra. replace (300 - 40) with 260 in K by lra. replace (400 - 40) with 360 in K by lra.
  destruct K as (ijs & pts & c & E & K); [lra|cbn [INR]; lra|cbn [INR]; lra|]. exists ijs, pts, c. split; [exact E|]. unfold how_many in K. destruct filled; exact K.
Qed.
Example one_row_case conc steel : exists pts c, concrete_column_section toy cutter (fun l => l) 400 300 20 300 1 4 30 12 true conc steel = Ok c /\ length pts = 4%nat /\
    Forall (fun p => Rabs (fst p - 40) <= 1 / 10 ^ 11) pts /\ cast [outline ((0, 0), (300, 400))] conc steel 12 (bars_at 300 (fun _ => 0%nat) pts) c.
Proof.
  pose proof (circum_12 300 10 ltac:(lra) ltac:(lra) ltac:(lra)). pose proof tiny_value as T.
  pose proof (C63_column_one_row toy cutter (fun l => l) 400 300 20 300 4 30 12 conc steel cutter_cuts cutter_insets ltac:(lia) ltac:(lia) ltac:(apply area_20; lra)) as K. cbv zeta in K.
  replace (30 + 20 / 2) with 40 in K by lra. apply K; [lra|lra|cbn [INR]; lra].
Qed.
(** A round column with six bars. *)
Example circular_case conc steel : exists c, concrete_circular_section toy cutter 400 120000 12 20 300 6 40 12 conc steel = Ok c /\
  cast [ngon 12 (0, 0) (circumradius 12 120000)] conc steel 12 (bars_at 300 (fun _ => 0%nat) (ngon 6 (0, 0) 150)) c.
Proof.
  pose proof (circum_12 300 10 ltac:(lra) ltac:(lra) ltac:(lra)). pose proof tiny_value as T.
  assert (C : circumradius 12 120000 = 200). { unfold circumradius. replace (2 * PI / INR 12) with (PI / 6) by (rewrite INR_IZR_INZ; simpl IZR; lra). rewrite sin_PI6. rewrite INR_IZR_INZ. simpl IZR. replace (2 * 120000 / (12 * (1 / 2))) with (200 * 200) by lra. apply sqrt_square. lra. }
  pose proof (C63_circular toy cutter 400 120000 12 20 300 6 40 12 conc steel cutter_cuts ltac:(lia) ltac:(lia) ltac:(lia) ltac:(apply area_20; lra) ltac:(apply area_20; lra)) as K. cbv zeta in K.
  replace (400 / 2 - 40 - 20 / 2) with 150 in K by lra. apply K; [lra| |].
  - rewrite C. replace (PI / INR 12) with (PI / 12) by (rewrite INR_IZR_INZ; simpl IZR; reflexivity). assert (cos (PI / 6) <= cos (PI / 12)) by (pose proof PI_RGT_0; apply Rlt_le, cos_decreasing_1; lra). rewrite cos_PI6 in *. assert (17 / 10 <= sqrt 3). { rewrite <- (sqrt_square (17 / 10)) by lra. apply sqrt_le_1_alt. lra. } rewrite INR_IZR_INZ. simpl IZR. lra.
  - replace (PI / INR 6) with (PI / 6) by (rewrite INR_IZR_INZ; simpl IZR; reflexivity). rewrite sin_PI6. lra.
Qed.

Print Assumptions C63_rectangular.
Print Assumptions C63_tee.
Print Assumptions C63_circular.
Print Assumptions C63_column.
Print Assumptions C63_column_one_row.
Print Assumptions C63_side_bars_refuted.
Print Assumptions C63_no_bars.
Print Assumptions C63_few_bars.
