(** Elastic moduli and yield moments as lower bounds for the plastic moment. *)
From Coquelicot Require Import Coquelicot.
From Coq Require Import Reals List Lra Lia Permutation Bool.
From Verif Require Import Base S_Integral P_Integral M_Fea S_Fem P_Fea P_Geom M_Section S_Section S_Post P_Section P_Totals P_Post P_Yield M_Bisect M_Props M_Plastic S_Plastic P_Ridge P_Plastic P_Plastic2 P_Plastic3 P_Plastic4 P_Shape S_Shape P_Plastic5 M_Post.
Import ListNotations.
Local Open Scope R_scope.

Lemma inertia_all els k : els <> [] -> valid_mesh els -> pos_moduli els -> 0 < inertia_of (centroidal_of (section_totals els)) k.
Proof.
  intros Hn Hv Hp. set (c := centroidal_of (section_totals els)).
  destruct (inertia_pos els Hn Hv Hp) as [B [A C]]. fold c in A, B, C.
  destruct (principal_pos _ _ _ A B C) as [G1 G2].
  assert (0 < p_i22_c c) by exact G1. assert (p_i22_c c <= p_i11_c c) by exact G2.
  destruct k; cbn [inertia_of]; lra.
Qed.

Lemma about_xy els : valid_mesh els -> t_ea (section_totals els) <> 0 ->
  forall phi k, k = axis_x \/ k = axis_y -> about els (direction phi k) = inertia_of (centroidal_of (section_totals els)) k.
Proof.
  intros Hv He phi k Hk. pose proof (about_val els (direction phi k) Hv He) as A. cbv zeta in A. rewrite A.
  destruct Hk as [-> | ->]; cbn [direction inertia_of fst snd]; ring.
Qed.

Lemma dir_h (c : centroidal) p :
  height (direction (p_phi c) axis_22) (fst p - p_cx c) (snd p - p_cy c) = fst (pr11 c p) /\
  height (direction (p_phi c) axis_11) (fst p - p_cx c) (snd p - p_cy c) = snd (pr11 c p) /\
  height (direction (p_phi c) axis_x) (fst p - p_cx c) (snd p - p_cy c) = snd p - p_cy c /\
  height (direction (p_phi c) axis_y) (fst p - p_cx c) (snd p - p_cy c) = fst p - p_cx c.
Proof.
  unfold pr11. rewrite pc_height. cbn [fst snd]. repeat split; unfold height, direction; cbn [fst snd]; ring.
Qed.

Lemma moduli_axis els nodes m k : els <> [] -> valid_mesh els -> pos_moduli els -> mesh_nodes_in els nodes ->
  let t := section_totals els in let c := centroidal_of t in moduli_of t c nodes = Ok m ->
  let n := direction (p_phi c) k in let h := fun q : point => height n (fst q - p_cx c) (snd q - p_cy c) in
  exists p q, attains_max h nodes p /\ attains_max (fun q => - h q) nodes q /\ 0 < h p /\ h q < 0 /\
    z_plus m k = inertia_of c k / Rabs (h p) /\ z_minus m k = inertia_of c k / Rabs (h q).
Proof.
  intros Hn Hv Hp Hno t c HM n h.
  destruct (moduli_spec t c nodes m HM) as ((p1 & A1 & B1) & (p2 & A2 & B2) & (p3 & A3 & B3) & (p4 & A4 & B4) & (p5 & A5 & B5) & (p6 & A6 & B6) & (p7 & A7 & B7) & (p8 & A8 & B8)).
    destruct (extreme_sides els nodes Hn Hv Hp Hno) as (S1 & S2 & S3 & S4 & S5 & S6 & S7 & S8). fold t in S1, S2, S3, S4, S5, S6, S7, S8. fold c in S1, S2, S3, S4, S5, S6, S7, S8.
    assert (Hh : forall q, h q = match k with axis_x => snd q - p_cy c | axis_y => fst q - p_cx c | axis_11 => snd (pr11 c q) | axis_22 => fst (pr11 c q) end).
    { intros q. destruct (dir_h c q) as (D1 & D2 & D3 & D4). unfold h, n. destruct k; assumption. }
    destruct k; cbn [z_plus z_minus inertia_of].
    - exists p1, p2. rewrite !Hh. repeat match goal with |- _ /\ _ => split end; try assumption.
      + split; [apply A1|]. intros q Hq. rewrite !Hh. destruct A1 as [_ X]. specialize (X q Hq). lra.
      + split; [apply A2|]. intros q Hq. rewrite !Hh. destruct A2 as [_ X]. specialize (X q Hq). lra.
      + specialize (S1 p1 A1). lra.
      + specialize (S2 p2 A2). lra.
    - exists p3, p4. rewrite !Hh. repeat match goal with |- _ /\ _ => split end; try assumption.
      + split; [apply A3|]. intros q Hq. rewrite !Hh. destruct A3 as [_ X]. specialize (X q Hq). lra.
      + split; [apply A4|]. intros q Hq. rewrite !Hh. destruct A4 as [_ X]. specialize (X q Hq). lra.
      + specialize (S3 p3 A3). lra.
      + specialize (S4 p4 A4). lra.
    - exists p5, p6. rewrite !Hh. repeat match goal with |- _ /\ _ => split end; try assumption.
      + split; [apply A5|]. intros q Hq. rewrite !Hh. destruct A5 as [_ X]. exact (X q Hq).
      + split; [apply A6|]. intros q Hq. rewrite !Hh. destruct A6 as [_ X]. exact (X q Hq).
      + exact (S5 p5 A5).
      + exact (S6 p6 A6).
    - exists p7, p8. rewrite !Hh. repeat match goal with |- _ /\ _ => split end; try assumption.
      + split; [apply A7|]. intros q Hq. rewrite !Hh. destruct A7 as [_ X]. exact (X q Hq).
      + split; [apply A8|]. intros q Hq. rewrite !Hh. destruct A8 as [_ X]. exact (X q Hq).
      + exact (S7 p7 A7).
      + exact (S8 p8 A8). 
Qed.

Lemma moduli_pos els nodes m k : els <> [] -> valid_mesh els -> pos_moduli els -> mesh_nodes_in els nodes ->
  let t := section_totals els in let c := centroidal_of t in moduli_of t c nodes = Ok m -> 0 < z_plus m k /\ 0 < z_minus m k.
Proof.
  intros Hn Hv Hp Hno t c HM. destruct (moduli_axis els nodes m k Hn Hv Hp Hno HM) as (p & q & _ & _ & A & B & -> & ->).
  pose proof (inertia_all els k Hn Hv Hp) as HI. fold t in HI. fold c in HI.
  fold t. fold c. fold t in A, B. fold c in A, B.
  split; apply Rdiv_lt_0_compat; try assumption; apply Rabs_pos_lt; lra.
Qed.

Lemma elastic_bound els nodes m sx sy shapes k :
  els <> [] -> valid_mesh els -> (forall el, In el els -> m_E (el_mat el) = 1 /\ m_fy (el_mat el) = 1) ->
  mesh_nodes_in els nodes -> same_section els sx sy shapes ->
  let t := section_totals els in let c := centroidal_of t in moduli_of t c nodes = Ok m ->
  exists fld, admissible (concat shapes) (direction (p_phi c) k) fld /\
    field_moment (direction (p_phi c) k) fld * inertia_of c k = Rmin (z_plus m k) (z_minus m k) * about els (direction (p_phi c) k).
Proof.
  intros Hn Hv Hm Hno Hb t c HM.
  assert (Hp : pos_moduli els) by (intros el Hel; destruct (Hm el Hel) as [-> _]; lra).
  pose proof (ea_pos els Hn Hv Hp) as He.
  pose proof (inertia_all els k Hn Hv Hp) as HI. fold t in HI. fold c in HI.
  set (n := direction (p_phi c) k) in *. set (h := fun q : point => height n (fst q - p_cx c) (snd q - p_cy c)).
  destruct (moduli_axis els nodes m k Hn Hv Hp Hno HM) as (p & q & Ap & Aq & Hp0 & Hq0 & Zp & Zm).
  fold t in Ap, Aq, Hp0, Hq0, Zp, Zm. fold c in Ap, Aq, Hp0, Hq0, Zp, Zm. fold n in Ap, Aq, Hp0, Hq0, Zp, Zm.
  change (0 < h p) in Hp0. change (h q < 0) in Hq0. change (z_plus m k = inertia_of c k / Rabs (h p)) in Zp. change (z_minus m k = inertia_of c k / Rabs (h q)) in Zm.
  rewrite Zp, Zm.
  rewrite (Rabs_pos_eq (h p)), (Rabs_left (h q)) by lra.
  apply (elastic_direction els sx sy (concat shapes) n (inertia_of c k) (h p) (- h q)); try assumption; try lra.
  fold t c. intros el r Hel Hr. specialize (Hno el r Hel Hr).
    destruct Ap as [_ Xp]. destruct Aq as [_ Xq]. specialize (Xp r Hno). specialize (Xq r Hno). cbv beta in Xp, Xq. unfold h. lra.
Qed.

Lemma yield_bound els groups sx sy shapes k :
  els <> [] -> valid_mesh els -> pos_moduli els -> groups_ok groups els -> (forall el, In el els -> 0 < m_fy (el_mat el)) ->
  same_section els sx sy shapes ->
  let c := centroidal_of (section_totals els) in let my := yield_moments c groups in
  exists fld, admissible (concat shapes) (direction (p_phi c) k) fld /\
    field_moment (direction (p_phi c) k) fld * inertia_of c k = my_of my k * about els (direction (p_phi c) k).
Proof.
  intros Hn Hv Hp Hg Hfy Hb c my. pose proof (ea_pos els Hn Hv Hp) as He.
  assert (He' : t_ea (section_totals els) <> 0) by lra.
  destruct (yield_all els groups Hn Hv Hp Hg Hfy) as (Y1 & Y2 & Y3 & Y4). fold c in Y1, Y2, Y3, Y4. fold my in Y1, Y2, Y3, Y4.
  destruct (inertia_pos els Hn Hv Hp) as [B [A C]]. fold c in A, B, C.
  pose proof (inertia_all els k Hn Hv Hp) as HI. fold c in HI.
  set (n := direction (p_phi c) k).
  assert (K : exists al be M (sig : R -> R -> point -> R), Rabs M <= my_of my k /\ is_yield_moment els sig (my_of my k) /\
    (forall E p, sig E M p = E * (al * (fst p - p_cx c) + be * (snd p - p_cy c))) /\
    (fst n * (al * p_iyy_c c + be * p_ixy_c c) + snd n * (al * p_ixy_c c + be * p_ixx_c c)) * inertia_of c k = my_of my k * about els n).
  { pose proof (about_val els n Hv He') as EA. cbv zeta in EA. fold c in EA. rewrite EA.
    set (D := p_ixx_c c * p_iyy_c c - p_ixy_c c ^ 2) in *.
    destruct k; cbn [my_of inertia_of] in *; unfold n, direction; cbn [fst snd].
    - exists (- q_xx my * p_ixy_c c / D), (q_xx my * p_iyy_c c / D), (q_xx my), (bend_xx c).
      destruct Y1 as [Hpos Y1]. split; [rewrite Rabs_pos_eq; lra|]. split; [split; assumption|]. split.
      + intros E p. unfold bend_xx. fold D. field. lra.
      + unfold D. field. fold D. lra.
    - exists (q_yy my * p_ixx_c c / D), (- q_yy my * p_ixy_c c / D), (- q_yy my), (bend_yy c).
      destruct Y2 as [Hpos Y2]. split; [rewrite Rabs_Ropp, Rabs_pos_eq; lra|]. split; [split; assumption|]. split.
      + intros E p. unfold bend_yy. fold D. field. lra.
      + unfold D. field. fold D. lra.
    - exists (q_11 my * - sin (p_phi c * PI / 180) / p_i11_c c), (q_11 my * cos (p_phi c * PI / 180) / p_i11_c c), (q_11 my), (bend_11 c).
      destruct Y3 as [Hpos Y3]. split; [rewrite Rabs_pos_eq; lra|]. split; [split; assumption|]. split.
      + intros E p. unfold bend_11, principal_coordinate. cbn [snd]. field. lra.
      + field. lra.
    - exists (q_22 my * cos (p_phi c * PI / 180) / p_i22_c c), (q_22 my * sin (p_phi c * PI / 180) / p_i22_c c), (- q_22 my), (bend_22 c).
      destruct Y4 as [Hpos Y4]. split; [rewrite Rabs_Ropp, Rabs_pos_eq; lra|]. split; [split; assumption|]. split.
      + intros E p. unfold bend_22, principal_coordinate. cbn [fst]. field. lra.
      + field. lra. }
  destruct K as (al & be & M & sig & HM & (_ & HY & _) & Hs & HE).
  exists (elastic_field els sx sy al be). split.
  - apply elastic_admissible; [exact Hv|exact He'|exact Hb|]. fold c. intros el p Hel Hin. rewrite <- Hs. apply (HY M el p HM Hel Hin).
  - rewrite elastic_moment by assumption. fold c. exact HE.
Qed.
