(** C90: moving, turning, mirroring or scaling a section, or meshing it in another order, changes the results of the warping analysis
    as it should. *)
From Coq Require Import Reals List Lra Lia Permutation.
From Coquelicot Require Import Coquelicot.
From Verif Require Import Base S_Integral M_Fea S_Fem M_Post M_Section S_Section S_Post S_Warp S_Similar
  P_Integral P_Fea P_Geom P_Elem P_Section P_Totals P_Post P_Yield P_Warp P_Warp2 P_Warp3 P_Warp5 P_Warp7 P_Warp9 P_Warp10 P_WarpEx P_Similar P_Similar2 P_Similar3.
Import ListNotations.
Local Open Scope R_scope.

(** ** Any similarity of the plane, any numbering of the nodes, any order of the elements and of the corners in them *)
Theorem C90_moved_section : forall n m p q els els' composite w w', analysed_image n m p q els els' composite w w' ->
  moved_geometry m els els' /\ moved_results m w w' /\ moved_third_moments m els els' w w'.
Proof.
  intros n m p q els els' composite w w' (Hs & Hpq & HI & Hnu & (X & Y & solve & HA) & (X' & Y' & solve' & HA')).
  assert (N := nu_ok composite els (a_ne _ _ _ _ _ _ _ HA) (on_valid _ _ _ _ (a_on _ _ _ _ _ _ _ HA)) (a_pos _ _ _ _ _ _ _ HA) Hnu).
  split; [|split].
  - destruct (image_totals m Hs p els els' (on_valid _ _ _ _ (a_on _ _ _ _ _ _ _ HA)) (on_valid _ _ _ _ (a_on _ _ _ _ _ _ _ HA')) HI) as (T1 & T2 & T3 & T4 & _).
    destruct (v_c n m Hs p X Y X' Y' els els' solve solve' composite w w' HI HA HA') as (C1 & C2 & C3 & C4 & C5).
    destruct (i11_image n m Hs p X Y X' Y' els els' solve solve' composite w w' HI HA HA') as (C6 & C7).
    unfold moved_geometry. cbv zeta. repeat match goal with |- _ /\ _ => split end; assumption.
  - destruct (image_results n m Hs p q Hpq X Y X' Y' els els' solve solve' composite w w' HI HA HA') as (R1 & _ & R2 & R3 & R4 & R5 & R6); [lra|].
    unfold moved_results. cbv zeta. repeat match goal with |- _ /\ _ => split end; assumption.
  - destruct (image_beta n m Hs p X Y X' Y' els els' solve solve' composite w w' HI HA HA') as (R1 & R2 & R3 & R4).
    unfold moved_third_moments. cbv zeta. repeat match goal with |- _ /\ _ => split end; assumption.
Qed.

(** the results about the principal axes, when the map keeps the directions of the coordinate axes, or the analysis finds the axes of both *)
Theorem C90_moved_principal : forall n m p q els els' composite w w', analysed_image n m p q els els' composite w w' ->
  s_b m = 0 \/ axes_found els /\ axes_found els' -> exists sg, (sg = 1 \/ sg = -1) /\ moved_principal m sg w w'.
Proof.
  intros n m p q els els' composite w w' (Hs & Hpq & HI & Hnu & (X & Y & solve & HA) & (X' & Y' & solve' & HA')) HX.
  assert (N := nu_ok composite els (a_ne _ _ _ _ _ _ _ HA) (on_valid _ _ _ _ (a_on _ _ _ _ _ _ _ HA)) (a_pos _ _ _ _ _ _ _ HA) Hnu).
  apply (image_principal n m Hs p q Hpq X Y X' Y' els els' solve solve' composite w w' HI HA HA'); [lra|exact HX].
Qed.
(** translations and enlargements keep the sense of the axes *)
Theorem C90_moved_principal_same : forall n m p q els els' composite w w', analysed_image n m p q els els' composite w w' ->
  s_b m = 0 -> s_e m = 1 -> 0 < s_a m -> moved_principal m 1 w w'.
Proof.
  intros n m p q els els' composite w w' (Hs & Hpq & HI & Hnu & (X & Y & solve & HA) & (X' & Y' & solve' & HA')) B0 E1 A0.
  assert (N := nu_ok composite els (a_ne _ _ _ _ _ _ _ HA) (on_valid _ _ _ _ (a_on _ _ _ _ _ _ _ HA)) (a_pos _ _ _ _ _ _ _ HA) Hnu).
  apply (image_principal0 n m Hs p q Hpq X Y X' Y' els els' solve solve' composite w w' HI HA HA'); [lra|].
  apply (axes_scaled n m Hs p X Y X' Y' els els' solve solve' composite w w' HI HA HA' B0 E1 A0).
Qed.

(** connected sections: the warping function, the Trefftz shear centre and the warping constant *)
Theorem C90_moved_warping : forall n m p q els els' composite w w', analysed_image n m p q els els' composite w w' -> connected els ->
  moved_moments m w w' /\
  (forall el, In el els -> forall i, In i (ids_list (el_ids el)) -> w_omega w' (p i) = s_e m * scale2 m * w_omega w i).
Proof.
  intros n m p q els els' composite w w' (Hs & Hpq & HI & Hnu & (X & Y & solve & HA) & (X' & Y' & solve' & HA')) Hc.
  assert (N := nu_ok composite els (a_ne _ _ _ _ _ _ _ HA) (on_valid _ _ _ _ (a_on _ _ _ _ _ _ _ HA)) (a_pos _ _ _ _ _ _ _ HA) Hnu).
  split.
  - apply (image_moments n m Hs p q Hpq X Y X' Y' els els' solve solve' composite w w' HI HA HA'); [lra|exact Hc].
  - intros el Hel i Hi.
    apply (om_back n m Hs p q Hpq X Y X' Y' els els' solve solve' composite w w' HI HA HA' Hc (shift_el (p_cx (centroidal_of (section_totals els))) (p_cy (centroidal_of (section_totals els))) el)); [apply in_map, Hel|exact Hi].
Qed.

(** ** The named maps *)

(** Translations, other numberings and other orders: every result is the same. *)
Lemma rec_eq x y : / x = / y -> x = y.
Proof. intros H. rewrite <- (Rinv_inv x), <- (Rinv_inv y), H. reflexivity. Qed.
Theorem C90_translated : forall n dx dy p q els els' composite w w', analysed_image n (moved_by dx dy) p q els els' composite w w' -> connected els -> same_results w w'.
Proof.
  intros n dx dy p q els els' composite w w' H Hc. pose proof H as (Hs & Hpq & HI & Hnu & (X & Y & solve & HA) & (X' & Y' & solve' & HA')).
  destruct (C90_moved_section _ _ _ _ _ _ _ _ _ H) as (G & R1 & B1). destruct (C90_moved_warping _ _ _ _ _ _ _ _ _ H Hc) as (M & _).
  pose proof (C90_moved_principal_same _ _ _ _ _ _ _ _ _ H eq_refl eq_refl Rlt_0_1) as P.
  assert (N := nu_ok composite els (a_ne _ _ _ _ _ _ _ HA) (on_valid _ _ _ _ (a_on _ _ _ _ _ _ _ HA)) (a_pos _ _ _ _ _ _ _ HA) Hnu).
  destruct (image_results n _ Hs p q Hpq X Y X' Y' els els' solve solve' composite w w' HI HA HA') as (_ & D & _); [lra|].
  destruct (Hdet n X Y els (a_on _ _ _ _ _ _ _ HA) (a_ne _ _ _ _ _ _ _ HA) (a_pos _ _ _ _ _ _ _ HA)) as (D1 & D2 & _).
  pose proof (warping_spec _ _ _ _ _ _ _ (a_w _ _ _ _ _ _ _ HA)) as S. cbv zeta in S. destruct S as [_ [_ [_ [_ [_ [_ [_ [_ [_ [_ [_ (S1 & S2 & S3 & S4 & _)]]]]]]]]]]].
  unfold moved_geometry, moved_results, moved_third_moments, moved_moments, moved_principal, moved_by, scale2, lin_x, lin_y in *. cbv zeta in *. cbn [s_a s_b s_e s_dx s_dy] in *.
  replace (1 ^ 2 + 0 ^ 2) with 1 in * by ring. rewrite sqrt_1 in P.
  destruct G as (_ & _ & _ & _ & _ & _ & G1 & G2 & _). destruct R1 as (R1 & R2 & R3 & R4 & R5 & R6). destruct M as (M1 & M2 & M3). destruct P as (P1 & P2 & P3 & P4 & P5 & P6 & P7 & P8). destruct B1 as (B1 & B2 & B3 & B4).
  set (ix := p_ixx_c (centroidal_of (section_totals els))) in *. set (iy := p_iyy_c (centroidal_of (section_totals els))) in *.
  assert (E1 : w_x_se w' = w_x_se w) by lra. assert (E2 : w_y_se w' = w_y_se w) by lra.
  assert (E3 : w_beta_x_plus w' = w_beta_x_plus w). { rewrite G1, E2 in B2. apply (Rmult_eq_reg_l ix); [|lra]. lra. }
  assert (E4 : w_beta_y_plus w' = w_beta_y_plus w). { rewrite G2, E1 in B1. apply (Rmult_eq_reg_l iy); [|lra]. lra. }
  assert (E5 : w_beta_x_minus w = - w_beta_x_plus w) by (rewrite S1, S2; unfold Rdiv; ring).
  assert (E6 : w_beta_y_minus w = - w_beta_y_plus w) by (rewrite S3, S4; unfold Rdiv; ring).
  unfold same_results. repeat match goal with |- _ /\ _ => split end; try lra; apply rec_eq; lra.
Qed.

(** A turn about the origin: the torsion and warping constants stay, the shear centres turn with the section. *)
Theorem C90_turned : forall n t p q els els' composite w w', analysed_image n (turned_by t) p q els els' composite w w' ->
  w_j w' = w_j w /\
  w_x_se w' = cos t * w_x_se w - sin t * w_y_se w /\ w_y_se w' = sin t * w_x_se w + cos t * w_y_se w /\
  / w_a_sx w' + / w_a_sy w' = / w_a_sx w + / w_a_sy w /\
  (axes_found els -> axes_found els' -> w_a_s11 w' = w_a_s11 w /\ w_a_s22 w' = w_a_s22 w /\
     exists sg, (sg = 1 \/ sg = -1) /\ w_x11_se w' = sg * w_x11_se w /\ w_y22_se w' = sg * w_y22_se w /\
       w_beta_11_plus w' = sg * w_beta_11_plus w /\ w_beta_22_plus w' = sg * w_beta_22_plus w) /\
  (connected els -> w_gamma w' = w_gamma w /\
     w_x_st w' = cos t * w_x_st w - sin t * w_y_st w /\ w_y_st w' = sin t * w_x_st w + cos t * w_y_st w).
Proof.
  intros n t p q els els' composite w w' H. destruct (C90_moved_section _ _ _ _ _ _ _ _ _ H) as (_ & R1 & _). pose proof (sin2_cos2 t) as Q. unfold Rsqr in Q.
  assert (S1 : cos t ^ 2 + sin t ^ 2 = 1) by lra.
  unfold moved_results, turned_by, scale2, lin_x, lin_y in R1. cbv zeta in R1. cbn [s_a s_b s_e s_dx s_dy] in R1. rewrite S1 in R1. destruct R1 as (R1 & R2 & R3 & R4 & R5 & R6).
  split; [lra|]. split; [lra|]. split; [lra|]. split; [|split].
  - transitivity ((cos t ^ 2 + sin t ^ 2) * (/ w_a_sx w + / w_a_sy w)); [lra|rewrite S1; ring].
  - intros A A'. destruct (C90_moved_principal _ _ _ _ _ _ _ _ _ H (or_intror (conj A A'))) as (sg & Sg & P). unfold moved_principal, turned_by, scale2 in P. cbv zeta in P. cbn [s_a s_b s_e] in P.
    rewrite S1, sqrt_1 in P. destruct P as (P1 & P2 & P3 & P4 & P5 & _ & P7 & _). split; [lra|]. split; [lra|]. exists sg. split; [exact Sg|]. repeat split; lra.
  - intros Hc. destruct (C90_moved_warping _ _ _ _ _ _ _ _ _ H Hc) as ((M1 & M2 & M3) & _). unfold turned_by, scale2, lin_x, lin_y in *. cbn [s_a s_b s_e] in *. rewrite S1 in M3. repeat split; lra.
Qed.

(** An enlargement: length, area, J, Gamma by the powers of their dimensions. *)
Theorem C90_scaled : forall n k p q els els' composite w w', 0 < k -> analysed_image n (scaled_by k) p q els els' composite w w' ->
  w_j w' = k ^ 4 * w_j w /\ w_x_se w' = k * w_x_se w /\ w_y_se w' = k * w_y_se w /\ w_x11_se w' = k * w_x11_se w /\ w_y22_se w' = k * w_y22_se w /\
  w_a_sx w' = k ^ 2 * w_a_sx w /\ w_a_sy w' = k ^ 2 * w_a_sy w /\ w_a_sxy w' = k ^ 2 * w_a_sxy w /\ w_a_s11 w' = k ^ 2 * w_a_s11 w /\ w_a_s22 w' = k ^ 2 * w_a_s22 w /\
  w_beta_x_plus w' = k * w_beta_x_plus w /\ w_beta_y_plus w' = k * w_beta_y_plus w /\ w_beta_11_plus w' = k * w_beta_11_plus w /\ w_beta_22_plus w' = k * w_beta_22_plus w /\
  (connected els -> w_gamma w' = k ^ 6 * w_gamma w /\ w_x_st w' = k * w_x_st w /\ w_y_st w' = k * w_y_st w).
Proof.
  intros n k p q els els' composite w w' Hk H. pose proof H as (Hs & Hpq & HI & Hnu & (X & Y & solve & HA) & (X' & Y' & solve' & HA')).
  destruct (C90_moved_section _ _ _ _ _ _ _ _ _ H) as (G & R1 & B1).
  pose proof (C90_moved_principal_same _ _ _ _ _ _ _ _ _ H eq_refl eq_refl Hk) as P.
  destruct (Hdet n X Y els (a_on _ _ _ _ _ _ _ HA) (a_ne _ _ _ _ _ _ _ HA) (a_pos _ _ _ _ _ _ _ HA)) as (D1 & D2 & _).
  assert (MM := C90_moved_warping _ _ _ _ _ _ _ _ _ H).
  unfold moved_geometry, moved_results, moved_third_moments, moved_moments, moved_principal, scaled_by, scale2, lin_x, lin_y in *. cbv zeta in *. cbn [s_a s_b s_e s_dx s_dy] in *.
  replace (k ^ 2 + 0 ^ 2) with (k ^ 2) in * by ring. rewrite sqrt_pow2 in P by lra.
  destruct G as (_ & _ & _ & _ & _ & _ & G1 & G2 & _). destruct R1 as (R1 & R2 & R3 & R4 & R5 & R6). destruct P as (P1 & P2 & P3 & P4 & P5 & P6 & P7 & P8). destruct B1 as (B1 & B2 & B3 & B4).
  set (ix := p_ixx_c (centroidal_of (section_totals els))) in *. set (iy := p_iyy_c (centroidal_of (section_totals els))) in *.
  assert (E1 : w_x_se w' = k * w_x_se w) by lra. assert (E2 : w_y_se w' = k * w_y_se w) by lra.
  assert (K2 : k ^ 2 <> 0) by (apply pow_nonzero; lra). assert (K4 : k ^ 4 <> 0) by (apply pow_nonzero; lra).
  assert (I : forall x y, (k ^ 2) ^ 2 * / x = k ^ 2 * / y -> x = k ^ 2 * y).
  { intros x y E. apply rec_eq. rewrite Rinv_mult. apply (Rmult_eq_reg_l (k ^ 4)); [|exact K4]. transitivity (k ^ 2 * / y); [rewrite <- E; ring|]. set (z := / y). field. lra. }
  split; [rewrite R1; ring|]. split; [exact E1|]. split; [exact E2|]. split; [lra|]. split; [lra|].
  split; [apply I; lra|]. split; [apply I; lra|]. split; [apply I; lra|]. split; [lra|]. split; [lra|].
  split; [|split; [|split; [lra|split; [lra|]]]].
  - rewrite G1, E2 in B2. apply (Rmult_eq_reg_l (k ^ 4 * ix)); [|apply Rmult_integral_contrapositive_currified; lra]. nra.
  - rewrite G2, E1 in B1. apply (Rmult_eq_reg_l (k ^ 4 * iy)); [|apply Rmult_integral_contrapositive_currified; lra]. nra.
  - intros Hc. destruct (MM Hc) as ((M1 & M2 & M3) & _). split; [rewrite M3; ring|]. split; lra.
Qed.

(** The mirror image in the y-axis (x goes to -x) *)
Theorem C90_mirrored : forall n p q els els' composite w w', analysed_image n in_y_axis p q els els' composite w w' ->
  w_j w' = w_j w /\ w_x_se w' = - w_x_se w /\ w_y_se w' = w_y_se w /\
  w_a_sx w' = w_a_sx w /\ w_a_sy w' = w_a_sy w /\ w_a_sxy w' = - w_a_sxy w /\ w_a_s11 w' = w_a_s11 w /\ w_a_s22 w' = w_a_s22 w /\
  w_beta_x_plus w' = w_beta_x_plus w /\ w_beta_y_plus w' = - w_beta_y_plus w /\
  (connected els -> w_gamma w' = w_gamma w /\ w_x_st w' = - w_x_st w /\ w_y_st w' = w_y_st w).
Proof.
  intros n p q els els' composite w w' H. pose proof H as (Hs & Hpq & HI & Hnu & (X & Y & solve & HA) & (X' & Y' & solve' & HA')).
  destruct (C90_moved_section _ _ _ _ _ _ _ _ _ H) as (G & R1 & B1).
  destruct (C90_moved_principal _ _ _ _ _ _ _ _ _ H (or_introl eq_refl)) as (sg & _ & P).
  destruct (Hdet n X Y els (a_on _ _ _ _ _ _ _ HA) (a_ne _ _ _ _ _ _ _ HA) (a_pos _ _ _ _ _ _ _ HA)) as (D1 & D2 & _).
  assert (MM := C90_moved_warping _ _ _ _ _ _ _ _ _ H).
  unfold moved_geometry, moved_results, moved_third_moments, moved_moments, moved_principal, in_y_axis, scale2, lin_x, lin_y in *. cbv zeta in *. cbn [s_a s_b s_e s_dx s_dy] in *.
  replace ((-1) ^ 2 + 0 ^ 2) with 1 in * by ring.
  destruct G as (_ & _ & _ & _ & _ & _ & G1 & G2 & _). destruct R1 as (R1 & R2 & R3 & R4 & R5 & R6). destruct P as (_ & _ & P3 & P4 & _). destruct B1 as (B1 & B2 & _ & _).
  set (ix := p_ixx_c (centroidal_of (section_totals els))) in *. set (iy := p_iyy_c (centroidal_of (section_totals els))) in *.
  assert (E1 : w_x_se w' = - w_x_se w) by lra. assert (E2 : w_y_se w' = w_y_se w) by lra.
  split; [lra|]. split; [exact E1|]. split; [exact E2|]. split; [apply rec_eq; lra|]. split; [apply rec_eq; lra|]. split; [apply rec_eq; rewrite Rinv_opp; lra|]. split; [lra|]. split; [lra|].
  split; [|split].
  - rewrite G1, E2 in B2. apply (Rmult_eq_reg_l ix); lra.
  - rewrite G2, E1 in B1. apply (Rmult_eq_reg_l iy); lra.
  - intros Hc. destruct (MM Hc) as ((M1 & M2 & M3) & _). repeat split; lra.
Qed.

(** ** C91: meshes with a symmetry *)
Section Symmetric.
Context (n : nat) (X Y : nat -> R) (els : list tri6) (solve : lg_solver) (composite : bool) (w : warping).
Context (HA : analysed n X Y els solve composite w) (Hnu : physical_nu els).
Lemma self_image m p q : proper_sim m -> renumbering n p q -> mesh_image m p els els -> analysed_image n m p q els els composite w w.
Proof. intros H1 H2 H3. split; [exact H1|]. split; [exact H2|]. split; [exact H3|]. split; [exact Hnu|]. split; do 3 eexists; exact HA. Qed.
Lemma ii_pos : 0 < p_ixx_c (centroidal_of (section_totals els)) /\ 0 < p_iyy_c (centroidal_of (section_totals els)).
Proof. destruct (Hdet n X Y els (a_on _ _ _ _ _ _ _ HA) (a_ne _ _ _ _ _ _ _ HA) (a_pos _ _ _ _ _ _ _ HA)) as (D1 & D2 & _). split; assumption. Qed.
End Symmetric.

Ltac sym_facts HA Hnu HS :=
  let p := fresh "p" in let q := fresh "q" in let Hpq := fresh "Hpq" in let HI := fresh "HI" in destruct HS as (p & q & Hpq & HI);
  match type of HI with mesh_image ?m _ _ _ => let Hs := fresh "Hs" in assert (Hs : proper_sim m) by (split; [cbn [s_e]; lra|cbn [s_a s_b]; lra]);
    let H := fresh "H" in pose proof (self_image _ _ _ _ _ _ _ HA Hnu m p q Hs Hpq HI) as H;
    destruct (C90_moved_section _ _ _ _ _ _ _ _ _ H) as (G & R1 & B1); pose proof (C90_moved_warping _ _ _ _ _ _ _ _ _ H) as MM;
    destruct (ii_pos _ _ _ _ _ _ _ HA) as (D1 & D2);
    unfold moved_geometry, moved_results, moved_third_moments, moved_moments, scale2, lin_x, lin_y, sim_x, sim_y in G, R1, B1, MM; cbv zeta in G, R1, B1, MM; cbn [s_a s_b s_e s_dx s_dy] in G, R1, B1, MM;
    destruct G as (_ & _ & _ & _ & G1 & G2 & G3 & G4 & G5 & _); destruct R1 as (R1 & R2 & R3 & R4 & R5 & R6); destruct B1 as (B1 & B2 & B3 & B4)
  end.

(** A mesh that is its own mirror image in the line x = x0: centroid and shear centres on the line, no product of inertia, no coupled
    shear deformation, no monosymmetry about y, and an antisymmetric warping function *)
Theorem C91_symmetric_about_x : forall n X Y els solve composite w x0, analysed n X Y els solve composite w -> physical_nu els -> symmetric_about_x x0 n els ->
  let c := centroidal_of (section_totals els) in
  p_cx c = x0 /\ p_ixy_c c = 0 /\ w_x_se w = 0 /\ / w_a_sxy w = 0 /\ w_beta_y_plus w = 0 /\ w_beta_y_minus w = 0 /\ (connected els -> w_x_st w = 0).
Proof.
  intros n X Y els solve composite w x0 HA Hnu HS c. sym_facts HA Hnu HS. fold c in G1, G2, G3, G4, G5, B1, B2, D1, D2.
  assert (E1 : w_x_se w = 0) by lra. assert (E2 : w_beta_y_plus w = 0).
  { rewrite E1 in B1. apply (Rmult_eq_reg_l (p_iyy_c c)); lra. }
  split; [lra|]. split; [lra|]. split; [exact E1|]. split; [lra|]. split; [exact E2|]. split; [lra|]. intros Hc. destruct (MM Hc) as ((M1 & M2 & M3) & _). lra.
Qed.
Theorem C91_symmetric_about_y : forall n X Y els solve composite w y0, analysed n X Y els solve composite w -> physical_nu els -> symmetric_about_y y0 n els ->
  let c := centroidal_of (section_totals els) in
  p_cy c = y0 /\ p_ixy_c c = 0 /\ w_y_se w = 0 /\ / w_a_sxy w = 0 /\ w_beta_x_plus w = 0 /\ w_beta_x_minus w = 0 /\ (connected els -> w_y_st w = 0).
Proof.
  intros n X Y els solve composite w y0 HA Hnu HS c. sym_facts HA Hnu HS. fold c in G1, G2, G3, G4, G5, B1, B2, D1, D2.
  assert (E1 : w_y_se w = 0) by lra. assert (E2 : w_beta_x_plus w = 0).
  { rewrite E1 in B2. apply (Rmult_eq_reg_l (p_ixx_c c)); lra. }
  split; [lra|]. split; [lra|]. split; [exact E1|]. split; [lra|]. split; [exact E2|]. split; [lra|]. intros Hc. destruct (MM Hc) as ((M1 & M2 & M3) & _). lra.
Qed.
(** the warping function of a mirror-symmetric connected mesh is antisymmetric: it vanishes on the axis *)
Theorem C91_antisymmetric_warping : forall n X Y els solve composite w x0 p q, analysed n X Y els solve composite w -> physical_nu els -> connected els ->
  renumbering n p q -> mesh_image (mkSim (-1) 0 (-1) (2 * x0) 0) p els els ->
  forall el, In el els -> forall i, In i (ids_list (el_ids el)) -> w_omega w (p i) = - w_omega w i /\ (p i = i -> w_omega w i = 0).
Proof.
  intros n X Y els solve composite w x0 p q HA Hnu Hc Hpq HI el Hel i Hi.
  assert (Hs : proper_sim (mkSim (-1) 0 (-1) (2 * x0) 0)) by (split; [cbn [s_e]; lra|cbn [s_a s_b]; lra]).
  pose proof (self_image _ _ _ _ _ _ _ HA Hnu _ p q Hs Hpq HI) as H. destruct (C90_moved_warping _ _ _ _ _ _ _ _ _ H Hc) as (_ & M). specialize (M el Hel i Hi).
  unfold scale2 in M. cbn [s_a s_b s_e] in M. split; [lra|]. intros E. rewrite E in M. lra.
Qed.
(** A mesh that is its own image under a half turn: centroid and shear centres at the centre of the turn *)
Theorem C91_half_turn : forall n X Y els solve composite w x0 y0, analysed n X Y els solve composite w -> physical_nu els -> half_turn_symmetric x0 y0 n els ->
  let c := centroidal_of (section_totals els) in
  p_cx c = x0 /\ p_cy c = y0 /\ w_x_se w = 0 /\ w_y_se w = 0 /\ w_beta_x_plus w = 0 /\ w_beta_y_plus w = 0 /\ (connected els -> w_x_st w = 0 /\ w_y_st w = 0).
Proof.
  intros n X Y els solve composite w x0 y0 HA Hnu HS c. sym_facts HA Hnu HS. fold c in G1, G2, G3, G4, G5, B1, B2, D1, D2.
  assert (E1 : w_x_se w = 0) by lra. assert (E2 : w_y_se w = 0) by lra.
  split; [lra|]. split; [lra|]. split; [exact E1|]. split; [exact E2|]. rewrite E1 in B1. rewrite E2 in B2.
  split; [apply (Rmult_eq_reg_l (p_ixx_c c)); lra|]. split; [apply (Rmult_eq_reg_l (p_iyy_c c)); lra|]. intros Hc. destruct (MM Hc) as ((M1 & M2 & M3) & _). split; lra.
Qed.
(** A mesh that is its own image under a quarter turn: equal second moments and shear areas in all directions *)
Theorem C91_quarter_turn : forall n X Y els solve composite w x0 y0, analysed n X Y els solve composite w -> physical_nu els -> quarter_turn_symmetric x0 y0 n els ->
  let c := centroidal_of (section_totals els) in
  p_cx c = x0 /\ p_cy c = y0 /\ p_ixx_c c = p_iyy_c c /\ p_ixy_c c = 0 /\ p_i11_c c = p_i22_c c /\ w_x_se w = 0 /\ w_y_se w = 0 /\ w_a_sx w = w_a_sy w /\ / w_a_sxy w = 0 /\
  (connected els -> w_x_st w = 0 /\ w_y_st w = 0).
Proof.
  intros n X Y els solve composite w x0 y0 HA Hnu HS c. sym_facts HA Hnu HS. fold c in G1, G2, G3, G4, G5, B1, B2, D1, D2.
  assert (E1 : p_ixx_c c = p_iyy_c c) by lra. assert (E2 : p_ixy_c c = 0) by lra.
  split; [lra|]. split; [lra|]. split; [exact E1|]. split; [exact E2|]. split.
  - change (p_i11_c c) with (principal_i11 (p_ixx_c c) (p_iyy_c c) (p_ixy_c c)). change (p_i22_c c) with (principal_i22 (p_ixx_c c) (p_iyy_c c) (p_ixy_c c)).
    unfold principal_i11, principal_i22, principal_delta. rewrite E1, E2. replace (((p_iyy_c c - p_iyy_c c) / 2) ^ 2 + 0 ^ 2) with 0 by field. rewrite sqrt_0. ring.
  - split; [lra|]. split; [lra|]. split; [apply rec_eq; lra|]. split; [lra|]. intros Hc. destruct (MM Hc) as ((M1 & M2 & M3) & _). split; lra.
Qed.

(** ** Examples *)

(** every connected mesh and similarity give a pair of analyses as in C90 *)
Theorem C90_images_exist : forall n X Y els composite m, mesh_on n X Y els -> els <> [] -> pos_moduli els -> (composite = false -> unit_moduli els) ->
  connected els -> all_used n els -> physical_nu els -> proper_sim m ->
  exists els' w w', analysed_image n m (fun i => i) (fun i => i) els els' composite w w'.
Proof. exact images_exist. Qed.
Lemma x_nu : physical_nu [xe]. Proof. intros el [<-|[]]. cbn. lra. Qed.
Example C90_ex : forall t k dx dy, 0 < k ->
  (exists els' w w', analysed_image 6 (turned_by t) (fun i => i) (fun i => i) [xe] els' true w w') /\
  (exists els' w w', analysed_image 6 (scaled_by k) (fun i => i) (fun i => i) [xe] els' true w w') /\
  (exists els' w w', analysed_image 6 in_y_axis (fun i => i) (fun i => i) [xe] els' true w w') /\
  (exists els' w w', analysed_image 6 (moved_by dx dy) (fun i => i) (fun i => i) [xe] els' true w w').
Proof.
  intros t k dx dy Hk. pose proof (sin2_cos2 t) as Q. unfold Rsqr in Q.
  repeat match goal with |- _ /\ _ => split end; apply (C90_images_exist 6 xX xY); try discriminate; try apply xmesh; try apply xpos; try apply xconn; try apply xused; try apply x_nu;
    (split; [left; reflexivity|unfold turned_by, scaled_by, moved_by; cbn [s_a s_b]; nra]) || (split; [right; reflexivity|unfold in_y_axis; cbn [s_a s_b]; nra]).
Qed.
Example C91_ex_mirror : exists w, analysed 6 yX yY [ys] (best_solver 6) true w /\ symmetric_about_x 0 6 [ys] /\ w_x_se w = 0 /\ w_beta_y_plus w = 0.
Proof.
  destruct y_analysed as [w HA]. exists w. split; [exact HA|]. split; [apply y_sym|].
  destruct (C91_symmetric_about_x 6 yX yY [ys] (best_solver 6) true w 0 HA) as (_ & _ & E1 & _ & E2 & _); [intros el [<-|[]]; cbn; lra|apply y_sym|]. split; assumption.
Qed.
Example C91_ex_half_turn : exists w, analysed 9 zX zY [zt; zu] (best_solver 9) true w /\ half_turn_symmetric (1/2) (1/2) 9 [zt; zu] /\ w_x_se w = 0 /\ w_y_st w = 0.
Proof.
  destruct z_analysed as [w HA]. exists w. split; [exact HA|]. split; [apply z_sym|].
  destruct (C91_half_turn 9 zX zY [zt; zu] (best_solver 9) true w (1/2) (1/2) HA) as (_ & _ & E1 & _ & _ & _ & E2); [intros el [<-|[<-|[]]]; cbn; lra|apply z_sym|]. split; [exact E1|apply E2, z_connected].
Qed.

Example C91_ex_quarter_turn : exists w, analysed 13 qX qY q_mesh (best_solver 13) true w /\ quarter_turn_symmetric 0 0 13 q_mesh /\ w_a_sx w = w_a_sy w.
Proof.
  destruct q_analysed as [w HA]. exists w. split; [exact HA|]. split; [apply q_sym|].
  destruct (C91_quarter_turn 13 qX qY q_mesh (best_solver 13) true w 0 0 HA) as (_ & _ & _ & _ & _ & _ & _ & E1 & _); [intros el [<-|[<-|[<-|[<-|[]]]]]; cbn; lra|apply q_sym|]. exact E1.
Qed.

Print Assumptions C90_moved_section.
Print Assumptions C90_moved_principal.
Print Assumptions C90_moved_principal_same.
Print Assumptions C90_moved_warping.
Print Assumptions C90_translated.
Print Assumptions C90_turned.
Print Assumptions C90_scaled.
Print Assumptions C90_mirrored.
Print Assumptions C90_images_exist.
Print Assumptions C91_symmetric_about_x.
Print Assumptions C91_symmetric_about_y.
Print Assumptions C91_antisymmetric_warping.
Print Assumptions C91_half_turn.
Print Assumptions C91_quarter_turn.
