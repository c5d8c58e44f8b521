(** Warping constant, bending resultants, superposition. *)
From Coq Require Import Reals List Lra Lia Bool.
From Coquelicot Require Import Coquelicot.
From Verif Require Import Base S_Integral M_Fea S_Fem M_Post M_Section S_Section S_Post S_Warp M_Stress
  P_Integral P_Fea P_Geom P_Elem P_Section P_Totals P_Post P_Yield P_Warp P_Warp2 P_Warp3 P_Warp4 P_Warp5 P_Warp6 P_Warp7.
Import ListNotations.
Local Open Scope R_scope.

(** ** Warping constant with zero Poisson's ratio *)
Section Gamma.
Context (n : nat) (X Y : nat -> R) (els : list tri6) (solve : lg_solver) (composite : bool) (w : warping).
Context (HA : analysed n X Y els solve composite w).
Let t := section_totals els.
Let c := centroidal_of t.
Let wels := map (shift_el (p_cx c) (p_cy c)) els.
Let on := a_on _ _ _ _ _ _ _ HA.
Let ne := a_ne _ _ _ _ _ _ _ HA.
Let pos := a_pos _ _ _ _ _ _ _ HA.
Let vm := a_val _ _ _ _ _ _ _ HA.
Context (H0 : nu_used composite els = 0).

Definition om_sq : field := fun el g => Vl (w_omega w) el g ^ 2.

Lemma poly_val u el : poly_deg 2 (val u el).
Proof.
  unfold val, fe_val. set (v := gather u (el_ids el)).
  apply (poly_ext 2 (quad (v0 v) (- 3 * v0 v - v1 v + 4 * v3 v) (- 3 * v0 v - v2 v + 4 * v5 v)
      (2 * v0 v + 2 * v1 v - 4 * v3 v) (4 * v0 v - 4 * v3 v + 4 * v4 v - 4 * v5 v) (2 * v0 v + 2 * v2 v - 4 * v5 v))); [apply poly_quad|].
  intros s r. unfold quad. ring.
Qed.
Lemma poly_pos el : poly_deg 1 (loc_x el) /\ poly_deg 1 (loc_y el).
Proof.
  unfold loc_x, loc_y, el_point. cbn [fst snd].
  assert (P : forall a b d, poly_deg 1 (fun s r => (1 - s - r) * a + s * b + r * d)).
  { intros a b d. apply (poly_ext 1 (fun s r => a + (b - a) * s + (d - a) * r)); [|intros; ring].
    apply poly_plus; [apply poly_plus|]; [apply poly_c|apply poly_cmul, poly_x|apply poly_cmul, poly_y]. }
  split.
  - eapply poly_ext; [apply (P (fst (corner_a el)) (fst (corner_b el)) (fst (corner_c el)))|]. intros; cbv beta; ring.
  - eapply poly_ext; [apply (P (snd (corner_a el)) (snd (corner_b el)) (snd (corner_c el)))|]. intros; cbv beta; ring.
Qed.

(** exact integral of omega^2 *)
Definition i_exact : R := E_int (fun el s r => val (w_omega w) el s r ^ 2) els.

Lemma gamma_form :
  w_gamma w + (i_exact - MQ wels om_sq) =
  E_int (fun el s r => (val (w_omega w) el s r - w_y_st w * (loc_x el s r - p_cx c) + w_x_st w * (loc_y el s r - p_cy c)) ^ 2) els.
Proof.
  pose proof (warping_spec _ _ _ _ _ _ _ (a_w _ _ _ _ _ _ _ HA)) as S. cbv zeta in S. fold t in S. fold c in S. fold wels in S.
  pose proof (a_ea _ _ _ _ _ _ _ HA) as EA0. fold t in EA0. rewrite EA0 in S. rewrite sc_warping_form in S. cbn [wi_q wi_i wi_ix wi_iy] in S.
  assert (Hw' := a_w _ _ _ _ _ _ _ HA). assert (Hn1 : 1 + nu_used composite els <> 0) by (rewrite H0; lra).
  destruct (trefftz n X Y els solve composite w on ne pos (a_ex _ _ _ _ _ _ _ HA) Hw' Hn1 H0) as [TX TY].
  pose proof (omega_mean n X Y els solve composite w on ne pos (a_ex _ _ _ _ _ _ _ HA) Hw') as M0. unfold Mn in M0. fold t in M0. fold c in M0. fold wels in M0.
  destruct S as [_ [_ [_ [_ [_ [_ [S7 [S8 [S9 _]]]]]]]]]. rewrite TX, TY, M0 in S9. change (fun el g => Vl (w_omega w) el g ^ 2) with om_sq in S9.
  destruct (Hdet n X Y els on ne pos) as [D1 [D2 [D3 [D4 D5]]]]. fold t c in D1, D2, D3, D4, D5.
  set (xs := w_x_st w) in *. set (ys := w_y_st w) in *.
  set (ix := MQ wels (fun el g => px el g * Vl (w_omega w) el g)) in *. set (iy := MQ wels (fun el g => py el g * Vl (w_omega w) el g)) in *.
  (* exact integrals of the remaining terms *)
  set (U := fun el s r => val (w_omega w) el s r). set (PX := fun el s r => loc_x el s r - p_cx c). set (PY := fun el s r => loc_y el s r - p_cy c).
  assert (D : forall el, poly_deg 2 (U el) /\ poly_deg 1 (PX el) /\ poly_deg 1 (PY el)).
  { intros el. destruct (poly_pos el). repeat match goal with |- _ /\ _ => split end; [apply poly_val| |];
    apply poly_minus; try assumption; apply poly_c. }
  assert (EX : E_int (fun el s r => PX el s r * U el s r) els = ix).
  { symmetry. apply MQ_E_int; [exact vm| |].
    - intros el Hel. apply (pdeg_mul 1 2); [apply d_px|apply d_Vl]; apply vm, Hel.
    - intros el s r Hel. destruct (pos_shift (p_cx c) (p_cy c) el s r (vm el Hel)) as [-> _]. rewrite V_shift. reflexivity. }
  assert (EY : E_int (fun el s r => PY el s r * U el s r) els = iy).
  { symmetry. apply MQ_E_int; [exact vm| |].
    - intros el Hel. apply (pdeg_mul 1 2); [apply d_py|apply d_Vl]; apply vm, Hel.
    - intros el s r Hel. destruct (pos_shift (p_cx c) (p_cy c) el s r (vm el Hel)) as [_ ->]. rewrite V_shift. reflexivity. }
  assert (EQ : E_int (fun el s r => ys ^ 2 * (PX el s r * PX el s r) - 2 * xs * ys * (PX el s r * PY el s r) + xs ^ 2 * (PY el s r * PY el s r)) els
     = ys ^ 2 * p_iyy_c c - 2 * xs * ys * p_ixy_c c + xs ^ 2 * p_ixx_c c).
  { rewrite <- (MQ_E_int (p_cx c) (p_cy c) (fun el g => quad 0 0 0 (ys ^ 2) (- (2 * xs * ys)) (xs ^ 2) (px el g) (py el g)) _ els vm).
    - fold wels. unfold wels, c, t. rewrite (MQ_quad n X Y els on ne pos). ring.
    - intros el Hel. unfold quad. apply (pdeg_weaken 2); [lia|].
      pose proof (d_px (p_cx c) (p_cy c) el (vm el Hel)) as A. pose proof (d_py (p_cx c) (p_cy c) el (vm el Hel)) as B0.
      assert (W : forall F, pdeg 1 F -> pdeg 2 F) by (intros; apply (pdeg_weaken 1); [lia|assumption]).
      repeat apply pdeg_plus; try (apply pdeg_scal); auto using pdeg_const.
      + apply (pdeg_sq 1); [lia|assumption].
      + apply (pdeg_ext 2 (fun g => - (2 * xs * ys) * (px (shift_el (p_cx c) (p_cy c) el) g * py (shift_el (p_cx c) (p_cy c) el) g))); [intros; ring|].
        apply pdeg_scal. apply (pdeg_mul 1 1); assumption.
      + apply (pdeg_sq 1); [lia|assumption].
    - intros el s r Hel. destruct (pos_shift (p_cx c) (p_cy c) el s r (vm el Hel)) as [-> ->]. unfold quad, PX, PY. ring. }
  assert (W : forall d F, (d <= 4)%nat -> poly_deg d F -> poly_deg 4 F) by (intros; eapply poly_weaken; [|eassumption]; assumption).
  assert (DU2 : forall el, poly_deg 4 (fun s r => U el s r ^ 2)).
  { intros el. destruct (D el) as [A _]. apply (poly_ext 4 (fun s r => U el s r * U el s r)); [apply (poly_mul 2 2 (U el) (U el)); assumption|]. intros; ring. }
  assert (DXU : forall el, poly_deg 4 (fun s r => PX el s r * U el s r)).
  { intros el. destruct (D el) as [A [A' _]]. apply (W 3%nat); [lia|]. apply (poly_mul 1 2 (PX el) (U el)); assumption. }
  assert (DYU : forall el, poly_deg 4 (fun s r => PY el s r * U el s r)).
  { intros el. destruct (D el) as [A [_ A']]. apply (W 3%nat); [lia|]. apply (poly_mul 1 2 (PY el) (U el)); assumption. }
  assert (DQ : forall el, poly_deg 4 (fun s r => ys ^ 2 * (PX el s r * PX el s r) - 2 * xs * ys * (PX el s r * PY el s r) + xs ^ 2 * (PY el s r * PY el s r))).
  { intros el. destruct (D el) as [_ [A A']]. apply (W 2%nat); [lia|]. apply poly_plus; [apply poly_minus|]; apply poly_cmul.
    - apply (poly_mul 1 1 (PX el) (PX el)); assumption.
    - apply (poly_mul 1 1 (PX el) (PY el)); assumption.
    - apply (poly_mul 1 1 (PY el) (PY el)); assumption. }
  transitivity (1 * E_int (fun el s r => 1 * U el s r ^ 2 + (-2 * ys) * (PX el s r * U el s r)) els
    + 1 * E_int (fun el s r => (2 * xs) * (PY el s r * U el s r) + 1 * (ys ^ 2 * (PX el s r * PX el s r) - 2 * xs * ys * (PX el s r * PY el s r) + xs ^ 2 * (PY el s r * PY el s r))) els).
  2: { rewrite <- E_int_lin4.
    - apply E_int_ext. intros. unfold U, PX, PY. fold xs ys. ring.
    - intros el _. split; apply poly_plus; try (apply poly_cmul); auto. }
  rewrite (E_int_lin4 (fun el s r => U el s r ^ 2) (fun el s r => PX el s r * U el s r)) by (intros; split; auto).
  rewrite (E_int_lin4 (fun el s r => PY el s r * U el s r) (fun el s r => ys ^ 2 * (PX el s r * PX el s r) - 2 * xs * ys * (PX el s r * PY el s r) + xs ^ 2 * (PY el s r * PY el s r))) by (intros; split; auto).
  rewrite EX, EY, EQ. unfold i_exact. fold U.
  change (E_int (fun el s r => val (w_omega w) el s r ^ 2) els) with (E_int (fun el s r => U el s r ^ 2) els). set (I2 := E_int (fun el s r => U el s r ^ 2) els).
  rewrite S9.
  (* ix and iy in terms of the shear centre *)
  set (a := p_ixx_c c) in *. set (b := p_iyy_c c) in *. set (e := p_ixy_c c) in *.
  assert (IX : ix = ys * b - xs * e).
  { rewrite S7, S8. field. lra. }
  assert (IY : iy = ys * e - xs * a).
  { rewrite S7, S8. field. lra. }
  rewrite IX, IY. field. pose proof (Hea n X Y els on ne pos) as E1. fold t in E1. lra.
Qed.

Lemma gamma_exact_nonneg : 0 <= w_gamma w + (i_exact - MQ wels om_sq).
Proof.
  rewrite gamma_form. apply E_int_nonneg; [exact vm|exact pos| |].
  - intros el Hel. destruct (poly_pos el) as [A A'].
    set (F := fun s r => val (w_omega w) el s r - w_y_st w * (loc_x el s r - p_cx c) + w_x_st w * (loc_y el s r - p_cy c)).
    assert (poly_deg 2 F).
    { apply poly_plus; [apply poly_minus; [apply poly_val|]|]; apply (poly_weaken 1); try lia; apply poly_cmul; apply poly_minus; auto using poly_c. }
    apply (poly_ext 4 (fun s r => F s r * F s r)); [apply (poly_mul 2 2 F F); assumption|]. intros; unfold F; ring.
  - intros. apply pow2_ge_0.
Qed.
End Gamma.
