(** Warping: integrals of finite element fields, energy, constants, warping constant, monosymmetry. *)
From Coq Require Import Reals List Lra Lia.
From Coquelicot Require Import Coquelicot.
From Verif Require Import Base S_Integral M_Fea S_Fem M_Post M_Section S_Section S_Post S_Warp M_Stress
  P_Integral P_Fea P_Geom P_Elem P_Section P_Totals P_Post P_Yield P_Warp P_Warp2 P_Warp3.
Import ListNotations.
Local Open Scope R_scope.

(** ** The code's shape functions and the finite element functions of the specification *)

Lemma vl_fe el u s t : vl el u (loc s t) = fe_val u s t.
Proof.
  unfold vl, shp, shape_function, loc, fe_val. cbn [sh_n g_eta g_xi g_zeta].
  unfold dot6, shape_n. cbn [v0 v1 v2 v3 v4 v5]. ring.
Qed.

Lemma fe_ds_eq u s t : fe_ds u s t = v0 u * (1 - 4 * (1 - s - t)) + v1 u * (4 * s - 1) + v3 u * 4 * (1 - 2 * s - t) + v4 u * 4 * t - v5 u * 4 * t.
Proof. unfold fe_ds. apply is_derive_unique. unfold fe_val. auto_derive; [exact I|]. ring. Qed.
Lemma fe_dt_eq u s t : fe_dt u s t = v0 u * (1 - 4 * (1 - s - t)) + v2 u * (4 * t - 1) - v3 u * 4 * s + v4 u * 4 * s + v5 u * 4 * (1 - s - 2 * t).
Proof. unfold fe_dt. apply is_derive_unique. unfold fe_val. auto_derive; [exact I|]. ring. Qed.

(** gradients are unchanged by translations, and orientation too *)
Lemma orient_shift el cx cy : orient (corner_a (shift_el cx cy el)) (corner_b (shift_el cx cy el)) (corner_c (shift_el cx cy el)) = orient (corner_a el) (corner_b el) (corner_c el).
Proof. unfold orient, corner_a, corner_b, corner_c, shift_el, map6. cbn [el_x el_y v0 v1 v2 fst snd]. ring. Qed.

Lemma gxy_fe el u s t : valid_el el -> gx el u (loc s t) = fe_dx el u s t /\ gy el u (loc s t) = fe_dy el u s t.
Proof.
  intros Hv. pose proof (gx_lin el Hv u (loc s t) (sum1_loc s t)) as Hx. pose proof (gy_lin el Hv u (loc s t) (sum1_loc s t)) as Hy.
  rewrite Hx, Hy. unfold fe_dx, fe_dy. rewrite fe_ds_eq, fe_dt_eq. unfold gcoef, loc. cbn [g_eta g_xi g_zeta fst snd].
  destruct Hv as [_ Ho]. unfold orient in *. unfold corner_a, corner_b, corner_c in *. cbn [fst snd] in *.
  split; field; lra.
Qed.

Lemma fe_shift el cx cy u s t : fe_dx (shift_el cx cy el) u s t = fe_dx el u s t /\ fe_dy (shift_el cx cy el) u s t = fe_dy el u s t.
Proof.
  unfold fe_dx, fe_dy. rewrite orient_shift. unfold corner_a, corner_b, corner_c, shift_el, map6. cbn [el_x el_y v0 v1 v2 fst snd].
  split; f_equal; ring.
Qed.

Section Shifted.
Context (cx cy : R).
Notation sh := (shift_el cx cy).

Lemma G_shift u el s t : valid_el el -> Gx u (sh el) (loc s t) = ddx u el s t /\ Gy u (sh el) (loc s t) = ddy u el s t.
Proof.
  intros Hv. unfold Gx, Gy, ddx, ddy. destruct (gxy_fe (sh el) (gather u (el_ids (sh el))) s t (shift_valid cx cy el Hv)) as [-> ->].
  apply fe_shift.
Qed.
Lemma V_shift u el s t : Vl u (sh el) (loc s t) = val u el s t.
Proof. unfold Vl, val. apply vl_fe. Qed.
Lemma pos_shift el s t : valid_el el -> px (sh el) (loc s t) = loc_x el s t - cx /\ py (sh el) (loc s t) = loc_y el s t - cy.
Proof.
  intros Hv. unfold px, py, shp. rewrite (valid_shape (sh el) (shift_valid cx cy el Hv) (loc s t) (sum1_loc s t)).
  unfold loc, loc_x, loc_y. cbn [sh_nx sh_ny el_point fst snd g_eta g_xi g_zeta].
  unfold corner_a, corner_b, corner_c, shift_el, map6. cbn [el_x el_y v0 v1 v2 fst snd]. split; ring.
Qed.

Lemma E_int_ext F G els : (forall el s t, In el els -> F el s t = G el s t) -> E_int F els = E_int G els.
Proof.
  intros H. unfold E_int, field_int. apply sumf_ext. intros el Hel. unfold loc_int. f_equal. apply simplex_int_ext.
  intros. rewrite H by exact Hel. reflexivity.
Qed.
Lemma field_int_ext F G els : (forall el s t, In el els -> F el s t = G el s t) -> field_int F els = field_int G els.
Proof.
  intros H. unfold field_int. apply sumf_ext. intros el Hel. unfold loc_int. f_equal. apply simplex_int_ext.
  intros. rewrite H by exact Hel. reflexivity.
Qed.

Lemma MQ_E_int (F : field) (F' : tri6 -> R -> R -> R) els : valid_mesh els ->
  (forall el, In el els -> pdeg 3 (F (sh el))) ->
  (forall el s t, In el els -> F (sh el) (loc s t) = F' el s t) -> MQ (map sh els) F = E_int F' els.
Proof.
  intros Hv Hd He. rewrite MQ_exact.
  - unfold E_int, field_int. rewrite sumf_map. apply sumf_ext. intros el Hel. unfold loc_int. rewrite orient_shift. f_equal.
    apply simplex_int_ext. intros s t. rewrite He by exact Hel. reflexivity.
  - intros e He'. apply in_map_iff in He'. destruct He' as [el [<- Hel]]. apply shift_valid, Hv, Hel.
  - intros e He'. apply in_map_iff in He'. destruct He' as [el [<- Hel]]. apply Hd, Hel.
Qed.

(** degrees of the fields on shifted elements *)
Section El.
Context (el : tri6) (Hv : valid_el el) (u : nat -> R).
Let Hv' := shift_valid cx cy el Hv.
Lemma d_px : pdeg 1 (px (sh el)). Proof. apply pdeg_lin3, lin3_px, Hv'. Qed.
Lemma d_py : pdeg 1 (py (sh el)). Proof. apply pdeg_lin3, lin3_py, Hv'. Qed.
Lemma d_Gx : pdeg 1 (Gx u (sh el)). Proof. apply pdeg_lin3, lin3_gx, Hv'. Qed.
Lemma d_Gy : pdeg 1 (Gy u (sh el)). Proof. apply pdeg_lin3, lin3_gy, Hv'. Qed.
Lemma d_Vl : pdeg 2 (Vl u (sh el)). Proof. apply pdeg_vl, Hv'. Qed.
End El.
End Shifted.

Lemma pdeg_mul' d e k F G : (d + e <= k)%nat -> pdeg d F -> pdeg e G -> pdeg k (fun g => F g * G g).
Proof. intros H A B0. apply (pdeg_weaken (d + e)); [exact H|]. apply pdeg_mul; assumption. Qed.
Lemma pdeg_sq d k F : (d + (d + 0) <= k)%nat -> pdeg d F -> pdeg k (fun g => F g ^ 2).
Proof.
  intros H A. apply (pdeg_ext k (fun g => F g * F g)); [intros; ring|]. apply (pdeg_mul' d d); try assumption. lia.
Qed.

(** fields of degree at most four: linearity and positivity of the exact integral *)
Lemma loc_int_lin4 el F G a b : poly_deg 4 F -> poly_deg 4 G ->
  loc_int el (fun s t => a * F s t + b * G s t) = a * loc_int el F + b * loc_int el G.
Proof.
  intros HF HG. unfold loc_int.
  assert (P : forall H, poly_deg 4 H -> exists k, forall s t, H s t = P4c k s t).
  { intros H HH. destruct (poly_affine 4 H HH ltac:(lia) 0 1 0 0 0 1) as [k [_ Hk]]. exists k. intros s t.
    rewrite <- Hk. cbv beta. f_equal; ring. }
  destruct (P F HF) as [k Hk]. destruct (P G HG) as [l Hl].
  rewrite (simplex_int_ext F (P4c k)), (simplex_int_ext G (P4c l)) by assumption.
  rewrite (simplex_int_ext _ (P4c (fun i j => a * k i j + b * l i j))).
  - rewrite !simplex_int_P4c. unfold P4c_val, simplex_val. field.
  - intros s t. rewrite Hk, Hl. unfold P4c, P4. ring.
Qed.

Lemma loc_int_nonneg el F : 0 <= orient (corner_a el) (corner_b el) (corner_c el) -> poly_deg 4 F -> (forall s t, 0 <= F s t) -> 0 <= loc_int el F.
Proof.
  intros Ho HF Hp. unfold loc_int. apply Rmult_le_pos; [exact Ho|].
  destruct (poly_affine 4 F HF ltac:(lia) 0 1 0 0 0 1) as [k [_ Hk]].
  assert (E : forall s t, F s t = P4c k s t) by (intros s t; rewrite <- Hk; cbv beta; f_equal; ring).
  rewrite (simplex_int_ext F (P4c k) E). unfold P4c. apply simplex_int_P4_nonneg. intros s t _ _ _. 
  specialize (Hp s t). rewrite E in Hp. exact Hp.
Qed.

Lemma E_int_lin4 F G a b els : (forall el, In el els -> poly_deg 4 (F el) /\ poly_deg 4 (G el)) ->
  E_int (fun el s t => a * F el s t + b * G el s t) els = a * E_int F els + b * E_int G els.
Proof.
  intros H. unfold E_int, field_int. rewrite <- !sumf_scal, <- sumf_plus. apply sumf_ext. intros el Hel. destruct (H el Hel).
  transitivity (loc_int el (fun s t => (a * m_E (el_mat el)) * F el s t + (b * m_E (el_mat el)) * G el s t)).
  - unfold loc_int. f_equal. apply simplex_int_ext. intros. ring.
  - rewrite loc_int_lin4 by assumption.
    assert (S : forall K, poly_deg 4 K -> loc_int el (fun s t => m_E (el_mat el) * K s t) = m_E (el_mat el) * loc_int el K).
    { intros K HK. transitivity (loc_int el (fun s t => m_E (el_mat el) * K s t + 0 * K s t)).
      - unfold loc_int. f_equal. apply simplex_int_ext. intros. ring.
      - rewrite loc_int_lin4 by assumption. ring. }
    rewrite !S by assumption. ring.
Qed.
Lemma E_int_nonneg F els : valid_mesh els -> pos_moduli els -> (forall el, In el els -> poly_deg 4 (F el)) ->
  (forall el s t, 0 <= F el s t) -> 0 <= E_int F els.
Proof.
  intros Hv Hp H Hn. unfold E_int, field_int. apply sumf_nonneg. intros el Hel. apply loc_int_nonneg.
  - apply Rlt_le, Hv, Hel.
  - apply poly_cmul, H, Hel.
  - intros s t. apply Rmult_le_pos; [apply Rlt_le, Hp, Hel|apply Hn].
Qed.
