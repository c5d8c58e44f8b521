(** The plastic analysis: existence of the neutral axis, the values stored for the four axes. *)
From Coquelicot Require Import Coquelicot.
From Coq Require Import Reals List Lra Lia Permutation Bool.
From Verif Require Import Base S_Integral P_Integral M_Fea S_Fem P_Fea P_Geom S_Section P_Section P_Totals M_Bisect M_Props M_Plastic S_Plastic P_Ridge P_Plastic P_Plastic2.
Import ListNotations.
Local Open Scope R_scope.

Definition psi (z : R) : R := z * Rabs z / 2.

Lemma psi_quad z e : Rabs (psi (z - e) - psi z + e * Rabs z) <= e * e / 2.
Proof.
  unfold psi. apply Rabs_le.
  destruct (Rle_dec 0 z) as [Hz|Hz]; [rewrite (Rabs_pos_eq z) by lra|rewrite (Rabs_left z) by lra];
  (destruct (Rle_dec 0 (z - e)) as [Hd|Hd]; [rewrite (Rabs_pos_eq (z - e)) by lra|rewrite (Rabs_left (z - e)) by lra]); split; nra.
Qed.

Lemma psi_cont h : continuous psi h.
Proof. apply (ex_derive_continuous psi). eexists. apply abs_d1. Qed.

Lemma mean_quad p q d : exists m, forall e,
  Rabs (mean1 (fun h => psi (h - (d + e))) p q - mean1 (fun h => psi (h - d)) p q + e * m) <= e * e / 2.
Proof.
  exists (RInt (fun s => Rabs (p + (q - p) * s - d)) 0 1). intros e. unfold mean1.
  assert (C : forall k u v, ex_RInt (fun s => psi (p + (q - p) * s - k)) u v).
  { intros k u v. apply (ex_RInt_continuous (V := R_CompleteNormedModule)). intros z _.
    apply (continuous_comp (fun s => p + (q - p) * s - k) psi); [|apply psi_cont].
    apply (ex_derive_continuous (fun s => p + (q - p) * s - k)). auto_derive; trivial. }
  assert (A : ex_RInt (fun s => Rabs (p + (q - p) * s - d)) 0 1).
  { apply (ex_RInt_continuous (V := R_CompleteNormedModule)). intros z _.
    apply (continuous_comp (fun s => p + (q - p) * s - d) Rabs); [|apply continuous_Rabs].
    apply (ex_derive_continuous (fun s => p + (q - p) * s - d)). auto_derive; trivial. }
  rewrite <- RInt_minusR by apply C.
  rewrite <- RInt_scalR by exact A.
  rewrite <- (RInt_plus (V := R_CompleteNormedModule)).
  2:{ apply ex_RInt_minusR; apply C. }
  2:{ apply ex_RInt_scalR, A. }
  replace (e * e / 2) with ((1 - 0) * (e * e / 2)) by field.
  apply abs_RInt_le_const; [lra| |].
  - apply (ex_RInt_plus (V := R_CompleteNormedModule)); [apply ex_RInt_minusR; apply C|apply ex_RInt_scalR, A].
  - intros t _. unfold plus; cbn.
    replace (p + (q - p) * t - (d + e)) with (p + (q - p) * t - d - e) by ring. apply psi_quad.
Qed.

Lemma edges_quad n d (l : list edge) : exists D K, 0 <= K /\ forall e,
  boundary_sum m_fy (b_ridge (fun h => psi (h - (d + e))) n) l <=
  boundary_sum m_fy (b_ridge (fun h => psi (h - d)) n) l - D * e + K * (e * e).
Proof.
  induction l as [|[[m p] q] l (D & K & HK & IH)].
  - exists 0, 0. split; [lra|]. intros e. unfold boundary_sum. rewrite !sumf_nil. lra.
  - destruct (mean_quad (height n (fst p) (snd p)) (height n (fst q) (snd q)) d) as [mm Hm].
    set (w := m_fy m * - ((snd n * fst q - fst n * snd q) - (snd n * fst p - fst n * snd p))).
    exists (D + w * mm), (K + Rabs w / 2). pose proof (Rabs_pos w) as Pw. split; [lra|]. intros e.
    specialize (IH e). specialize (Hm e). unfold boundary_sum in *. rewrite !sumf_cons.
    change (m_fy m * b_ridge (fun h => psi (h - (d + e))) n p q) with
      (m_fy m * (- ((snd n * fst q - fst n * snd q) - (snd n * fst p - fst n * snd p)) *
        mean1 (fun h => psi (h - (d + e))) (height n (fst p) (snd p)) (height n (fst q) (snd q)))).
    change (m_fy m * b_ridge (fun h => psi (h - d)) n p q) with
      (m_fy m * (- ((snd n * fst q - fst n * snd q) - (snd n * fst p - fst n * snd p)) *
        mean1 (fun h => psi (h - d)) (height n (fst p) (snd p)) (height n (fst q) (snd q)))).
    rewrite <- !Rmult_assoc. fold w.
    set (X := mean1 (fun h => psi (h - (d + e))) _ _) in *. set (Y := mean1 (fun h => psi (h - d)) _ _) in *.
    assert (Z : w * X <= w * Y - w * mm * e + Rabs w / 2 * (e * e)).
    { assert (w * (X - Y + e * mm) <= Rabs w * (e * e / 2)).
      { eapply Rle_trans; [apply Rle_abs|]. rewrite Rabs_mult. apply Rmult_le_compat_l; [exact Pw|exact Hm]. }
      lra. }
    lra.
Qed.

Lemma lin_le_quad a K : 0 <= K -> (forall e, a * e <= K * (e * e)) -> a = 0.
Proof.
  intros HK H. destruct (Req_dec a 0) as [|Ha]; [assumption|]. exfalso.
  specialize (H (a / (2 * (K + 1)))).
  assert (0 < a * a) by nra.
  assert (E : a * (a / (2 * (K + 1))) = (a * a) * / (2 * (K + 1))) by (field; lra).
  assert (E2 : K * (a / (2 * (K + 1)) * (a / (2 * (K + 1)))) = (K / (2 * (K + 1))) * ((a * a) * / (2 * (K + 1)))) by (field; lra).
  rewrite E, E2 in H.
  assert (0 < a * a * / (2 * (K + 1))). { apply Rmult_lt_0_compat; [assumption|]. apply Rinv_0_lt_compat. lra. }
  assert (K / (2 * (K + 1)) < 1). { apply Rmult_lt_reg_r with (2 * (K + 1)); [lra|]. unfold Rdiv. rewrite Rmult_assoc, Rinv_l by lra. lra. }
  nra.
Qed.

Section Axis.
Context (gs : list plane_geom) (shapes : list (list mtri)) (u : R * R) (axis1 : bool).
Hypothesis Hu : unit_vec u.
Hypothesis Hcov : section_covers gs shapes.
Let n := perpendicular u axis1.
Let sg := axis_sign u axis1.
Let sec := concat shapes.
Let force d := calculate_plastic_force gs u (line_point d n).
Let Hn : unit_vec n := perp_unit u axis1 Hu.
Let GG := yield_moment_about sec n.
Let F := total_yield_force sec.

Lemma GG_quad d : exists D K, 0 <= K /\ forall e, GG (d + e) <= GG d - D * e + K * (e * e).
Proof.
  assert (E : forall k, GG k = boundary_sum m_fy (b_ridge (fun h => psi (h - k)) n) (region_edges sec)).
  { intros k. unfold GG, yield_moment_about.
    apply (ridge_region (fun h => Rabs (h - k)) (fun h => psi (h - k)) (fun h => (h - k) * (h - k) * Rabs (h - k) / 6)).
    - apply abs_cont.
    - intros h. apply (derive_shift (fun h => h * Rabs h / 2)), abs_d1.
    - intros h. apply (derive_shift (fun h => h * h * Rabs h / 6)), abs_d2.
    - exact Hn.
    - exact (sec_ccw gs shapes Hcov). }
  destruct (edges_quad n d (region_edges sec)) as (D & K & HK & H). exists D, K. split; [exact HK|].
  intros e. rewrite !E. apply H.
Qed.

Lemma F_pos : 0 < F. Proof. exact (yield_force_pos gs shapes u axis1 Hcov). Qed.
Lemma tot d : fo_top (force d) + fo_bot (force d) = F. Proof. exact (force_total gs shapes u axis1 Hu Hcov d). Qed.
Lemma slope d d' : GG d - sg * (fo_top (force d) - fo_bot (force d)) * (d' - d) <= GG d'.
Proof. exact (G_slope gs shapes u axis1 Hu Hcov d d'). Qed.
Lemma lip d d' : GG d - F * Rabs (d' - d) <= GG d'.
Proof. exact (G_lip gs shapes u axis1 Hu Hcov d d'). Qed.
Lemma sg_cases : sg = 1 \/ sg = -1. Proof. exact (axis_sign_cases u axis1). Qed.

Lemma GG_cont d : continuity_pt GG d.
Proof.
  intros eps He. pose proof F_pos as HF. exists (eps / F).
  split; [apply Rdiv_lt_0_compat; assumption|]. intros x [_ Hx].
  unfold dist in *; cbn in *. unfold R_dist in *.
  pose proof (lip d x) as A. pose proof (lip x d) as B. rewrite (Rabs_minus_sym d x) in B.
  assert (F * Rabs (x - d) < eps).
  { replace eps with (F * (eps / F)) by (field; lra). apply Rmult_lt_compat_l; assumption. }
  apply Rabs_def1; lra.
Qed.

Definition imbalance (d : R) : R := evaluate_force_eq gs d u n.

Lemma imb_force d : imbalance d * F = fo_top (force d) - fo_bot (force d).
Proof.
  unfold imbalance, evaluate_force_eq. fold (force d). rewrite (tot d). field. pose proof F_pos; lra.
Qed.

Lemma imb_range d : -1 <= imbalance d <= 1.
Proof.
  pose proof (imb_force d) as E. pose proof (force_nonneg gs shapes u axis1 Hu Hcov d) as [A B].
  change (0 <= fo_top (force d)) in A. change (0 <= fo_bot (force d)) in B. pose proof (tot d) as T. pose proof F_pos as HF.
  split; apply Rmult_le_reg_r with F; lra.
Qed.

Lemma imb_monotone d d' : d <= d' -> sg * imbalance d' <= sg * imbalance d.
Proof.
  intros H. pose proof (force_monotone gs shapes u axis1 Hu Hcov d d' H) as M.
  change (sg * (fo_top (force d') - fo_bot (force d')) <= sg * (fo_top (force d) - fo_bot (force d))) in M. rewrite <- !imb_force in M. pose proof F_pos as HF.
  apply Rmult_le_reg_r with F; lra.
Qed.

Lemma imb_low d : (forall t p, In t sec -> In p (corners t) -> d <= height n (fst p) (snd p)) -> imbalance d = sg.
Proof.
  intros H. pose proof (force_end_low gs shapes u axis1 Hu Hcov d H) as E.
  change (sg * (fo_top (force d) - fo_bot (force d)) = F) in E. rewrite <- imb_force in E. pose proof F_pos as HF.
  assert (S2 : sg * sg = 1) by (destruct sg_cases as [->| ->]; ring).
  apply Rmult_eq_reg_r with F; [|lra]. rewrite <- E at 2. rewrite <- !Rmult_assoc, S2. ring.
Qed.
Lemma imb_high d : (forall t p, In t sec -> In p (corners t) -> height n (fst p) (snd p) <= d) -> imbalance d = - sg.
Proof.
  intros H. pose proof (force_end_high gs shapes u axis1 Hu Hcov d H) as E.
  change (sg * (fo_top (force d) - fo_bot (force d)) = - F) in E. rewrite <- imb_force in E. pose proof F_pos as HF.
  assert (S2 : sg * sg = 1) by (destruct sg_cases as [->| ->]; ring).
  apply Rmult_eq_reg_r with F; [|lra]. replace (- sg * F) with (sg * - F) by ring. rewrite <- E. rewrite <- !Rmult_assoc, S2. ring.
Qed.

(** A balanced line exists. *)
Lemma balanced_exists lo hi : lo <= hi -> 
  (forall t p, In t sec -> In p (corners t) -> lo <= height n (fst p) (snd p) <= hi) ->
  exists d, lo <= d <= hi /\ fo_top (force d) = fo_bot (force d).
Proof.
  intros Hlh Hb. destruct (continuity_ab_min GG lo hi Hlh) as (d & Hmin & Hd).
  { intros c _. apply GG_cont. }
  assert (Hall : forall x, GG d <= GG x).
  { intros x. destruct (Rlt_le_dec x lo) as [Hx|Hx].
    - eapply Rle_trans; [apply (Hmin lo); lra|]. pose proof (slope lo x) as S.
      rewrite <- imb_force, imb_low in S by (intros t p Ht Hp; apply (Hb t p Ht Hp)).
      assert (S2 : sg * sg = 1) by (destruct sg_cases as [->| ->]; ring).
      replace (sg * (sg * F) * (x - lo)) with (F * (x - lo)) in S by (rewrite <- Rmult_assoc, S2; ring). pose proof F_pos. nra.
    - destruct (Rlt_le_dec hi x) as [Hx2|Hx2].
      + eapply Rle_trans; [apply (Hmin hi); lra|]. pose proof (slope hi x) as S.
        rewrite <- imb_force, imb_high in S by (intros t p Ht Hp; apply (Hb t p Ht Hp)).
        assert (S2 : sg * sg = 1) by (destruct sg_cases as [->| ->]; ring).
        replace (sg * (- sg * F) * (x - hi)) with (- F * (x - hi)) in S by (replace (sg * (- sg * F)) with (- (sg * sg * F)) by ring; rewrite S2; ring). pose proof F_pos. nra.
      + apply Hmin. lra. }
  exists d. split; [exact Hd|].
  destruct (GG_quad d) as (D & K & HK & HQ).
  assert (D0 : D = 0).
  { apply (lin_le_quad D K HK). intros e. specialize (HQ e). specialize (Hall (d + e)). lra. }
  assert (S0 : - (sg * (fo_top (force d) - fo_bot (force d))) = 0).
  { apply (lin_le_quad _ K HK). intros e. specialize (HQ e). pose proof (slope d (d + e)) as S.
    replace (d + e - d) with e in S by ring. rewrite D0 in HQ. lra. }
  destruct sg_cases as [E|E]; rewrite E in S0; lra.
Qed.

(** What a root finder with a tolerance delivers. *)
Lemma near_root lo hi tol (brentq : root_finder) : lo <= hi ->
  (forall t p, In t sec -> In p (corners t) -> lo <= height n (fst p) (snd p) <= hi) ->
  root_within tol brentq ->
  let r := brentq imbalance lo hi in rr_converged r = true ->
  let s := plastic_modulus (height n) (rr_root r) (fo_list (force (rr_last r))) in
  (GG (rr_root r) - 2 * F * tol <= s <= GG (rr_root r)) /\
  (forall d, GG (rr_root r) - F * tol <= GG d).
Proof.
  intros Hlh Hb Hr r Hc s. pose proof F_pos as HF.
  assert (S2 : sg * sg = 1) by (destruct sg_cases as [->| ->]; ring).
  assert (Hsgn : imbalance lo * imbalance hi < 0).
  { rewrite imb_low, imb_high by (intros t p Ht Hp; apply (Hb t p Ht Hp)). nra. }
  destruct (Hr imbalance lo hi Hlh Hsgn Hc) as (Hlast & x & y & Hxy & Hx & Hy & Hprod). fold r in Hlast, Hx, Hy.
  split.
  - pose proof (modulus_near gs shapes u axis1 Hu Hcov (rr_last r) (rr_root r)) as [A B].
    change (GG (rr_root r) - 2 * F * Rabs (rr_root r - rr_last r) <= s) in A. change (s <= GG (rr_root r)) in B.
    split; [|exact B]. eapply Rle_trans; [|exact A].
    apply Rplus_le_compat_l, Ropp_le_contravar, Rmult_le_compat_l; [lra|exact Hlast].
  - pose proof (imb_monotone x y Hxy) as M.
    assert (Sx : 0 <= sg * imbalance x).
    { destruct (Rle_dec 0 (sg * imbalance x)) as [|N]; [assumption|exfalso].
      assert (0 < (sg * imbalance x) * (sg * imbalance y)) by nra.
      replace (sg * imbalance x * (sg * imbalance y)) with (sg * sg * (imbalance x * imbalance y)) in H by ring.
      rewrite S2 in H. lra. }
    assert (Sy : sg * imbalance y <= 0).
    { destruct (Rle_dec (sg * imbalance y) 0) as [|N]; [assumption|exfalso].
      assert (0 < (sg * imbalance x) * (sg * imbalance y)) by nra.
      replace (sg * imbalance x * (sg * imbalance y)) with (sg * sg * (imbalance x * imbalance y)) in H by ring.
      rewrite S2 in H. lra. }
    set (pc := rr_root r) in *. intros d.
    assert (NL : forall z, Rabs (z - pc) <= tol -> GG pc - F * tol <= GG z).
    { intros z Hz. pose proof (lip pc z) as L. eapply Rle_trans; [|exact L].
      apply Rplus_le_compat_l, Ropp_le_contravar, Rmult_le_compat_l; [lra|exact Hz]. }
    destruct (Rle_dec d x) as [Dx|Dx].
    + eapply Rle_trans; [apply (NL x Hx)|]. pose proof (slope x d) as S. rewrite <- imb_force in S.
      assert (0 <= (sg * imbalance x) * (x - d)) by (apply Rmult_le_pos; lra).
      replace (sg * (imbalance x * F) * (d - x)) with (- (F * (sg * imbalance x * (x - d)))) in S by ring.
      assert (0 <= F * (sg * imbalance x * (x - d))) by (apply Rmult_le_pos; lra). lra.
    + destruct (Rle_dec y d) as [Dy|Dy].
      * eapply Rle_trans; [apply (NL y Hy)|]. pose proof (slope y d) as S. rewrite <- imb_force in S.
        assert (0 <= - (sg * imbalance y) * (d - y)) by (apply Rmult_le_pos; lra).
        replace (sg * (imbalance y * F) * (d - y)) with (- (F * (- (sg * imbalance y) * (d - y)))) in S by ring.
        assert (0 <= F * (- (sg * imbalance y) * (d - y))) by (apply Rmult_le_pos; lra). lra.
      * apply NL. apply Rabs_le_between in Hx. apply Rabs_le_between in Hy. apply Rabs_le. lra.
Qed.

Lemma field_max fld d : admissible sec n fld -> field_moment n fld <= GG d.
Proof. exact (field_bound gs shapes u axis1 Hu Hcov fld d). Qed.
Lemma field_att d : fo_top (force d) = fo_bot (force d) -> exists fld, admissible sec n fld /\ field_moment n fld = GG d.
Proof. exact (field_attains gs shapes u axis1 Hu Hcov d). Qed.
End Axis.
