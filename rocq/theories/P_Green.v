(** Green's formula on triangles for functions with continuous partial derivatives. *)
From Coquelicot Require Import Coquelicot.
From Coq Require Import Reals Lra Lia List.
From Verif Require Import Base S_Integral P_Integral M_Fea S_Fem S_Section S_Plastic P_Plastic S_Prandtl.
Import ListNotations.
Local Open Scope R_scope.

Definition cont2 (f : R -> R -> R) : Prop := forall x y, continuity_2d_pt f x y.

Lemma cont2_row f s : cont2 f -> forall t, continuous (fun t => f s t) t.
Proof.
  intros C t. apply continuity_pt_filterlim. intros eps He. destruct (C s t (mkposreal eps He)) as [d Hd].
  exists d. split; [apply cond_pos|]. intros x [_ Hx]. unfold R_dist, dist in *. cbn in *. unfold R_dist in *. apply Hd; [rewrite Rminus_eq_0, Rabs_R0; apply cond_pos|exact Hx].
Qed.
Lemma cont2_comp f u v : cont2 f -> (forall x y, continuity_2d_pt u x y) -> (forall x y, continuity_2d_pt v x y) -> cont2 (fun x y => f (u x y) (v x y)).
Proof.
  intros C U V x y eps. destruct (C (u x y) (v x y) eps) as [d Hd]. destruct (U x y d) as [d1 H1]. destruct (V x y d) as [d2 H2].
  assert (P : 0 < Rmin d1 d2) by (apply Rmin_glb_lt; apply cond_pos). exists (mkposreal _ P). cbn. intros a b Ha Hb. apply Hd; [apply H1|apply H2]; eapply Rlt_le_trans; try eassumption; try apply Rmin_l; apply Rmin_r.
Qed.
Lemma cont2_affine a b c : cont2 (fun x y => a + b * x + c * y).
Proof. intros x y. repeat (apply continuity_2d_pt_plus || apply continuity_2d_pt_mult || apply continuity_2d_pt_const || apply continuity_2d_pt_id1 || apply continuity_2d_pt_id2). Qed.
Lemma cont2_int f a b : cont2 f -> forall s, ex_RInt (f s) a b.
Proof. intros C s. apply (ex_RInt_continuous (V := R_CompleteNormedModule)). intros t _. apply (cont2_row f s C). Qed.

(** Integrals depend continuously on the parameter. *)
Lemma cont_unit h s : cont2 h -> continuous (fun s => RInt (h s) 0 1) s.
Proof.
  intros C. apply continuity_pt_filterlim. intros eps He. set (e2 := mkposreal (eps / 2) ltac:(lra)).
  destruct (uniform_continuity_2d_1d' h 0 1 s (fun x _ => C s x) e2) as [d Hd].
  exists d. split; [apply cond_pos|]. intros v [_ Hv]. change (Rabs (v - s) < d) in Hv. change (Rabs (RInt (h v) 0 1 - RInt (h s) 0 1) < eps).
  assert (E : RInt (fun t => minus (h v t) (h s t)) 0 1 = RInt (h v) 0 1 - RInt (h s) 0 1) by (apply (RInt_minus (V := R_CompleteNormedModule) (h v) (h s)); apply cont2_int, C). rewrite <- E.
  apply (Rle_lt_trans _ ((1 - 0) * (eps / 2))); [|lra]. apply abs_RInt_le_const; [lra| |].
  - apply (ex_RInt_minus (V := R_CompleteNormedModule)); apply cont2_int, C.
  - intros t Ht. change (Rabs (h v t - h s t) <= eps / 2). apply Rlt_le. pose proof (cond_pos d). apply Rabs_def2 in Hv. apply (Hd t s t v); try lra. rewrite Rminus_eq_0, Rabs_R0. apply cond_pos.
Qed.
Lemma inner_scaled g s : cont2 g -> RInt (g s) 0 (1 - s) = (1 - s) * RInt (fun t => g s ((1 - s) * t)) 0 1.
Proof.
  intros C. pose proof (RInt_comp_lin (V := R_CompleteNormedModule) (g s) (1 - s) 0 0 1) as E.
  replace ((1 - s) * 0 + 0) with 0 in E by ring. replace ((1 - s) * 1 + 0) with (1 - s) in E by ring. rewrite <- E by (apply cont2_int, C).
  rewrite <- (RInt_scal (V := R_CompleteNormedModule)).
  - apply RInt_ext. intros t _. change ((1 - s) * g s ((1 - s) * t + 0) = (1 - s) * g s ((1 - s) * t)). do 2 f_equal. ring.
  - apply (cont2_int (fun s t => g s ((1 - s) * t))). apply (cont2_comp g (fun s _ => s) (fun s t => (1 - s) * t) C); intros; repeat (apply continuity_2d_pt_mult || apply continuity_2d_pt_minus || apply continuity_2d_pt_const || apply continuity_2d_pt_id1 || apply continuity_2d_pt_id2).
Qed.
Lemma inner_cont g s : cont2 g -> continuous (fun s => RInt (g s) 0 (1 - s)) s.
Proof.
  intros C. apply (continuous_ext (fun s => (1 - s) * RInt (fun t => g s ((1 - s) * t)) 0 1)). { intros x. symmetry. apply inner_scaled, C. }
  apply (continuous_mult (K := R_AbsRing) (fun s => 1 - s) (fun s => RInt (fun t => g s ((1 - s) * t)) 0 1)).
  - apply (continuous_minus (V := R_NormedModule) (fun _ => 1) (fun s => s)); [apply continuous_const|apply continuous_id].
  - apply (cont_unit (fun s t => g s ((1 - s) * t))). apply (cont2_comp g (fun s _ => s) (fun s t => (1 - s) * t) C); intros; repeat (apply continuity_2d_pt_mult || apply continuity_2d_pt_minus || apply continuity_2d_pt_const || apply continuity_2d_pt_id1 || apply continuity_2d_pt_id2).
Qed.
Lemma cont2_ok g : cont2 g -> simplex_ok g.
Proof.
  intros C. split; [intros s _; apply cont2_int, C|]. apply (ex_RInt_continuous (V := R_CompleteNormedModule)). intros s _. apply inner_cont, C.
Qed.

(** ** Integrals of derivatives over the simplex *)
Lemma int_dt F Ft : (forall s t, is_derive (fun t => F s t) t (Ft s t)) -> cont2 F -> cont2 Ft ->
  simplex_int Ft = RInt (fun s => F s (1 - s)) 0 1 - RInt (fun s => F s 0) 0 1.
Proof.
  intros D C Ct. unfold simplex_int. transitivity (RInt (fun s => minus (F s (1 - s)) (F s 0)) 0 1); [|apply (RInt_minus (V := R_CompleteNormedModule) (fun s => F s (1 - s)) (fun s => F s 0))].
  - apply RInt_ext. intros s _. change (RInt (Ft s) 0 (1 - s) = F s (1 - s) - F s 0). apply is_RInt_unique. apply (is_RInt_derive (V := R_CompleteNormedModule)); [intros; apply D|intros; apply cont2_row, Ct].
  - apply (fun H => cont2_int (fun _ s => F s (1 - s)) 0 1 H 0). apply (cont2_comp F (fun _ s => s) (fun _ s => 1 - s) C); intros; repeat (apply continuity_2d_pt_minus || apply continuity_2d_pt_const || apply continuity_2d_pt_id2).
  - apply (fun H => cont2_int (fun _ s => F s 0) 0 1 H 0). apply (cont2_comp F (fun _ s => s) (fun _ s => 0) C); intros; apply continuity_2d_pt_id2 || apply continuity_2d_pt_const.
Qed.
Lemma int_ds F Fs : (forall s t, is_derive (fun s => F s t) s (Fs s t)) -> cont2 F -> cont2 Fs ->
  simplex_int Fs = RInt (fun s => F s (1 - s)) 0 1 - RInt (fun t => F 0 t) 0 1.
Proof.
  intros D C Cs.
  assert (L : forall s, is_derive (fun s => RInt (fun t => F s t) 0 (1 - s)) s (RInt (Fs s) 0 (1 - s) - F s (1 - s))).
  { intros s. assert (E : forall u v, Derive (fun z => F z v) u = Fs u v) by (intros; apply is_derive_unique, D).
    assert (Cd : cont2 (fun u v => Derive (fun z => F z v) u)) by (intros x y; apply (continuity_2d_pt_ext Fs); [intros; symmetry; apply E|apply Cs]).
    replace (RInt (Fs s) 0 (1 - s) - F s (1 - s)) with (RInt (fun t => Derive (fun u => F u t) s) 0 (1 - s) + F s (1 - s) * -1) by (rewrite (RInt_ext _ (Fs s)); [ring|intros; apply E]).
    apply (is_derive_RInt_param_bound_comp_aux3 F 0 (fun s => 1 - s) s (-1)).
    - exists (mkposreal 1 Rlt_0_1). intros y _. apply cont2_int, C.
    - exists (mkposreal 1 Rlt_0_1). exists (mkposreal 1 Rlt_0_1). intros y _. apply cont2_int, C.
    - auto_derive; [exact I|ring].
    - exists (mkposreal 1 Rlt_0_1). exists (mkposreal 1 Rlt_0_1). intros y _ t _. eexists. apply D.
    - intros t _. apply Cd.
    - exists (mkposreal 1 Rlt_0_1). intros. apply Cd.
    - apply continuity_pt_filterlim. apply (cont2_row F s C). }
  assert (Ch : cont2 (fun _ s => F s (1 - s))) by (apply (cont2_comp F (fun _ s => s) (fun _ s => 1 - s) C); intros; repeat (apply continuity_2d_pt_minus || apply continuity_2d_pt_const || apply continuity_2d_pt_id2)).
  assert (I1 : is_RInt (fun s => RInt (Fs s) 0 (1 - s) - F s (1 - s)) 0 1 (RInt (fun t => F 1 t) 0 (1 - 1) - RInt (fun t => F 0 t) 0 (1 - 0))).
  { apply (is_RInt_derive (V := R_CompleteNormedModule) (fun s => RInt (fun t => F s t) 0 (1 - s))); [intros x _; apply L|]. intros x _.
    apply (continuous_minus (V := R_NormedModule) (fun s => RInt (Fs s) 0 (1 - s)) (fun s => F s (1 - s))); [apply inner_cont, Cs|apply (cont2_row (fun _ s => F s (1 - s)) 0 Ch)]. }
  pose proof (is_RInt_unique (V := R_CompleteNormedModule) _ _ _ _ I1) as I2.
  assert (I3 : RInt (fun s => minus (RInt (Fs s) 0 (1 - s)) (F s (1 - s))) 0 1 = RInt (fun s => RInt (Fs s) 0 (1 - s)) 0 1 - RInt (fun s => F s (1 - s)) 0 1).
  { apply (RInt_minus (V := R_CompleteNormedModule) (fun s => RInt (Fs s) 0 (1 - s)) (fun s => F s (1 - s))); [apply cont2_ok, Cs|apply (cont2_int _ 0 1 Ch 0)]. }
  assert (P0 : RInt (fun t => F 1 t) 0 (1 - 1) = 0). { replace (1 - 1) with 0 by ring. apply (RInt_point (V := R_CompleteNormedModule)). }
  replace (1 - 0) with 1 in I2 by ring. rewrite P0 in I2. unfold simplex_int.
  change (RInt (fun s => minus (RInt (Fs s) 0 (1 - s)) (F s (1 - s))) 0 1 = 0 - RInt (fun t => F 0 t) 0 1) in I2. rewrite I3 in I2.
  change (RInt (fun s => RInt (fun t => Fs s t) 0 (1 - s)) 0 1) with (RInt (fun s => RInt (Fs s) 0 (1 - s)) 0 1). lra.
Qed.

(** ** Smooth functions *)
Lemma smooth_diff f fx fy x y : smooth f fx fy -> differentiable_pt_lim f x y (fx x y) (fy x y).
Proof.
  intros S. apply filterdiff_differentiable_pt_lim. apply (is_derive_filterdiff f x y fx (fy x y)).
  - exists (mkposreal 1 Rlt_0_1). intros u _. apply S.
  - apply S.
  - apply continuity_2d_pt_filterlim. apply S.
Qed.
Lemma smooth_cont f fx fy : smooth f fx fy -> cont2 f /\ cont2 fx /\ cont2 fy.
Proof. intros S. split; [intros x y; apply differentiable_continuity_pt; exists (fx x y), (fy x y); apply smooth_diff, S|]. split; intros x y; apply S. Qed.
Lemma line_derive f fx fy p d q e t : smooth f fx fy -> is_derive (fun t => f (p + t * d) (q + t * e)) t (fx (p + t * d) (q + t * e) * d + fy (p + t * d) (q + t * e) * e).
Proof.
  intros S. apply is_derive_Reals. apply (derivable_pt_lim_comp_2d f (fun t => p + t * d) (fun t => q + t * e)); [apply smooth_diff, S| |]; apply is_derive_Reals; auto_derive; try exact I; ring.
Qed.
Lemma smooth_lin f fx fy g gx gy k1 k2 : smooth f fx fy -> smooth g gx gy ->
  smooth (fun x y => k1 * f x y + k2 * g x y) (fun x y => k1 * fx x y + k2 * gx x y) (fun x y => k1 * fy x y + k2 * gy x y).
Proof.
  intros S T x y. destruct (S x y) as (A & B & C & D). destruct (T x y) as (A' & B' & C' & D').
  split; [|split; [|split]].
  - apply (is_derive_plus (V := R_NormedModule) (fun x => k1 * f x y) (fun x => k2 * g x y)); [apply (is_derive_scal (fun x => f x y)), A|apply (is_derive_scal (fun x => g x y)), A'].
  - apply (is_derive_plus (V := R_NormedModule) (fun y => k1 * f x y) (fun y => k2 * g x y)); [apply (is_derive_scal (fun y => f x y)), B|apply (is_derive_scal (fun y => g x y)), B'].
  - apply continuity_2d_pt_plus; (apply continuity_2d_pt_mult; [apply continuity_2d_pt_const|assumption]).
  - apply continuity_2d_pt_plus; (apply continuity_2d_pt_mult; [apply continuity_2d_pt_const|assumption]).
Qed.
Lemma smooth_mult f fx fy g gx gy : smooth f fx fy -> smooth g gx gy ->
  smooth (fun x y => f x y * g x y) (fun x y => fx x y * g x y + f x y * gx x y) (fun x y => fy x y * g x y + f x y * gy x y).
Proof.
  intros S T x y. destruct (S x y) as (A & B & C & D). destruct (T x y) as (A' & B' & C' & D'). destruct (smooth_cont _ _ _ S) as (Cf & _). destruct (smooth_cont _ _ _ T) as (Cg & _).
  split; [|split; [|split]].
  - apply (is_derive_mult (fun x => f x y) (fun x => g x y)); [assumption|assumption|apply Rmult_comm].
  - apply (is_derive_mult (fun y => f x y) (fun y => g x y)); [assumption|assumption|apply Rmult_comm].
  - apply continuity_2d_pt_plus; apply continuity_2d_pt_mult; auto.
  - apply continuity_2d_pt_plus; apply continuity_2d_pt_mult; auto.
Qed.
Lemma smooth_ext f fx fy g gx gy : (forall x y, f x y = g x y) -> (forall x y, fx x y = gx x y) -> (forall x y, fy x y = gy x y) -> smooth f fx fy -> smooth g gx gy.
Proof.
  intros E Ex Ey S x y. destruct (S x y) as (A & B & C & D). rewrite <- Ex, <- Ey. split; [|split; [|split]].
  - apply (is_derive_ext (fun x => f x y)); [intros; apply E|exact A].
  - apply (is_derive_ext (fun y => f x y)); [intros; apply E|exact B].
  - apply (continuity_2d_pt_ext fx); assumption.
  - apply (continuity_2d_pt_ext fy); assumption.
Qed.
Lemma smooth_const k : smooth (fun _ _ => k) (fun _ _ => 0) (fun _ _ => 0).
Proof. intros x y. split; [apply (is_derive_const k)|split; [apply (is_derive_const k)|split; apply continuity_2d_pt_const]]. Qed.
Lemma smooth_x : smooth (fun x _ => x) (fun _ _ => 1) (fun _ _ => 0).
Proof. intros x y. split; [apply (is_derive_id x)|split; [apply (is_derive_const x)|split; apply continuity_2d_pt_const]]. Qed.
Lemma smooth_y : smooth (fun _ y => y) (fun _ _ => 0) (fun _ _ => 1).
Proof. intros x y. split; [apply (is_derive_const y)|split; [apply (is_derive_id y)|split; apply continuity_2d_pt_const]]. Qed.

Lemma int_rev (g : R -> R) : (forall x, continuous g x) -> RInt (fun l => g (1 - l)) 0 1 = RInt g 0 1.
Proof.
  intros C. assert (X : ex_RInt g 1 0) by (apply (ex_RInt_continuous (V := R_CompleteNormedModule)); intros; apply C).
  assert (Y : is_RInt g 1 0 (RInt g 1 0)) by exact (RInt_correct (V := R_CompleteNormedModule) g 1 0 X).
  assert (Z : is_RInt g (-1 * 0 + 1) (-1 * 1 + 1) (RInt g 1 0)) by (replace (-1 * 0 + 1) with 1 by ring; replace (-1 * 1 + 1) with 0 by ring; exact Y).
  apply (is_RInt_comp_lin (V := R_NormedModule) g (-1) 1 0 1) in Z.
  apply (is_RInt_opp (V := R_NormedModule)) in Z.
  assert (W : is_RInt (fun l => g (1 - l)) 0 1 (- RInt g 1 0)).
  { eapply is_RInt_ext; [|exact Z]. intros l _. change (- (-1 * g (-1 * l + 1)) = g (1 - l)). replace (-1 * l + 1) with (1 - l) by ring. ring. }
  rewrite (is_RInt_unique (V := R_CompleteNormedModule) _ _ _ _ W). exact (opp_RInt_swap (V := R_CompleteNormedModule) g 1 0 X).
Qed.

(** ** Green's formula *)
Definition edge_int (F G : R -> R -> R) (p q : point) : R :=
  RInt (fun l => F (fst p + l * (fst q - fst p)) (snd p + l * (snd q - snd p)) * (snd q - snd p)
               - G (fst p + l * (fst q - fst p)) (snd p + l * (snd q - snd p)) * (fst q - fst p)) 0 1.
Lemma green a b c F Fx Fy G Gx Gy : smooth F Fx Fy -> smooth G Gx Gy ->
  orient a b c * simplex_int (fun s t => Fx (fst a + s * (fst b - fst a) + t * (fst c - fst a)) (snd a + s * (snd b - snd a) + t * (snd c - snd a))
                                       + Gy (fst a + s * (fst b - fst a) + t * (fst c - fst a)) (snd a + s * (snd b - snd a) + t * (snd c - snd a)))
  = edge_int F G a b + edge_int F G b c + edge_int F G c a.
Proof.
  intros SF SG. destruct a as [xa ya], b as [xb yb], c as [xc yc]. unfold orient, edge_int. cbn [fst snd].
  set (px s t := xa + s * (xb - xa) + t * (xc - xa)). set (py s t := ya + s * (yb - ya) + t * (yc - ya)).
  assert (Cx : cont2 px) by (intros s t; unfold px; repeat (apply continuity_2d_pt_plus || apply continuity_2d_pt_mult || apply continuity_2d_pt_const || apply continuity_2d_pt_id1 || apply continuity_2d_pt_id2)).
  assert (Cy : cont2 py) by (intros s t; unfold py; repeat (apply continuity_2d_pt_plus || apply continuity_2d_pt_mult || apply continuity_2d_pt_const || apply continuity_2d_pt_id1 || apply continuity_2d_pt_id2)).
  destruct (smooth_cont _ _ _ SF) as (CF & CFx & CFy). destruct (smooth_cont _ _ _ SG) as (CG & CGx & CGy).
  set (al s t := F (px s t) (py s t) * (yc - ya) + G (px s t) (py s t) * - (xc - xa)).
  set (als s t := (Fx (px s t) (py s t) * (xb - xa) + Fy (px s t) (py s t) * (yb - ya)) * (yc - ya) + (Gx (px s t) (py s t) * (xb - xa) + Gy (px s t) (py s t) * (yb - ya)) * - (xc - xa)).
  set (be s t := F (px s t) (py s t) * - (yb - ya) + G (px s t) (py s t) * (xb - xa)).
  set (bet s t := (Fx (px s t) (py s t) * (xc - xa) + Fy (px s t) (py s t) * (yc - ya)) * - (yb - ya) + (Gx (px s t) (py s t) * (xc - xa) + Gy (px s t) (py s t) * (yc - ya)) * (xb - xa)).
  assert (LS : forall f fx fy, smooth f fx fy -> forall s t, is_derive (fun s => f (px s t) (py s t)) s (fx (px s t) (py s t) * (xb - xa) + fy (px s t) (py s t) * (yb - ya))).
  { intros f fx fy S s t. pose proof (line_derive f fx fy (xa + t * (xc - xa)) (xb - xa) (ya + t * (yc - ya)) (yb - ya) s S) as L.
    replace (px s t) with (xa + t * (xc - xa) + s * (xb - xa)) by (unfold px; ring). replace (py s t) with (ya + t * (yc - ya) + s * (yb - ya)) by (unfold py; ring).
    eapply is_derive_ext; [|exact L]. intros u. cbn beta. f_equal; [unfold px|unfold py]; ring. }
  assert (LT : forall f fx fy, smooth f fx fy -> forall s t, is_derive (fun t => f (px s t) (py s t)) t (fx (px s t) (py s t) * (xc - xa) + fy (px s t) (py s t) * (yc - ya))).
  { intros f fx fy S s t. exact (line_derive f fx fy (xa + s * (xb - xa)) (xc - xa) (ya + s * (yb - ya)) (yc - ya) t S). }
  assert (CC : forall f, cont2 f -> cont2 (fun s t => f (px s t) (py s t))) by (intros f C; apply (cont2_comp f px py C Cx Cy)).
  assert (Cal : cont2 al /\ cont2 als /\ cont2 be /\ cont2 bet).
  { unfold al, als, be, bet. repeat split; intros s t; repeat (apply continuity_2d_pt_plus || apply continuity_2d_pt_mult || apply continuity_2d_pt_const); apply CC; assumption. }
  destruct Cal as (C1 & C2 & C3 & C4).
  assert (I1 : simplex_int als = RInt (fun s => al s (1 - s)) 0 1 - RInt (fun t => al 0 t) 0 1).
  { apply int_ds; [|assumption|assumption]. intros s t. unfold al, als.
    apply (is_derive_plus (V := R_NormedModule) (fun s => F (px s t) (py s t) * (yc - ya)) (fun s => G (px s t) (py s t) * - (xc - xa))); (eapply is_derive_ext; [intros; apply Rmult_comm|]); rewrite Rmult_comm; apply is_derive_scal; [apply (LS F Fx Fy SF)|apply (LS G Gx Gy SG)]. }
  assert (I2 : simplex_int bet = RInt (fun s => be s (1 - s)) 0 1 - RInt (fun s => be s 0) 0 1).
  { apply int_dt; [|assumption|assumption]. intros s t. unfold be, bet.
    apply (is_derive_plus (V := R_NormedModule) (fun t => F (px s t) (py s t) * - (yb - ya)) (fun t => G (px s t) (py s t) * (xb - xa))); (eapply is_derive_ext; [intros; apply Rmult_comm|]); rewrite Rmult_comm; apply is_derive_scal; [apply (LT F Fx Fy SF)|apply (LT G Gx Gy SG)]. }
  destruct (simplex_ok_lin als bet 1 1 (cont2_ok _ C2) (cont2_ok _ C4)) as [_ L].
  assert (D : ((xb - xa) * (yc - ya) - (xc - xa) * (yb - ya)) * simplex_int (fun s t => Fx (px s t) (py s t) + Gy (px s t) (py s t)) = simplex_int als + simplex_int bet).
  { transitivity (simplex_int (fun s t => 1 * als s t + 1 * bet s t)); [|rewrite L; ring].
    destruct (simplex_ok_lin (fun s t => Fx (px s t) (py s t) + Gy (px s t) (py s t)) (fun _ _ => 0) ((xb - xa) * (yc - ya) - (xc - xa) * (yb - ya)) 0) as [_ L'].
    - apply cont2_ok. intros s t. apply continuity_2d_pt_plus; apply CC; assumption.
    - apply cont2_ok. intros s t. apply continuity_2d_pt_const.
    - transitivity (((xb - xa) * (yc - ya) - (xc - xa) * (yb - ya)) * simplex_int (fun s t => Fx (px s t) (py s t) + Gy (px s t) (py s t)) + 0 * simplex_int (fun _ _ => 0)); [ring|]. rewrite <- L'. apply simplex_int_ext. intros s t. unfold als, bet. ring. }
  etransitivity; [exact D|]. rewrite I1, I2.
  assert (RV : forall f, cont2 f -> RInt (fun l => f 0 (1 - l)) 0 1 = RInt (fun l => f 0 l) 0 1).
  { intros f C. apply (int_rev (f 0)). intros x. apply (cont2_row f 0 C x). }
  assert (CH : forall f, cont2 f -> cont2 (fun _ s => f s (1 - s))) by (intros f C; apply (cont2_comp f (fun _ s => s) (fun _ s => 1 - s) C); intros; repeat (apply continuity_2d_pt_minus || apply continuity_2d_pt_const || apply continuity_2d_pt_id2)).
  assert (E1 : RInt (fun l => F (xa + l * (xb - xa)) (ya + l * (yb - ya)) * (yb - ya) - G (xa + l * (xb - xa)) (ya + l * (yb - ya)) * (xb - xa)) 0 1 = - RInt (fun s => be s 0) 0 1).
  { rewrite <- (RInt_opp (V := R_CompleteNormedModule)).
    - apply RInt_ext. intros l _. change (F (xa + l * (xb - xa)) (ya + l * (yb - ya)) * (yb - ya) - G (xa + l * (xb - xa)) (ya + l * (yb - ya)) * (xb - xa) = - be l 0). unfold be, px, py. replace (0 * (xc - xa)) with 0 by ring. replace (0 * (yc - ya)) with 0 by ring. rewrite !Rplus_0_r. ring.
    - apply (fun H => cont2_int (fun _ s => be s 0) 0 1 H 0). apply (cont2_comp be (fun _ s => s) (fun _ _ => 0) C3); intros; apply continuity_2d_pt_id2 || apply continuity_2d_pt_const. }
  assert (E3 : RInt (fun l => F (xc + l * (xa - xc)) (yc + l * (ya - yc)) * (ya - yc) - G (xc + l * (xa - xc)) (yc + l * (ya - yc)) * (xa - xc)) 0 1 = - RInt (fun t => al 0 t) 0 1).
  { rewrite <- (RV al C1). rewrite <- (RInt_opp (V := R_CompleteNormedModule)).
    - apply RInt_ext. intros l _. change (F (xc + l * (xa - xc)) (yc + l * (ya - yc)) * (ya - yc) - G (xc + l * (xa - xc)) (yc + l * (ya - yc)) * (xa - xc) = - al 0 (1 - l)). unfold al.
      replace (px 0 (1 - l)) with (xc + l * (xa - xc)) by (unfold px; ring). replace (py 0 (1 - l)) with (yc + l * (ya - yc)) by (unfold py; ring). ring.
    - apply (fun H => cont2_int (fun _ l => al 0 (1 - l)) 0 1 H 0). apply (cont2_comp al (fun _ _ => 0) (fun _ l => 1 - l) C1); intros; repeat (apply continuity_2d_pt_minus || apply continuity_2d_pt_const || apply continuity_2d_pt_id2). }
  assert (E2 : RInt (fun l => F (xb + l * (xc - xb)) (yb + l * (yc - yb)) * (yc - yb) - G (xb + l * (xc - xb)) (yb + l * (yc - yb)) * (xc - xb)) 0 1 = RInt (fun s => al s (1 - s)) 0 1 + RInt (fun s => be s (1 - s)) 0 1).
  { assert (Cs : cont2 (fun s t => al s t + be s t)) by (intros s t; apply continuity_2d_pt_plus; [apply C1|apply C3]).
    transitivity (RInt (fun s => al s (1 - s) + be s (1 - s)) 0 1); [|apply (RInt_plus (V := R_CompleteNormedModule) (fun s => al s (1 - s)) (fun s => be s (1 - s))); [apply (cont2_int _ 0 1 (CH al C1) 0)|apply (cont2_int _ 0 1 (CH be C3) 0)]].
    pose (g := fun _ s : R => al (1 - s) s + be (1 - s) s).
    assert (Cg : cont2 g). { intros u s. unfold g. apply (cont2_comp (fun s t => al s t + be s t) (fun _ s => 1 - s) (fun _ s => s) Cs); intros; repeat (apply continuity_2d_pt_minus || apply continuity_2d_pt_const || apply continuity_2d_pt_id2). }
    pose proof (RV g Cg) as Q. unfold g in Q. rewrite (RInt_ext _ (fun s => al s (1 - s) + be s (1 - s))) in Q by (intros l _; replace (1 - (1 - l)) with l by ring; reflexivity). rewrite Q.
    apply RInt_ext. intros l _. unfold al, be. replace (px (1 - l) l) with (xb + l * (xc - xb)) by (unfold px; ring). replace (py (1 - l) l) with (yb + l * (yc - yb)) by (unfold py; ring). match goal with |- ?u = ?v => change (@eq R u v) end. ring. }
  rewrite E1, E2, E3. ring.
Qed.
