(** Proofs about hollow rectangles: ramps, products of ramps, integrals over a hollow rectangle. *)
From Coquelicot Require Import Coquelicot.
From Coq Require Import Reals List Permutation Bool Arith Lra Lia.
From Verif Require Import Base S_Integral M_Fea S_Fem M_Post M_Section S_Section S_Post S_Warp M_Init S_Init P_Integral P_Fea P_Geom P_Elem P_Section P_Totals P_Post
  P_Warp P_Warp2 P_Warp3 P_Warp4 P_Warp5 S_Plastic P_Plastic P_Fibre S_Refine P_Refine S_Prandtl P_Green P_Prandtl P_Prandtl2 S_Hollow P_Hollow.
Import ListNotations.
Local Open Scope R_scope.

(** ** Integrals of functions of one variable *)
Lemma int_cont (f : R -> R) a b : (forall x, continuous f x) -> ex_RInt f a b.
Proof. intros C. apply (ex_RInt_continuous (V := R_CompleteNormedModule)). intros; apply C. Qed.
Lemma int_lin (f g : R -> R) k1 k2 a b : (forall x, continuous f x) -> (forall x, continuous g x) -> RInt (fun x => k1 * f x + k2 * g x) a b = k1 * RInt f a b + k2 * RInt g a b.
Proof.
  intros Cf Cg. apply (is_RInt_unique (V := R_CompleteNormedModule)).
  apply (is_RInt_plus (V := R_NormedModule) (fun x => k1 * f x) (fun x => k2 * g x)); apply (is_RInt_scal (V := R_NormedModule)); apply (RInt_correct (V := R_CompleteNormedModule)), int_cont; assumption.
Qed.
Lemma int_const (c a b : R) : RInt (fun _ => c) a b = c * (b - a).
Proof. rewrite RInt_const. cbn. unfold mult; cbn. ring. Qed.
Lemma int_ext (f g : R -> R) a b : a <= b -> (forall x, a <= x <= b -> f x = g x) -> RInt f a b = RInt g a b.
Proof. intros L E. apply RInt_ext. intros x. rewrite Rmin_left, Rmax_right by lra. intros H. apply E. lra. Qed.
Lemma int_le (f g : R -> R) a b : a <= b -> (forall x, continuous f x) -> (forall x, continuous g x) -> (forall x, a <= x <= b -> f x <= g x) -> RInt f a b <= RInt g a b.
Proof. intros L Cf Cg E. apply RInt_le; [exact L|apply int_cont, Cf|apply int_cont, Cg|]. intros x H. apply E. lra. Qed.
Lemma int_split (f : R -> R) a b c : (forall x, continuous f x) -> RInt f a b + RInt f b c = RInt f a c.
Proof. intros C. apply (RInt_Chasles (V := R_CompleteNormedModule)); apply int_cont, C. Qed.
Lemma int_affine (f : R -> R) u v a b : (forall x, continuous f x) -> u * RInt (fun x => f (u * x + v)) a b = RInt f (u * a + v) (u * b + v).
Proof.
  intros C. rewrite <- (RInt_comp_lin (V := R_CompleteNormedModule) f u v a b (int_cont _ _ _ C)).
  symmetry. apply (RInt_scal (V := R_CompleteNormedModule)), (int_cont (fun x => f (u * x + v))). intros x. apply (continuous_comp (fun x => u * x + v) f); [|apply C]. apply (ex_derive_continuous (fun x => u * x + v)). auto_derive. exact I.
Qed.
Lemma cont_affine (f : R -> R) u v x : (forall x, continuous f x) -> continuous (fun x => f (u * x + v)) x.
Proof. intros C. apply (continuous_comp (fun x => u * x + v) f); [|apply C]. apply (ex_derive_continuous (fun x => u * x + v)). auto_derive. exact I. Qed.
Lemma derive_cont (f f' : R -> R) x : (forall x, is_derive f x (f' x)) -> continuous f x.
Proof. intros D. apply (ex_derive_continuous (V := R_NormedModule)). exists (f' x). apply D. Qed.
Lemma cont_mul (f g : R -> R) : (forall x, continuous f x) -> (forall x, continuous g x) -> forall x, continuous (fun x => f x * g x) x.
Proof. intros Cf Cg x. apply (continuous_mult f g); [apply Cf|apply Cg]. Qed.
Lemma twice_opp (z : R) : z = - (- 1 * z).
Proof. ring. Qed.
Lemma cont_id (x : R) : continuous (fun x => x) x.
Proof. apply continuous_id. Qed.
Lemma cont_k (c x : R) : continuous (fun _ : R => c) x.
Proof. apply continuous_const. Qed.

(** ** Ramps: from 0 at 0 to 1 at 1, constant from there on, with slopes up to K *)
Definition ramp (K : R) (r r' : R -> R) : Prop :=
  (forall s, is_derive r s (r' s)) /\ (forall s, continuous r' s) /\ (forall s, 0 <= r' s <= K) /\ (forall s, 1 <= s -> r s = 1 /\ r' s = 0) /\ r 0 = 0.

Lemma cont_max0 (f : R -> R) : (forall x, continuous f x) -> forall x, continuous (fun x => (f x + Rabs (f x)) * / 2) x.
Proof.
  intros C x. apply (continuous_mult (fun x => f x + Rabs (f x)) (fun _ => / 2)); [|apply continuous_const].
  apply (continuous_plus (V := R_NormedModule) f (fun x => Rabs (f x))); [apply C|]. apply (continuous_comp f Rabs); [apply C|apply continuous_Rabs].
Qed.
Lemma ramp_exists K : 1 < K -> exists r r', ramp K r r'.
Proof.
  intros HK. set (e := 1 - / K). assert (He : 0 < e < 1) by (assert (0 < / K) by (apply Rinv_0_lt_compat; lra); assert (/ K < 1) by (rewrite <- Rinv_1; apply Rinv_1_lt_contravar; lra); unfold e; lra).
  
  pose (a := fun s => 1 - (1 - s) / e). pose (lo := fun s => 1 - (a s + Rabs (a s)) * / 2). pose (p := fun s => (lo s + Rabs (lo s)) * / 2).
  assert (Ca : forall s, continuous a s) by (intros s; apply (ex_derive_continuous a); unfold a; auto_derive; lra).
  assert (Cl : forall s, continuous lo s) by (intros s; unfold lo; apply (continuous_minus (V := R_NormedModule) (fun _ => 1) (fun s => (a s + Rabs (a s)) * / 2)); [apply continuous_const|apply cont_max0, Ca]).
  assert (Cp : forall s, continuous p s) by (apply cont_max0, Cl).
  assert (Pb : forall s, 0 <= p s <= 1).
  { intros s. unfold p, lo. destruct (Rcase_abs (a s)) as [L|L]; [rewrite (Rabs_left (a s)) by lra|rewrite (Rabs_right (a s)) by lra]; match goal with |- context [Rabs ?z] => destruct (Rcase_abs z) as [L'|L']; [rewrite (Rabs_left z) by lra|rewrite (Rabs_right z) by lra] end; lra. }
  assert (P1 : forall s, 1 <= s -> p s = 0).
  { intros s H. assert (1 <= a s) by (unfold a; assert ((1 - s) / e <= 0) by (apply (Rmult_le_reg_r e); [lra|]; unfold Rdiv; rewrite Rmult_assoc, Rinv_l by lra; lra); lra).
    unfold p, lo. rewrite (Rabs_right (a s)) by lra. rewrite Rabs_left1 by lra. field. }
  assert (P0 : forall s, s <= 1 - e -> p s = 1).
  { intros s H. assert (a s <= 0) by (unfold a; assert (1 <= (1 - s) / e) by (apply (Rmult_le_reg_r e); [lra|]; unfold Rdiv; rewrite Rmult_assoc, Rinv_l by lra; lra); lra).
    unfold p, lo. rewrite (Rabs_left1 (a s)) by lra. rewrite Rabs_right by lra. field. }
  set (J := RInt p 0 1). assert (HJ : 1 - e <= J).
  { unfold J. rewrite <- (int_split p 0 (1 - e) 1 Cp). rewrite (int_ext p (fun _ => 1) 0 (1 - e)) by (try lra; intros; apply P0; lra). rewrite int_const.
    assert (0 <= RInt p (1 - e) 1). { apply Rle_trans with (RInt (fun _ => 0) (1 - e) 1); [rewrite int_const; lra|]. apply int_le; [lra|apply cont_k|exact Cp|intros; apply Pb]. } lra. }
  assert (EK : / (1 - e) = K) by (unfold e; field; lra).
  assert (IJ : 0 < / J <= K). { split; [apply Rinv_0_lt_compat; lra|]. rewrite <- EK. apply Rinv_le_contravar; lra. }
  exists (fun s => / J * RInt p 0 s), (fun s => / J * p s).
  assert (D : forall s, is_derive (fun s => / J * RInt p 0 s) s (/ J * p s)).
  { intros s. apply (is_derive_scal (fun s => RInt p 0 s)). apply (is_derive_RInt (V := R_CompleteNormedModule) p (fun s => RInt p 0 s) 0 s); [|apply Cp].
    exists (mkposreal 1 Rlt_0_1). intros y _. apply (RInt_correct (V := R_CompleteNormedModule)), int_cont, Cp. }
  split; [exact D|]. split; [intros s; apply (continuous_mult (fun _ => / J) p); [apply continuous_const|apply Cp]|]. split; [|split].
  - intros s. specialize (Pb s). split; [apply Rmult_le_pos; lra|]. apply Rle_trans with (/ J * 1); [apply Rmult_le_compat_l; lra|lra].
  - intros s H. split; [|rewrite (P1 s H); ring]. rewrite <- (int_split p 0 1 s Cp). rewrite (int_ext p (fun _ => 0) 1 s H) by (intros; apply P1; lra). rewrite int_const. fold J. field. lra.
  - rewrite RInt_point. cbn. unfold zero; cbn. ring.
Qed.

Section Ramp.
Context (K : R) (r r' : R -> R).
Hypothesis Hr : ramp K r r'.
Lemma ramp_cont s : continuous r s. Proof. apply (derive_cont r r'), Hr. Qed.
Lemma ramp_cont' s : continuous r' s. Proof. apply Hr. Qed.
Lemma ramp_int a b : RInt r' a b = r b - r a.
Proof.
  apply (is_RInt_unique (V := R_CompleteNormedModule)). apply (is_RInt_derive (V := R_CompleteNormedModule) r r'); intros; apply Hr.
Qed.
Lemma ramp_low s : 0 <= s <= 1 -> 0 <= r s <= K * s.
Proof.
  intros H. pose proof (ramp_int 0 s) as E. destruct Hr as (_ & C & B & _ & Z). rewrite Z in E.
  assert (RInt r' 0 s <= RInt (fun _ => K) 0 s) by (apply int_le; [lra|exact C|apply cont_k|intros; apply B]). assert (RInt (fun _ => 0) 0 s <= RInt r' 0 s) by (apply int_le; [lra|apply cont_k|exact C|intros; apply B]). rewrite int_const in *. lra.
Qed.
Lemma ramp_high s : 0 <= s <= 1 -> 1 - K * (1 - s) <= r s.
Proof.
  intros H. pose proof (ramp_int s 1) as E. destruct Hr as (_ & C & B & O & _). rewrite (proj1 (O 1 (Rle_refl 1))) in E.
  assert (RInt r' s 1 <= RInt (fun _ => K) s 1) by (apply int_le; [lra|exact C|apply cont_k|intros; apply B]). rewrite int_const in *. lra.
Qed.
Lemma int_x a b : RInt (fun x => x) a b = (b ^ 2 - a ^ 2) / 2.
Proof.
  apply (is_RInt_unique (V := R_CompleteNormedModule)). replace ((b ^ 2 - a ^ 2) / 2) with (b * b / 2 - a * a / 2) by field.
  apply (is_RInt_derive (V := R_CompleteNormedModule) (fun x => x * x / 2) (fun x => x)); intros x _; [auto_derive; [exact I|field]|apply cont_id].
Qed.
Lemma int_xx a b : RInt (fun x => x * x) a b = (b ^ 3 - a ^ 3) / 3.
Proof.
  apply (is_RInt_unique (V := R_CompleteNormedModule)). replace ((b ^ 3 - a ^ 3) / 3) with (b * b * b / 3 - a * a * a / 3) by field.
  apply (is_RInt_derive (V := R_CompleteNormedModule) (fun x => x * x * x / 3) (fun x => x * x)); intros x _; [auto_derive; [exact I|field]|apply (cont_mul _ _ cont_id cont_id)].
Qed.
Lemma ramp_mean : 1 - K / 2 <= RInt r 0 1.
Proof.
  apply Rle_trans with (RInt (fun s => (1 - K) * 1 + K * s) 0 1); [right; rewrite (int_lin (fun _ => 1) (fun s => s) _ _ _ _ (cont_k 1) cont_id), int_const, int_x; field|].
  apply int_le; [lra| |apply ramp_cont|intros s H; pose proof (ramp_high s H); lra].
  intros s. apply (ex_derive_continuous (fun s => (1 - K) * 1 + K * s)). auto_derive. exact I.
Qed.
Lemma ramp_square : RInt (fun s => r s * r s) 0 1 <= K ^ 2 / 3.
Proof.
  apply Rle_trans with (RInt (fun s => (K * K) * (s * s) + 0 * 1) 0 1); [|right; rewrite (int_lin (fun s => s * s) (fun _ => 1) _ _ _ _ (cont_mul _ _ cont_id cont_id) (cont_k 1)), int_const, int_xx; field].
  apply int_le; [lra|apply (cont_mul _ _ ramp_cont ramp_cont)| |].
  - intros s. apply (ex_derive_continuous (fun s => (K * K) * (s * s) + 0 * 1)). auto_derive. exact I.
  - intros s H. destruct (ramp_low s H) as [A B]. assert (r s * r s <= (K * s) * (K * s)) by (apply Rmult_le_compat; lra). lra.
Qed.
Lemma ramp_energy : RInt (fun s => r' s * r' s) 0 1 <= K.
Proof.
  assert (E : RInt (fun s => K * r' s + 0 * 1) 0 1 = K) by (etransitivity; [exact (int_lin r' (fun _ => 1) K 0 0 1 ramp_cont' (cont_k 1))|]; rewrite int_const, ramp_int; destruct Hr as (_ & _ & _ & O & ->); rewrite (proj1 (O 1 (Rle_refl 1))); match goal with |- ?u = ?v => change (@eq R u v) end; ring).
  apply Rle_trans with (RInt (fun s => K * r' s + 0 * 1) 0 1); [|right; exact E]. apply int_le; [lra|apply (cont_mul _ _ ramp_cont' ramp_cont')| |].
  - intros s. apply (continuous_plus (V := R_NormedModule) (fun s => K * r' s) (fun _ => 0 * 1)); [apply (continuous_mult (fun _ => K) r'); [apply continuous_const|apply ramp_cont']|apply continuous_const].
  - intros s _. destruct Hr as (_ & _ & B & _). specialize (B s). assert (r' s * r' s <= K * r' s) by (apply Rmult_le_compat_r; lra). lra.
Qed.

(** ** Two ramps facing each other over a width b, each of length t *)
Section Bump.
Context (x0 b t : R).
Hypothesis Ht : 0 < t.
Hypothesis Hb : 2 * t < b.
Definition up (x : R) : R := r ((x - x0) / t).
Definition down (x : R) : R := r ((x0 + b - x) / t).
Definition bump (x : R) : R := up x + down x - 1.
Definition bump' (x : R) : R := (r' ((x - x0) / t) - r' ((x0 + b - x) / t)) / t.
Lemma up_form (q : R -> R) x : q ((x - x0) / t) = q (/ t * x + - x0 / t). Proof. f_equal. field. lra. Qed.
Lemma down_form (q : R -> R) x : q ((x0 + b - x) / t) = q (- / t * x + (x0 + b) / t). Proof. f_equal. field. lra. Qed.
Lemma up_cont (q : R -> R) : (forall s, continuous q s) -> forall x : R, continuous (fun x : R => q ((x - x0) / t)) x.
Proof. intros C x. apply (continuous_ext (fun x : R => q (/ t * x + - x0 / t))); [intros; symmetry; apply up_form|apply cont_affine, C]. Qed.
Lemma down_cont (q : R -> R) : (forall s, continuous q s) -> forall x : R, continuous (fun x : R => q ((x0 + b - x) / t)) x.
Proof. intros C x. apply (continuous_ext (fun x : R => q (- / t * x + (x0 + b) / t))); [intros; symmetry; apply down_form|apply cont_affine, C]. Qed.
Lemma at_one x : t <= x -> 1 <= x / t.
Proof. intros H. apply (Rmult_le_reg_r t); [lra|]. unfold Rdiv. rewrite Rmult_assoc, Rinv_l by lra. lra. Qed.
Lemma up_flat x : x0 + t <= x -> up x = 1 /\ r' ((x - x0) / t) = 0.
Proof. intros H. apply Hr, at_one. lra. Qed.
Lemma down_flat x : x <= x0 + b - t -> down x = 1 /\ r' ((x0 + b - x) / t) = 0.
Proof. intros H. apply Hr, at_one. lra. Qed.
Lemma up_or_down x : x0 + t <= x \/ x <= x0 + b - t. Proof. lra. Qed.
Lemma bump_derive x : is_derive bump x (bump' x).
Proof.
  assert (D : forall s, is_derive r s (r' s)) by apply Hr. unfold bump, up, down, bump'.
  evar_last. { apply (is_derive_minus (V := R_NormedModule)); [apply (is_derive_plus (V := R_NormedModule))|apply is_derive_const].
    - apply (is_derive_comp r (fun x => (x - x0) / t)); [apply D|]. auto_derive; [exact I|reflexivity].
    - apply (is_derive_comp r (fun x => (x0 + b - x) / t)); [apply D|]. auto_derive; [exact I|reflexivity]. }
  cbn. unfold scal, plus, minus, opp, zero; cbn. unfold mult; cbn. field. lra.
Qed.
Lemma bump_cont x : continuous bump x. Proof. apply (derive_cont bump bump' x bump_derive). Qed.
Lemma bump_cont' x : continuous bump' x.
Proof.
  unfold bump'. apply (continuous_mult (fun x => r' ((x - x0) / t) - r' ((x0 + b - x) / t)) (fun _ => / t)); [|apply continuous_const].
  apply (continuous_minus (V := R_NormedModule) (fun x => r' ((x - x0) / t)) (fun x => r' ((x0 + b - x) / t))); [apply up_cont, ramp_cont'|apply down_cont, ramp_cont'].
Qed.
Lemma bump_flat x : x0 + t <= x <= x0 + b - t -> bump x = 1 /\ bump' x = 0.
Proof. intros H. unfold bump, bump'. destruct (up_flat x) as [-> ->]; [lra|]. destruct (down_flat x) as [-> ->]; [lra|]. split; [ring|field; lra]. Qed.
Lemma bump_ends : bump x0 = 0 /\ bump (x0 + b) = 0.
Proof.
  destruct Hr as (_ & _ & _ & _ & Z). unfold bump. split.
  - rewrite (proj1 (down_flat x0 ltac:(lra))). unfold up. replace ((x0 - x0) / t) with 0 by (field; lra). rewrite Z. ring.
  - rewrite (proj1 (up_flat (x0 + b) ltac:(lra))). unfold down. replace ((x0 + b - (x0 + b)) / t) with 0 by (field; lra). rewrite Z. ring.
Qed.
Lemma bump_square x : bump x * bump x = up x * up x + down x * down x - 1.
Proof. unfold bump. destruct (up_or_down x) as [H|H]; [rewrite (proj1 (up_flat x H))|rewrite (proj1 (down_flat x H))]; ring. Qed.
Lemma bump_square' x : bump' x * bump' x = / (t * t) * (r' ((x - x0) / t) * r' ((x - x0) / t)) + / (t * t) * (r' ((x0 + b - x) / t) * r' ((x0 + b - x) / t)).
Proof. unfold bump'. destruct (up_or_down x) as [H|H]; [rewrite (proj2 (up_flat x H))|rewrite (proj2 (down_flat x H))]; field; lra. Qed.
Lemma up_int (q : R -> R) c : (forall s, continuous q s) -> (forall s, 1 <= s -> q s = c) -> RInt (fun x : R => q ((x - x0) / t)) x0 (x0 + b) = t * RInt q 0 1 + (b - t) * c.
Proof.
  intros C E. rewrite <- (int_split _ x0 (x0 + t) (x0 + b) (up_cont q C)).
  rewrite (int_ext (fun x : R => q ((x - x0) / t)) (fun _ => c) (x0 + t) (x0 + b)) by (try lra; intros x H; apply E, at_one; lra). rewrite int_const.
  rewrite (int_ext (fun x : R => q ((x - x0) / t)) (fun x : R => q (/ t * x + - x0 / t)) x0 (x0 + t)) by (try lra; intros; apply up_form).
  pose proof (int_affine q (/ t) (- x0 / t) x0 (x0 + t) C) as A. replace (/ t * x0 + - x0 / t) with 0 in A by (field; lra). replace (/ t * (x0 + t) + - x0 / t) with 1 in A by (field; lra).
  rewrite <- A. match goal with |- ?u = ?v => change (@eq R u v) end. field. lra.
Qed.
Lemma down_int (q : R -> R) c : (forall s, continuous q s) -> (forall s, 1 <= s -> q s = c) -> RInt (fun x : R => q ((x0 + b - x) / t)) x0 (x0 + b) = t * RInt q 0 1 + (b - t) * c.
Proof.
  intros C E. rewrite <- (up_int q c C E).
  rewrite (int_ext _ (fun x => - 1 * - q ((- 1 * x + (2 * x0 + b) - x0) / t))) by (try lra; intros; replace ((-1 * x + (2 * x0 + b) - x0) / t) with ((x0 + b - x) / t) by (field; lra); ring).
  pose proof (int_affine (fun x : R => q ((x - x0) / t)) (- 1) (2 * x0 + b) x0 (x0 + b) (up_cont q C)) as A.
  replace (-1 * x0 + (2 * x0 + b)) with (x0 + b) in A by ring. replace (-1 * (x0 + b) + (2 * x0 + b)) with x0 in A by ring.
  pose proof (opp_RInt_swap (V := R_CompleteNormedModule) _ _ _ (int_cont (fun x : R => q ((x - x0) / t)) (x0 + b) x0 (up_cont q C))) as S. rewrite <- A in S.
  etransitivity; [|exact S]. change (RInt (fun x => -1 * - q ((-1 * x + (2 * x0 + b) - x0) / t)) x0 (x0 + b) = - (-1 * RInt (fun x : R => q ((-1 * x + (2 * x0 + b) - x0) / t)) x0 (x0 + b))).
  transitivity (RInt (fun x : R => q ((-1 * x + (2 * x0 + b) - x0) / t)) x0 (x0 + b)); [apply int_ext; [lra|]; intros; ring|exact (twice_opp _)].
Qed.
Lemma bump_mean : b - K * t <= RInt bump x0 (x0 + b).
Proof.
  assert (O : forall s, 1 <= s -> r s = 1) by (intros s H; apply Hr, H).
  rewrite (int_ext bump (fun x => 1 * (1 * up x + 1 * down x) + (- 1) * 1)) by (try lra; intros; unfold bump; ring).
  assert (C : forall x, continuous (fun x => 1 * up x + 1 * down x) x) by (intros x; apply (continuous_plus (V := R_NormedModule) (fun x => 1 * up x) (fun x => 1 * down x)); apply (continuous_mult (fun _ => 1)); try apply continuous_const; [apply up_cont, ramp_cont|apply down_cont, ramp_cont]).
  rewrite (int_lin _ (fun _ => 1) _ _ _ _ C (cont_k 1)), (int_lin up down _ _ _ _ (up_cont r ramp_cont) (down_cont r ramp_cont)), int_const. unfold up, down. rewrite (up_int r 1 ramp_cont O), (down_int r 1 ramp_cont O).
  assert (t * (1 - K / 2) <= t * RInt r 0 1) by (apply Rmult_le_compat_l; [lra|apply ramp_mean]). lra.
Qed.
Lemma bump_square_int : RInt (fun x => bump x * bump x) x0 (x0 + b) <= b - 2 * t + 2 * t * K ^ 2 / 3.
Proof.
  assert (O : forall s, 1 <= s -> r s * r s = 1) by (intros s H; rewrite (proj1 (proj1 (proj2 (proj2 (proj2 Hr))) s H)); ring).
  pose proof (cont_mul _ _ ramp_cont ramp_cont) as C2. pose (q := fun s => r s * r s).
  rewrite (int_ext _ (fun x => 1 * (1 * q ((x - x0) / t) + 1 * q ((x0 + b - x) / t)) + (- 1) * 1)) by (try lra; intros; rewrite bump_square; unfold q, up, down; ring).
  assert (C : forall x, continuous (fun x => 1 * q ((x - x0) / t) + 1 * q ((x0 + b - x) / t)) x) by (intros x; apply (continuous_plus (V := R_NormedModule) (fun x => 1 * q ((x - x0) / t)) (fun x => 1 * q ((x0 + b - x) / t))); apply (continuous_mult (fun _ => 1)); try apply continuous_const; [apply up_cont, C2|apply down_cont, C2]).
  rewrite (int_lin _ (fun _ => 1) _ _ _ _ C (cont_k 1)), (int_lin (fun x : R => q ((x - x0) / t)) (fun x : R => q ((x0 + b - x) / t)) _ _ _ _ (up_cont q C2) (down_cont q C2)), int_const. rewrite (up_int q 1 C2 O), (down_int q 1 C2 O).
  assert (t * RInt q 0 1 <= t * (K ^ 2 / 3)) by (apply Rmult_le_compat_l; [lra|apply ramp_square]). lra.
Qed.
Lemma bump_energy : RInt (fun x => bump' x * bump' x) x0 (x0 + b) <= 2 * K / t.
Proof.
  assert (O : forall s, 1 <= s -> r' s * r' s = 0) by (intros s H; rewrite (proj2 (proj1 (proj2 (proj2 (proj2 Hr))) s H)); ring).
  pose proof (cont_mul _ _ ramp_cont' ramp_cont') as C2. pose (q := fun s => r' s * r' s).
  rewrite (int_ext _ (fun x => / (t * t) * q ((x - x0) / t) + / (t * t) * q ((x0 + b - x) / t))) by (try lra; intros; rewrite bump_square'; reflexivity).
  rewrite (int_lin (fun x : R => q ((x - x0) / t)) (fun x : R => q ((x0 + b - x) / t)) _ _ _ _ (up_cont q C2) (down_cont q C2)), (up_int q 0 C2 O), (down_int q 0 C2 O).
  assert (I : 0 < / t) by (apply Rinv_0_lt_compat, Ht). assert (/ t * RInt q 0 1 <= / t * K) by (apply Rmult_le_compat_l; [lra|apply ramp_energy]).
  replace (/ (t * t) * (t * RInt q 0 1 + (b - t) * 0) + / (t * t) * (t * RInt q 0 1 + (b - t) * 0)) with (2 * (/ t * RInt q 0 1)) by (field; lra). replace (2 * K / t) with (2 * (/ t * K)) by (field; lra). lra.
Qed.
End Bump.
End Ramp.
