(** Proofs about the cutting line and the plastic forces. *)
From Coquelicot Require Import Coquelicot.
From Coq Require Import Reals Lra Lia List Psatz Permutation.
From Verif Require Import Base S_Integral P_Integral M_Fea S_Fem P_Fea P_Geom S_Section P_Section P_Totals M_Bisect M_Props M_Plastic S_Plastic P_Ridge.
Import ListNotations.
Local Open Scope R_scope.

(** ** Integrals over triangles *)
Lemma simplex_ok_lin f g k1 k2 : simplex_ok f -> simplex_ok g ->
  simplex_ok (fun s t => k1 * f s t + k2 * g s t) /\
  simplex_int (fun s t => k1 * f s t + k2 * g s t) = k1 * simplex_int f + k2 * simplex_int g.
Proof.
  intros [F1 F2] [G1 G2].
  assert (I : forall s, 0 <= s <= 1 -> is_RInt (fun t => k1 * f s t + k2 * g s t) 0 (1 - s)
    (k1 * RInt (f s) 0 (1 - s) + k2 * RInt (g s) 0 (1 - s))).
  { intros s Hs. apply (is_RInt_plus (V := R_CompleteNormedModule) (fun t => scal k1 (f s t)) (fun t => scal k2 (g s t)));
      apply (is_RInt_scal (V := R_CompleteNormedModule)), RInt_correct; [apply F1, Hs|apply G1, Hs]. }
  assert (O : is_RInt (fun s => k1 * RInt (f s) 0 (1 - s) + k2 * RInt (g s) 0 (1 - s)) 0 1
    (k1 * simplex_int f + k2 * simplex_int g)).
  { apply (is_RInt_plus (V := R_CompleteNormedModule) (fun s => scal k1 (RInt (f s) 0 (1 - s))) (fun s => scal k2 (RInt (g s) 0 (1 - s))));
      apply (is_RInt_scal (V := R_CompleteNormedModule)), RInt_correct; assumption. }
  assert (O' : is_RInt (fun s => RInt (fun t => k1 * f s t + k2 * g s t) 0 (1 - s)) 0 1 (k1 * simplex_int f + k2 * simplex_int g)).
  { eapply is_RInt_ext; [|exact O]. intros s Hs. rewrite Rmin_left, Rmax_right in Hs by lra.
    symmetry. apply (is_RInt_unique (V := R_CompleteNormedModule)), I. lra. }
  split; [split|].
  - intros s Hs. eexists. apply I, Hs.
  - eexists. exact O'.
  - unfold simplex_int at 1. apply (is_RInt_unique (V := R_CompleteNormedModule)), O'.
Qed.

Lemma simplex_int_le f g : simplex_ok f -> simplex_ok g ->
  (forall s t, 0 <= s -> 0 <= t -> s + t <= 1 -> f s t <= g s t) -> simplex_int f <= simplex_int g.
Proof.
  intros [F1 F2] [G1 G2] H. unfold simplex_int. apply RInt_le; [lra|assumption|assumption|].
  intros s Hs. apply RInt_le; [lra|apply F1; lra|apply G1; lra|]. intros t Ht. apply H; lra.
Qed.

Lemma tri_ok_ext a b c f g : (forall x y, f x y = g x y) -> tri_ok a b c f -> tri_ok a b c g.
Proof.
  intros H [A B]. split.
  - intros s Hs. eapply ex_RInt_ext; [|apply (A s Hs)]. intros t _. apply H.
  - eapply ex_RInt_ext; [|apply B]. intros s _. apply RInt_ext. intros t _. apply H.
Qed.
Lemma tri_int_ext a b c f g : (forall x y, f x y = g x y) -> tri_int a b c f = tri_int a b c g.
Proof. intros H. unfold tri_int. f_equal. apply simplex_int_ext. intros. apply H. Qed.
Lemma tri_ok_lin a b c f g k1 k2 : tri_ok a b c f -> tri_ok a b c g -> tri_ok a b c (fun x y => k1 * f x y + k2 * g x y).
Proof. intros F G. apply (simplex_ok_lin _ _ k1 k2 F G). Qed.
Lemma tri_int_lin a b c f g k1 k2 : tri_ok a b c f -> tri_ok a b c g ->
  tri_int a b c (fun x y => k1 * f x y + k2 * g x y) = k1 * tri_int a b c f + k2 * tri_int a b c g.
Proof.
  intros F G. unfold tri_int. destruct (simplex_ok_lin _ _ k1 k2 F G) as [_ E].
  rewrite E. ring.
Qed.
Lemma tri_int_le a b c f g : tri_ok a b c f -> tri_ok a b c g ->
  (forall p, in_triangle a b c p -> f (fst p) (snd p) <= g (fst p) (snd p)) -> tri_int a b c f <= tri_int a b c g.
Proof.
  intros F G H. unfold tri_int. apply Rmult_le_compat_l; [apply Rabs_pos|].
  apply simplex_int_le; [exact F|exact G|]. intros s t Hs Ht Hst.
  apply (H (fst a + s * (fst b - fst a) + t * (fst c - fst a), snd a + s * (snd b - snd a) + t * (snd c - snd a))).
  exists (1 - s - t), s, t. cbn [fst snd].
  repeat match goal with |- _ /\ _ => split end; try lra; ring.
Qed.

Lemma simplex_int_affine al be ga : simplex_int (fun s t => al + be * s + ga * t) = al / 2 + (be + ga) / 6.
Proof.
  rewrite (simplex_int_ext _ (P4 al be ga 0 0 0 0 0 0 0 0 0 0 0 0)) by (intros; unfold P4; ring).
  rewrite simplex_int_P4. unfold simplex_val. field.
Qed.
Lemma tri_int_height n d a b c : tri_int a b c (fun x y => height n x y - d) =
  Rabs (orient a b c) / 2 *
  (((height n (fst a) (snd a) - d) + (height n (fst b) (snd b) - d) + (height n (fst c) (snd c) - d)) / 3).
Proof.
  unfold tri_int.
  rewrite (simplex_int_ext _ (fun s t => (height n (fst a) (snd a) - d) + (height n (fst b) (snd b) - height n (fst a) (snd a)) * s
    + (height n (fst c) (snd c) - height n (fst a) (snd a)) * t)).
  2:{ intros s t. rewrite ridge_pull. ring. }
  rewrite simplex_int_affine. field.
Qed.
Lemma tri_int_one a b c : tri_int a b c (fun _ _ => 1) = Rabs (orient a b c) / 2.
Proof.
  unfold tri_int. rewrite (simplex_int_ext _ (fun s t => 1 + 0 * s + 0 * t)) by (intros; ring).
  rewrite simplex_int_affine. field.
Qed.
Lemma hd_tri_ok n d a b c : tri_ok a b c (fun x y => height n x y - d).
Proof.
  apply (tri_ok_ext a b c (fun x y => 1 * height n x y + (- d) * 1)); [intros; ring|].
  apply (tri_ok_lin a b c (height n) (fun _ _ => 1)); [apply height_tri_ok|apply const_tri_ok].
Qed.

Lemma height_comb n d a b c p : in_triangle a b c p -> exists e x z, 0 <= e /\ 0 <= x /\ 0 <= z /\ e + x + z = 1 /\
  height n (fst p) (snd p) - d = e * (height n (fst a) (snd a) - d) + x * (height n (fst b) (snd b) - d) + z * (height n (fst c) (snd c) - d).
Proof.
  intros (e & x & z & H1 & H2 & H3 & H4 & H5 & H6). exists e, x, z.
  repeat match goal with |- _ /\ _ => split end; try assumption.
  unfold height. rewrite H5, H6. replace d with ((e + x + z) * d) at 1 by (rewrite H4; ring). ring.
Qed.

(** ** Sums over regions *)
Lemma fold_sum {A} (f : A -> R) l a : fold_left (fun acc q => acc + f q) l a = a + sumf f l.
Proof.
  revert a. induction l as [|x l IH]; intros a; cbn [fold_left]; [unfold sumf; cbn; ring|].
  rewrite IH, sumf_cons. ring.
Qed.
Lemma sumf_plus2 {A} (f g : A -> R) k1 k2 l : sumf (fun x => k1 * f x + k2 * g x) l = k1 * sumf f l + k2 * sumf g l.
Proof. induction l as [|x l IH]; [unfold sumf; cbn; ring|]. rewrite !sumf_cons, IH. ring. Qed.

Lemma region_app w f l1 l2 : region_int w f (l1 ++ l2) = region_int w f l1 + region_int w f l2.
Proof. unfold region_int. apply sumf_app. Qed.
Lemma region_nil w f : region_int w f [] = 0.
Proof. reflexivity. Qed.
Lemma region_ext w f g l : (forall x y, f x y = g x y) -> region_int w f l = region_int w g l.
Proof. intros H. unfold region_int. apply sumf_ext. intros t _. f_equal. unfold mt_int. apply tri_int_ext, H. Qed.
Lemma region_hd w n d l : region_int w (fun x y => height n x y - d) l = region_int w (height n) l - d * region_int w (fun _ _ => 1) l.
Proof.
  unfold region_int.
  rewrite (sumf_ext _ (fun t => 1 * (w (mt_mat t) * mt_int t (height n)) + (- d) * (w (mt_mat t) * mt_int t (fun _ _ => 1)))).
  - rewrite sumf_plus2. ring.
  - intros t _. unfold mt_int.
    rewrite (tri_int_ext _ _ _ (fun x y => height n x y - d) (fun x y => 1 * height n x y + (- d) * 1)) by (intros; ring).
    rewrite (tri_int_lin _ _ _ (height n) (fun _ _ => 1) _ _ (height_tri_ok _ _ _ _) (const_tri_ok _ _ _ _)). ring.
Qed.
Lemma region_weight w f l m : (forall t, In t l -> mt_mat t = m) -> region_int w f l = w m * region_int (fun _ => 1) f l.
Proof.
  intros H. unfold region_int. rewrite <- sumf_scal. apply sumf_ext. intros t Ht. rewrite (H t Ht). ring.
Qed.

(** Comparing |h - d| with h - d. *)
Lemma region_abs_ge w n d s l : (forall t, In t l -> 0 <= w (mt_mat t)) -> (s = 1 \/ s = -1) ->
  s * region_int w (fun x y => height n x y - d) l <= region_int w (fun x y => Rabs (height n x y - d)) l.
Proof.
  intros Hw Hs. unfold region_int. rewrite <- sumf_scal. apply sumf_le. intros t Ht.
  replace (s * (w (mt_mat t) * mt_int t (fun x y => height n x y - d)))
    with (w (mt_mat t) * (s * mt_int t (fun x y => height n x y - d) + 0 * mt_int t (fun x y => 1))) by ring.
  apply Rmult_le_compat_l; [apply Hw, Ht|]. unfold mt_int.
  rewrite <- (tri_int_lin _ _ _ (fun x y => height n x y - d) (fun _ _ => 1) _ _ (hd_tri_ok _ _ _ _ _) (const_tri_ok _ _ _ _)).
  apply tri_int_le.
  - apply (tri_ok_lin _ _ _ (fun x y => height n x y - d) (fun _ _ => 1)); [apply hd_tri_ok|apply const_tri_ok].
  - apply abs_tri_ok.
  - intros p _. destruct Hs as [-> | ->]; unfold Rabs; destruct (Rcase_abs (height n (fst p) (snd p) - d)); lra.
Qed.

Lemma region_abs_eq w n d s l : (s = 1 \/ s = -1) ->
  (forall t p, In t l -> In p (corners t) -> 0 <= s * (height n (fst p) (snd p) - d)) ->
  region_int w (fun x y => Rabs (height n x y - d)) l = s * region_int w (fun x y => height n x y - d) l.
Proof.
  intros Hs H. unfold region_int. rewrite <- sumf_scal. apply sumf_ext. intros t Ht.
  replace (s * (w (mt_mat t) * mt_int t (fun x y => height n x y - d)))
    with (w (mt_mat t) * (s * mt_int t (fun x y => height n x y - d) + 0 * mt_int t (fun x y => 1))) by ring.
  f_equal. unfold mt_int.
  rewrite <- (tri_int_lin _ _ _ (fun x y => height n x y - d) (fun _ _ => 1) _ _ (hd_tri_ok _ _ _ _ _) (const_tri_ok _ _ _ _)).
  assert (E : forall p, in_triangle (mt_a t) (mt_b t) (mt_c t) p ->
     Rabs (height n (fst p) (snd p) - d) = s * (height n (fst p) (snd p) - d) + 0 * 1).
  { intros p Hp. destruct (height_comb n d _ _ _ p Hp) as (e & x & z & H1 & H2 & H3 & H4 & H5).
    pose proof (H t (mt_a t) Ht ltac:(cbn; auto)) as A. pose proof (H t (mt_b t) Ht ltac:(cbn; auto)) as B.
    pose proof (H t (mt_c t) Ht ltac:(cbn; auto)) as C.
    assert (P : 0 <= s * (height n (fst p) (snd p) - d)).
    { rewrite H5.
      replace (s * (e * (height n (fst (mt_a t)) (snd (mt_a t)) - d) + x * (height n (fst (mt_b t)) (snd (mt_b t)) - d) + z * (height n (fst (mt_c t)) (snd (mt_c t)) - d)))
        with (e * (s * (height n (fst (mt_a t)) (snd (mt_a t)) - d)) + x * (s * (height n (fst (mt_b t)) (snd (mt_b t)) - d)) + z * (s * (height n (fst (mt_c t)) (snd (mt_c t)) - d))) by ring.
      repeat apply Rplus_le_le_0_compat; apply Rmult_le_pos; assumption. }
    destruct Hs as [-> | ->]; unfold Rabs; destruct (Rcase_abs (height n (fst p) (snd p) - d)); lra. }
  apply Rle_antisym; apply tri_int_le.
  - apply abs_tri_ok.
  - apply (tri_ok_lin _ _ _ (fun x y => height n x y - d) (fun _ _ => 1)); [apply hd_tri_ok|apply const_tri_ok].
  - intros p Hp. rewrite (E p Hp). lra.
  - apply (tri_ok_lin _ _ _ (fun x y => height n x y - d) (fun _ _ => 1)); [apply hd_tri_ok|apply const_tri_ok].
  - apply abs_tri_ok.
  - intros p Hp. rewrite (E p Hp). lra.
Qed.

Lemma region_one_nonneg w l : (forall t, In t l -> 0 <= w (mt_mat t)) -> 0 <= region_int w (fun _ _ => 1) l.
Proof.
  intros H. unfold region_int. replace 0 with (sumf (fun _ : mtri => 0) l).
  - apply sumf_le. intros t Ht. unfold mt_int. rewrite tri_int_one. apply Rmult_le_pos; [apply H, Ht|].
    pose proof (Rabs_pos (orient (mt_a t) (mt_b t) (mt_c t))). lra.
  - clear H. induction l as [|x l IH]; [reflexivity|]. rewrite sumf_cons, IH. ring.
Qed.
Lemma region_one_pos w l : l <> [] -> Forall ccw l -> (forall t, In t l -> 0 < w (mt_mat t)) -> 0 < region_int w (fun _ _ => 1) l.
Proof.
  intros Hl Hc H. destruct l as [|t l]; [congruence|]. unfold region_int. rewrite sumf_cons.
  change (sumf (fun t0 => w (mt_mat t0) * mt_int t0 (fun _ _ => 1)) l) with (region_int w (fun _ _ => 1) l).
  pose proof (region_one_nonneg w l (fun u Hu => Rlt_le _ _ (H u (or_intror Hu)))).
  inversion Hc as [|t' l' Hct Hcl]; subst. unfold mt_int. rewrite tri_int_one. unfold ccw in Hct.
  rewrite Rabs_pos_eq by lra. pose proof (H t (or_introl eq_refl)).
  assert (0 < w (mt_mat t) * (orient (mt_a t) (mt_b t) (mt_c t) / 2)) by (apply Rmult_lt_0_compat; lra). lra.
Qed.

(** Triangles on one side of a line whose moment about it vanishes do not exist. *)
Lemma side_strict w n d s l : unit_vec n -> (s = 1 \/ s = -1) -> Forall ccw l -> (forall t, In t l -> 0 < w (mt_mat t)) ->
  (forall t p, In t l -> In p (corners t) -> 0 <= s * (height n (fst p) (snd p) - d)) ->
  s * region_int w (fun x y => height n x y - d) l <= 0 -> l = [].
Proof.
  intros Hn Hs Hc Hw H L. destruct l as [|t l]; [reflexivity|exfalso].
  assert (P : forall l, (forall t, In t l -> 0 < w (mt_mat t)) ->
     (forall t p, In t l -> In p (corners t) -> 0 <= s * (height n (fst p) (snd p) - d)) ->
     0 <= s * region_int w (fun x y => height n x y - d) l).
  { clear - Hs. intros l Hw H. induction l as [|t l IH]; [unfold region_int, sumf; cbn; lra|].
    unfold region_int. rewrite sumf_cons.
    change (sumf (fun t0 => w (mt_mat t0) * mt_int t0 (fun x y => height n x y - d)) l) with (region_int w (fun x y => height n x y - d) l).
    rewrite Rmult_plus_distr_l. apply Rplus_le_le_0_compat.
    - unfold mt_int. rewrite tri_int_height.
      pose proof (H t (mt_a t) (or_introl eq_refl) ltac:(cbn; auto)) as A. pose proof (H t (mt_b t) (or_introl eq_refl) ltac:(cbn; auto)) as B.
      pose proof (H t (mt_c t) (or_introl eq_refl) ltac:(cbn; auto)) as C.
      pose proof (Hw t (or_introl eq_refl)) as W. pose proof (Rabs_pos (orient (mt_a t) (mt_b t) (mt_c t))) as O.
      set (o := Rabs (orient (mt_a t) (mt_b t) (mt_c t))) in *.
      match goal with |- 0 <= s * (?w * (o / 2 * ((?x + ?y + ?z) / 3))) =>
        replace (s * (w * (o / 2 * ((x + y + z) / 3)))) with (w * o * (s * x + s * y + s * z) / 6) by field end.
      apply Rmult_le_pos; [|lra]. apply Rmult_le_pos; [apply Rmult_le_pos; lra|lra].
    - apply IH; [intros u Hu; apply Hw; right; exact Hu|intros u p Hu; apply H; right; exact Hu]. }
  pose proof (P l (fun u Hu => Hw u (or_intror Hu)) (fun u p Hu => H u p (or_intror Hu))) as PL.
  unfold region_int in L. rewrite sumf_cons in L.
  change (sumf (fun t0 => w (mt_mat t0) * mt_int t0 (fun x y => height n x y - d)) l) with (region_int w (fun x y => height n x y - d) l) in L.
  unfold mt_int in L. rewrite tri_int_height in L.
  inversion Hc as [|t' l' Hct Hcl]; subst. unfold ccw in Hct. rewrite Rabs_pos_eq in L by lra.
  pose proof (H t (mt_a t) (or_introl eq_refl) ltac:(cbn; auto)) as A. pose proof (H t (mt_b t) (or_introl eq_refl) ltac:(cbn; auto)) as B.
  pose proof (H t (mt_c t) (or_introl eq_refl) ltac:(cbn; auto)) as C.
  pose proof (Hw t (or_introl eq_refl)) as W.
  set (o := orient (mt_a t) (mt_b t) (mt_c t)) in *.
  set (x := height n (fst (mt_a t)) (snd (mt_a t)) - d) in *. set (y := height n (fst (mt_b t)) (snd (mt_b t)) - d) in *.
  set (z := height n (fst (mt_c t)) (snd (mt_c t)) - d) in *.
  assert (S : 0 < s * x + s * y + s * z).
  { destruct (Rle_lt_dec (s * x + s * y + s * z) 0) as [Hle|Hlt]; [exfalso|exact Hlt].
    assert (X0 : s * x = 0) by lra. assert (Y0 : s * y = 0) by lra. assert (Z0 : s * z = 0) by lra.
    assert (Xz : x = 0) by (destruct Hs as [-> | ->]; lra). assert (Yz : y = 0) by (destruct Hs as [-> | ->]; lra).
    assert (Zz : z = 0) by (destruct Hs as [-> | ->]; lra).
    assert (o = 0); [|lra].
    unfold o, orient. unfold x, y, z, height in Xz, Yz, Zz.
    assert (E1 : fst n * (fst (mt_b t) - fst (mt_a t)) + snd n * (snd (mt_b t) - snd (mt_a t)) = 0) by lra.
    assert (E2 : fst n * (fst (mt_c t) - fst (mt_a t)) + snd n * (snd (mt_c t) - snd (mt_a t)) = 0) by lra.
    unfold unit_vec in Hn.
    set (p1 := fst (mt_b t) - fst (mt_a t)) in *. set (p2 := snd (mt_b t) - snd (mt_a t)) in *.
    set (q1 := fst (mt_c t) - fst (mt_a t)) in *. set (q2 := snd (mt_c t) - snd (mt_a t)) in *.
    transitivity ((fst n * fst n + snd n * snd n) * (p1 * q2 - q1 * p2)); [rewrite Hn; ring|].
    transitivity (fst n * q2 * (fst n * p1 + snd n * p2) - fst n * p2 * (fst n * q1 + snd n * q2)
      + snd n * p1 * (fst n * q1 + snd n * q2) - snd n * q1 * (fst n * p1 + snd n * p2)); [ring|].
    rewrite E1, E2. ring. }
  assert (0 < w (mt_mat t) * o * (s * x + s * y + s * z)) by (apply Rmult_lt_0_compat; [apply Rmult_lt_0_compat; assumption|exact S]).
  nra.
Qed.

(** ** Boundaries *)
Lemma sb_frame l l' k : same_boundary l l' -> same_boundary (l ++ k) (l' ++ k).
Proof.
  intros H. induction H as [l|l l' H IH|l1 l2 l3 H1 IH1 H2 IH2|l l' H|m p q l|m p q t l r].
  - apply sb_refl.
  - apply sb_sym, IH.
  - eapply sb_trans; eassumption.
  - apply sb_perm, Permutation_app_tail, H.
  - apply sb_cancel.
  - apply sb_split.
Qed.
Lemma sb_app l1 l1' l2 l2' : same_boundary l1 l1' -> same_boundary l2 l2' -> same_boundary (l1 ++ l2) (l1' ++ l2').
Proof.
  intros H1 H2. eapply sb_trans; [apply sb_frame, H1|].
  eapply sb_trans; [apply sb_perm, Permutation_app_comm|].
  eapply sb_trans; [apply sb_frame, H2|]. apply sb_perm, Permutation_app_comm.
Qed.
Lemma region_edges_app l1 l2 : region_edges (l1 ++ l2) = region_edges l1 ++ region_edges l2.
Proof. unfold region_edges. rewrite map_app, concat_app. reflexivity. Qed.
Lemma region_edges_perm l1 l2 : Permutation l1 l2 -> Permutation (region_edges l1) (region_edges l2).
Proof.
  intros H. unfold region_edges. induction H as [|x l l' H IH|x y l|l l' l'' H1 IH1 H2 IH2]; cbn [map concat].
  - constructor.
  - apply Permutation_app_head, IH.
  - rewrite !app_assoc. apply Permutation_app_tail, Permutation_app_comm.
  - eapply perm_trans; eassumption.
Qed.

(** ** The cutting line *)
Definition cross_v (v p q : R * R) : R := fst v * (snd q - snd p) - snd v * (fst q - fst p).
Definition top_sign (v : R * R) : R :=
  if Rlt_dec 0 (fst v) then 1 else if Rlt_dec (fst v) 0 then -1 else if Rlt_dec 0 (snd v) then -1 else 1.

Definition box_ok (b : R * R * R * R) : Prop := let '(xa, xb, ya, yb) := b in xa < xb /\ ya < yb.

Lemma box_extremes xa xb ya yb : xa < xb -> ya < yb ->
  let b2 := Rmax (Rmax (Rmax xa xb) ya) yb in let b1 := Rmin (Rmin (Rmin xa xb) ya) yb in
  b1 <= xa /\ xb <= b2 /\ b1 <= ya /\ yb <= b2 /\ b1 < b2.
Proof.
  intros Hx Hy b2 b1. unfold b1, b2, Rmin, Rmax. repeat destruct Rle_dec; lra.
Qed.


(** The vectors for which the division in create_line_segment is defined. *)
Definition usable (v : R * R) : Prop := 1 / 10 ^ 12 < Rabs (fst v) \/ snd v <> 0.

Lemma tiny_pos : 0 < 1 / 10 ^ 12.
Proof. apply Rdiv_lt_0_compat; [lra|apply pow_lt; lra]. Qed.
Lemma tiny_lt1 : 1 / 10 ^ 12 < 1.
Proof. apply Rmult_lt_reg_r with (10 ^ 12); [apply pow_lt; lra|]. unfold Rdiv. rewrite Rmult_assoc, Rinv_l; [|apply pow_nonzero; lra].
  rewrite !Rmult_1_l. simpl. lra. Qed.

Lemma unit_usable v : unit_vec v -> usable v.
Proof.
  intros H. unfold usable. destruct (Req_dec (snd v) 0) as [E|E]; [left|right; exact E].
  unfold unit_vec in H. rewrite E in H. pose proof tiny_lt1.
  destruct (Rcase_abs (fst v)) as [L|L]; [rewrite Rabs_left by exact L|rewrite Rabs_right by exact L]; nra.
Qed.

Lemma line_form p v b : box_ok b -> usable v ->
  exists k1 k2, create_line_segment p v b =
    ((fst p + k1 * fst v, snd p + k1 * snd v), (fst p + k2 * fst v, snd p + k2 * snd v)) /\ k1 <> k2 /\
    spans b (create_line_segment p v b).
Proof.
  destruct b as [[[xa xb] ya] yb]. destruct p as [px py]. destruct v as [vx vy]. intros [Hx Hy] Hv. unfold usable in Hv. cbn [fst snd] in *.
  pose proof (box_extremes xa xb ya yb Hx Hy) as Hb. cbv zeta in Hb.
  unfold create_line_segment.
  set (b2 := Rmax (Rmax (Rmax xa xb) ya) yb) in *. set (b1 := Rmin (Rmin (Rmin xa xb) ya) yb) in *.
  destruct (Rlt_dec (1 / 10 ^ 12) (Rabs vx)) as [L|L].
  - assert (vx <> 0). { intros ->. rewrite Rabs_R0 in L. pose proof tiny_pos. lra. }
    exists ((b1 - px) / vx), ((b2 - px) / vx). split; [|split].
    + f_equal; f_equal; try field; try assumption; ring.
    + intros E. assert ((b1 - px) / vx * vx = (b2 - px) / vx * vx) by (rewrite E; reflexivity).
      replace ((b1 - px) / vx * vx) with (b1 - px) in * by (field; assumption).
      replace ((b2 - px) / vx * vx) with (b2 - px) in * by (field; assumption). lra.
    + left. lra.
  - assert (vy <> 0) by (destruct Hv as [Hv|Hv]; [lra|exact Hv]).
    exists ((b1 - py) / vy), ((b2 - py) / vy). split; [|split].
    + f_equal; f_equal; try field; try assumption; ring.
    + intros E. assert ((b1 - py) / vy * vy = (b2 - py) / vy * vy) by (rewrite E; reflexivity).
      replace ((b1 - py) / vy * vy) with (b1 - py) in * by (field; assumption).
      replace ((b2 - py) / vy * vy) with (b2 - py) in * by (field; assumption). lra.
    + right. lra.
Qed.

(** Which side of the line a point is put on. *)
Lemma side_form p v k1 k2 q : k1 <> k2 -> (fst v <> 0 \/ snd v <> 0) ->
  side_of ((fst p + k1 * fst v, snd p + k1 * snd v), (fst p + k2 * fst v, snd p + k2 * snd v)) q =
  (if Rlt_dec (top_sign v * cross_v v p q) 0 then Bottom else if Rlt_dec 0 (top_sign v * cross_v v p q) then Top else On).
Proof.
  intros Hk Hv. destruct q as [qx qy]. destruct p as [px py]. destruct v as [vx vy]. cbn [fst snd] in *.
  unfold side_of, line_mx_plus_b, top_sign, cross_v. cbn [fst snd].
  destruct (Req_EM_T (px + k2 * vx - (px + k1 * vx)) 0) as [E|E].
  - assert (V0 : vx = 0). { assert ((k2 - k1) * vx = 0) by lra. apply Rmult_integral in H. destruct H; lra. }
    subst vx. cbn [fst snd]. replace (px + k1 * 0) with px by ring.
    destruct (Rlt_dec 0 0) as [X|_]; [lra|]. assert (vy <> 0) by (destruct Hv; lra).
    destruct (Rlt_dec 0 vy) as [P|P].
    + replace (-1 * (0 * (qy - py) - vy * (qx - px))) with (vy * (qx - px)) by ring.
      destruct (Rlt_dec qx px), (Rlt_dec (vy * (qx - px)) 0), (Rlt_dec px qx), (Rlt_dec 0 (vy * (qx - px))); try reflexivity; exfalso; nra.
    + assert (vy < 0) by lra. replace (1 * (0 * (qy - py) - vy * (qx - px))) with (- vy * (qx - px)) by ring.
      destruct (Rlt_dec qx px), (Rlt_dec (- vy * (qx - px)) 0), (Rlt_dec px qx), (Rlt_dec 0 (- vy * (qx - px))); try reflexivity; exfalso; nra.
  - assert (V0 : vx <> 0) by (intros ->; apply E; ring). assert (K : k2 - k1 <> 0) by lra.
    set (m := (py + k2 * vy - (py + k1 * vy)) / (px + k2 * vx - (px + k1 * vx))).
    assert (Em : m = vy / vx). { unfold m. field. split; [exact V0|]. intros X. apply E. lra. }
    rewrite Em. clear m Em.
    replace (vy / vx * qx + (py + k1 * vy - vy / vx * (px + k1 * vx))) with (py + vy / vx * (qx - px)) by (field; exact V0).
    assert (D : vx * (qy - py) - vy * (qx - px) = vx * (qy - (py + vy / vx * (qx - px)))) by (field; exact V0).
    rewrite D. set (y0 := py + vy / vx * (qx - px)).
    destruct (Rlt_dec 0 vx) as [P|P].
    + replace (1 * (vx * (qy - y0))) with (vx * (qy - y0)) by ring.
      destruct (Rlt_dec qy y0), (Rlt_dec (vx * (qy - y0)) 0), (Rlt_dec y0 qy), (Rlt_dec 0 (vx * (qy - y0))); try reflexivity; exfalso; nra.
    + destruct (Rlt_dec vx 0) as [P'|P']; [|lra].
      replace (-1 * (vx * (qy - y0))) with (- vx * (qy - y0)) by ring.
      destruct (Rlt_dec qy y0), (Rlt_dec (- vx * (qy - y0)) 0), (Rlt_dec y0 qy), (Rlt_dec 0 (- vx * (qy - y0))); try reflexivity; exfalso; nra.
Qed.

Lemma left_form p v k1 k2 q :
  left_of ((fst p + k1 * fst v, snd p + k1 * snd v), (fst p + k2 * fst v, snd p + k2 * snd v)) q = (k2 - k1) * cross_v v p q.
Proof. unfold left_of, cross_v. ring. Qed.

(** The lines of the plastic analysis. *)
Definition axis_sign (u : R * R) (axis1 : bool) : R := if axis1 then top_sign u else - top_sign u.

Lemma axis_sign_cases u axis1 : axis_sign u axis1 = 1 \/ axis_sign u axis1 = -1.
Proof.
  unfold axis_sign, top_sign. destruct axis1; destruct (Rlt_dec 0 (fst u)), (Rlt_dec (fst u) 0), (Rlt_dec 0 (snd u)); lra.
Qed.

Lemma perp_unit u axis1 : unit_vec u -> unit_vec (perpendicular u axis1).
Proof. unfold unit_vec, perpendicular. destruct axis1; cbn [fst snd]; lra. Qed.

Lemma cross_height u axis1 d q : unit_vec u ->
  cross_v u (line_point d (perpendicular u axis1)) q =
  (if axis1 then 1 else -1) * (height (perpendicular u axis1) (fst q) (snd q) - d).
Proof.
  intros H. unfold unit_vec in H. unfold cross_v, line_point, perpendicular, height. destruct axis1; cbn [fst snd].
  - transitivity (- snd u * fst q + fst u * snd q - d * (fst u * fst u + snd u * snd u)); [ring|rewrite H; ring].
  - transitivity (- (snd u * fst q + - fst u * snd q) + d * (fst u * fst u + snd u * snd u)); [ring|rewrite H; ring].
Qed.

Lemma unit_nz u : unit_vec u -> fst u <> 0 \/ snd u <> 0.
Proof. unfold unit_vec. intros H. destruct (Req_dec (fst u) 0) as [E|E]; [right|left; exact E]. intros E2. rewrite E, E2 in H. lra. Qed.

Lemma plastic_line u axis1 d b : unit_vec u -> box_ok b ->
  let line := create_line_segment (line_point d (perpendicular u axis1)) u b in
  spans b line /\
  (exists k, k <> 0 /\ forall q, left_of line q = k * (height (perpendicular u axis1) (fst q) (snd q) - d)) /\
  (forall q, let e := axis_sign u axis1 * (height (perpendicular u axis1) (fst q) (snd q) - d) in
     side_of line q = if Rlt_dec e 0 then Bottom else if Rlt_dec 0 e then Top else On).
Proof.
  intros Hu Hb line.
  destruct (line_form (line_point d (perpendicular u axis1)) u b Hb (unit_usable u Hu)) as (k1 & k2 & E & Hk & Hs).
  split; [exact Hs|split].
  - exists ((k2 - k1) * (if axis1 then 1 else -1)). split; [destruct axis1; lra|].
    intros q. unfold line. rewrite E, left_form, cross_height by exact Hu. ring.
  - intros q e. unfold line. rewrite E, side_form by (exact Hk || apply unit_nz, Hu).
    assert (X : top_sign u * cross_v u (line_point d (perpendicular u axis1)) q = e).
    { rewrite cross_height by exact Hu. unfold e, axis_sign. destruct axis1; ring. }
    rewrite X. reflexivity.
Qed.
