(** Exactness of the quadrature on triangles and element geometric properties. *)
From Coq Require Import Reals List Lra Lia ZArith.
From Coquelicot Require Import Coquelicot.
From Verif Require Import Base S_Integral M_Fea S_Fem P_Integral P_Fea.
Import ListNotations.
Local Open Scope R_scope.

(** ** poly_deg closure properties *)

Lemma poly_ext (d : nat) (f g : R -> R -> R) :
  poly_deg d f -> (forall x y, g x y = f x y) -> poly_deg d g.
Proof.
  intros H E. apply (poly_scal d 1 f); [exact H|]. intros. rewrite E. ring.
Qed.

Lemma poly_weaken (d e : nat) (f : R -> R -> R) : poly_deg d f -> (d <= e)%nat -> poly_deg e f.
Proof.
  intros H. revert e. induction H as [d c f Hf | d f g h Hf IHf Hg IHg Hh | d r f h Hf IHf Hh
    | d f h Hf IHf Hh | d f h Hf IHf Hh]; intros e He.
  - apply (poly_const _ c); assumption.
  - apply (poly_add _ f g); auto.
  - apply (poly_scal _ r f); auto.
  - destruct e; [lia|]. apply (poly_mulx _ f); [apply IHf; lia|assumption].
  - destruct e; [lia|]. apply (poly_muly _ f); [apply IHf; lia|assumption].
Qed.

Lemma poly_mul (d e : nat) (f g : R -> R -> R) :
  poly_deg d f -> poly_deg e g -> poly_deg (d + e) (fun x y => f x y * g x y).
Proof.
  intros H Hg. induction H as [d c f Hf | d f1 f2 h Hf IHf Hg' IHg Hh | d r f h Hf IHf Hh
    | d f h Hf IHf Hh | d f h Hf IHf Hh].
  - apply (poly_scal _ c g); [apply (poly_weaken e); [assumption|lia]|]. intros. rewrite Hf. ring.
  - apply (poly_add _ _ _ _ IHf IHg). intros. rewrite Hh. ring.
  - apply (poly_scal _ r _ _ IHf). intros. rewrite Hh. ring.
  - apply (poly_mulx _ _ _ IHf). intros. rewrite Hh. ring.
  - apply (poly_muly _ _ _ IHf). intros. rewrite Hh. ring.
Qed.

Lemma poly_c (d : nat) (c : R) : poly_deg d (fun _ _ => c).
Proof. apply (poly_const _ c). reflexivity. Qed.
Lemma poly_x : poly_deg 1 (fun x _ => x).
Proof. apply (poly_mulx 0 (fun _ _ => 1)); [apply poly_c|]. intros; ring. Qed.
Lemma poly_y : poly_deg 1 (fun _ y => y).
Proof. apply (poly_muly 0 (fun _ _ => 1)); [apply poly_c|]. intros; ring. Qed.
Lemma poly_plus (d : nat) (f g : R -> R -> R) :
  poly_deg d f -> poly_deg d g -> poly_deg d (fun x y => f x y + g x y).
Proof. intros. apply (poly_add _ f g); auto. Qed.
Lemma poly_opp (d : nat) (f : R -> R -> R) : poly_deg d f -> poly_deg d (fun x y => - f x y).
Proof. intros. apply (poly_scal _ (-1) f); auto. intros; ring. Qed.
Lemma poly_minus (d : nat) (f g : R -> R -> R) :
  poly_deg d f -> poly_deg d g -> poly_deg d (fun x y => f x y - g x y).
Proof. intros. apply (poly_add _ f (fun x y => - g x y)); auto using poly_opp. Qed.
Lemma poly_cmul (d : nat) (k : R) (f : R -> R -> R) : poly_deg d f -> poly_deg d (fun x y => k * f x y).
Proof. intros. apply (poly_scal _ k f); auto. Qed.

Lemma poly_quad (a b c d e g : R) : poly_deg 2 (quad a b c d e g).
Proof.
  unfold quad.
  assert (Hx : poly_deg 2 (fun x _ => x)) by (apply (poly_weaken 1); [apply poly_x|lia]).
  assert (Hy : poly_deg 2 (fun _ y => y)) by (apply (poly_weaken 1); [apply poly_y|lia]).
  apply (poly_ext 2 (fun x y => a + b * x + c * y + d * (x * x) + e * (x * y) + g * (y * y))).
  2: intros; ring.
  repeat apply poly_plus; try apply poly_c; try (apply poly_cmul; assumption); apply poly_cmul.
  - apply (poly_mul 1 1 (fun x _ => x) (fun x _ => x)); apply poly_x.
  - apply (poly_mul 1 1 (fun x _ => x) (fun _ y => y)); [apply poly_x|apply poly_y].
  - apply (poly_mul 1 1 (fun _ y => y) (fun _ y => y)); apply poly_y.
Qed.

(** ** Rules *)

Lemma gauss_cases (n : Z) (gps : list gp) :
  gauss_points n = Ok gps ->
  (n = 1%Z /\ gps = gps1) \/ (n = 3%Z /\ gps = gps3) \/ (n = 4%Z /\ gps = gps4) \/ (n = 6%Z /\ gps = gps6).
Proof.
  unfold gauss_points.
  destruct (Z.eqb_spec n 1); [intros H; injection H; auto|].
  destruct (Z.eqb_spec n 3); [intros H; injection H; auto|].
  destruct (Z.eqb_spec n 4); [intros H; injection H; auto|].
  destruct (Z.eqb_spec n 6); [intros H; injection H; auto 10|]. discriminate.
Qed.

Lemma rad_s_bounds : 3.16 < rad_s < 3.25.
Proof.
  pose proof rad_s2 as H. pose proof rad_r_bounds as Hr. pose proof rad_s_pos as Hp.
  split; nra.
Qed.

Lemma g6_g1_bounds : 0.4 < g6_g1 < 0.46.
Proof. rewrite g6_g1_alt. pose proof rad_r_bounds. pose proof rad_s_bounds. split; lra. Qed.
Lemma g6_g2_bounds : 0.05 < g6_g2 < 0.1.
Proof. rewrite g6_g2_alt. pose proof rad_r_bounds. pose proof rad_s_bounds. split; lra. Qed.

Lemma gps6_sum1 (g : gp) : In g gps6 -> g_eta g + g_xi g + g_zeta g = 1.
Proof. cbn [In gps6]. intros H; repeat destruct H as [<- | H]; try contradiction; cbn; ring. Qed.

Lemma gps4_sum1 (g : gp) : In g gps4 -> g_eta g + g_xi g + g_zeta g = 1.
Proof. cbn [In gps4]. intros H; repeat destruct H as [<- | H]; try contradiction; cbn; field. Qed.

Lemma gauss_sum1 (n : Z) (gps : list gp) : gauss_points n = Ok gps ->
  forall g, In g gps -> g_eta g + g_xi g + g_zeta g = 1.
Proof.
  intros H. destruct (gauss_cases n gps H) as [[_ ->]|[[_ ->]|[[_ ->]|[_ ->]]]];
    auto using gps6_sum1, gps4_sum1; cbn [In gps1 gps3]; intros g Hg;
    repeat destruct Hg as [<- | Hg]; try contradiction; cbn; field.
Qed.

Lemma gauss_inside (n : Z) (gps : list gp) : gauss_points n = Ok gps ->
  forall g, In g gps -> 0 < g_eta g /\ 0 < g_xi g /\ 0 < g_zeta g.
Proof.
  intros H. pose proof g6_g1_bounds. pose proof g6_g2_bounds.
  destruct (gauss_cases n gps H) as [[_ ->]|[[_ ->]|[[_ ->]|[_ ->]]]];
    cbn [In gps1 gps3 gps4 gps6]; intros g Hg;
    repeat destruct Hg as [<- | Hg]; try contradiction; cbn [g_eta g_xi g_zeta]; lra.
Qed.

Lemma gauss_weights (n : Z) (gps : list gp) : gauss_points n = Ok gps -> sumf g_w gps = 1.
Proof.
  intros H. unfold sumf, Rsum.
  destruct (gauss_cases n gps H) as [[_ ->]|[[_ ->]|[[_ ->]|[_ ->]]]];
    cbn [gps1 gps3 gps4 gps6 map fold_right g_w]; try field.
  rewrite g6_w1_alt, g6_w2_alt. field.
Qed.

(** The polynomial degree integrated exactly by the n-point rule. *)
Definition rule_degree (n : Z) : nat :=
  match n with 1%Z => 1 | 3%Z => 2 | 4%Z => 3 | 6%Z => 4 | _ => 0 end%nat.

Lemma sumf_ext {A : Type} (f g : A -> R) (l : list A) :
  (forall x, In x l -> f x = g x) -> sumf f l = sumf g l.
Proof.
  intros H. unfold sumf. f_equal. apply map_ext_in. exact H.
Qed.

Lemma sumf_scal {A : Type} (k : R) (f : A -> R) (l : list A) :
  sumf (fun x => k * f x) l = k * sumf f l.
Proof. unfold sumf, Rsum. induction l; cbn; [ring|]. rewrite IHl. ring. Qed.

Lemma gauss_exact (n : Z) (gps : list gp) (f : R -> R -> R) (a b c : point) :
  gauss_points n = Ok gps -> poly_deg (rule_degree n) f ->
  sumf (fun g => g_w g * (Rabs (orient a b c) / 2) *
      f (g_eta g * fst a + g_xi g * fst b + g_zeta g * fst c)
        (g_eta g * snd a + g_xi g * snd b + g_zeta g * snd c)) gps
  = tri_int a b c f.
Proof.
  intros Hn Hf.
  assert (Hd : (rule_degree n <= 4)%nat).
  { destruct (gauss_cases n gps Hn) as [[-> _]|[[-> _]|[[-> _]|[-> _]]]]; cbn; lia. }
  destruct (poly_affine _ _ Hf Hd (fst a) (fst b - fst a) (fst c - fst a)
              (snd a) (snd b - snd a) (snd c - snd a)) as [k [Hk E]].
  unfold tri_int. rewrite (simplex_int_ext _ _ E), simplex_int_P4c.
  rewrite (sumf_ext _ (fun g => Rabs (orient a b c) / 2 * (g_w g * P4c k (g_xi g) (g_zeta g)))).
  2:{ intros g Hg. rewrite <- E.
      replace (g_eta g) with (1 - g_xi g - g_zeta g) by (rewrite <- (gauss_sum1 n gps Hn g Hg); ring).
      replace ((1 - g_xi g - g_zeta g) * fst a + g_xi g * fst b + g_zeta g * fst c)
        with (fst a + g_xi g * (fst b - fst a) + g_zeta g * (fst c - fst a)) by ring.
      replace ((1 - g_xi g - g_zeta g) * snd a + g_xi g * snd b + g_zeta g * snd c)
        with (snd a + g_xi g * (snd b - snd a) + g_zeta g * (snd c - snd a)) by ring.
      ring. }
  rewrite sumf_scal. change (sumf _ gps) with (qsum gps (fun _ s t => P4c k s t)).
  assert (Hq : qsum gps (fun _ s t => P4c k s t) = 2 * P4c_val k).
  { destruct (gauss_cases n gps Hn) as [[-> ->]|[[-> ->]|[[-> ->]|[-> ->]]]]; cbn in Hk.
    - apply gps1_exact, Hk.
    - apply gps3_exact, Hk.
    - apply gps4_exact, Hk.
    - apply gps6_exact. }
  rewrite Hq. field.
Qed.

(** ** Valid elements *)

Section Valid.
Context (el : tri6) (Hv : valid_el el).
Let a := corner_a el. Let b := corner_b el. Let c := corner_c el.

Lemma valid_shape (g : gp) : g_eta g + g_xi g + g_zeta g = 1 ->
  shape_function (el_x el) (el_y el) g =
  mkShape (shape_n (g_eta g) (g_xi g) (g_zeta g))
    (grad6 (g_eta g) (g_xi g) (g_zeta g) ((snd b - snd c) / orient a b c) ((snd c - snd a) / orient a b c)
           ((snd a - snd b) / orient a b c))
    (grad6 (g_eta g) (g_xi g) (g_zeta g) ((fst c - fst b) / orient a b c) ((fst a - fst c) / orient a b c)
           ((fst b - fst a) / orient a b c))
    (orient a b c / 2)
    (fst (el_point el (g_eta g) (g_xi g) (g_zeta g)))
    (snd (el_point el (g_eta g) (g_xi g) (g_zeta g))).
Proof.
  intros Hs. destruct Hv as [[Hx Hy] Ho].
  transitivity (shape_function (side_nodes (fst a) (fst b) (fst c)) (side_nodes (snd a) (snd b) (snd c)) g).
  { unfold a, b, c. rewrite <- Hx, <- Hy. reflexivity. }
  destruct g as [w eta xi zeta]. apply shape_straight; [exact Hs|].
  fold a b c in Ho. lra.
Qed.
End Valid.

(** Weighted sum over the four point rule of a function of position on a valid element. *)
Definition el_q4 (el : tri6) (f : R -> R -> R) : R :=
  sumf (fun g => g_w g * (orient (corner_a el) (corner_b el) (corner_c el) / 2) *
     f (fst (el_point el (g_eta g) (g_xi g) (g_zeta g)))
       (snd (el_point el (g_eta g) (g_xi g) (g_zeta g)))) gps4.

Lemma el_q4_exact (el : tri6) (f : R -> R -> R) :
  valid_el el -> poly_deg 3 f -> el_q4 el f = el_int el f.
Proof.
  intros [_ Ho] Hf. unfold el_int.
  rewrite <- (gauss_exact 4 gps4 f); [|reflexivity|exact Hf].
  unfold el_q4. rewrite (Rabs_right (orient _ _ _)) by lra. reflexivity.
Qed.

Lemma sumf_cons {A : Type} (f : A -> R) (x : A) (l : list A) : sumf f (x :: l) = f x + sumf f l.
Proof. reflexivity. Qed.

(** Weighted sum over any rule. *)
Definition el_qs (el : tri6) (gps : list gp) (f : R -> R -> R) : R :=
  sumf (fun g => g_w g * (orient (corner_a el) (corner_b el) (corner_c el) / 2) *
     f (fst (el_point el (g_eta g) (g_xi g) (g_zeta g)))
       (snd (el_point el (g_eta g) (g_xi g) (g_zeta g)))) gps.

Lemma el_qs_cons (el : tri6) (g : gp) (gps : list gp) (f : R -> R -> R) :
  el_qs el (g :: gps) f = g_w g * (orient (corner_a el) (corner_b el) (corner_c el) / 2) *
     f (fst (el_point el (g_eta g) (g_xi g) (g_zeta g)))
       (snd (el_point el (g_eta g) (g_xi g) (g_zeta g))) + el_qs el gps f.
Proof. reflexivity. Qed.

Lemma geometric_fold (el : tri6) (gps : list gp) : valid_el el ->
  (forall g, In g gps -> g_eta g + g_xi g + g_zeta g = 1) -> forall acc,
  fold_left
    (fun acc g =>
       let s := shape_function (el_x el) (el_y el) g in
       let weight := g_w g * sh_j s in
       mkGeomOut
         (ge_area acc + weight)
         (ge_qx acc + weight * sh_ny s)
         (ge_qy acc + weight * sh_nx s)
         (ge_ixx acc + weight * (sh_ny s) ^ 2)
         (ge_iyy acc + weight * (sh_nx s) ^ 2)
         (ge_ixy acc + weight * sh_ny s * sh_nx s)
         (ge_e acc) (ge_g acc) (ge_rho acc)) gps acc =
  mkGeomOut (ge_area acc + el_qs el gps (fun _ _ => 1)) (ge_qx acc + el_qs el gps (fun _ y => y))
    (ge_qy acc + el_qs el gps (fun x _ => x)) (ge_ixx acc + el_qs el gps (fun _ y => y * y))
    (ge_iyy acc + el_qs el gps (fun x _ => x * x)) (ge_ixy acc + el_qs el gps (fun x y => x * y))
    (ge_e acc) (ge_g acc) (ge_rho acc).
Proof.
  intros Hv. induction gps as [|g gps IH]; intros Hs acc.
  - cbn [fold_left]. unfold el_qs, sumf, Rsum. cbn [map fold_right].
    destruct acc; cbn. f_equal; ring.
  - cbn [fold_left]. rewrite IH by (intros; apply Hs; right; assumption).
    rewrite !el_qs_cons. cbv zeta.
    rewrite (valid_shape el Hv g) by (apply Hs; left; reflexivity).
    cbn [sh_j sh_nx sh_ny ge_area ge_qx ge_qy ge_ixx ge_iyy ge_ixy ge_e ge_g ge_rho].
    f_equal; ring.
Qed.

Lemma geometric_properties_valid (el : tri6) : valid_el el ->
  geometric_properties el =
  mkGeomOut (el_q4 el (fun _ _ => 1)) (el_q4 el (fun _ y => y)) (el_q4 el (fun x _ => x))
    (el_q4 el (fun _ y => y * y)) (el_q4 el (fun x _ => x * x)) (el_q4 el (fun x y => x * y))
    (m_E (el_mat el)) (shear_modulus (el_mat el)) (m_rho (el_mat el)).
Proof.
  intros Hv. unfold geometric_properties.
  rewrite (geometric_fold el gps4 Hv gps4_sum1).
  cbn [ge_area ge_qx ge_qy ge_ixx ge_iyy ge_ixy ge_e ge_g ge_rho].
  change (el_qs el gps4) with (el_q4 el). f_equal; ring.
Qed.

Lemma geometric_properties_exact (el : tri6) : valid_el el ->
  geometric_properties el =
  mkGeomOut (el_int el (fun _ _ => 1)) (el_int el (fun _ y => y)) (el_int el (fun x _ => x))
    (el_int el (fun _ y => y * y)) (el_int el (fun x _ => x * x)) (el_int el (fun x y => x * y))
    (m_E (el_mat el)) (shear_modulus (el_mat el)) (m_rho (el_mat el)).
Proof.
  intros Hv. rewrite geometric_properties_valid by exact Hv.
  pose proof (poly_mul 1 1 _ _ poly_x poly_x) as Hxx.
  pose proof (poly_mul 1 1 _ _ poly_y poly_y) as Hyy.
  pose proof (poly_mul 1 1 _ _ poly_x poly_y) as Hxy.
  rewrite !el_q4_exact; try exact Hv; try reflexivity;
  first [ apply poly_c
        | apply (poly_weaken 1); [first [apply poly_x | apply poly_y]|lia]
        | apply (poly_weaken 2); [first [exact Hxx|exact Hyy|exact Hxy]|lia] ].
Qed.
