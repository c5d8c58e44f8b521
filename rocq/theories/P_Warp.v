(** Warping: element identities and assembly. *)
From Coq Require Import Reals List Lra Lia Permutation.
From Coquelicot Require Import Coquelicot.
From Verif Require Import Base S_Integral M_Fea S_Fem M_Post M_Section S_Section S_Post S_Warp
  P_Integral P_Fea P_Geom P_Section P_Totals P_Post P_Yield.
Import ListNotations.
Local Open Scope R_scope.

(** ** Discrete fields: a value for every element and Gauss point *)

Definition shp (el : tri6) (g : gp) : shape_out := shape_function (el_x el) (el_y el) g.
Definition gx (el : tri6) (u : V6) (g : gp) : R := dot6 (sh_b0 (shp el g)) u.
Definition gy (el : tri6) (u : V6) (g : gp) : R := dot6 (sh_b1 (shp el g)) u.
Definition vl (el : tri6) (u : V6) (g : gp) : R := dot6 (sh_n (shp el g)) u.
Definition px (el : tri6) (g : gp) : R := sh_nx (shp el g).
Definition py (el : tri6) (g : gp) : R := sh_ny (shp el g).

(** E-weighted quadrature of a field over an element, and over a mesh. *)
Definition Qr (el : tri6) (gps : list gp) (F : gp -> R) : R :=
  sumf (fun g => g_w g * sh_j (shp el g) * m_E (el_mat el) * F g) gps.
Definition Q (el : tri6) (F : gp -> R) : R := Qr el gps4 F.
Definition field : Type := tri6 -> gp -> R.
Definition MQ (els : list tri6) (F : field) : R := sumf (fun el => Q el (F el)) els.

Lemma Qr_cons el g gps F : Qr el (g :: gps) F = g_w g * sh_j (shp el g) * m_E (el_mat el) * F g + Qr el gps F.
Proof. reflexivity. Qed.
Lemma Qr_nil el F : Qr el [] F = 0. Proof. reflexivity. Qed.

Lemma Q_ext el F G : (forall g, In g gps4 -> F g = G g) -> Q el F = Q el G.
Proof. intros H. apply sumf_ext. intros g Hg. rewrite (H g Hg). reflexivity. Qed.
Lemma Q_plus el F G : Q el (fun g => F g + G g) = Q el F + Q el G.
Proof. unfold Q, Qr. rewrite <- sumf_plus. apply sumf_ext. intros. ring. Qed.
Lemma Q_scal el k F : Q el (fun g => k * F g) = k * Q el F.
Proof. unfold Q, Qr. rewrite <- sumf_scal. apply sumf_ext. intros. ring. Qed.

Lemma MQ_ext els F G : (forall el g, In el els -> In g gps4 -> F el g = G el g) -> MQ els F = MQ els G.
Proof. intros H. apply sumf_ext. intros el Hel. apply Q_ext. intros g Hg. apply H; assumption. Qed.
Lemma MQ_plus els F G : MQ els (fun el g => F el g + G el g) = MQ els F + MQ els G.
Proof. unfold MQ. rewrite <- sumf_plus. apply sumf_ext. intros. apply Q_plus. Qed.
Lemma MQ_scal els k F : MQ els (fun el g => k * F el g) = k * MQ els F.
Proof. unfold MQ. rewrite <- sumf_scal. apply sumf_ext. intros. apply Q_scal. Qed.
Lemma MQ_zero els F : (forall el g, In el els -> In g gps4 -> F el g = 0) -> MQ els F = 0.
Proof.
  intros H. rewrite (MQ_ext els F (fun el g => 0 * 0)); [|intros; rewrite H by assumption; ring].
  rewrite (MQ_scal els 0 (fun _ _ => 0)). ring.
Qed.
(** linear combination of several fields *)
Lemma MQ_lin2 els a b F G : MQ els (fun el g => a * F el g + b * G el g) = a * MQ els F + b * MQ els G.
Proof. rewrite MQ_plus, !MQ_scal. reflexivity. Qed.
Lemma MQ_lin3 els a b c F G H : MQ els (fun el g => a * F el g + b * G el g + c * H el g) =
  a * MQ els F + b * MQ els G + c * MQ els H.
Proof. rewrite MQ_plus, MQ_lin2, MQ_scal. reflexivity. Qed.

(** functions of position *)
Lemma MQ_pos els f : MQ els (fun el g => f (px el g) (py el g)) = mesh_q m_E f els.
Proof.
  unfold MQ, mesh_q, Q, Qr, el_q, el_qr. apply sumf_ext. intros el _. rewrite <- sumf_scal. apply sumf_ext.
  intros g _. cbv zeta. unfold px, py, shp. ring.
Qed.

(** ** 6-vector algebra *)

Ltac v6 := unfold bT2, zero6, dot6, add6, scal6, zip6, map6, const6, sum6; cbn [Base.v0 Base.v1 Base.v2 Base.v3 Base.v4 Base.v5].

Lemma dot6_add u v w : dot6 u (add6 v w) = dot6 u v + dot6 u w. Proof. v6. ring. Qed.
Lemma dot6_scal u k v : dot6 u (scal6 k v) = k * dot6 u v. Proof. v6. ring. Qed.
Lemma dot6_comm u v : dot6 u v = dot6 v u. Proof. v6. ring. Qed.
Lemma dot6_zero u : dot6 u zero6 = 0. Proof. v6. ring. Qed.
Lemma dot6_bT2 u b0 b1 p q : dot6 u (bT2 b0 b1 p q) = p * dot6 b0 u + q * dot6 b1 u. Proof. v6. ring. Qed.

Lemma mulM6_add a b v : mulM6 (addM6 a b) v = add6 (mulM6 a v) (mulM6 b v).
Proof. destruct a as [? ? ? ? ? ?], b as [? ? ? ? ? ?]. unfold mulM6, addM6. cbn [M_Fea.r0 M_Fea.r1 M_Fea.r2 M_Fea.r3 M_Fea.r4 M_Fea.r5]. v6. f_equal; ring. Qed.
Lemma mulM6_scal k a v : mulM6 (scalM6 k a) v = scal6 k (mulM6 a v).
Proof. destruct a as [? ? ? ? ? ?]. unfold mulM6, scalM6. cbn [M_Fea.r0 M_Fea.r1 M_Fea.r2 M_Fea.r3 M_Fea.r4 M_Fea.r5]. v6. f_equal; ring. Qed.
Lemma mulM6_outer a b v : mulM6 (outer6 a b) v = scal6 (dot6 b v) a.
Proof. unfold mulM6, outer6. cbn [M_Fea.r0 M_Fea.r1 M_Fea.r2 M_Fea.r3 M_Fea.r4 M_Fea.r5]. v6. f_equal; ring. Qed.
Lemma mulM6_zero v : mulM6 zeroM6 v = zero6.
Proof. unfold mulM6, zeroM6. cbn [M_Fea.r0 M_Fea.r1 M_Fea.r2 M_Fea.r3 M_Fea.r4 M_Fea.r5]. v6. f_equal; ring. Qed.

(** ** Element matrices and vectors *)

Lemma torsion_fold (el : tri6) (u v : V6) (gps : list gp) : forall k f c,
  let '(k', f', c') :=
    fold_left
      (fun acc g =>
         let '(k, f, c) := acc in
         let s := shape_function (el_x el) (el_y el) g in
         let weight := g_w g * sh_j s * m_E (el_mat el) in
         assemble_torsion_gp k f c (sh_n s) (sh_b0 s) (sh_b1 s) weight (sh_nx s) (sh_ny s))
      gps (k, f, c) in
  dot6 v (mulM6 k' u) = dot6 v (mulM6 k u) + Qr el gps (fun g => gx el u g * gx el v g + gy el u g * gy el v g) /\
  dot6 v f' = dot6 v f + Qr el gps (fun g => gx el v g * py el g - gy el v g * px el g) /\
  dot6 v c' = dot6 v c + Qr el gps (vl el v).
Proof.
  induction gps as [|g gps IH]; intros k f c.
  - cbn [fold_left]. rewrite !Qr_nil. repeat split; ring.
  - cbn [fold_left]. set (s := shape_function (el_x el) (el_y el) g).
    set (w := g_w g * sh_j s * m_E (el_mat el)).
    unfold assemble_torsion_gp at 2.
    specialize (IH (addM6 k (scalM6 w (addM6 (outer6 (sh_b0 s) (sh_b0 s)) (outer6 (sh_b1 s) (sh_b1 s)))))
      (add6 f (scal6 w (bT2 (sh_b0 s) (sh_b1 s) (sh_ny s) (- sh_nx s)))) (add6 c (scal6 w (sh_n s)))).
    destruct (fold_left _ gps _) as [[k' f'] c']. destruct IH as [H1 [H2 H3]].
    rewrite H1, H2, H3, !Qr_cons. unfold gx, gy, vl, px, py, shp. fold s. fold w.
    rewrite !mulM6_add, mulM6_scal, mulM6_add, !mulM6_outer, !dot6_add, !dot6_scal, !dot6_add, !dot6_scal, dot6_bT2.
    rewrite (dot6_comm v (sh_b0 s)), (dot6_comm v (sh_b1 s)), (dot6_comm v (sh_n s)). repeat split; ring.
Qed.

Lemma torsion_el (el : tri6) (u v : V6) :
  let '(k, f, c) := torsion_properties el in
  dot6 v (mulM6 k u) = Q el (fun g => gx el u g * gx el v g + gy el u g * gy el v g) /\
  dot6 v f = Q el (fun g => gx el v g * py el g - gy el v g * px el g) /\
  dot6 v c = Q el (vl el v).
Proof.
  unfold torsion_properties. pose proof (torsion_fold el u v gps4 zeroM6 zero6 zero6) as H.
  destruct (fold_left _ gps4 _) as [[k f] c]. destruct H as [H1 [H2 H3]].
  rewrite H1, H2, H3, mulM6_zero, dot6_zero. unfold Q. repeat split; ring.
Qed.

(** shear parameters at a Gauss point *)
Definition spar (ixx iyy ixy : R) (el : tri6) (g : gp) : shear_par := shear_parameter (px el g) (py el g) ixx iyy ixy.

Lemma shear_fold (el : tri6) (ixx iyy ixy nu : R) (v : V6) (gps : list gp) : forall f h,
  let '(f', h') :=
    fold_left
      (fun acc g =>
         let '(f_psi, f_phi) := acc in
         let s := shape_function (el_x el) (el_y el) g in
         let weight := g_w g * sh_j s * m_E (el_mat el) in
         assemble_shear_load_gp f_psi f_phi (sh_b0 s) (sh_b1 s) (sh_n s)
           weight (sh_nx s) (sh_ny s) ixx iyy ixy nu) gps (f, h) in
  dot6 v f' = dot6 v f + Qr el gps (fun g => nu / 2 * (gx el v g * sp_d1 (spar ixx iyy ixy el g) + gy el v g * sp_d2 (spar ixx iyy ixy el g))
     + 2 * (1 + nu) * (ixx * px el g - ixy * py el g) * vl el v g) /\
  dot6 v h' = dot6 v h + Qr el gps (fun g => nu / 2 * (gx el v g * sp_h1 (spar ixx iyy ixy el g) + gy el v g * sp_h2 (spar ixx iyy ixy el g))
     + 2 * (1 + nu) * (iyy * py el g - ixy * px el g) * vl el v g).
Proof.
  induction gps as [|g gps IH]; intros f h.
  - cbn [fold_left]. rewrite !Qr_nil. split; ring.
  - cbn [fold_left]. set (s := shape_function (el_x el) (el_y el) g).
    set (w := g_w g * sh_j s * m_E (el_mat el)).
    unfold assemble_shear_load_gp at 2.
    match goal with |- context [fold_left _ gps (?a, ?b)] => specialize (IH a b) end.
    destruct (fold_left _ gps _) as [f' h']. destruct IH as [H1 H2].
    rewrite H1, H2, !Qr_cons. unfold spar, gx, gy, vl, px, py, shp. fold s. fold w.
    set (sp := shear_parameter (sh_nx s) (sh_ny s) ixx iyy ixy).
    rewrite !dot6_add, !dot6_scal, !dot6_add, !dot6_scal, !dot6_bT2, (dot6_comm v (sh_n s)).
    split; ring.
Qed.

Lemma shear_el (el : tri6) (ixx iyy ixy nu : R) (v : V6) :
  let '(f, h) := shear_load_vectors el ixx iyy ixy nu in
  dot6 v f = Q el (fun g => nu / 2 * (gx el v g * sp_d1 (spar ixx iyy ixy el g) + gy el v g * sp_d2 (spar ixx iyy ixy el g))
     + 2 * (1 + nu) * (ixx * px el g - ixy * py el g) * vl el v g) /\
  dot6 v h = Q el (fun g => nu / 2 * (gx el v g * sp_h1 (spar ixx iyy ixy el g) + gy el v g * sp_h2 (spar ixx iyy ixy el g))
     + 2 * (1 + nu) * (iyy * py el g - ixy * px el g) * vl el v g).
Proof.
  unfold shear_load_vectors. pose proof (shear_fold el ixx iyy ixy nu v gps4 zero6 zero6) as H.
  destruct (fold_left _ gps4 _) as [f h]. destruct H as [H1 H2]. rewrite H1, H2, dot6_zero. unfold Q. split; ring.
Qed.

Lemma warping_int_fold (el : tri6) (ixx iyy ixy : R) (om : V6) (gps : list gp) : forall acc,
  fold_left
    (fun acc g =>
       let s := shape_function (el_x el) (el_y el) g in
       let weight := g_w g * sh_j s * m_E (el_mat el) in
       let nx := sh_nx s in
       let ny := sh_ny s in
       let n_omega := dot6 (sh_n s) om in
       mkWarpInt
         (wi_scx acc + weight * (iyy * nx + ixy * ny) * (nx ^ 2 + ny ^ 2))
         (wi_scy acc + weight * (ixx * ny + ixy * nx) * (nx ^ 2 + ny ^ 2))
         (wi_q acc + weight * n_omega)
         (wi_i acc + weight * n_omega ^ 2)
         (wi_ix acc + weight * nx * n_omega)
         (wi_iy acc + weight * ny * n_omega)) gps acc =
  mkWarpInt
    (wi_scx acc + Qr el gps (fun g => (iyy * px el g + ixy * py el g) * (px el g ^ 2 + py el g ^ 2)))
    (wi_scy acc + Qr el gps (fun g => (ixx * py el g + ixy * px el g) * (px el g ^ 2 + py el g ^ 2)))
    (wi_q acc + Qr el gps (vl el om)) (wi_i acc + Qr el gps (fun g => vl el om g ^ 2))
    (wi_ix acc + Qr el gps (fun g => px el g * vl el om g)) (wi_iy acc + Qr el gps (fun g => py el g * vl el om g)).
Proof.
  induction gps as [|g gps IH]; intros acc.
  - cbn [fold_left]. rewrite !Qr_nil. destruct acc as [? ? ? ? ? ?]. cbn [M_Fea.wi_scx M_Fea.wi_scy M_Fea.wi_q M_Fea.wi_i M_Fea.wi_ix M_Fea.wi_iy]. f_equal; ring.
  - cbn [fold_left]. rewrite IH. cbv zeta. cbn [M_Fea.wi_scx M_Fea.wi_scy M_Fea.wi_q M_Fea.wi_i M_Fea.wi_ix M_Fea.wi_iy]. rewrite !Qr_cons.
    unfold vl, px, py, shp. set (s := shape_function (el_x el) (el_y el) g). f_equal; ring.
Qed.

Lemma warping_int_el (el : tri6) (ixx iyy ixy : R) (om : V6) :
  shear_warping_integrals el ixx iyy ixy om =
  mkWarpInt
    (Q el (fun g => (iyy * px el g + ixy * py el g) * (px el g ^ 2 + py el g ^ 2)))
    (Q el (fun g => (ixx * py el g + ixy * px el g) * (px el g ^ 2 + py el g ^ 2)))
    (Q el (vl el om)) (Q el (fun g => vl el om g ^ 2))
    (Q el (fun g => px el g * vl el om g)) (Q el (fun g => py el g * vl el om g)).
Proof.
  unfold shear_warping_integrals. rewrite warping_int_fold. unfold zero_warp_int.
  cbn [M_Fea.wi_scx M_Fea.wi_scy M_Fea.wi_q M_Fea.wi_i M_Fea.wi_ix M_Fea.wi_iy]. unfold Q. f_equal; ring.
Qed.

Lemma coeff_fold (el : tri6) (ixx iyy ixy nu : R) (psi phi : V6) (gps : list gp) : forall a b c,
  fold_left
    (fun acc g =>
       let s := shape_function (el_x el) (el_y el) g in
       let weight := g_w g * sh_j s * m_E (el_mat el) in
       assemble_shear_coefficients_gp acc psi phi (sh_b0 s) (sh_b1 s)
         weight (sh_nx s) (sh_ny s) ixx iyy ixy nu) gps (a, b, c) =
  let p1 g := gx el psi g - nu / 2 * sp_d1 (spar ixx iyy ixy el g) in
  let p2 g := gy el psi g - nu / 2 * sp_d2 (spar ixx iyy ixy el g) in
  let h1 g := gx el phi g - nu / 2 * sp_h1 (spar ixx iyy ixy el g) in
  let h2 g := gy el phi g - nu / 2 * sp_h2 (spar ixx iyy ixy el g) in
  (a + Qr el gps (fun g => p1 g * p1 g + p2 g * p2 g),
   b + Qr el gps (fun g => h1 g * h1 g + h2 g * h2 g),
   c + Qr el gps (fun g => p1 g * h1 g + p2 g * h2 g)).
Proof.
  induction gps as [|g gps IH]; intros a b c.
  - cbn [fold_left]. cbv zeta. rewrite !Qr_nil. f_equal; [f_equal|]; ring.
  - cbn [fold_left]. unfold assemble_shear_coefficients_gp at 2. rewrite IH. cbv zeta. rewrite !Qr_cons.
    unfold spar, gx, gy, px, py, shp. set (s := shape_function (el_x el) (el_y el) g).
    set (sp := shear_parameter (sh_nx s) (sh_ny s) ixx iyy ixy). f_equal; [f_equal|]; ring.
Qed.

Lemma mono_fold (el : tri6) (phi : R) (gps : list gp) : forall acc,
  let pc g := principal_coordinate phi (px el g) (py el g) in
  fold_left
    (fun acc g =>
       let s := shape_function (el_x el) (el_y el) g in
       let weight := g_w g * sh_j s * m_E (el_mat el) in
       let nx := sh_nx s in
       let ny := sh_ny s in
       let '(nx_11, ny_22) := principal_coordinate phi nx ny in
       mkMono
         (mi_x acc + weight * (nx * nx * ny + ny * ny * ny))
         (mi_y acc + weight * (ny * ny * nx + nx * nx * nx))
         (mi_11 acc + weight * (nx_11 * nx_11 * ny_22 + ny_22 * ny_22 * ny_22))
         (mi_22 acc + weight * (ny_22 * ny_22 * nx_11 + nx_11 * nx_11 * nx_11))) gps acc =
  mkMono
    (mi_x acc + Qr el gps (fun g => px el g ^ 2 * py el g + py el g ^ 3))
    (mi_y acc + Qr el gps (fun g => py el g ^ 2 * px el g + px el g ^ 3))
    (mi_11 acc + Qr el gps (fun g => fst (pc g) ^ 2 * snd (pc g) + snd (pc g) ^ 3))
    (mi_22 acc + Qr el gps (fun g => snd (pc g) ^ 2 * fst (pc g) + fst (pc g) ^ 3)).
Proof.
  induction gps as [|g gps IH]; intros acc pc.
  - cbn [fold_left]. rewrite !Qr_nil. destruct acc as [? ? ? ?]. cbn [M_Fea.mi_x M_Fea.mi_y M_Fea.mi_11 M_Fea.mi_22]. f_equal; ring.
  - cbn [fold_left]. rewrite IH. cbv zeta. rewrite !Qr_cons. fold pc.
    unfold pc, px, py, shp. set (s := shape_function (el_x el) (el_y el) g).
    unfold principal_coordinate. cbn [fst snd M_Fea.mi_x M_Fea.mi_y M_Fea.mi_11 M_Fea.mi_22]. f_equal; ring.
Qed.

(** ** Finite sums *)

Lemma sumn_ext n f g : (forall i, (i < n)%nat -> f i = g i) -> sumn n f = sumn n g.
Proof. induction n; intros H; cbn [sumn]; [reflexivity|]. rewrite IHn by (intros; apply H; lia). rewrite H by lia. reflexivity. Qed.
Lemma sumn_plus n f g : sumn n (fun i => f i + g i) = sumn n f + sumn n g.
Proof. induction n; cbn [sumn]; [ring|rewrite IHn; ring]. Qed.
Lemma sumn_scal n k f : sumn n (fun i => k * f i) = k * sumn n f.
Proof. induction n; cbn [sumn]; [ring|rewrite IHn; ring]. Qed.
Lemma sumn_zero n f : (forall i, (i < n)%nat -> f i = 0) -> sumn n f = 0.
Proof. induction n; intros H; cbn [sumn]; [reflexivity|]. rewrite IHn by (intros; apply H; lia). rewrite H by lia. ring. Qed.
Lemma sumn_delta n k (f : nat -> R) : (k < n)%nat -> sumn n (fun i => if Nat.eqb i k then f i else 0) = f k.
Proof.
  induction n; intros H; [lia|]. cbn [sumn]. destruct (Nat.eq_dec k n) as [->|N].
  - rewrite sumn_zero.
    + rewrite Nat.eqb_refl. ring.
    + intros i Hi. destruct (Nat.eqb_spec i n); [lia|reflexivity].
  - rewrite IHn by lia. destruct (Nat.eqb_spec n k); [lia|ring].
Qed.
Lemma sumn_swap n m (f : nat -> nat -> R) : sumn n (fun i => sumn m (f i)) = sumn m (fun j => sumn n (fun i => f i j)).
Proof.
  induction n; cbn [sumn].
  - symmetry. apply sumn_zero. reflexivity.
  - rewrite IHn, <- sumn_plus. apply sumn_ext. reflexivity.
Qed.
Lemma sumn_sumf {A} n (f : nat -> A -> R) (l : list A) : sumn n (fun i => sumf (f i) l) = sumf (fun a => sumn n (fun i => f i a)) l.
Proof.
  induction l as [|a l IH].
  - rewrite sumf_nil. apply sumn_zero. reflexivity.
  - rewrite sumf_cons, <- IH, <- sumn_plus. apply sumn_ext. intros. apply sumf_cons.
Qed.

(** ** Assembly *)

Definition dlt (i k : nat) (v : R) : R := if Nat.eqb i k then v else 0.

Lemma scatter_sum (f : nat -> R) (c : conn6) (v : V6) (i : nat) : NoDup (ids_list c) ->
  scatter_add f c v i = f i + (dlt i (c0 c) (v0 v) + dlt i (c1 c) (v1 v) + dlt i (c2 c) (v2 v)
    + dlt i (c3 c) (v3 v) + dlt i (c4 c) (v4 v) + dlt i (c5 c) (v5 v)).
Proof.
  intros H. unfold ids_list in H.
  repeat match goal with H : NoDup (_ :: _) |- _ => let N := fresh "N" in inversion H as [|? ? N H']; clear H; rename H' into H; cbn [In] in N; subst end.
  unfold scatter_add, dlt.
  destruct (Nat.eqb_spec i (c5 c)), (Nat.eqb_spec i (c4 c)), (Nat.eqb_spec i (c3 c)), (Nat.eqb_spec i (c2 c)),
    (Nat.eqb_spec i (c1 c)), (Nat.eqb_spec i (c0 c)); try ring; exfalso; intuition congruence.
Qed.

Lemma dotn_scatter (n : nat) (u f : nat -> R) (c : conn6) (v : V6) :
  NoDup (ids_list c) -> (forall k, In k (ids_list c) -> (k < n)%nat) ->
  dotn n u (scatter_add f c v) = dotn n u f + dot6 (gather u c) v.
Proof.
  intros Hd Hl. unfold dotn.
  rewrite (sumn_ext n _ (fun i => u i * f i + (
     (if Nat.eqb i (c0 c) then u i * v0 v else 0) + (if Nat.eqb i (c1 c) then u i * v1 v else 0)
   + (if Nat.eqb i (c2 c) then u i * v2 v else 0) + (if Nat.eqb i (c3 c) then u i * v3 v else 0)
   + (if Nat.eqb i (c4 c) then u i * v4 v else 0) + (if Nat.eqb i (c5 c) then u i * v5 v else 0)))).
  - rewrite !sumn_plus.
    rewrite (sumn_delta n (c0 c) (fun i => u i * v0 v)), (sumn_delta n (c1 c) (fun i => u i * v1 v)),
     (sumn_delta n (c2 c) (fun i => u i * v2 v)), (sumn_delta n (c3 c) (fun i => u i * v3 v)),
     (sumn_delta n (c4 c) (fun i => u i * v4 v)), (sumn_delta n (c5 c) (fun i => u i * v5 v))
     by (apply Hl; unfold ids_list; cbn [In]; tauto).
    unfold dot6, gather. cbn [Base.v0 Base.v1 Base.v2 Base.v3 Base.v4 Base.v5]. ring.
  - intros i _. rewrite scatter_sum by exact Hd. unfold dlt.
    repeat match goal with |- context [if ?b then _ else _] => destruct b end; ring.
Qed.

(** nodal vector as a discrete field *)
Definition Gx (u : nat -> R) : field := fun el g => gx el (gather u (el_ids el)) g.
Definition Gy (u : nat -> R) : field := fun el g => gy el (gather u (el_ids el)) g.
Definition Vl (u : nat -> R) : field := fun el g => vl el (gather u (el_ids el)) g.

Definition wf_ids (n : nat) (els : list tri6) : Prop :=
  forall el, In el els -> NoDup (ids_list (el_ids el)) /\ (forall k, In k (ids_list (el_ids el)) -> (k < n)%nat).

Lemma torsion_loop_acc (els : list tri6) : forall st,
  fold_left torsion_step els st =
  (fst (fst st) ++ concat (map (fun el => el_coo (el_ids el) (fst (fst (torsion_properties el)))) els),
   fold_left (fun f el => scatter_add f (el_ids el) (snd (fst (torsion_properties el)))) els (snd (fst st)),
   fold_left (fun f el => scatter_add f (el_ids el) (snd (torsion_properties el))) els (snd st)).
Proof.
  induction els as [|el els IH]; intros [[e f] c].
  - cbn [fold_left map concat fst snd]. rewrite app_nil_r. reflexivity.
  - cbn [fold_left map concat]. rewrite IH. unfold torsion_step. destruct (torsion_properties el) as [[k ff] cc].
    cbn [fst snd]. rewrite app_assoc. reflexivity.
Qed.

Lemma dotn_scatter_fold (n : nat) (u : nat -> R) (v : tri6 -> V6) (els : list tri6) : wf_ids n els -> forall f,
  dotn n u (fold_left (fun f el => scatter_add f (el_ids el) (v el)) els f) =
  dotn n u f + sumf (fun el => dot6 (gather u (el_ids el)) (v el)) els.
Proof.
  induction els as [|el els IH]; intros Hw f.
  - cbn [fold_left]. rewrite sumf_nil. ring.
  - cbn [fold_left]. rewrite IH by (intros e He; apply Hw; right; exact He).
    destruct (Hw el (or_introl eq_refl)) as [H1 H2]. rewrite dotn_scatter by assumption.
    rewrite sumf_cons. ring.
Qed.

Lemma dotn_0 n u : dotn n u (fun _ => 0) = 0.
Proof. apply sumn_zero. intros. ring. Qed.

(** bilinear form of a coo list *)
Lemma dense_form (n : nat) (l : list coo) (u v : nat -> R) :
  (forall r c x, In (r, c, x) l -> (r < n)%nat /\ (c < n)%nat) ->
  sumn n (fun i => v i * sumn n (fun j => dense l i j * u j)) = sumf (fun e => v (fst (fst e)) * snd e * u (snd (fst e))) l.
Proof.
  induction l as [|[[r c] x] l IH]; intros H.
  - rewrite sumf_nil. apply sumn_zero. intros. rewrite sumn_zero; [ring|]. intros. unfold dense. rewrite sumf_nil. ring.
  - rewrite sumf_cons, <- IH by (intros; apply (H r0 c0 x0); right; assumption).
    destruct (H r c x (or_introl eq_refl)) as [Hr Hc]. cbn [fst snd].
    rewrite (sumn_ext n _ (fun i => (if Nat.eqb i r then v i * (x * u c) else 0) + v i * sumn n (fun j => dense l i j * u j))).
    + rewrite sumn_plus, (sumn_delta n r (fun i => v i * (x * u c))) by exact Hr. ring.
    + intros i _.
      assert (E : sumn n (fun j => dense ((r, c, x) :: l : list coo) i j * u j) =
        sumn n (fun j => (if Nat.eqb j c then (if Nat.eqb i r then x else 0) * u j else 0) + dense l i j * u j)).
      { apply sumn_ext. intros j _. unfold dense. rewrite sumf_cons. rewrite (Nat.eqb_sym i r), (Nat.eqb_sym j c).
        destruct (Nat.eqb r i), (Nat.eqb c j); cbn [andb]; ring. }
      etransitivity; [exact (f_equal (Rmult (v i)) E)|]. rewrite sumn_plus.
      pose proof (sumn_delta n c (fun j => (if Nat.eqb i r then x else 0) * u j) Hc) as D. cbv beta in D.
      rewrite D. destruct (Nat.eqb i r); ring.
Qed.

Lemma el_coo_form (c : conn6) (k : M6) (u v : nat -> R) :
  sumf (fun e : coo => v (fst (fst e)) * snd e * u (snd (fst e))) (el_coo c k) = dot6 (gather v c) (mulM6 k (gather u c)).
Proof.
  destruct k as [[? ? ? ? ? ?] [? ? ? ? ? ?] [? ? ? ? ? ?] [? ? ? ? ? ?] [? ? ? ? ? ?] [? ? ? ? ? ?]]. destruct c as [? ? ? ? ? ?].
  unfold el_coo, ids_list, v6_list, m6_rows, sumf, Rsum.
  cbn [combine map concat app fst snd fold_right M_Fea.r0 M_Fea.r1 M_Fea.r2 M_Fea.r3 M_Fea.r4 M_Fea.r5 Base.v0 Base.v1 Base.v2 Base.v3 Base.v4 Base.v5 M_Fea.c0 M_Fea.c1 M_Fea.c2 M_Fea.c3 M_Fea.c4 M_Fea.c5].
  unfold dot6, mulM6, gather. cbn [M_Fea.r0 M_Fea.r1 M_Fea.r2 M_Fea.r3 M_Fea.r4 M_Fea.r5 Base.v0 Base.v1 Base.v2 Base.v3 Base.v4 Base.v5 M_Fea.c0 M_Fea.c1 M_Fea.c2 M_Fea.c3 M_Fea.c4 M_Fea.c5]. unfold dot6. cbn [Base.v0 Base.v1 Base.v2 Base.v3 Base.v4 Base.v5]. ring.
Qed.

Lemma el_coo_ids (c : conn6) (k : M6) r j x : In (r, j, x) (el_coo c k) -> In r (ids_list c) /\ In j (ids_list c).
Proof.
  unfold el_coo. rewrite in_concat. intros [l [Hl Hx]]. apply in_map_iff in Hl. destruct Hl as [[i row] [<- Hi]].
  apply in_map_iff in Hx. destruct Hx as [[j' y] [E Hj]]. cbn [fst snd] in E. injection E as <- <- <-.
  apply in_combine_l in Hi. apply in_combine_l in Hj. auto.
Qed.

Definition entries (els : list tri6) : list coo :=
  concat (map (fun el => el_coo (el_ids el) (fst (fst (torsion_properties el)))) els).

Lemma entries_ids n els : wf_ids n els -> forall r c x, In (r, c, x) (entries els) -> (r < n)%nat /\ (c < n)%nat.
Proof.
  intros Hw r c x. unfold entries. rewrite in_concat. intros [l [Hl Hx]].
  apply in_map_iff in Hl. destruct Hl as [el [<- Hel]]. apply el_coo_ids in Hx.
  destruct (Hw el Hel) as [_ H]. destruct Hx. auto.
Qed.

(** the bilinear form, load functional and constraint functional of the mesh *)
Lemma entries_form n els u v : wf_ids n els ->
  sumn n (fun i => v i * sumn n (fun j => dense (entries els) i j * u j)) =
  MQ els (fun el g => Gx u el g * Gx v el g + Gy u el g * Gy v el g).
Proof.
  intros Hw. rewrite dense_form by (apply entries_ids, Hw). unfold entries. rewrite sumf_concat, sumf_map.
  unfold MQ. apply sumf_ext. intros el _. rewrite el_coo_form.
  pose proof (torsion_el el (gather u (el_ids el)) (gather v (el_ids el))) as H.
  destruct (torsion_properties el) as [[k f] c]. cbn [fst]. apply H.
Qed.

Definition f_tor (els : list tri6) : nat -> R :=
  fold_left (fun f el => scatter_add f (el_ids el) (snd (fst (torsion_properties el)))) els (fun _ => 0).
Definition c_tor (els : list tri6) : nat -> R :=
  fold_left (fun f el => scatter_add f (el_ids el) (snd (torsion_properties el))) els (fun _ => 0).

Lemma f_tor_form n els v : wf_ids n els ->
  dotn n v (f_tor els) = MQ els (fun el g => Gx v el g * py el g - Gy v el g * px el g).
Proof.
  intros Hw. unfold f_tor. rewrite dotn_scatter_fold by exact Hw. rewrite dotn_0, Rplus_0_l. apply sumf_ext. intros el _.
  pose proof (torsion_el el (gather v (el_ids el)) (gather v (el_ids el))) as H.
  destruct (torsion_properties el) as [[k f] c]. cbn [fst snd]. apply H.
Qed.

Lemma c_tor_form n els v : wf_ids n els -> dotn n v (c_tor els) = MQ els (Vl v).
Proof.
  intros Hw. unfold c_tor. rewrite dotn_scatter_fold by exact Hw. rewrite dotn_0, Rplus_0_l. apply sumf_ext. intros el _.
  pose proof (torsion_el el (gather v (el_ids el)) (gather v (el_ids el))) as H.
  destruct (torsion_properties el) as [[k f] c]. cbn [fst snd]. apply H.
Qed.

Lemma assemble_eq n els : assemble_torsion n els =
  (dense (entries els ++ map (fun i => (i, n, c_tor els i)) (seq 0 n) ++ map (fun i => (n, i, c_tor els i)) (seq 0 n)), f_tor els).
Proof. unfold assemble_torsion, torsion_loop. rewrite torsion_loop_acc. cbn [fst snd app]. reflexivity. Qed.

Lemma dense_app l l' i j : dense (l ++ l') i j = dense l i j + dense l' i j.
Proof. unfold dense. apply sumf_app. Qed.

Lemma dense_none l i j : (forall r c x, In (r, c, x) l -> r <> i \/ c <> j) -> dense l i j = 0.
Proof.
  induction l as [|[[r c] x] l IH]; intros H; unfold dense; rewrite ?sumf_nil, ?sumf_cons; [reflexivity|].
  fold (dense l i j). rewrite IH by (intros; apply (H r0 c0 x0); right; assumption).
  destruct (H r c x (or_introl eq_refl)) as [N|N].
  - destruct (Nat.eqb_spec r i); [contradiction|]. cbn [andb]. ring.
  - destruct (Nat.eqb_spec c j); [contradiction|]. rewrite Bool.andb_false_r. ring.
Qed.

Lemma dense_column n (c : nat -> R) i m s : dense (map (fun k => (k, n, c k)) (seq s m)) i n =
  if (Nat.leb s i && Nat.ltb i (s + m))%bool then c i else 0.
Proof.
  revert s. induction m; intros s; cbn [seq map].
  - unfold dense. rewrite sumf_nil. destruct (Nat.leb_spec s i), (Nat.ltb_spec i (s + 0)); cbn [andb]; try reflexivity; lia.
  - unfold dense. rewrite sumf_cons. fold (dense (map (fun k => (k, n, c k)) (seq (S s) m)) i n). rewrite IHm.
    rewrite Nat.eqb_refl, Bool.andb_true_r.
    destruct (Nat.eqb_spec s i).
    + subst. destruct (Nat.leb_spec (S i) i); [lia|]. destruct (Nat.leb_spec i i); [|lia].
      destruct (Nat.ltb_spec i (i + S m)); [|lia]. cbn [andb]. ring.
    + destruct (Nat.leb_spec (S s) i), (Nat.leb_spec s i), (Nat.ltb_spec i (S s + m)), (Nat.ltb_spec i (s + S m)); cbn [andb]; try ring; lia.
Qed.

Lemma dense_row n (c : nat -> R) i m s : dense (map (fun k => (n, k, c k)) (seq s m)) n i =
  if (Nat.leb s i && Nat.ltb i (s + m))%bool then c i else 0.
Proof.
  revert s. induction m; intros s; cbn [seq map].
  - unfold dense. rewrite sumf_nil. destruct (Nat.leb_spec s i), (Nat.ltb_spec i (s + 0)); cbn [andb]; try reflexivity; lia.
  - unfold dense. rewrite sumf_cons. fold (dense (map (fun k => (n, k, c k)) (seq (S s) m)) n i). rewrite IHm.
    rewrite Nat.eqb_refl. cbn [andb].
    destruct (Nat.eqb_spec s i).
    + subst. destruct (Nat.leb_spec (S i) i); [lia|]. destruct (Nat.leb_spec i i); [|lia].
      destruct (Nat.ltb_spec i (i + S m)); [|lia]. cbn [andb]. ring.
    + destruct (Nat.leb_spec (S s) i), (Nat.leb_spec s i), (Nat.ltb_spec i (S s + m)), (Nat.ltb_spec i (s + S m)); cbn [andb]; try ring; lia.
Qed.

(** the four blocks of the bordered matrix *)
Lemma bordered_blocks n els : wf_ids n els ->
  let K := fst (assemble_torsion n els) in
  (forall i j, (i < n)%nat -> (j < n)%nat -> K i j = dense (entries els) i j) /\
  (forall i, (i < n)%nat -> K i n = c_tor els i) /\
  (forall j, (j < n)%nat -> K n j = c_tor els j) /\
  K n n = 0.
Proof.
  intros Hw K. unfold K. rewrite assemble_eq. cbn [fst]. rewrite ?dense_app.
  assert (Hent : forall i j, (n <= i \/ n <= j)%nat -> dense (entries els) i j = 0).
  { intros i j Hij. apply dense_none. intros r c x Hx. destruct (entries_ids n els Hw r c x Hx). lia. }
  assert (Hcol : forall i j, j <> n -> dense (map (fun k => (k, n, c_tor els k)) (seq 0 n)) i j = 0).
  { intros i j Hj. apply dense_none. intros r c x Hx. apply in_map_iff in Hx. destruct Hx as [k [E _]]. injection E as <- <- <-. right. lia. }
  assert (Hrow : forall i j, i <> n -> dense (map (fun k => (n, k, c_tor els k)) (seq 0 n)) i j = 0).
  { intros i j Hj. apply dense_none. intros r c x Hx. apply in_map_iff in Hx. destruct Hx as [k [E _]]. injection E as <- <- <-. left. lia. }
  repeat split.
  - intros i j Hi Hj. rewrite !dense_app, Hcol, Hrow by lia. ring.
  - intros i Hi. rewrite !dense_app, Hent, Hrow, dense_column by lia.
    destruct (Nat.leb_spec 0 i), (Nat.ltb_spec i (0 + n)); cbn [andb]; try lia. ring.
  - intros i Hi. rewrite !dense_app, Hent, Hcol, dense_row by lia.
    destruct (Nat.leb_spec 0 i), (Nat.ltb_spec i (0 + n)); cbn [andb]; try lia. ring.
  - rewrite ?dense_app, Hent, dense_column, dense_row by lia.
    destruct (Nat.leb_spec 0 n), (Nat.ltb_spec n (0 + n)); cbn [andb]; try lia. ring.
Qed.

(** shear loads *)
Lemma shear_load_acc (ixx iyy ixy nu : R) (els : list tri6) : forall f h,
  fold_left (shear_load_step ixx iyy ixy nu) els (f, h) =
  (fold_left (fun f el => scatter_add f (el_ids el) (fst (shear_load_vectors el ixx iyy ixy nu))) els f,
   fold_left (fun f el => scatter_add f (el_ids el) (snd (shear_load_vectors el ixx iyy ixy nu))) els h).
Proof.
  induction els as [|el els IH]; intros f h; [reflexivity|]. cbn [fold_left]. rewrite <- IH.
  unfold shear_load_step at 2. destruct (shear_load_vectors el ixx iyy ixy nu). reflexivity.
Qed.

Lemma shear_load_form n els ixx iyy ixy nu v : wf_ids n els ->
  let '(f, h) := assemble_shear_load ixx iyy ixy nu els in
  let sp := spar ixx iyy ixy in
  dotn n v f = MQ els (fun el g => nu / 2 * (Gx v el g * sp_d1 (sp el g) + Gy v el g * sp_d2 (sp el g))
     + 2 * (1 + nu) * (ixx * px el g - ixy * py el g) * Vl v el g) /\
  dotn n v h = MQ els (fun el g => nu / 2 * (Gx v el g * sp_h1 (sp el g) + Gy v el g * sp_h2 (sp el g))
     + 2 * (1 + nu) * (iyy * py el g - ixy * px el g) * Vl v el g).
Proof.
  intros Hw. unfold assemble_shear_load. rewrite shear_load_acc. cbv zeta. rewrite !dotn_scatter_fold by exact Hw.
  rewrite !dotn_0, !Rplus_0_l. split; apply sumf_ext; intros el _;
    pose proof (shear_el el ixx iyy ixy nu (gather v (el_ids el))) as H;
    destruct (shear_load_vectors el ixx iyy ixy nu); cbn [fst snd]; apply H.
Qed.

Lemma sc_warping_form els ixx iyy ixy om :
  sc_warping_integrals ixx iyy ixy om els =
  mkWarpInt
    (MQ els (fun el g => (iyy * px el g + ixy * py el g) * (px el g ^ 2 + py el g ^ 2)))
    (MQ els (fun el g => (ixx * py el g + ixy * px el g) * (px el g ^ 2 + py el g ^ 2)))
    (MQ els (Vl om)) (MQ els (fun el g => Vl om el g ^ 2))
    (MQ els (fun el g => px el g * Vl om el g)) (MQ els (fun el g => py el g * Vl om el g)).
Proof.
  unfold sc_warping_integrals.
  assert (G : forall acc, fold_left (sc_warping_step ixx iyy ixy om) els acc =
    mkWarpInt
    (wi_scx acc + MQ els (fun el g => (iyy * px el g + ixy * py el g) * (px el g ^ 2 + py el g ^ 2)))
    (wi_scy acc + MQ els (fun el g => (ixx * py el g + ixy * px el g) * (px el g ^ 2 + py el g ^ 2)))
    (wi_q acc + MQ els (Vl om)) (wi_i acc + MQ els (fun el g => Vl om el g ^ 2))
    (wi_ix acc + MQ els (fun el g => px el g * Vl om el g)) (wi_iy acc + MQ els (fun el g => py el g * Vl om el g))).
  { induction els as [|el l IH]; intros acc.
    - cbn [fold_left]. unfold MQ. rewrite !sumf_nil. destruct acc as [? ? ? ? ? ?]. cbn [M_Fea.wi_scx M_Fea.wi_scy M_Fea.wi_q M_Fea.wi_i M_Fea.wi_ix M_Fea.wi_iy]. f_equal; ring.
    - cbn [fold_left]. rewrite IH. unfold sc_warping_step. cbv zeta. rewrite warping_int_el.
      cbn [M_Fea.wi_scx M_Fea.wi_scy M_Fea.wi_q M_Fea.wi_i M_Fea.wi_ix M_Fea.wi_iy]. unfold MQ. rewrite !sumf_cons. unfold Vl.
      f_equal; rewrite Rplus_assoc; reflexivity. }
  rewrite G. unfold zero_warp_int. cbn [M_Fea.wi_scx M_Fea.wi_scy M_Fea.wi_q M_Fea.wi_i M_Fea.wi_ix M_Fea.wi_iy]. f_equal; ring.
Qed.

Lemma shear_deformation_form els ixx iyy ixy nu psi phi :
  let sp := spar ixx iyy ixy in
  let p1 el g := Gx psi el g - nu / 2 * sp_d1 (sp el g) in
  let p2 el g := Gy psi el g - nu / 2 * sp_d2 (sp el g) in
  let h1 el g := Gx phi el g - nu / 2 * sp_h1 (sp el g) in
  let h2 el g := Gy phi el g - nu / 2 * sp_h2 (sp el g) in
  shear_deformation ixx iyy ixy nu psi phi els =
  (MQ els (fun el g => p1 el g * p1 el g + p2 el g * p2 el g),
   MQ els (fun el g => h1 el g * h1 el g + h2 el g * h2 el g),
   MQ els (fun el g => p1 el g * h1 el g + p2 el g * h2 el g)).
Proof.
  intros sp p1 p2 h1 h2. unfold shear_deformation.
  assert (G : forall a b c, fold_left (shear_deformation_step ixx iyy ixy nu psi phi) els (a, b, c) =
    (a + MQ els (fun el g => p1 el g * p1 el g + p2 el g * p2 el g),
     b + MQ els (fun el g => h1 el g * h1 el g + h2 el g * h2 el g),
     c + MQ els (fun el g => p1 el g * h1 el g + p2 el g * h2 el g))).
  { induction els as [|el l IH]; intros a b c.
    - cbn [fold_left]. unfold MQ. rewrite !sumf_nil. f_equal; [f_equal|]; ring.
    - cbn [fold_left]. unfold shear_deformation_step at 2. unfold shear_coefficients. rewrite coeff_fold. cbv beta iota zeta.
      rewrite IH. unfold MQ. rewrite !sumf_cons. fold (Q el).
      unfold p1, p2, h1, h2, Gx, Gy. fold sp. unfold Q. f_equal; [f_equal|]; rewrite Rplus_0_l, Rplus_assoc; reflexivity. }
  rewrite G. f_equal; [f_equal|]; ring.
Qed.

Lemma mono_form els phi :
  let pc (el : tri6) g := principal_coordinate phi (px el g) (py el g) in
  mono_integrals phi els =
  mkMono (MQ els (fun el g => px el g ^ 2 * py el g + py el g ^ 3))
    (MQ els (fun el g => py el g ^ 2 * px el g + px el g ^ 3))
    (MQ els (fun el g => fst (pc el g) ^ 2 * snd (pc el g) + snd (pc el g) ^ 3))
    (MQ els (fun el g => snd (pc el g) ^ 2 * fst (pc el g) + fst (pc el g) ^ 3)).
Proof.
  intros pc. unfold mono_integrals.
  assert (G : forall acc, fold_left (mono_step phi) els acc =
    mkMono (mi_x acc + MQ els (fun el g => px el g ^ 2 * py el g + py el g ^ 3))
    (mi_y acc + MQ els (fun el g => py el g ^ 2 * px el g + px el g ^ 3))
    (mi_11 acc + MQ els (fun el g => fst (pc el g) ^ 2 * snd (pc el g) + snd (pc el g) ^ 3))
    (mi_22 acc + MQ els (fun el g => snd (pc el g) ^ 2 * fst (pc el g) + fst (pc el g) ^ 3))).
  { induction els as [|el l IH]; intros acc.
    - cbn [fold_left]. unfold MQ. rewrite !sumf_nil. destruct acc as [? ? ? ?]. cbn [M_Fea.mi_x M_Fea.mi_y M_Fea.mi_11 M_Fea.mi_22]. f_equal; ring.
    - cbn [fold_left]. rewrite IH. unfold mono_step, monosymmetry_integrals. cbv zeta. rewrite mono_fold. cbv zeta.
      cbn [M_Fea.mi_x M_Fea.mi_y M_Fea.mi_11 M_Fea.mi_22]. unfold MQ. rewrite !sumf_cons. unfold Q, pc.
      f_equal; rewrite Rplus_0_l, Rplus_assoc; reflexivity. }
  rewrite G. cbn [M_Fea.mi_x M_Fea.mi_y M_Fea.mi_11 M_Fea.mi_22]. f_equal; ring.
Qed.
