(** Proofs about shear areas: shear stress fields in equilibrium, rectangles. *)
From Coquelicot Require Import Coquelicot.
From Coq Require Import Reals List Permutation Bool Arith Lra Lia.
From Verif Require Import Base S_Integral M_Fea S_Fem M_Post M_Section S_Section S_Post S_Warp M_Init S_Init P_Integral P_Fea P_Geom P_Elem P_Section P_Totals P_Post
  P_Warp P_Warp2 P_Warp3 P_Warp4 P_Warp5 S_Plastic P_Plastic P_Fibre S_Refine P_Refine S_Prandtl P_Green P_Prandtl P_Prandtl2 S_Shear P_Shear.
Import ListNotations.
Local Open Scope R_scope.

Lemma sides_vanish (S : nat * nat * nat -> R) els free : (forall s, S (flip s) = - S s) -> (forall s, In s free -> S s = 0) -> free_sides els free ->
  sumf (fun el => sumf S (turned_sides el)) els = 0.
Proof.
  intros F Z [common P]. transitivity (sumf S (concat (map turned_sides els))); [rewrite sumf_concat, sumf_map; reflexivity|].
  rewrite (sumf_perm _ _ _ P), sumf_app, sumf_concat, sumf_map.
  assert (A : sumf S free = 0) by (clear P; induction free as [|s fr IH]; [reflexivity|]; rewrite sumf_cons, IH, Z by (intros; try apply Z; cbn [In]; tauto); ring).
  rewrite A. clear - F. induction common as [|s co IH]; [unfold sumf, Rsum; cbn [map fold_right]; ring|]. rewrite sumf_cons. change (sumf S [s; flip s]) with (S s + (S (flip s) + 0)). rewrite F. lra.
Qed.
Lemma smooth_quad k0 k1 k2 k3 k4 k5 : smooth (quad k0 k1 k2 k3 k4 k5) (fun x y => k1 + 2 * k3 * x + k4 * y) (fun x y => k2 + k4 * x + 2 * k5 * y).
Proof. intros x y. unfold quad. split; [auto_derive; [exact I|ring]|]. split; [auto_derive; [exact I|ring]|]. split; cont2_tac. Qed.

Section Balance.
Context (n : nat) (X Y : nat -> R) (els : list tri6) (p px py q qx qy : R -> R -> R) (free : list (nat * nat * nat)).
Hypothesis Hm : mesh_on n X Y els.
Hypothesis Sp : smooth p px py.
Hypothesis Sq : smooth q qx qy.
Hypothesis Hf : free_sides els free.
Hypothesis Zf : forall a b m l, In (a, b, m) free -> 0 <= l <= 1 ->
  let x := X a + l * (X b - X a) in let y := Y a + l * (Y b - Y a) in p x y * (Y b - Y a) - q x y * (X b - X a) = 0.

Definition on_side (u : nat -> R) (a b m : nat) (l : R) : R := u a * ((1 - l) * (1 - 2 * l)) + u b * (l * (2 * l - 1)) + u m * (4 * l * (1 - l)).
Definition flux (a b : nat) (l : R) : R := p (X a + l * (X b - X a)) (Y a + l * (Y b - Y a)) * (Y b - Y a) - q (X a + l * (X b - X a)) (Y a + l * (Y b - Y a)) * (X b - X a).
Definition flux_term (u : nat -> R) (s : nat * nat * nat) : R := let '(a, b, m) := s in RInt (fun l => on_side u a b m l * flux a b l) 0 1.
Lemma flux_cont u a b m l : continuous (fun l => on_side u a b m l * flux a b l) l.
Proof.
  destruct (smooth_cont _ _ _ Sp) as (Cp & _). destruct (smooth_cont _ _ _ Sq) as (Cq & _).
  apply (continuous_mult (on_side u a b m) (flux a b)).
  - apply (ex_derive_continuous (on_side u a b m)). unfold on_side. auto_derive. exact I.
  - apply (edge_cont p q Cp Cq (X a, Y a) (X b, Y b) l).
Qed.
Lemma flux_flip u s : flux_term u (flip s) = - flux_term u s.
Proof.
  destruct s as [[a b] m]. cbn [flip flux_term]. etransitivity; [symmetry; exact (int_rev (fun l => on_side u b a m l * flux b a l) (flux_cont u b a m))|].
  etransitivity; [|apply (RInt_opp (V := R_CompleteNormedModule) (fun l => on_side u a b m l * flux a b l)); apply (ex_RInt_continuous (V := R_CompleteNormedModule)); intros; apply flux_cont].
  apply RInt_ext. intros l _. change (on_side u b a m (1 - l) * flux b a (1 - l) = - (on_side u a b m l * flux a b l)). unfold on_side, flux.
  replace (X b + (1 - l) * (X a - X b)) with (X a + l * (X b - X a)) by ring. replace (Y b + (1 - l) * (Y a - Y b)) with (Y a + l * (Y b - Y a)) by ring. ring.
Qed.
Lemma flux_free u s : In s free -> flux_term u s = 0.
Proof.
  destruct s as [[a b] m]. intros I. cbn [flux_term]. transitivity (RInt (fun _ : R => 0) 0 1); [|rewrite RInt_const; cbn; unfold mult; cbn; ring].
  apply RInt_ext. intros l L. rewrite Rmin_left, Rmax_right in L by lra. unfold flux. pose proof (Zf a b m l I ltac:(lra)) as Z. cbv zeta in Z. rewrite Z. match goal with |- ?u = ?v => change (@eq R u v) end. ring.
Qed.
Lemma balance_el el u k0 k1 k2 k3 k4 k5 : In el els -> (forall x y, interpolant el (gather u (el_ids el)) x y = quad k0 k1 k2 k3 k4 k5 x y) ->
  el_int el (fun x y => (p x y * (k1 + 2 * k3 * x + k4 * y) + q x y * (k2 + k4 * x + 2 * k5 * y)) + (px x y + qy x y) * quad k0 k1 k2 k3 k4 k5 x y) = sumf (flux_term u) (turned_sides el).
Proof.
  intros I Q. destruct (Hm el I) as (V & _ & _ & EX & EY).
  pose proof (green_el el _ _ _ _ _ _ V (smooth_mult _ _ _ _ _ _ Sp (smooth_quad k0 k1 k2 k3 k4 k5)) (smooth_mult _ _ _ _ _ _ Sq (smooth_quad k0 k1 k2 k3 k4 k5))) as G. cbn beta in G.
  etransitivity; [|etransitivity; [exact G|]]; [apply el_int_ext; intros; ring|].
  destruct (corners_at X Y el EX EY) as (A & B & C). rewrite A, B, C.
  assert (E : forall a b m, has_side el a b m -> edge_int (fun x y => p x y * quad k0 k1 k2 k3 k4 k5 x y) (fun x y => q x y * quad k0 k1 k2 k3 k4 k5 x y) (X a, Y a) (X b, Y b) = flux_term u (a, b, m)).
  { intros a b m S. unfold edge_int, flux_term. cbn [fst snd]. apply RInt_ext. intros l _. rewrite <- !Q, !(value_side X Y el u V EX EY a b m l S). unfold on_side, flux. match goal with |- ?u = ?v => change (@eq R u v) end. ring. }
  unfold turned_sides. rewrite !sumf_cons, sumf_nil. rewrite <- (E _ _ (c3 (el_ids el))), <- (E _ _ (c4 (el_ids el))), <- (E _ _ (c5 (el_ids el))); [ring| | |].
  - right. cbn [side_ids In]. tauto.
  - left. cbn [side_ids In]. tauto.
  - left. cbn [side_ids In]. tauto.
Qed.
Lemma work_bound co si v : unit_moduli els -> (forall x y, px x y + qy x y = - bending_rate els co si x y) ->
  shear_work els co si v <= mesh_int (fun _ => 1) (fun x y => p x y ^ 2 + q x y ^ 2) els.
Proof.
  intros U D. destruct (smooth_cont _ _ _ Sp) as (Cp & Cpx & _). destruct (smooth_cont _ _ _ Sq) as (Cq & _ & Cqy).
  rewrite work_sum. unfold mesh_int. rewrite <- (Rplus_0_r (sumf (fun el => 1 * _) els)), <- (Rmult_0_r (-2)), <- (sides_vanish (flux_term v) els free (flux_flip v) (flux_free v) Hf), <- sumf_scal, <- sumf_plus.
  apply sumf_le. intros el I. destruct (Hm el I) as (V & _). destruct (el_quad n X Y els Hm el v I) as (k0 & k1 & k2 & k3 & k4 & k5 & N & Q).
  rewrite <- (balance_el el v k0 k1 k2 k3 k4 k5 I Q), (el_work_quad els co si v el k0 k1 k2 k3 k4 k5 V N), (U el I).
  set (gx := fun x y => k1 + 2 * k3 * x + k4 * y). set (gy := fun x y => k2 + k4 * x + 2 * k5 * y). set (h := quad k0 k1 k2 k3 k4 k5).
  assert (Ch : cont2 h) by apply (smooth_cont _ _ _ (smooth_quad k0 k1 k2 k3 k4 k5)). assert (Cgx : cont2 gx) by (unfold gx; intros x y; cont2_tac). assert (Cgy : cont2 gy) by (unfold gy; intros x y; cont2_tac).
  assert (C1 : cont2 (fun x y => p x y ^ 2 + q x y ^ 2)).
  { intros x y. apply (continuity_2d_pt_ext (fun x y => p x y * p x y + q x y * q x y)); [intros; ring|]. apply continuity_2d_pt_plus; apply continuity_2d_pt_mult; (apply Cp || apply Cq). }
  assert (C2 : cont2 (fun x y => (p x y * gx x y + q x y * gy x y) + (px x y + qy x y) * h x y)).
  { intros x y. apply continuity_2d_pt_plus; [apply continuity_2d_pt_plus; apply continuity_2d_pt_mult; (apply Cp || apply Cq || apply Cgx || apply Cgy)|apply continuity_2d_pt_mult; [apply continuity_2d_pt_plus; [apply Cpx|apply Cqy]|apply Ch]]. }
  eapply Rle_trans; [|right; exact (el_int_lin el _ _ 1 (-2) C1 C2)]. apply el_int_le.
  - destruct (work_cub els co si k0 k1 k2 k3 k4 k5) as (a0 & a1 & a2 & q0 & q1 & q2 & q3 & q4 & q5 & C). intros x y.
    apply (continuity_2d_pt_ext (cub a0 a1 a2 k0 k1 k2 k3 k4 k5 q0 q1 q2 q3 q4 q5)); [intros; rewrite C; ring|]. apply (smooth_cont _ _ _ (cub_smooth a0 a1 a2 k0 k1 k2 k3 k4 k5 q0 q1 q2 q3 q4 q5)).
  - intros x y. apply continuity_2d_pt_plus; (apply continuity_2d_pt_mult; [apply continuity_2d_pt_const|]); [apply C1|apply C2].
  - intros x y. unfold work_quad. fold h. rewrite D. change (k1 + 2 * k3 * x + k4 * y) with (gx x y). change (k2 + k4 * x + 2 * k5 * y) with (gy x y).
    pose proof (pow2_ge_0 (p x y - gx x y)) as P1. pose proof (pow2_ge_0 (q x y - gy x y)) as P2. nra.
Qed.
End Balance.

Lemma equilibrium_bound n X Y els co si p q a : mesh_on n X Y els -> unit_moduli els -> 0 < a -> greatest (shear_work els co si) (/ a) -> equilibrium X Y els co si p q ->
  1 <= a * mesh_int (fun _ => 1) (fun x y => p x y ^ 2 + q x y ^ 2) els.
Proof.
  intros Hm U Ha [[v E] _] (px & py & qx & qy & free & Sp & Sq & D & Hf & Zf).
  pose proof (work_bound n X Y els p px py q qx qy free Hm Sp Sq Hf Zf co si v U D) as W. rewrite E in W.
  apply (Rmult_le_compat_l a) in W; [|lra]. rewrite Rinv_r in W by lra. exact W.
Qed.

(** ** Rectangles *)
Section Rectangle.
Context (n : nat) (X Y : nat -> R) (x0 y0 b d : R) (m : material) (els : list tri6) (free : list (nat * nat * nat)) (co si : R).
Hypothesis Hb : 0 < b.
Hypothesis Hd : 0 < d.
Hypothesis V : valid_mesh els.
Hypothesis B : same_boundary (mesh_edges els) (S_Section.ring_edges m (rectangle x0 y0 b d)).
Hypothesis U : unit_moduli els.
Hypothesis Hf : free_sides els free.
Hypothesis Hs : forall i j k, In (i, j, k) free -> on_rectangle_side x0 y0 b d (X i, Y i) (X j, Y j).

Lemma rectangle_centroid : let c := centroidal_of (section_totals els) in p_cx c = x0 + b / 2 /\ p_cy c = y0 + d / 2 /\ t_ea (section_totals els) = b * d.
Proof.
  rewrite (section_totals_int els V). unfold centroidal_of. cbn [t_ea t_qx t_qy p_cx p_cy].
  assert (Q : forall f k0 k1 k2 k3 k4 k5, (forall x y, f x y = quad k0 k1 k2 k3 k4 k5 x y) -> mesh_int m_E f els = b * d * (k0 + k1 * (x0 + b / 2) + k2 * (y0 + d / 2) + k3 * (x0 ^ 2 + x0 * b + b ^ 2 / 3) + k4 * ((x0 + b / 2) * (y0 + d / 2)) + k5 * (y0 ^ 2 + y0 * d + d ^ 2 / 3))).
  { intros f k0 k1 k2 k3 k4 k5 E. rewrite <- (rectangle_quad x0 y0 b d m els V B U). apply mesh_int_ext, E. }
  rewrite (Q (fun _ _ => 1) 1 0 0 0 0 0), (Q (fun _ y => y) 0 0 1 0 0 0), (Q (fun x _ => x) 0 1 0 0 0 0) by (intros; unfold quad; ring).
  repeat split; field; lra.
Qed.
Definition par_x (x _ : R) : R := co * (6 / (b ^ 3 * d)) * ((x - x0) * (x0 + b - x)).
Definition par_y (_ y : R) : R := si * (6 / (b * d ^ 3)) * ((y - y0) * (y0 + d - y)).
Lemma par_equilibrium : equilibrium X Y els co si par_x par_y.
Proof.
  exists (fun x _ => co * (6 / (b ^ 3 * d)) * (b - 2 * (x - x0))), (fun _ _ => 0), (fun _ _ => 0), (fun _ y => si * (6 / (b * d ^ 3)) * (d - 2 * (y - y0))), free.
  split; [|split; [|split; [|split; [exact Hf|]]]].
  - intros x y. unfold par_x. set (k := co * (6 / (b ^ 3 * d))). split; [auto_derive; [exact I|ring]|]. split; [auto_derive; [exact I|ring]|]. split; cont2_tac.
  - intros x y. unfold par_y. set (k := si * (6 / (b * d ^ 3))). split; [auto_derive; [exact I|ring]|]. split; [auto_derive; [exact I|ring]|]. split; cont2_tac.
  - intros x y. unfold bending_rate. destruct (rectangle_centroidal x0 y0 b d m els Hb Hd V B U) as (-> & -> & ->). destruct rectangle_centroid as (-> & -> & _). field. lra.
  - intros i j k l I _ x y. unfold par_x, par_y, x, y. destruct (Hs i j k I) as [[P Q]|[[P Q]|[[P Q]|[P Q]]]]; cbn [fst snd] in P, Q; rewrite P, Q; ring.
Qed.
Lemma par_energy : mesh_int (fun _ => 1) (fun x y => par_x x y ^ 2 + par_y x y ^ 2) els = 6 / (5 * (b * d)) * (co ^ 2 + si ^ 2).
Proof.
  set (k := co * (6 / (b ^ 3 * d))). set (h := si * (6 / (b * d ^ 3))).
  set (Q := fun x => b * b / 3 * ((x - x0) * (x - x0) * (x - x0)) - b / 2 * ((x - x0) * (x - x0) * (x - x0) * (x - x0)) + / 5 * ((x - x0) * (x - x0) * (x - x0) * (x - x0) * (x - x0))).
  rewrite (rectangle_green x0 y0 b d m els V B _ (fun x y => k * k * Q x + h * h * (x - x0) * (((y - y0) * (y0 + d - y)) * ((y - y0) * (y0 + d - y))))
    (fun x y => k * k * (((x - x0) * (x0 + b - x)) * ((x - x0) * (x0 + b - x))) + h * h * (((y - y0) * (y0 + d - y)) * ((y - y0) * (y0 + d - y))))
    (fun x y => h * h * (x - x0) * (2 * (d - 2 * (y - y0)) * ((y - y0) * (y0 + d - y))))
    (k * k * (b ^ 5 / 30) * d) 0 (h * h * b * d ^ 5) (- 2 * (h * h * b * d ^ 5)) (h * h * b * d ^ 5)).
  - unfold k, h. field. lra.
  - intros x y. unfold Q. split; [auto_derive; [exact I|field]|]. split; [auto_derive; [exact I|ring]|]. split; cont2_tac.
  - intros x y. unfold par_x, par_y. fold k h. ring.
  - intros y. unfold Q. ring.
  - intros l. unfold Q. field.
Qed.
End Rectangle.
