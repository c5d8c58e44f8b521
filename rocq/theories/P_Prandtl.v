(** Proofs about stress functions: Green's formula on elements and meshes, bounds for the torsion constant. *)
From Coquelicot Require Import Coquelicot.
From Coq Require Import Reals List Permutation Bool Arith Lra Lia.
From Verif Require Import Base S_Integral M_Fea S_Fem M_Post M_Section S_Section S_Post S_Warp M_Init S_Init P_Integral P_Fea P_Geom P_Elem P_Section P_Totals P_Post
  P_Warp P_Warp2 P_Warp3 P_Warp4 P_Warp5 S_Plastic P_Plastic P_Fibre S_Refine P_Refine S_Prandtl P_Green.
Import ListNotations.
Local Open Scope R_scope.

Ltac cont2_tac := intros; repeat (apply continuity_2d_pt_plus || apply continuity_2d_pt_minus || apply continuity_2d_pt_mult || apply continuity_2d_pt_opp || apply continuity_2d_pt_const || apply continuity_2d_pt_id1 || apply continuity_2d_pt_id2).

(** ** Green's formula on an element *)
Lemma green_el el F Fx Fy G Gx Gy : valid_el el -> smooth F Fx Fy -> smooth G Gx Gy ->
  el_int el (fun x y => Fx x y + Gy x y) = edge_int F G (corner_a el) (corner_b el) + edge_int F G (corner_b el) (corner_c el) + edge_int F G (corner_c el) (corner_a el).
Proof. intros [_ O] SF SG. unfold el_int, tri_int. rewrite Rabs_pos_eq by lra. exact (green _ _ _ F Fx Fy G Gx Gy SF SG). Qed.

(** ** Side terms cancel *)
Section Sides.
Context (X Y : nat -> R) (f : R -> R -> R) (g : nat -> nat -> nat -> R -> R).
Hypothesis Cf : cont2 f.
Hypothesis Cg : forall a b m l, continuous (g a b m) l.
Hypothesis Tg : forall a b m l, g b a m (1 - l) = - g a b m l.
Definition side_term (s : nat * nat * nat) : R :=
  let '(a, b, m) := s in RInt (fun l => f (X a + l * (X b - X a)) (Y a + l * (Y b - Y a)) * g a b m l) 0 1.
Lemma side_flip s : side_term (flip s) = - side_term s.
Proof.
  destruct s as [[a b] m]. cbn [flip side_term].
  assert (C : forall a b l, continuous (fun l => f (X a + l * (X b - X a)) (Y a + l * (Y b - Y a)) * g a b m l) l).
  { intros a' b' l. apply (continuous_mult (fun l => f (X a' + l * (X b' - X a')) (Y a' + l * (Y b' - Y a'))) (g a' b' m)); [|apply Cg].
    apply (cont2_row (fun _ l => f (X a' + l * (X b' - X a')) (Y a' + l * (Y b' - Y a'))) 0). apply (cont2_comp f (fun _ l => X a' + l * (X b' - X a')) (fun _ l => Y a' + l * (Y b' - Y a')) Cf); cont2_tac. }
  etransitivity; [symmetry; exact (int_rev (fun l => f (X b + l * (X a - X b)) (Y b + l * (Y a - Y b)) * g b a m l) (C b a))|].
  etransitivity; [|apply (RInt_opp (V := R_CompleteNormedModule) (fun l => f (X a + l * (X b - X a)) (Y a + l * (Y b - Y a)) * g a b m l)); apply (ex_RInt_continuous (V := R_CompleteNormedModule)); intros; apply C].
  apply RInt_ext. intros l _. rewrite Tg. change (f (X b + (1 - l) * (X a - X b)) (Y b + (1 - l) * (Y a - Y b)) * - g a b m l = - (f (X a + l * (X b - X a)) (Y a + l * (Y b - Y a)) * g a b m l)).
  replace (X b + (1 - l) * (X a - X b)) with (X a + l * (X b - X a)) by ring. replace (Y b + (1 - l) * (Y a - Y b)) with (Y a + l * (Y b - Y a)) by ring. ring.
Qed.
Lemma sides_cancel els free : free_sides els free -> zero_on X Y free f -> sumf (fun el => sumf side_term (turned_sides el)) els = 0.
Proof.
  intros [common P] Z. transitivity (sumf side_term (concat (map turned_sides els))); [rewrite sumf_concat, sumf_map; reflexivity|].
  rewrite (sumf_perm _ _ _ P), sumf_app, sumf_concat, sumf_map.
  assert (A : sumf side_term free = 0).
  { clear P. induction free as [|[[a b] m] fr IH]; [reflexivity|]. rewrite sumf_cons, IH by (intros a' b' m' l' I'; exact (Z a' b' m' l' (or_intror I'))).
    assert (Q : side_term (a, b, m) = 0); [|lra]. cbn [side_term]. transitivity (RInt (fun _ : R => 0) 0 1); [|rewrite RInt_const; cbn; unfold mult; cbn; ring].
    apply RInt_ext. intros l L. rewrite Rmin_left, Rmax_right in L by lra. rewrite (Z a b m l) by (try (left; reflexivity); lra). match goal with |- ?u = ?v => change (@eq R u v) end. ring. }
  rewrite A. assert (B : sumf (fun s => sumf side_term [s; flip s]) common = 0); [|lra].
  induction common as [|s co IH]; [reflexivity|]. clear P. rewrite sumf_cons. change (sumf side_term [s; flip s]) with (side_term s + (side_term (flip s) + 0)). rewrite side_flip.
  clear A. enough (E : sumf (fun s0 => sumf side_term [s0; flip s0]) co = 0) by lra. clear IH. induction co as [|s' co IH]; [reflexivity|]. rewrite sumf_cons, IH. change (sumf side_term [s'; flip s']) with (side_term s' + (side_term (flip s') + 0)). rewrite side_flip. ring.
Qed.
End Sides.

(** ** Linear combinations of integrals of continuous functions *)
Lemma el_int_lin el f g k1 k2 : cont2 f -> cont2 g -> el_int el (fun x y => k1 * f x y + k2 * g x y) = k1 * el_int el f + k2 * el_int el g.
Proof.
  intros Cf Cg. unfold el_int, tri_int. set (a := corner_a el). set (b := corner_b el). set (c := corner_c el).
  assert (C : forall h, cont2 h -> simplex_ok (fun s t => h (fst a + s * (fst b - fst a) + t * (fst c - fst a)) (snd a + s * (snd b - snd a) + t * (snd c - snd a)))).
  { intros h Ch. apply cont2_ok. apply (cont2_comp h (fun s t => fst a + s * (fst b - fst a) + t * (fst c - fst a)) (fun s t => snd a + s * (snd b - snd a) + t * (snd c - snd a)) Ch); cont2_tac. }
  destruct (simplex_ok_lin _ _ k1 k2 (C f Cf) (C g Cg)) as [_ ->]. ring.
Qed.
Lemma el_int_le el f g : cont2 f -> cont2 g -> (forall x y, f x y <= g x y) -> el_int el f <= el_int el g.
Proof.
  intros Cf Cg H. unfold el_int, tri_int. set (a := corner_a el). set (b := corner_b el). set (c := corner_c el). apply Rmult_le_compat_l; [apply Rabs_pos|].
  assert (C : forall h, cont2 h -> simplex_ok (fun s t => h (fst a + s * (fst b - fst a) + t * (fst c - fst a)) (snd a + s * (snd b - snd a) + t * (snd c - snd a)))).
  { intros h Ch. apply cont2_ok. apply (cont2_comp h (fun s t => fst a + s * (fst b - fst a) + t * (fst c - fst a)) (fun s t => snd a + s * (snd b - snd a) + t * (snd c - snd a)) Ch); cont2_tac. }
  apply simplex_int_le; [apply (C f Cf)|apply (C g Cg)|]. intros; apply H.
Qed.
Lemma el_int_ext el f g : (forall x y, f x y = g x y) -> el_int el f = el_int el g.
Proof. intros H. unfold el_int, tri_int. f_equal. apply simplex_int_ext. intros; apply H. Qed.
Lemma smooth_affine a b c : smooth (fun x y => a + b * x + c * y) (fun _ _ => b) (fun _ _ => c).
Proof.
  intros x y. split; [|split; [|split; apply continuity_2d_pt_const]].
  - auto_derive; [exact I|ring].
  - auto_derive; [exact I|ring].
Qed.

(** ** A stress function against warping functions and rotations *)
Section Against.
Context (n : nat) (X Y : nat -> R) (els : list tri6) (f fx fy : R -> R -> R) (free : list (nat * nat * nat)).
Hypothesis Hm : mesh_on n X Y els.
Hypothesis Sf : smooth f fx fy.
Hypothesis Hf : free_sides els free.
Hypothesis Zf : zero_on X Y free f.

Definition slope (u : nat -> R) (a b m : nat) (l : R) : R := - (u a * (4 * l - 3) + u b * (4 * l - 1) + u m * (4 - 8 * l)).
Lemma el_quad el u : In el els -> exists k0 k1 k2 k3 k4 k5, gather u (el_ids el) = nodal (quad k0 k1 k2 k3 k4 k5) el /\
  (forall x y, interpolant el (gather u (el_ids el)) x y = quad k0 k1 k2 k3 k4 k5 x y).
Proof.
  intros I. destruct (Hm el I) as (V & _). destruct (interpolant_quad el (gather u (el_ids el)) V) as (k0 & k1 & k2 & k3 & k4 & k5 & Q).
  exists k0, k1, k2, k3, k4, k5. split; [|exact Q]. rewrite <- (interpolant_nodal el (gather u (el_ids el)) V) at 1. apply nodal_ext, Q.
Qed.
Lemma against_el el u k0 k1 k2 k3 k4 k5 : In el els -> (forall x y, interpolant el (gather u (el_ids el)) x y = quad k0 k1 k2 k3 k4 k5 x y) ->
  el_int el (fun x y => fy x y * (k1 + 2 * k3 * x + k4 * y) - fx x y * (k2 + k4 * x + 2 * k5 * y)) = sumf (side_term X Y f (slope u)) (turned_sides el).
Proof.
  intros I Q. destruct (Hm el I) as (V & _ & _ & EX & EY).
  pose proof (smooth_mult _ _ _ _ _ _ Sf (smooth_affine (- k2) (- k4) (- (2 * k5)))) as SF. pose proof (smooth_mult _ _ _ _ _ _ Sf (smooth_affine k1 (2 * k3) k4)) as SG.
  pose proof (green_el el _ _ _ _ _ _ V SF SG) as G. cbn beta in G.
  etransitivity; [|etransitivity; [exact G|]]; [apply el_int_ext; intros; ring|].
  destruct (corners_at X Y el EX EY) as (A & B & C). rewrite A, B, C.
  assert (E : forall a b m, has_side el a b m -> edge_int (fun x y => f x y * (- k2 + - k4 * x + - (2 * k5) * y)) (fun x y => f x y * (k1 + 2 * k3 * x + k4 * y)) (X a, Y a) (X b, Y b) = side_term X Y f (slope u) (a, b, m)).
  { intros a b m S. unfold edge_int, side_term. cbn [fst snd]. apply RInt_ext. intros l _.
    set (x := X a + l * (X b - X a)). set (y := Y a + l * (Y b - Y a)).
    assert (D1 : is_derive (fun l => quad k0 k1 k2 k3 k4 k5 (X a + l * (X b - X a)) (Y a + l * (Y b - Y a))) l ((k1 + 2 * k3 * x + k4 * y) * (X b - X a) + (k2 + k4 * x + 2 * k5 * y) * (Y b - Y a))) by (unfold quad, x, y; auto_derive; [exact Logic.I|ring]).
    assert (D2 : is_derive (fun l => quad k0 k1 k2 k3 k4 k5 (X a + l * (X b - X a)) (Y a + l * (Y b - Y a))) l (- slope u a b m l)).
    { apply (is_derive_ext (fun l => u a * ((1 - l) * (1 - 2 * l)) + u b * (l * (2 * l - 1)) + u m * (4 * l * (1 - l)))).
      - intros t. rewrite <- (value_side X Y el u V EX EY a b m t S). apply Q.
      - unfold slope. auto_derive; [exact Logic.I|ring]. }
    pose proof (is_derive_unique _ _ _ D1) as U1. pose proof (is_derive_unique _ _ _ D2) as U2. rewrite U1 in U2.
    change (f x y * (- k2 + - k4 * x + - (2 * k5) * y) * (Y b - Y a) - f x y * (k1 + 2 * k3 * x + k4 * y) * (X b - X a) = f x y * slope u a b m l).
    replace (slope u a b m l) with (- ((k1 + 2 * k3 * x + k4 * y) * (X b - X a) + (k2 + k4 * x + 2 * k5 * y) * (Y b - Y a))) by lra. ring. }
  unfold turned_sides. rewrite !sumf_cons, sumf_nil.
  rewrite <- (E _ _ (c3 (el_ids el))), <- (E _ _ (c4 (el_ids el))), <- (E _ _ (c5 (el_ids el))); [ring| | |].
  - right. cbn [side_ids In]. tauto.
  - left. cbn [side_ids In]. tauto.
  - left. cbn [side_ids In]. tauto.
Qed.
Lemma against_fe u : sumf (fun el => loc_int el (fun s t => fy (loc_x el s t) (loc_y el s t) * ddx u el s t - fx (loc_x el s t) (loc_y el s t) * ddy u el s t)) els = 0.
Proof.
  rewrite <- (sides_cancel X Y f (slope u)) with (els := els) (free := free); [|apply (smooth_cont _ _ _ Sf)| | |exact Hf|exact Zf].
  - apply sumf_ext. intros el I. destruct (el_quad el u I) as (k0 & k1 & k2 & k3 & k4 & k5 & N & Q). destruct (Hm el I) as (V & _).
    rewrite <- (against_el el u k0 k1 k2 k3 k4 k5 I Q), <- (loc_el_int el _ V). apply loc_int_ext. intros s t. unfold ddx, ddy. rewrite N. destruct (quad_field el k0 k1 k2 k3 k4 k5 s t V) as [-> ->]. ring.
  - intros a b m l. unfold slope. apply (ex_derive_continuous (fun l => - (u a * (4 * l - 3) + u b * (4 * l - 1) + u m * (4 - 8 * l)))). auto_derive. exact I.
  - intros a b m l. unfold slope. ring.
Qed.
Lemma against_rotation cx cy : sumf (fun el => el_int el (fun x y => fx x y * (x - cx) + fy x y * (y - cy))) els = - 2 * sumf (fun el => el_int el f) els.
Proof.
  destruct (smooth_cont _ _ _ Sf) as (Cf & Cfx & Cfy).
  pose (g := fun (a b m : nat) (l : R) => (X a + l * (X b - X a) - cx) * (Y b - Y a) - (Y a + l * (Y b - Y a) - cy) * (X b - X a)).
  assert (K : sumf (fun el => el_int el (fun x y => (fx x y * (- cx + 1 * x + 0 * y) + f x y * 1) + (fy x y * (- cy + 0 * x + 1 * y) + f x y * 1))) els = 0).
  { transitivity (sumf (fun el => sumf (side_term X Y f g) (turned_sides el)) els); [|apply (sides_cancel X Y f g) with (free := free); [exact Cf| | |exact Hf|exact Zf]].
    - apply sumf_ext. intros el I. destruct (Hm el I) as (V & _ & _ & EX & EY).
      pose proof (green_el el _ _ _ _ _ _ V (smooth_mult _ _ _ _ _ _ Sf (smooth_affine (- cx) 1 0)) (smooth_mult _ _ _ _ _ _ Sf (smooth_affine (- cy) 0 1))) as G. cbn beta in G. etransitivity; [exact G|].
      destruct (corners_at X Y el EX EY) as (A & B & C). rewrite A, B, C. unfold turned_sides. rewrite !sumf_cons, sumf_nil.
      assert (E : forall a b m, edge_int (fun x y => f x y * (- cx + 1 * x + 0 * y)) (fun x y => f x y * (- cy + 0 * x + 1 * y)) (X a, Y a) (X b, Y b) = side_term X Y f g (a, b, m)).
      { intros a b m. unfold edge_int, side_term. cbn [fst snd]. apply RInt_ext. intros l _. unfold g. match goal with |- ?u = ?v => change (@eq R u v) end. ring. }
      rewrite (E _ _ (c3 (el_ids el))), (E _ _ (c4 (el_ids el))), (E _ _ (c5 (el_ids el))). ring.
    - intros a b m l. unfold g. apply (ex_derive_continuous (fun l => (X a + l * (X b - X a) - cx) * (Y b - Y a) - (Y a + l * (Y b - Y a) - cy) * (X b - X a))). auto_derive. exact I.
    - intros a b m l. unfold g. ring. }
  assert (Cr : cont2 (fun x y => fx x y * (x - cx) + fy x y * (y - cy))) by (intros x y; cont2_tac; [apply Cfx|apply Cfy]).
  assert (L : sumf (fun el => 1 * el_int el (fun x y => fx x y * (x - cx) + fy x y * (y - cy)) + 2 * el_int el f) els = 0).
  { rewrite <- K. apply sumf_ext. intros el _. rewrite <- (el_int_lin el _ _ 1 2 Cr Cf). apply el_int_ext. intros. ring. }
  rewrite sumf_plus2 in L. lra.
Qed.
End Against.

(** ** The lower bound *)
Lemma prandtl_bound n X Y els f fx fy cx cy u vol : mesh_on n X Y els -> pos_moduli els -> smooth f fx fy ->
  sumf (fun el => loc_int el (fun s t => fy (loc_x el s t) (loc_y el s t) * ddx u el s t - fx (loc_x el s t) (loc_y el s t) * ddy u el s t)) els = 0 ->
  sumf (fun el => el_int el (fun x y => fx x y * (x - cx) + fy x y * (y - cy))) els = - 2 * vol ->
  4 * vol - mesh_int (fun m => / m_E m) (fun x y => fx x y ^ 2 + fy x y ^ 2) els <= twist_energy cx cy els u.
Proof.
  intros Hm Hp Sf A B. destruct (smooth_cont _ _ _ Sf) as (Cf & Cfx & Cfy).
  assert (Cr : cont2 (fun x y => fx x y * (x - cx) + fy x y * (y - cy))) by (intros x y; cont2_tac; [apply Cfx|apply Cfy]).
  assert (Cs : cont2 (fun x y => fx x y ^ 2 + fy x y ^ 2)) by (intros x y; apply (continuity_2d_pt_ext (fun x y => fx x y * fx x y + fy x y * fy x y)); [intros; ring|cont2_tac; (apply Cfx || apply Cfy)]).
  assert (E : sumf (fun el => 2 * loc_int el (fun s t => fy (loc_x el s t) (loc_y el s t) * ddx u el s t - fx (loc_x el s t) (loc_y el s t) * ddy u el s t)
                     + (- 2 * el_int el (fun x y => fx x y * (x - cx) + fy x y * (y - cy)) + - (/ m_E (el_mat el) * el_int el (fun x y => fx x y ^ 2 + fy x y ^ 2)))) els
             <= twist_energy cx cy els u).
  { rewrite twist_sum. apply sumf_le. intros el I. destruct (Hm el I) as (V & _). pose proof (Hp el I) as P.
    destruct (el_quad n X Y els Hm el u I) as (k0 & k1 & k2 & k3 & k4 & k5 & N & Q). rewrite (el_energy_quad cx cy u el k0 k1 k2 k3 k4 k5 V N).
    set (gx := fun x y => k1 + 2 * k3 * x + k4 * y). set (gy := fun x y => k2 + k4 * x + 2 * k5 * y).
    assert (Cc : cont2 (fun x y => fy x y * gx x y - fx x y * gy x y)) by (intros x y; unfold gx, gy; cont2_tac; [apply Cfy|apply Cfx]).
    replace (loc_int el _) with (el_int el (fun x y => fy x y * gx x y - fx x y * gy x y)).
    2:{ rewrite <- (loc_el_int el _ V). apply loc_int_ext. intros s t. unfold ddx, ddy. rewrite N. destruct (quad_field el k0 k1 k2 k3 k4 k5 s t V) as [-> ->]. reflexivity. }
    set (m := m_E (el_mat el)) in *.
    pose proof (el_int_lin el _ _ 2 (-2) Cc Cr) as L1.
    assert (C1 : cont2 (fun x y => 2 * (fy x y * gx x y - fx x y * gy x y) + -2 * (fx x y * (x - cx) + fy x y * (y - cy)))) by (intros x y; apply continuity_2d_pt_plus; (apply continuity_2d_pt_mult; [apply continuity_2d_pt_const|]); [apply Cc|apply Cr]).
    pose proof (el_int_lin el _ _ 1 (- / m) C1 Cs) as L2. rewrite L1 in L2.
    replace (2 * el_int el (fun x y => fy x y * gx x y - fx x y * gy x y) + _) with (1 * (2 * el_int el (fun x y => fy x y * gx x y - fx x y * gy x y) + -2 * el_int el (fun x y => fx x y * (x - cx) + fy x y * (y - cy))) + - / m * el_int el (fun x y => fx x y ^ 2 + fy x y ^ 2)) by ring.
    rewrite <- L2. apply el_int_le.
    - intros x y. apply continuity_2d_pt_plus; (apply continuity_2d_pt_mult; [apply continuity_2d_pt_const|]); [apply C1|apply Cs].
    - intros x y. apply (continuity_2d_pt_ext (fun x y => m * (gx x y - (y - cy)) * (gx x y - (y - cy)) + m * (gy x y + (x - cx)) * (gy x y + (x - cx)))); [intros; unfold en_quad, quad, gx, gy; ring|unfold gx, gy; cont2_tac].
    - intros x y. replace (en_quad m cx cy k1 k2 k3 k4 k5 x y) with (m * ((gx x y - (y - cy)) ^ 2 + (gy x y + (x - cx)) ^ 2)) by (unfold en_quad, quad, gx, gy; ring).
      assert (0 <= m * (((gx x y - (y - cy)) - fy x y / m) ^ 2 + ((gy x y + (x - cx)) + fx x y / m) ^ 2)) by (apply Rmult_le_pos; [lra|apply Rplus_le_le_0_compat; apply pow2_ge_0]).
      assert (m * (((gx x y - (y - cy)) - fy x y / m) ^ 2 + ((gy x y + (x - cx)) + fx x y / m) ^ 2) = m * ((gx x y - (y - cy)) ^ 2 + (gy x y + (x - cx)) ^ 2) - (1 * (2 * (fy x y * gx x y - fx x y * gy x y) + -2 * (fx x y * (x - cx) + fy x y * (y - cy))) + - / m * (fx x y ^ 2 + fy x y ^ 2))) by (field; lra).
      lra. }
  eapply Rle_trans; [|exact E]. right. rewrite sumf_plus, sumf_scal, A, sumf_plus, sumf_scal, B. unfold mesh_int.
  replace (sumf (fun x => - (/ m_E (el_mat x) * el_int x (fun x0 y => fx x0 y ^ 2 + fy x0 y ^ 2))) els) with (- 1 * sumf (fun x => / m_E (el_mat x) * el_int x (fun x0 y => fx x0 y ^ 2 + fy x0 y ^ 2)) els) by (rewrite <- sumf_scal; apply sumf_ext; intros; ring).
  ring.
Qed.

Lemma prandtl_lower n X Y els f fx fy cx cy u : mesh_on n X Y els -> pos_moduli els -> stress_function X Y els f fx fy ->
  4 * mesh_int (fun _ => 1) f els - mesh_int (fun m => / m_E m) (fun x y => fx x y ^ 2 + fy x y ^ 2) els <= twist_energy cx cy els u.
Proof.
  intros Hm Hp [Sf [free [Hf Zf]]]. apply (prandtl_bound n X Y els f fx fy cx cy u _ Hm Hp Sf); [exact (against_fe n X Y els f fx fy free Hm Sf Hf Zf u)|].
  rewrite (against_rotation n X Y els f fx fy free Hm Sf Hf Zf cx cy). unfold mesh_int. f_equal. apply sumf_ext. intros. ring.
Qed.

(** ** Green's formula on a mesh *)
Section Edges.
Context (F G : R -> R -> R).
Hypothesis CF : cont2 F.
Hypothesis CG : cont2 G.
Lemma edge_cont p q l : continuous (fun l => F (fst p + l * (fst q - fst p)) (snd p + l * (snd q - snd p)) * (snd q - snd p) - G (fst p + l * (fst q - fst p)) (snd p + l * (snd q - snd p)) * (fst q - fst p)) l.
Proof.
  assert (C : forall h, cont2 h -> cont2 (fun _ l => h (fst p + l * (fst q - fst p)) (snd p + l * (snd q - snd p)))) by (intros h Ch; apply (cont2_comp h (fun _ l => fst p + l * (fst q - fst p)) (fun _ l => snd p + l * (snd q - snd p)) Ch); cont2_tac).
  apply (cont2_row (fun _ l => F (fst p + l * (fst q - fst p)) (snd p + l * (snd q - snd p)) * (snd q - snd p) - G (fst p + l * (fst q - fst p)) (snd p + l * (snd q - snd p)) * (fst q - fst p)) 0).
  intros u t. apply continuity_2d_pt_minus; (apply continuity_2d_pt_mult; [|apply continuity_2d_pt_const]); [apply (C F CF)|apply (C G CG)].
Qed.
Lemma edge_part p q a b : edge_int F G (fst p + a * (fst q - fst p), snd p + a * (snd q - snd p)) (fst p + b * (fst q - fst p), snd p + b * (snd q - snd p)) =
  RInt (fun l => F (fst p + l * (fst q - fst p)) (snd p + l * (snd q - snd p)) * (snd q - snd p) - G (fst p + l * (fst q - fst p)) (snd p + l * (snd q - snd p)) * (fst q - fst p)) a b.
Proof.
  set (h := fun l => F (fst p + l * (fst q - fst p)) (snd p + l * (snd q - snd p)) * (snd q - snd p) - G (fst p + l * (fst q - fst p)) (snd p + l * (snd q - snd p)) * (fst q - fst p)).
  assert (X : forall a b, ex_RInt h a b) by (intros a' b'; apply (ex_RInt_continuous (V := R_CompleteNormedModule)); intros; apply edge_cont).
  assert (Z : is_RInt h ((b - a) * 0 + a) ((b - a) * 1 + a) (RInt h a b)). { replace ((b - a) * 0 + a) with a by ring. replace ((b - a) * 1 + a) with b by ring. exact (RInt_correct (V := R_CompleteNormedModule) h a b (X a b)). }
  apply (is_RInt_comp_lin (V := R_NormedModule) h (b - a) a 0 1) in Z.
  rewrite <- (is_RInt_unique (V := R_CompleteNormedModule) _ _ _ _ Z). unfold edge_int. cbn [fst snd]. apply RInt_ext. intros l _.
  change (F (fst p + a * (fst q - fst p) + l * (fst p + b * (fst q - fst p) - (fst p + a * (fst q - fst p)))) (snd p + a * (snd q - snd p) + l * (snd p + b * (snd q - snd p) - (snd p + a * (snd q - snd p)))) * (snd p + b * (snd q - snd p) - (snd p + a * (snd q - snd p)))
    - G (fst p + a * (fst q - fst p) + l * (fst p + b * (fst q - fst p) - (fst p + a * (fst q - fst p)))) (snd p + a * (snd q - snd p) + l * (snd p + b * (snd q - snd p) - (snd p + a * (snd q - snd p)))) * (fst p + b * (fst q - fst p) - (fst p + a * (fst q - fst p)))
    = (b - a) * h ((b - a) * l + a)). unfold h.
  replace (fst p + a * (fst q - fst p) + l * (fst p + b * (fst q - fst p) - (fst p + a * (fst q - fst p)))) with (fst p + ((b - a) * l + a) * (fst q - fst p)) by ring.
  replace (snd p + a * (snd q - snd p) + l * (snd p + b * (snd q - snd p) - (snd p + a * (snd q - snd p)))) with (snd p + ((b - a) * l + a) * (snd q - snd p)) by ring. ring.
Qed.
Lemma edge_fun_green : edge_fun (edge_int F G).
Proof.
  assert (X : forall p q a b, ex_RInt (fun l => F (fst p + l * (fst q - fst p)) (snd p + l * (snd q - snd p)) * (snd q - snd p) - G (fst p + l * (fst q - fst p)) (snd p + l * (snd q - snd p)) * (fst q - fst p)) a b) by (intros p q a b; apply (ex_RInt_continuous (V := R_CompleteNormedModule)); intros; apply edge_cont).
  assert (E0 : forall p q : point, p = (fst p + 0 * (fst q - fst p), snd p + 0 * (snd q - snd p))) by (intros [px py] [qx qy]; cbn [fst snd]; f_equal; ring).
  assert (E1 : forall p q : point, q = (fst p + 1 * (fst q - fst p), snd p + 1 * (snd q - snd p))) by (intros [px py] [qx qy]; cbn [fst snd]; f_equal; ring).
  split.
  - intros p q. pose proof (edge_part p q 0 1) as A. pose proof (edge_part p q 1 0) as B. rewrite <- (E0 p q), <- (E1 p q) in A, B. rewrite A, B.
    pose proof (opp_RInt_swap (V := R_CompleteNormedModule) _ _ _ (X p q 0 1)) as S. rewrite <- S. match goal with |- ?u + opp ?v = 0 => change (u + - v = 0) end. ring.
  - intros p q t r. pose proof (edge_part p q 0 t) as A. pose proof (edge_part p q t 1) as B. pose proof (edge_part p q 0 1) as C. rewrite <- (E0 p q) in A, C. rewrite <- (E1 p q) in B, C. fold r in A, B. rewrite A, B, C.
    apply (RInt_Chasles (V := R_CompleteNormedModule)); apply X.
Qed.
End Edges.
Lemma mesh_green w els F Fx Fy G Gx Gy l : valid_mesh els -> same_boundary (mesh_edges els) l -> smooth F Fx Fy -> smooth G Gx Gy ->
  mesh_int w (fun x y => Fx x y + Gy x y) els = boundary_sum w (edge_int F G) l.
Proof.
  intros V B SF SG. rewrite <- (boundary_sum_same w _ _ _ (edge_fun_green F G (proj1 (smooth_cont _ _ _ SF)) (proj1 (smooth_cont _ _ _ SG))) B).
  unfold mesh_int, boundary_sum, mesh_edges. rewrite sumf_concat, sumf_map. apply sumf_ext. intros el I. rewrite (green_el el F Fx Fy G Gx Gy (V el I) SF SG). unfold el_edges. rewrite !sumf_cons, sumf_nil. ring.
Qed.

(** ** The upper bound *)
Lemma quadratic_upper n X Y els k3 k4 : mesh_on n X Y els -> els <> [] -> pos_moduli els -> let c := centroidal_of (section_totals els) in
  exists v, twist_energy (p_cx c) (p_cy c) els v = (4 * k3 ^ 2 + (k4 + 1) ^ 2) * p_iyy_c c + (4 * k3 * (k4 - 1) - 4 * k3 * (k4 + 1)) * p_ixy_c c + ((k4 - 1) ^ 2 + 4 * k3 ^ 2) * p_ixx_c c.
Proof.
  intros Hm Hn Hp c. set (cx := p_cx c). set (cy := p_cy c).
  set (h0 := k3 * cx ^ 2 + k4 * cx * cy - k3 * cy ^ 2). set (h1 := - 2 * k3 * cx - k4 * cy). set (h2 := 2 * k3 * cy - k4 * cx).
  exists (fun i => quad h0 h1 h2 k3 k4 (- k3) (X i) (Y i)).
  assert (Vm : valid_mesh els) by (intros el I; apply (Hm el I)).
  pose proof (mesh_int_centred els 0 0 0 (4 * k3 ^ 2 + (k4 + 1) ^ 2) (4 * k3 * (k4 - 1) - 4 * k3 * (k4 + 1)) ((k4 - 1) ^ 2 + 4 * k3 ^ 2) Vm) as M. cbv zeta in M. fold c in M. fold cx cy in M.
  rewrite Rmult_0_l, Rplus_0_l in M. rewrite <- M by (pose proof (ea_pos els Hn Vm Hp); lra). clear M. rewrite twist_sum. unfold mesh_int. apply sumf_ext. intros el I. destruct (Hm el I) as (V & _ & _ & EX & EY).
  rewrite (el_energy_quad cx cy _ el h0 h1 h2 k3 k4 (- k3) V) by (unfold nodal; rewrite EX, EY; reflexivity).
  etransitivity; [apply (el_int_ext el _ (fun x y => m_E (el_mat el) * quad 0 0 0 (4 * k3 ^ 2 + (k4 + 1) ^ 2) (4 * k3 * (k4 - 1) - 4 * k3 * (k4 + 1)) ((k4 - 1) ^ 2 + 4 * k3 ^ 2) (x - cx) (y - cy) + 0 * 0)); intros; unfold en_quad, quad, h1, h2; ring|].
  rewrite (el_int_lin el (fun x y => quad 0 0 0 (4 * k3 ^ 2 + (k4 + 1) ^ 2) (4 * k3 * (k4 - 1) - 4 * k3 * (k4 + 1)) ((k4 - 1) ^ 2 + 4 * k3 ^ 2) (x - cx) (y - cy)) (fun _ _ => 0) (m_E (el_mat el)) 0); [ring| |intros x y; apply continuity_2d_pt_const].
  intros x y. apply (continuity_2d_pt_ext (fun x y => (4 * k3 ^ 2 + (k4 + 1) ^ 2) * ((x - cx) * (x - cx)) + (4 * k3 * (k4 - 1) - 4 * k3 * (k4 + 1)) * ((x - cx) * (y - cy)) + ((k4 - 1) ^ 2 + 4 * k3 ^ 2) * ((y - cy) * (y - cy)))); [intros; unfold quad; ring|cont2_tac].
Qed.
