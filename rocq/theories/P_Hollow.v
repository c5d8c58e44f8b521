(** Proofs about stress functions of sections with holes. *)
From Coquelicot Require Import Coquelicot.
From Coq Require Import Reals List Permutation Bool Arith Lra Lia.
From Verif Require Import Base S_Integral M_Fea S_Fem M_Post M_Section S_Section S_Post S_Warp M_Init S_Init P_Integral P_Fea P_Geom P_Elem P_Section P_Totals P_Post
  P_Warp P_Warp2 P_Warp3 P_Warp4 P_Warp5 S_Plastic P_Plastic P_Fibre S_Refine P_Refine S_Prandtl P_Green P_Prandtl P_Prandtl2 S_Hollow.
Import ListNotations.
Local Open Scope R_scope.

(** ** Sums over the sides of all elements are sums over the free sides *)
Lemma sides_free (S : nat * nat * nat -> R) els free : (forall s, S (flip s) = - S s) -> free_sides els free ->
  sumf (fun el => sumf S (turned_sides el)) els = sumf S free.
Proof.
  intros F [common P]. transitivity (sumf S (concat (map turned_sides els))); [rewrite sumf_concat, sumf_map; reflexivity|].
  rewrite (sumf_perm _ _ _ P), sumf_app, sumf_concat, sumf_map.
  enough (E : sumf (fun s => sumf S [s; flip s]) common = 0) by lra. clear - F.
  induction common as [|s co IH]; [reflexivity|]. rewrite sumf_cons. change (sumf S [s; flip s]) with (S s + (S (flip s) + 0)). rewrite F. lra.
Qed.

Lemma sumf_none {A} (l : list A) : sumf (fun _ => 0) l = 0.
Proof. induction l as [|a l IH]; [reflexivity|]. rewrite sumf_cons, IH. ring. Qed.
Lemma closed_sum (u : nat -> R) ring : closed_ring ring -> sumf (fun s => u (side_start s)) ring = sumf (fun s => u (side_end s)) ring.
Proof. intros P. rewrite <- (sumf_map u side_start), <- (sumf_map u side_end). apply sumf_perm, P. Qed.

Section Rings.
Context (n : nat) (X Y : nat -> R) (els : list tri6) (f fx fy : R -> R -> R) (outer : list (nat * nat * nat)) (holes : list (R * list (nat * nat * nat))).
Hypothesis Hm : mesh_on n X Y els.
Hypothesis Sf : smooth f fx fy.
Hypothesis Hf : free_sides els (outer ++ concat (map snd holes)).
Hypothesis Zf : zero_on X Y outer f.
Hypothesis Hh : Forall (fun h => closed_ring (snd h) /\ value_on X Y (snd h) f (fst h)) holes.

Lemma side_value g c a b m : (forall l, 0 <= l <= 1 -> f (X a + l * (X b - X a)) (Y a + l * (Y b - Y a)) = c) -> (forall l, continuous (g a b m) l) -> side_term X Y f g (a, b, m) = c * RInt (g a b m) 0 1.
Proof.
  intros V C. cbn [side_term]. transitivity (RInt (fun l => scal c (g a b m l)) 0 1).
  - apply RInt_ext. intros l L. rewrite Rmin_left, Rmax_right in L by lra. rewrite V by lra. reflexivity.
  - apply (RInt_scal (V := R_CompleteNormedModule)). apply (ex_RInt_continuous (V := R_CompleteNormedModule)). intros; apply C.
Qed.
Lemma free_sum g : (forall a b m l, continuous (g a b m) l) -> sumf (side_term X Y f g) (outer ++ concat (map snd holes)) =
  sumf (fun h => fst h * sumf (fun s => let '(a, b, m) := s in RInt (g a b m) 0 1) (snd h)) holes.
Proof.
  intros C. rewrite sumf_app, sumf_concat, sumf_map.
  assert (A : sumf (side_term X Y f g) outer = 0).
  { clear Hf Hh. rewrite (sumf_ext _ (fun _ => 0) outer); [apply sumf_none|]. intros [[a b] m] I. rewrite (side_value g 0 a b m); [ring| |apply C]. intros l L. exact (Zf a b m l I L). }
  rewrite A, Rplus_0_l. clear Hf A. induction Hh as [|[c r] hs [_ V] _ IH]; [reflexivity|]. rewrite !sumf_cons, IH by (inversion Hh; assumption). f_equal. cbn [fst snd] in *.
  rewrite <- sumf_scal. apply sumf_ext. intros [[a b] m] I. apply side_value; [|apply C]. intros l L. exact (V a b m l I L).
Qed.
Lemma slope_int u a b m : RInt (slope u a b m) 0 1 = u a - u b.
Proof.
  apply (is_RInt_unique (V := R_CompleteNormedModule)).
  pose (P := fun l : R => - (u a * (2 * (l * l) - 3 * l) + u b * (2 * (l * l) - l) + u m * (4 * l - 4 * (l * l)))).
  replace (u a - u b) with (P 1 - P 0) by (unfold P; ring).
  apply (is_RInt_derive (V := R_CompleteNormedModule) P (slope u a b m)).
  - intros l _. unfold P, slope. auto_derive; [exact I|ring].
  - intros l _. unfold slope. apply (ex_derive_continuous (fun l => - (u a * (4 * l - 3) + u b * (4 * l - 1) + u m * (4 - 8 * l)))). auto_derive. exact I.
Qed.
Lemma slope_cont u a b m l : continuous (slope u a b m) l.
Proof. unfold slope. apply (ex_derive_continuous (fun l => - (u a * (4 * l - 3) + u b * (4 * l - 1) + u m * (4 - 8 * l)))). auto_derive. exact I. Qed.
Lemma hollow_fe u : sumf (fun el => loc_int el (fun s t => fy (loc_x el s t) (loc_y el s t) * ddx u el s t - fx (loc_x el s t) (loc_y el s t) * ddy u el s t)) els = 0.
Proof.
  transitivity (sumf (fun el => sumf (side_term X Y f (slope u)) (turned_sides el)) els).
  - apply sumf_ext. intros el I. destruct (el_quad n X Y els Hm el u I) as (k0 & k1 & k2 & k3 & k4 & k5 & N & Q). destruct (Hm el I) as (V & _).
    rewrite <- (against_el n X Y els f fx fy Hm Sf el u k0 k1 k2 k3 k4 k5 I Q), <- (loc_el_int el _ V). apply loc_int_ext. intros s t. unfold ddx, ddy. rewrite N. destruct (quad_field el k0 k1 k2 k3 k4 k5 s t V) as [-> ->]. ring.
  - rewrite (sides_free _ els _ (side_flip X Y f (slope u) (proj1 (smooth_cont _ _ _ Sf)) (slope_cont u) ltac:(intros; unfold slope; ring)) Hf).
    rewrite (free_sum _ (slope_cont u)). rewrite (sumf_ext _ (fun _ => 0) holes); [apply sumf_none|]. intros [c r] I. rewrite Forall_forall in Hh. destruct (Hh _ I) as [Cl _]. cbn [fst snd] in *.
    rewrite (sumf_ext _ (fun s => u (side_start s) + - 1 * u (side_end s)) r); [|intros [[a b] m] _; rewrite slope_int; cbn [side_start side_end]; ring].
    rewrite sumf_plus, sumf_scal, (closed_sum u r Cl). ring.
Qed.
Definition turn (cx cy : R) (a b _m : nat) (l : R) : R := (X a + l * (X b - X a) - cx) * (Y b - Y a) - (Y a + l * (Y b - Y a) - cy) * (X b - X a).
Lemma turn_cont cx cy a b m l : continuous (turn cx cy a b m) l.
Proof. unfold turn. apply (ex_derive_continuous (fun l => (X a + l * (X b - X a) - cx) * (Y b - Y a) - (Y a + l * (Y b - Y a) - cy) * (X b - X a))). auto_derive. exact I. Qed.
Lemma turn_int cx cy a b m : RInt (turn cx cy a b m) 0 1 = (X a * Y b - X b * Y a) + (- cx * (Y b - Y a) + cy * (X b - X a)).
Proof.
  transitivity (RInt (fun _ : R => (X a * Y b - X b * Y a) + (- cx * (Y b - Y a) + cy * (X b - X a))) 0 1).
  - apply RInt_ext. intros l _. unfold turn. match goal with |- ?u = ?v => change (@eq R u v) end. ring.
  - rewrite RInt_const. cbn. unfold mult; cbn. ring.
Qed.
(** The integral of the divergence of f (x - cx, y - cy) *)
Lemma hollow_div cx cy : sumf (fun el => el_int el (fun x y => (fx x y * (- cx + 1 * x + 0 * y) + f x y * 1) + (fy x y * (- cy + 0 * x + 1 * y) + f x y * 1))) els =
  - 2 * sumf (fun h => fst h * enclosed X Y (snd h)) holes.
Proof.
  transitivity (sumf (fun el => sumf (side_term X Y f (turn cx cy)) (turned_sides el)) els).
  - apply sumf_ext. intros el I. destruct (Hm el I) as (V & _ & _ & EX & EY).
    pose proof (green_el el _ _ _ _ _ _ V (smooth_mult _ _ _ _ _ _ Sf (smooth_affine (- cx) 1 0)) (smooth_mult _ _ _ _ _ _ Sf (smooth_affine (- cy) 0 1))) as G. cbn beta in G. etransitivity; [exact G|].
    destruct (corners_at X Y el EX EY) as (A & B & C). rewrite A, B, C. unfold turned_sides. rewrite !sumf_cons, sumf_nil.
    assert (E : forall a b m, edge_int (fun x y => f x y * (- cx + 1 * x + 0 * y)) (fun x y => f x y * (- cy + 0 * x + 1 * y)) (X a, Y a) (X b, Y b) = side_term X Y f (turn cx cy) (a, b, m)).
    { intros a b m. unfold edge_int, side_term. cbn [fst snd]. apply RInt_ext. intros l _. unfold turn. match goal with |- ?u = ?v => change (@eq R u v) end. ring. }
    rewrite (E _ _ (c3 (el_ids el))), (E _ _ (c4 (el_ids el))), (E _ _ (c5 (el_ids el))). ring.
  - rewrite (sides_free _ els _ (side_flip X Y f (turn cx cy) (proj1 (smooth_cont _ _ _ Sf)) (turn_cont cx cy) ltac:(intros; unfold turn; ring)) Hf).
    rewrite (free_sum _ (turn_cont cx cy)), <- sumf_scal. apply sumf_ext. intros [c r] I. rewrite Forall_forall in Hh. destruct (Hh _ I) as [Cl _]. cbn [fst snd] in *. unfold enclosed.
    rewrite (sumf_ext _ (fun s => (X (side_start s) * Y (side_end s) - X (side_end s) * Y (side_start s)) + ((- cx * Y (side_end s) + cy * X (side_end s)) + - 1 * (- cx * Y (side_start s) + cy * X (side_start s)))) r); [|intros [[a b] m] _; rewrite turn_int; cbn [side_start side_end]; ring].
    rewrite sumf_plus, sumf_plus, sumf_scal, (closed_sum (fun k => - cx * Y k + cy * X k) r Cl). field.
Qed.
Lemma hollow_rotation cx cy : sumf (fun el => el_int el (fun x y => fx x y * (x - cx) + fy x y * (y - cy))) els =
  - 2 * (mesh_int (fun _ => 1) f els + sumf (fun h => fst h * enclosed X Y (snd h)) holes).
Proof.
  pose proof (hollow_div cx cy) as K. destruct (smooth_cont _ _ _ Sf) as (Cf & Cfx & Cfy).
  assert (Cr : cont2 (fun x y => fx x y * (x - cx) + fy x y * (y - cy))) by (intros x y; cont2_tac; [apply Cfx|apply Cfy]).
  assert (L : sumf (fun el => 1 * el_int el (fun x y => fx x y * (x - cx) + fy x y * (y - cy)) + 2 * el_int el f) els = - 2 * sumf (fun h => fst h * enclosed X Y (snd h)) holes).
  { rewrite <- K. apply sumf_ext. intros el _. rewrite <- (el_int_lin el _ _ 1 2 Cr Cf). apply el_int_ext. intros. ring. }
  rewrite sumf_plus2 in L. unfold mesh_int. replace (sumf (fun el => 1 * el_int el f) els) with (sumf (fun el => el_int el f) els) by (apply sumf_ext; intros; ring). lra.
Qed.
End Rings.

Definition volume_of (X Y : nat -> R) (els : list tri6) (f : R -> R -> R) (holes : list (R * list (nat * nat * nat))) : R :=
  mesh_int (fun _ => 1) f els + sumf (fun h => fst h * enclosed X Y (snd h)) holes.
Lemma hollow_lower n X Y els f fx fy holes cx cy u k : mesh_on n X Y els -> pos_moduli els -> hollow_stress X Y els f fx fy holes ->
  4 * (k * volume_of X Y els f holes) - k ^ 2 * mesh_int (fun m => / m_E m) (fun x y => fx x y ^ 2 + fy x y ^ 2) els <= twist_energy cx cy els u.
Proof.
  intros Hm Hp (Sf & Hh & outer & Hf & Zf). destruct (smooth_cont _ _ _ Sf) as (Cf & Cfx & Cfy).
  assert (Sk : smooth (fun x y => k * f x y) (fun x y => k * fx x y) (fun x y => k * fy x y)).
  { eapply smooth_ext; [| | |exact (smooth_lin _ _ _ _ _ _ k 0 Sf (smooth_const 0))]; intros; cbv beta; ring. }
  pose (hk := map (fun h : R * list (nat * nat * nat) => (k * fst h, snd h)) holes).
  assert (Fk : free_sides els (outer ++ concat (map snd hk))) by (unfold hk; rewrite map_map; exact Hf).
  assert (Zk : zero_on X Y outer (fun x y => k * f x y)) by (intros a b m l I J; cbv beta; rewrite (Zf a b m l I J); ring).
  assert (Hk : Forall (fun h => closed_ring (snd h) /\ value_on X Y (snd h) (fun x y => k * f x y) (fst h)) hk).
  { unfold hk. apply Forall_map. eapply Forall_impl; [|exact Hh]. intros h [C V]. cbn [fst snd]. split; [exact C|]. intros a b m l I J. cbv beta. rewrite (V a b m l I J). reflexivity. }
  pose proof (prandtl_bound n X Y els _ _ _ cx cy u _ Hm Hp Sk (hollow_fe n X Y els _ _ _ outer hk Hm Sk Fk Zk Hk u) (hollow_rotation n X Y els _ _ _ outer hk Hm Sk Fk Zk Hk cx cy)) as L.
  eapply Rle_trans; [|exact L]. right.
  assert (Cs : cont2 (fun x y => fx x y ^ 2 + fy x y ^ 2)) by (intros x y; apply (continuity_2d_pt_ext (fun x y => fx x y * fx x y + fy x y * fy x y)); [intros; ring|cont2_tac; (apply Cfx || apply Cfy)]).
  assert (C0 : cont2 (fun _ _ => 0)) by (intros x y; apply continuity_2d_pt_const).
  unfold volume_of, mesh_int, hk. rewrite sumf_map, Rmult_plus_distr_l, <- !sumf_scal. unfold Rminus. f_equal; [f_equal; f_equal|f_equal]; apply sumf_ext; intros el _.
  - rewrite (el_int_ext el (fun x y => k * f x y) (fun x y => k * f x y + 0 * 0)) by (intros; ring). rewrite (el_int_lin el f (fun _ _ => 0) k 0 Cf C0). ring.
  - cbn [fst snd]. ring.
  - rewrite (el_int_ext el (fun x y => (k * fx x y) ^ 2 + (k * fy x y) ^ 2) (fun x y => k ^ 2 * (fx x y ^ 2 + fy x y ^ 2) + 0 * 0)) by (intros; ring). rewrite (el_int_lin el (fun x y => fx x y ^ 2 + fy x y ^ 2) (fun _ _ => 0) (k ^ 2) 0 Cs C0). ring.
Qed.
