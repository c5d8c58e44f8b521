(** More proofs about NASTRAN sections: hollow sections, the double box, tubes, the hat with a plate. *)
From Coq Require Import String Reals List Bool Arith ZArith Permutation Lra Lia.
From Verif Require Import Base M_Fea M_Init M_Bisect M_Geometry S_Geometry P_Geometry P_Geometry3 P_Geometry4 P_Geometry5 P_Geometry6 P_Geometry8 M_Library S_Library P_Library P_Library2 P_Library8 M_SetOps M_Nastran S_SetOps S_Concrete P_Concrete6 S_Nastran P_Nastran.
Import ListNotations.
Local Open Scope R_scope.

Ltac around_tac :=
  apply around_intro; [plates_tac|
    intros p; unfold winding, covered, edges; cbn [tl firstn combine map app fold_right]; rewrite ?crossing_upright, ?crossing_flat, ?member_steps by lra; unify_steps; ring|
    area_pos_tac|unfold ring_area, plates_area, rect_area, cross; cbn [around shoelace fst snd map fold_right]; field].
Ltac hollow_tac u v := apply hollow_intro; [loop_tac|loop_tac|around_tac|recover_tac u v].
Lemma box_area_pos x1 y1 x2 y2 : x1 <= x2 -> y1 <= y2 -> 0 <= ring_area [(x1, y1); (x2, y1); (x2, y2); (x1, y2)].
Proof. intros. replace (ring_area _) with ((x2 - x1) * (y2 - y1)) by (unfold ring_area, cross; cbn [around shoelace fst snd]; field). apply Rmult_le_pos; lra. Qed.

(** two holes *)
Lemma around_two l h k rs : plates rs -> (forall p, winding p l = (winding p h + winding p k + covered p rs)%Z) -> 0 <= ring_area h -> 0 <= ring_area k -> ring_area l = ring_area h + ring_area k + plates_area rs -> tiled_around l [h; k] rs.
Proof.
  intros P W H K A. split; [exact P|]. split; [intros p; cbn [map fold_right]; rewrite W; lia|]. cbn [map fold_right]. pose proof (plates_area_pos rs P). rewrite !one_area by lra. lra.
Qed.
Lemma two_cuts so o h k : cuts so -> o <> [] -> h <> [] -> k <> [] -> inside h o -> inside k o -> apart h k ->
  exists p q, so_difference so [mkPoly o []] [mkPoly h []] = ShPolygon p /\ so_difference so [p] [mkPoly k []] = ShPolygon q /\ same_ring o (ext q) /\ same_rings [h; k] (ints q).
Proof.
  intros [_ C] No Nh Nk Ih Ik A. destruct (C (mkPoly o []) (mkPoly h []) No Nh eq_refl Ih (Forall_nil _)) as (p & E & S & Q). cbn [ext ints] in *.
  assert (Np : ext p <> []) by (intros Z; apply same_vertices in S; rewrite Z in S; symmetry in S; apply Permutation_nil in S; contradiction).
  destruct Q as (hs & P & F). apply Permutation_sym, Permutation_length_1_inv in P. subst hs. inversion F as [|? h' ? l' Sh F' E1 E2]; subst. inversion F'; subst.
  destruct (C p (mkPoly k []) Np Nk eq_refl) as (q & E' & S' & Q').
  - cbn [ext]. apply (inside_same k o); assumption.
  - rewrite <- E2. constructor; [|constructor]. apply apart_sym. apply (apart_same h k h' k); [assumption|apply same_refl|exact A].
  - exists p, q. split; [exact E|]. split; [exact E'|]. split; [apply (same_trans _ (ext p)); assumption|]. cbn [ext] in Q'. rewrite <- E2 in Q'.
    destruct Q' as (hs & P & F1). apply (rings_perm (k :: [h])); [apply perm_swap|]. eapply rings_left; [|exists hs; split; [exact P|exact F1]].
    constructor; [apply same_refl|]. constructor; [exact Sh|constructor].
Qed.

(** ** circles *)
Lemma vertex_on_ring q l : In q l -> on_ring q l.
Proof.
  intros I. unfold on_ring. rewrite <- (edges_fst l) in I. apply in_map_iff in I as (e & <- & I). apply Exists_exists. exists e. split; [exact I|]. exists 0. split; [lra|].
  unfold toward. destruct (fst e) as [x y]. cbn [fst snd]. f_equal; ring.
Qed.
Lemma quarter k : (1 <= k)%nat -> forall j, INR (j * k) * 2 * PI / INR (4 * k) = INR j * (PI / 2).
Proof. intros H j. apply le_INR in H. rewrite !mult_INR. cbn [INR] in *. field. lra. Qed.
Lemma quarter_in r k j : (1 <= k)%nat -> (j < 4)%nat -> In (r * cos (INR j * (PI / 2)), r * sin (INR j * (PI / 2))) (ellipse_points (2 * r) (2 * r) (4 * k)).
Proof.
  intros H J. unfold ellipse_points. apply in_map_iff. exists (j * k)%nat. rewrite (quarter k H j). split; [f_equal; field|]. apply in_seq. split; [lia|]. cbn [Nat.add]. apply Nat.mul_lt_mono_pos_r; lia.
Qed.
Lemma circle_recovers r n : (1 <= n)%nat -> Nat.divide 4 n -> recovers (ellipse_points (2 * r) (2 * r) n) (circle_recovery r).
Proof.
  intros H [k ->]. rewrite Nat.mul_comm in *. assert (K : (1 <= k)%nat) by lia. split; [reflexivity|]. exists 0, 0. unfold circle_recovery.
  assert (Q : forall x y j, (j < 4)%nat -> x = r * cos (INR j * (PI / 2)) -> y = r * sin (INR j * (PI / 2)) -> on_ring (fst (x, y) + 0, snd (x, y) + 0) (ellipse_points (2 * r) (2 * r) (4 * k))).
  { intros x y j J -> ->. cbn [fst snd]. rewrite !Rplus_0_r. apply vertex_on_ring, quarter_in; assumption. }
  assert (A2 : INR 2 * (PI / 2) = PI) by (cbn; field). assert (A3 : INR 3 * (PI / 2) = 3 * (PI / 2)) by (cbn; ring).
  repeat apply Forall_cons; [apply (Q _ _ 1%nat)|apply (Q _ _ 0%nat)|apply (Q _ _ 3%nat)|apply (Q _ _ 2%nat)|apply Forall_nil]; try lia; rewrite ?A2, ?A3, ?INR_1, ?INR_0, ?Rmult_1_l, ?Rmult_0_l;
    rewrite ?cos_PI2, ?sin_PI2, ?cos_0, ?sin_0, ?cos_PI, ?sin_PI, ?cos_3PI2, ?sin_3PI2; ring.
Qed.
(** The inner circle of a tube is drawn like the outer one. *)
Lemma inner_circle d t n : map (fun i => ((2 * d / 2 - t) * cos (INR i * 2 * PI / INR n), (2 * d / 2 - t) * sin (INR i * 2 * PI / INR n))) (seq 0 n) = ellipse_points (2 * (d - t)) (2 * (d - t)) n.
Proof. unfold ellipse_points. apply map_ext. intros i. f_equal; field. Qed.
