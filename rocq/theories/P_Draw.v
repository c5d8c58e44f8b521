(** Proofs about the plot of principal axes. *)
From Coq Require Import String Reals List Permutation Sorted Arith Lra Lia.
From Verif Require Import Base M_State M_Draw S_Draw.
Import ListNotations.
Local Open Scope R_scope.

Lemma perm4 (a b c d u1 u2 u3 u4 : R) : Permutation [u1; u2; u3; u4] [a; b; c; d] -> a <= 0 <= b -> c <= 0 <= d -> u1 <= u2 -> u2 <= u3 -> u3 <= u4 ->
  u2 = Rmax a c /\ u3 = Rmin b d.
Proof.
  intros P A C H1 H2 H3.
  assert (L : forall (x : R) l, In x l -> forall l1, Permutation (x :: l1) l -> exists l2 l3, l = l2 ++ x :: l3 /\ Permutation l1 (l2 ++ l3)).
  { intros x l I l1 Q. apply in_split in I. destruct I as (l2 & l3 & ->). exists l2, l3. split; [reflexivity|]. apply Permutation_cons_app_inv with x. exact Q. }
  assert (P2 : forall x y p q : R, Permutation [x; y] [p; q] -> x = p /\ y = q \/ x = q /\ y = p) by (intros x y p q Q; apply Permutation_length_2 in Q; exact Q).
  assert (P3 : forall x y z p q r : R, Permutation [x; y; z] [p; q; r] -> x = p /\ Permutation [y; z] [q; r] \/ x = q /\ Permutation [y; z] [p; r] \/ x = r /\ Permutation [y; z] [p; q]).
  { intros x y z p q r Q. assert (I : In x [p; q; r]) by (apply (Permutation_in x Q); left; reflexivity). destruct I as [->|[->|[->|[]]]].
    - left. split; [reflexivity|]. apply Permutation_cons_inv in Q. exact Q.
    - right; left. split; [reflexivity|]. apply (Permutation_cons_app_inv [p] [r] Q).
    - right; right. split; [reflexivity|]. apply (Permutation_cons_app_inv [p; q] [] Q). }
  assert (I : In u1 [a; b; c; d]) by (apply (Permutation_in u1 P); left; reflexivity).
  assert (Q : u1 = a /\ Permutation [u2; u3; u4] [b; c; d] \/ u1 = b /\ Permutation [u2; u3; u4] [a; c; d] \/ u1 = c /\ Permutation [u2; u3; u4] [a; b; d] \/ u1 = d /\ Permutation [u2; u3; u4] [a; b; c]).
  { destruct I as [->|[->|[->|[->|[]]]]].
    - left. split; [reflexivity|]. apply Permutation_cons_inv in P. exact P.
    - right; left. split; [reflexivity|]. apply (Permutation_cons_app_inv [a] [c; d] P).
    - right; right; left. split; [reflexivity|]. apply (Permutation_cons_app_inv [a; b] [d] P).
    - right; right; right. split; [reflexivity|]. apply (Permutation_cons_app_inv [a; b; c] [] P). }
  clear P I L. unfold Rmax, Rmin.
  destruct Q as [[E Q]|[[E Q]|[[E Q]|[E Q]]]]; apply P3 in Q; destruct Q as [[E2 Q]|[[E2 Q]|[E2 Q]]]; apply P2 in Q; destruct Q as [[E3 E4]|[E3 E4]]; subst;
    destruct (Rle_dec a c), (Rle_dec b d); split; lra.
Qed.

Lemma sorted4 sort (l : list (R * R)) : sorts sort -> length l = 4%nat -> exists a b c d, sort l = [a; b; c; d] /\ Permutation [a; b; c; d] l /\ fst a <= fst b <= fst c /\ fst c <= fst d.
Proof.
  intros S L. destruct (S l) as [P O]. pose proof (Permutation_length P) as N. rewrite L in N. destruct (sort l) as [|a [|b [|c [|d [|e r]]]]]; try discriminate N.
  exists a, b, c, d. split; [reflexivity|]. split; [exact P|]. inversion O as [|? ? O1 F1]; subst. inversion O1 as [|? ? O2 F2]; subst. inversion O2 as [|? ? O3 F3]; subst.
  inversion F1; inversion F2; inversion F3; subst. lra.
Qed.
Lemma sorted2 sort (a b : R * R) : sorts sort -> sort [a; b] = [a; b] \/ sort [a; b] = [b; a].
Proof.
  intros S. destruct (S [a; b]) as [P _]. pose proof (Permutation_length P) as N. destruct (sort [a; b]) as [|x [|y [|z r]]]; try discriminate N.
  apply Permutation_length_2 in P. destruct P as [[-> ->]|[-> ->]]; auto.
Qed.
Lemma segment_sym a b p : on_segment a b p <-> on_segment b a p.
Proof. split; intros (t & T & X & Y); exists (1 - t); (split; [lra|]); split; rewrite ?X, ?Y; ring. Qed.

(** the points of the line, by parameter *)
Definition along (c b : R * R) (t : R) : R * R := (fst b * t + fst c, snd b * t + snd c).
Lemma segment_along c b u v p : b <> (0, 0) -> u <= v -> on_segment (along c b u) (along c b v) p <-> exists t, u <= t <= v /\ p = along c b t.
Proof.
  intros B UV. unfold on_segment, along. cbn [fst snd]. split.
  - intros (t & T & X & Y). exists (u + t * (v - u)). split; [nra|]. destruct p as [x y]. cbn [fst snd] in *. apply f_equal2; [rewrite X|rewrite Y]; ring.
  - intros (t & T & ->). cbn [fst snd]. destruct (Req_dec u v) as [E|E].
    + exists 0. subst v. assert (t = u) by lra. subst t. split; [lra|]. split; ring.
    + exists ((t - u) / (v - u)). split; [split; (apply Rmult_le_reg_r with (v - u); [lra|]; replace ((t - u) / (v - u) * (v - u)) with (t - u) by (field; lra); lra)|]. split; field; lra.
Qed.
Lemma line_along c b p : b <> (0, 0) -> on_line c b p <-> exists t, p = along c b t.
Proof.
  destruct c as [cx cy], b as [bx by'], p as [x y]. unfold on_line, along. cbn [fst snd]. intros B. split.
  - intros H. destruct (Req_dec bx 0) as [E|E].
    + subst bx. assert (F : by' <> 0) by (intros ->; apply B; reflexivity). exists ((y - cy) / by').
      apply f_equal2; [|field; exact F]. assert (Z : (x - cx) * by' = 0) by lra. apply Rmult_integral in Z. destruct Z as [Z|Z]; [lra|contradiction].
    + exists ((x - cx) / bx). apply f_equal2; [field; exact E|]. apply Rmult_eq_reg_l with bx; [|exact E]. transitivity ((y - cy) * bx + bx * cy); [ring|]. rewrite <- H. field. exact E.
  - intros (t & E). injection E as -> ->. ring.
Qed.
Lemma Rdiv_sign u v : v <> 0 -> u <= 0 -> (0 < v -> u / v <= 0) /\ (v < 0 -> 0 <= u / v).
Proof.
  intros V U. split; intros H.
  - apply Rmult_le_reg_r with v; [exact H|]. unfold Rdiv. rewrite Rmult_assoc, Rinv_l by exact V. lra.
  - apply Ropp_le_cancel. rewrite Ropp_0. apply Rmult_le_reg_r with (- v); [lra|]. replace (- (u / v) * - v) with u by (field; exact V). lra.
Qed.
Lemma box_range lo hi c b t : b <> 0 -> lo <= c <= hi -> (lo <= b * t + c <= hi <-> Rmin ((lo - c) / b) ((hi - c) / b) <= t <= Rmax ((lo - c) / b) ((hi - c) / b)).
Proof.
  intros B L. set (p := (lo - c) / b). set (q := (hi - c) / b). assert (P : lo = b * p + c) by (unfold p; field; exact B). assert (Q : hi = b * q + c) by (unfold q; field; exact B). clearbody p q. subst lo hi.
  unfold Rmin, Rmax. destruct (Rle_dec p q); destruct (Rtotal_order b 0) as [N|[N|N]]; try lra; split; intros H; nra.
Qed.
Lemma parameter_signs lo hi c b : b <> 0 -> lo <= c <= hi -> Rmin ((lo - c) / b) ((hi - c) / b) <= 0 <= Rmax ((lo - c) / b) ((hi - c) / b).
Proof. intros B L. apply (box_range lo hi c b 0 B L). lra. Qed.

Lemma principal_points_box sort basis lims c : sorts sort -> basis <> (0, 0) -> in_box lims c -> cuts_box c basis lims (get_principal_points sort basis lims c).
Proof.
  intros S B [X Y]. destruct basis as [bx by'], c as [cx cy]. cbn [fst snd] in *.
  set (t1 := (x_min lims - cx) / bx). set (t2 := (x_max lims - cx) / bx). set (t3 := (y_min lims - cy) / by'). set (t4 := (y_max lims - cy) / by'). set (f := along (cx, cy) (bx, by')).
  assert (LB : forall x, on_line (cx, cy) (bx, by') x /\ in_box lims x <-> exists t, (x_min lims <= bx * t + cx <= x_max lims /\ y_min lims <= by' * t + cy <= y_max lims) /\ x = f t).
  { intros x. rewrite line_along by exact B. split; [intros ((t & ->) & I); exists t; split; [exact I|reflexivity]|intros (t & I & ->); split; [exists t; reflexivity|exact I]]. }
  unfold get_principal_points, add_point. cbn [fst snd].
  destruct (Req_EM_T bx 0) as [E0|E0]; destruct (Req_EM_T by' 0) as [E1|E1]; [exfalso; apply B; subst; reflexivity| | |].
  - cbn [app]. set (a := (_ + cx, _ + cy)). set (b := (bx * (y_max lims - cy) / by' + cx, _)).
    assert (Ea : a = f t3) by (unfold a, f, along, t3; cbn [fst snd]; apply f_equal2; unfold Rdiv; ring).
    assert (Eb : b = f t4) by (unfold b, f, along, t4; cbn [fst snd]; apply f_equal2; unfold Rdiv; ring).
    assert (K : forall x, on_segment a b x <-> on_line (cx, cy) (bx, by') x /\ in_box lims x).
    { intros x. rewrite LB, Ea, Eb. pose proof (box_range (y_min lims) (y_max lims) cy by') as BR. fold t3 t4 in BR. subst bx.
      destruct (Rle_dec t3 t4) as [O|O].
      - unfold f. rewrite segment_along by assumption. split; intros (t & T & ->); exists t; (split; [|reflexivity]).
        + split; [lra|]. apply (BR t E1 Y). rewrite Rmin_left, Rmax_right; lra.
        + destruct T as [_ T]. apply (BR t E1 Y) in T. rewrite Rmin_left, Rmax_right in T; lra.
      - rewrite segment_sym. unfold f. rewrite segment_along by (try assumption; lra). split; intros (t & T & ->); exists t; (split; [|reflexivity]).
        + split; [lra|]. apply (BR t E1 Y). rewrite Rmin_right, Rmax_left; lra.
        + destruct T as [_ T]. apply (BR t E1 Y) in T. rewrite Rmin_right, Rmax_left in T; lra. }
    destruct (sorted2 sort a b S) as [-> | ->]; cbn [length Nat.eqb]; [exists a, b|exists b, a]; (split; [reflexivity|]); [exact K|]. intros x. rewrite segment_sym. apply K.
  - cbn [app]. set (a := (_ + cx, _ + cy)). set (b := (bx * (x_max lims - cx) / bx + cx, _)).
    assert (Ea : a = f t1) by (unfold a, f, along, t1; cbn [fst snd]; apply f_equal2; unfold Rdiv; ring).
    assert (Eb : b = f t2) by (unfold b, f, along, t2; cbn [fst snd]; apply f_equal2; unfold Rdiv; ring).
    assert (K : forall x, on_segment a b x <-> on_line (cx, cy) (bx, by') x /\ in_box lims x).
    { intros x. rewrite LB, Ea, Eb. pose proof (box_range (x_min lims) (x_max lims) cx bx) as BR. fold t1 t2 in BR. subst by'.
      destruct (Rle_dec t1 t2) as [O|O].
      - unfold f. rewrite segment_along by assumption. split; intros (t & T & ->); exists t; (split; [|reflexivity]).
        + split; [|lra]. apply (BR t E0 X). rewrite Rmin_left, Rmax_right; lra.
        + destruct T as [T _]. apply (BR t E0 X) in T. rewrite Rmin_left, Rmax_right in T; lra.
      - rewrite segment_sym. unfold f. rewrite segment_along by (try assumption; lra). split; intros (t & T & ->); exists t; (split; [|reflexivity]).
        + split; [|lra]. apply (BR t E0 X). rewrite Rmin_right, Rmax_left; lra.
        + destruct T as [T _]. apply (BR t E0 X) in T. rewrite Rmin_right, Rmax_left in T; lra. }
    destruct (sorted2 sort a b S) as [-> | ->]; cbn [length Nat.eqb]; [exists a, b|exists b, a]; (split; [reflexivity|]); [exact K|]. intros x. rewrite segment_sym. apply K.
  - cbn [app]. match goal with |- context [sort ?l] => replace l with (map f [t1; t2; t3; t4]) by (cbn [map]; unfold f, along, t1, t2, t3, t4; cbn [fst snd]; repeat (apply f_equal2; [apply f_equal2; unfold Rdiv; ring|]); reflexivity) end.
    destruct (sorted4 sort (map f [t1; t2; t3; t4]) S eq_refl) as (p & q & r & s & -> & P & O1 & O2). cbn [length Nat.eqb skipn firstn]. exists q, r. split; [reflexivity|].
    apply Permutation_map_inv in P. destruct P as (us & E & P). apply Permutation_sym in P. pose proof (Permutation_length P) as N. destruct us as [|u1 [|u2 [|u3 [|u4 [|]]]]]; try discriminate N. cbn [map] in E. injection E as -> -> -> ->.
    pose proof (parameter_signs _ _ _ _ E0 X) as S1. pose proof (parameter_signs _ _ _ _ E1 Y) as S2. fold t1 t2 in S1. fold t3 t4 in S2.
    pose proof (fun t => box_range _ _ _ _ t E0 X) as B1. pose proof (fun t => box_range _ _ _ _ t E1 Y) as B2. fold t1 t2 in B1. fold t3 t4 in B2.
    unfold f, along in O1, O2. cbn [fst snd] in O1, O2.
    assert (P' : Permutation [u1; u2; u3; u4] [Rmin t1 t2; Rmax t1 t2; Rmin t3 t4; Rmax t3 t4]).
    { eapply perm_trans; [exact P|]. unfold Rmin, Rmax. destruct (Rle_dec t1 t2), (Rle_dec t3 t4).
      - apply Permutation_refl.
      - apply perm_skip, perm_skip, perm_swap.
      - apply perm_swap.
      - eapply perm_trans; [apply perm_swap|]. apply perm_skip, perm_skip, perm_swap. }
    assert (M : (u2 <= u3 /\ u2 = Rmax (Rmin t1 t2) (Rmin t3 t4) /\ u3 = Rmin (Rmax t1 t2) (Rmax t3 t4)) \/ (u3 <= u2 /\ u3 = Rmax (Rmin t1 t2) (Rmin t3 t4) /\ u2 = Rmin (Rmax t1 t2) (Rmax t3 t4))).
    { destruct (Rtotal_order bx 0) as [G|[G|G]]; [right|contradiction|left].
      - assert (u4 <= u3 /\ u3 <= u2 /\ u2 <= u1) as (G1 & G2 & G3) by (repeat split; nra). split; [exact G2|]. apply (perm4 _ _ _ _ u4 u3 u2 u1); try assumption.
        eapply perm_trans; [|exact P']. change [u1; u2; u3; u4] with (rev [u4; u3; u2; u1]). apply Permutation_rev.
      - assert (u1 <= u2 /\ u2 <= u3 /\ u3 <= u4) as (G1 & G2 & G3) by (repeat split; nra). split; [exact G2|]. apply (perm4 _ _ _ _ u1 u2 u3 u4); assumption. }
    assert (R1 : forall t, Rmax (Rmin t1 t2) (Rmin t3 t4) <= t <= Rmin (Rmax t1 t2) (Rmax t3 t4) <-> (Rmin t1 t2 <= t <= Rmax t1 t2) /\ (Rmin t3 t4 <= t <= Rmax t3 t4)).
    { intros t. pose proof (Rmax_l (Rmin t1 t2) (Rmin t3 t4)). pose proof (Rmax_r (Rmin t1 t2) (Rmin t3 t4)). pose proof (Rmin_l (Rmax t1 t2) (Rmax t3 t4)). pose proof (Rmin_r (Rmax t1 t2) (Rmax t3 t4)).
      split; [intros; split; lra|]. intros [K1 K2]. split; [apply Rmax_lub; lra|apply Rmin_glb; lra]. }
    intros x. rewrite LB. destruct M as [(G & M2 & M3)|(G & M3 & M2)].
    + unfold f. rewrite segment_along by assumption. rewrite M2, M3. split; intros (t & T & ->); exists t; (split; [|reflexivity]).
      * apply R1 in T. destruct T as [T T']. apply B1 in T. apply B2 in T'. split; assumption.
      * apply R1. destruct T as [T T']. apply B1 in T. apply B2 in T'. split; assumption.
    + rewrite segment_sym. unfold f. rewrite segment_along by assumption. rewrite M2, M3. split; intros (t & T & ->); exists t; (split; [|reflexivity]).
      * apply R1 in T. destruct T as [T T']. apply B1 in T. apply B2 in T'. split; assumption.
      * apply R1. destruct T as [T T']. apply B1 in T. apply B2 in T'. split; assumption.
Qed.
