(** Proofs about library outlines: area along a path, arcs, symmetric rings. *)
From Coq Require Import Reals List Bool Arith Lra Lia Rtrigo_facts.
From Verif Require Import Base M_Fea M_Init M_Geometry S_Geometry P_Geometry P_Geometry3 P_Geometry6 M_Library S_Library.
Import ListNotations.
Local Open Scope R_scope.

(** ** Sums along a path *)
Fixpoint path (f : pt -> pt -> R) (l : list pt) : R :=
  match l with a :: ((b :: _) as rest) => f a b + path f rest | _ => 0 end.
Lemma path_cons f a b l : path f (a :: b :: l) = f a b + path f (b :: l). Proof. reflexivity. Qed.
Lemma shoelace_path f a : forall l z, l <> [] -> shoelace f a l = path f l + f (last l z) a.
Proof.
  induction l as [|x l IH]; intros z H; [contradiction|]. destruct l as [|y l]; [cbn; lra|].
  change (f x y + shoelace f a (y :: l) = f x y + path f (y :: l) + f (last (y :: l) z) a). rewrite (IH z) by discriminate. lra.
Qed.
(** [l] is a path from [a] to [z] with sum [v] *)
Definition seg (l : list pt) (a z : pt) (v : R) : Prop := l <> [] /\ hd a l = a /\ last l z = z /\ path cross l = v.
Lemma last_default {A} (l : list A) d d' : l <> [] -> last l d = last l d'.
Proof. induction l as [|x l IH]; intros H; [contradiction|]. destruct l as [|y l]; [reflexivity|]. apply IH. discriminate. Qed.
Lemma seg_one p : seg [p] p p 0. Proof. repeat split. discriminate. Qed.
Lemma seg_cons p l a z v : seg l a z v -> seg (p :: l) p z (cross p a + v).
Proof.
  intros (N & H & L & V). destruct l as [|b l]; [contradiction|]. cbn in H. subst b. repeat split; [discriminate|exact L|]. cbn [path]. rewrite <- V. reflexivity.
Qed.
Lemma seg_app l1 l2 a z v a' z' v' : seg l1 a z v -> seg l2 a' z' v' -> seg (l1 ++ l2) a z' (v + cross z a' + v').
Proof.
  revert a v. induction l1 as [|x l1 IH]; intros a v (N & H & L & V) S2; [contradiction|]. cbn in H. subst x. cbn [app].
  destruct l1 as [|y l1].
  - cbn in L, V. subst z v. cbn [app]. replace (0 + cross a a' + v') with (cross a a' + v') by lra. apply seg_cons, S2.
  - replace (v + cross z a' + v') with (cross a y + (path cross (y :: l1) + cross z a' + v')).
    + apply seg_cons, IH; [|exact S2]. repeat split; [discriminate|]. exact L.
    + rewrite <- V. change (path cross (a :: y :: l1)) with (cross a y + path cross (y :: l1)). lra.
Qed.
Lemma seg_area l a z v : seg l a z v -> ring_area l = (v + cross z a) / 2.
Proof.
  intros (N & H & L & V). destruct l as [|b l]; [contradiction|]. cbn in H. subst b. unfold ring_area, around. rewrite (shoelace_path _ _ _ z) by discriminate. rewrite L, V. reflexivity.
Qed.

(** ** Arcs *)
(** chord sum of a unit arc with sweep [s] *)
Lemma arc_path c r (t : nat -> R) (dt : R) : forall n k, (forall i, t (S i) = t i + dt) ->
  path cross (map (fun i => (fst c + r * cos (t i), snd c + r * sin (t i))) (seq k (S n))) =
  fst c * (r * sin (t (k + n)%nat) - r * sin (t k)) - snd c * (r * cos (t (k + n)%nat) - r * cos (t k)) + INR n * (r ^ 2 * sin dt).
Proof.
  intros n k Ht. revert k. induction n as [|n IH]; intros k.
  - cbn. rewrite Nat.add_0_r. lra.
  - specialize (IH (S k)). set (F := fun i => (fst c + r * cos (t i), snd c + r * sin (t i))) in *.
    change (map F (seq k (S (S n)))) with (F k :: F (S k) :: map F (seq (S (S k)) n)). rewrite path_cons.
    change (F (S k) :: map F (seq (S (S k)) n)) with (map F (seq (S k) (S n))). rewrite IH. unfold F.
    replace (S k + n)%nat with (k + S n)%nat by lia. rewrite S_INR. unfold cross. cbn [fst snd]. rewrite (Ht k).
    assert (E : cos (t k) * sin (t k + dt) - cos (t k + dt) * sin (t k) = sin dt). { replace dt with (t k + dt - t k) at 3 by lra. rewrite sin_minus. ring. }
    rewrite <- E. ring.
Qed.
Lemma arc_hd c r t n d : arc c r (S n) t <> [] /\ hd d (arc c r (S n) t) = (fst c + r * cos (t 0%nat), snd c + r * sin (t 0%nat)).
Proof. split; [discriminate|reflexivity]. Qed.
Lemma arc_last c r t n d : last (arc c r (S n) t) d = (fst c + r * cos (t n), snd c + r * sin (t n)).
Proof. unfold arc. rewrite seq_S, map_app. cbn [map Nat.add]. apply last_last. Qed.
Lemma step_S n i : (2 <= n)%nat -> step n (S i) = step n i + / INR (n - 1).
Proof. intros H. unfold step. rewrite S_INR. replace (Nat.max 1 (n - 1)) with (n - 1)%nat by lia. unfold Rdiv. ring. Qed.
Lemma step_0 n : step n 0 = 0. Proof. unfold step. cbn. unfold Rdiv. ring. Qed.
Lemma step_last n : (2 <= n)%nat -> step n (n - 1) = 1.
Proof. intros H. unfold step. replace (Nat.max 1 (n - 1)) with (n - 1)%nat by lia. field. apply not_0_INR. lia. Qed.
Lemma step_range n i : (i < n)%nat -> 0 <= step n i <= 1.
Proof.
  intros H. unfold step. assert (0 < INR (Nat.max 1 (n - 1))) by (apply lt_0_INR; lia). split.
  - apply Rmult_le_pos; [apply pos_INR|]. left. apply Rinv_0_lt_compat. assumption.
  - apply Rmult_le_reg_r with (INR (Nat.max 1 (n - 1))); [assumption|]. unfold Rdiv. rewrite Rmult_assoc, Rinv_l by lra. rewrite Rmult_1_r, Rmult_1_l. apply le_INR. lia.
Qed.
(** the sum over an arc given by its angles *)
Lemma seg_arc c r n t0 s t : (2 <= n)%nat -> (forall i, t i = t0 + s * step n i) ->
  seg (arc c r n t) (fst c + r * cos t0, snd c + r * sin t0) (fst c + r * cos (t0 + s), snd c + r * sin (t0 + s))
    (fst c * (r * sin (t0 + s) - r * sin t0) - snd c * (r * cos (t0 + s) - r * cos t0) + INR (n - 1) * (r ^ 2 * sin (s / INR (n - 1)))).
Proof.
  intros H T. assert (E0 : t 0%nat = t0) by (rewrite T, step_0; lra). assert (E1 : t (n - 1)%nat = t0 + s) by (rewrite T, step_last by exact H; lra).
  destruct n as [|n]; [lia|]. replace (S n - 1)%nat with n in * by lia. split; [discriminate|]. split; [cbn; rewrite E0; reflexivity|]. split; [rewrite arc_last, E1; reflexivity|].
  unfold arc. rewrite (arc_path c r t (s / INR n) n 0).
  - rewrite Nat.add_0_l, E0, E1. reflexivity.
  - intros i. rewrite !T, step_S by exact H. replace (S n - 1)%nat with n by lia. unfold Rdiv. ring.
Qed.
Lemma seg_radius c r theta n (ccw : bool) phi : (2 <= n)%nat -> let s := (if ccw then 1 else -1) * phi in
  seg (draw_radius c r theta n ccw phi) (fst c + r * cos theta, snd c + r * sin theta) (fst c + r * cos (theta + s), snd c + r * sin (theta + s))
    (fst c * (r * sin (theta + s) - r * sin theta) - snd c * (r * cos (theta + s) - r * cos theta) + INR (n - 1) * (r ^ 2 * sin (s / INR (n - 1)))).
Proof.
  intros H s. unfold draw_radius. destruct (Req_EM_T r 0) as [->|N].
  - match goal with |- seg _ ?a ?z ?v => replace a with c; [replace z with c; [replace v with 0; [apply seg_one|]|]|] end;
    [ring|rewrite (surjective_pairing c) at 1; f_equal; ring|rewrite (surjective_pairing c) at 1; f_equal; ring].
  - apply seg_arc; [exact H|]. intros i. unfold s. ring.
Qed.

(** quarter arcs *)
Definition K (n : nat) : R := INR (n - 1) * sin (PI / 2 / INR (n - 1)).
Lemma corner_K n r : corner n r = r ^ 2 - r ^ 2 * K n / 2.
Proof. unfold corner, K. lra. Qed.
Lemma cos_32 : cos (3 / 2 * PI) = 0. Proof. replace (3 / 2 * PI) with (3 * (PI / 2)) by lra. apply cos_3PI2. Qed.
Lemma sin_32 : sin (3 / 2 * PI) = -1. Proof. replace (3 / 2 * PI) with (3 * (PI / 2)) by lra. apply sin_3PI2. Qed.
Inductive quad : Type := Q0 | Q1 | Q2 | Q3.
Definition q_angle (q : quad) : R := match q with Q0 => 0 | Q1 => PI / 2 | Q2 => PI | Q3 => 3 / 2 * PI end.
Definition q_cos (q : quad) : R := match q with Q0 => 1 | Q1 => 0 | Q2 => -1 | Q3 => 0 end.
Definition q_sin (q : quad) : R := match q with Q0 => 0 | Q1 => 1 | Q2 => 0 | Q3 => -1 end.
Definition q_next (ccw : bool) (q : quad) : quad :=
  if ccw then match q with Q0 => Q1 | Q1 => Q2 | Q2 => Q3 | Q3 => Q0 end else match q with Q0 => Q3 | Q1 => Q0 | Q2 => Q1 | Q3 => Q2 end.
Lemma q_trig q : cos (q_angle q) = q_cos q /\ sin (q_angle q) = q_sin q.
Proof. destruct q; cbn [q_angle q_cos q_sin]; rewrite ?cos_0, ?sin_0, ?cos_PI2, ?sin_PI2, ?cos_PI, ?sin_PI, ?cos_32, ?sin_32; split; reflexivity. Qed.
(** the angle t = quadrant q turned by u *)
Lemma q_turn q u : cos (q_angle q + u) = q_cos q * cos u - q_sin q * sin u /\ sin (q_angle q + u) = q_sin q * cos u + q_cos q * sin u.
Proof. rewrite cos_plus, sin_plus. destruct (q_trig q) as [-> ->]. split; reflexivity. Qed.
Lemma q_end q (ccw : bool) : cos (q_angle q + (if ccw : bool then 1 else -1) * (PI / 2)) = q_cos (q_next ccw q) /\ sin (q_angle q + (if ccw then 1 else -1) * (PI / 2)) = q_sin (q_next ccw q).
Proof.
  destruct (q_turn q ((if ccw then 1 else -1) * (PI / 2))) as [-> ->]. destruct ccw.
  - rewrite Rmult_1_l, cos_PI2, sin_PI2. destruct q; cbn; lra.
  - replace (-1 * (PI / 2)) with (- (PI / 2)) by lra. rewrite cos_neg, sin_neg, cos_PI2, sin_PI2. destruct q; cbn; lra.
Qed.
Lemma seg_quarter q c r n (ccw : bool) : (2 <= n)%nat -> let q' := q_next ccw q in
  seg (draw_radius c r (q_angle q) n ccw (PI / 2)) (fst c + r * q_cos q, snd c + r * q_sin q) (fst c + r * q_cos q', snd c + r * q_sin q')
    (fst c * (r * q_sin q' - r * q_sin q) - snd c * (r * q_cos q' - r * q_cos q) + (if ccw then 1 else -1) * (r ^ 2 * K n)).
Proof.
  intros H q'. pose proof (seg_radius c r (q_angle q) n ccw (PI / 2) H) as S. cbv zeta in S. destruct (q_trig q) as [E1 E2]. destruct (q_end q ccw) as [E3 E4]. rewrite E1, E2, E3, E4 in S. fold q' in S.
  replace ((if ccw then 1 else -1) * (r ^ 2 * K n)) with (INR (n - 1) * (r ^ 2 * sin ((if ccw then 1 else -1) * (PI / 2) / INR (n - 1)))); [exact S|].
  unfold K. destruct ccw; [rewrite Rmult_1_l; ring|]. replace (-1 * (PI / 2) / INR (n - 1)) with (- (PI / 2 / INR (n - 1))) by (unfold Rdiv; ring). rewrite sin_neg. ring.
Qed.
Lemma quarter_box q c r n (ccw : bool) : 0 <= r -> let q' := q_next ccw q in
  Forall (in_box (fst c + r * Rmin (q_cos q) (q_cos q')) (snd c + r * Rmin (q_sin q) (q_sin q')) (fst c + r * Rmax (q_cos q) (q_cos q')) (snd c + r * Rmax (q_sin q) (q_sin q')))
    (draw_radius c r (q_angle q) n ccw (PI / 2)).
Proof.
  intros Hr q'. unfold draw_radius. destruct (Req_EM_T r 0) as [->|N].
  - constructor; [|constructor]. unfold in_box. lra.
  - unfold arc. apply Forall_forall. intros p Hp. apply in_map_iff in Hp. destruct Hp as (i & <- & Hi). apply in_seq in Hi.
    assert (S := step_range n i ltac:(lia)). set (u := step n i * (PI / 2)).
    assert (U : 0 <= u <= PI / 2). { unfold u. pose proof PI_RGT_0. split; [apply Rmult_le_pos; lra|]. rewrite <- (Rmult_1_l (PI / 2)) at 2. apply Rmult_le_compat_r; lra. }
    assert (0 <= cos u <= 1). { split; [apply cos_ge_0; lra|apply COS_bound]. }
    assert (0 <= sin u <= 1). { split; [apply sin_ge_0; lra|apply SIN_bound]. }
    assert (B : forall a lo hi, lo <= a <= hi -> r * lo <= r * a <= r * hi) by (intros; split; apply Rmult_le_compat_l; lra).
    assert (E : q_angle q + (if ccw then 1 else -1) * step n i * (PI / 2) = q_angle q + (if ccw then 1 else -1) * u) by (unfold u; ring).
    rewrite E. destruct (q_turn q ((if ccw then 1 else -1) * u)) as [-> ->].
    assert (E3 : cos ((if ccw then 1 else -1) * u) = cos u /\ sin ((if ccw then 1 else -1) * u) = (if ccw then 1 else -1) * sin u).
    { destruct ccw; [rewrite !Rmult_1_l; split; reflexivity|]. replace (-1 * u) with (- u) by ring. rewrite cos_neg, sin_neg. lra. }
    destruct E3 as [-> ->]. unfold in_box. cbn [fst snd].
    assert (Q : Rmin (q_cos q) (q_cos q') <= q_cos q * cos u - q_sin q * ((if ccw then 1 else -1) * sin u) <= Rmax (q_cos q) (q_cos q') /\
                Rmin (q_sin q) (q_sin q') <= q_sin q * cos u + q_cos q * ((if ccw then 1 else -1) * sin u) <= Rmax (q_sin q) (q_sin q')).
    { unfold q'. destruct ccw, q; cbn [q_next q_cos q_sin]; unfold Rmin, Rmax; repeat (destruct (Rle_dec _ _)); lra. }
    destruct Q as [Q1 Q2]. pose proof (B _ _ _ Q1). pose proof (B _ _ _ Q2). lra.
Qed.
Lemma quarter_ends q c r n (ccw : bool) : (2 <= n)%nat -> let q' := q_next ccw q in
  In (fst c + r * q_cos q, snd c + r * q_sin q) (draw_radius c r (q_angle q) n ccw (PI / 2)) /\
  In (fst c + r * q_cos q', snd c + r * q_sin q') (draw_radius c r (q_angle q) n ccw (PI / 2)).
Proof.
  intros H q'. destruct (seg_quarter q c r n ccw H) as (N & A & B & _). fold q' in A, B. set (l := draw_radius c r (q_angle q) n ccw (PI / 2)) in *. split.
  - destruct l as [|x l]; [contradiction|]. cbn in A. left. exact A.
  - destruct (exists_last N) as (l' & x & E). rewrite E in *. rewrite last_last in B. rewrite <- B. apply in_or_app. right. left. reflexivity.
Qed.

(** ** Mirrored arcs *)
Lemma map_seq_rev {A} (f : nat -> A) n : rev (map f (seq 0 n)) = map (fun i => f (n - 1 - i)%nat) (seq 0 n).
Proof.
  apply nth_ext with (d := f 0%nat) (d' := f 0%nat); [rewrite rev_length, !map_length; reflexivity|]. intros i Hi. rewrite rev_length, map_length, seq_length in Hi.
  rewrite rev_nth by (rewrite map_length, seq_length; exact Hi). rewrite map_length, seq_length.
  rewrite (map_nth f (seq 0 n) 0%nat), seq_nth by lia.
  rewrite (nth_indep _ (f 0%nat) ((fun i => f (n - 1 - i)%nat) 0%nat)) by (rewrite map_length, seq_length; lia).
  rewrite (map_nth (fun i => f (n - 1 - i)%nat) (seq 0 n) 0%nat), seq_nth by lia. f_equal. lia.
Qed.
Lemma step_rev n i : (2 <= n)%nat -> (i < n)%nat -> step n (n - 1 - i) = 1 - step n i.
Proof.
  intros H I. unfold step. replace (Nat.max 1 (n - 1)) with (n - 1)%nat by lia. rewrite minus_INR by lia. field. apply not_0_INR. lia.
Qed.
(** the arc read backwards starts where it ended and turns the other way *)
Lemma radius_rev c r theta n (ccw : bool) phi : (2 <= n)%nat -> rev (draw_radius c r theta n ccw phi) = draw_radius c r (theta + (if ccw then 1 else -1) * phi) n (negb ccw) phi.
Proof.
  intros H. unfold draw_radius. destruct (Req_EM_T r 0); [reflexivity|]. unfold arc. rewrite map_seq_rev. apply map_ext_in. intros i Hi. apply in_seq in Hi.
  rewrite step_rev by lia. assert (E : theta + (if ccw then 1 else -1) * (1 - step n i) * phi = theta + (if ccw then 1 else -1) * phi + (if negb ccw then 1 else -1) * step n i * phi) by (destruct ccw; cbn [negb]; ring).
  rewrite E. reflexivity.
Qed.
Lemma radius_mirror_x a c r theta n (ccw : bool) phi : map (mirror_x a) (draw_radius c r theta n ccw phi) = draw_radius (2 * a - fst c, snd c) r (PI - theta) n (negb ccw) phi.
Proof.
  unfold draw_radius. destruct (Req_EM_T r 0); [reflexivity|]. unfold arc. rewrite map_map. apply map_ext. intros i. unfold mirror_x, mirror_y. cbn [fst snd].
  assert (E : PI - theta + (if negb ccw then 1 else -1) * step n i * phi = PI - (theta + (if ccw then 1 else -1) * step n i * phi)) by (destruct ccw; cbn [negb]; ring).
  rewrite E. f_equal; [rewrite Rtrigo_facts.cos_pi_minus; ring|rewrite Rtrigo_facts.sin_pi_minus; reflexivity].
Qed.
Lemma radius_mirror_y a c r theta n (ccw : bool) phi : map (mirror_y a) (draw_radius c r theta n ccw phi) = draw_radius (fst c, 2 * a - snd c) r (- theta) n (negb ccw) phi.
Proof.
  unfold draw_radius. destruct (Req_EM_T r 0); [reflexivity|]. unfold arc. rewrite map_map. apply map_ext. intros i. unfold mirror_x, mirror_y. cbn [fst snd].
  assert (E : - theta + (if negb ccw then 1 else -1) * step n i * phi = - (theta + (if ccw then 1 else -1) * step n i * phi)) by (destruct ccw; cbn [negb]; ring).
  rewrite E. f_equal; [rewrite cos_neg; reflexivity|rewrite sin_neg; ring].
Qed.
Lemma radius_period c r theta theta' n (ccw : bool) phi : cos theta = cos theta' -> sin theta = sin theta' -> draw_radius c r theta n ccw phi = draw_radius c r theta' n ccw phi.
Proof.
  intros C S. unfold draw_radius. destruct (Req_EM_T r 0); [reflexivity|]. unfold arc. apply map_ext. intros i. rewrite !cos_plus, !sin_plus, C, S. reflexivity.
Qed.
(** mirrored and read backwards: a quarter arc in the mirrored quadrant *)
Definition q_mx (q : quad) : quad := match q with Q0 => Q2 | Q1 => Q1 | Q2 => Q0 | Q3 => Q3 end.
Definition q_my (q : quad) : quad := match q with Q0 => Q0 | Q1 => Q3 | Q2 => Q2 | Q3 => Q1 end.
Lemma quarter_mirror_x a c r q n (ccw : bool) : (2 <= n)%nat ->
  rev (map (mirror_x a) (draw_radius c r (q_angle q) n ccw (PI / 2))) = draw_radius (2 * a - fst c, snd c) r (q_angle (q_mx (q_next ccw q))) n ccw (PI / 2).
Proof.
  intros H. rewrite radius_mirror_x, radius_rev, negb_involutive by exact H. apply radius_period.
  - assert (E : PI - q_angle q + (if negb ccw then 1 else -1) * (PI / 2) = PI - (q_angle q + (if ccw then 1 else -1) * (PI / 2))) by (destruct ccw; cbn [negb]; lra).
    rewrite E, Rtrigo_facts.cos_pi_minus. destruct (q_end q ccw) as [-> _]. destruct (q_trig (q_mx (q_next ccw q))) as [-> _]. destruct (q_next ccw q); cbn; lra.
  - assert (E : PI - q_angle q + (if negb ccw then 1 else -1) * (PI / 2) = PI - (q_angle q + (if ccw then 1 else -1) * (PI / 2))) by (destruct ccw; cbn [negb]; lra).
    rewrite E, Rtrigo_facts.sin_pi_minus. destruct (q_end q ccw) as [_ ->]. destruct (q_trig (q_mx (q_next ccw q))) as [_ ->]. destruct (q_next ccw q); cbn; lra.
Qed.
Lemma quarter_mirror_y a c r q n (ccw : bool) : (2 <= n)%nat ->
  rev (map (mirror_y a) (draw_radius c r (q_angle q) n ccw (PI / 2))) = draw_radius (fst c, 2 * a - snd c) r (q_angle (q_my (q_next ccw q))) n ccw (PI / 2).
Proof.
  intros H. rewrite radius_mirror_y, radius_rev, negb_involutive by exact H. apply radius_period.
  - assert (E : - q_angle q + (if negb ccw then 1 else -1) * (PI / 2) = - (q_angle q + (if ccw then 1 else -1) * (PI / 2))) by (destruct ccw; cbn [negb]; lra).
    rewrite E, cos_neg. destruct (q_end q ccw) as [-> _]. destruct (q_trig (q_my (q_next ccw q))) as [-> _]. destruct (q_next ccw q); cbn; lra.
  - assert (E : - q_angle q + (if negb ccw then 1 else -1) * (PI / 2) = - (q_angle q + (if ccw then 1 else -1) * (PI / 2))) by (destruct ccw; cbn [negb]; lra).
    rewrite E, sin_neg. destruct (q_end q ccw) as [_ ->]. destruct (q_trig (q_my (q_next ccw q))) as [_ ->]. destruct (q_next ccw q); cbn; lra.
Qed.
