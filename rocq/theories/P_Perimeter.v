(** Proofs about perimeters. *)
From Coq Require Import Reals List Bool Arith Lra Lia.
From Verif Require Import Base M_Fea M_Init M_Geometry S_Geometry P_Geometry P_Geometry3 P_Geometry6 M_Library S_Library P_Library P_Library2 P_Library3 P_Library5 S_Outline M_Perimeter S_Perimeter.
Import ListNotations.
Local Open Scope R_scope.

Lemma dist_euc_eq a b : pt_dist a b = dist_euc (fst b) (snd b) (fst a) (snd a).
Proof. unfold pt_dist, dist_euc, Rsqr. f_equal. ring. Qed.
Lemma dist_sym a b : pt_dist a b = pt_dist b a. Proof. unfold pt_dist. f_equal. ring. Qed.
Lemma dist_nonneg a b : 0 <= pt_dist a b. Proof. apply sqrt_pos. Qed.
Lemma dist_self a : pt_dist a a = 0. Proof. unfold pt_dist. replace (_ + _) with 0 by ring. apply sqrt_0. Qed.
Lemma dist_tri a b c : pt_dist a c <= pt_dist a b + pt_dist b c.
Proof. rewrite !dist_euc_eq, Rplus_comm. apply triangle. Qed.
Lemma dist_axis a b : fst a = fst b \/ snd a = snd b -> pt_dist a b = Rabs (fst b - fst a) + Rabs (snd b - snd a).
Proof.
  unfold pt_dist. intros [E|E]; rewrite E; [replace (fst b - fst b) with 0 by ring|replace (snd b - snd b) with 0 by ring]; rewrite Rabs_R0.
  - replace (0 ^ 2 + (snd b - snd a) ^ 2) with (Rsqr (snd b - snd a)) by (unfold Rsqr; ring). rewrite sqrt_Rsqr_abs. lra.
  - replace ((fst b - fst a) ^ 2 + 0 ^ 2) with (Rsqr (fst b - fst a)) by (unfold Rsqr; ring). rewrite sqrt_Rsqr_abs. lra.
Qed.
Lemma dist_le_axis a b : pt_dist a b <= Rabs (fst b - fst a) + Rabs (snd b - snd a).
Proof.
  eapply Rle_trans; [apply (dist_tri a (fst b, snd a) b)|]. rewrite (dist_axis a (fst b, snd a)) by (right; reflexivity). rewrite (dist_axis (fst b, snd a) b) by (left; reflexivity).
  cbn [fst snd]. replace (fst b - fst b) with 0 by ring. replace (snd a - snd a) with 0 by ring. rewrite Rabs_R0. lra.
Qed.
Lemma dist_ge_x a b : Rabs (fst b - fst a) <= pt_dist a b.
Proof. unfold pt_dist. rewrite <- sqrt_Rsqr_abs. apply sqrt_le_1; [apply Rle_0_sqr|pose proof (pow2_ge_0 (fst b - fst a)); pose proof (pow2_ge_0 (snd b - snd a)); lra|]. unfold Rsqr. pose proof (pow2_ge_0 (fst b - fst a)); pose proof (pow2_ge_0 (snd b - snd a)); lra. Qed.
Lemma dist_ge_y a b : Rabs (snd b - snd a) <= pt_dist a b.
Proof. unfold pt_dist. rewrite <- sqrt_Rsqr_abs. apply sqrt_le_1; [apply Rle_0_sqr|pose proof (pow2_ge_0 (fst b - fst a)); pose proof (pow2_ge_0 (snd b - snd a)); lra|]. unfold Rsqr. pose proof (pow2_ge_0 (fst b - fst a)); pose proof (pow2_ge_0 (snd b - snd a)); lra. Qed.

(** ** the ring length is the length of the curve *)
Lemma shoelace_nth f a : forall l, l <> [] -> shoelace f a l = sumf (fun i => f (nth i l (0, 0)) (nth (S i) (l ++ [a]) (0, 0))) (seq 0 (length l)).
Proof.
  induction l as [|x l IH]; intros H; [contradiction|]. destruct l as [|y l].
  - cbn. unfold sumf, Rsum. cbn. lra.
  - change (f x y + shoelace f a (y :: l) = sumf (fun i => f (nth i (x :: y :: l) (0, 0)) (nth (S i) ((x :: y :: l) ++ [a]) (0, 0))) (seq 0 (S (length (y :: l))))).
    rewrite IH by discriminate. rewrite <- cons_seq, <- seq_shift. unfold sumf, Rsum. cbn [map fold_right]. rewrite map_map. reflexivity.
Qed.
Lemma ring_curve l : ring_length l = curve_length l.
Proof.
  unfold ring_length, curve_length. destruct l as [|a l]; [reflexivity|]. unfold around. rewrite shoelace_nth by discriminate. unfold sumf. f_equal. apply map_ext_in.
  intros i Hi. apply in_seq in Hi. unfold pt_dist. set (L := a :: l) in *. assert (E : nth (S i) (L ++ [a]) (0, 0) = nth (S i mod length L) L (0, 0)).
  { destruct (Nat.eq_dec (S i) (length L)) as [E|E].
    - rewrite E, Nat.mod_same, app_nth2 by lia. rewrite Nat.sub_diag. reflexivity.
    - rewrite Nat.mod_small, app_nth1 by lia. reflexivity. }
  rewrite E. reflexivity.
Qed.

(** ** positive, invariant *)
Lemma path_nonneg l : 0 <= path pt_dist l.
Proof. induction l as [|a l IH]; [cbn; lra|]. destruct l as [|b l]; [cbn; lra|]. rewrite path_cons. pose proof (dist_nonneg a b). lra. Qed.
Lemma length_nonneg l : 0 <= ring_length l.
Proof. unfold ring_length. destruct l as [|a l]; [cbn; lra|]. rewrite around_path. apply path_nonneg. Qed.
Lemma length_rev l : ring_length (rev l) = ring_length l.
Proof. unfold ring_length. rewrite around_rev. apply around_ext. intros. apply dist_sym. Qed.
Lemma length_cycle l l' : same_cycle l l' -> ring_length l' = ring_length l.
Proof. intros [H|H]; [|rewrite <- (length_rev l)]; symmetry; apply same_ring_around; exact H. Qed.
Lemma length_map f l : isometry f -> ring_length (map f l) = ring_length l.
Proof. intros H. unfold ring_length. rewrite around_map. apply around_ext. exact H. Qed.
Lemma cycle_count (l l' : list pt) : same_cycle l l' -> length l' = length l.
Proof. intros [(a & b & E & ->)|(a & b & E & ->)]; [|rewrite <- (rev_length l)]; rewrite E, !app_length; lia. Qed.

(** a path is at least as long as the distance of its ends *)
Lemma path_dist a z : forall l, pt_dist a z <= path pt_dist (a :: l ++ [z]).
Proof.
  intros l. revert a. induction l as [|b l IH]; intros a; [cbn [app path]; lra|]. change ((b :: l) ++ [z]) with (b :: l ++ [z]). rewrite path_cons. specialize (IH b). pose proof (dist_tri a b z). lra.
Qed.
Lemma length_diameter l p q : In p l -> In q l -> 2 * pt_dist p q <= ring_length l.
Proof.
  intros Hp Hq. apply in_split in Hp. destruct Hp as (l1 & l2 & ->). unfold ring_length. rewrite around_rotate. cbn [app]. rewrite around_path.
  assert (Hq' : q = p \/ In q (l2 ++ l1)). { rewrite in_app_iff in *. cbn [In] in Hq. intuition congruence. }
  destruct Hq' as [->|Hq']; [rewrite dist_self; pose proof (path_nonneg (p :: (l2 ++ l1) ++ [p])); lra|].
  apply in_split in Hq'. destruct Hq' as (m1 & m2 & ->). rewrite <- app_assoc. cbn [app].
  change (p :: m1 ++ q :: m2 ++ [p]) with ((p :: m1) ++ q :: m2 ++ [p]). rewrite (path_split pt_dist q (m2 ++ [p]) (p :: m1)). cbn [app].
  pose proof (path_dist p q m1). pose proof (path_dist q p m2). rewrite (dist_sym q p) in *. lra.
Qed.

(** ** rounding *)
Lemma dist_round tol a b : Rabs (pt_dist (round_pt tol a) (round_pt tol b) - pt_dist a b) <= 4 * half tol.
Proof.
  assert (N : forall p, pt_dist p (round_pt tol p) <= 2 * half tol).
  { intros p. eapply Rle_trans; [apply dist_le_axis|]. unfold round_pt. cbn [fst snd]. pose proof (round_to_near tol (fst p)). pose proof (round_to_near tol (snd p)). lra. }
  pose proof (N a). pose proof (N b). set (a' := round_pt tol a) in *. set (b' := round_pt tol b) in *.
  pose proof (dist_tri a a' b). pose proof (dist_tri a' b' b). pose proof (dist_tri a' a b'). pose proof (dist_tri a b b'). rewrite (dist_sym a' a), (dist_sym b' b) in *.
  apply Rabs_le. lra.
Qed.
Lemma path_round tol l : Rabs (path pt_dist (map (round_pt tol) l) - path pt_dist l) <= INR (length l - 1) * (4 * half tol).
Proof.
  induction l as [|a l IH]; [cbn; rewrite Rminus_0_r, Rabs_R0; pose proof (half_pos tol); lra|]. destruct l as [|b l].
  - cbn. rewrite Rminus_0_r, Rabs_R0. pose proof (half_pos tol). lra.
  - cbn [map] in *. rewrite !path_cons. cbn [length Nat.sub] in *. rewrite Nat.sub_0_r in IH. rewrite S_INR. pose proof (dist_round tol a b).
    replace (_ - _) with ((pt_dist (round_pt tol a) (round_pt tol b) - pt_dist a b) + (path pt_dist (round_pt tol b :: map (round_pt tol) l) - path pt_dist (b :: l))) by lra.
    eapply Rle_trans; [apply Rabs_triang|]. lra.
Qed.
Lemma length_round tol l : Rabs (ring_length (map (round_pt tol) l) - ring_length l) <= INR (length l) * (4 * half tol).
Proof.
  unfold ring_length. destruct l as [|a l]; [cbn; rewrite Rminus_0_r, Rabs_R0; lra|]. cbn [map]. rewrite !around_path.
  pose proof (path_round tol (a :: l ++ [a])) as H. cbn [map length] in H. rewrite map_app, app_length in H. cbn [map length] in H.
  replace (S (length l + 1) - 1)%nat with (S (length l)) in H by lia. exact H.
Qed.
Lemma zeros_length l : forallb (fun a => pt_eqb a (0, 0)) l = true -> ring_length l = 0.
Proof.
  intros H. unfold ring_length. assert (F : forall p : pt, In p l -> p = (0, 0)).
  { intros p Hp. rewrite forallb_forall in H. apply pt_eqb_spec, H, Hp. }
  destruct l as [|a l]; [reflexivity|]. rewrite around_path. rewrite (F a) in * by (left; reflexivity). assert (G : forall m : list pt, (forall p : pt, In p m -> p = (0, 0)) -> path pt_dist m = 0).
  { clear. induction m as [|x m IH]; intros G; [reflexivity|]. destruct m as [|y m]; [reflexivity|]. rewrite path_cons, IH by (intros p Hp; apply G; right; exact Hp). rewrite (G x), (G y) by (cbn; auto). rewrite dist_self. lra. }
  apply G. intros p Hp. destruct Hp as [<-|Hp]; [reflexivity|]. apply in_app_iff in Hp. destruct Hp as [Hp|[<-|[]]]; [apply F; right; exact Hp|reflexivity].
Qed.
Lemma new_poly sh p m c tol : gm_poly (new_geometry sh p m c tol) = round_polygon_vertices p tol.
Proof. unfold new_geometry. destruct (create_points_and_facets _ _). reflexivity. Qed.
Lemma perimeter_new sh p m c tol : Rabs (calculate_perimeter (new_geometry sh p m c tol) - ring_length (ext p)) <= INR (length (ext p)) * (2 / 10 ^ tol).
Proof.
  unfold calculate_perimeter. rewrite new_poly. replace (2 / 10 ^ tol) with (4 * half tol) by (unfold half; field; apply pow_nonzero; lra).
  assert (E : ring_length (ext (round_polygon_vertices p tol)) = ring_length (map (round_pt tol) (ext p))).
  { unfold round_polygon_vertices. cbn [ext map_polygon]. destruct (forallb _ _) eqn:Z; [|reflexivity]. symmetry. apply zeros_length. exact Z. }
  rewrite E. apply length_round.
Qed.
Lemma bound_more a k k' t : Rabs a <= INR k * (2 / 10 ^ t) -> (k <= k')%nat -> Rabs a <= INR k' * (2 / 10 ^ t).
Proof.
  intros H L. apply le_INR in L. assert (0 < 2 / 10 ^ t) by (apply Rdiv_lt_0_compat; [lra|apply pow_lt; lra]). nra.
Qed.
Lemma has_new (res : result geom) sh l m k v : res = Ok (new_geometry sh (mkPoly l []) m None 12) -> ring_length l = v -> (length l <= k)%nat -> has_perimeter res k v.
Proof. intros E <- L. eexists. split; [exact E|]. eapply bound_more; [apply (perimeter_new sh (mkPoly l []) m None 12)|exact L]. Qed.

(** ** lengths along an outline, piece by piece *)
Definition lseg (l : list pt) (a z : pt) (v : R) : Prop := l <> [] /\ hd a l = a /\ last l z = z /\ path pt_dist l = v.
Lemma lseg_one p : lseg [p] p p 0. Proof. repeat split. discriminate. Qed.
Lemma lseg_cons p l a z v : lseg l a z v -> lseg (p :: l) p z (pt_dist p a + v).
Proof. intros (N & H & L & V). destruct l as [|b l]; [contradiction|]. cbn in H. subst b. repeat split; [discriminate|exact L|]. rewrite path_cons, V. reflexivity. Qed.
Lemma lseg_app l1 l2 a z v a' z' v' : lseg l1 a z v -> lseg l2 a' z' v' -> lseg (l1 ++ l2) a z' (v + pt_dist z a' + v').
Proof.
  revert a v. induction l1 as [|x l1 IH]; intros a v (N & H & L & V) S2; [contradiction|]. cbn in H. subst x. cbn [app].
  destruct l1 as [|y l1].
  - cbn in L, V. subst z v. cbn [app]. replace (0 + pt_dist a a' + v') with (pt_dist a a' + v') by lra. apply lseg_cons, S2.
  - replace (v + pt_dist z a' + v') with (pt_dist a y + (path pt_dist (y :: l1) + pt_dist z a' + v')).
    + apply lseg_cons, IH; [|exact S2]. repeat split; [discriminate|]. exact L.
    + rewrite <- V. rewrite path_cons. lra.
Qed.
Lemma lseg_length l a z v : lseg l a z v -> ring_length l = v + pt_dist z a.
Proof.
  intros (N & H & L & V). destruct l as [|b l]; [contradiction|]. cbn in H. subst b. unfold ring_length, around. rewrite (shoelace_path _ _ _ z) by discriminate. rewrite L, V. reflexivity.
Qed.
(** a chord of a circle *)
Lemma chord c r s t : 0 <= r -> 0 <= sin ((t - s) / 2) -> pt_dist (fst c + r * cos s, snd c + r * sin s) (fst c + r * cos t, snd c + r * sin t) = 2 * r * sin ((t - s) / 2).
Proof.
  intros Hr Hs. unfold pt_dist. cbn [fst snd]. assert (E : (fst c + r * cos t - (fst c + r * cos s)) ^ 2 + (snd c + r * sin t - (snd c + r * sin s)) ^ 2 = Rsqr (2 * r * sin ((t - s) / 2))).
  { pose proof (cos_2a_sin ((t - s) / 2)) as C. replace (2 * ((t - s) / 2)) with (t - s) in C by field. rewrite cos_minus in C. pose proof (sin2_cos2 s) as S1. pose proof (sin2_cos2 t) as S2. unfold Rsqr in *.
    replace ((fst c + r * cos t - (fst c + r * cos s)) ^ 2 + (snd c + r * sin t - (snd c + r * sin s)) ^ 2) with (r * r * ((sin s * sin s + cos s * cos s) + (sin t * sin t + cos t * cos t) - 2 * (cos t * cos s + sin t * sin s))) by ring.
    rewrite S1, S2, C. ring. }
  rewrite E, sqrt_Rsqr; [reflexivity|]. apply Rmult_le_pos; [lra|exact Hs].
Qed.
Lemma arc_length c r (t : nat -> R) (dt : R) : 0 <= r -> (forall i, t (S i) = t i + dt) -> Rabs dt <= 2 * PI -> forall n k,
  path pt_dist (map (fun i => (fst c + r * cos (t i), snd c + r * sin (t i))) (seq k (S n))) = INR n * (2 * r * sin (Rabs dt / 2)).
Proof.
  intros Hr Ht Hd n. induction n as [|n IH]; intros k; [cbn; lra|]. specialize (IH (S k)). set (F := fun i => (fst c + r * cos (t i), snd c + r * sin (t i))) in *.
  change (map F (seq k (S (S n)))) with (F k :: F (S k) :: map F (seq (S (S k)) n)). rewrite path_cons.
  change (F (S k) :: map F (seq (S (S k)) n)) with (map F (seq (S k) (S n))). rewrite IH, S_INR. unfold F.
  assert (D : pt_dist (fst c + r * cos (t k), snd c + r * sin (t k)) (fst c + r * cos (t (S k)), snd c + r * sin (t (S k))) = 2 * r * sin (Rabs dt / 2)).
  { rewrite (Ht k). unfold Rabs in *. destruct (Rcase_abs dt) as [L|L].
    - rewrite dist_sym, chord; [f_equal; f_equal; lra|exact Hr|]. replace ((t k - (t k + dt)) / 2) with (- dt / 2) by lra. apply sin_ge_0; lra.
    - rewrite chord; [f_equal; f_equal; lra|exact Hr|]. replace ((t k + dt - t k) / 2) with (dt / 2) by lra. apply sin_ge_0; lra. }
  rewrite D. lra.
Qed.
Lemma lseg_arc c r n t0 s t : (2 <= n)%nat -> 0 <= r -> Rabs s <= 2 * PI -> (forall i, t i = t0 + s * step n i) ->
  lseg (arc c r n t) (fst c + r * cos t0, snd c + r * sin t0) (fst c + r * cos (t0 + s), snd c + r * sin (t0 + s)) (INR (n - 1) * (2 * r * sin (Rabs s / INR (n - 1) / 2))).
Proof.
  intros H Hr Hs T. assert (E0 : t 0%nat = t0) by (rewrite T, step_0; lra). assert (E1 : t (n - 1)%nat = t0 + s) by (rewrite T, step_last by exact H; lra).
  destruct n as [|n]; [lia|]. replace (S n - 1)%nat with n in * by lia. assert (1 <= INR n) by (apply (le_INR 1); lia).
  split; [discriminate|]. split; [cbn; rewrite E0; reflexivity|]. split; [rewrite arc_last, E1; reflexivity|].
  assert (EA : Rabs (s / INR n) = Rabs s / INR n). { unfold Rdiv. rewrite Rabs_mult, (Rabs_pos_eq (/ INR n)); [reflexivity|]. left. apply Rinv_0_lt_compat. lra. }
  unfold arc. rewrite (arc_length c r t (s / INR n) Hr).
  - rewrite EA. reflexivity.
  - intros i. rewrite !T, step_S by exact H. replace (S n - 1)%nat with n by lia. unfold Rdiv. ring.
  - rewrite EA. apply Rmult_le_reg_r with (INR n); [lra|]. unfold Rdiv. rewrite Rmult_assoc, Rinv_l by lra. pose proof (Rabs_pos s). pose proof PI_RGT_0. nra.
Qed.
Lemma lseg_quarter q c r n (ccw : bool) : (2 <= n)%nat -> 0 <= r -> let q' := q_next ccw q in
  lseg (draw_radius c r (q_angle q) n ccw (PI / 2)) (fst c + r * q_cos q, snd c + r * q_sin q) (fst c + r * q_cos q', snd c + r * q_sin q') (quarter n r).
Proof.
  intros H Hr q'. unfold draw_radius. destruct (Req_EM_T r 0) as [->|N].
  - match goal with |- lseg _ ?a ?z ?v => replace a with c; [replace z with c; [replace v with 0; [apply lseg_one|]|]|] end;
    [unfold quarter; ring|rewrite (surjective_pairing c) at 1; f_equal; ring|rewrite (surjective_pairing c) at 1; f_equal; ring].
  - pose proof PI_RGT_0. assert (A : Rabs ((if ccw then 1 else -1) * (PI / 2)) = PI / 2) by (destruct ccw; [rewrite Rabs_pos_eq; lra|rewrite Rabs_left; lra]).
    assert (A' : Rabs ((if ccw then 1 else -1) * (PI / 2)) <= 2 * PI) by lra.
    pose proof (lseg_arc c r n (q_angle q) ((if ccw then 1 else -1) * (PI / 2)) (fun i => q_angle q + (if ccw then 1 else -1) * step n i * (PI / 2)) H Hr A' ltac:(intros i; cbv beta; destruct ccw; ring)) as S.
    destruct (q_trig q) as [E1 E2]. destruct (q_end q ccw) as [E3 E4]. rewrite E1, E2, E3, E4, A in S. fold q' in S. unfold quarter. replace (PI / 4 / INR (n - 1)) with (PI / 2 / INR (n - 1) / 2); [exact S|].
    field. apply not_0_INR. lia.
Qed.
Ltac lseg_step := match goal with
  | |- lseg [_] _ _ _ => apply lseg_one
  | |- lseg (_ :: _) _ _ _ => eapply lseg_cons
  | |- lseg (_ ++ _) _ _ _ => eapply lseg_app
  | |- lseg (draw_radius ?c ?r 0 ?n ?w (PI / 2)) _ _ _ => apply (lseg_quarter Q0 c r n w); [assumption|lra]
  | |- lseg (draw_radius ?c ?r (PI / 2) ?n ?w (PI / 2)) _ _ _ => apply (lseg_quarter Q1 c r n w); [assumption|lra]
  | |- lseg (draw_radius ?c ?r PI ?n ?w (PI / 2)) _ _ _ => apply (lseg_quarter Q2 c r n w); [assumption|lra]
  | |- lseg (draw_radius ?c ?r (3 / 2 * PI) ?n ?w (PI / 2)) _ _ _ => apply (lseg_quarter Q3 c r n w); [assumption|lra]
  end.
Ltac dists := repeat match goal with |- context [pt_dist ?a ?b] => rewrite (dist_axis a b) by (cbn [fst snd q_cos q_sin q_next]; first [left; lra|right; lra]) end; cbn [fst snd q_cos q_sin q_next];
  repeat match goal with |- context [Rabs ?x] => first [rewrite (Rabs_pos_eq x) by lra | rewrite (Rabs_left1 x) by lra] end; unfold rounding; try lra.
Ltac lengths := match goal with |- ring_length ?l = _ => erewrite (lseg_length l); [|cbn [app]; repeat lseg_step] end; dists.
(** the number of points of a quarter *)
Lemma quarter_count c r theta n ccw phi : (2 <= n)%nat -> (length (draw_radius c r theta n ccw phi) <= n)%nat.
Proof. intros H. unfold draw_radius. destruct (Req_EM_T r 0); [cbn; lia|]. unfold arc. rewrite map_length, seq_length. lia. Qed.
Lemma cnt_nil : (length (@nil pt) <= 0)%nat. Proof. cbn. lia. Qed.
Lemma cnt_cons (p : pt) l k : (length l <= k)%nat -> (length (p :: l) <= S k)%nat. Proof. cbn. lia. Qed.
Lemma cnt_app (l l' : list pt) k k' : (length l <= k)%nat -> (length l' <= k')%nat -> (length (l ++ l') <= k + k')%nat. Proof. rewrite app_length. lia. Qed.
Ltac count_steps Hn := match goal with
  | |- (length [] <= _)%nat => apply cnt_nil
  | |- (length (_ :: _) <= _)%nat => eapply cnt_cons; count_steps Hn
  | |- (length (_ ++ _) <= _)%nat => eapply cnt_app; count_steps Hn
  | |- (length (draw_radius _ _ _ _ _ _) <= _)%nat => apply quarter_count; exact Hn
  end.
Ltac counts Hn := eapply Nat.le_trans; [count_steps Hn|lia].

Section Shapes.
  Variables (n : nat) (Hn : (2 <= n)%nat).
  Lemma i_length d b t_f t_w r : 0 < t_f -> 0 < t_w -> 0 <= r -> 2 * t_f + 2 * r <= d -> t_w + 2 * r <= b ->
    ring_length (i_points d b t_f t_w r n) = 2 * d + 4 * b - 2 * t_w + 4 * rounding n r.
  Proof. intros. unfold i_points. lengths. Qed.
  Lemma mono_i_length d b_t b_b t_ft t_fb t_w r : 0 < t_ft -> 0 < t_fb -> 0 < t_w -> 0 <= r -> t_ft + t_fb + 2 * r <= d -> t_w + 2 * r <= b_t -> t_w + 2 * r <= b_b ->
    ring_length (mono_i_points d b_t b_b t_ft t_fb t_w r n) = 2 * d + 2 * b_t + 2 * b_b - 2 * t_w + 4 * rounding n r.
  Proof. intros. unfold mono_i_points. cbv zeta. lengths. Qed.
  Lemma channel_length d b t_f t_w r : 0 < t_f -> 0 < t_w -> 0 <= r -> 2 * t_f + 2 * r <= d -> t_w + r <= b ->
    ring_length (channel_points d b t_f t_w r n) = 2 * d + 4 * b - 2 * t_w + 2 * rounding n r.
  Proof. intros. unfold channel_points. lengths. Qed.
  Lemma tee_length d b t_f t_w r : 0 < t_f -> 0 < t_w -> 0 <= r -> t_f + r < d -> t_w + 2 * r <= b ->
    ring_length (tee_points d b t_f t_w r n) = 2 * d + 2 * b + 2 * rounding n r.
  Proof. intros. unfold tee_points. lengths. Qed.
  Lemma cruciform_length d b t r : 0 < t -> 0 <= r -> t + 2 * r < d -> t + 2 * r <= b ->
    ring_length (cruciform_points d b t r n) = 2 * d + 2 * b + 4 * rounding n r.
  Proof. intros. unfold cruciform_points. lengths. Qed.
  Lemma angle_length d b t r_r r_t : 0 < t -> 0 <= r_r -> 0 <= r_t -> r_t <= t -> t + r_r + r_t <= b -> t + r_r + r_t <= d -> isclose t r_t = false ->
    ring_length (angle_points d b t r_r r_t n) = 2 * d + 2 * b + rounding n r_r + 2 * rounding n r_t.
  Proof. intros H1 H2 H3 H4 H5 H6 C. unfold angle_points. rewrite C. lengths. Qed.
  Lemma rhs_length d b r : 0 < d -> 0 < b -> 0 <= r -> 2 * r < d -> 2 * r <= b -> ring_length (rhs_outer d b r n) = 2 * d + 2 * b + 4 * rounding n r.
  Proof. intros. unfold rhs_outer. lengths. Qed.
  Lemma radius_triangle_length b : 0 < b -> ring_length (triangular_radius_points b n) = 2 * b + quarter n b.
  Proof. intros. unfold triangular_radius_points. replace (3 * PI / 2) with (3 / 2 * PI) by lra. lengths. Qed.
  Lemma cee_length d b l t r_out : 0 < t -> 0 <= r_out -> 2 * t <= b -> 2 * r_out <= b -> 2 * t <= d -> 2 * r_out < d -> r_out < l -> t <= l -> 2 * l <= d ->
    ring_length (cee_points d b l t r_out n) = 2 * d + 4 * b + 4 * l - 6 * t + 4 * rounding n r_out + 4 * rounding n (Rmax (r_out - t) 0).
  Proof.
    intros. unfold cee_points. cbv zeta. destruct (Rlt_dec r_out l); [|lra]. assert (M : 0 <= Rmax (r_out - t) 0 /\ (Rmax (r_out - t) 0 = r_out - t /\ 0 <= r_out - t \/ Rmax (r_out - t) 0 = 0 /\ r_out - t <= 0)) by (unfold Rmax; destruct (Rle_dec (r_out - t) 0); lra).
    revert M. generalize (Rmax (r_out - t) 0). intros r_in (M & [M'|M']); lengths.
  Qed.
  Lemma zed_length d b_l b_r l t r_out : 0 < t -> 0 <= r_out -> 2 * t <= b_l -> 2 * r_out <= b_l -> 2 * t <= b_r -> 2 * r_out <= b_r -> 2 * t <= d -> 2 * r_out < d -> r_out < l -> t <= l -> 2 * l <= d ->
    ring_length (zed_points d b_l b_r l t r_out n) = 2 * d + 2 * b_l + 2 * b_r + 4 * l - 6 * t + 4 * rounding n r_out + 4 * rounding n (Rmax (r_out - t) 0).
  Proof.
    intros. unfold zed_points. cbv zeta. destruct (Rlt_dec r_out l); [|lra]. assert (M : 0 <= Rmax (r_out - t) 0 /\ (Rmax (r_out - t) 0 = r_out - t /\ 0 <= r_out - t \/ Rmax (r_out - t) 0 = 0 /\ r_out - t <= 0)) by (unfold Rmax; destruct (Rle_dec (r_out - t) 0); lra).
    revert M. generalize (Rmax (r_out - t) 0). intros r_in (M & [M'|M']); lengths.
  Qed.
End Shapes.
