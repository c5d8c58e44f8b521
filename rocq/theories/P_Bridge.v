(** Proofs about outlines made of trapezoids. *)
From Coq Require Import Reals List Bool Arith ZArith Lra Lia.
From Verif Require Import Base M_Fea M_Init M_Geometry S_Geometry P_Geometry P_Geometry3 P_Geometry6 M_Library S_Library P_Library P_Library2 P_Library3 P_Library8 S_Concrete S_Nastran P_Nastran M_Bridge S_Bridge.
Import ListNotations.
Local Open Scope R_scope.

(** 1 on the line and to its right *)
Definition right_ind (e : pt * pt) (p : pt) : Z := if Rle_dec (turn e p) 0 then 1%Z else 0%Z.
Lemma crosses_up p x1 y1 x2 y2 : y1 < y2 -> crosses p ((x1, y1), (x2, y2)) = ((at_least y1 (snd p) - at_least y2 (snd p)) * right_ind ((x1, y1), (x2, y2)) p)%Z.
Proof. intros H. unfold crosses, at_least, right_ind. cbn [fst snd]. repeat destruct Rle_dec; try reflexivity; lra. Qed.
Lemma crosses_down p x1 y1 x2 y2 : y1 < y2 -> crosses p ((x2, y2), (x1, y1)) = (- ((at_least y1 (snd p) - at_least y2 (snd p)) * right_ind ((x1, y1), (x2, y2)) p))%Z.
Proof.
  intros H. unfold crosses, at_least, right_ind. cbn [fst snd]. replace (turn ((x2, y2), (x1, y1)) p) with (- turn ((x1, y1), (x2, y2)) p) by (unfold turn; cbn [fst snd]; ring).
  repeat destruct Rle_dec; try reflexivity; lra.
Qed.
Lemma crosses_flat p x1 x2 y : crosses p ((x1, y), (x2, y)) = 0%Z.
Proof. unfold crosses. cbn [fst snd]. repeat destruct Rle_dec; reflexivity. Qed.

Definition left_side (t : trapezoid) : pt * pt := ((- half_lo t, t_lo t), (- half_hi t, t_hi t)).
Definition right_side (t : trapezoid) : pt * pt := ((half_lo t, t_lo t), (half_hi t, t_hi t)).
Definition ind (p : pt) (t : trapezoid) : Z := ((at_least (t_lo t) (snd p) - at_least (t_hi t) (snd p)) * (right_ind (left_side t) p - right_ind (right_side t) p))%Z.
Definition good (t : trapezoid) : Prop := t_lo t < t_hi t /\ 0 <= half_lo t /\ 0 <= half_hi t.
Lemma half_times t y : t_lo t < t_hi t -> (t_hi t - t_lo t) * half_at t y = half_lo t * (t_hi t - y) + half_hi t * (y - t_lo t).
Proof. intros H. unfold half_at. field. lra. Qed.
Lemma turn_left t p : t_lo t < t_hi t -> turn (left_side t) p = - ((t_hi t - t_lo t) * (fst p + half_at t (snd p))).
Proof. intros H. rewrite Rmult_plus_distr_l, half_times by exact H. unfold turn, left_side. cbn [fst snd]. ring. Qed.
Lemma turn_right t p : t_lo t < t_hi t -> turn (right_side t) p = - ((t_hi t - t_lo t) * (fst p - half_at t (snd p))).
Proof. intros H. replace (- ((t_hi t - t_lo t) * (fst p - half_at t (snd p)))) with ((t_hi t - t_lo t) * half_at t (snd p) - (t_hi t - t_lo t) * fst p) by ring. rewrite half_times by exact H. unfold turn, right_side. cbn [fst snd]. ring. Qed.
Lemma half_nonneg t y : good t -> t_lo t <= y <= t_hi t -> 0 <= half_at t y.
Proof. intros (H & A & B) Y. apply (Rmult_le_reg_l (t_hi t - t_lo t)); [lra|]. rewrite half_times, Rmult_0_r by exact H. apply Rplus_le_le_0_compat; apply Rmult_le_pos; lra. Qed.
Lemma ind_spec p t : good t -> ind p t = 1%Z /\ within_trap p t \/ ind p t = 0%Z /\ ~ within_trap p t.
Proof.
  intros G. pose proof G as (H & A & B). unfold ind, at_least, within_trap. destruct (Rle_dec (t_lo t) (snd p)) as [L|L].
  2:{ right. destruct Rle_dec; [lra|]. split; [reflexivity|lra]. }
  destruct (Rle_dec (t_hi t) (snd p)) as [U|U]; [right; split; [reflexivity|lra]|].
  pose proof (half_nonneg t (snd p) G ltac:(lra)) as N. unfold right_ind. rewrite turn_left, turn_right by exact H. set (k := t_hi t - t_lo t). set (h := half_at t (snd p)) in *. assert (K : 0 < k) by (unfold k; lra).
  destruct (Rle_dec (- (k * (fst p + h))) 0) as [L1|L1]; destruct (Rle_dec (- (k * (fst p - h))) 0) as [L2|L2].
  - right. split; [reflexivity|]. intros [_ [_ X]]. nra.
  - left. split; [reflexivity|]. split; [lra|]. split; nra.
  - exfalso. nra.
  - right. split; [reflexivity|]. intros [_ [X _]]. nra.
Qed.
Definition count (p : pt) (l : list trapezoid) : Z := fold_right Z.add 0%Z (map (ind p) l).
(** one above the other *)
Fixpoint stacked (l : list trapezoid) : Prop := match l with [] => True | t :: r => good t /\ Forall (fun u => t_hi t <= t_lo u) r /\ stacked r end.
Lemma count_spec p : forall l, stacked l -> count p l = 1%Z /\ Exists (within_trap p) l \/ count p l = 0%Z /\ ~ Exists (within_trap p) l.
Proof.
  induction l as [|t l IH]; intros S; [right; split; [reflexivity|]; intros E; inversion E|]. destruct S as (G & F & S). unfold count. cbn [map fold_right]. fold (count p l).
  destruct (ind_spec p t G) as [[-> W]|[-> W]].
  - destruct (IH S) as [[_ E]|[-> E]].
    + exfalso. apply Exists_exists in E as (u & I & V). rewrite Forall_forall in F. specialize (F u I). destruct W, V. lra.
    + left. split; [reflexivity|]. left. exact W.
  - destruct (IH S) as [[-> E]|[-> E]]; [left; split; [reflexivity|right; exact E]|right; split; [reflexivity|]]. intros X. inversion X; subst; contradiction.
Qed.
Lemma traps_pos l : stacked l -> 0 <= traps_area l.
Proof. induction l as [|t l IH]; intros S; unfold traps_area; cbn [map fold_right]; [lra|]. destruct S as ((H & A & B) & _ & S). specialize (IH S). unfold traps_area in IH. assert (0 <= trap_area t) by (unfold trap_area; apply Rmult_le_pos; lra). lra. Qed.
Lemma shaped_intro l body void : stacked body -> stacked void -> (forall p, clockwise p l = (count p body - count p void)%Z) ->
  (forall p, Exists (within_trap p) void -> Exists (within_trap p) body) -> ring_area l < 0 -> ring_area l = traps_area void - traps_area body -> shaped l body void.
Proof.
  intros B V W I N A. split; [|split; [exact I|]].
  - intros p. rewrite W. destruct (count_spec p body B) as [[-> E]|[-> E]]; destruct (count_spec p void V) as [[-> F]|[-> F]].
    + right. split; [reflexivity|]. right. exact F.
    + left. split; [reflexivity|]. split; assumption.
    + exfalso. apply E, I, F.
    + right. split; [reflexivity|]. left. exact E.
  - unfold poly_area, orient. cbn [ext ints sumf fold_right map]. destruct Rlt_dec as [_|X]; [|contradiction]. unfold sumf, Rsum. cbn [map fold_right]. lra.
Qed.

(** clockwise rings *)
Lemma cw_centroid c l : ring_area l < 0 -> symmetric_x c l -> fst (poly_centroid (mkPoly l [])) = c.
Proof.
  intros A S. unfold poly_centroid, poly_area, poly_mx, orient. cbn [ext ints fst]. unfold sumf. cbn [map fold_right]. destruct Rlt_dec as [_|X]; [|contradiction]. rewrite (symmetric_x_mx c l S).
  change (Rsum []) with 0. field. lra.
Qed.
(** a line below the half widths at both heights is below them in between *)
Lemma half_above t q k y : t_lo t < t_hi t -> t_lo t <= y <= t_hi t -> q + k * t_lo t <= half_lo t -> q + k * t_hi t <= half_hi t -> q + k * y <= half_at t y.
Proof.
  intros H Y A B. apply (Rmult_le_reg_l (t_hi t - t_lo t)); [lra|]. rewrite half_times by exact H.
  replace ((t_hi t - t_lo t) * (q + k * y)) with ((q + k * t_lo t) * (t_hi t - y) + (q + k * t_hi t) * (y - t_lo t)) by ring.
  apply Rplus_le_compat; apply Rmult_le_compat_r; lra.
Qed.
Lemma half_below t q k y : t_lo t < t_hi t -> t_lo t <= y <= t_hi t -> half_lo t <= q + k * t_lo t -> half_hi t <= q + k * t_hi t -> half_at t y <= q + k * y.
Proof.
  intros H Y A B. apply (Rmult_le_reg_l (t_hi t - t_lo t)); [lra|]. rewrite half_times by exact H.
  replace ((t_hi t - t_lo t) * (q + k * y)) with ((q + k * t_lo t) * (t_hi t - y) + (q + k * t_hi t) * (y - t_lo t)) by ring.
  apply Rplus_le_compat; apply Rmult_le_compat_r; lra.
Qed.
Ltac cross_one L := let E := fresh in pose proof L as E; unfold pt in E; rewrite E by lra; clear E.
Ltac cross_tac := rewrite ?crosses_flat; unfold pt; repeat match goal with
  | |- context [crosses ?p ((?x1, ?y1), (?x2, ?y2))] => first [ cross_one (crosses_up p x1 y1 x2 y2) | cross_one (crosses_down p x2 y2 x1 y1) ] end.
Ltac unify_sides :=
  repeat match goal with |- context [right_ind ((?a, ?b), (?c, ?d)) ?q] => match goal with |- context [right_ind ((?a', ?b'), (?c', ?d')) q] =>
    assert_fails (constr_eq ((a, b), (c, d)) ((a', b'), (c', d'))); replace (right_ind ((a', b'), (c', d')) q) with (right_ind ((a, b), (c, d)) q) by (apply (f_equal (fun z => right_ind z q)); apply f_equal2; apply f_equal2; lra) end end.

Ltac at_vertex := first [apply Exists_cons_hd; cbn [fst snd]; lra|apply Exists_cons_tl; at_vertex].

(** ** the super T *)
Section super_t.
  Variables a b tf w2 nf xf cb cc d e ye y20 : R.
  Definition t_ring : list pt :=
    [(b, tf - 25); (a, tf - 25); (a, tf); (w2, tf); (w2, 13); (w2 - 13, 0); (nf, 0); (xf, -75); (cb, - (d - 13)); (cc, - d); (- cc, - d); (- cb, - (d - 13));
     (- xf, -75); (- nf, 0); (- (w2 - 13), 0); (- w2, 13); (- w2, tf); (- a, tf); (- a, tf - 25); (- b, tf - 25); (- e, ye); (0, y20); (e, ye)].
  Definition t_body : list trapezoid :=
    [mkTrap (- d) cc (- (d - 13)) cb; mkTrap (- (d - 13)) cb (-75) xf; mkTrap (-75) xf 0 nf; mkTrap 0 (w2 - 13) 13 w2; mkTrap 13 w2 tf w2].
  Definition t_void : list trapezoid :=
    [mkTrap y20 0 ye e; mkTrap ye e (tf - 25) b; mkTrap (tf - 25) a tf a].
  Hypotheses (Htf : 25 <= tf) (Hd : 88 < d) (Hy : - (d - 13) <= y20 < ye) (Hye : ye < -75) (Hcc : 0 < cc) (Hcb : cc <= cb) (Hxf : cb <= xf) (Hnf : xf <= nf) (Hw : nf <= w2 - 13) (Ha : 0 < a <= w2 - 13) (Hb : 0 < b <= a) (He : 0 < e).
  Lemma t_stacked : stacked t_body /\ stacked t_void.
  Proof. unfold t_body, t_void, good. split; cbn [stacked]; unfold good; cbn [t_lo t_hi half_lo half_hi]; repeat (split || apply Forall_cons || apply Forall_nil); cbn [t_lo t_hi half_lo half_hi]; lra. Qed.
  Lemma t_winding p : clockwise p t_ring = (count p t_body - count p t_void)%Z.
  Proof.
    unfold clockwise, edges, t_ring, count, t_body, t_void, ind, left_side, right_side. cbn [tl firstn combine map app fold_right t_lo t_hi half_lo half_hi].
    cross_tac. unify_steps. unify_sides. ring.
  Qed.
  (** the inner face of the web is x = q + k y *)
  Variables q k : R.
  Hypotheses (Hk : 0 <= k) (Qe : e = q + k * ye) (Qb : b = q + k * (tf - 25)) (Q0 : 0 <= q + k * y20) (Qx : q - 75 * k <= xf) (Qc : q - k * (d - 13) <= cb) (Qn : q <= nf) (Qw : q + k * tf <= w2) (Q13 : q + k * 13 <= w2).
  Lemma t_inside p : Exists (within_trap p) t_void -> Exists (within_trap p) t_body.
  Proof.
    intros E.
    assert (F : (exists u v, - (d - 13) <= snd p < tf /\ - (u + v * snd p) <= fst p < u + v * snd p /\ u - v * (d - 13) <= cb /\ u - v * 75 <= xf /\ u <= nf /\ u + v * 13 <= w2 /\ u + v * tf <= w2) \/
                (0 <= snd p < tf /\ - a <= fst p < a)).
    { unfold t_void in E. apply Exists_cons in E as [E|E]; [|apply Exists_cons in E as [E|E]; [|apply Exists_cons in E as [E|E]; [|inversion E]]].
      - left. exists q, k. destruct E as [L M]. cbn [t_lo t_hi half_lo half_hi] in L. pose proof (half_below (mkTrap y20 0 ye e) q k (snd p)) as X. cbn [t_lo t_hi half_lo half_hi] in X. specialize (X ltac:(lra) ltac:(lra) ltac:(lra) ltac:(lra)). repeat split; lra.
      - left. exists q, k. destruct E as [L M]. cbn [t_lo t_hi half_lo half_hi] in L. pose proof (half_below (mkTrap ye e (tf - 25) b) q k (snd p)) as X. cbn [t_lo t_hi half_lo half_hi] in X. specialize (X ltac:(lra) ltac:(lra) ltac:(lra) ltac:(lra)). repeat split; lra.
      - right. destruct E as [L M]. cbn [t_lo t_hi half_lo half_hi] in L. assert (X : half_at (mkTrap (tf - 25) a tf a) (snd p) = a) by (unfold half_at; cbn [t_lo t_hi half_lo half_hi]; field; lra). rewrite X in M. repeat split; lra. }
    unfold t_body. destruct F as [(u & v & L & M & F1 & F2 & F3 & F4 & F5)|[L M]].
    - apply Exists_cons_tl. destruct (Rlt_dec (snd p) (-75)) as [A|A].
      { apply Exists_cons_hd. pose proof (half_above (mkTrap (- (d - 13)) cb (-75) xf) u v (snd p)) as X. cbn [t_lo t_hi half_lo half_hi] in X. specialize (X ltac:(lra) ltac:(lra) ltac:(lra) ltac:(lra)). split; cbn [t_lo t_hi]; lra. }
      apply Exists_cons_tl. destruct (Rlt_dec (snd p) 0) as [B|B].
      { apply Exists_cons_hd. pose proof (half_above (mkTrap (-75) xf 0 nf) u v (snd p)) as X. cbn [t_lo t_hi half_lo half_hi] in X. specialize (X ltac:(lra) ltac:(lra) ltac:(lra) ltac:(lra)). split; cbn [t_lo t_hi]; lra. }
      apply Exists_cons_tl. destruct (Rlt_dec (snd p) 13) as [C|C].
      { apply Exists_cons_hd. pose proof (half_above (mkTrap 0 (w2 - 13) 13 w2) u v (snd p)) as X. cbn [t_lo t_hi half_lo half_hi] in X. specialize (X ltac:(lra) ltac:(lra) ltac:(lra) ltac:(lra)). split; cbn [t_lo t_hi]; lra. }
      apply Exists_cons_tl, Exists_cons_hd. pose proof (half_above (mkTrap 13 w2 tf w2) u v (snd p)) as X. cbn [t_lo t_hi half_lo half_hi] in X. specialize (X ltac:(lra) ltac:(lra) ltac:(lra) ltac:(lra)). split; cbn [t_lo t_hi]; lra.
    - do 3 apply Exists_cons_tl. destruct (Rlt_dec (snd p) 13) as [C|C].
      { apply Exists_cons_hd. pose proof (half_above (mkTrap 0 (w2 - 13) 13 w2) a 0 (snd p)) as X. cbn [t_lo t_hi half_lo half_hi] in X. specialize (X ltac:(lra) ltac:(lra) ltac:(lra) ltac:(lra)). split; cbn [t_lo t_hi]; lra. }
      apply Exists_cons_tl, Exists_cons_hd. pose proof (half_above (mkTrap 13 w2 tf w2) a 0 (snd p)) as X. cbn [t_lo t_hi half_lo half_hi] in X. specialize (X ltac:(lra) ltac:(lra) ltac:(lra) ltac:(lra)). split; cbn [t_lo t_hi]; lra.
  Qed.
  Lemma t_ring_area : ring_area t_ring = traps_area t_void - traps_area t_body.
  Proof. unfold ring_area, cross, traps_area, trap_area, t_ring, t_void, t_body. cbn [around shoelace fst snd map fold_right t_lo t_hi half_lo half_hi]. field. Qed.
  Hypothesis Q1 : 0 <= q - k * (d - 13).
  Lemma t_negative : ring_area t_ring < 0.
  Proof.
    rewrite t_ring_area. unfold traps_area, trap_area, t_void, t_body. cbn [map fold_right t_lo t_hi half_lo half_hi].
    set (I := fun y1 y2 => (y2 - y1) * (2 * q + k * (y1 + y2))). assert (V1 : (0 + e) * (ye - y20) <= I y20 ye) by (unfold I; rewrite (Rmult_comm (ye - y20)); apply Rmult_le_compat_r; lra).
    assert (V2 : (e + b) * (tf - 25 - ye) = I ye (tf - 25)) by (unfold I; rewrite Qe, Qb; ring).
    assert (B : I (- (d - 13)) (-75) <= (cb + xf) * (-75 - - (d - 13))) by (unfold I; rewrite (Rmult_comm (-75 - - (d - 13))); apply Rmult_le_compat_r; lra).
    assert (C : I (-75) 0 <= (xf + nf) * (0 - -75)) by (unfold I; lra).
    assert (Z : 0 <= I (- (d - 13)) y20) by (unfold I; apply Rmult_le_pos; lra).
    assert (T : I 0 (tf - 25) <= (tf - 25) * (2 * b)) by (unfold I; rewrite Rminus_0_r; apply Rmult_le_compat_l; [lra|]; assert (0 <= k * (tf - 25)) by (apply Rmult_le_pos; lra); lra).
    assert (S : I (- (d - 13)) (-75) + I (-75) 0 + I 0 (tf - 25) = I (- (d - 13)) y20 + I y20 ye + I ye (tf - 25)) by (unfold I; ring).
    assert (A : 0 < (cc + cb) * (- (d - 13) - - d)) by (apply Rmult_lt_0_compat; lra).
    assert (X : (tf - 25) * (2 * b) <= (tf - 25) * (2 * a)) by (apply Rmult_le_compat_l; lra).
    assert (Y : tf * (2 * a) <= tf * (2 * (w2 - 13))) by (apply Rmult_le_compat_l; lra).
    clearbody I. lra.
  Qed.
  Lemma t_shaped : shaped t_ring t_body t_void.
  Proof. destruct t_stacked as [B V]. apply shaped_intro; [exact B|exact V|apply t_winding|exact t_inside|exact t_negative|exact t_ring_area]. Qed.
  Lemma t_spans : spans t_ring (- w2) (- d) w2 tf.
  Proof. assert (E : e <= b) by (rewrite Qe, Qb; apply Rplus_le_compat_l, Rmult_le_compat_l; lra). apply spans_intro; unfold t_ring; [repeat (apply Forall_cons; [unfold in_box; cbn [fst snd]; lra|]); apply Forall_nil|at_vertex..]. Qed.
  Lemma t_symmetric : symmetric_x 0 t_ring.
  Proof. exists (firstn 20 t_ring), (skipn 20 t_ring). split; [symmetry; apply firstn_skipn|]. unfold t_ring, mirror_x. cbn [firstn skipn map rev app fst snd]. repeat (apply f_equal2; [apply f_equal2; lra|]). reflexivity. Qed.
  Lemma t_open : open_loop t_ring.
  Proof. split; [cbn; lia|]. intros z E. cbn in E. injection E as E1 E2. lra. Qed.
End super_t.


(** the numbers *)
Definition hyp : R := sqrt (1 + (10556 / 1000) ^ 2).
Lemma hyp_bounds : 10.6 < hyp < 10.61.
Proof.
  unfold hyp. split; [apply Rsqr_incrst_0|apply Rsqr_incrst_0]; try (apply sqrt_pos || lra); rewrite Rsqr_sqrt by nra; unfold Rsqr; lra.
Qed.
Lemma over_hyp : 7.06 < 75 / hyp < 7.08 /\ forall t, 0 <= t -> 0.99 * t <= t * (10556 / 1000) / hyp <= t.
Proof.
  pose proof hyp_bounds as H. assert (P : 0 < hyp) by lra. split.
  - split; [apply (Rmult_lt_reg_r hyp); [exact P|]; replace (75 / hyp * hyp) with 75 by (field; lra); lra|apply (Rmult_lt_reg_r hyp); [exact P|]; replace (75 / hyp * hyp) with 75 by (field; lra); lra].
  - intros t T. split; apply (Rmult_le_reg_r hyp); try exact P; replace (t * (10556 / 1000) / hyp * hyp) with (t * (10556 / 1000)) by (field; lra); nra.
Qed.
Section numbers.
  Variables (f nom d t_b w t tf : R).
  Hypotheses (Hd : 675 <= d) (Hdn : d <= 1425 /\ nom = 920 \/ d <= 1725 /\ nom = 1027) (Hb : 240 <= t_b <= 325 /\ 435 <= d - t_b) (Hf : 5 <= f <= 5.347) (Ht : 8 <= t <= 300) (Htf : 25 <= tf <= 800) (Hw : nom + 226 <= w).
  Let k := 1000 / 10556.
  Let q := nom / 2 - t * (10556 / 1000) / hyp.
  Let xf := nom / 2 - 75 / hyp.
  Let ye := (q - f * (d - t_b)) / (f - k).
  Let e := q + k * ye.
  Lemma super_t_ring : super_t_points 10.556 f nom d t_b w t tf = t_ring (q + k * (tf - 25) + 25) (q + k * (tf - 25)) tf (w / 2) (nom / 2 + 100) xf (xf - k * d + k * 13) (xf - k * d - 13) d e ye (- (d - t_b)).
  Proof.
    unfold super_t_points. replace 10.556 with (10556 / 1000) by lra. fold hyp. unfold t_ring.
    pose proof hyp_bounds as H. assert (Y : 1 / (1 / (10556 / 1000) - f) * ((tf - 25) / (10556 / 1000) - - (d - t_b) * f - (nom / 2 - t * (10556 / 1000) / hyp + (tf - 25) / (10556 / 1000))) = ye) by (unfold ye, q, k; field; repeat split; lra).
    cbv zeta. rewrite Y. assert (X : f * (- (d - t_b) - ye) = - e) by (unfold e; assert (N : f - k <> 0) by (unfold k; lra); unfold ye; field; exact N). rewrite X.
    unfold xf, q, k. repeat (apply f_equal2; [apply f_equal2; lra|]). reflexivity.
  Qed.
  Lemma ye_range : - (d - t_b) < ye < -75 /\ 0 < e /\ e = f * (ye + (d - t_b)).
  Proof.
    destruct over_hyp as [A B]. specialize (B t ltac:(lra)). assert (Q : q <= 520 /\ 0 < q - k * (d - t_b)) by (unfold q, k; lra).
    assert (N : 0 < f - k) by (unfold k; lra). assert (E : e = f * (ye + (d - t_b))) by (unfold e, ye; field; lra).
    assert (L : - (d - t_b) < ye). { unfold ye. apply (Rmult_lt_reg_r (f - k)); [exact N|]. replace ((q - f * (d - t_b)) / (f - k) * (f - k)) with (q - f * (d - t_b)) by (field; lra). lra. }
    split; [split; [exact L|]|split; [|exact E]].
    - unfold ye. apply (Rmult_lt_reg_r (f - k)); [exact N|]. replace ((q - f * (d - t_b)) / (f - k) * (f - k)) with (q - f * (d - t_b)) by (field; lra). assert (5 * 435 <= f * (d - t_b)) by (apply Rmult_le_compat; lra). unfold k. lra.
    - rewrite E. apply Rmult_lt_0_compat; lra.
  Qed.
  Lemma super_t_facts : let l := super_t_points 10.556 f nom d t_b w t tf in
    open_loop l /\ spans l (- (w / 2)) (- d) (w / 2) tf /\ symmetric_x 0 l /\ ring_area l < 0 /\
    shaped l (t_body tf (w / 2) (nom / 2 + 100) xf (xf - k * d + k * 13) (xf - k * d - 13) d) (t_void (q + k * (tf - 25) + 25) (q + k * (tf - 25)) tf e ye (- (d - t_b))).
  Proof.
    cbv zeta. rewrite super_t_ring. destruct ye_range as (Y & E & EF). destruct over_hyp as [A B]. specialize (B t ltac:(lra)).
    assert (K : k = 1000 / 10556) by reflexivity. assert (XF : xf = nom / 2 - 75 / hyp) by reflexivity. assert (QQ : q = nom / 2 - t * (10556 / 1000) / hyp) by reflexivity. assert (EE : e = q + k * ye) by reflexivity.
    clearbody e ye xf q k. subst k. split; [apply t_open; lra|]. split; [apply (t_spans) with (q := q) (k := 1000 / 10556); lra|].
    split; [apply t_symmetric|]. split; [apply (t_negative) with (q := q) (k := 1000 / 10556); lra|].
    apply (t_shaped) with (q := q) (k := 1000 / 10556); lra.
  Qed.
End numbers.
