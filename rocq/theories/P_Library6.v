(** Proofs about circles of given area, hollow polygons, tapered flanges and box girders. *)
From Coq Require Import Reals List Bool Arith Lra Lia Rtrigo_facts.
From Verif Require Import Base M_Fea M_Init M_Geometry S_Geometry P_Geometry P_Geometry3 P_Geometry6 M_Library S_Library P_Library P_Library2 P_Library3 P_Library5.
Import ListNotations.
Local Open Scope R_scope.

(** ** circular_section_by_area *)
Lemma pi_n n : (3 <= n)%nat -> 0 < PI / INR n /\ PI / INR n < PI / 2.
Proof.
  intros H. assert (N : 3 <= INR n) by (replace 3 with (INR 3) by (cbn; lra); apply le_INR; exact H). pose proof PI_RGT_0. split; [apply Rdiv_lt_0_compat; lra|].
  apply Rmult_lt_compat_l; [assumption|]. apply Rinv_lt_contravar; lra.
Qed.
Lemma by_area area n : (3 <= n)%nat -> 0 < area -> ngon_area n (diameter_by_area area n / 2) = area /\ 0 < diameter_by_area area n.
Proof.
  intros H A. destruct (pi_n n H) as [P1 P2]. assert (N : 0 < INR n) by (apply lt_0_INR; lia). pose proof PI_RGT_0.
  assert (S : 0 < sin (PI / INR n)) by (apply sin_gt_0; lra). assert (C : 0 < cos (PI / INR n)) by (apply cos_gt_0; lra).
  unfold ngon_area. replace (2 * PI / INR n) with (2 * (PI / INR n)) by (field; lra). rewrite sin_2a. unfold diameter_by_area.
  assert (T : tan (PI / INR n) = sin (PI / INR n) / cos (PI / INR n)) by reflexivity. rewrite T.
  set (s := sin (PI / INR n)) in *. set (c := cos (PI / INR n)) in *. assert (E : s * s + c * c = 1) by (unfold s, c; pose proof (sin2_cos2 (PI / INR n)) as E; unfold Rsqr in E; exact E).
  clearbody s c. assert (Q0 : 0 < area / INR n) by (apply Rdiv_lt_0_compat; lra). assert (Q1 : 0 < s / c) by (apply Rdiv_lt_0_compat; lra).
  set (q := sqrt (area / INR n)). set (w := sqrt (s / c)). assert (Q : q * q = area / INR n) by (apply sqrt_sqrt; lra). assert (W : w * w = s / c) by (apply sqrt_sqrt; lra).
  assert (Qp : 0 < q) by (apply sqrt_lt_R0; lra). assert (Wp : 0 < w) by (apply sqrt_lt_R0; lra). clearbody q w.
  assert (D : 2 * q * w / (2 * (s / c)) * (2 * q * w / (2 * (s / c))) + 2 * q * w / 2 * (2 * q * w / 2) = area / INR n / (s * c)).
  { transitivity ((q * q) * (w * w) * (1 + / ((s / c) * (s / c)))); [field; lra|]. rewrite Q, W. transitivity (area / INR n * ((s * s + c * c) / (s * c))); [field; lra|]. rewrite E. field. lra. }
  assert (DP : 0 < area / INR n / (s * c)) by (apply Rdiv_lt_0_compat; [lra|apply Rmult_lt_0_compat; lra]).
  rewrite D. split.
  - set (X := area / INR n / (s * c)) in *. replace ((sqrt X * 2 / 2) ^ 2) with (sqrt X * sqrt X) by field. rewrite sqrt_sqrt by lra. unfold X. field. lra.
  - apply Rmult_lt_0_compat; [apply sqrt_lt_R0; exact DP|lra].
Qed.
Lemma ngon_below n r : (3 <= n)%nat -> 0 < r -> 0 < ngon_area n r < PI * r ^ 2.
Proof.
  intros H Hr. pose proof (sin_turn_pos n H) as S. assert (N : 0 < INR n) by (apply lt_0_INR; lia). pose proof PI_RGT_0. assert (R2 : 0 < r ^ 2) by (apply pow_lt; exact Hr).
  assert (X : 0 < 2 * PI / INR n) by (apply Rdiv_lt_0_compat; lra). pose proof (sin_lt_x _ X) as L. unfold ngon_area.
  split.
  - apply Rmult_lt_0_compat; [exact N|]. apply Rdiv_lt_0_compat; [|lra]. apply Rmult_lt_0_compat; lra.
  - replace (PI * r ^ 2) with (INR n * (r ^ 2 * (2 * PI / INR n) / 2)) by (field; lra). apply Rmult_lt_compat_l; [exact N|]. apply Rmult_lt_compat_r; [lra|]. apply Rmult_lt_compat_l; lra.
Qed.

(** ** Hollow polygons *)
Lemma half_tan x : cos (x / 2) <> 0 -> sin x = 2 * tan (x / 2) / (1 + tan (x / 2) * tan (x / 2)) /\ cos x = (1 - tan (x / 2) * tan (x / 2)) / (1 + tan (x / 2) * tan (x / 2)).
Proof.
  intros C. set (h := x / 2) in *. replace x with (2 * h) by (unfold h; field). rewrite sin_2a, cos_2a. unfold tan. pose proof (sin2_cos2 h) as E. unfold Rsqr in E. set (s := sin h) in *. set (c := cos h) in *. clearbody s c.
  assert (D : 1 + s / c * (s / c) = / (c * c)). { transitivity ((s * s + c * c) / (c * c)); [field; exact C|]. rewrite E. field. exact C. }
  rewrite D. split; field; exact C.
Qed.
Lemma base_seg a r alpha n T : cos (alpha / 2) <> 0 -> T = tan (alpha / 2) -> (2 <= n)%nat \/ r = 0 /\ n = 1%nat -> exists p z v,
  seg (corner_base (2 * ((a - r) * T)) a r alpha n) p z v /\ p = ((a - r) * T, - a) /\ z = ((a - r) * T + r * sin alpha, - a + r - r * cos alpha) /\
  (v + cross z (rotate p alpha)) / 2 = a * a * T - bend n r alpha.
Proof.
  intros C ET H. destruct (half_tan alpha C) as [Es Ec]. rewrite <- ET in Es, Ec.
  assert (D : 1 + T * T <> 0) by (pose proof (Rle_0_sqr T) as Q; unfold Rsqr in Q; lra).
  destruct H as [H|[-> ->]].
  - set (c := ((a - r) * T, - a + r)).
    assert (B : corner_base (2 * ((a - r) * T)) a r alpha n = arc c r n (fun i => 3 / 2 * PI + alpha * step n i)).
    { unfold corner_base, arc, c. apply map_ext. intros i. cbn [fst snd]. replace (3 / 2 * PI + alpha * step n i) with ((1 / 2 * PI + step n i * alpha) + PI) by lra. rewrite neg_cos, neg_sin. f_equal; lra. }
    rewrite B. pose proof (seg_arc c r n (3 / 2 * PI) alpha (fun i => 3 / 2 * PI + alpha * step n i) H (fun i => eq_refl)) as S.
    rewrite cos_plus, sin_plus, cos_32, sin_32 in S. unfold c in S. cbn [fst snd] in S. do 3 eexists. split; [exact S|]. split; [apply f_equal2; lra|]. split; [apply f_equal2; lra|].
    unfold bend. set (k := INR (n - 1) * (r ^ 2 * sin (alpha / INR (n - 1)))). replace (INR (n - 1) * (r ^ 2 * sin (alpha / INR (n - 1)) / 2)) with (k / 2) by (unfold k; lra).
    unfold cross, rotate. cbn [fst snd]. rewrite <- ET, Es, Ec. field. exact D.
  - exists ((a - 0) * T, - a), ((a - 0) * T, - a), 0. split; [|split; [reflexivity|split; [apply f_equal2; lra|]]].
    + unfold corner_base. cbn [seq map]. match goal with |- seg [?q] _ _ _ => replace q with ((a - 0) * T, - a) by (apply f_equal2; lra) end. apply seg_one.
    + unfold bend. cbn [Nat.sub INR]. rewrite <- ET. unfold cross, rotate. cbn [fst snd]. rewrite Es, Ec. field. exact D.
Qed.
Lemma rotate_back p q s t : rotate p s = rotate q t -> rotate p (s - t) = q.
Proof.
  intros H. assert (E : rotate (rotate p s) (- t) = rotate (rotate q t) (- t)) by (rewrite H; reflexivity). rewrite !rotate_plus in E. replace (t + - t) with 0 in E by lra. replace (s - t) with (s + - t) by lra. rewrite E.
  unfold rotate. rewrite cos_0, sin_0. destruct q. cbn [fst snd]. apply f_equal2; lra.
Qed.
Lemma turned_facts a r rot n n_r : (3 <= n)%nat -> 0 < a -> 0 <= r < a -> (2 <= n_r)%nat \/ r = 0 /\ n_r = 1%nat ->
  let alpha := 2 * PI / INR n in let l := turned (corner_base (2 * ((a - r) * tan (PI / INR n))) a r alpha n_r) alpha rot n in
  make_polygon l = Ok (mkPoly l []) /\ ring_area l = INR n * (a * a * tan (PI / INR n) - bend n_r r alpha) /\ symmetric_turn alpha l.
Proof.
  intros H Ha Hr Hn alpha l. destruct (pi_n n H) as [P1 P2]. assert (N : 0 < INR n) by (apply lt_0_INR; lia). pose proof PI_RGT_0.
  assert (Eh : alpha / 2 = PI / INR n) by (unfold alpha; field; lra). assert (C : 0 < cos (alpha / 2)) by (rewrite Eh; apply cos_gt_0; lra).
  assert (T : 0 < tan (PI / INR n)) by (apply tan_gt_0; lra). destruct (base_seg a r alpha n_r (tan (PI / INR n)) ltac:(lra) ltac:(rewrite Eh; reflexivity) Hn) as (p & z & v & S & Ep & Ez & V).
  split; [|split].
  - apply open_loop_ring. destruct n as [|k]; [lia|]. pose proof (seg_turned _ _ _ _ alpha rot S k) as ST. fold l in ST. split.
    + unfold l, turned. rewrite concat_length_sum, map_map. rewrite (map_ext _ (fun _ => length (corner_base (2 * ((a - r) * tan (PI / INR (Datatypes.S k)))) a r alpha n_r))) by (intros i; apply map_length).
      assert (L := seg_length _ _ _ _ S). set (m := length _) in *. assert (Q : forall j s, list_sum (map (fun _ => m) (seq s j)) = (j * m)%nat) by (induction j as [|j IH]; intros s; [reflexivity|]; cbn [seq map]; change (list_sum (m :: map (fun _ => m) (seq (Datatypes.S s) j))) with (m + list_sum (map (fun _ => m) (seq (Datatypes.S s) j)))%nat; rewrite IH; lia).
      rewrite Q. nia.
    + intros d. destruct ST as (NN & Hh & Hl & _). destruct l as [|x l']; [contradiction|]. cbn in Hh. subst x. rewrite (last_default _ d (rotate z (alpha * INR k + rot))) by discriminate. rewrite Hl. cbn [hd].
      intros E. apply rotate_back in E. replace (rot - (alpha * INR k + rot)) with (- (alpha * INR k)) in E by lra. rewrite <- rotate_2PI in E.
      replace (2 * PI + - (alpha * INR k)) with alpha in E by (unfold alpha; rewrite S_INR in *; field; lra).
      destruct (half_tan alpha ltac:(lra)) as [Es Ec]. rewrite Eh in Es, Ec. rewrite Ep, Ez in E. unfold rotate in E. cbn [fst snd] in E. apply pair_equal_spec in E. destruct E as [E1 E2].
      set (u := tan (PI / INR (Datatypes.S k))) in *. assert (D : 0 < 1 + u * u) by (pose proof (Rle_0_sqr u) as Q; unfold Rsqr in Q; lra).
      assert (F1 : (a - r) * (2 * u * cos alpha) = 0). { replace ((a - r) * (2 * u * cos alpha)) with ((cos alpha * ((a - r) * u) - sin alpha * - a) - ((a - r) * u + r * sin alpha)); [rewrite E1; ring|]. rewrite Es, Ec. field. lra. }
      assert (F2 : (a - r) * (2 * u * sin alpha) = 0). { replace ((a - r) * (2 * u * sin alpha)) with ((sin alpha * ((a - r) * u) + cos alpha * - a) - (- a + r - r * cos alpha)); [rewrite E2; ring|]. rewrite Es, Ec. field. lra. }
      apply Rmult_integral in F1. apply Rmult_integral in F2. destruct F1 as [F1|F1]; [lra|]. destruct F2 as [F2|F2]; [lra|]. apply Rmult_integral in F1, F2.
      pose proof (sin2_cos2 alpha) as Q. unfold Rsqr in Q. destruct F1 as [F1|F1]; [lra|]. destruct F2 as [F2|F2]; [lra|]. rewrite F1, F2 in Q. lra.
  - pose proof (turned_area _ _ _ _ n rot ltac:(lia) S) as TA. fold alpha in TA. unfold l. rewrite TA, <- V. field.
  - apply turned_symmetric. lia.
Qed.
