(** Proofs: hollow polygons and box girders as sections. *)
From Coq Require Import Reals List Bool Arith ZArith Lra Lia Rtrigo_facts.
From Verif Require Import Base M_Fea M_Init M_Geometry S_Geometry P_Geometry P_Geometry3 P_Geometry5 P_Geometry6 P_Geometry8 M_Library S_Library P_Library P_Library2 P_Library3 P_Library4 P_Library5 P_Library6 P_Library7 P_Library8 P_Library9.
Import ListNotations.
Local Open Scope R_scope.

Lemma bend_scale n s : 0 <= s < PI -> exists k, 0 <= k <= tan (s / 2) /\ forall r, bend n r s = r ^ 2 * k.
Proof.
  intros H. exists (tan (s / 2) - INR (n - 1) * sin (s / INR (n - 1)) / 2). split; [|intros r; unfold bend; unfold Rdiv; ring].
  assert (T : s / 2 <= tan (s / 2)) by (destruct (Req_dec s 0) as [->|N]; [replace (0 / 2) with 0 by field; rewrite tan_0; lra|left; apply tan_gt; lra]).
  assert (K0 : 0 <= INR (n - 1) * sin (s / INR (n - 1)) <= s).
  { destruct (Nat.eq_dec (n - 1) 0) as [->|N]; [cbn; rewrite Rmult_0_l; lra|]. assert (N1 : 1 <= INR (n - 1)) by (replace 1 with (INR 1) by reflexivity; apply le_INR; lia).
    assert (S1 : 0 <= s / INR (n - 1) <= s). { split; [apply Rmult_le_pos; [lra|left; apply Rinv_0_lt_compat; lra]|]. apply Rmult_le_reg_r with (INR (n - 1)); [lra|]. unfold Rdiv. rewrite Rmult_assoc, Rinv_l by lra. nra. }
    split; [apply Rmult_le_pos; [lra|apply sin_ge_0; lra]|]. destruct (Req_dec s 0) as [->|Ns]; [replace (0 / INR (n - 1)) with 0 by (field; lra); rewrite sin_0; lra|].
    assert (S2 : 0 < s / INR (n - 1)) by (apply Rdiv_lt_0_compat; lra). pose proof (sin_lt_x _ S2) as L. replace s with (INR (n - 1) * (s / INR (n - 1))) at 2 by (field; lra). apply Rmult_le_compat_l; lra. }
  lra.
Qed.
Lemma polygon_hollow_facts sh d t n r_in n_r rot m : (3 <= n)%nat -> 0 < t < d / 2 * cos (PI / INR n) -> 0 <= r_in < d / 2 * cos (PI / INR n) - t -> (2 <= n_r)%nat \/ r_in = 0 ->
  let a_out := d / 2 * cos (PI / INR n) in let a_in := a_out - t in let r_out := if Req_EM_T r_in 0 then 0 else r_in + t in let alpha := 2 * PI / INR n in
  let k_r := if Req_EM_T r_in 0 then 1%nat else n_r in
  exists o i, hollowed sh (polygon_hollow_section sh d t n r_in n_r rot m) o i m /\
    ring_area o = INR n * (a_out * a_out * tan (PI / INR n) - bend k_r r_out alpha) /\ ring_area i = INR n * (a_in * a_in * tan (PI / INR n) - bend k_r r_in alpha) /\
    0 <= ring_area i < ring_area o /\ symmetric_turn alpha o /\ symmetric_turn alpha i.
Proof.
  intros H Ht Hr Hn a_out a_in r_out alpha n_r'.
  destruct (pi_n n H) as [P1 P2]. assert (N : 0 < INR n) by (apply lt_0_INR; lia). pose proof PI_RGT_0. assert (C : 0 < cos (PI / INR n)) by (apply cos_gt_0; lra). assert (S : 0 < sin (PI / INR n)) by (apply sin_gt_0; lra).
  assert (T : 0 < tan (PI / INR n)) by (apply tan_gt_0; lra). assert (Eh : alpha / 2 = PI / INR n) by (unfold alpha; field; lra).
  assert (Ao : 0 < a_out) by (unfold a_out; lra). assert (Ai : 0 < a_in) by (unfold a_in, a_out; lra). assert (Ro : 0 <= r_out < a_out) by (unfold r_out, a_in, a_out in *; destruct (Req_EM_T r_in 0); lra).
  assert (Hn' : (2 <= n_r')%nat \/ r_in = 0 /\ n_r' = 1%nat) by (unfold n_r'; destruct (Req_EM_T r_in 0); [right; auto|left; destruct Hn; [assumption|contradiction]]).
  assert (Hno : (2 <= n_r')%nat \/ r_out = 0 /\ n_r' = 1%nat) by (unfold n_r', r_out; destruct (Req_EM_T r_in 0); [right; auto|left; destruct Hn; [assumption|contradiction]]).
  destruct (turned_facts a_out r_out (rot * PI / 180) n n_r' H Ao Ro Hno) as (Mo & Aro & So). destruct (turned_facts a_in r_in (rot * PI / 180) n n_r' H Ai ltac:(unfold a_in, a_out; lra) Hn') as (Mi & Ari & Si).
  fold alpha in Mo, Aro, So, Mi, Ari, Si. set (o := turned _ _ _ _) in Mo, Aro, So. set (i := turned _ _ _ _) in Mi, Ari, Si. exists o, i.
  split; [|split; [exact Aro|split; [exact Ari|split; [|split; assumption]]]].
  - unfold polygon_hollow_section. destruct (Nat.ltb_spec n 3); [lia|]. fold alpha. rewrite Eh. fold a_out. fold a_in. destruct (Rlt_dec a_in r_in) as [X|_]; [unfold a_in, a_out in X; lra|].
    assert (E1 : d * sin (PI / INR n) = 2 * (a_out * tan (PI / INR n))) by (unfold a_out, tan; field; lra).
    assert (E3 : (if Req_EM_T r_in 0 then (0, 1%nat) else (r_in + t, n_r)) = (r_out, n_r')) by (unfold r_out, n_r'; destruct (Req_EM_T r_in 0); reflexivity).
    rewrite E3. cbv zeta. rewrite E1.
    replace (2 * (a_out * tan (PI / INR n)) - 2 * (r_out * (2 * (a_out * tan (PI / INR n)) / 2) / a_out)) with (2 * ((a_out - r_out) * tan (PI / INR n))) by (field; lra).
    replace (a_in / a_out * (2 * (a_out * tan (PI / INR n))) - 2 * (r_in * (a_in / a_out * (2 * (a_out * tan (PI / INR n))) / 2) / a_in)) with (2 * ((a_in - r_in) * tan (PI / INR n))) by (field; lra).
    apply hollow_make; assumption.
  - rewrite Aro, Ari. destruct (bend_scale n_r' alpha) as (k & Hk & B); [rewrite <- (Rmult_1_r alpha); unfold alpha in *; lra|]. rewrite Eh in Hk. rewrite !B. set (u := tan (PI / INR n)) in *. clearbody u.
    assert (Rr : r_out * r_out - r_in * r_in <= t * (2 * r_in + t)) by (unfold r_out; destruct (Req_EM_T r_in 0) as [->|]; nra). assert (Rr2 : r_in * r_in < a_in * a_in) by (assert (r_in < a_in) by (unfold a_in, a_out; lra); nra).
    assert (Ad : a_out * a_out - a_in * a_in = t * (2 * a_in + t)) by (unfold a_in; ring). assert (Ra : r_in < a_in) by (unfold a_in, a_out; lra). assert (T0 : 0 < t) by lra.
    split.
    + apply Rmult_le_pos; [lra|]. simpl pow. rewrite Rmult_1_r. assert (r_in * r_in * k <= a_in * a_in * u) by (apply Rmult_le_compat; nra). lra.
    + apply Rmult_lt_compat_l; [exact N|]. simpl pow. rewrite !Rmult_1_r. assert (X1 : (r_out * r_out - r_in * r_in) * k <= t * (2 * r_in + t) * k) by (apply Rmult_le_compat_r; lra).
      assert (X2 : t * (2 * r_in + t) * k <= t * (2 * r_in + t) * u) by (apply Rmult_le_compat_l; [nra|lra]). assert (X3 : t * (2 * r_in + t) * u < t * (2 * a_in + t) * u) by (apply Rmult_lt_compat_r; [lra|nra]). nra.
Qed.
Lemma girder_facts sh d b_t b_b t_ft t_fb t_w m : 0 < d -> b_t <> b_b -> 0 <= t_w -> t_ft + t_fb <> d ->
  let h := (b_b - b_t) / 2 in let e := t_w * sqrt (d ^ 2 + h ^ 2) / d in let x := Rmax b_t b_b / 2 in
  let o := [(x - b_b / 2, 0); (x + b_b / 2, 0); (x + b_t / 2, d); (x - b_t / 2, d)] in
  let wb := b_b / 2 - h * (t_fb / d) - e in let wt := b_t / 2 + h * (t_ft / d) - e in
  let i := [(x - wb, t_fb); (x + wb, t_fb); (x + wt, d - t_ft); (x - wt, d - t_ft)] in
  hollowed sh (box_girder_section sh d b_t b_b t_ft t_fb t_w m) o i m /\ ring_area o = d * (b_t + b_b) / 2 /\ ring_area i = (d - t_ft - t_fb) * (wb + wt) /\ symmetric_x x o /\ symmetric_x x i.
Proof.
  intros Hd Hb Hw Ht h e x o wb wt i. split; [|split; [|split; [|split]]].
  - unfold box_girder_section. fold x. destruct (girder_angles d b_t b_b) as [phi_b phi_t] eqn:E. destruct (girder_angles_spec d b_t b_b t_ft t_fb t_w Hd Hb Hw phi_b phi_t E) as (-> & -> & ->). fold h. fold e. fold o.
    assert (Ei : [(x - b_b / 2 - - (t_fb * h / d) + e, t_fb); (x + b_b / 2 + - (t_fb * h / d) - e, t_fb); (x + b_t / 2 + t_ft * h / d - e, d - t_ft); (x - b_t / 2 - t_ft * h / d + e, d - t_ft)] = i).
    { unfold i, wb, wt. repeat (apply f_equal2; [apply f_equal2; [field; lra|reflexivity]|]). reflexivity. }
    rewrite Ei. apply hollow_make; apply open_loop_ring; (split; [cbn; lia|]; intros q Eq; cbn in Eq; injection Eq as _ Eq; lra).
  - unfold o, ring_area, cross. cbn [around shoelace fst snd]. lra.
  - unfold i, ring_area, cross. cbn [around shoelace fst snd]. lra.
  - exists [(x - b_b / 2, 0); (x + b_b / 2, 0)], [(x + b_t / 2, d); (x - b_t / 2, d)]. split; [reflexivity|]. unfold o, mirror_x. cbn [map rev app fst snd]. repeat (apply f_equal2; [apply f_equal2; lra|]). reflexivity.
  - exists [(x - wb, t_fb); (x + wb, t_fb)], [(x + wt, d - t_ft); (x - wt, d - t_ft)]. split; [reflexivity|]. unfold i, mirror_x. cbn [map rev app fst snd]. repeat (apply f_equal2; [apply f_equal2; lra|]). reflexivity.
Qed.
