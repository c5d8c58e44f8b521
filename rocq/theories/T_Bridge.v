(** Theorems about the bridge girders: C80. *)
From Coq Require Import Reals List Bool Arith ZArith Lra Lia.
From Verif Require Import Base M_Fea M_Init M_Geometry S_Geometry P_Geometry P_Geometry3 P_Geometry6 P_Geometry8 M_Library S_Library P_Library P_Library2 P_Library3 P_Library8 S_Concrete S_Nastran P_Nastran M_Bridge S_Bridge P_Bridge.
Import ListNotations.
Local Open Scope R_scope.

(** Girder type, with depth, thickness of the base and of the webs (AS5100.5, appendix D) *)
Definition super_t_sizes : list (Z * (R * R * R)) :=
  [(1%Z, (675, 240, 100)); (2%Z, (925, 240, 100)); (3%Z, (1125, 260, 100)); (4%Z, (1425, 260, 100)); (5%Z, (1725, 325, 120))].

(** The super T: an outline symmetric about x = 0, from - d to t_f and over the whole width w. Its body is, from the bottom up, a base with
    13 x 13 chamfers, the outer faces of the webs, the fillets of 75 x 100 under the flange, and the flange of thickness t_f with 13 x 13 chamfers. What
    is left out of it is, from the bottom up, the space between the sloping top of the base (in the middle t_b above the bottom) and the
    inner faces of the webs, and a recess of 25 x 25 on both sides at the top. The inner faces have the slope 10.556. *)
Theorem C80_super_t_girder sh k sub w t_w t_f m d t_b t_n nom f :
  In (k, (d, t_b, t_n)) super_t_sizes -> sub = 1%Z /\ k <> 5%Z /\ nom = 920 /\ f = 5 \/ sub = 2%Z /\ nom = 1027 /\ f = 5.347 ->
  let t := match t_w with Some t => t | None => t_n end in
  8 <= t <= 300 -> 25 <= t_f <= 800 -> nom + 226 <= w ->
  exists l e ye,
    outlined (super_t_girder_section sh k sub w t_w t_f m) (mkPoly l []) m /\
    spans l (- (w / 2)) (- d) (w / 2) t_f /\ symmetric_x 0 l /\ fst (poly_centroid (mkPoly l [])) = 0 /\
    let s := 10.556 in
    let x := nom / 2 - 75 / sqrt (1 + s ^ 2) in
    let corner := x - d / s in
    let face y := nom / 2 - t * s / sqrt (1 + s ^ 2) + y / s in
    e = face ye /\ e = f * (ye + (d - t_b)) /\
    shaped l
      [mkTrap (- d) (corner - 13) (- (d - 13)) (corner + 13 / s); mkTrap (- (d - 13)) (corner + 13 / s) (-75) x; mkTrap (-75) x 0 (nom / 2 + 100);
       mkTrap 0 (w / 2 - 13) 13 (w / 2); mkTrap 13 (w / 2) t_f (w / 2)]
      [mkTrap (- (d - t_b)) 0 ye e; mkTrap ye e (t_f - 25) (face (t_f - 25)); mkTrap (t_f - 25) (face (t_f - 25) + 25) t_f (face (t_f - 25) + 25)].
Proof.
  intros I S t Ht Htf Hw.
  assert (H : 675 <= d /\ (d <= 1425 /\ nom = 920 \/ d <= 1725 /\ nom = 1027) /\ (240 <= t_b <= 325 /\ 435 <= d - t_b) /\ 5 <= f <= 5.347 /\ super_t_girder_section sh k sub w t_w t_f m = polygon_geometry sh (super_t_points 10.556 f nom d t_b w t t_f) m).
  { cbn [In super_t_sizes] in I. repeat (destruct I as [E|I]; [injection E as <- <- <- <-; destruct S as [(-> & NE & -> & ->)|(-> & -> & ->)]; try (exfalso; apply NE; reflexivity); repeat split; try reflexivity; lra|]). destruct I. }
  destruct H as (H1 & H2 & H3 & H4 & E). destruct (super_t_facts f nom d t_b w t t_f H1 H2 H3 H4 Ht Htf Hw) as (O & SP & SY & N & SH). destruct (ye_range f nom d t_b t H2 H3 H4 Ht) as (_ & _ & EF).
  eexists _, _, _. split; [rewrite E; unfold polygon_geometry; rewrite open_loop_ring by exact O; apply new_outlined|]. split; [exact SP|]. split; [exact SY|]. split; [apply cw_centroid; assumption|].
  cbv zeta. split; [|split; [exact EF|]].
  - replace 10.556 with (10556 / 1000) by lra. fold hyp. lra.
  - unfold t_body, t_void in SH. match type of SH with shaped _ ?a ?b => match goal with |- shaped _ ?a' ?b' => replace a' with a; [replace b' with b; [exact SH|]|] end end;
      (replace 10.556 with (10556 / 1000) by lra; fold hyp; repeat (apply f_equal2; [f_equal; lra|]); reflexivity).
Qed.
Example C80_super_t_example : exists l, outlined (super_t_girder_section toy 5 2 2100 None 75 default_material) (mkPoly l []) default_material /\ spans l (- (2100 / 2)) (-1725) (2100 / 2) 75.
Proof.
  destruct (C80_super_t_girder toy 5 2 2100 None 75 default_material 1725 325 120 1027 5.347) as (l & e & ye & O & S & _); [cbn; auto 10|right; auto|lra..|]. exists l. split; assumption.
Qed.
(** Other types are refused. *)
Theorem C80_super_t_refused sh k sub w t_w t_f m : ~ (1 <= k <= 5)%Z \/ ~ (sub = 1 \/ sub = 2)%Z \/ (k = 5 /\ sub = 1)%Z -> super_t_girder_section sh k sub w t_w t_f m = Err ValueError.
Proof.
  intros H. unfold super_t_girder_section. destruct (k <? 1)%Z eqn:A; [reflexivity|]. destruct (5 <? k)%Z eqn:B; [reflexivity|]. destruct (sub =? 1)%Z eqn:C; destruct (sub =? 2)%Z eqn:D; destruct (k =? 5)%Z eqn:E; cbn [orb negb andb]; try reflexivity; exfalso; lia.
Qed.

(** The outer faces of the webs are not parallel to the inner ones: just under the fillet the web is as thick, measured horizontally, as
    asked for (within 1%, and 0.04), but at the bottom more than 7 less. So no super T has webs of the thickness asked for. *)
Theorem C80_super_t_web_refuted sh k sub w t_w t_f m d t_b t_n nom f :
  In (k, (d, t_b, t_n)) super_t_sizes -> sub = 1%Z /\ k <> 5%Z /\ nom = 920 /\ f = 5 \/ sub = 2%Z /\ nom = 1027 /\ f = 5.347 ->
  let t := match t_w with Some t => t | None => t_n end in
  8 <= t <= 300 -> 25 <= t_f <= 800 -> nom + 226 <= w ->
  exists l top bottom up down,
    outlined (super_t_girder_section sh k sub w t_w t_f m) (mkPoly l []) m /\ In (top, bottom) (edges l) /\ In (down, up) (edges l) /\
    snd top = -75 /\ snd bottom = - (d - 13) /\ snd down < snd top < snd up /\
    Rabs (right_of_line top down up - t) <= t / 100 + 0.05 /\ right_of_line bottom down up < t - 7.
Proof.
  intros I S t Ht Htf Hw.
  assert (H : 675 <= d /\ (d <= 1425 /\ nom = 920 \/ d <= 1725 /\ nom = 1027) /\ (240 <= t_b <= 325 /\ 435 <= d - t_b) /\ 5 <= f <= 5.347 /\ super_t_girder_section sh k sub w t_w t_f m = polygon_geometry sh (super_t_points 10.556 f nom d t_b w t t_f) m).
  { cbn [In super_t_sizes] in I. repeat (destruct I as [E|I]; [injection E as <- <- <- <-; destruct S as [(-> & NE & -> & ->)|(-> & -> & ->)]; try (exfalso; apply NE; reflexivity); repeat split; try reflexivity; lra|]). destruct I. }
  destruct H as (H1 & H2 & H3 & H4 & E). destruct (super_t_facts f nom d t_b w t t_f H1 H2 H3 H4 Ht Htf Hw) as (O & _). destruct (ye_range f nom d t_b t H2 H3 H4 Ht) as (Y & EP & _).
  rewrite super_t_ring in O by assumption. set (q := nom / 2 - t * (10556 / 1000) / hyp) in *. set (ye := (q - f * (d - t_b)) / (f - 1000 / 10556)) in *. set (e := q + 1000 / 10556 * ye) in *.
  exists (super_t_points 10.556 f nom d t_b w t t_f). rewrite super_t_ring by assumption. fold q ye e.
  exists (nom / 2 - 75 / hyp, -75), (nom / 2 - 75 / hyp - 1000 / 10556 * d + 1000 / 10556 * 13, - (d - 13)), (q + 1000 / 10556 * (t_f - 25), t_f - 25), (e, ye).
  destruct over_hyp as [A B]. specialize (B t ltac:(lra)).
  split; [rewrite E; unfold polygon_geometry; rewrite super_t_ring by assumption; fold q ye e; rewrite open_loop_ring by exact O; apply new_outlined|].
  split; [unfold t_ring, edges; cbn [tl firstn combine app In]; tauto|]. split; [unfold t_ring, edges; cbn [tl firstn combine app In]; tauto|].
  unfold right_of_line. cbn [fst snd]. split; [reflexivity|]. split; [reflexivity|]. split; [lra|].
  assert (L : forall y, e + (y - ye) / (t_f - 25 - ye) * (q + 1000 / 10556 * (t_f - 25) - e) = q + 1000 / 10556 * y) by (intros y; unfold e; field; lra).
  rewrite !L. unfold q. split; [apply Rabs_le; lra|lra].
Qed.

(** ** The I girders: flanges, splays and web, one on top of the other *)
Theorem C80_i_girder sh k m b_tf b_bf b_w h_tf h_ts h_w h_bs h_bf :
  In (k, ((b_tf, b_bf, b_w), (h_tf, h_ts, h_w, h_bs, h_bf)))
    [(1%Z, ((200, 300, 120), (100, 40, 420, 90, 100))); (2%Z, ((350, 450, 150), (100, 100, 450, 150, 100)));
     (3%Z, ((450, 500, 150), (130, 150, 545, 175, 150))); (4%Z, ((500, 650, 150), (150, 175, 650, 250, 175)))] ->
  exists l, outlined (i_girder_section sh k m) (mkPoly l []) m /\
    let d := h_tf + h_ts + h_w + h_bs + h_bf in
    spans l (- (b_bf / 2)) (- d) (b_bf / 2) 0 /\ symmetric_x 0 l /\ fst (poly_centroid (mkPoly l [])) = 0 /\
    shaped l
      [mkTrap (- d) (b_bf / 2) (- d + h_bf) (b_bf / 2); mkTrap (- d + h_bf) (b_bf / 2) (- d + h_bf + h_bs) (b_w / 2); mkTrap (- d + h_bf + h_bs) (b_w / 2) (- h_tf - h_ts) (b_w / 2);
       mkTrap (- h_tf - h_ts) (b_w / 2) (- h_tf) (b_tf / 2); mkTrap (- h_tf) (b_tf / 2) 0 (b_tf / 2)] [].
Proof.
  intros I.
  assert (N : ring_area (i_girder_points (mkDims b_tf b_bf b_w h_tf h_ts h_w h_bs h_bf)) < 0 /\ (0 < b_w /\ b_w < b_tf /\ b_tf < b_bf /\ 0 < h_tf /\ 0 < h_ts /\ 0 < h_w /\ 0 < h_bs /\ 0 < h_bf) /\
    i_girder_section sh k m = polygon_geometry sh (i_girder_points (mkDims b_tf b_bf b_w h_tf h_ts h_w h_bs h_bf)) m).
  { cbn [In] in I. repeat (destruct I as [E|I]; [injection E as <- <- <- <- <- <- <- <- <-; split; [unfold ring_area, cross, i_girder_points; cbn [around shoelace fst snd M_Bridge.b_tf M_Bridge.b_bf M_Bridge.b_w M_Bridge.h_tf M_Bridge.h_ts M_Bridge.h_w M_Bridge.h_bs M_Bridge.h_bf]; lra|split; [lra|reflexivity]]|]). destruct I. }
  clear I. destruct N as (N & P & E). rewrite E. exists (i_girder_points (mkDims b_tf b_bf b_w h_tf h_ts h_w h_bs h_bf)).
  assert (S : symmetric_x 0 (i_girder_points (mkDims b_tf b_bf b_w h_tf h_ts h_w h_bs h_bf))).
  { exists (i_girder_points (mkDims b_tf b_bf b_w h_tf h_ts h_w h_bs h_bf)), []. rewrite app_nil_r. split; [reflexivity|]. unfold i_girder_points, mirror_x. cbn [map rev app fst snd M_Bridge.b_tf M_Bridge.b_bf M_Bridge.b_w M_Bridge.h_tf M_Bridge.h_ts M_Bridge.h_w M_Bridge.h_bs M_Bridge.h_bf]. repeat (apply f_equal2; [apply f_equal2; lra|]). reflexivity. }
  split; [unfold polygon_geometry; rewrite open_loop_ring; [apply new_outlined|]|].
  { split; [cbn; lia|]. intros z X. cbn in X. injection X as X. lra. }
  cbv zeta. split; [|split; [exact S|split; [apply cw_centroid; assumption|]]].
  - unfold i_girder_points. cbn [M_Bridge.b_tf M_Bridge.b_bf M_Bridge.b_w M_Bridge.h_tf M_Bridge.h_ts M_Bridge.h_w M_Bridge.h_bs M_Bridge.h_bf]. apply spans_intro; [repeat (apply Forall_cons; [unfold in_box; cbn [fst snd]; lra|]); apply Forall_nil|at_vertex..].
  - apply shaped_intro; [| |intros p| | exact N|].
    + cbn [stacked]; unfold good; cbn [t_lo t_hi half_lo half_hi]; repeat (split || apply Forall_cons || apply Forall_nil); cbn [t_lo t_hi half_lo half_hi]; lra.
    + exact I.
    + unfold clockwise, edges, i_girder_points, count, ind, left_side, right_side. cbn [tl firstn combine map app fold_right t_lo t_hi half_lo half_hi M_Bridge.b_tf M_Bridge.b_bf M_Bridge.b_w M_Bridge.h_tf M_Bridge.h_ts M_Bridge.h_w M_Bridge.h_bs M_Bridge.h_bf].
      cross_tac. unify_steps. unify_sides. ring.
    + intros p X. inversion X.
    + unfold ring_area, cross, traps_area, trap_area, i_girder_points. cbn [around shoelace fst snd map fold_right t_lo t_hi half_lo half_hi M_Bridge.b_tf M_Bridge.b_bf M_Bridge.b_w M_Bridge.h_tf M_Bridge.h_ts M_Bridge.h_w M_Bridge.h_bs M_Bridge.h_bf]. field.
Qed.
Example C80_i_girder_example : exists l, outlined (i_girder_section toy 3 default_material) (mkPoly l []) default_material /\ spans l (- (500 / 2)) (- (130 + 150 + 545 + 175 + 150)) (500 / 2) 0.
Proof. destruct (C80_i_girder toy 3 default_material 450 500 150 130 150 545 175 150) as (l & O & S & _); [cbn; auto 10|]. exists l. split; assumption. Qed.
Theorem C80_i_girder_refused sh k m : ~ (1 <= k <= 4)%Z -> i_girder_section sh k m = Err ValueError.
Proof. intros H. unfold i_girder_section. destruct (k <? 1)%Z eqn:A; [reflexivity|]. destruct (4 <? k)%Z eqn:B; [reflexivity|]. exfalso. lia. Qed.

Print Assumptions C80_super_t_girder.
Print Assumptions C80_super_t_refused.
Print Assumptions C80_super_t_web_refuted.
Print Assumptions C80_i_girder.
Print Assumptions C80_i_girder_refused.
