(** Proofs about the outlines of the steel sections made of quarter arcs. *)
From Coq Require Import Reals List Bool Arith Lra Lia.
From Verif Require Import Base M_Fea M_Init M_Geometry S_Geometry P_Geometry P_Geometry3 P_Geometry6 M_Library S_Library P_Library P_Library2.
Import ListNotations.
Local Open Scope R_scope.

Lemma seg_length l a z v : seg l a z v -> (1 <= length l)%nat.
Proof. intros (N & _). destruct l; [contradiction|]. cbn. lia. Qed.
Lemma seg_make sh l a z v m : seg l a z v -> (3 <= length l)%nat -> fst a <> fst z \/ snd a <> snd z ->
  polygon_geometry sh l m = Ok (new_geometry sh (mkPoly l []) m None 12).
Proof.
  intros (N & H & L & _) G D. unfold polygon_geometry. rewrite open_loop_ring; [reflexivity|]. split; [exact G|]. intros d. destruct l as [|x l]; [contradiction|].
  cbn in H. subst x. rewrite (last_default _ d z) by discriminate. rewrite L. cbn. intros E. rewrite E in D. destruct D; congruence.
Qed.
Lemma seg_polygon l a z v : seg l a z v -> (3 <= length l)%nat -> fst a <> fst z \/ snd a <> snd z -> make_polygon l = Ok (mkPoly l []).
Proof.
  intros (N & H & L & _) G D. rewrite open_loop_ring; [reflexivity|]. split; [exact G|]. intros d. destruct l as [|x l]; [contradiction|].
  cbn in H. subst x. rewrite (last_default _ d z) by discriminate. rewrite L. cbn. intros E. rewrite E in D. destruct D; congruence.
Qed.
Lemma radius_eq c c' r theta n ccw phi : c = c' -> draw_radius c r theta n ccw phi = draw_radius c' r theta n ccw phi. Proof. congruence. Qed.
Lemma radius_length c r theta n ccw phi : (2 <= n)%nat -> (1 <= length (draw_radius c r theta n ccw phi))%nat.
Proof. intros H. eapply seg_length, (seg_radius c r theta n ccw phi H). Qed.

Ltac seg_step := match goal with
  | |- seg [_] _ _ _ => apply seg_one
  | |- seg (_ :: _) _ _ _ => eapply seg_cons
  | |- seg (_ ++ _) _ _ _ => eapply seg_app
  | |- seg (draw_radius ?c ?r 0 ?n ?w (PI / 2)) _ _ _ => apply (seg_quarter Q0 c r n w); assumption
  | |- seg (draw_radius ?c ?r (PI / 2) ?n ?w (PI / 2)) _ _ _ => apply (seg_quarter Q1 c r n w); assumption
  | |- seg (draw_radius ?c ?r PI ?n ?w (PI / 2)) _ _ _ => apply (seg_quarter Q2 c r n w); assumption
  | |- seg (draw_radius ?c ?r (3 / 2 * PI) ?n ?w (PI / 2)) _ _ _ => apply (seg_quarter Q3 c r n w); assumption
  end.
Ltac segs := cbn [app]; repeat seg_step.
Ltac box_one := cbn [q_next q_cos q_sin fst snd]; lra.
Ltac box_step := match goal with
  | |- Forall _ [] => constructor
  | |- Forall _ (_ :: _) => constructor; [unfold in_box; cbn [fst snd]; lra|]
  | |- Forall _ (_ ++ _) => apply Forall_app; split
  | |- Forall _ (draw_radius ?c ?r 0 ?n ?w (PI / 2)) => apply (quarter_in Q0 c r n w); box_one
  | |- Forall _ (draw_radius ?c ?r (PI / 2) ?n ?w (PI / 2)) => apply (quarter_in Q1 c r n w); box_one
  | |- Forall _ (draw_radius ?c ?r PI ?n ?w (PI / 2)) => apply (quarter_in Q2 c r n w); box_one
  | |- Forall _ (draw_radius ?c ?r (3 / 2 * PI) ?n ?w (PI / 2)) => apply (quarter_in Q3 c r n w); box_one
  end.
Ltac boxes := repeat box_step.
Ltac ex_end := cbn [q_next q_cos q_sin fst snd]; first [left; lra | right; lra].
Ltac ex_find := match goal with
  | |- Exists _ (_ :: _) => first [apply Exists_cons_hd; cbn [fst snd]; lra | apply Exists_cons_tl; ex_find]
  | |- Exists _ (_ ++ _) => apply Exists_app; first [left; ex_find | right; ex_find]
  | |- Exists _ (draw_radius ?c ?r 0 ?n ?w (PI / 2)) => apply (quarter_has Q0 c r n w); [assumption|ex_end]
  | |- Exists _ (draw_radius ?c ?r (PI / 2) ?n ?w (PI / 2)) => apply (quarter_has Q1 c r n w); [assumption|ex_end]
  | |- Exists _ (draw_radius ?c ?r PI ?n ?w (PI / 2)) => apply (quarter_has Q2 c r n w); [assumption|ex_end]
  | |- Exists _ (draw_radius ?c ?r (3 / 2 * PI) ?n ?w (PI / 2)) => apply (quarter_has Q3 c r n w); [assumption|ex_end]
  end.
Ltac spanning := apply spans_intro; [boxes|ex_find|ex_find|ex_find|ex_find].
(** rewrite one mirrored arc *)
Ltac mirror_arc_with lem q a c r n w H := let E := fresh in pose proof (lem a c r q n w H) as E; cbn [q_angle q_next q_mx q_my fst snd] in E; rewrite E; clear E.
Ltac mirror_arcs H := repeat match goal with
  | |- context [@rev _ (@map _ _ (mirror_x ?a) (draw_radius ?c ?r 0 ?n ?w (PI / 2)))] => mirror_arc_with quarter_mirror_x Q0 a c r n w H
  | |- context [@rev _ (@map _ _ (mirror_x ?a) (draw_radius ?c ?r (PI / 2) ?n ?w (PI / 2)))] => mirror_arc_with quarter_mirror_x Q1 a c r n w H
  | |- context [@rev _ (@map _ _ (mirror_x ?a) (draw_radius ?c ?r PI ?n ?w (PI / 2)))] => mirror_arc_with quarter_mirror_x Q2 a c r n w H
  | |- context [@rev _ (@map _ _ (mirror_x ?a) (draw_radius ?c ?r (3 / 2 * PI) ?n ?w (PI / 2)))] => mirror_arc_with quarter_mirror_x Q3 a c r n w H
  | |- context [@rev _ (@map _ _ (mirror_y ?a) (draw_radius ?c ?r 0 ?n ?w (PI / 2)))] => mirror_arc_with quarter_mirror_y Q0 a c r n w H
  | |- context [@rev _ (@map _ _ (mirror_y ?a) (draw_radius ?c ?r (PI / 2) ?n ?w (PI / 2)))] => mirror_arc_with quarter_mirror_y Q1 a c r n w H
  | |- context [@rev _ (@map _ _ (mirror_y ?a) (draw_radius ?c ?r PI ?n ?w (PI / 2)))] => mirror_arc_with quarter_mirror_y Q2 a c r n w H
  | |- context [@rev _ (@map _ _ (mirror_y ?a) (draw_radius ?c ?r (3 / 2 * PI) ?n ?w (PI / 2)))] => mirror_arc_with quarter_mirror_y Q3 a c r n w H
  end.
Ltac same_list := repeat match goal with
  | |- (_, _) = (_, _) => apply f_equal2; lra
  | |- _ :: _ = _ :: _ => apply f_equal2
  | |- _ ++ _ = _ ++ _ => apply f_equal2
  | |- draw_radius _ _ _ _ _ _ = draw_radius _ _ _ _ _ _ => apply radius_eq
  | |- [] = [] => reflexivity
  | |- ?x = ?x => reflexivity
  end.
Ltac mirrored H := change (prod R R) with pt; repeat (progress (rewrite ?map_app, ?rev_app_distr; cbn [map rev])); mirror_arcs H; cbn [map rev app]; unfold mirror_x, mirror_y; cbn [fst snd]; repeat (progress (rewrite <- ?app_assoc; cbn [app])); same_list.

Section Steel.
  Variables (n : nat) (Hn : (2 <= n)%nat).
  Lemma i_facts d b t_f t_w r : 0 < t_f -> 0 < t_w -> 0 <= r -> 2 * t_f + 2 * r <= d -> t_w + 2 * r <= b ->
    let l := i_points d b t_f t_w r n in
    (forall sh m, polygon_geometry sh l m = Ok (new_geometry sh (mkPoly l []) m None 12)) /\
    ring_area l = 2 * (b * t_f) + (d - 2 * t_f) * t_w + 4 * corner n r /\ spans l 0 0 b d /\ symmetric_x (b / 2) l /\ symmetric_y (d / 2) l.
  Proof.
    intros H1 H2 H3 H4 H5 l. assert (S : exists a z v, seg l a z v /\ fst a = 0 /\ snd a = 0 /\ snd z = t_f /\ (v + cross z a) / 2 = 2 * (b * t_f) + (d - 2 * t_f) * t_w + 4 * corner n r).
    { unfold l, i_points. do 3 eexists. split; [segs|]. unfold cross. cbn [fst snd q_cos q_sin q_next]. rewrite corner_K. repeat split; lra. }
    destruct S as (a & z & v & S & Ea & Ea' & Ez & V). split; [|split; [|split; [|split]]].
    - intros sh m. apply (seg_make sh l a z v m S); [unfold l, i_points; cbn [app length]; lia|lra].
    - rewrite (seg_area _ _ _ _ S). exact V.
    - unfold l, i_points. spanning.
    - exists [(0, 0); (b, 0)], (skipn 2 l). split; [reflexivity|]. unfold l, i_points. cbn [skipn app]. mirrored Hn.
    - eexists ([(0, 0); (b, 0); (b, t_f)] ++ draw_radius (b / 2 + t_w / 2 + r, t_f + r) r (3 / 2 * PI) n false (PI / 2)
  ++ draw_radius (b / 2 + t_w / 2 + r, d - t_f - r) r PI n false (PI / 2)
  ++ [(b, d - t_f); (b, d); (0, d)]), _. split; [unfold l, i_points; rewrite <- !app_assoc; cbn [app]; reflexivity|].
      unfold l, i_points. mirrored Hn.
  Qed.
  Ltac outline S len := match goal with
    | |- forall sh m, polygon_geometry sh ?l m = _ => let sh := fresh in let m := fresh in intros sh m; match type of S with seg _ ?a ?z ?v => apply (seg_make sh l a z v m S) end; [len|lra]
    end.
  Ltac seg_facts := do 3 eexists; split; [segs|]; unfold cross; cbn [fst snd q_cos q_sin q_next]; rewrite ?corner_K; repeat split; lra.

  Lemma mono_i_facts d b_t b_b t_ft t_fb t_w r : 0 < t_ft -> 0 < t_fb -> 0 < t_w -> 0 <= r -> t_ft + t_fb + 2 * r <= d -> t_w + 2 * r <= b_t -> t_w + 2 * r <= b_b ->
    let l := mono_i_points d b_t b_b t_ft t_fb t_w r n in
    (forall sh m, polygon_geometry sh l m = Ok (new_geometry sh (mkPoly l []) m None 12)) /\
    ring_area l = b_t * t_ft + b_b * t_fb + (d - t_ft - t_fb) * t_w + 4 * corner n r /\ spans l 0 0 (Rmax b_t b_b) d /\ symmetric_x (Rmax b_t b_b / 2) l.
  Proof.
    intros H1 H2 H3 H4 H5 H6 H7 l. assert (M : b_t <= Rmax b_t b_b /\ b_b <= Rmax b_t b_b /\ (Rmax b_t b_b = b_t \/ Rmax b_t b_b = b_b)) by (unfold Rmax; destruct (Rle_dec b_t b_b); lra).
    set (B := Rmax b_t b_b) in *.
    assert (S : exists a z v, seg l a z v /\ snd a = 0 /\ snd z = t_fb /\ (v + cross z a) / 2 = b_t * t_ft + b_b * t_fb + (d - t_ft - t_fb) * t_w + 4 * corner n r).
    { unfold l, mono_i_points. fold B. seg_facts. }
    destruct S as (a & z & v & S & Ea & Ez & V). split; [|split; [|split]].
    - outline S ltac:(unfold l, mono_i_points; cbn [app length]; lia).
    - rewrite (seg_area _ _ _ _ S). exact V.
    - unfold l, mono_i_points. fold B. apply spans_intro; [boxes| | | |]; [destruct M as (M1 & M2 & [M3|M3])|destruct M as (M1 & M2 & [M3|M3])| |]; ex_find.
    - exists [(B / 2 - b_b / 2, 0); (B / 2 + b_b / 2, 0)], (skipn 2 l). split; [reflexivity|]. unfold l, mono_i_points. fold B. cbn [skipn app]. mirrored Hn.
  Qed.
  Lemma channel_facts d b t_f t_w r : 0 < t_f -> 0 < t_w -> 0 <= r -> 2 * t_f + 2 * r <= d -> t_w + r <= b ->
    let l := channel_points d b t_f t_w r n in
    (forall sh m, polygon_geometry sh l m = Ok (new_geometry sh (mkPoly l []) m None 12)) /\
    ring_area l = 2 * (b * t_f) + (d - 2 * t_f) * t_w + 2 * corner n r /\ spans l 0 0 b d /\ symmetric_y (d / 2) l.
  Proof.
    intros H1 H2 H3 H4 H5 l.
    assert (S : exists a z v, seg l a z v /\ snd a = 0 /\ snd z = d /\ (v + cross z a) / 2 = 2 * (b * t_f) + (d - 2 * t_f) * t_w + 2 * corner n r).
    { unfold l, channel_points. seg_facts. }
    destruct S as (a & z & v & S & Ea & Ez & V). split; [|split; [|split]].
    - outline S ltac:(unfold l, channel_points; cbn [app length]; lia).
    - rewrite (seg_area _ _ _ _ S). exact V.
    - unfold l, channel_points. spanning.
    - exists [], l. split; [reflexivity|]. rewrite app_nil_r. unfold l, channel_points. mirrored Hn.
  Qed.
  Lemma tee_facts d b t_f t_w r : 0 < t_f -> 0 < t_w -> 0 <= r -> t_f + r < d -> t_w + 2 * r <= b ->
    let l := tee_points d b t_f t_w r n in
    (forall sh m, polygon_geometry sh l m = Ok (new_geometry sh (mkPoly l []) m None 12)) /\
    ring_area l = b * t_f + (d - t_f) * t_w + 2 * corner n r /\ spans l 0 0 b d /\ symmetric_x (b / 2) l.
  Proof.
    intros H1 H2 H3 H4 H5 l.
    assert (S : exists a z v, seg l a z v /\ snd a = 0 /\ snd z = d - t_f - r /\ (v + cross z a) / 2 = b * t_f + (d - t_f) * t_w + 2 * corner n r).
    { unfold l, tee_points. seg_facts. }
    destruct S as (a & z & v & S & Ea & Ez & V). split; [|split; [|split]].
    - outline S ltac:(unfold l, tee_points; cbn [app length]; rewrite ?app_length; cbn [length]; lia).
    - rewrite (seg_area _ _ _ _ S). exact V.
    - unfold l, tee_points. spanning.
    - exists [(b / 2 - t_w / 2, 0); (b / 2 + t_w / 2, 0)], (skipn 2 l). split; [reflexivity|]. unfold l, tee_points. cbn [skipn app]. mirrored Hn.
  Qed.
  Lemma angle_facts d b t r_r r_t : 0 < t -> 0 <= r_r -> 0 <= r_t -> r_t <= t -> t + r_r + r_t <= b -> t + r_r + r_t <= d ->
    let l := angle_points d b t r_r r_t n in
    (forall sh m, polygon_geometry sh l m = Ok (new_geometry sh (mkPoly l []) m None 12)) /\
    ring_area l = t * (b + d - t) + corner n r_r - 2 * corner n r_t - (if isclose t r_t then (b + d) * (t - r_t) / 2 else 0) /\ spans l 0 0 b d.
  Proof.
    intros H1 H2 H3 H4 H5 H6 l.
    assert (S : exists a z v, seg l a z v /\ snd a = 0 /\ snd z = d /\ (v + cross z a) / 2 = t * (b + d - t) + corner n r_r - 2 * corner n r_t - (if isclose t r_t then (b + d) * (t - r_t) / 2 else 0)).
    { unfold l, angle_points. destruct (isclose t r_t); cbn [app]; rewrite ?app_nil_r; seg_facts. }
    destruct S as (a & z & v & S & Ea & Ez & V). split; [|split].
    - outline S ltac:(unfold l, angle_points; rewrite !app_length; pose proof (radius_length (b - r_t, t - r_t) r_t 0 n true (PI / 2) Hn); pose proof (radius_length (t + r_r, t + r_r) r_r (3 / 2 * PI) n false (PI / 2) Hn); cbn [length] in *; lia).
    - rewrite (seg_area _ _ _ _ S). exact V.
    - unfold l, angle_points. destruct (isclose t r_t); cbn [app]; rewrite ?app_nil_r; spanning.
  Qed.
  Lemma rhs_outer_facts d b r : 0 < d -> 0 < b -> 0 <= r -> 2 * r < d -> 2 * r <= b ->
    let l := rhs_outer d b r n in
    make_polygon l = Ok (mkPoly l []) /\ ring_area l = b * d - 4 * corner n r /\ spans l 0 0 b d /\ symmetric_x (b / 2) l /\ symmetric_y (d / 2) l.
  Proof.
    intros H1 H2 H3 H4 H5 l.
    assert (S : exists a z v, seg l a z v /\ snd a = r /\ snd z = d - r /\ (v + cross z a) / 2 = b * d - 4 * corner n r). { unfold l, rhs_outer. seg_facts. }
    destruct S as (a & z & v & S & Ea & Ez & V). split; [|split; [|split; [|split]]].
    - eapply seg_polygon; [exact S| |lra]. unfold l, rhs_outer. rewrite !app_length.
      pose proof (radius_length (r, r) r PI n true (PI / 2) Hn). pose proof (radius_length (b - r, r) r (3 / 2 * PI) n true (PI / 2) Hn).
      pose proof (radius_length (b - r, d - r) r 0 n true (PI / 2) Hn). lia.
    - rewrite (seg_area _ _ _ _ S). exact V.
    - unfold l, rhs_outer. spanning.
    - eexists (draw_radius (r, r) r PI n true (PI / 2) ++ draw_radius (b - r, r) r (3 / 2 * PI) n true (PI / 2)), _. split; [unfold l, rhs_outer; rewrite <- !app_assoc; reflexivity|].
      unfold l, rhs_outer. mirrored Hn.
    - exists [], l. split; [reflexivity|]. rewrite app_nil_r. unfold l, rhs_outer. mirrored Hn.
  Qed.
  Lemma rhs_inner_facts d b t t_w r : 0 < d - 2 * t -> 0 < b - 2 * t_w -> 0 <= r -> 2 * r < d - 2 * t -> 2 * r <= b - 2 * t_w ->
    let l := rhs_inner d b t t_w r n in
    make_polygon l = Ok (mkPoly l []) /\ ring_area l = (b - 2 * t_w) * (d - 2 * t) - 4 * corner n r /\ spans l t_w t (b - t_w) (d - t) /\ symmetric_x (b / 2) l /\ symmetric_y (d / 2) l.
  Proof.
    intros H1 H2 H3 H4 H5 l.
    assert (S : exists a z v, seg l a z v /\ snd a = t + r /\ snd z = d - t - r /\ (v + cross z a) / 2 = (b - 2 * t_w) * (d - 2 * t) - 4 * corner n r). { unfold l, rhs_inner. seg_facts. }
    destruct S as (a & z & v & S & Ea & Ez & V). split; [|split; [|split; [|split]]].
    - eapply seg_polygon; [exact S| |lra]. unfold l, rhs_inner. rewrite !app_length.
      pose proof (radius_length (t_w + r, t + r) r PI n true (PI / 2) Hn). pose proof (radius_length (b - t_w - r, t + r) r (3 / 2 * PI) n true (PI / 2) Hn).
      pose proof (radius_length (b - t_w - r, d - t - r) r 0 n true (PI / 2) Hn). lia.
    - rewrite (seg_area _ _ _ _ S). exact V.
    - unfold l, rhs_inner. spanning.
    - eexists (draw_radius (t_w + r, t + r) r PI n true (PI / 2) ++ draw_radius (b - t_w - r, t + r) r (3 / 2 * PI) n true (PI / 2)), _. split; [unfold l, rhs_inner; rewrite <- !app_assoc; reflexivity|].
      unfold l, rhs_inner. mirrored Hn.
    - exists [], l. split; [reflexivity|]. rewrite app_nil_r. unfold l, rhs_inner. mirrored Hn.
  Qed.
  Lemma cruciform_facts d b t r : 0 < t -> 0 <= r -> t + 2 * r < d -> t + 2 * r <= b ->
    let l := cruciform_points d b t r n in
    (forall sh m, polygon_geometry sh l m = Ok (new_geometry sh (mkPoly l []) m None 12)) /\
    ring_area l = t * d + t * b - t * t + 4 * corner n r /\ spans l (- b / 2) (- d / 2) (b / 2) (d / 2) /\ symmetric_x 0 l /\ symmetric_y 0 l.
  Proof.
    intros H1 H2 H3 H4 l.
    assert (S : exists a z v, seg l a z v /\ snd a = - d / 2 /\ snd z = - (t / 2) - r /\ (v + cross z a) / 2 = t * d + t * b - t * t + 4 * corner n r).
    { unfold l, cruciform_points. seg_facts. }
    destruct S as (a & z & v & S & Ea & Ez & V). split; [|split; [|split; [|split]]].
    - outline S ltac:(unfold l, cruciform_points; cbn [app length]; rewrite ?app_length; cbn [length]; lia).
    - rewrite (seg_area _ _ _ _ S). exact V.
    - unfold l, cruciform_points. spanning.
    - exists [(- t / 2, - d / 2); (t / 2, - d / 2)], (skipn 2 l). split; [reflexivity|]. unfold l, cruciform_points. cbn [skipn app]. mirrored Hn.
    - eexists ([(- t / 2, - d / 2); (t / 2, - d / 2)] ++ draw_radius (t / 2 + r, - (t / 2) - r) r PI n false (PI / 2) ++ [(b / 2, - t / 2); (b / 2, t / 2)]
        ++ draw_radius (t / 2 + r, t / 2 + r) r (3 / 2 * PI) n false (PI / 2) ++ [(t / 2, d / 2); (- t / 2, d / 2)]), _.
      split; [unfold l, cruciform_points; rewrite <- !app_assoc; cbn [app]; reflexivity|]. unfold l, cruciform_points. mirrored Hn.
  Qed.
  Lemma triangular_radius_facts b : 0 < b -> let l := triangular_radius_points b n in
    (forall sh m, polygon_geometry sh l m = Ok (new_geometry sh (mkPoly l []) m None 12)) /\ ring_area l = corner n b /\ spans l 0 0 b b.
  Proof.
    intros H l. assert (T : 3 * PI / 2 = 3 / 2 * PI) by lra.
    assert (S : exists a z v, seg l a z v /\ snd a = 0 /\ snd z = b /\ (v + cross z a) / 2 = corner n b). { unfold l, triangular_radius_points. rewrite T. seg_facts. }
    destruct S as (a & z & v & S & Ea & Ez & V). split; [|split].
    - outline S ltac:(unfold l, triangular_radius_points, draw_radius; destruct (Req_EM_T b 0); [lra|]; cbn [length]; unfold arc; rewrite map_length, seq_length; lia).
    - rewrite (seg_area _ _ _ _ S). exact V.
    - unfold l, triangular_radius_points. rewrite T. spanning.
  Qed.
End Steel.
