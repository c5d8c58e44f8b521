(** Proofs: the plates of the cruciform, the I with unequal flanges and the angle, cut at their plastic axes. *)
From Coquelicot Require Import Coquelicot.
From Coq Require Import String Reals List Permutation Lra Lia.
From Verif Require Import Base S_Integral M_Fea S_Fem M_Section S_Section M_Bisect M_Plastic S_Plastic M_Init M_Props M_State S_State M_Geometry S_Geometry P_Geom P_Geometry P_Geometry3 P_Section P_Plastic P_Plastic2 P_Plastic4 P_State P_State3 P_State4 P_State5 P_Geometry6 P_Geometry8 M_Library S_Library P_Library8 P_Library2 S_Outline P_Outline P_Outline2 P_Outline3 S_PlasticForms P_PlasticForms P_PlasticForms2 P_PlasticForms3.
Import ListNotations.
Local Open Scope list_scope.
Local Open Scope R_scope.

(** A line in the direction across [n] cuts the outline into plates of material m with the total area A and the plastic modulus S. *)
Definition cut_gives (E : list edge) (m : material) (n : R * R) (A S : R) : Prop :=
  exists D up dn, cut_at E n D up dn /\ Forall (fun q => fst q = m) (up ++ dn) /\ sumf part_force (up ++ dn) = m_fy m * A /\ parts_moment n D up dn = m_fy m * S.
Ltac all_m := cbn [app]; repeat (constructor; [reflexivity|]); constructor.
Ltac gives_cut D up dn := exists D, up, dn; split; [split; [sides|split; [sides|split]]|split; [all_m|split]].

Section Shapes.
Variables (m : material) (E : list edge).
Definition cross_shape B D h : list part := [(m, rect (- h) (- D) h D); (m, rect (- B) (- h) (- h) h); (m, rect h (- h) B h)].
Lemma cross_plates B D h : 0 < D -> same_boundary (parts_edges (cross_shape B D h))
  (S_Section.ring_edges m [(- h, - D); (h, - D); (h, - h); (B, - h); (B, h); (h, h); (h, D); (- h, D); (- h, h); (- B, h); (- B, - h); (- h, - h)]).
Proof.
  intros H. set (p1 := (- h, - D)). set (p2 := (h, - D)). set (p3 := (h, - h)). set (p4 := (B, - h)). set (p5 := (B, h)). set (p6 := (h, h)). set (p7 := (h, D)). set (p8 := (- h, D)). set (p9 := (- h, h)). set (p10 := (- B, h)). set (p11 := (- B, - h)). set (p12 := (- h, - h)).
  change (same_boundary [(m, p1, p2); (m, p2, p7); (m, p7, p8); (m, p8, p1); (m, p11, p12); (m, p12, p9); (m, p9, p10); (m, p10, p11); (m, p3, p4); (m, p4, p5); (m, p5, p6); (m, p6, p3)]
    [(m, p1, p2); (m, p2, p3); (m, p3, p4); (m, p4, p5); (m, p5, p6); (m, p6, p7); (m, p7, p8); (m, p8, p9); (m, p9, p10); (m, p10, p11); (m, p11, p12); (m, p12, p1)]).
  splits2 m p2 p7 p3 p6 ((D - h) / (2 * D)) ((D + h) / (2 * D)). splits2 m p8 p1 p9 p12 ((D - h) / (2 * D)) ((D + h) / (2 * D)).
  cancels m p3 p6. cancels m p9 p12. apply sb_perm. perms.
Qed.
Lemma cross_cut_x B D h : 0 < h -> h < B -> h < D -> same_boundary E (parts_edges (cross_shape B D h)) -> cut_gives E m (0, 1) (4 * h * (B + D - h)) (2 * h * D ^ 2 + 2 * (B - h) * h ^ 2).
Proof.
  intros H1 H2 H3 S. gives_cut 0 [(m, rect (- h) 0 h D); (m, rect (- B) 0 (- h) h); (m, rect h 0 B h)] [(m, rect (- h) (- D) h 0); (m, rect (- B) (- h) (- h) 0); (m, rect h (- h) B 0)].
  - eapply sb_trans; [exact S|]. unfold cross_shape. cut_y m (- h) (- D) h D 0. cut_y m (- B) (- h) (- h) h 0. cut_y m h (- h) B h 0. apply parts_perm. cbn [app]. perms.
  - forces.
  - cbn [app]. forces.
  - arms. field.
Qed.
Lemma cross_cut_y B D h : 0 < h -> h < B -> h < D -> same_boundary E (parts_edges (cross_shape B D h)) -> cut_gives E m (1, 0) (4 * h * (B + D - h)) (2 * h * B ^ 2 + 2 * (D - h) * h ^ 2).
Proof.
  intros H1 H2 H3 S. gives_cut 0 [(m, rect 0 (- D) h D); (m, rect h (- h) B h)] [(m, rect (- h) (- D) 0 D); (m, rect (- B) (- h) (- h) h)].
  - eapply sb_trans; [exact S|]. unfold cross_shape. cut_x m (- h) (- D) h D 0. apply parts_perm. cbn [app]. perms.
  - forces.
  - cbn [app]. forces.
  - arms. field.
Qed.

(** three plates above each other, all centred at x = c, of the widths bb, w and bt *)
Definition stack_shape c bb w bt y1 y2 d : list part := [(m, rect (c - bb / 2) 0 (c + bb / 2) y1); (m, rect (c - w / 2) y1 (c + w / 2) y2); (m, rect (c - bt / 2) y2 (c + bt / 2) d)].
Lemma stack_plates c bb w bt y1 y2 d : 0 < bb -> 0 < bt -> same_boundary (parts_edges (stack_shape c bb w bt y1 y2 d))
  (S_Section.ring_edges m [(c - bb / 2, 0); (c + bb / 2, 0); (c + bb / 2, y1); (c + w / 2, y1); (c + w / 2, y2); (c + bt / 2, y2); (c + bt / 2, d); (c - bt / 2, d); (c - bt / 2, y2); (c - w / 2, y2); (c - w / 2, y1); (c - bb / 2, y1)]).
Proof.
  intros H H'. set (p1 := (c - bb / 2, 0)). set (p2 := (c + bb / 2, 0)). set (p3 := (c + bb / 2, y1)). set (p4 := (c + w / 2, y1)). set (p5 := (c + w / 2, y2)). set (p6 := (c + bt / 2, y2)). set (p7 := (c + bt / 2, d)). set (p8 := (c - bt / 2, d)). set (p9 := (c - bt / 2, y2)). set (p10 := (c - w / 2, y2)). set (p11 := (c - w / 2, y1)). set (p12 := (c - bb / 2, y1)).
  change (same_boundary [(m, p1, p2); (m, p2, p3); (m, p3, p12); (m, p12, p1); (m, p11, p4); (m, p4, p5); (m, p5, p10); (m, p10, p11); (m, p9, p6); (m, p6, p7); (m, p7, p8); (m, p8, p9)]
    [(m, p1, p2); (m, p2, p3); (m, p3, p4); (m, p4, p5); (m, p5, p6); (m, p6, p7); (m, p7, p8); (m, p8, p9); (m, p9, p10); (m, p10, p11); (m, p11, p12); (m, p12, p1)]).
  splits2 m p3 p12 p4 p11 ((bb - w) / (2 * bb)) ((bb + w) / (2 * bb)). splits2 m p9 p6 p10 p5 ((bt - w) / (2 * bt)) ((bt + w) / (2 * bt)).
  cancels m p4 p11. cancels m p10 p5. apply sb_perm. perms.
Qed.
Lemma stack_cut_y c bb w bt y1 y2 d : 0 < bb -> 0 < w -> 0 < bt -> 0 < y1 -> y1 < y2 -> y2 < d -> same_boundary E (parts_edges (stack_shape c bb w bt y1 y2 d)) ->
  cut_gives E m (1, 0) (bb * y1 + w * (y2 - y1) + bt * (d - y2)) (y1 * bb ^ 2 / 4 + (y2 - y1) * w ^ 2 / 4 + (d - y2) * bt ^ 2 / 4).
Proof.
  intros H1 H2 H3 H4 H5 H6 S. gives_cut c [(m, rect c 0 (c + bb / 2) y1); (m, rect c y1 (c + w / 2) y2); (m, rect c y2 (c + bt / 2) d)] [(m, rect (c - bb / 2) 0 c y1); (m, rect (c - w / 2) y1 c y2); (m, rect (c - bt / 2) y2 c d)].
  - eapply sb_trans; [exact S|]. unfold stack_shape. cut_x m (c - bb / 2) 0 (c + bb / 2) y1 c. cut_x m (c - w / 2) y1 (c + w / 2) y2 c. cut_x m (c - bt / 2) y2 (c + bt / 2) d c. apply parts_perm. cbn [app]. perms.
  - forces.
  - cbn [app]. forces.
  - arms. field.
Qed.
(** the horizontal axis in the lowest plate *)
Lemma stack_cut_low c bb w bt y1 y2 d y : 0 < bb -> 0 < w -> 0 < bt -> 0 < y1 -> y1 < y2 -> y2 < d -> 0 < y -> y <= y1 -> let A := bb * y1 + w * (y2 - y1) + bt * (d - y2) in 2 * bb * y = A ->
  same_boundary E (parts_edges (stack_shape c bb w bt y1 y2 d)) ->
  cut_gives E m (0, 1) A (bb * y ^ 2 / 2 + bb * (y1 - y) ^ 2 / 2 + w * (y2 - y1) * ((y1 + y2) / 2 - y) + bt * (d - y2) * ((y2 + d) / 2 - y)).
Proof.
  intros H1 H2 H3 H4 H5 H6 H7 H8 A HA S. destruct (Req_dec y y1) as [->|N].
  - gives_cut y1 [(m, rect (c - w / 2) y1 (c + w / 2) y2); (m, rect (c - bt / 2) y2 (c + bt / 2) d)] [(m, rect (c - bb / 2) 0 (c + bb / 2) y1)].
    + eapply sb_trans; [exact S|]. unfold stack_shape. apply parts_perm. cbn [app]. perms.
    + forces. replace (m_fy m * ((c + bb / 2 - (c - bb / 2)) * (y1 - 0)) + 0) with (m_fy m * (2 * bb * y1 - bb * y1)) by field. rewrite HA. unfold A. field.
    + cbn [app]. unfold A. forces.
    + arms. field.
  - assert (y < y1) by lra. gives_cut y [(m, rect (c - bb / 2) y (c + bb / 2) y1); (m, rect (c - w / 2) y1 (c + w / 2) y2); (m, rect (c - bt / 2) y2 (c + bt / 2) d)] [(m, rect (c - bb / 2) 0 (c + bb / 2) y)].
    + eapply sb_trans; [exact S|]. unfold stack_shape. cut_y m (c - bb / 2) 0 (c + bb / 2) y1 y. apply parts_perm. cbn [app]. perms.
    + forces. replace (m_fy m * ((c + bb / 2 - (c - bb / 2)) * (y - 0)) + 0) with (m_fy m * (2 * bb * y - bb * y)) by field. rewrite HA. unfold A. field.
    + cbn [app]. unfold A. forces.
    + arms. field.
Qed.
(** in the middle plate *)
Lemma stack_cut_mid c bb w bt y1 y2 d y : 0 < bb -> 0 < w -> 0 < bt -> 0 < y1 -> y1 < y2 -> y2 < d -> y1 < y -> y < y2 -> let A := bb * y1 + w * (y2 - y1) + bt * (d - y2) in 2 * (bb * y1 + w * (y - y1)) = A ->
  same_boundary E (parts_edges (stack_shape c bb w bt y1 y2 d)) ->
  cut_gives E m (0, 1) A (bb * y1 * (y - y1 / 2) + w * (y - y1) ^ 2 / 2 + w * (y2 - y) ^ 2 / 2 + bt * (d - y2) * ((y2 + d) / 2 - y)).
Proof.
  intros H1 H2 H3 H4 H5 H6 H7 H8 A HA S.
  gives_cut y [(m, rect (c - w / 2) y (c + w / 2) y2); (m, rect (c - bt / 2) y2 (c + bt / 2) d)] [(m, rect (c - bb / 2) 0 (c + bb / 2) y1); (m, rect (c - w / 2) y1 (c + w / 2) y)].
  - eapply sb_trans; [exact S|]. unfold stack_shape. cut_y m (c - w / 2) y1 (c + w / 2) y2 y. apply parts_perm. cbn [app]. perms.
  - forces. replace (m_fy m * ((c + bb / 2 - (c - bb / 2)) * (y1 - 0)) + (m_fy m * ((c + w / 2 - (c - w / 2)) * (y - y1)) + 0)) with (m_fy m * (2 * (bb * y1 + w * (y - y1)) - (bb * y1 + w * (y - y1)))) by field. rewrite HA. unfold A. field.
  - cbn [app]. unfold A. forces.
  - arms. field.
Qed.
(** in the highest plate *)
Lemma stack_cut_high c bb w bt y1 y2 d y : 0 < bb -> 0 < w -> 0 < bt -> 0 < y1 -> y1 < y2 -> y2 < d -> y2 <= y -> y < d -> let A := bb * y1 + w * (y2 - y1) + bt * (d - y2) in 2 * bt * (d - y) = A ->
  same_boundary E (parts_edges (stack_shape c bb w bt y1 y2 d)) ->
  cut_gives E m (0, 1) A (bt * (d - y) ^ 2 / 2 + bt * (y - y2) ^ 2 / 2 + w * (y2 - y1) * (y - (y1 + y2) / 2) + bb * y1 * (y - y1 / 2)).
Proof.
  intros H1 H2 H3 H4 H5 H6 H7 H8 A HA S. destruct (Req_dec y y2) as [->|N].
  - gives_cut y2 [(m, rect (c - bt / 2) y2 (c + bt / 2) d)] [(m, rect (c - bb / 2) 0 (c + bb / 2) y1); (m, rect (c - w / 2) y1 (c + w / 2) y2)].
    + eapply sb_trans; [exact S|]. unfold stack_shape. apply parts_perm. cbn [app]. perms.
    + forces. replace (m_fy m * ((c + bt / 2 - (c - bt / 2)) * (d - y2)) + 0) with (m_fy m * (2 * bt * (d - y2) - bt * (d - y2))) by field. rewrite HA. unfold A. field.
    + cbn [app]. unfold A. forces.
    + arms. field.
  - assert (y2 < y) by lra. gives_cut y [(m, rect (c - bt / 2) y (c + bt / 2) d)] [(m, rect (c - bb / 2) 0 (c + bb / 2) y1); (m, rect (c - w / 2) y1 (c + w / 2) y2); (m, rect (c - bt / 2) y2 (c + bt / 2) y)].
    + eapply sb_trans; [exact S|]. unfold stack_shape. cut_y m (c - bt / 2) y2 (c + bt / 2) d y. apply parts_perm. cbn [app]. perms.
    + forces. replace (m_fy m * ((c + bt / 2 - (c - bt / 2)) * (d - y)) + 0) with (m_fy m * (2 * bt * (d - y) - bt * (d - y))) by field. rewrite HA. unfold A. field.
    + cbn [app]. unfold A. forces.
    + arms. field.
Qed.

(** the angle as a horizontal leg and the rest of the vertical one, and the other way round *)
Definition leg_shape b d t : list part := [(m, rect 0 0 b t); (m, rect 0 t t d)].
Definition leg_shape' b d t : list part := [(m, rect 0 0 t d); (m, rect t 0 b t)].
Lemma leg_plates b d t : 0 < b -> 0 < d -> same_boundary (parts_edges (leg_shape b d t)) (S_Section.ring_edges m [(0, 0); (b, 0); (b, t); (t, t); (t, d); (0, d)]).
Proof.
  intros H H'. set (p1 := (0, 0)). set (p2 := (b, 0)). set (p3 := (b, t)). set (p4 := (t, t)). set (p5 := (t, d)). set (p6 := (0, d)). set (e := (0, t)).
  change (same_boundary [(m, p1, p2); (m, p2, p3); (m, p3, e); (m, e, p1); (m, e, p4); (m, p4, p5); (m, p5, p6); (m, p6, e)] [(m, p1, p2); (m, p2, p3); (m, p3, p4); (m, p4, p5); (m, p5, p6); (m, p6, p1)]).
  splits m p3 e p4 ((b - t) / b). cancels m p4 e. apply sb_sym. splits m p6 p1 e ((d - t) / d). apply sb_perm. perms.
Qed.
Lemma leg_plates' b d t : 0 < b -> 0 < d -> same_boundary (parts_edges (leg_shape' b d t)) (S_Section.ring_edges m [(0, 0); (b, 0); (b, t); (t, t); (t, d); (0, d)]).
Proof.
  intros H H'. set (p1 := (0, 0)). set (p2 := (b, 0)). set (p3 := (b, t)). set (p4 := (t, t)). set (p5 := (t, d)). set (p6 := (0, d)). set (e := (t, 0)).
  change (same_boundary [(m, p1, e); (m, e, p5); (m, p5, p6); (m, p6, p1); (m, e, p2); (m, p2, p3); (m, p3, p4); (m, p4, e)] [(m, p1, p2); (m, p2, p3); (m, p3, p4); (m, p4, p5); (m, p5, p6); (m, p6, p1)]).
  splits m e p5 p4 (t / d). cancels m e p4. apply sb_sym. splits m p1 p2 e (t / b). apply sb_perm. perms.
Qed.
(** what the axis parallel to the leg of length p is for the angle with the legs p and q *)
Definition leg_modulus (p q t : R) : R :=
  let A := t * (p + q - t) in let u := A / (2 * p) in let v := A / (2 * t) in
  if Rlt_dec p (q - t) then t * v ^ 2 / 2 + t * (q - t - v) ^ 2 / 2 + p * t * (q - v - t / 2)
  else p * u ^ 2 / 2 + p * (t - u) ^ 2 / 2 + t * (q - t) * ((q + t) / 2 - u).
Lemma leg_cut_x b d t : 0 < t -> t < b -> t < d -> same_boundary E (parts_edges (leg_shape b d t)) -> cut_gives E m (0, 1) (t * (b + d - t)) (leg_modulus b d t).
Proof.
  intros H1 H2 H3 S. unfold leg_modulus. set (A := t * (b + d - t)). assert (PA : 0 < A) by (unfold A; apply Rmult_lt_0_compat; lra).
  destruct (Rlt_dec b (d - t)) as [L|L].
  - set (v := A / (2 * t)). assert (Ev : v = (b + d - t) / 2) by (unfold v, A; field; lra). gives_cut (d - v) [(m, rect 0 (d - v) t d)] [(m, rect 0 0 b t); (m, rect 0 t t (d - v))].
    + eapply sb_trans; [exact S|]. unfold leg_shape. cut_y m 0 t t d (d - v). apply parts_perm. cbn [app]. perms.
    + forces. rewrite Ev. field.
    + cbn [app]. unfold A. forces.
    + arms. field.
  - set (u := A / (2 * b)). assert (Eu : 2 * b * u = A) by (unfold u; field; lra). assert (U0 : 0 < u) by (unfold u; apply Rdiv_lt_0_compat; lra).
    assert (U1 : u <= t) by (apply Rmult_le_reg_l with (2 * b); [lra|rewrite Eu; unfold A; nra]).
    destruct (Req_dec u t) as [Q|N].
    + rewrite Q in *. gives_cut t [(m, rect 0 t t d)] [(m, rect 0 0 b t)].
      * exact S || (eapply sb_trans; [exact S|]; unfold leg_shape; apply parts_perm; cbn [app]; perms).
      * forces. replace (m_fy m * ((b - 0) * (t - 0)) + 0) with (m_fy m * (2 * b * t - b * t)) by field. rewrite Eu. unfold A. field.
      * cbn [app]. unfold A. forces.
      * arms. field.
    + assert (u < t) by lra. gives_cut u [(m, rect 0 u b t); (m, rect 0 t t d)] [(m, rect 0 0 b u)].
      * eapply sb_trans; [exact S|]. unfold leg_shape. cut_y m 0 0 b t u. apply parts_perm. cbn [app]. perms.
      * forces. replace (m_fy m * ((b - 0) * (u - 0)) + 0) with (m_fy m * (2 * b * u - b * u)) by field. rewrite Eu. unfold A. field.
      * cbn [app]. unfold A. forces.
      * arms. field.
Qed.
Lemma leg_cut_y b d t : 0 < t -> t < b -> t < d -> same_boundary E (parts_edges (leg_shape' b d t)) -> cut_gives E m (1, 0) (t * (b + d - t)) (leg_modulus d b t).
Proof.
  intros H1 H2 H3 S. unfold leg_modulus. replace (d + b - t) with (b + d - t) by ring. set (A := t * (b + d - t)). assert (PA : 0 < A) by (unfold A; apply Rmult_lt_0_compat; lra).
  destruct (Rlt_dec d (b - t)) as [L|L].
  - set (v := A / (2 * t)). assert (Ev : v = (b + d - t) / 2) by (unfold v, A; field; lra). gives_cut (b - v) [(m, rect (b - v) 0 b t)] [(m, rect 0 0 t d); (m, rect t 0 (b - v) t)].
    + eapply sb_trans; [exact S|]. unfold leg_shape'. cut_x m t 0 b t (b - v). apply parts_perm. cbn [app]. perms.
    + forces. rewrite Ev. field.
    + cbn [app]. unfold A. forces.
    + arms. field.
  - set (u := A / (2 * d)). assert (Eu : 2 * d * u = A) by (unfold u; field; lra). assert (U0 : 0 < u) by (unfold u; apply Rdiv_lt_0_compat; lra).
    assert (U1 : u <= t) by (apply Rmult_le_reg_l with (2 * d); [lra|rewrite Eu; unfold A; nra]).
    destruct (Req_dec u t) as [Q|N].
    + rewrite Q in *. gives_cut t [(m, rect t 0 b t)] [(m, rect 0 0 t d)].
      * eapply sb_trans; [exact S|]; unfold leg_shape'; apply parts_perm; cbn [app]; perms.
      * forces. replace (m_fy m * ((t - 0) * (d - 0)) + 0) with (m_fy m * (2 * d * t - d * t)) by field. rewrite Eu. unfold A. field.
      * cbn [app]. unfold A. forces.
      * arms. field.
    + assert (u < t) by lra. gives_cut u [(m, rect u 0 t d); (m, rect t 0 b t)] [(m, rect 0 0 u d)].
      * eapply sb_trans; [exact S|]. unfold leg_shape'. cut_x m 0 0 t d u. apply parts_perm. cbn [app]. perms.
      * forces. replace (m_fy m * ((u - 0) * (d - 0)) + 0) with (m_fy m * (2 * d * u - d * u)) by field. rewrite Eu. unfold A. field.
      * cbn [app]. unfold A. forces.
      * arms. field.
Qed.
End Shapes.

(** ** From the library function to the plates *)
Lemma cross_out sh d b t n m mat g : cruciform_section sh d b t 0 n mat = Ok g -> 0 < t -> t < d -> t < b -> on_grid 12 (d / 2) -> on_grid 12 (b / 2) -> on_grid 12 (t / 2) ->
  same_boundary (poly_edges m (gm_poly g)) (parts_edges (cross_shape m (b / 2) (d / 2) (t / 2))).
Proof.
  intros E H1 H3 H4 Gd Gb Gf. unfold cruciform_section in E.
  assert (P : cruciform_points d b t 0 n = [(- (t / 2), - (d / 2)); (t / 2, - (d / 2)); (t / 2, - (t / 2)); (b / 2, - (t / 2)); (b / 2, t / 2); (t / 2, t / 2); (t / 2, d / 2); (- (t / 2), d / 2); (- (t / 2), t / 2); (- (b / 2), t / 2); (- (b / 2), - (t / 2)); (- (t / 2), - (t / 2))]) by (unfold cruciform_points; sharp).
  rewrite P in E. apply (ring_out sh _ m mat g _ E); [opened|grids| |unring; nra|apply cross_plates; lra]. exists (b / 2, t / 2). split; [do 4 right; left; reflexivity|]. intros Q. injection Q. lra.
Qed.
Lemma mono_out sh d b_t b_b t_ft t_fb t_w n m mat g : let c := Rmax b_t b_b / 2 in mono_i_section sh d b_t b_b t_ft t_fb t_w 0 n mat = Ok g -> 0 < t_ft -> 0 < t_fb -> 0 < t_w -> t_ft + t_fb < d -> t_w <= b_t -> t_w <= b_b ->
  on_grid 12 d -> on_grid 12 t_ft -> on_grid 12 t_fb -> on_grid 12 (c - b_t / 2) -> on_grid 12 (c + b_t / 2) -> on_grid 12 (c - b_b / 2) -> on_grid 12 (c + b_b / 2) -> on_grid 12 (c - t_w / 2) -> on_grid 12 (c + t_w / 2) ->
  same_boundary (poly_edges m (gm_poly g)) (parts_edges (stack_shape m c b_b t_w b_t t_fb (d - t_ft) d)).
Proof.
  intros c E H1 H2 H3 H4 H5 H6 Gd G1 G2 G3 G4 G5 G6 G7 G8. unfold mono_i_section in E.
  assert (P : mono_i_points d b_t b_b t_ft t_fb t_w 0 n = [(c - b_b / 2, 0); (c + b_b / 2, 0); (c + b_b / 2, t_fb); (c + t_w / 2, t_fb); (c + t_w / 2, d - t_ft); (c + b_t / 2, d - t_ft); (c + b_t / 2, d); (c - b_t / 2, d); (c - b_t / 2, d - t_ft); (c - t_w / 2, d - t_ft); (c - t_w / 2, t_fb); (c - b_b / 2, t_fb)]) by (unfold mono_i_points; fold c; sharp).
  rewrite P in E. apply (ring_out sh _ m mat g _ E); [opened|grids| |unring; nra|apply stack_plates; lra]. exists (c - b_t / 2, d). split; [do 7 right; left; reflexivity|]. intros Q. injection Q. lra.
Qed.
Lemma angle_out sh d b t n m mat g : angle_section sh d b t 0 0 n mat = Ok g -> 1 / 10 ^ 8 < t -> t < d -> t < b -> on_grid 12 d -> on_grid 12 b -> on_grid 12 t ->
  same_boundary (poly_edges m (gm_poly g)) (parts_edges (leg_shape m b d t)) /\ same_boundary (poly_edges m (gm_poly g)) (parts_edges (leg_shape' m b d t)).
Proof.
  intros E H1 H3 H4 Gd Gb Gf. unfold angle_section in E. destruct (Rlt_dec t 0) as [|_]; [discriminate E|].
  assert (P : angle_points d b t 0 0 n = [(0, 0); (b, 0); (b, t); (t, t); (t, d); (0, d)]).
  { unfold angle_points, isclose. destruct (Rle_dec _ _) as [L|_]; [exfalso; rewrite Rabs_R0 in L; rewrite Rabs_right in L by lra; lra|]. sharp. }
  rewrite P in E. split; (apply (ring_out sh _ m mat g _ E); [opened|grids| |unring; nra|first [apply leg_plates|apply leg_plates']; lra]; exists (b, 0); split; [right; left; reflexivity|]; intros Q; injection Q; lra).
Qed.
