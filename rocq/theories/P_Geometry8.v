(** Proofs: the effect of rounding on the area; examples of geometries. *)
From Coq Require Import String Reals List Bool Arith ZArith Lia Lra Permutation.
From Verif Require Import Base M_Fea M_Init M_Geometry S_Geometry P_Geometry P_Geometry2 P_Geometry3 P_Geometry4 P_Geometry5.
Import ListNotations.
Local Open Scope R_scope.

Lemma abs_mul_le a b A B : Rabs a <= A -> Rabs b <= B -> Rabs (a * b) <= A * B.
Proof. intros H K. rewrite Rabs_mult. apply Rmult_le_compat; try apply Rabs_pos; assumption. Qed.
Lemma cross_near h M a b a' b' : Rabs (fst a) <= M -> Rabs (snd a) <= M -> Rabs (fst b) <= M -> Rabs (snd b) <= M ->
  Rabs (fst a' - fst a) <= h -> Rabs (snd a' - snd a) <= h -> Rabs (fst b' - fst b) <= h -> Rabs (snd b' - snd b) <= h ->
  Rabs (cross a' b' - cross a b) <= 4 * (M * h) + 2 * (h * h).
Proof.
  intros. set (d := fst a' - fst a) in *. set (e := snd a' - snd a) in *. set (u := fst b' - fst b) in *. set (v := snd b' - snd b) in *.
  replace (cross a' b' - cross a b) with (fst a * v + snd b * d + d * v - fst b * e - snd a * u - u * e) by (unfold cross, d, e, u, v; ring).
  pose proof (abs_mul_le (fst a) v M h) as P1. pose proof (abs_mul_le (snd b) d M h) as P2. pose proof (abs_mul_le d v h h) as P3.
  pose proof (abs_mul_le (fst b) e M h) as P4. pose proof (abs_mul_le (snd a) u M h) as P5. pose proof (abs_mul_le u e h h) as P6.
  assert (T : Rabs (fst a * v + snd b * d + d * v - fst b * e - snd a * u - u * e) <= Rabs (fst a * v) + Rabs (snd b * d) + Rabs (d * v) + Rabs (fst b * e) + Rabs (snd a * u) + Rabs (u * e)).
  { unfold Rabs. repeat destruct (Rcase_abs _); lra. }
  specialize (P1 ltac:(assumption) ltac:(assumption)). specialize (P2 ltac:(assumption) ltac:(assumption)). specialize (P3 ltac:(assumption) ltac:(assumption)).
  specialize (P4 ltac:(assumption) ltac:(assumption)). specialize (P5 ltac:(assumption) ltac:(assumption)). specialize (P6 ltac:(assumption) ltac:(assumption)). lra.
Qed.
Definition close2 (h M : R) (a b : pt) : Prop := (Rabs (fst a) <= M /\ Rabs (snd a) <= M) /\ Rabs (fst b - fst a) <= h /\ Rabs (snd b - snd a) <= h.
Lemma shoelace_near h M a a' : close2 h M a a' -> forall l l', Forall2 (close2 h M) l l' ->
  Rabs (shoelace cross a' l' - shoelace cross a l) <= INR (length l) * (4 * (M * h) + 2 * (h * h)).
Proof.
  intros A l l' F. induction F as [|b b' l l' B F IH]; [cbn; rewrite Rminus_0_r, Rabs_R0; lra|].
  destruct F as [|c c' l l' C F].
  - cbn [shoelace length INR]. rewrite Rmult_1_l. destruct A as ((?&?)&?&?), B as ((?&?)&?&?). apply cross_near; assumption.
  - change (Rabs (cross b' c' + shoelace cross a' (c' :: l') - (cross b c + shoelace cross a (c :: l))) <= INR (S (length (c :: l))) * (4 * (M * h) + 2 * (h * h))).
    rewrite S_INR. set (X := shoelace cross a' (c' :: l')) in *. set (Y := shoelace cross a (c :: l)) in *.
    assert (K : Rabs (cross b' c' - cross b c) <= 4 * (M * h) + 2 * (h * h)). { destruct B as ((?&?)&?&?), C as ((?&?)&?&?). apply cross_near; assumption. }
    replace (cross b' c' + X - (cross b c + Y)) with ((cross b' c' - cross b c) + (X - Y)) by ring. eapply Rle_trans; [apply Rabs_triang|]. rewrite Rmult_plus_distr_r, Rmult_1_l. lra.
Qed.
Lemma ring_area_near h M l l' : 0 <= M -> 0 <= h -> Forall2 (close2 h M) l l' -> Rabs (ring_area l' - ring_area l) <= INR (length l) * (2 * M * h + h * h).
Proof.
  intros HM Hh F. unfold ring_area. destruct F as [|a a' l l' A F]; [cbn [around length INR]; replace (0 / 2 - 0 / 2) with 0 by field; rewrite Rabs_R0; lra|].
  cbn [around]. pose proof (shoelace_near h M a a' A (a :: l) (a' :: l') (Forall2_cons _ _ A F)) as K.
  set (X := shoelace cross a' (a' :: l')) in *. set (Y := shoelace cross a (a :: l)) in *. replace (X / 2 - Y / 2) with ((X - Y) / 2) by field.
  unfold Rdiv. rewrite Rabs_mult, (Rabs_right (/ 2)) by lra. set (n := INR (length (a :: l))) in *. replace (n * (2 * M * h + h * h)) with (n * (4 * (M * h) + 2 * (h * h)) / 2) by field. lra.
Qed.
Lemma rings_area_near h M : 0 <= M -> 0 <= h -> forall rs rs', Forall2 (Forall2 (close2 h M)) rs rs' ->
  Rabs (sumf (fun r => orient r (ring_area r)) rs' - sumf (fun r => orient r (ring_area r)) rs) <= INR (length (concat rs)) * (2 * M * h + h * h).
Proof.
  intros HM Hh rs rs' F. unfold sumf, Rsum. induction F as [|r r' rs rs' A F IH]; [cbn; rewrite Rminus_0_r, Rabs_R0; lra|]. cbn [map fold_right concat]. rewrite app_length, plus_INR, Rmult_plus_distr_r, !orient_area.
  pose proof (ring_area_near h M r r' HM Hh A) as K. pose proof (Rabs_triang_inv2 (ring_area r') (ring_area r)) as T.
  match type of IH with Rabs (?x - ?y) <= _ => set (X := x) in *; set (Y := y) in * end.
  replace (Rabs (ring_area r') + X - (Rabs (ring_area r) + Y)) with ((Rabs (ring_area r') - Rabs (ring_area r)) + (X - Y)) by ring.
  eapply Rle_trans; [apply Rabs_triang|]. lra.
Qed.
Lemma moved_area f g g' M : moved f g g' -> 0 <= M -> within M f g -> poly_area (map_polygon f (gm_poly g)) = poly_area (gm_poly g) ->
  Rabs (poly_area (gm_poly g') - poly_area (gm_poly g)) <= INR (vertex_count g) * (2 * M * half (gm_tol g) + half (gm_tol g) * half (gm_tol g)).
Proof.
  intros (Mv & _) HM W E. rewrite <- E. pose proof (half_pos (gm_tol g)) as Hh. set (h := half (gm_tol g)) in *. unfold vertex_count.
  assert (F : Forall2 (Forall2 (close2 h M)) (rings (map_polygon f (gm_poly g))) (rings (gm_poly g'))).
  { unfold within in W. assert (X : rings (map_polygon f (gm_poly g)) = map (map f) (rings (gm_poly g))) by reflexivity. rewrite X. clear X E HM. revert W. induction Mv as [|r r' rs rs' A F IH]; intros W; cbn [map]; constructor.
    - apply Forall_cons_iff in W. destruct W as [W _]. clear IH F. induction A as [|v v' r r' N A IH]; cbn [map]; constructor; apply Forall_cons_iff in W; destruct W as [W1 W2]; [|apply IH, W2].
      split; [exact W1|]. destruct N as (N1 & N2 & _). split; assumption.
    - apply IH. apply Forall_cons_iff in W. apply W. }
  clear Mv W. unfold rings in F. inversion F as [|? ? ? ? Fe Fi]; subst. set (q := map_polygon f (gm_poly g)) in *.
  assert (L : length (concat (rings (gm_poly g))) = (length (ext q) + length (concat (ints q)))%nat).
  { unfold rings. cbn [concat]. rewrite app_length. unfold q, map_polygon. cbn [ext ints]. rewrite map_length, concat_map_length. reflexivity. }
  rewrite L, plus_INR, Rmult_plus_distr_r. unfold poly_area. rewrite !orient_area.
  pose proof (ring_area_near h M _ _ HM (Rlt_le _ _ Hh) Fe) as K1. pose proof (rings_area_near h M HM (Rlt_le _ _ Hh) _ _ Fi) as K2.
  change (map f (ext (gm_poly g))) with (ext q) in *. change (map (map f) (ints (gm_poly g))) with (ints q) in *.
  pose proof (Rabs_triang_inv2 (ring_area (ext (gm_poly g'))) (ring_area (ext q))) as T.
  match type of K2 with Rabs (?x - ?y) <= _ => set (X := x) in *; set (Y := y) in * end.
  replace (Rabs (ring_area (ext (gm_poly g'))) - X - (Rabs (ring_area (ext q)) - Y)) with ((Rabs (ring_area (ext (gm_poly g'))) - Rabs (ring_area (ext q))) + (- (X - Y))) by ring.
  eapply Rle_trans; [apply Rabs_triang|]. rewrite Rabs_Ropp. lra.
Qed.

(** ** Examples: integer polygons *)
Lemma int_grid tol k : on_grid tol (IZR k).
Proof. exists (k * 10 ^ Z.of_nat tol)%Z. rewrite mult_IZR, <- pow_IZR. reflexivity. Qed.
Lemma new_grid_poly sh p m c tol : poly_on_grid tol p -> (exists v, In v (ext p) /\ v <> (0, 0)) -> gm_poly (new_geometry sh p m c tol) = p.
Proof.
  intros G (v & Iv & N). destruct (new_geometry_poly sh p m c tol) as (-> & _). unfold round_polygon_vertices. rewrite (map_polygon_round_id _ _ G).
  destruct (forallb _ _) eqn:Q; [|reflexivity]. exfalso. rewrite forallb_forall in Q. specialize (Q v Iv). apply pt_eqb_spec in Q. contradiction.
Qed.
Definition ipt (x y : Z) : pt := (IZR x, IZR y).
Lemma ipt_grid tol x y : pt_on_grid tol (ipt x y). Proof. split; apply int_grid. Qed.
Definition toy : shapely := mkShapely (fun p => hd (0, 0) (ext p)) (fun _ _ => true) (fun p l => Some (mkPoly (ext p) (map ext l))) (fun _ => []) (fun _ _ => true).
Definition box (x1 y1 x2 y2 : Z) : list pt := [ipt x1 y1; ipt x2 y1; ipt x2 y2; ipt x1 y2].
Lemma box_grid tol x1 y1 x2 y2 : Forall (pt_on_grid tol) (box x1 y1 x2 y2). Proof. repeat constructor; apply int_grid. Qed.
(** a 4 x 4 square with a square hole *)
Definition frame : polygon := mkPoly (box 1 1 5 5) [box 2 2 3 3].
Definition frame_geom : geom := new_geometry toy frame default_material None 12.
Lemma frame_on_grid tol : poly_on_grid tol frame.
Proof. repeat constructor; apply int_grid. Qed.
Lemma frame_poly : gm_poly frame_geom = frame.
Proof. apply new_grid_poly; [apply frame_on_grid|]. exists (ipt 1 1). split; [left; reflexivity|]. intros E. injection E as E _. apply (eq_IZR 1 0) in E. lia. Qed.
Lemma frame_is : is_geometry toy frame_geom. Proof. apply new_is_geometry. Qed.
Lemma frame_proper : proper frame_geom.
Proof. exists (ipt 1 1), (ipt 5 1). rewrite frame_poly. repeat split; [left; reflexivity|right; left; reflexivity|]. intros E. injection E as E. apply (eq_IZR 1 5) in E. lia. Qed.
Lemma frame_tol : gm_tol frame_geom = 12%nat. Proof. apply new_geometry_poly. Qed.
Lemma frame_assigned : gm_assigned frame_geom = None. Proof. apply new_geometry_poly. Qed.
Lemma frame_area : poly_area frame = 15.
Proof. unfold poly_area, frame. cbn [ext ints]. unfold sumf, Rsum. cbn [map fold_right]. rewrite !orient_area. unfold ring_area, box, ipt, cross. cbn [around shoelace fst snd]. rewrite !Rabs_right by lra. lra. Qed.
