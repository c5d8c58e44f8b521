(** Similar meshes: elements. *)
From Coq Require Import Reals List Lra Lia Permutation.
From Coquelicot Require Import Coquelicot.
From Verif Require Import Base S_Integral M_Fea S_Fem M_Post M_Section S_Section S_Post S_Warp S_Similar
  P_Integral P_Fea P_Geom P_Elem P_Section P_Totals P_Post P_Yield P_Warp P_Warp2 P_Warp3.
Import ListNotations.
Local Open Scope R_scope.

(** Straight elements of either orientation *)
Definition ok_el (el : tri6) : Prop :=
  straight el (corner_a el) (corner_b el) (corner_c el) /\ orient (corner_a el) (corner_b el) (corner_c el) <> 0.
Lemma valid_ok el : valid_el el -> ok_el el.
Proof. intros [H O]. split; [exact H|lra]. Qed.

Definition D3 (el : tri6) : R := orient (corner_a el) (corner_b el) (corner_c el).
Lemma ok_shape el : ok_el el -> forall g, sum1 g ->
  px el g = g_eta g * fst (corner_a el) + g_xi g * fst (corner_b el) + g_zeta g * fst (corner_c el) /\
  py el g = g_eta g * snd (corner_a el) + g_xi g * snd (corner_b el) + g_zeta g * snd (corner_c el) /\
  sh_j (shp el g) = D3 el / 2 /\
  (forall u, gx el u g = let '(a, b, c) := gcoef ((snd (corner_b el) - snd (corner_c el)) / D3 el) ((snd (corner_c el) - snd (corner_a el)) / D3 el)
     ((snd (corner_a el) - snd (corner_b el)) / D3 el) u in a * g_eta g + b * g_xi g + c * g_zeta g) /\
  (forall u, gy el u g = let '(a, b, c) := gcoef ((fst (corner_c el) - fst (corner_b el)) / D3 el) ((fst (corner_a el) - fst (corner_c el)) / D3 el)
     ((fst (corner_b el) - fst (corner_a el)) / D3 el) u in a * g_eta g + b * g_xi g + c * g_zeta g) /\
  (forall u, vl el u g = dot6 (shape_n (g_eta g) (g_xi g) (g_zeta g)) u).
Proof.
  intros [[Hx Hy] Ho] [w eta xi zeta] Hs. unfold sum1 in Hs. cbn [g_eta g_xi g_zeta] in *.
  assert (E : shp el (mkGp w eta xi zeta) = shape_function (side_nodes (fst (corner_a el)) (fst (corner_b el)) (fst (corner_c el)))
     (side_nodes (snd (corner_a el)) (snd (corner_b el)) (snd (corner_c el))) (mkGp w eta xi zeta)) by (unfold shp; rewrite <- Hx, <- Hy; reflexivity).
  rewrite (shape_straight _ _ _ eta xi zeta w Hs Ho) in E. unfold px, py, gx, gy, vl. rewrite E. cbn [sh_nx sh_ny sh_j sh_b0 sh_b1 sh_n].
  split; [reflexivity|]. split; [reflexivity|]. split; [reflexivity|]. split; [intros u; apply grad6_lin, Hs|]. split; [intros u; apply grad6_lin, Hs|reflexivity].
Qed.

(** ** The image under a similarity *)
Section Move.
Context (m : similarity) (Hm : proper_sim m) (p : nat -> nat).
Lemma sim_det : 0 < scale2 m /\ s_e m * s_e m = 1.
Proof. destruct Hm as [[E|E] H]; split; try exact H; rewrite E; ring. Qed.

Lemma move_corners el : corner_a (move_el m p el) = (sim_x m (fst (corner_a el)) (snd (corner_a el)), sim_y m (fst (corner_a el)) (snd (corner_a el))) /\
  corner_b (move_el m p el) = (sim_x m (fst (corner_b el)) (snd (corner_b el)), sim_y m (fst (corner_b el)) (snd (corner_b el))) /\
  corner_c (move_el m p el) = (sim_x m (fst (corner_c el)) (snd (corner_c el)), sim_y m (fst (corner_c el)) (snd (corner_c el))).
Proof. repeat split. Qed.
Lemma move_D el : D3 (move_el m p el) = s_e m * scale2 m * D3 el.
Proof.
  unfold D3. destruct (move_corners el) as (-> & -> & ->). unfold orient, sim_x, sim_y, scale2. destruct (corner_a el), (corner_b el), (corner_c el). cbn [fst snd].
  destruct sim_det as [_ E]. 
  match goal with |- ?l = ?r => transitivity (r + (s_e m * s_e m - 1) * 0) end; [ring|rewrite E; ring].
Qed.
Lemma move_ok el : ok_el el -> ok_el (move_el m p el).
Proof.
  intros [[Hx Hy] Ho]. split.
  - destruct (move_corners el) as (-> & -> & ->). unfold straight, move_el. cbn [el_x el_y fst snd]. rewrite Hx, Hy.
    unfold zip6, side_nodes, sim_x, sim_y. cbn [v0 v1 v2 v3 v4 v5]. split; f_equal; field.
  - change (D3 (move_el m p el) <> 0). rewrite move_D. destruct sim_det as [S E]. unfold D3.
    apply Rmult_integral_contrapositive_currified; [|exact Ho]. apply Rmult_integral_contrapositive_currified; [|lra]. intros Z. rewrite Z in E. lra.
Qed.
Lemma move_fields el g : ok_el el -> sum1 g ->
  px (move_el m p el) g = sim_x m (px el g) (py el g) /\ py (move_el m p el) g = sim_y m (px el g) (py el g) /\
  sh_j (shp (move_el m p el) g) = s_e m * scale2 m * sh_j (shp el g) /\
  (forall u, gx (move_el m p el) u g = lin_x m (gx el u g) (gy el u g) / scale2 m /\ gy (move_el m p el) u g = lin_y m (gx el u g) (gy el u g) / scale2 m) /\
  (forall u, vl (move_el m p el) u g = vl el u g).
Proof.
  intros O Hg. destruct (ok_shape el O g Hg) as (A1 & A2 & A3 & A4 & A5 & A6).
  destruct (ok_shape _ (move_ok el O) g Hg) as (B1 & B2 & B3 & B4 & B5 & B6).
  rewrite B1, B2, B3, A1, A2, A3, move_D. destruct (move_corners el) as (-> & -> & ->). cbn [fst snd].
  destruct sim_det as [S E]. assert (En : s_e m <> 0) by (intros Z; rewrite Z in E; lra). destruct O as [_ On]. fold (D3 el) in On.
  unfold sum1 in Hg. assert (Z : g_zeta g = 1 - g_eta g - g_xi g) by lra.
  split; [unfold sim_x; rewrite Z; ring|]. split; [unfold sim_y; rewrite Z; ring|]. split; [field|]. split.
  - intros u. rewrite B4, B5, A4, A5, move_D. destruct (move_corners el) as (-> & -> & ->). cbn [fst snd]. unfold gcoef, lin_x, lin_y, sim_x, sim_y.
    destruct (proj1 Hm) as [E1|E1]; rewrite E1; split; field; split; auto with real; lra.
  - intros u. rewrite B6, A6. reflexivity.
Qed.
End Move.

(** ** Listing the corners in another order *)
Definition turn_gp (g : gp) : gp := mkGp (g_w g) (g_xi g) (g_zeta g) (g_eta g).
Definition flip_gp (g : gp) : gp := mkGp (g_w g) (g_eta g) (g_zeta g) (g_xi g).
Lemma turn_D el : D3 (turn_el el) = D3 el.
Proof. unfold D3, turn_el, corner_a, corner_b, corner_c, orient, turn6. cbn [el_x el_y v0 v1 v2 v3 v4 v5 fst snd]. ring. Qed.
Lemma flip_D el : D3 (flip_el el) = - D3 el.
Proof. unfold D3, flip_el, corner_a, corner_b, corner_c, orient, flip6. cbn [el_x el_y v0 v1 v2 v3 v4 v5 fst snd]. ring. Qed.
Lemma turn_ok el : ok_el el -> ok_el (turn_el el).
Proof.
  intros [[Hx Hy] Ho]. split; [|change (D3 (turn_el el) <> 0); rewrite turn_D; exact Ho].
  unfold straight, turn_el, corner_a, corner_b, corner_c in *. cbn [el_x el_y fst snd] in *. rewrite Hx, Hy. unfold turn6, side_nodes. cbn [v0 v1 v2 v3 v4 v5]. split; f_equal; field.
Qed.
Lemma flip_ok el : ok_el el -> ok_el (flip_el el).
Proof.
  intros [[Hx Hy] Ho]. split; [|change (D3 (flip_el el) <> 0); rewrite flip_D; apply Ropp_neq_0_compat; exact Ho].
  unfold straight, flip_el, corner_a, corner_b, corner_c in *. cbn [el_x el_y fst snd] in *. rewrite Hx, Hy. unfold flip6, side_nodes. cbn [v0 v1 v2 v3 v4 v5]. split; f_equal; field.
Qed.
Lemma turn_fields el g : ok_el el -> sum1 g ->
  px (turn_el el) (turn_gp g) = px el g /\ py (turn_el el) (turn_gp g) = py el g /\ sh_j (shp (turn_el el) (turn_gp g)) = sh_j (shp el g) /\
  (forall u, gx (turn_el el) (turn6 u) (turn_gp g) = gx el u g /\ gy (turn_el el) (turn6 u) (turn_gp g) = gy el u g) /\
  (forall u, vl (turn_el el) (turn6 u) (turn_gp g) = vl el u g).
Proof.
  intros O Hg. destruct (ok_shape el O g Hg) as (A1 & A2 & A3 & A4 & A5 & A6).
  assert (Hg' : sum1 (turn_gp g)) by (unfold sum1, turn_gp in *; cbn [g_eta g_xi g_zeta]; lra).
  destruct (ok_shape _ (turn_ok el O) _ Hg') as (B1 & B2 & B3 & B4 & B5 & B6).
  rewrite B1, B2, B3, A1, A2, A3, turn_D. cbn [turn_gp g_eta g_xi g_zeta].
  split; [unfold turn_el, corner_a, corner_b, corner_c, turn6; cbn [el_x el_y v0 v1 v2 fst snd]; ring|].
  split; [unfold turn_el, corner_a, corner_b, corner_c, turn6; cbn [el_x el_y v0 v1 v2 fst snd]; ring|]. split; [reflexivity|]. split.
  - intros u. rewrite B4, B5, A4, A5, turn_D. unfold turn_el, corner_a, corner_b, corner_c, turn6, gcoef, turn_gp; cbn [el_x el_y v0 v1 v2 v3 v4 v5 fst snd g_eta g_xi g_zeta]. split; ring.
  - intros u. rewrite B6, A6. unfold turn_gp, turn6, dot6, shape_n. cbn [v0 v1 v2 v3 v4 v5 g_eta g_xi g_zeta]. ring.
Qed.
Lemma flip_fields el g : ok_el el -> sum1 g ->
  px (flip_el el) (flip_gp g) = px el g /\ py (flip_el el) (flip_gp g) = py el g /\ sh_j (shp (flip_el el) (flip_gp g)) = - sh_j (shp el g) /\
  (forall u, gx (flip_el el) (flip6 u) (flip_gp g) = gx el u g /\ gy (flip_el el) (flip6 u) (flip_gp g) = gy el u g) /\
  (forall u, vl (flip_el el) (flip6 u) (flip_gp g) = vl el u g).
Proof.
  intros O Hg. destruct (ok_shape el O g Hg) as (A1 & A2 & A3 & A4 & A5 & A6).
  assert (Hg' : sum1 (flip_gp g)) by (unfold sum1, flip_gp in *; cbn [g_eta g_xi g_zeta]; lra).
  destruct (ok_shape _ (flip_ok el O) _ Hg') as (B1 & B2 & B3 & B4 & B5 & B6).
  rewrite B1, B2, B3, A1, A2, A3, flip_D. cbn [flip_gp g_eta g_xi g_zeta].
  split; [unfold flip_el, corner_a, corner_b, corner_c, flip6; cbn [el_x el_y v0 v1 v2 fst snd]; ring|].
  split; [unfold flip_el, corner_a, corner_b, corner_c, flip6; cbn [el_x el_y v0 v1 v2 fst snd]; ring|]. split; [field|]. destruct O as [_ On]. fold (D3 el) in On. split.
  - intros u. rewrite B4, B5, A4, A5, flip_D. unfold flip_el, corner_a, corner_b, corner_c, flip6, gcoef, flip_gp; cbn [el_x el_y v0 v1 v2 v3 v4 v5 fst snd g_eta g_xi g_zeta].
    split; field; exact On.
  - intros u. rewrite B6, A6. unfold flip_gp, flip6, dot6, shape_n. cbn [v0 v1 v2 v3 v4 v5 g_eta g_xi g_zeta]. ring.
Qed.

(** ** One element and its image *)
(** [s] takes the local points of [el] to the corresponding ones of [el'] *)
Record tracks (m : similarity) (p : nat -> nat) (el el' : tri6) (s : gp -> gp) : Prop := mkTracks {
  tk_sum1 : forall g, sum1 g -> sum1 (s g);
  tk_px : forall g, sum1 g -> px el' (s g) = sim_x m (px el g) (py el g);
  tk_py : forall g, sum1 g -> py el' (s g) = sim_y m (px el g) (py el g);
  tk_v : forall u g, sum1 g -> Vl u el' (s g) = Vl (fun i => u (p i)) el g;
  tk_gx : forall u g, sum1 g -> Gx u el' (s g) = lin_x m (Gx (fun i => u (p i)) el g) (Gy (fun i => u (p i)) el g) / scale2 m;
  tk_gy : forall u g, sum1 g -> Gy u el' (s g) = lin_y m (Gx (fun i => u (p i)) el g) (Gy (fun i => u (p i)) el g) / scale2 m }.
Lemma gps_turn F : sumf F (map turn_gp gps4) = sumf F gps4.
Proof. unfold gps4, turn_gp. cbn [map g_w g_eta g_xi g_zeta]. rewrite !sumf_cons, !sumf_nil. ring. Qed.
Lemma gps_flip F : sumf F (map flip_gp gps4) = sumf F gps4.
Proof. unfold gps4, flip_gp. cbn [map g_w g_eta g_xi g_zeta]. rewrite !sumf_cons, !sumf_nil. ring. Qed.

Lemma relisted_tracks m p el el' : proper_sim m -> ok_el el -> relisted (move_el m p el) el' ->
  ok_el el' /\ el_mat el' = el_mat el /\ exists s d, tracks m p el el' s /\ (d = 1 \/ d = -1) /\
    (forall g, g_w (s g) = g_w g) /\ (forall g, sum1 g -> sh_j (shp el' (s g)) = d * scale2 m * sh_j (shp el g)) /\
    (forall F, sumf F (map s gps4) = sumf F gps4).
Proof.
  intros Hm O Hr. induction Hr as [|e Hr IH|e Hr IH].
  - split; [apply move_ok; assumption|]. split; [reflexivity|]. exists (fun g => g), (s_e m). split; [split|].
    + intros g H. exact H.
    + intros g H. apply (move_fields m Hm p el g O H).
    + intros g H. apply (move_fields m Hm p el g O H).
    + intros u g H. unfold Vl. destruct (move_fields m Hm p el g O H) as (_ & _ & _ & _ & ->). reflexivity.
    + intros u g H. unfold Gx, Gy. destruct (move_fields m Hm p el g O H) as (_ & _ & _ & E & _). apply (E (gather u (map_conn p (el_ids el)))).
    + intros u g H. unfold Gx, Gy. destruct (move_fields m Hm p el g O H) as (_ & _ & _ & E & _). apply (E (gather u (map_conn p (el_ids el)))).
    + split; [apply Hm|]. split; [reflexivity|]. split; [|intros F; rewrite map_id; reflexivity]. intros g H. apply (move_fields m Hm p el g O H).
  - destruct IH as (O' & M & s & d & [K1 K2 K3 K4 K5 K6] & Hd & Hw & Hj & HF). split; [apply turn_ok, O'|]. split; [exact M|].
    exists (fun g => turn_gp (s g)), d. split; [split|].
    + intros g H. specialize (K1 g H). unfold sum1, turn_gp in *. cbn [g_eta g_xi g_zeta]. lra.
    + intros g H. destruct (turn_fields e (s g) O' (K1 g H)) as (-> & _). apply K2, H.
    + intros g H. destruct (turn_fields e (s g) O' (K1 g H)) as (_ & -> & _). apply K3, H.
    + intros u g H. rewrite <- K4 by exact H. unfold Vl. change (gather u (el_ids (turn_el e))) with (turn6 (gather u (el_ids e))).
      destruct (turn_fields e (s g) O' (K1 g H)) as (_ & _ & _ & _ & E). apply E.
    + intros u g H. rewrite <- K5 by exact H. unfold Gx. change (gather u (el_ids (turn_el e))) with (turn6 (gather u (el_ids e))).
      destruct (turn_fields e (s g) O' (K1 g H)) as (_ & _ & _ & E & _). apply E.
    + intros u g H. rewrite <- K6 by exact H. unfold Gy. change (gather u (el_ids (turn_el e))) with (turn6 (gather u (el_ids e))).
      destruct (turn_fields e (s g) O' (K1 g H)) as (_ & _ & _ & E & _). apply E.
    + split; [exact Hd|]. split; [intros g; apply Hw|]. split.
      * intros g H. destruct (turn_fields e (s g) O' (K1 g H)) as (_ & _ & -> & _). apply Hj, H.
      * intros F. rewrite <- (map_map s turn_gp), sumf_map, (HF (fun g => F (turn_gp g))), <- sumf_map. apply gps_turn.
  - destruct IH as (O' & M & s & d & [K1 K2 K3 K4 K5 K6] & Hd & Hw & Hj & HF). split; [apply flip_ok, O'|]. split; [exact M|].
    exists (fun g => flip_gp (s g)), (- d). split; [split|].
    + intros g H. specialize (K1 g H). unfold sum1, flip_gp in *. cbn [g_eta g_xi g_zeta]. lra.
    + intros g H. destruct (flip_fields e (s g) O' (K1 g H)) as (-> & _). apply K2, H.
    + intros g H. destruct (flip_fields e (s g) O' (K1 g H)) as (_ & -> & _). apply K3, H.
    + intros u g H. rewrite <- K4 by exact H. unfold Vl. change (gather u (el_ids (flip_el e))) with (flip6 (gather u (el_ids e))).
      destruct (flip_fields e (s g) O' (K1 g H)) as (_ & _ & _ & _ & E). apply E.
    + intros u g H. rewrite <- K5 by exact H. unfold Gx. change (gather u (el_ids (flip_el e))) with (flip6 (gather u (el_ids e))).
      destruct (flip_fields e (s g) O' (K1 g H)) as (_ & _ & _ & E & _). apply E.
    + intros u g H. rewrite <- K6 by exact H. unfold Gy. change (gather u (el_ids (flip_el e))) with (flip6 (gather u (el_ids e))).
      destruct (flip_fields e (s g) O' (K1 g H)) as (_ & _ & _ & E & _). apply E.
    + split; [destruct Hd as [-> | ->]; [right|left]; ring|]. split; [intros g; apply Hw|]. split.
      * intros g H. destruct (flip_fields e (s g) O' (K1 g H)) as (_ & _ & -> & _). rewrite Hj by exact H. ring.
      * intros F. rewrite <- (map_map s flip_gp), sumf_map, (HF (fun g => F (flip_gp g))), <- sumf_map. apply gps_flip.
Qed.

(** Quadrature over an element and over its image *)
Lemma image_tracks m p el el' : proper_sim m -> valid_el el -> valid_el el' -> relisted (move_el m p el) el' ->
  el_mat el' = el_mat el /\ exists s, tracks m p el el' s /\
    (forall F F' : gp -> R, (forall g, sum1 g -> F' (s g) = F g) ->
       sumf (fun g => g_w g * sh_j (shp el' g) * F' g) gps4 = scale2 m * sumf (fun g => g_w g * sh_j (shp el g) * F g) gps4).
Proof.
  intros Hm V V' Hr. destruct (relisted_tracks m p el el' Hm (valid_ok el V) Hr) as (O' & M & s & d & K & Hd & Hw & Hj & HF).
  split; [exact M|]. exists s. split; [exact K|]. intros F F' E.
  assert (d = 1).
  { assert (S1 : sum1 (mkGp 0 1 0 0)) by (unfold sum1; cbn [g_eta g_xi g_zeta]; ring). pose proof (Hj _ S1) as J.
    destruct (ok_shape el (valid_ok el V) _ S1) as (_ & _ & A & _).
    destruct (ok_shape el' O' _ (tk_sum1 _ _ _ _ _ K _ S1)) as (_ & _ & A' & _).
    rewrite A, A' in J. destruct V as [_ V]. destruct V' as [_ V']. fold (D3 el) in V. fold (D3 el') in V'. destruct (sim_det m Hm) as [S _].
    destruct Hd as [Hd|Hd]; [exact Hd|]. subst d. pose proof (Rmult_lt_0_compat _ _ S V). lra. }
  subst d. rewrite <- (HF (fun g => g_w g * sh_j (shp el' g) * F' g)), sumf_map, <- sumf_scal. apply sumf_ext. intros g Hg.
  rewrite Hw, Hj, E by (apply sum1_4, Hg). ring.
Qed.
