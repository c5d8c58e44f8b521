(** Proofs: the extrapolated and averaged stresses of an element list and of its image. *)
From Coq Require Import Reals List Permutation Bool Arith Lra Lia.
From Verif Require Import Base S_Integral M_Fea S_Fem M_Post M_Section M_Stress S_Section S_Post S_Warp S_Stress S_Similar
  P_Integral P_Fea P_Geom P_Elem P_Section P_Totals P_Post P_Yield P_Warp P_Warp2 P_Warp3 P_Warp5 P_Warp7 P_Similar P_Similar2 P_Stress.
Import ListNotations.
Local Open Scope R_scope.

(** ** The six ways to list the nodes of a triangle *)
Definition atg (F : gp -> R) : V6 := col6 F (at_gps6 (mkGp 0 0 0 0) (fun g => g)).
Definition within (v : V6) (M : R) : Prop := forall j, (j < 6)%nat -> Rabs (nth6 v j) <= M.
Definition sub6 (u v : V6) : V6 := zip6 Rminus u v.
Lemma within6 v M : within v M <-> Rabs (v0 v) <= M /\ Rabs (v1 v) <= M /\ Rabs (v2 v) <= M /\ Rabs (v3 v) <= M /\ Rabs (v4 v) <= M /\ Rabs (v5 v) <= M.
Proof.
  split.
  - intros H. repeat split; [apply (H 0%nat)|apply (H 1%nat)|apply (H 2%nat)|apply (H 3%nat)|apply (H 4%nat)|apply (H 5%nat)]; lia.
  - intros H j Hj. do 6 (destruct j as [|j]; [cbn [nth6]; tauto|]). lia.
Qed.
Record listing (T : V6 -> V6) (Tc : conn6 -> conn6) (s : gp -> gp) (Te : tri6 -> tri6) : Prop := mkListing {
  l_gather : forall u c, gather u (Tc c) = T (gather u c);
  l_map : forall p c, Tc (map_conn p c) = map_conn p (Tc c);
  l_pick : forall c v i, NoDup (ids_list c) -> pick (Tc c) (T v) i = pick c v i;
  l_w : T stress_weights = stress_weights;
  l_zip : forall f u v, T (zip6 f u v) = zip6 f (T u) (T v);
  l_at : forall F, atg F = T (atg (fun g => F (s g)));
  l_ids : forall e, el_ids (Te e) = Tc (el_ids e);
  l_mat : forall e, el_mat (Te e) = el_mat e;
  l_shift : forall c d e, shift_el c d (Te e) = Te (shift_el c d e);
  l_tracks : forall m p el e s0, tracks m p el e s0 -> ok_el e -> ok_el (Te e) /\ tracks m p el (Te e) (fun g => s (s0 g));
  l_within : forall v M, within (T v) M <-> within v M;
  l_const : forall x, T (const6 x) = const6 x;
  l_extra : forall v M, within v M -> within (sub6 (extrapolate_to_nodes (T v)) (T (extrapolate_to_nodes v))) (2 / 10 ^ 15 * M) }.

Lemma turn_tracks m p el e s : tracks m p el e s -> ok_el e -> ok_el (turn_el e) /\ tracks m p el (turn_el e) (fun g => turn_gp (s g)).
Proof.
  intros [K1 K2 K3 K4 K5 K6] O'. split; [apply turn_ok, O'|]. split.
  - intros g H. specialize (K1 g H). unfold sum1, turn_gp in *. cbn [g_eta g_xi g_zeta]. lra.
  - intros g H. destruct (turn_fields e (s g) O' (K1 g H)) as (-> & _). apply K2, H.
  - intros g H. destruct (turn_fields e (s g) O' (K1 g H)) as (_ & -> & _). apply K3, H.
  - intros u g H. rewrite <- K4 by exact H. unfold Vl. change (gather u (el_ids (turn_el e))) with (turn6 (gather u (el_ids e))).
    destruct (turn_fields e (s g) O' (K1 g H)) as (_ & _ & _ & _ & E). apply E.
  - intros u g H. rewrite <- K5 by exact H. unfold Gx. change (gather u (el_ids (turn_el e))) with (turn6 (gather u (el_ids e))).
    destruct (turn_fields e (s g) O' (K1 g H)) as (_ & _ & _ & E & _). apply E.
  - intros u g H. rewrite <- K6 by exact H. unfold Gy. change (gather u (el_ids (turn_el e))) with (turn6 (gather u (el_ids e))).
    destruct (turn_fields e (s g) O' (K1 g H)) as (_ & _ & _ & E & _). apply E.
Qed.
Lemma flip_tracks m p el e s : tracks m p el e s -> ok_el e -> ok_el (flip_el e) /\ tracks m p el (flip_el e) (fun g => flip_gp (s g)).
Proof.
  intros [K1 K2 K3 K4 K5 K6] O'. split; [apply flip_ok, O'|]. split.
  - intros g H. specialize (K1 g H). unfold sum1, flip_gp in *. cbn [g_eta g_xi g_zeta]. lra.
  - intros g H. destruct (flip_fields e (s g) O' (K1 g H)) as (-> & _). apply K2, H.
  - intros g H. destruct (flip_fields e (s g) O' (K1 g H)) as (_ & -> & _). apply K3, H.
  - intros u g H. rewrite <- K4 by exact H. unfold Vl. change (gather u (el_ids (flip_el e))) with (flip6 (gather u (el_ids e))).
    destruct (flip_fields e (s g) O' (K1 g H)) as (_ & _ & _ & _ & E). apply E.
  - intros u g H. rewrite <- K5 by exact H. unfold Gx. change (gather u (el_ids (flip_el e))) with (flip6 (gather u (el_ids e))).
    destruct (flip_fields e (s g) O' (K1 g H)) as (_ & _ & _ & E & _). apply E.
  - intros u g H. rewrite <- K6 by exact H. unfold Gy. change (gather u (el_ids (flip_el e))) with (flip6 (gather u (el_ids e))).
    destruct (flip_fields e (s g) O' (K1 g H)) as (_ & _ & _ & E & _). apply E.
Qed.
Lemma move_tracks m p el : proper_sim m -> ok_el el -> ok_el (move_el m p el) /\ tracks m p el (move_el m p el) (fun g => g).
Proof.
  intros Hm O. split; [apply move_ok; assumption|]. split.
  - intros g H. exact H.
  - intros g H. apply (move_fields m Hm p el g O H).
  - intros g H. apply (move_fields m Hm p el g O H).
  - intros u g H. unfold Vl. destruct (move_fields m Hm p el g O H) as (_ & _ & _ & _ & ->). reflexivity.
  - intros u g H. unfold Gx, Gy. destruct (move_fields m Hm p el g O H) as (_ & _ & _ & E & _). apply (E (gather u (map_conn p (el_ids el)))).
  - intros u g H. unfold Gx, Gy. destruct (move_fields m Hm p el g O H) as (_ & _ & _ & E & _). apply (E (gather u (map_conn p (el_ids el)))).
Qed.

Lemma abs_bet x M : Rabs x <= M -> - M <= x <= M.
Proof. unfold Rabs. destruct (Rcase_abs x); lra. Qed.
Lemma Rminus_eq_0 x : x - x = 0. Proof. ring. Qed.
Ltac six := unfold pick, scatter_add, turn_conn, flip_conn, turn6, flip6; cbn [c0 c1 c2 c3 c4 c5 v0 v1 v2 v3 v4 v5].
Definition psum (c : conn6) (v : V6) (i : nat) : R :=
  (if Nat.eqb i (c0 c) then v0 v else 0) + (if Nat.eqb i (c1 c) then v1 v else 0) + (if Nat.eqb i (c2 c) then v2 v else 0) +
  (if Nat.eqb i (c3 c) then v3 v else 0) + (if Nat.eqb i (c4 c) then v4 v else 0) + (if Nat.eqb i (c5 c) then v5 v else 0).
Lemma pick_sum c v i : NoDup (ids_list c) -> pick c v i = psum c v i.
Proof.
  intros D. unfold ids_list in D. repeat match goal with H : NoDup (_ :: _) |- _ => inversion H; clear H; subst end. cbn [In] in *.
  unfold pick, psum, scatter_add.
  destruct (Nat.eqb_spec i (c5 c)) as [->|]; [|destruct (Nat.eqb_spec i (c4 c)) as [->|]; [|destruct (Nat.eqb_spec i (c3 c)) as [->|]; [|destruct (Nat.eqb_spec i (c2 c)) as [->|];
    [|destruct (Nat.eqb_spec i (c1 c)) as [->|]; [|destruct (Nat.eqb_spec i (c0 c)) as [->|]]]]]];
  repeat match goal with |- context [Nat.eqb ?a ?b] => rewrite (proj2 (Nat.eqb_neq a b)) by (intros Q; rewrite Q in *; tauto) end; ring.
Qed.
Lemma turn_nodup c : NoDup (ids_list c) -> NoDup (ids_list (turn_conn c)).
Proof. apply Permutation_NoDup. exact (Permutation_app (Permutation_app_comm [c0 c] [c1 c; c2 c]) (Permutation_app_comm [c3 c] [c4 c; c5 c])). Qed.
Lemma flip_nodup c : NoDup (ids_list c) -> NoDup (ids_list (flip_conn c)).
Proof. apply Permutation_NoDup. exact (Permutation_app (perm_skip (c0 c) (perm_swap (c2 c) (c1 c) [])) (Permutation_rev [c3 c; c4 c; c5 c])). Qed.
Ltac nodups D := repeat (apply turn_nodup || apply flip_nodup); exact D.
Lemma dot_turn r v : dot6 r (turn6 v) = dot6 (turn6 (turn6 r)) v.
Proof. unfold dot6, turn6. cbn [v0 v1 v2 v3 v4 v5]. ring. Qed.
Lemma dot_flip r v : dot6 r (flip6 v) = dot6 (flip6 r) v.
Proof. unfold dot6, flip6. cbn [v0 v1 v2 v3 v4 v5]. ring. Qed.
Lemma dot_sub r r' v : dot6 r v - dot6 r' v = dot6 (sub6 r r') v.
Proof. unfold dot6, sub6, zip6. cbn [v0 v1 v2 v3 v4 v5]. ring. Qed.
Lemma prod_bound d x e M : Rabs d <= e -> Rabs x <= M -> Rabs (d * x) <= e * M.
Proof. intros A B. rewrite Rabs_mult. apply Rmult_le_compat; try apply Rabs_pos; assumption. Qed.
Lemma dot_bound d v M e0 e1 e2 e3 e4 e5 e : within v M -> Rabs (v0 d) <= e0 -> Rabs (v1 d) <= e1 -> Rabs (v2 d) <= e2 -> Rabs (v3 d) <= e3 -> Rabs (v4 d) <= e4 -> Rabs (v5 d) <= e5 ->
  e0 + e1 + e2 + e3 + e4 + e5 <= e -> Rabs (dot6 d v) <= e * M.
Proof.
  intros W H0 H1 H2 H3 H4 H5 E. apply within6 in W. destruct W as (W0 & W1 & W2 & W3 & W4 & W5). assert (0 <= M) by (pose proof (Rabs_pos (v0 v)); lra).
  apply (prod_bound _ _ _ _ H0) in W0. apply (prod_bound _ _ _ _ H1) in W1. apply (prod_bound _ _ _ _ H2) in W2. apply (prod_bound _ _ _ _ H3) in W3. apply (prod_bound _ _ _ _ H4) in W4. apply (prod_bound _ _ _ _ H5) in W5.
  apply abs_bet in W0, W1, W2, W3, W4, W5. unfold dot6. assert (P : (e0 + e1 + e2 + e3 + e4 + e5) * M <= e * M) by (apply Rmult_le_compat_r; assumption). apply Rabs_le. split; lra.
Qed.
Ltac entry := first [rewrite Rminus_eq_0, Rabs_R0; apply Rle_refl|apply Rabs_le; instantiate (1 := 1 / 10 ^ 15); lra].
Ltac row W := rewrite ?dot_flip, ?dot_turn, dot_sub; eapply dot_bound; [exact W|cbv [sub6 zip6 turn6 flip6 v0 v1 v2 v3 v4 v5]; entry..|lra].
Ltac ext_bound := intros v M W; match goal with |- within (sub6 (extrapolate_to_nodes ?tv) _) _ => let E := fresh "E" in remember tv as u eqn:E;
  apply within6; cbv [turn6 flip6 sub6 zip6 extrapolate_to_nodes mulM6 h_inv v0 v1 v2 v3 v4 v5 r0 r1 r2 r3 r4 r5];
  change (u = tv) in E; rewrite E end; repeat split; row W.
Lemma listing_id : listing (fun v => v) (fun c => c) (fun g => g) (fun e => e).
Proof.
  split; try reflexivity.
  - intros m p el e s0 K O. split; assumption.
  - intros v M H. apply within6 in H. apply within6. unfold sub6, zip6. cbn [v0 v1 v2 v3 v4 v5]. rewrite !Rminus_eq_0, Rabs_R0. destruct H as (H & _).
    pose proof (Rabs_pos (v0 v)). assert (0 < 2 / 10 ^ 15) by (apply Rdiv_lt_0_compat; [lra|apply pow_lt; lra]). assert (0 <= 2 / 10 ^ 15 * M) by nra. tauto.
Qed.
Lemma listing_turn : listing turn6 turn_conn turn_gp turn_el.
Proof.
  split; try reflexivity.
  - intros c v i D. rewrite (pick_sum c v i D), pick_sum by (nodups D). unfold psum, turn_conn, flip_conn, turn6, flip6; cbn [c0 c1 c2 c3 c4 c5 v0 v1 v2 v3 v4 v5]. ring.
  - apply turn_tracks.
  - intros v M. rewrite !within6. six. tauto.
  - ext_bound.
Qed.

Lemma listing_turn2 : listing (fun v => turn6 (turn6 v)) (fun c => turn_conn (turn_conn c)) (fun g => turn_gp (turn_gp g)) (fun e => turn_el (turn_el e)).
Proof.
  split; try reflexivity.
  - intros c v i D. rewrite (pick_sum c v i D), pick_sum by (nodups D). unfold psum, turn_conn, flip_conn, turn6, flip6; cbn [c0 c1 c2 c3 c4 c5 v0 v1 v2 v3 v4 v5]. ring.
  - intros m p el e s0 K O. destruct (turn_tracks _ _ _ _ _ K O) as [O1 K1]. apply (turn_tracks _ _ _ _ _ K1 O1).
  - intros v M. rewrite !within6. six. tauto.
  - ext_bound.
Qed.
Lemma listing_flip : listing flip6 flip_conn flip_gp flip_el.
Proof.
  split; try reflexivity.
  - intros c v i D. rewrite (pick_sum c v i D), pick_sum by (nodups D). unfold psum, turn_conn, flip_conn, turn6, flip6; cbn [c0 c1 c2 c3 c4 c5 v0 v1 v2 v3 v4 v5]. ring.
  - apply flip_tracks.
  - intros v M. rewrite !within6. six. tauto.
  - ext_bound.
Qed.
Lemma listing_flip1 : listing (fun v => flip6 (turn6 v)) (fun c => flip_conn (turn_conn c)) (fun g => flip_gp (turn_gp g)) (fun e => flip_el (turn_el e)).
Proof.
  split; try reflexivity.
  - intros c v i D. rewrite (pick_sum c v i D), pick_sum by (nodups D). unfold psum, turn_conn, flip_conn, turn6, flip6; cbn [c0 c1 c2 c3 c4 c5 v0 v1 v2 v3 v4 v5]. ring.
  - intros m p el e s0 K O. destruct (turn_tracks _ _ _ _ _ K O) as [O1 K1]. apply (flip_tracks _ _ _ _ _ K1 O1).
  - intros v M. rewrite !within6. six. tauto.
  - ext_bound.
Qed.
Lemma listing_flip2 : listing (fun v => flip6 (turn6 (turn6 v))) (fun c => flip_conn (turn_conn (turn_conn c))) (fun g => flip_gp (turn_gp (turn_gp g))) (fun e => flip_el (turn_el (turn_el e))).
Proof.
  split; try reflexivity.
  - intros c v i D. rewrite (pick_sum c v i D), pick_sum by (nodups D). unfold psum, turn_conn, flip_conn, turn6, flip6; cbn [c0 c1 c2 c3 c4 c5 v0 v1 v2 v3 v4 v5]. ring.
  - intros m p el e s0 K O. destruct (turn_tracks _ _ _ _ _ K O) as [O1 K1]. destruct (turn_tracks _ _ _ _ _ K1 O1) as [O2 K2]. apply (flip_tracks _ _ _ _ _ K2 O2).
  - intros v M. rewrite !within6. six. tauto.
  - ext_bound.
Qed.
Lemma turn_flip e : turn_el (flip_el e) = flip_el (turn_el (turn_el e)). Proof. destruct e as [[] [] [] ?]. reflexivity. Qed.
Lemma turn_turn e : turn_el (turn_el (turn_el e)) = e. Proof. destruct e as [[] [] [] ?]. reflexivity. Qed.
Lemma flip_flip e : flip_el (flip_el e) = e. Proof. destruct e as [[] [] [] ?]. reflexivity. Qed.
Lemma relisted_cases e e' : relisted e e' ->
  e' = e \/ e' = turn_el e \/ e' = turn_el (turn_el e) \/ e' = flip_el e \/ e' = flip_el (turn_el e) \/ e' = flip_el (turn_el (turn_el e)).
Proof.
  intros H. induction H as [|x H IH|x H IH]; [left; reflexivity| |].
  - destruct IH as [-> | [-> | [-> | [-> | [-> | ->]]]]]; rewrite ?turn_flip, ?turn_turn; tauto.
  - destruct IH as [-> | [-> | [-> | [-> | [-> | ->]]]]]; rewrite ?flip_flip; tauto.
Qed.
Lemma relisted_listing e e' : relisted e e' -> exists T Tc s Te, listing T Tc s Te /\ e' = Te e.
Proof.
  intros H. destruct (relisted_cases e e' H) as [-> | [-> | [-> | [-> | [-> | ->]]]]].
  - exists (fun v => v), (fun c => c), (fun g => g), (fun e => e). split; [apply listing_id|reflexivity].
  - exists turn6, turn_conn, turn_gp, turn_el. split; [apply listing_turn|reflexivity].
  - do 4 eexists. split; [apply listing_turn2|reflexivity].
  - do 4 eexists. split; [apply listing_flip|reflexivity].
  - do 4 eexists. split; [apply listing_flip1|reflexivity].
  - do 4 eexists. split; [apply listing_flip2|reflexivity].
Qed.

(** ** Averages of arrays that correspond up to [eps] *)
Definition add6 (u v : V6) : V6 := zip6 Rplus u v.
Lemma pick_add c u v i : pick c (add6 u v) i = pick c u i + pick c v i.
Proof. unfold pick, scatter_add, add6, zip6. cbn [v0 v1 v2 v3 v4 v5]. repeat destruct (Nat.eqb _ _); ring. Qed.
Lemma pick_move p c v i : (forall j, In j (ids_list c) -> Nat.eqb (p i) (p j) = Nat.eqb i j) -> pick (map_conn p c) v (p i) = pick c v i.
Proof.
  intros H. unfold pick, scatter_add, map_conn. cbn [c0 c1 c2 c3 c4 c5]. unfold ids_list in H. cbn [In] in H.
  rewrite !H by tauto. reflexivity.
Qed.
Lemma pick_bound c v u i eps : (forall j, (j < 6)%nat -> Rabs (nth6 v j) <= eps * nth6 u j) -> Rabs (pick c v i) <= eps * pick c u i.
Proof.
  intros H. pose proof (H 0%nat ltac:(lia)) as H0. pose proof (H 1%nat ltac:(lia)) as H1. pose proof (H 2%nat ltac:(lia)) as H2. pose proof (H 3%nat ltac:(lia)) as H3. pose proof (H 4%nat ltac:(lia)) as H4. pose proof (H 5%nat ltac:(lia)) as H5.
  cbn [nth6] in *. unfold pick, scatter_add. repeat match goal with H : Rabs _ <= _ |- _ => apply abs_bet in H end. apply Rabs_le. repeat destruct (Nat.eqb _ _); lra.
Qed.
Section Average.
Context (m : similarity) (p : nat -> nat) (gels gels' : list tri6) (HI : mesh_image m p gels gels') (i : nat).
Context (Hnd : forall el, In el gels -> NoDup (ids_list (map_conn p (el_ids el)))).
Context (Hp : forall el j, In el gels -> In j (ids_list (el_ids el)) -> Nat.eqb (p i) (p j) = Nat.eqb i j).
Lemma image_den : den gels' (p i) = den gels i.
Proof.
  destruct HI as (l & P & F). unfold den. rewrite <- (sumf_perm _ _ _ P). clear P HI. induction F as [|e e' s l R F IH]; [rewrite !sumf_nil; reflexivity|].
  rewrite !sumf_cons, IH; [|intros; apply Hnd; right; assumption|intros; eapply Hp; [right; eassumption|assumption]]. f_equal. destruct (relisted_listing _ _ R) as (T & Tc & sg & Te & L & ->).
  rewrite (l_ids _ _ _ _ L), <- (l_w _ _ _ _ L) at 1; rewrite (l_pick _ _ _ _ L) by (apply Hnd; left; reflexivity). cbn [move_el el_ids]. apply pick_move. intros j. apply Hp. left. reflexivity.
Qed.
Lemma image_num (h h' : tri6 -> V6) eps : 0 <= eps ->
  (forall el el' T Tc s Te, In el gels -> In el' gels' -> listing T Tc s Te -> el' = Te (move_el m p el) -> relisted (move_el m p el) el' -> within (sub6 (h' el') (T (h el))) eps) ->
  Rabs (num h' gels' (p i) - num h gels i) <= eps * den gels i.
Proof.
  intros He H. destruct HI as (l & P & F). unfold num, den. rewrite <- (sumf_perm _ _ _ P).
  assert (H1 : forall el el' T Tc s Te, In el gels -> In el' l -> listing T Tc s Te -> el' = Te (move_el m p el) -> relisted (move_el m p el) el' -> within (sub6 (h' el') (T (h el))) eps).
  { intros el el' T Tc s Te A1 A2. apply H; [exact A1|]. eapply Permutation_in; eassumption. }
  clear P HI H. induction F as [|e e' s l R F IH]; [rewrite !sumf_nil, Rminus_eq_0, Rabs_R0; lra|].
  rewrite !sumf_cons. assert (Hp' : forall el j, In el s -> In j (ids_list (el_ids el)) -> Nat.eqb (p i) (p j) = Nat.eqb i j) by (intros; eapply Hp; [right; eassumption|assumption]).
  specialize (IH (fun el He => Hnd el (or_intror He)) Hp'). assert (IH' := IH ltac:(intros; eapply H1; try eassumption; right; assumption)). clear IH.
  destruct (relisted_listing _ _ R) as (T & Tc & sg & Te & L & E). pose proof (H1 e e' T Tc sg Te (or_introl eq_refl) (or_introl eq_refl) L E R) as W.
  assert (Q : Rabs (pick (el_ids e') (wv (h' e')) (p i) - pick (el_ids e) (wv (h e)) i) <= eps * pick (el_ids e) stress_weights i).
  { assert (A : forall v, pick (el_ids e) v i = pick (el_ids e') (T v) (p i)).
    { intros v. rewrite E, (l_ids _ _ _ _ L), (l_pick _ _ _ _ L) by (apply Hnd; left; reflexivity). cbn [move_el el_ids]. symmetry. apply pick_move. intros j. apply Hp. left. reflexivity. }
    rewrite !A. unfold wv. rewrite (l_zip _ _ _ _ L), (l_w _ _ _ _ L).
    assert (B : forall c u v j, pick c u j - pick c v j = pick c (sub6 u v) j) by (intros c u v j; unfold pick, scatter_add, sub6, zip6; cbn [v0 v1 v2 v3 v4 v5]; repeat destruct (Nat.eqb _ _); ring).
    rewrite B. apply pick_bound. intros j Hj. specialize (W j Hj). pose proof (sw_nth j Hj) as S.
    replace (nth6 (sub6 (zip6 Rmult (h' e') stress_weights) (zip6 Rmult (T (h e)) stress_weights)) j) with (nth6 (sub6 (h' e') (T (h e))) j * nth6 stress_weights j).
    - rewrite Rabs_mult, (Rabs_right (nth6 stress_weights j)) by lra. apply Rmult_le_compat_r; lra.
    - unfold sub6, zip6. do 6 (destruct j as [|j]; [cbn [nth6 v0 v1 v2 v3 v4 v5]; ring|]). lia. }
  apply abs_bet in Q. apply abs_bet in IH'. apply Rabs_le. lra.
Qed.
Lemma image_average h h' eps : 0 <= eps -> 0 <= den gels i ->
  (forall el el' T Tc s Te, In el gels -> In el' gels' -> listing T Tc s Te -> el' = Te (move_el m p el) -> relisted (move_el m p el) el' -> within (sub6 (h' el') (T (h el))) eps) ->
  Rabs (average (num h' gels') (den gels') (p i) - average (num h gels) (den gels) i) <= eps.
Proof.
  intros He Hd H. pose proof (image_num h h' eps He H) as N. unfold average. rewrite image_den. destruct (Req_EM_T (den gels i) 0) as [Z|Z].
  - rewrite Z in N. lra.
  - replace (num h' gels' (p i) * (1 / den gels i) - num h gels i * (1 / den gels i)) with ((num h' gels' (p i) - num h gels i) * / den gels i) by (field; exact Z).
    assert (0 < den gels i) by lra. assert (0 < / den gels i) by (apply Rinv_0_lt_compat; assumption). rewrite Rabs_mult, (Rabs_right (/ den gels i)) by lra.
    apply Rmult_le_reg_r with (den gels i); [assumption|]. rewrite Rmult_assoc, Rinv_l by exact Z. lra.
Qed.
End Average.
Lemma den_nonneg gels i : 0 <= den gels i.
Proof.
  unfold den. apply sumf_nonneg. intros el _. destruct sw_pos as (A0 & A1 & A2 & A3 & A4 & A5 & _). unfold pick, scatter_add. repeat destruct (Nat.eqb _ _); lra.
Qed.
(** averages are linear *)
Lemma average_lin h1 h2 h k l gels i : (forall el, In el gels -> h el = add6 (scal6 k (h1 el)) (scal6 l (h2 el))) ->
  average (num h gels) (den gels) i = k * average (num h1 gels) (den gels) i + l * average (num h2 gels) (den gels) i.
Proof.
  intros H. assert (N : num h gels i = k * num h1 gels i + l * num h2 gels i).
  { unfold num. rewrite <- !sumf_scal, <- sumf_plus. apply sumf_ext. intros el Hel. rewrite (H el Hel), <- !pick_scal, <- pick_add. f_equal. unfold wv, add6, scal6, map6, zip6. cbn [v0 v1 v2 v3 v4 v5]. f_equal; ring. }
  unfold average. rewrite N. destruct (Req_EM_T (den gels i) 0); ring.
Qed.
