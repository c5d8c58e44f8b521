(** Proofs: cutting any rectangles by a line. *)
From Coquelicot Require Import Coquelicot.
From Coq Require Import String Reals List Permutation Lra Lia.
From Verif Require Import Base S_Integral M_Fea S_Fem M_Section S_Section S_Plastic P_Geom P_Section P_Plastic S_Outline S_PlasticForms P_PlasticForms P_PlasticForms2 P_PlasticForms3 S_Rects.
Import ListNotations.
Local Open Scope list_scope.
Local Open Scope R_scope.

Lemma abs_right d lo hi : d <= lo -> lo <= hi -> RInt (fun y => Rabs (y - d)) lo hi = (hi - lo) * ((lo + hi) / 2 - d).
Proof.
  intros H1 H2. rewrite (RInt_ext _ (fun y => y - d)).
  - apply is_RInt_unique. replace ((hi - lo) * ((lo + hi) / 2 - d)) with (minus ((hi - d) ^ 2 / 2) ((lo - d) ^ 2 / 2)) by (unfold minus, plus, opp; cbn; field).
    apply (is_RInt_derive (fun y => (y - d) ^ 2 / 2)); intros x _; [auto_derive; [exact I|field]|]. apply (continuous_minus (V := R_NormedModule)); [apply continuous_id|apply continuous_const].
  - intros x Hx. rewrite Rmin_left in Hx by exact H2. apply Rabs_right. lra.
Qed.
Lemma abs_left d lo hi : hi <= d -> lo <= hi -> RInt (fun y => Rabs (y - d)) lo hi = (hi - lo) * (- ((lo + hi) / 2 - d)).
Proof.
  intros H1 H2. rewrite (RInt_ext _ (fun y => d - y)).
  - apply is_RInt_unique. replace ((hi - lo) * (- ((lo + hi) / 2 - d))) with (minus (- ((hi - d) ^ 2 / 2)) (- ((lo - d) ^ 2 / 2))) by (unfold minus, plus, opp; cbn; field).
    apply (is_RInt_derive (fun y => - ((y - d) ^ 2 / 2))); intros x _; [auto_derive; [exact I|field]|]. apply (continuous_minus (V := R_NormedModule)); [apply continuous_const|apply continuous_id].
  - intros x Hx. rewrite Rmax_right in Hx by exact H2. rewrite Rabs_left1 by lra. change (- (x - d) = d - x :> R). ring.
Qed.
Lemma ex_abs d lo hi : ex_RInt (fun y => Rabs (y - d)) lo hi.
Proof. apply (ex_RInt_continuous (V := R_CompleteNormedModule)). intros x _. apply continuous_comp; [apply (continuous_minus (V := R_NormedModule)); [apply continuous_id|apply continuous_const]|apply continuous_Rabs]. Qed.
Lemma abs_mid d lo hi : lo <= d -> d <= hi -> RInt (fun y => Rabs (y - d)) lo hi = (hi - d) * ((d + hi) / 2 - d) + (d - lo) * (- ((lo + d) / 2 - d)).
Proof.
  intros H1 H2. rewrite <- (abs_right d d hi), <- (abs_left d lo d) by lra. rewrite Rplus_comm. symmetry. apply (RInt_Chasles (V := R_CompleteNormedModule)); apply ex_abs.
Qed.

(** One rectangle cut by a horizontal or vertical line *)
Definition cut1_y (d : R) (q : part) : list part * list part :=
  if Rle_dec d (r_y1 (snd q)) then ([q], []) else if Rle_dec (r_y2 (snd q)) d then ([], [q])
  else ([(fst q, rect (r_x1 (snd q)) d (r_x2 (snd q)) (r_y2 (snd q)))], [(fst q, rect (r_x1 (snd q)) (r_y1 (snd q)) (r_x2 (snd q)) d)]).
Definition cut1_x (d : R) (q : part) : list part * list part :=
  if Rle_dec d (r_x1 (snd q)) then ([q], []) else if Rle_dec (r_x2 (snd q)) d then ([], [q])
  else ([(fst q, rect d (r_y1 (snd q)) (r_x2 (snd q)) (r_y2 (snd q)))], [(fst q, rect (r_x1 (snd q)) (r_y1 (snd q)) d (r_y2 (snd q)))]).
Definition ups (cut1 : part -> list part * list part) (ps : list part) : list part := concat (map (fun q => fst (cut1 q)) ps).
Definition dns (cut1 : part -> list part * list part) (ps : list part) : list part := concat (map (fun q => snd (cut1 q)) ps).

Section Cut.
Variables (cut1 : part -> list part * list part) (n : R * R) (d : R) (fa fb mo : part -> R).
Definition cuts_well (q : part) : Prop :=
  Forall (beyond n d 1) (fst (cut1 q)) /\ Forall (beyond n d (-1)) (snd (cut1 q)) /\ same_boundary (parts_edges [q]) (parts_edges (fst (cut1 q) ++ snd (cut1 q))) /\
  sumf part_force (fst (cut1 q)) = fa q /\ sumf part_force (snd (cut1 q)) = fb q /\ parts_moment n d (fst (cut1 q)) (snd (cut1 q)) = mo q /\ part_force q = fa q + fb q /\
  (forall r, In r (fst (cut1 q) ++ snd (cut1 q)) -> fst r = fst q).
Lemma cut_all ps : Forall cuts_well ps ->
  Forall (beyond n d 1) (ups cut1 ps) /\ Forall (beyond n d (-1)) (dns cut1 ps) /\ same_boundary (parts_edges ps) (parts_edges (ups cut1 ps ++ dns cut1 ps)) /\
  sumf part_force (ups cut1 ps) = sumf fa ps /\ sumf part_force (dns cut1 ps) = sumf fb ps /\ parts_moment n d (ups cut1 ps) (dns cut1 ps) = sumf mo ps /\
  (forall r, In r (ups cut1 ps ++ dns cut1 ps) -> exists q, In q ps /\ fst r = fst q).
Proof.
  intros H. induction H as [|q ps (A1 & A2 & A3 & A4 & A5 & A6 & A7 & A8) _ (I1 & I2 & I3 & I4 & I5 & I6 & I7)].
  - repeat split; try constructor. 1: unfold parts_moment, sumf; cbn; ring. intros r [].
  - unfold ups, dns in *. cbn [map concat]. rewrite !sumf_app, !sumf_cons, I4, I5, A4, A5. repeat split; try reflexivity.
    + apply Forall_app. split; assumption.
    + apply Forall_app. split; assumption.
    + change (q :: ps) with ([q] ++ ps). rewrite parts_edges_app. eapply sb_trans; [apply sb_app; [exact A3|exact I3]|]. rewrite <- parts_edges_app. apply parts_perm.
      rewrite <- !app_assoc. apply Permutation_app_head. rewrite !app_assoc. apply Permutation_app_tail, Permutation_app_comm.
    + rewrite <- A6, <- I6. unfold parts_moment. rewrite !sumf_app. ring.
    + intros r Hr. rewrite !in_app_iff in Hr. assert (K : In r (fst (cut1 q) ++ snd (cut1 q)) \/ In r (concat (map (fun q => fst (cut1 q)) ps) ++ concat (map (fun q => snd (cut1 q)) ps))) by (rewrite !in_app_iff; tauto).
      destruct K as [K|K]; [exists q; split; [left; reflexivity|exact (A8 r K)]|]. destruct (I7 r K) as (z & Hz & E). exists z. split; [right; exact Hz|exact E].
Qed.
End Cut.

Lemma cuts_y d q : 0 < r_w (snd q) -> 0 < r_h (snd q) ->
  cuts_well (cut1_y d) (0, 1) d (fun q => m_fy (fst q) * r_w (snd q) * length_above d (r_y1 (snd q)) (r_y2 (snd q))) (fun q => m_fy (fst q) * r_w (snd q) * length_below d (r_y1 (snd q)) (r_y2 (snd q)))
    (fun q => m_fy (fst q) * r_w (snd q) * RInt (fun y => Rabs (y - d)) (r_y1 (snd q)) (r_y2 (snd q))) q.
Proof.
  destruct q as [m [x1 y1 x2 y2]]. unfold r_w, r_h. cbn [fst snd r_x1 r_y1 r_x2 r_y2]. intros Hw Hh. unfold cuts_well, cut1_y, length_above, length_below. cbn [fst snd r_x1 r_y1 r_x2 r_y2].
  destruct (Rle_dec d y1) as [L|L]; [|destruct (Rle_dec y2 d) as [L2|L2]]; cbn [fst snd app].
  - rewrite abs_right by lra. rewrite !Rmax_left, !Rmin_right by lra. arms.
    repeat split; try ring; try apply sb_refl; try (constructor; [apply above; lra|constructor]); try constructor; try (intros r [<-|[]]; reflexivity); field.
  - rewrite abs_left by lra. rewrite !Rmax_right, !Rmin_left by lra. arms.
    repeat split; try ring; try apply sb_refl; try (constructor; [apply below; lra|constructor]); try constructor; try (intros r [<-|[]]; reflexivity); field.
  - rewrite abs_mid by lra. rewrite (Rmax_left y2), (Rmax_right y1), (Rmin_right y2), (Rmin_left y1) by lra. arms.
    repeat split; try ring; try (constructor; [first [apply above|apply below]; lra|constructor]); try (intros r [<-|[<-|[]]]; reflexivity); try field.
    eapply sb_trans; [apply (split_y m x1 y1 x2 y2 d); lra|]. apply parts_perm. constructor.
Qed.
Lemma cuts_x d q : 0 < r_w (snd q) -> 0 < r_h (snd q) ->
  cuts_well (cut1_x d) (1, 0) d (fun q => m_fy (fst q) * r_h (snd q) * length_above d (r_x1 (snd q)) (r_x2 (snd q))) (fun q => m_fy (fst q) * r_h (snd q) * length_below d (r_x1 (snd q)) (r_x2 (snd q)))
    (fun q => m_fy (fst q) * r_h (snd q) * RInt (fun y => Rabs (y - d)) (r_x1 (snd q)) (r_x2 (snd q))) q.
Proof.
  destruct q as [m [x1 y1 x2 y2]]. unfold r_w, r_h. cbn [fst snd r_x1 r_y1 r_x2 r_y2]. intros Hw Hh. unfold cuts_well, cut1_x, length_above, length_below. cbn [fst snd r_x1 r_y1 r_x2 r_y2].
  destruct (Rle_dec d x1) as [L|L]; [|destruct (Rle_dec x2 d) as [L2|L2]]; cbn [fst snd app].
  - rewrite abs_right by lra. rewrite !Rmax_left, !Rmin_right by lra. arms.
    repeat split; try ring; try apply sb_refl; try (constructor; [apply right_of; lra|constructor]); try constructor; try (intros r [<-|[]]; reflexivity); field.
  - rewrite abs_left by lra. rewrite !Rmax_right, !Rmin_left by lra. arms.
    repeat split; try ring; try apply sb_refl; try (constructor; [apply left_to; lra|constructor]); try constructor; try (intros r [<-|[]]; reflexivity); field.
  - rewrite abs_mid by lra. rewrite (Rmax_left x2), (Rmax_right x1), (Rmin_right x2), (Rmin_left x1) by lra. arms.
    repeat split; try ring; try (constructor; [first [apply right_of|apply left_to]; lra|constructor]); try (intros r [<-|[<-|[]]]; reflexivity); try field.
    eapply sb_trans; [apply (split_x m x1 y1 x2 y2 d); lra|]. apply parts_perm. constructor.
Qed.

(** ** There is always such an axis. *)
Lemma above_below d lo hi : length_above d lo hi - length_below d lo hi = Rabs (hi - d) - Rabs (lo - d).
Proof. unfold length_above, length_below, Rmax, Rmin, Rabs. repeat (destruct Rle_dec || destruct Rcase_abs); lra. Qed.
Lemma axis_exists (f lo hi : part -> R) ps : Forall (fun q => 0 <= f q /\ lo q <= hi q) ps ->
  exists d, sumf (fun q => f q * length_above d (lo q) (hi q)) ps = sumf (fun q => f q * length_below d (lo q) (hi q)) ps.
Proof.
  intros H. set (g := fun d => sumf (fun q => f q * (Rabs (hi q - d) - Rabs (lo q - d))) ps).
  assert (Cg : forall x, continuous g x).
  { intros x. unfold g. clear H. induction ps as [|q ps IH].
    - apply continuous_const.
    - apply (continuous_ext (fun d => f q * (Rabs (hi q - d) - Rabs (lo q - d)) + sumf (fun q => f q * (Rabs (hi q - d) - Rabs (lo q - d))) ps)); [intros; rewrite sumf_cons; reflexivity|].
      apply (continuous_plus (V := R_NormedModule)); [|exact IH]. apply (continuous_scal_r (K := R_AbsRing) (V := R_NormedModule) (f q)). apply (continuous_minus (V := R_NormedModule));
        (apply continuous_comp; [apply (continuous_minus (V := R_NormedModule)); [apply continuous_const|apply continuous_id]|apply continuous_Rabs]). }
  assert (Bd : exists M, 0 <= M /\ Forall (fun q => - M <= lo q /\ hi q <= M) ps).
  { clear Cg g. induction H as [|q ps (F & L) _ (M & Hm & IH)]; [exists 0; split; [lra|constructor]|]. exists (Rmax M (Rmax (Rabs (lo q)) (Rabs (hi q)))).
    pose proof (Rmax_l M (Rmax (Rabs (lo q)) (Rabs (hi q)))) as M1. pose proof (Rmax_r M (Rmax (Rabs (lo q)) (Rabs (hi q)))) as M2. pose proof (Rmax_l (Rabs (lo q)) (Rabs (hi q))) as M3. pose proof (Rmax_r (Rabs (lo q)) (Rabs (hi q))) as M4.
    split; [lra|]. constructor.
    - pose proof (Rle_abs (hi q)). pose proof (Rle_abs (- lo q)) as K. rewrite Rabs_Ropp in K. lra.
    - eapply Forall_impl; [|exact IH]. cbn. intros z Hz. lra. }
  destruct Bd as (M & Hm & Bd).
  assert (G1 : 0 <= g (- M)). { unfold g. apply sumf_nonneg. intros q Hq. rewrite Forall_forall in H, Bd. destruct (H q Hq), (Bd q Hq). apply Rmult_le_pos; [assumption|]. rewrite !Rabs_right by lra. lra. }
  assert (G2 : g M <= 0). { unfold g. assert (0 <= sumf (fun q => - (f q * (Rabs (hi q - M) - Rabs (lo q - M)))) ps).
    { apply sumf_nonneg. intros q Hq. rewrite Forall_forall in H, Bd. destruct (H q Hq), (Bd q Hq). rewrite !Rabs_left1 by lra. replace (- (f q * (- (hi q - M) - - (lo q - M)))) with (f q * (hi q - lo q)) by ring. apply Rmult_le_pos; lra. }
    replace (sumf (fun q => f q * (Rabs (hi q - M) - Rabs (lo q - M))) ps) with (- sumf (fun q => - (f q * (Rabs (hi q - M) - Rabs (lo q - M)))) ps); [lra|].
    clear. induction ps as [|q ps IH]; [unfold sumf; cbn; ring|]. rewrite !sumf_cons. lra. }
  destruct (IVT_gen g (- M) M 0) as (d & _ & Hd).
  - intros x. apply continuity_pt_filterlim, Cg.
  - rewrite Rmin_right, Rmax_left by lra. lra.
  - exists d. assert (K : sumf (fun q => f q * length_above d (lo q) (hi q)) ps - sumf (fun q => f q * length_below d (lo q) (hi q)) ps = g d); [|lra].
    unfold g. clear. induction ps as [|q ps IH]; [unfold sumf; cbn; ring|]. rewrite !sumf_cons, <- above_below, <- IH. ring.
Qed.
