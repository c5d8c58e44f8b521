(** Proofs about the plastic forces and moduli. *)
From Coquelicot Require Import Coquelicot.
From Coq Require Import Reals Lra Lia List Psatz Permutation.
From Verif Require Import Base S_Integral P_Integral M_Fea S_Fem P_Fea P_Geom S_Section P_Section P_Totals M_Bisect M_Props M_Plastic S_Plastic P_Ridge P_Plastic.
Import ListNotations.
Local Open Scope R_scope.

Lemma region_xy n ts : region_int (fun _ => 1) (height n) ts =
  fst n * region_int (fun _ => 1) (fun x _ => x) ts + snd n * region_int (fun _ => 1) (fun _ y => y) ts.
Proof.
  unfold region_int. rewrite <- sumf_plus2. apply sumf_ext. intros t _.
  unfold mt_int.
  assert (X : tri_ok (mt_a t) (mt_b t) (mt_c t) (fun x _ => x)).
  { apply (tri_ok_ext _ _ _ (height (1, 0))); [intros; unfold height; cbn [fst snd]; ring|apply height_tri_ok]. }
  assert (Y : tri_ok (mt_a t) (mt_b t) (mt_c t) (fun _ y => y)).
  { apply (tri_ok_ext _ _ _ (height (0, 1))); [intros; unfold height; cbn [fst snd]; ring|apply height_tri_ok]. }
  rewrite (tri_int_ext _ _ _ (height n) (fun x y => fst n * (fun x _ => x) x y + snd n * (fun _ y => y) x y)) by (intros; reflexivity).
  rewrite (tri_int_lin _ _ _ (fun x _ => x) (fun _ y => y) _ _ X Y). ring.
Qed.

Section Cut.
Context (n : R * R) (d sg : R).
Hypothesis Hsg : sg = 1 \/ sg = -1.

Definition on_side (s : R) (ts : list mtri) : Prop :=
  forall t p, In t ts -> In p (corners t) -> 0 <= s * (height n (fst p) (snd p) - d).

(** A piece and its triangles. *)
Lemma piece_facts line k q ts m : k <> 0 ->
  (forall p, left_of line p = k * (height n (fst p) (snd p) - d)) ->
  describes line q ts -> (forall t, In t ts -> mt_mat t = m) -> 0 < m_fy m ->
  piece_force (m, q) = region_int m_fy (fun _ _ => 1) ts /\
  (forall pc, piece_force (m, q) * (height n (pc_cx q) (pc_cy q) - pc) = region_int m_fy (fun x y => height n x y - pc) ts) /\
  exists s, (s = 1 \/ s = -1) /\ 0 < s * (height n (fst (pc_rep q)) (snd (pc_rep q)) - d) /\ on_side s ts.
Proof.
  intros Hk Hl (Hc & Ha & Hx & Hy & s & Hs & Hr & Hp) Hm Hfy.
  assert (F : piece_force (m, q) = region_int m_fy (fun _ _ => 1) ts).
  { unfold piece_force. cbn [fst snd]. rewrite Ha. symmetry. apply region_weight, Hm. }
  split; [exact F|split].
  - intros pc. rewrite region_hd. rewrite <- F.
    rewrite (region_weight m_fy (height n) ts m Hm), region_xy, <- Hx, <- Hy.
    unfold piece_force, height. cbn [fst snd]. ring.
  - exists (if Rlt_dec 0 k then s else - s).
    assert (S1 : forall v, 0 < s * (k * v) -> 0 < (if Rlt_dec 0 k then s else - s) * v).
    { intros v Hv. destruct (Rlt_dec 0 k).
      - apply Rmult_lt_reg_l with k; [assumption|]. lra.
      - apply Rmult_lt_reg_l with (- k); [lra|]. lra. }
    assert (S2 : forall v, 0 <= s * (k * v) -> 0 <= (if Rlt_dec 0 k then s else - s) * v).
    { intros v Hv. destruct (Rlt_dec 0 k).
      - apply Rmult_le_reg_l with k; [assumption|]. lra.
      - apply Rmult_le_reg_l with (- k); [lra|]. lra. }
    split; [destruct (Rlt_dec 0 k); lra|split].
    + apply S1. rewrite <- Hl. exact Hr.
    + intros t p Ht Hin. apply S2. rewrite <- Hl. apply (Hp t p Ht Hin).
Qed.

(** Bounds on force times distance. *)
Definition lever (m : material) (pc : R) (q : piece) : R := piece_force (m, q) * Rabs (height n (pc_cx q) (pc_cy q) - pc).

Lemma lever_bounds (m : material) q ts s pc : (s = 1 \/ s = -1) -> 0 < m_fy m ->
  (forall t, In t ts -> mt_mat t = m) -> 0 <= piece_force (m, q) ->
  piece_force (m, q) * (height n (pc_cx q) (pc_cy q) - pc) = region_int m_fy (fun x y => height n x y - pc) ts ->
  s * region_int m_fy (fun x y => height n x y - pc) ts <= lever m pc q <= region_int m_fy (fun x y => Rabs (height n x y - pc)) ts.
Proof.
  intros Hs Hfy Hm Hf E. unfold lever.
  assert (A : piece_force (m, q) * Rabs (height n (pc_cx q) (pc_cy q) - pc) = Rabs (region_int m_fy (fun x y => height n x y - pc) ts)).
  { rewrite <- E, Rabs_mult, (Rabs_pos_eq (piece_force (m, q))) by exact Hf. reflexivity. }
  rewrite A. set (v := region_int m_fy (fun x y => height n x y - pc) ts) in *.
  assert (W : forall t, In t ts -> 0 <= m_fy (mt_mat t)) by (intros t Ht; rewrite (Hm t Ht); lra).
  pose proof (region_abs_ge m_fy n pc 1 ts W (or_introl eq_refl)) as B1.
  pose proof (region_abs_ge m_fy n pc (-1) ts W (or_intror eq_refl)) as B2. fold v in B1, B2.
  split.
  - destruct Hs as [-> | ->]; unfold Rabs; destruct (Rcase_abs v); lra.
  - unfold Rabs at 1. destruct (Rcase_abs v); lra.
Qed.

(** What a cut into top and bottom triangles provides. *)
Record cut (T B : list mtri) : Prop := mkCut {
  cut_T : Forall ccw T; cut_B : Forall ccw B;
  cut_fy : forall t, In t (T ++ B) -> 0 < m_fy (mt_mat t);
  cut_sT : on_side sg T; cut_sB : on_side (- sg) B }.

Lemma on_side_app s l1 l2 : on_side s l1 -> on_side s l2 -> on_side s (l1 ++ l2).
Proof. intros H1 H2 t p Ht. apply in_app_iff in Ht. destruct Ht; [apply H1|apply H2]; assumption. Qed.

Lemma cut_app T1 B1 T2 B2 : cut T1 B1 -> cut T2 B2 -> cut (T1 ++ T2) (B1 ++ B2).
Proof.
  intros [a b c e f] [a' b' c' e' f']. constructor.
  - apply Forall_app; auto. - apply Forall_app; auto.
  - intros t Ht. rewrite !in_app_iff in Ht. destruct Ht as [[H|H]|[H|H]]; [apply c|apply c'|apply c|apply c']; rewrite in_app_iff; auto.
  - apply on_side_app; assumption. - apply on_side_app; assumption.
Qed.
Lemma cut_nil : cut [] [].
Proof. constructor; [apply Forall_nil|apply Forall_nil|intros t Ht; destruct Ht|intros t p Ht; destruct Ht|intros t p Ht; destruct Ht]. Qed.

(** Forces and levers of a list of pieces with materials. *)
Definition matches (s : R) (ps : list (material * piece)) (ts : list mtri) : Prop :=
  sumf piece_force ps = region_int m_fy (fun _ _ => 1) ts /\
  forall pc, s * region_int m_fy (fun x y => height n x y - pc) ts
    <= sumf (fun q => piece_force q * Rabs (height n (pc_cx (snd q)) (pc_cy (snd q)) - pc)) ps
    <= region_int m_fy (fun x y => Rabs (height n x y - pc)) ts.

Lemma matches_nil s : matches s [] [].
Proof. split; [reflexivity|]. intros pc. unfold region_int, sumf. cbn. lra. Qed.
Lemma matches_app s p1 p2 t1 t2 : matches s p1 t1 -> matches s p2 t2 -> matches s (p1 ++ p2) (t1 ++ t2).
Proof.
  intros [A1 A2] [B1 B2]. split; [rewrite sumf_app, region_app, A1, B1; reflexivity|].
  intros pc. specialize (A2 pc). specialize (B2 pc). rewrite sumf_app, !region_app. lra.
Qed.

Lemma group_cut line k m pieces parts : k <> 0 ->
  (forall p, left_of line p = k * (height n (fst p) (snd p) - d)) ->
  (forall q, let e := sg * (height n (fst q) (snd q) - d) in
     side_of line q = if Rlt_dec e 0 then Bottom else if Rlt_dec 0 e then Top else On) ->
  Forall2 (describes line) pieces parts -> (forall t, In t (concat parts) -> mt_mat t = m) -> 0 < m_fy m ->
  exists T B, cut T B /\ Permutation (T ++ B) (concat parts) /\
    matches sg (map (pair m) (fst (group_top_and_bottom_polys pieces line))) T /\
    matches (- sg) (map (pair m) (snd (group_top_and_bottom_polys pieces line))) B.
Proof.
  intros Hk Hl Hside HF. induction HF as [|q ts pieces parts Hq HF IH]; intros Hm Hfy.
  - exists [], []. split; [apply cut_nil|]. split; [constructor|]. split; apply matches_nil.
  - cbn [concat] in Hm.
    destruct IH as (T & B & HC & HP & HT & HB); [intros t Ht; apply Hm, in_app_iff; right; exact Ht|exact Hfy|].
    assert (Hmt : forall t, In t ts -> mt_mat t = m) by (intros t Ht; apply Hm, in_app_iff; left; exact Ht).
    destruct (piece_facts line k q ts m Hk Hl Hq Hmt Hfy) as (F & L & s & Hs & Hr & Hon).
    assert (Hc : Forall ccw ts) by apply Hq.
    assert (F0 : 0 <= piece_force (m, q)).
    { rewrite F. apply region_one_nonneg. intros t Ht. rewrite (Hmt t Ht). lra. }
    assert (Hsi : side_of line (pc_rep q) = if Rlt_dec (sg * s) 0 then Bottom else Top).
    { rewrite Hside. set (v := height n (fst (pc_rep q)) (snd (pc_rep q)) - d) in *.
      destruct (Rlt_dec (sg * v) 0), (Rlt_dec (sg * s) 0), (Rlt_dec 0 (sg * v)); try reflexivity;
        exfalso; destruct Hsg as [-> | ->], Hs as [-> | ->]; lra. }
    cbn [group_top_and_bottom_polys]. destruct (group_top_and_bottom_polys pieces line) as [top bot] eqn:EG. cbn [fst snd] in HT, HB.
    rewrite Hsi. cbn [concat].
    destruct (Rlt_dec (sg * s) 0) as [Hneg|Hpos].
    + assert (Es : s = - sg) by (destruct Hsg as [-> | ->], Hs as [-> | ->]; lra).
      exists T, (ts ++ B). split; [|split; [|split]].
      * apply (cut_app [] ts T B); [|exact HC]. constructor; [constructor|exact Hc| | |].
        -- intros t Ht. cbn in Ht. rewrite (Hmt t Ht). exact Hfy. -- intros t p Ht; cbn in Ht; tauto. -- rewrite <- Es. exact Hon.
      * eapply perm_trans; [apply Permutation_app_comm|]. rewrite <- app_assoc. apply Permutation_app_head.
        eapply perm_trans; [apply Permutation_app_comm|]. exact HP.
      * exact HT.
      * cbn [snd map]. apply (matches_app (- sg) [(m, q)] (map (pair m) bot) ts B); [|exact HB].
        split; [unfold sumf at 1; cbn [map Rsum fold_right]; rewrite F; ring|].
        intros pc. pose proof (lever_bounds m q ts (- sg) pc ltac:(destruct Hsg; lra) Hfy Hmt F0 (L pc)) as X. unfold lever in X.
        rewrite !sumf_cons, !sumf_nil. cbn [snd]. lra.
    + assert (Es : s = sg) by (destruct Hsg as [-> | ->], Hs as [-> | ->]; lra).
      exists (ts ++ T), B. split; [|split; [|split]].
      * apply (cut_app ts [] T B); [|exact HC]. constructor; [exact Hc|constructor| | |].
        -- intros t Ht. rewrite app_nil_r in Ht. rewrite (Hmt t Ht). exact Hfy. -- rewrite <- Es. exact Hon. -- intros t p Ht; cbn in Ht; tauto.
      * rewrite <- app_assoc. apply Permutation_app_head, HP.
      * cbn [fst map]. apply (matches_app sg [(m, q)] (map (pair m) top) ts T); [|exact HT].
        split; [unfold sumf at 1; cbn [map Rsum fold_right]; rewrite F; ring|].
        intros pc. pose proof (lever_bounds m q ts sg pc Hsg Hfy Hmt F0 (L pc)) as X. unfold lever in X.
        rewrite !sumf_cons, !sumf_nil. cbn [snd]. lra.
      * exact HB.
Qed.
End Cut.

Lemma covers_box g shape : covers g shape -> box_ok (pg_bounds g).
Proof.
  intros (Hne & Hc & _ & Hb & _). destruct shape as [|t ts]; [congruence|].
  inversion Hc as [|? ? Ht _]; subst. unfold ccw in Ht.
  pose proof (Hb t (mt_a t) (or_introl eq_refl) ltac:(cbn; auto)) as A.
  pose proof (Hb t (mt_b t) (or_introl eq_refl) ltac:(cbn; auto)) as B.
  pose proof (Hb t (mt_c t) (or_introl eq_refl) ltac:(cbn; auto)) as C.
  unfold in_bounds, box_ok in *. destruct (pg_bounds g) as [[[xa xb] ya] yb].
  unfold orient in Ht.
  split.
  - destruct (Rlt_le_dec xa xb) as [L|L]; [exact L|exfalso].
    assert (fst (mt_b t) = fst (mt_a t)) by lra. assert (fst (mt_c t) = fst (mt_a t)) by lra. rewrite H, H0 in Ht. lra.
  - destruct (Rlt_le_dec ya yb) as [L|L]; [exact L|exfalso].
    assert (snd (mt_b t) = snd (mt_a t)) by lra. assert (snd (mt_c t) = snd (mt_a t)) by lra. rewrite H, H0 in Ht. lra.
Qed.

Lemma split_cut gs shapes u axis1 d : unit_vec u -> Forall2 covers gs shapes -> (forall g, In g gs -> 0 < m_fy (pg_mat g)) ->
  let n := perpendicular u axis1 in let sg := axis_sign u axis1 in
  exists T B, cut n d sg T B /\ same_boundary (region_edges (T ++ B)) (region_edges (concat shapes)) /\
    matches n sg (fst (split_section gs (line_point d n) u)) T /\
    matches n (- sg) (snd (split_section gs (line_point d n) u)) B.
Proof.
  intros Hu HF Hfy n sg. induction HF as [|g shape gs shapes Hg HF IH].
  - exists [], []. split; [apply cut_nil|]. split; [apply sb_refl|]. split; apply matches_nil.
  - destruct IH as (T & B & HC & HS & HT & HB); [intros g' Hg'; apply Hfy; right; exact Hg'|].
    destruct (plastic_line u axis1 d (pg_bounds g) Hu (covers_box g shape Hg)) as (Hsp & (k & Hk & Hl) & Hsd).
    destruct Hg as (Hne & Hc & Hm & Hb & Hcut).
    destruct (Hcut _ Hsp) as (parts & HF2 & Hmp & Hsb).
    destruct (group_cut n d sg (axis_sign_cases u axis1) _ k (pg_mat g) _ parts Hk Hl Hsd HF2 Hmp (Hfy g (or_introl eq_refl)))
      as (T1 & B1 & HC1 & HP1 & HT1 & HB1).
    exists (T1 ++ T), (B1 ++ B). split; [apply cut_app; assumption|]. split; [|split].
    + cbn [concat]. rewrite (region_edges_app shape (concat shapes)).
      eapply sb_trans; [|apply sb_app; [exact Hsb|exact HS]].
      rewrite <- region_edges_app. apply sb_perm, region_edges_perm.
      eapply perm_trans; [|apply Permutation_app_tail, HP1].
      rewrite <- !app_assoc. apply Permutation_app_head. rewrite !app_assoc. apply Permutation_app_tail, Permutation_app_comm.
    + unfold split_section. cbn [fst map concat]. apply matches_app; assumption.
    + unfold split_section. cbn [snd map concat]. apply matches_app; assumption.
Qed.

(** ** The forces and the modulus at a line *)
Section Section_.
Context (gs : list plane_geom) (shapes : list (list mtri)) (u : R * R) (axis1 : bool).
Hypothesis Hu : unit_vec u.
Hypothesis Hcov : section_covers gs shapes.
Let n := perpendicular u axis1.
Let sg := axis_sign u axis1.
Let sec := concat shapes.
Let force d := calculate_plastic_force gs u (line_point d n).
Let Hn : unit_vec n := perp_unit u axis1 Hu.

Definition yield_force : R := region_int m_fy (fun _ _ => 1) sec.
Definition G (d : R) : R := region_int m_fy (fun x y => Rabs (height n x y - d)) sec.
Definition modulus (d pc : R) : R := plastic_modulus (height n) pc (fo_list (force d)).

Lemma sec_ccw : Forall ccw sec.
Proof.
  destruct Hcov as (_ & H & _). unfold sec. clear - H. induction H as [|g sh gs shapes Hg HF IH]; cbn [concat]; [constructor|].
  apply Forall_app. split; [apply Hg|exact IH].
Qed.
Lemma sec_fy t : In t sec -> 0 < m_fy (mt_mat t).
Proof.
  destruct Hcov as (_ & H & Hfy). unfold sec. clear - H Hfy. induction H as [|g sh gs shapes Hg HF IH]; cbn [concat]; [intros X; destruct X|].
  rewrite in_app_iff. intros [Ht|Ht].
  - destruct Hg as (_ & _ & Hm & _). rewrite (Hm t Ht). apply Hfy. left; reflexivity.
  - apply IH; [intros g' Hg'; apply Hfy; right; exact Hg'|exact Ht].
Qed.
Lemma sec_ne : sec <> [].
Proof.
  destruct Hcov as (Hne & H & _). unfold sec. destruct H as [|g sh gs shapes Hg HF]; [congruence|]. cbn [concat].
  destruct Hg as (Hs & _). destruct sh; [congruence|]. discriminate.
Qed.
Lemma yield_force_pos : 0 < yield_force.
Proof. apply region_one_pos; [apply sec_ne|apply sec_ccw|apply sec_fy]. Qed.

Lemma force_facts d : exists T B, cut n d sg T B /\ same_boundary (region_edges (T ++ B)) (region_edges sec) /\
  fo_top (force d) = region_int m_fy (fun _ _ => 1) T /\ fo_bot (force d) = region_int m_fy (fun _ _ => 1) B /\
  forall pc, sg * (region_int m_fy (fun x y => height n x y - pc) T - region_int m_fy (fun x y => height n x y - pc) B)
     <= modulus d pc <= G pc.
Proof.
  destruct Hcov as (_ & HF & Hfy).
  pose proof (split_cut gs shapes u axis1 d Hu HF Hfy) as X. cbv zeta in X. fold n in X. fold sg in X.
  destruct X as (T & B & HC & HS & [T1 T2] & [B1 B2]).
  exists T, B. split; [exact HC|split; [exact HS|]].
  assert (HTB : Forall ccw (T ++ B)) by (apply Forall_app; split; [apply HC|apply HC]).
  unfold modulus, force, calculate_plastic_force, plastic_modulus.
  destruct (split_section gs (line_point d n) u) as [top bot] eqn:ES. cbn [fst snd fo_top fo_bot fo_list] in *.
  split; [rewrite fold_sum, T1; ring|]. split; [rewrite fold_sum, B1; ring|].
  intros pc.
  assert (M : forall l a, fold_left (fun acc q => let '(f, cx, cy) := q in acc + f * Rabs (height n cx cy - pc)) l a =
    a + sumf (fun q => let '(f, cx, cy) := q in f * Rabs (height n cx cy - pc)) l).
  { intros l. induction l as [|[[f cx] cy] l IH]; intros a; cbn [fold_left]; [unfold sumf; cbn; ring|]. rewrite IH, sumf_cons. ring. }
  rewrite M, sumf_map, sumf_app.
  assert (EG : G pc = region_int m_fy (fun x y => Rabs (height n x y - pc)) T + region_int m_fy (fun x y => Rabs (height n x y - pc)) B).
  { unfold G. rewrite <- region_app. symmetry. apply region_abs_same; [exact Hn|exact HTB|apply sec_ccw|exact HS]. }
  rewrite EG. specialize (T2 pc). specialize (B2 pc). lra.
Qed.

Lemma cut_total T B : cut n 0 sg T B \/ Forall ccw (T ++ B) -> same_boundary (region_edges (T ++ B)) (region_edges sec) -> Forall ccw (T ++ B) ->
  region_int m_fy (fun _ _ => 1) T + region_int m_fy (fun _ _ => 1) B = yield_force.
Proof.
  intros _ HS HC. rewrite <- region_app. apply (region_one_same m_fy n); [exact Hn|exact HC|apply sec_ccw|exact HS].
Qed.

Lemma force_total d : fo_top (force d) + fo_bot (force d) = yield_force.
Proof.
  destruct (force_facts d) as (T & B & HC & HS & ET & EB & _). rewrite ET, EB.
  apply cut_total; [right| |]; try exact HS; apply Forall_app; split; apply HC.
Qed.
Lemma force_nonneg d : 0 <= fo_top (force d) /\ 0 <= fo_bot (force d).
Proof.
  destruct (force_facts d) as (T & B & HC & HS & ET & EB & _). rewrite ET, EB.
  split; apply region_one_nonneg; intros t Ht; left; apply (cut_fy _ _ _ _ _ HC), in_app_iff; auto.
Qed.

(** The modulus for a line at the plastic centroid. *)
Lemma modulus_exact d : modulus d d = G d.
Proof.
  destruct (force_facts d) as (T & B & HC & HS & ET & EB & HM). destruct (HM d) as [L U]. apply Rle_antisym; [exact U|].
  assert (HTB : Forall ccw (T ++ B)) by (apply Forall_app; split; apply HC).
  unfold G. rewrite <- (region_abs_same m_fy n d (T ++ B) sec Hn HTB sec_ccw HS), region_app.
  rewrite (region_abs_eq m_fy n d sg T (axis_sign_cases u axis1) (cut_sT _ _ _ _ _ HC)).
  rewrite (region_abs_eq m_fy n d (- sg) B); [|destruct (axis_sign_cases u axis1) as [E|E]; fold sg in E; rewrite E; lra|apply (cut_sB _ _ _ _ _ HC)].
  lra.
Qed.

(** G is convex with slope given by the force imbalance. *)
Lemma G_slope d d' : G d - sg * (fo_top (force d) - fo_bot (force d)) * (d' - d) <= G d'.
Proof.
  destruct (force_facts d) as (T & B & HC & HS & ET & EB & HM). destruct (HM d') as [L U].
  pose proof (modulus_exact d) as E.
  assert (HTB : Forall ccw (T ++ B)) by (apply Forall_app; split; apply HC).
  assert (GD : G d = sg * (region_int m_fy (fun x y => height n x y - d) T - region_int m_fy (fun x y => height n x y - d) B)).
  { unfold G. rewrite <- (region_abs_same m_fy n d (T ++ B) sec Hn HTB sec_ccw HS), region_app.
    rewrite (region_abs_eq m_fy n d sg T (axis_sign_cases u axis1) (cut_sT _ _ _ _ _ HC)).
    rewrite (region_abs_eq m_fy n d (- sg) B); [|destruct (axis_sign_cases u axis1) as [X|X]; fold sg in X; rewrite X; lra|apply (cut_sB _ _ _ _ _ HC)].
    ring. }
  rewrite ET, EB, GD. rewrite !region_hd in *. eapply Rle_trans; [|eapply Rle_trans; [exact L|exact U]].
  right. ring.
Qed.

Lemma G_lip d d' : G d - yield_force * Rabs (d' - d) <= G d'.
Proof.
  eapply Rle_trans; [|apply (G_slope d d')].
  pose proof (force_total d) as T. pose proof (force_nonneg d) as [A B].
  assert (Rabs (sg * (fo_top (force d) - fo_bot (force d)) * (d' - d)) <= yield_force * Rabs (d' - d)).
  { rewrite !Rabs_mult. apply Rmult_le_compat_r; [apply Rabs_pos|].
    assert (Rabs sg = 1). { destruct (axis_sign_cases u axis1) as [E|E]; fold sg in E; rewrite E; unfold Rabs; destruct Rcase_abs; lra. }
    rewrite H, Rmult_1_l. unfold Rabs; destruct Rcase_abs; lra. }
  pose proof (Rle_abs (sg * (fo_top (force d) - fo_bot (force d)) * (d' - d))). lra.
Qed.

Lemma force_monotone d d' : d <= d' ->
  sg * (fo_top (force d') - fo_bot (force d')) <= sg * (fo_top (force d) - fo_bot (force d)).
Proof.
  intros H. pose proof (G_slope d d') as A. pose proof (G_slope d' d) as B.
  destruct (Req_dec d d') as [->|Hd]; [lra|].
  apply Rmult_le_reg_r with (d' - d); lra.
Qed.

(** At the extreme fibres everything is on one side. *)
Lemma force_end_low d : (forall t p, In t sec -> In p (corners t) -> d <= height n (fst p) (snd p)) ->
  sg * (fo_top (force d) - fo_bot (force d)) = yield_force.
Proof.
  intros H. pose proof (force_total d) as Tot. destruct (force_facts d) as (T & B & HC & HS & ET & EB & _).
  assert (HTB : Forall ccw (T ++ B)) by (apply Forall_app; split; apply HC).
  pose proof (region_abs_same m_fy n d (T ++ B) sec Hn HTB sec_ccw HS) as E.
  rewrite (region_abs_eq m_fy n d 1 sec (or_introl eq_refl)) in E by (intros t p Ht Hp; specialize (H t p Ht Hp); lra).
  rewrite region_hd, <- (region_height_same m_fy n (T ++ B) sec Hn HTB sec_ccw HS), <- (region_one_same m_fy n (T ++ B) sec Hn HTB sec_ccw HS), <- region_hd in E.
  rewrite !region_app in E.
  rewrite (region_abs_eq m_fy n d sg T (axis_sign_cases u axis1) (cut_sT _ _ _ _ _ HC)) in E.
  rewrite (region_abs_eq m_fy n d (- sg) B) in E; [|destruct (axis_sign_cases u axis1) as [X|X]; fold sg in X; rewrite X; lra|apply (cut_sB _ _ _ _ _ HC)].
  rewrite ET, EB in *. destruct (axis_sign_cases u axis1) as [X|X]; fold sg in X; rewrite X in *.
  - assert (Z : B = []).
    { apply (side_strict m_fy n d (-(1)) B Hn); [right; reflexivity|apply HC| |exact (cut_sB _ _ _ _ _ HC)|].
      - intros t Ht. apply (cut_fy _ _ _ _ _ HC), in_app_iff. right; exact Ht.
      - lra. }
    subst B. rewrite region_nil in *. lra.
  - assert (Z : T = []).
    { apply (side_strict m_fy n d (-1) T Hn); [right; reflexivity|apply HC| |exact (cut_sT _ _ _ _ _ HC)|].
      - intros t Ht. apply (cut_fy _ _ _ _ _ HC), in_app_iff. left; exact Ht.
      - lra. }
    subst T. rewrite region_nil in *. lra.
Qed.
Lemma force_end_high d : (forall t p, In t sec -> In p (corners t) -> height n (fst p) (snd p) <= d) ->
  sg * (fo_top (force d) - fo_bot (force d)) = - yield_force.
Proof.
  intros H. pose proof (force_total d) as Tot. destruct (force_facts d) as (T & B & HC & HS & ET & EB & _).
  assert (HTB : Forall ccw (T ++ B)) by (apply Forall_app; split; apply HC).
  pose proof (region_abs_same m_fy n d (T ++ B) sec Hn HTB sec_ccw HS) as E.
  rewrite (region_abs_eq m_fy n d (-1) sec (or_intror eq_refl)) in E by (intros t p Ht Hp; specialize (H t p Ht Hp); lra).
  rewrite region_hd, <- (region_height_same m_fy n (T ++ B) sec Hn HTB sec_ccw HS), <- (region_one_same m_fy n (T ++ B) sec Hn HTB sec_ccw HS), <- region_hd in E.
  rewrite !region_app in E.
  rewrite (region_abs_eq m_fy n d sg T (axis_sign_cases u axis1) (cut_sT _ _ _ _ _ HC)) in E.
  rewrite (region_abs_eq m_fy n d (- sg) B) in E; [|destruct (axis_sign_cases u axis1) as [X|X]; fold sg in X; rewrite X; lra|apply (cut_sB _ _ _ _ _ HC)].
  rewrite ET, EB in *. destruct (axis_sign_cases u axis1) as [X|X]; fold sg in X; rewrite X in *.
  - assert (Z : T = []).
    { apply (side_strict m_fy n d 1 T Hn); [left; reflexivity|apply HC| |exact (cut_sT _ _ _ _ _ HC)|].
      - intros t Ht. apply (cut_fy _ _ _ _ _ HC), in_app_iff. left; exact Ht.
      - lra. }
    subst T. rewrite region_nil in *. lra.
  - assert (Z : B = []).
    { assert (E1 : - -1 = 1) by ring.
      apply (side_strict m_fy n d (- -1) B Hn); [left; exact E1|apply HC| |exact (cut_sB _ _ _ _ _ HC)|].
      - intros t Ht. apply (cut_fy _ _ _ _ _ HC), in_app_iff. right; exact Ht.
      - lra. }
    subst B. rewrite region_nil in *. lra.
Qed.

(** Lever arms taken from the lists of another line. *)
Lemma modulus_near d pc : G pc - 2 * yield_force * Rabs (pc - d) <= modulus d pc <= G pc.
Proof.
  destruct (force_facts d) as (T & B & HC & HS & ET & EB & HM). destruct (HM pc) as [L U]. split; [|exact U].
  destruct (HM d) as [L' U']. pose proof (modulus_exact d) as E.
  assert (HTB : Forall ccw (T ++ B)) by (apply Forall_app; split; apply HC).
  assert (GD : G d = sg * (region_int m_fy (fun x y => height n x y - d) T - region_int m_fy (fun x y => height n x y - d) B)).
  { unfold G. rewrite <- (region_abs_same m_fy n d (T ++ B) sec Hn HTB sec_ccw HS), region_app.
    rewrite (region_abs_eq m_fy n d sg T (axis_sign_cases u axis1) (cut_sT _ _ _ _ _ HC)).
    rewrite (region_abs_eq m_fy n d (- sg) B); [|destruct (axis_sign_cases u axis1) as [X|X]; fold sg in X; rewrite X; lra|apply (cut_sB _ _ _ _ _ HC)].
    ring. }
  pose proof (G_lip pc d) as Lip. rewrite Rabs_minus_sym in Lip.
  assert (D : sg * (region_int m_fy (fun x y => height n x y - pc) T - region_int m_fy (fun x y => height n x y - pc) B)
     = G d - sg * (fo_top (force d) - fo_bot (force d)) * (pc - d)).
  { rewrite GD, ET, EB, !region_hd. ring. }
  pose proof (force_total d) as Tt. pose proof (force_nonneg d) as [A1 A2].
  assert (Rabs (sg * (fo_top (force d) - fo_bot (force d)) * (pc - d)) <= yield_force * Rabs (pc - d)).
  { rewrite !Rabs_mult. apply Rmult_le_compat_r; [apply Rabs_pos|].
    assert (Rabs sg = 1). { destruct (axis_sign_cases u axis1) as [X|X]; fold sg in X; rewrite X; unfold Rabs; destruct Rcase_abs; lra. }
    rewrite H, Rmult_1_l. unfold Rabs; destruct Rcase_abs; lra. }
  pose proof (Rle_abs (sg * (fo_top (force d) - fo_bot (force d)) * (pc - d))). lra.
Qed.

(** No admissible stress field has a larger moment. *)
Lemma field_bound fld d : admissible sec n fld -> field_moment n fld <= G d.
Proof.
  intros (HA & HS & H0). unfold field_moment, G.
  assert (HC : Forall ccw (map fst fld)).
  { apply Forall_map. eapply Forall_impl; [|exact HA]. intros [t s] (X & _). exact X. }
  rewrite <- (region_abs_same m_fy n d (map fst fld) sec Hn HC sec_ccw HS).
  unfold region_int. rewrite sumf_map.
  assert (E : sumf (fun tf => mt_int (fst tf) (fun x y => snd tf x y * height n x y)) fld =
              sumf (fun tf => 1 * mt_int (fst tf) (fun x y => snd tf x y * height n x y) + (- d) * mt_int (fst tf) (snd tf)) fld).
  { rewrite sumf_plus2, H0. ring. }
  rewrite E. apply sumf_le. intros [t s] Hin. rewrite Forall_forall in HA. destruct (HA (t, s) Hin) as (Hct & O1 & O2 & Hy).
  cbn [fst snd]. unfold mt_int.
  rewrite <- (tri_int_lin _ _ _ (fun x y => s x y * height n x y) s 1 (- d) O2 O1).
  replace (m_fy (mt_mat t) * tri_int (mt_a t) (mt_b t) (mt_c t) (fun x y => Rabs (height n x y - d)))
    with (m_fy (mt_mat t) * tri_int (mt_a t) (mt_b t) (mt_c t) (fun x y => Rabs (height n x y - d)) + 0 * tri_int (mt_a t) (mt_b t) (mt_c t) (fun _ _ => 1)) by ring.
  rewrite <- (tri_int_lin _ _ _ (fun x y => Rabs (height n x y - d)) (fun _ _ => 1) (m_fy (mt_mat t)) 0 (abs_tri_ok _ _ _ _ _) (const_tri_ok _ _ _ _)).
  apply tri_int_le.
  - apply (tri_ok_lin _ _ _ (fun x y => s x y * height n x y) s); assumption.
  - apply (tri_ok_lin _ _ _ (fun x y => Rabs (height n x y - d)) (fun _ _ => 1)); [apply abs_tri_ok|apply const_tri_ok].
  - intros p Hp. specialize (Hy p Hp).
    replace (1 * (s (fst p) (snd p) * height n (fst p) (snd p)) + - d * s (fst p) (snd p))
      with (s (fst p) (snd p) * (height n (fst p) (snd p) - d)) by ring.
    rewrite Rmult_0_l, Rplus_0_r. eapply Rle_trans; [apply Rle_abs|]. rewrite Rabs_mult.
    apply Rmult_le_compat_r; [apply Rabs_pos|exact Hy].
Qed.

(** At zero imbalance a field attains it. *)
Lemma field_attains d : fo_top (force d) = fo_bot (force d) ->
  exists fld, admissible sec n fld /\ field_moment n fld = G d.
Proof.
  intros H0. destruct (force_facts d) as (T & B & HC & HS & ET & EB & _).
  exists (map (fun t => (t, fun _ _ => sg * m_fy (mt_mat t))) T ++ map (fun t => (t, fun _ _ => - sg * m_fy (mt_mat t))) B).
  assert (HTB : Forall ccw (T ++ B)) by (apply Forall_app; split; apply HC).
  assert (As : Rabs sg = 1). { destruct (axis_sign_cases u axis1) as [X|X]; fold sg in X; rewrite X; unfold Rabs; destruct Rcase_abs; lra. }
  assert (KH : forall k t, mt_ok t (fun x y => k * height n x y)).
  { intros k t. apply (tri_ok_ext _ _ _ (fun x y => k * height n x y + 0 * 1)); [intros; ring|].
    apply (tri_ok_lin _ _ _ (height n) (fun _ _ => 1)); [apply height_tri_ok|apply const_tri_ok]. }
  assert (IK : forall k t, mt_int t (fun _ _ => k) = k * mt_int t (fun _ _ => 1)).
  { intros k t. unfold mt_int. rewrite (tri_int_ext _ _ _ (fun _ _ => k) (fun x y => k * 1 + 0 * 1)) by (intros; ring).
    rewrite (tri_int_lin _ _ _ (fun _ _ => 1) (fun _ _ => 1) _ _ (const_tri_ok _ _ _ _) (const_tri_ok _ _ _ _)). ring. }
  assert (IH : forall k t, mt_int t (fun x y => k * height n x y) = k * mt_int t (height n)).
  { intros k t. unfold mt_int. rewrite (tri_int_ext _ _ _ (fun x y => k * height n x y) (fun x y => k * height n x y + 0 * 1)) by (intros; ring).
    rewrite (tri_int_lin _ _ _ (height n) (fun _ _ => 1) _ _ (height_tri_ok _ _ _ _) (const_tri_ok _ _ _ _)). ring. }
  assert (SumK : forall k l, sumf (fun tf => mt_int (fst tf) (snd tf)) (map (fun t => (t, fun _ _ : R => k * m_fy (mt_mat t))) l) = k * region_int m_fy (fun _ _ => 1) l).
  { intros k l. rewrite sumf_map. unfold region_int. rewrite <- sumf_scal. apply sumf_ext. intros t _. cbn [fst snd]. rewrite IK. ring. }
  assert (SumH : forall k l, sumf (fun tf => mt_int (fst tf) (fun x y => snd tf x y * height n x y)) (map (fun t => (t, fun _ _ : R => k * m_fy (mt_mat t))) l) = k * region_int m_fy (height n) l).
  { intros k l. rewrite sumf_map. unfold region_int. rewrite <- sumf_scal. apply sumf_ext. intros t _. cbn [fst snd]. rewrite IH. ring. }
  split; [split; [|split]|].
  - apply Forall_app. rewrite Forall_app in HTB. destruct HTB as [CT CB].
    rewrite Forall_forall in CT, CB. split; apply Forall_map, Forall_forall; intros t Ht.
    + split; [exact (CT t Ht)|]. split; [exact (const_tri_ok _ _ _ _)|]. split; [exact (KH (sg * m_fy (mt_mat t)) t)|].
      intros p _. rewrite Rabs_mult, As, Rmult_1_l, Rabs_pos_eq; [lra|]. left. apply (cut_fy _ _ _ _ _ HC), in_app_iff; auto.
    + split; [exact (CB t Ht)|]. split; [exact (const_tri_ok _ _ _ _)|]. split; [exact (KH (- sg * m_fy (mt_mat t)) t)|].
      intros p _. rewrite Rabs_mult, Rabs_Ropp, As, Rmult_1_l, Rabs_pos_eq; [lra|]. left. apply (cut_fy _ _ _ _ _ HC), in_app_iff; auto.
  - rewrite map_app, !map_map. cbn [fst]. rewrite !map_id. exact HS.
  - rewrite sumf_app, !SumK. rewrite ET, EB in H0. rewrite H0. ring.
  - unfold field_moment. rewrite sumf_app, !SumH.
    unfold G. rewrite <- (region_abs_same m_fy n d (T ++ B) sec Hn HTB sec_ccw HS), region_app.
    rewrite (region_abs_eq m_fy n d sg T (axis_sign_cases u axis1) (cut_sT _ _ _ _ _ HC)).
    rewrite (region_abs_eq m_fy n d (- sg) B); [|destruct (axis_sign_cases u axis1) as [X|X]; fold sg in X; rewrite X; lra|apply (cut_sB _ _ _ _ _ HC)].
    rewrite !region_hd. rewrite ET, EB in H0. rewrite H0. ring.
Qed.
End Section_.
