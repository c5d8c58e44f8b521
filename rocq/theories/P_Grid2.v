(** Proofs about the uniform meshes of a rectangle. *)
From Coquelicot Require Import Coquelicot.
From Coq Require Import Reals List Permutation Bool Arith Lra Lia.
From Verif Require Import Base S_Integral M_Fea S_Fem M_Post M_Section S_Section S_Post S_Warp P_Integral P_Fea P_Geom P_Elem P_Section P_Totals P_Post
  P_Warp P_Warp2 P_Warp3 P_Warp4 P_Warp5 P_Warp9 S_Plastic P_Plastic P_Fibre P_PlasticForms S_Refine P_Refine S_Prandtl P_Green P_Prandtl S_Converge P_Grid S_Grid2.
Import ListNotations.
Local Open Scope R_scope.

Lemma nodup_prod {A B} (l : list A) (l' : list B) : NoDup l -> NoDup l' -> NoDup (list_prod l l').
Proof.
  intros N N'. induction N as [|x l H N IH]; [apply NoDup_nil|]. cbn [list_prod]. apply nodup_app; [apply nodup_map; [exact N'|intros a c _ _ E; injection E; auto]|exact IH|].
  intros [a c] I J. apply in_map_iff in I. destruct I as (y & E & _). injection E as <- <-. apply in_prod_iff in J. exact (H (proj1 J)).
Qed.

Section Box.
Context (x0 y0 b d : R) (m : material) (k : nat).
Hypotheses (Hb : 0 < b) (Hd : 0 < d).
Let N := INR (S k).
Notation X := (box_x x0 b k).
Notation Y := (box_y y0 d k).
Notation els := (box_grid x0 y0 b d m k).
Notation node := (box_node k).
Notation up := (box_up x0 y0 b d m k).
Notation down := (box_down x0 y0 b d m k).

Lemma bn_pos : 0 < N. Proof. apply lt_0_INR. lia. Qed.
Lemma node_split i j : (i < box_row k)%nat -> ((node i j) mod (box_row k) = i /\ (node i j) / (box_row k) = j)%nat.
Proof.
  intros H. assert (Z : (box_row k <> 0)%nat) by (unfold box_row; lia). unfold box_node. rewrite (Nat.mul_comm (box_row k) j), Nat.mod_add, Nat.div_add by exact Z.
  rewrite Nat.mod_small, Nat.div_small by exact H. split; [reflexivity|lia].
Qed.
Lemma box_x_at i j : (i < box_row k)%nat -> X (node i j) = x0 + INR i * b / (2 * N).
Proof. intros H. unfold box_x. rewrite (proj1 (node_split i j H)). reflexivity. Qed.
Lemma box_y_at i j : (i < box_row k)%nat -> Y (node i j) = y0 + INR j * d / (2 * N).
Proof. intros H. unfold box_y. rewrite (proj2 (node_split i j H)). reflexivity. Qed.
Lemma bnode_inj i j i' j' : (i < box_row k)%nat -> (i' < box_row k)%nat -> node i j = node i' j' -> i = i' /\ j = j'.
Proof. intros H H' E. destruct (node_split i j H) as [A B], (node_split i' j' H') as [A' B']. rewrite E in A, B. lia. Qed.
Lemma bnode_below i j : (i < box_row k)%nat -> (j < box_row k)%nat -> (node i j < box_size k)%nat.
Proof. unfold box_node, box_size. intros H J. assert (box_row k * S j <= box_row k * box_row k)%nat by (apply Nat.mul_le_mono_l; lia). lia. Qed.

Lemma in_cells p q : In (p, q) (box_cells k) <-> (p <= k /\ q <= k)%nat.
Proof. unfold box_cells. rewrite in_prod_iff, !in_seq. lia. Qed.
Lemma in_box el : In el els <-> (exists p q, (p <= k /\ q <= k)%nat /\ el = up (p, q)) \/ (exists p q, (p <= k /\ q <= k)%nat /\ el = down (p, q)).
Proof.
  unfold box_grid. rewrite in_app_iff, !in_map_iff. split.
  - intros [([p q] & <- & I)|([p q] & <- & I)]; apply in_cells in I; [left|right]; exists p, q; (split; [exact I|reflexivity]).
  - intros [(p & q & L & ->)|(p & q & L & ->)]; [left|right]; exists (p, q); (split; [reflexivity|apply in_cells; exact L]).
Qed.

Ltac at_box := rewrite ?box_x_at, ?box_y_at by (unfold box_row; lia); rewrite ?plus_INR, ?mult_INR; change (INR 2) with 2; change (INR 1) with 1.
Lemma bup_corners p q : (p <= k)%nat -> let e := up (p, q) in let u := corner_a e in let v := corner_b e in let w := corner_c e in
  fst v - fst u = b / N /\ snd v - snd u = 0 /\ fst w - fst u = 0 /\ snd w - snd u = d / N.
Proof.
  intros Hp e u v w. pose proof bn_pos. unfold u, v, w, e, corner_a, corner_b, corner_c, box_up, box_el, gather. cbn [el_x el_y c0 c1 c2 v0 v1 v2 fst snd]. at_box. repeat split; field; lra.
Qed.
Lemma bdown_corners p q : (p <= k)%nat -> let e := down (p, q) in let u := corner_a e in let v := corner_b e in let w := corner_c e in
  fst v - fst u = 0 /\ snd v - snd u = d / N /\ fst w - fst u = - (b / N) /\ snd w - snd u = d / N.
Proof.
  intros Hp e u v w. pose proof bn_pos. unfold u, v, w, e, corner_a, corner_b, corner_c, box_down, box_el, gather. cbn [el_x el_y c0 c1 c2 v0 v1 v2 fst snd]. at_box. repeat split; field; lra.
Qed.
Lemma bup_orient p q : (p <= k)%nat -> let e := up (p, q) in orient (corner_a e) (corner_b e) (corner_c e) = b * d / N ^ 2.
Proof. intros Hp e. pose proof bn_pos. destruct (bup_corners p q Hp) as (A & B & C & D). fold e in A, B, C, D. rewrite orient_diff, A, B, C, D. field. lra. Qed.
Lemma bdown_orient p q : (p <= k)%nat -> let e := down (p, q) in orient (corner_a e) (corner_b e) (corner_c e) = b * d / N ^ 2.
Proof. intros Hp e. pose proof bn_pos. destruct (bdown_corners p q Hp) as (A & B & C & D). fold e in A, B, C, D. rewrite orient_diff, A, B, C, D. field. lra. Qed.
Lemma bsmall_orient : 0 < b * d / N ^ 2.
Proof. apply Rdiv_lt_0_compat; [apply Rmult_lt_0_compat; assumption|apply pow_lt, bn_pos]. Qed.
Lemma bup_valid p q : (p <= k)%nat -> valid_el (up (p, q)).
Proof.
  intros Hp. split; [|rewrite bup_orient by exact Hp; apply bsmall_orient]. pose proof bn_pos.
  unfold straight, corner_a, corner_b, corner_c, box_up, box_el, side_nodes, gather. cbn [el_x el_y c0 c1 c2 c3 c4 c5 v0 v1 v2 fst snd]. at_box. split; f_equal; field; lra.
Qed.
Lemma bdown_valid p q : (p <= k)%nat -> valid_el (down (p, q)).
Proof.
  intros Hp. split; [|rewrite bdown_orient by exact Hp; apply bsmall_orient]. pose proof bn_pos.
  unfold straight, corner_a, corner_b, corner_c, box_down, box_el, side_nodes, gather. cbn [el_x el_y c0 c1 c2 c3 c4 c5 v0 v1 v2 fst snd]. at_box. split; f_equal; field; lra.
Qed.
Lemma box_mesh : mesh_on (box_size k) X Y els.
Proof.
  assert (ND : forall l, (forall i j, In (i, j) l -> (i < box_row k)%nat) -> NoDup l -> NoDup (map (fun c : nat * nat => node (fst c) (snd c)) l)).
  { intros l Bd Hl; apply nodup_map; [exact Hl|]; intros [i j] [i' j'] I J E; cbn [fst snd] in E; apply bnode_inj in E; [destruct E as [-> ->]; reflexivity|exact (Bd _ _ I)|exact (Bd _ _ J)]. }
  assert (NE : forall (i j : nat) l, (forall c e, In (c, e) l -> i <> c \/ j <> e) -> NoDup l -> NoDup ((i, j) :: l)) by (intros i j l H Hl; apply NoDup_cons; [intros I; destruct (H i j I); congruence|exact Hl]).
  intros el I. apply in_box in I. destruct I as [(p & q & L & ->)|(p & q & L & ->)].
  - split; [apply bup_valid, L|]. split; [|split; [|split; reflexivity]].
    + apply (ND [(2 * p, 2 * q); (2 * p + 2, 2 * q); (2 * p, 2 * q + 2); (2 * p + 1, 2 * q); (2 * p + 1, 2 * q + 1); (2 * p, 2 * q + 1)]%nat).
      * intros i j J. cbn [In] in J. repeat (destruct J as [J|J]; [injection J as <- <-; unfold box_row; lia|]). destruct J.
      * repeat (apply NE; [cbn [In]; intros c e J; repeat (destruct J as [J|J]; [injection J as <- <-; lia|]); destruct J|]). apply NoDup_nil.
    + intros i. unfold box_up, box_el, ids_list. cbn [el_ids c0 c1 c2 c3 c4 c5 In]. intros J. repeat (destruct J as [J|J]; [subst i; apply bnode_below; unfold box_row; lia|]). destruct J.
  - split; [apply bdown_valid, L|]. split; [|split; [|split; reflexivity]].
    + apply (ND [(2 * p + 2, 2 * q); (2 * p + 2, 2 * q + 2); (2 * p, 2 * q + 2); (2 * p + 2, 2 * q + 1); (2 * p + 1, 2 * q + 2); (2 * p + 1, 2 * q + 1)]%nat).
      * intros i j J. cbn [In] in J. repeat (destruct J as [J|J]; [injection J as <- <-; unfold box_row; lia|]). destruct J.
      * repeat (apply NE; [cbn [In]; intros c e J; repeat (destruct J as [J|J]; [injection J as <- <-; lia|]); destruct J|]). apply NoDup_nil.
    + intros i. unfold box_down, box_el, ids_list. cbn [el_ids c0 c1 c2 c3 c4 c5 In]. intros J. repeat (destruct J as [J|J]; [subst i; apply bnode_below; unfold box_row; lia|]). destruct J.
Qed.
Lemma box_used : all_used (box_size k) els.
Proof.
  intros n Hn. assert (Z : (box_row k <> 0)%nat) by (unfold box_row; lia). pose proof (Nat.div_mod n (box_row k) Z) as E. pose proof (Nat.mod_upper_bound n (box_row k) Z) as Hi.
  assert (Hj : (n / box_row k < box_row k)%nat) by (apply Nat.div_lt_upper_bound; [exact Z|exact Hn]).
  set (i := (n mod box_row k)%nat) in *. set (j := (n / box_row k)%nat) in *. assert (En : n = node i j) by (unfold box_node; lia). rewrite En. clearbody i j. unfold box_row in Hi, Hj.
  assert (U : forall p q, (p <= k /\ q <= k)%nat -> In (node i j) (ids_list (el_ids (up (p, q)))) -> exists el, In el els /\ In (node i j) (ids_list (el_ids el))).
  { intros p q L I. exists (up (p, q)). split; [apply in_box; left; exists p, q; split; [exact L|reflexivity]|exact I]. }
  assert (D : forall p q, (p <= k /\ q <= k)%nat -> In (node i j) (ids_list (el_ids (down (p, q)))) -> exists el, In el els /\ In (node i j) (ids_list (el_ids el))).
  { intros p q L I. exists (down (p, q)). split; [apply in_box; right; exists p, q; split; [exact L|reflexivity]|exact I]. }
  unfold box_up, box_down, box_el, ids_list in U, D. cbn [el_ids c0 c1 c2 c3 c4 c5 In] in U, D.
  destruct (Nat.Even_or_Odd i) as [[p Ei]|[p Ei]], (Nat.Even_or_Odd j) as [[q Ej]|[q Ej]]; subst i j.
  - destruct (le_lt_dec p k) as [Lp|Lp], (le_lt_dec q k) as [Lq|Lq].
    + apply (U p q (conj Lp Lq)). left; reflexivity.
    + destruct q as [|q]; [lia|]. apply (U p q ltac:(lia)). right; right; left. f_equal; lia.
    + destruct p as [|p]; [lia|]. apply (U p q ltac:(lia)). right; left. f_equal; lia.
    + destruct p as [|p]; [lia|]. destruct q as [|q]; [lia|]. apply (D p q ltac:(lia)). right; left. f_equal; lia.
  - destruct (le_lt_dec p k) as [Lp|Lp]; [apply (U p q ltac:(lia)); tauto|]. destruct p as [|p]; [lia|]. apply (D p q ltac:(lia)). do 3 right; left. f_equal; lia.
  - destruct (le_lt_dec q k) as [Lq|Lq]; [apply (U p q ltac:(lia)); tauto|]. destruct q as [|q]; [lia|]. apply (D p q ltac:(lia)). do 4 right; left. f_equal; lia.
  - apply (U p q ltac:(lia)). tauto.
Qed.
Lemma box_connected : connected els.
Proof.
  assert (I : forall p q, (p <= k /\ q <= k)%nat -> In (up (p, q)) els) by (intros p q L; apply in_box; left; exists p, q; split; [exact L|reflexivity]).
  assert (Sx : forall p q, share_node (up (S p, q)) (up (p, q))).
  { intros p q. exists (node (2 * p + 2) (2 * q)). unfold box_up, box_el, ids_list. cbn [el_ids c0 c1 c2 c3 c4 c5 In]. split; [left; f_equal; lia|tauto]. }
  assert (Sy : forall p q, share_node (up (p, S q)) (up (p, q))).
  { intros p q. exists (node (2 * p) (2 * q + 2)). unfold box_up, box_el, ids_list. cbn [el_ids c0 c1 c2 c3 c4 c5 In]. split; [left; f_equal; lia|tauto]. }
  assert (L0 : forall q, (q <= k)%nat -> linked els (up (0%nat, q)) (up (0%nat, 0%nat))).
  { induction q as [|q IH]; intros L; [apply linked_one; eexists; split; left; reflexivity|]. apply (linked_cons els _ (up (0%nat, q))); [apply I; lia|apply Sy|apply IH; lia]. }
  assert (L1 : forall p q, (p <= k /\ q <= k)%nat -> linked els (up (p, q)) (up (0%nat, 0%nat))).
  { induction p as [|p IH]; intros q L; [apply L0; lia|]. apply (linked_cons els _ (up (p, q))); [apply I; lia|apply Sx|apply IH; lia]. }
  apply (linked_connected els (up (0%nat, 0%nat))); [apply I; lia|]. intros e He. apply in_box in He. destruct He as [(p & q & L & ->)|(p & q & L & ->)]; [apply L1, L|].
  apply (linked_cons els _ (up (p, q))); [apply I; lia| |apply L1; lia]. exists (node (2 * p + 2) (2 * q)). unfold box_up, box_down, box_el, ids_list. cbn [el_ids c0 c1 c2 c3 c4 c5 In]. tauto.
Qed.

(** ** The free sides *)
Definition bside_h (c : nat * nat) : nat * nat * nat := let '(p, q) := c in (node (2 * p) (2 * q), node (2 * p + 2) (2 * q), node (2 * p + 1) (2 * q)).
Definition bside_d (c : nat * nat) : nat * nat * nat := let '(p, q) := c in (node (2 * p + 2) (2 * q), node (2 * p) (2 * q + 2), node (2 * p + 1) (2 * q + 1)).
Definition bside_v (c : nat * nat) : nat * nat * nat := let '(p, q) := c in (node (2 * p) (2 * q + 2), node (2 * p) (2 * q), node (2 * p) (2 * q + 1)).
Definition row_bottom : list (nat * nat) := map (fun p => (p, 0%nat)) (seq 0 (S k)).
Definition row_right : list (nat * nat) := map (fun q => (k, q)) (seq 0 (S k)).
Definition row_top : list (nat * nat) := map (fun i => ((k - i)%nat, k)) (seq 0 (S k)).
Definition row_left : list (nat * nat) := map (fun i => (0%nat, (k - i)%nat)) (seq 0 (S k)).
Definition inner_h : list (nat * nat) := list_prod (seq 0 (S k)) (seq 0 k).
Definition inner_v : list (nat * nat) := list_prod (seq 0 k) (seq 0 (S k)).
Definition box_free : list (nat * nat * nat) :=
  map bside_h row_bottom ++ map (fun c => flip (bside_v (advance c))) row_right ++ map (fun c => flip (bside_h (raise c))) row_top ++ map bside_v row_left.
Lemma nodup_inner : NoDup (box_cells k) /\ NoDup inner_h /\ NoDup inner_v.
Proof. unfold box_cells, inner_h, inner_v. repeat split; apply nodup_prod; apply seq_NoDup. Qed.
Lemma nodup_rows : NoDup row_bottom /\ NoDup row_right /\ NoDup row_top /\ NoDup row_left.
Proof. unfold row_bottom, row_right, row_top, row_left. repeat split; (apply nodup_map; [apply seq_NoDup|]); intros i j I J E; apply in_seq in I, J; injection E; lia. Qed.
Lemma cells_rows : Permutation (box_cells k) (row_bottom ++ map raise inner_h) /\ Permutation (box_cells k) (row_top ++ inner_h) /\
  Permutation (box_cells k) (row_left ++ map advance inner_v) /\ Permutation (box_cells k) (row_right ++ inner_v).
Proof.
  destruct nodup_inner as (Nc & Nh & Nv). destruct nodup_rows as (Nb & Nr & Nt & Nl). unfold inner_h, inner_v in *.
  assert (Rh : NoDup (map raise (list_prod (seq 0 (S k)) (seq 0 k)))) by (apply nodup_map; [exact Nh|]; intros [a1 a2] [e1 e2] _ _ E; unfold raise in E; cbn [fst snd] in E; injection E as -> ->; reflexivity).
  assert (Av : NoDup (map advance (list_prod (seq 0 k) (seq 0 (S k))))) by (apply nodup_map; [exact Nv|]; intros [a1 a2] [e1 e2] _ _ E; unfold advance in E; cbn [fst snd] in E; injection E as -> ->; reflexivity).
  repeat split; (apply NoDup_Permutation; [exact Nc|apply nodup_app; try assumption|]).
  - intros x. unfold row_bottom. rewrite !in_map_iff. intros (i & <- & _) ([u v] & E & _). unfold raise in E. discriminate.
  - intros [p q]. rewrite in_app_iff, in_cells. unfold row_bottom. rewrite !in_map_iff. split.
    + intros H. destruct q as [|q]; [left; exists p; split; [reflexivity|apply in_seq; lia]|right; exists (p, q); split; [reflexivity|apply in_prod_iff; rewrite !in_seq; lia]].
    + intros [(i & E & I)|([u v] & E & I)]; [injection E as <- <-; apply in_seq in I; lia|unfold raise in E; cbn [fst snd] in E; injection E as <- <-; apply in_prod_iff in I; rewrite !in_seq in I; lia].
  - intros [p q]. unfold row_top. rewrite in_map_iff, in_prod_iff, !in_seq. intros (i & E & _) I. injection E as <- <-. lia.
  - intros [p q]. rewrite in_app_iff, in_cells, in_prod_iff, !in_seq. unfold row_top. rewrite in_map_iff. split.
    + intros H. destruct (Nat.eq_dec q k) as [->|Ne]; [left; exists (k - p)%nat; split; [f_equal; lia|apply in_seq; lia]|right; lia].
    + intros [(i & E & I)|I]; [injection E as <- <-; apply in_seq in I; lia|lia].
  - intros x. unfold row_left. rewrite !in_map_iff. intros (i & <- & _) ([u v] & E & _). unfold advance in E. discriminate.
  - intros [p q]. rewrite in_app_iff, in_cells. unfold row_left. rewrite !in_map_iff. split.
    + intros H. destruct p as [|p]; [left; exists (k - q)%nat; split; [f_equal; lia|apply in_seq; lia]|right; exists (p, q); split; [reflexivity|apply in_prod_iff; rewrite !in_seq; lia]].
    + intros [(i & E & I)|([u v] & E & I)]; [injection E as <- <-; apply in_seq in I; lia|unfold advance in E; cbn [fst snd] in E; injection E as <- <-; apply in_prod_iff in I; rewrite !in_seq in I; lia].
  - intros [p q]. unfold row_right. rewrite in_map_iff, in_prod_iff, !in_seq. intros (i & E & _) I. injection E as <- <-. lia.
  - intros [p q]. rewrite in_app_iff, in_cells, in_prod_iff, !in_seq. unfold row_right. rewrite in_map_iff. split.
    + intros H. destruct (Nat.eq_dec p k) as [->|Ne]; [left; exists q; split; [reflexivity|apply in_seq; lia]|right; lia].
    + intros [(i & E & I)|I]; [injection E as <- <-; apply in_seq in I; lia|lia].
Qed.
Lemma bdown_sides c : turned_sides (down c) = [flip (bside_v (advance c)); flip (bside_h (raise c)); flip (bside_d c)].
Proof.
  destruct c as [p q]. unfold turned_sides, box_down, box_el, bside_v, bside_h, bside_d, advance, raise, flip. cbn [fst snd el_ids c0 c1 c2 c3 c4 c5].
  replace (2 * S p)%nat with (2 * p + 2)%nat by lia. replace (2 * S q)%nat with (2 * q + 2)%nat by lia. reflexivity.
Qed.
Lemma box_free_sides : free_sides els box_free.
Proof.
  set (V := map (fun c => bside_v (advance c)) inner_v). set (H := map (fun c => bside_h (raise c)) inner_h). set (D := map bside_d (box_cells k)).
  exists (V ++ H ++ D). unfold box_grid. rewrite map_app, concat_app, !map_map.
  rewrite (map_ext (fun c => turned_sides (up c)) (fun c => [bside_h c; bside_d c; bside_v c])) by (intros [p q]; reflexivity).
  rewrite (map_ext (fun c => turned_sides (down c)) (fun c => [flip (bside_v (advance c)); flip (bside_h (raise c)); flip (bside_d c)])) by (intros c; apply bdown_sides).
  destruct cells_rows as (Eb & Et & El & Er).
  set (hb := map bside_h row_bottom). set (vr := map (fun c => flip (bside_v (advance c))) row_right). set (ht := map (fun c => flip (bside_h (raise c))) row_top). set (vl := map bside_v row_left).
  assert (P1 : Permutation (map bside_h (box_cells k)) (hb ++ H)) by (eapply Permutation_trans; [apply Permutation_map, Eb|rewrite map_app, map_map; apply Permutation_refl]).
  assert (P2 : Permutation (map bside_v (box_cells k)) (vl ++ V)) by (eapply Permutation_trans; [apply Permutation_map, El|rewrite map_app, map_map; apply Permutation_refl]).
  assert (P3 : Permutation (map (fun c => flip (bside_v (advance c))) (box_cells k)) (vr ++ map flip V)) by (eapply Permutation_trans; [apply Permutation_map, Er|unfold V; rewrite map_app, map_map; apply Permutation_refl]).
  assert (P4 : Permutation (map (fun c => flip (bside_h (raise c))) (box_cells k)) (ht ++ map flip H)) by (eapply Permutation_trans; [apply Permutation_map, Et|unfold H; rewrite map_app, map_map; apply Permutation_refl]).
  assert (P5 : map (fun c => flip (bside_d c)) (box_cells k) = map flip D) by (unfold D; rewrite map_map; reflexivity).
  eapply Permutation_trans; [apply Permutation_app; apply three_lists|]. rewrite P5.
  eapply Permutation_trans; [apply Permutation_app; [apply Permutation_app; [exact P1|apply Permutation_app; [apply Permutation_refl|exact P2]]|apply Permutation_app; [exact P3|apply Permutation_app; [exact P4|apply Permutation_refl]]]|]. fold D.
  apply Permutation_sym. eapply Permutation_trans; [apply Permutation_app_head; apply two_lists|]. rewrite map_id, !map_app. unfold box_free. fold hb vr ht vl.
  generalize (map flip V) (map flip H) (map flip D). intros V' H' D'. clear. generalize hb vr ht vl H V D. clear. intros hb vr ht vl H V D.
  apply Permutation_sym. rewrite !app_assoc_reverse. apply Permutation_app_head.
  (* move vr, ht, vl to the front *)
  transitivity (vr ++ H ++ D ++ vl ++ V ++ V' ++ ht ++ H' ++ D').
  { transitivity ((H ++ D ++ vl ++ V) ++ vr ++ (V' ++ ht ++ H' ++ D')); [rewrite !app_assoc_reverse; reflexivity|]. etransitivity; [apply Permutation_app_swap_app|]. rewrite !app_assoc_reverse. reflexivity. }
  apply Permutation_app_head. transitivity (ht ++ H ++ D ++ vl ++ V ++ V' ++ H' ++ D').
  { transitivity ((H ++ D ++ vl ++ V ++ V') ++ ht ++ (H' ++ D')); [rewrite !app_assoc_reverse; reflexivity|]. etransitivity; [apply Permutation_app_swap_app|]. rewrite !app_assoc_reverse. reflexivity. }
  apply Permutation_app_head. transitivity (vl ++ H ++ D ++ V ++ V' ++ H' ++ D').
  { transitivity ((H ++ D) ++ vl ++ (V ++ V' ++ H' ++ D')); [rewrite !app_assoc_reverse; reflexivity|]. etransitivity; [apply Permutation_app_swap_app|]. rewrite !app_assoc_reverse. reflexivity. }
  apply Permutation_app_head. transitivity ((V ++ H ++ D) ++ V' ++ H' ++ D'); [|rewrite !app_assoc_reverse; reflexivity].
  transitivity ((H ++ D) ++ V ++ (V' ++ H' ++ D')); [rewrite !app_assoc_reverse; reflexivity|]. etransitivity; [apply Permutation_app_swap_app|]. rewrite !app_assoc_reverse. reflexivity.
Qed.
Lemma box_boundary : same_boundary (mesh_edges els) (S_Section.ring_edges m (rectangle x0 y0 b d)).
Proof.
  pose proof bn_pos as HN. assert (EN : INR k = N - 1) by (unfold N; rewrite S_INR; ring).
  eapply sb_trans; [apply (free_outline (box_size k) X Y els box_free m box_mesh); [intros el I; apply in_box in I; destruct I as [(p & q & _ & ->)|(p & q & _ & ->)]; reflexivity|exact box_free_sides]|].
  unfold box_free, row_bottom, row_right, row_top, row_left. rewrite !map_app, !map_map.
  pose (g1 := fun i : nat => (x0 + INR i * (b / N), y0 + INR i * 0) : point).
  pose (g2 := fun i : nat => (x0 + b + INR i * 0, y0 + INR i * (d / N)) : point).
  pose (g3 := fun i : nat => (x0 + b + INR i * (- b / N), y0 + d + INR i * 0) : point).
  pose (g4 := fun i : nat => (x0 + INR i * 0, y0 + d + INR i * (- d / N)) : point).
  rewrite (map_ext_in (fun x => side_edge m X Y (bside_h (x, 0%nat))) (fun i => (m, g1 i, g1 (S i)))).
  2:{ intros i Hi. apply in_seq in Hi. unfold side_edge, bside_h, g1. rewrite S_INR. at_box. change (INR 0) with 0. apply (f_equal2 pair); [apply (f_equal2 pair); [reflexivity|]|]; apply (f_equal2 pair); field; lra. }
  rewrite (map_ext_in (fun x => side_edge m X Y (flip (bside_v (advance (k, x))))) (fun i => (m, g2 i, g2 (S i)))).
  2:{ intros i Hi. apply in_seq in Hi. unfold side_edge, bside_v, advance, flip, g2. cbn [fst snd]. at_box. rewrite ?S_INR, ?EN. apply (f_equal2 pair); [apply (f_equal2 pair); [reflexivity|]|]; apply (f_equal2 pair); field; lra. }
  rewrite (map_ext_in (fun x => side_edge m X Y (flip (bside_h (raise ((k - x)%nat, k))))) (fun i => (m, g3 i, g3 (S i)))).
  2:{ intros i Hi. apply in_seq in Hi. unfold side_edge, bside_h, raise, flip, g3. cbn [fst snd]. at_box. rewrite minus_INR by lia. rewrite ?S_INR, ?EN. apply (f_equal2 pair); [apply (f_equal2 pair); [reflexivity|]|]; apply (f_equal2 pair); field; lra. }
  rewrite (map_ext_in (fun x => side_edge m X Y (bside_v (0%nat, (k - x)%nat))) (fun i => (m, g4 i, g4 (S i)))).
  2:{ intros i Hi. apply in_seq in Hi. unfold side_edge, bside_v, g4. at_box. rewrite minus_INR by lia. rewrite ?S_INR, ?EN. change (INR 0) with 0. apply (f_equal2 pair); [apply (f_equal2 pair); [reflexivity|]|]; apply (f_equal2 pair); field; lra. }
  assert (C : forall (g : nat -> point) (p e q : point), (forall i, g i = (fst p + INR i * fst e, snd p + INR i * snd e)) -> g 0%nat = p -> g (S k) = q -> same_boundary (map (fun i => (m, g i, g (S i))) (seq 0 (S k))) [(m, p, q)]).
  { intros g p e q G G0 G1. pose proof (chain_edge m g p e k [] G) as Ch. rewrite app_nil_r, G0, G1 in Ch. exact Ch. }
  assert (C1 : same_boundary (map (fun i => (m, g1 i, g1 (S i))) (seq 0 (S k))) [(m, (x0, y0), (x0 + b, y0))]).
  { apply (C g1 (x0, y0) (b / N, 0)); [reflexivity| |]; unfold g1; [change (INR 0) with 0|fold N]; apply (f_equal2 pair); field; lra. }
  assert (C2 : same_boundary (map (fun i => (m, g2 i, g2 (S i))) (seq 0 (S k))) [(m, (x0 + b, y0), (x0 + b, y0 + d))]).
  { apply (C g2 (x0 + b, y0) (0, d / N)); [reflexivity| |]; unfold g2; [change (INR 0) with 0|fold N]; apply (f_equal2 pair); field; lra. }
  assert (C3 : same_boundary (map (fun i => (m, g3 i, g3 (S i))) (seq 0 (S k))) [(m, (x0 + b, y0 + d), (x0, y0 + d))]).
  { apply (C g3 (x0 + b, y0 + d) (- b / N, 0)); [reflexivity| |]; unfold g3; [change (INR 0) with 0|fold N]; apply (f_equal2 pair); field; lra. }
  assert (C4 : same_boundary (map (fun i => (m, g4 i, g4 (S i))) (seq 0 (S k))) [(m, (x0, y0 + d), (x0, y0))]).
  { apply (C g4 (x0, y0 + d) (0, - d / N)); [reflexivity| |]; unfold g4; [change (INR 0) with 0|fold N]; apply (f_equal2 pair); field; lra. }
  exact (sb_app _ _ _ _ C1 (sb_app _ _ _ _ C2 (sb_app _ _ _ _ C3 C4))).
Qed.
Lemma box_free_in i j s : In (i, j, s) box_free -> on_rectangle_side x0 y0 b d (X i, Y i) (X j, Y j).
Proof.
  pose proof bn_pos as HN. assert (EN : INR k = N - 1) by (unfold N; rewrite S_INR; ring).
  unfold box_free, row_bottom, row_right, row_top, row_left. rewrite !map_map, !in_app_iff, !in_map_iff. unfold on_rectangle_side. cbn [fst snd].
  intros [(a & J & Ha)|[(a & J & Ha)|[(a & J & Ha)|(a & J & Ha)]]]; apply in_seq in Ha.
  - unfold bside_h in J. injection J as <- <- _. at_box. change (INR 0) with 0. do 2 right; left. split; field; lra.
  - unfold bside_v, advance, flip in J. cbn [fst snd] in J. injection J as <- <- _. at_box. rewrite ?Nat.add_0_r, ?S_INR, ?plus_INR, ?S_INR, ?EN. right; left. split; field; lra.
  - unfold bside_h, raise, flip in J. cbn [fst snd] in J. injection J as <- <- _. at_box. rewrite ?Nat.add_0_r, ?S_INR, ?plus_INR, ?S_INR, ?EN. do 3 right. split; field; lra.
  - unfold bside_v in J. injection J as <- <- _. at_box. change (INR 0) with 0. left. split; field; lra.
Qed.

(** ** Sizes and results *)
Lemma box_fine h sigma : b <= h -> d <= h -> h ^ 2 <= sigma * (b * d / 2) -> fine_mesh_of (h / N) sigma els.
Proof.
  intros B D Sg el I. pose proof bn_pos as HN. assert (Hi : 0 < / N) by (apply Rinv_0_lt_compat, HN).
  assert (Db : 0 <= b / N <= h / N) by (unfold Rdiv; split; [apply Rmult_le_pos; lra|apply Rmult_le_compat_r; lra]).
  assert (Dd : 0 <= d / N <= h / N) by (unfold Rdiv; split; [apply Rmult_le_pos; lra|apply Rmult_le_compat_r; lra]).
  assert (K : (h / N) ^ 2 <= sigma * (b * d / N ^ 2 / 2)).
  { replace ((h / N) ^ 2) with (h ^ 2 * / N ^ 2) by (field; lra). replace (sigma * (b * d / N ^ 2 / 2)) with (sigma * (b * d / 2) * / N ^ 2) by (field; lra). apply Rmult_le_compat_r; [left; apply Rinv_0_lt_compat, pow_lt, HN|exact Sg]. }
  exists (h / N). split; [lra|]. apply in_box in I. destruct I as [(p & q & L & ->)|(p & q & L & ->)].
  - split; [|rewrite bup_orient by apply L; exact K]. destruct (bup_corners p q (proj1 L)) as (A1 & A2 & A3 & A4). cbv zeta in A1, A2, A3, A4. unfold within. repeat split; apply Rabs_le; lra.
  - split; [|rewrite bdown_orient by apply L; exact K]. destruct (bdown_corners p q (proj1 L)) as (A1 & A2 & A3 & A4). cbv zeta in A1, A2, A3, A4. unfold within. repeat split; apply Rabs_le; lra.
Qed.
Lemma box_analysed : m_E m = 1 -> exists w, analysed (box_size k) X Y els (best_solver (box_size k)) false w.
Proof.
  intros Hm. assert (M : forall el, In el els -> m_E (el_mat el) = 1) by (intros el I; apply in_box in I; destruct I as [(p & q & _ & ->)|(p & q & _ & ->)]; exact Hm).
  assert (Ne : els <> []) by (intros E; assert (J : In (up (0%nat, 0%nat)) els) by (apply in_box; left; exists 0%nat, 0%nat; split; [lia|reflexivity]); rewrite E in J; destruct J).
  assert (Pm : pos_moduli els) by (intros el I; rewrite (M el I); lra).
  destruct (analysis_exists (box_size k) X Y els false box_mesh Ne Pm box_connected box_used) as [w W]. exists w. split; [exact box_mesh|]. split; [exact Ne|]. split; [exact Pm|]. split; [intros _; exact M|]. split; [apply best_exact|exact W].
Qed.
End Box.
