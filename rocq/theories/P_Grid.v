(** Proofs about the uniform meshes of a triangle. *)
From Coquelicot Require Import Coquelicot.
From Coq Require Import Reals List Permutation Bool Arith Cantor Lra Lia.
From Verif Require Import Base S_Integral M_Fea S_Fem M_Post M_Section S_Section S_Post S_Warp P_Integral P_Fea P_Geom P_Elem P_Section P_Totals P_Post
  P_Warp P_Warp2 P_Warp3 P_Warp4 P_Warp5 P_Warp9 S_Plastic P_Plastic P_Fibre S_Refine P_Refine S_Prandtl P_Green P_Prandtl S_Converge S_Grid.
Import ListNotations.
Local Open Scope R_scope.

(** ** Pairs of numbers with a bounded sum *)
Lemma in_cells n p q : In (p, q) (cells n) <-> (p + q < n)%nat.
Proof.
  revert p q. induction n as [|n IH]; intros p q; [cbn [cells In]; lia|]. cbn [cells]. rewrite in_app_iff, !in_map_iff. split.
  - intros [(i & E & I)|((i & j) & E & I)]; cbn [fst snd] in E; injection E as <- <-; [apply in_seq in I; lia|apply IH in I; lia].
  - intros H. destruct q as [|q]; [left; exists p; split; [reflexivity|apply in_seq; lia]|right; exists (p, q); split; [reflexivity|apply IH; lia]].
Qed.
Lemma nodup_map {A B} (f : A -> B) l : NoDup l -> (forall x y, In x l -> In y l -> f x = f y -> x = y) -> NoDup (map f l).
Proof.
  intros N. induction N as [|x l H N IH]; intros J; [apply NoDup_nil|]. cbn [map]. apply NoDup_cons.
  - rewrite in_map_iff. intros (y & E & I). apply H. rewrite <- (J y x ltac:(right; exact I) ltac:(left; reflexivity) E). exact I.
  - apply IH. intros a b Ia Ib. apply J; right; assumption.
Qed.
Lemma nodup_app {A} (l l' : list A) : NoDup l -> NoDup l' -> (forall x, In x l -> ~ In x l') -> NoDup (l ++ l').
Proof.
  intros N N' D. induction N as [|x l H N IH]; [exact N'|]. cbn [app]. apply NoDup_cons; [rewrite in_app_iff; intros [I|I]; [exact (H I)|exact (D x ltac:(left; reflexivity) I)]|apply IH; intros y I; apply D; right; exact I].
Qed.
Lemma nodup_cells n : NoDup (cells n).
Proof.
  induction n as [|n IH]; [apply NoDup_nil|]. cbn [cells]. apply nodup_app.
  - apply nodup_map; [apply seq_NoDup|]. intros x y _ _ E. injection E. auto.
  - apply nodup_map; [exact IH|]. intros [a b] [c d] _ _ E. cbn [fst snd] in E. injection E as -> ->. reflexivity.
  - intros x. rewrite !in_map_iff. intros (i & <- & _) (c & E & _). discriminate.
Qed.
(** The pairs below k + 1: those with q = 0 (or p = 0, or p + q = k) and those below k, shifted *)
Definition bottom (k : nat) : list (nat * nat) := map (fun p => (p, 0%nat)) (seq 0 (S k)).
Definition diagonal (k : nat) : list (nat * nat) := map (fun q => ((k - q)%nat, q)) (seq 0 (S k)).
Definition left_side (k : nat) : list (nat * nat) := map (fun i => (0%nat, (k - i)%nat)) (seq 0 (S k)).
Definition raise (c : nat * nat) : nat * nat := (fst c, S (snd c)).
Definition advance (c : nat * nat) : nat * nat := (S (fst c), snd c).
Lemma cells_bottom k : Permutation (cells (S k)) (bottom k ++ map raise (cells k)).
Proof. apply Permutation_refl. Qed.
Lemma cells_diagonal k : Permutation (cells (S k)) (diagonal k ++ cells k).
Proof.
  apply NoDup_Permutation; [apply nodup_cells| |].
  - apply nodup_app; [|apply nodup_cells|].
    + apply nodup_map; [apply seq_NoDup|]. intros x y _ _ E. injection E. auto.
    + intros x. unfold diagonal. rewrite in_map_iff. intros (q & <- & I) J. apply in_seq in I. apply in_cells in J. lia.
  - intros [p q]. rewrite in_app_iff, !in_cells. unfold diagonal. rewrite in_map_iff. split.
    + intros H. destruct (Nat.eq_dec (p + q) k) as [E|E]; [left; exists q; split; [f_equal; lia|apply in_seq; lia]|right; lia].
    + intros [(i & E & I)|H]; [injection E as <- <-; apply in_seq in I; lia|lia].
Qed.
Lemma cells_left k : Permutation (cells (S k)) (left_side k ++ map advance (cells k)).
Proof.
  apply NoDup_Permutation; [apply nodup_cells| |].
  - apply nodup_app.
    + apply nodup_map; [apply seq_NoDup|]. intros x y I J E. apply in_seq in I, J. injection E. lia.
    + apply nodup_map; [apply nodup_cells|]. intros [a b] [c d] _ _ E. unfold advance in E. cbn [fst snd] in E. injection E as -> ->. reflexivity.
    + intros x. unfold left_side. rewrite !in_map_iff. intros (q & <- & I) (c & E & J). unfold advance in E. discriminate.
  - intros [p q]. rewrite in_app_iff, in_cells. unfold left_side. rewrite !in_map_iff. split.
    + intros H. destruct p as [|p]; [left; exists (k - q)%nat; split; [f_equal; lia|apply in_seq; lia]|right; exists (p, q); split; [reflexivity|apply in_cells; lia]].
    + intros [(i & E & I)|((a & b) & E & I)]; [injection E as <- <-; apply in_seq in I; lia|unfold advance in E; cbn [fst snd] in E; injection E as <- <-; apply in_cells in I; lia].
Qed.

(** ** Lists of sides *)
Lemma three_lists {A B} (f g h : A -> B) l : Permutation (concat (map (fun x => [f x; g x; h x]) l)) (map f l ++ map g l ++ map h l).
Proof.
  induction l as [|x l IH]; [apply Permutation_refl|]. cbn [map concat app]. apply perm_skip. apply Permutation_trans with (g x :: h x :: map f l ++ map g l ++ map h l); [do 2 apply perm_skip; exact IH|].
  apply Permutation_trans with (map f l ++ (g x :: h x :: map g l ++ map h l)).
  - apply Permutation_trans with (g x :: map f l ++ (h x :: map g l ++ map h l)); [apply perm_skip, Permutation_middle|apply Permutation_middle].
  - apply Permutation_app_head. cbn [app]. apply perm_skip. apply Permutation_middle.
Qed.
Lemma two_lists {A B} (f g : A -> B) l : Permutation (concat (map (fun x => [f x; g x]) l)) (map f l ++ map g l).
Proof.
  induction l as [|x l IH]; [apply Permutation_refl|]. cbn [map concat app]. apply perm_skip. apply Permutation_trans with (g x :: map f l ++ map g l); [apply perm_skip; exact IH|apply Permutation_middle].
Qed.

(** The outline of a mesh of one material is made of its free sides *)
Definition side_edge (m : material) (X Y : nat -> R) (s : nat * nat * nat) : edge := let '(a, b, _) := s in (m, (X a, Y a), (X b, Y b)).
Lemma free_outline n X Y els free m : mesh_on n X Y els -> (forall el, In el els -> el_mat el = m) -> free_sides els free -> same_boundary (mesh_edges els) (map (side_edge m X Y) free).
Proof.
  intros Hm U [co F]. replace (mesh_edges els) with (map (side_edge m X Y) (concat (map turned_sides els))).
  - eapply sb_trans; [apply sb_perm, Permutation_map, F|]. rewrite map_app. rewrite <- (app_nil_r (map (side_edge m X Y) free)) at 2. apply sb_app; [apply sb_refl|]. clear F.
    induction co as [|[[a b] s] co IH]; [apply sb_refl|]. cbn [map concat app flip side_edge]. eapply sb_trans; [apply sb_cancel|exact IH].
  - unfold mesh_edges. rewrite concat_map, map_map. f_equal. apply map_ext_in. intros el I. destruct (Hm el I) as (_ & _ & _ & EX & EY). destruct (corners_at X Y el EX EY) as (A & B & C).
    unfold el_edges, turned_sides. rewrite A, B, C, (U el I). reflexivity.
Qed.
(** A line of equal segments *)
Lemma chain_edge m (g : nat -> point) (p d : point) k l : (forall i, g i = (fst p + INR i * fst d, snd p + INR i * snd d)) ->
  same_boundary (map (fun i => (m, g i, g (S i))) (seq 0 (S k)) ++ l) ((m, g 0%nat, g (S k)) :: l).
Proof.
  intros G. revert l. induction k as [|k IH]; intros l; [apply sb_refl|]. rewrite seq_S, map_app, <- app_assoc. cbn [map app]. rewrite Nat.add_0_l. eapply sb_trans; [apply IH|].
  apply sb_sym. pose proof (sb_split m (g 0%nat) (g (S (S k))) (INR (S k) / INR (S (S k))) l) as Sp. cbv zeta in Sp.
  replace (fst (g 0%nat) + INR (S k) / INR (S (S k)) * (fst (g (S (S k))) - fst (g 0%nat)), snd (g 0%nat) + INR (S k) / INR (S (S k)) * (snd (g (S (S k))) - snd (g 0%nat))) with (g (S k)) in Sp; [exact Sp|].
  rewrite !G. cbn [fst snd]. pose proof (pos_INR k). assert (INR (S (S k)) <> 0) by (rewrite !S_INR; lra). f_equal; change (INR 0) with 0; field; assumption.
Qed.

(** ** Chains of elements with common nodes *)
Definition linked (els : list tri6) (a b : tri6) : Prop := exists path : list tri6, (forall e, In e path -> In e els) /\
  (fix chain (a : tri6) (l : list tri6) : Prop := match l with [] => share_node a b | c :: l' => share_node a c /\ chain c l' end) a path.
Lemma linked_one els a b : share_node a b -> linked els a b.
Proof. intros S. exists []. split; [intros e []|exact S]. Qed.
Lemma linked_cons els a c b : In c els -> share_node a c -> linked els c b -> linked els a b.
Proof. intros I S (path & H & C). exists (c :: path). split; [intros e [<-|E]; [exact I|exact (H e E)]|split; assumption]. Qed.
Lemma linked_trans els a b c : In b els -> linked els a b -> linked els b c -> linked els a c.
Proof.
  intros I (path & H & C) K. revert a H C. induction path as [|d path IH]; intros a H C; [exact (linked_cons els a b c I C K)|].
  destruct C as [S C]. apply (linked_cons els a d c); [apply H; left; reflexivity|exact S|]. apply IH; [intros e E; apply H; right; exact E|exact C].
Qed.
Lemma linked_sym els a b : In a els -> linked els a b -> linked els b a.
Proof.
  assert (Sy : forall x y, share_node x y -> share_node y x) by (intros x y (i & P1 & P2); exists i; split; assumption).
  intros I (path & H & C). revert a I H C. induction path as [|d path IH]; intros a I H C; [apply linked_one, Sy, C|].
  destruct C as [S C]. apply (linked_trans els b d a); [apply H; left; reflexivity|apply IH; [apply H; left; reflexivity|intros e E; apply H; right; exact E|exact C]|apply linked_one, Sy, S].
Qed.
Lemma linked_connected els a : In a els -> (forall b, In b els -> linked els b a) -> connected els.
Proof. intros I H x y Hx Hy. exact (linked_trans els x a y I (H x Hx) (linked_sym els y a Hy (H y Hy))). Qed.

Section Grid.
Context (P Q T : point) (m : material) (k : nat).
Hypothesis O : 0 < orient P Q T.
Let N := INR (S k).
Notation X := (grid_x P Q T k).
Notation Y := (grid_y P Q T k).
Notation els := (grid P Q T m k).

Lemma n_pos : 0 < N. Proof. apply lt_0_INR. lia. Qed.
Lemma grid_x_at i j : X (grid_node i j) = fst P + (INR i * (fst Q - fst P) + INR j * (fst T - fst P)) / (2 * N).
Proof. unfold grid_x, grid_node. rewrite cancel_of_to. reflexivity. Qed.
Lemma grid_y_at i j : Y (grid_node i j) = snd P + (INR i * (snd Q - snd P) + INR j * (snd T - snd P)) / (2 * N).
Proof. unfold grid_y, grid_node. rewrite cancel_of_to. reflexivity. Qed.
Lemma node_inj i j i' j' : grid_node i j = grid_node i' j' -> i = i' /\ j = j'.
Proof. unfold grid_node. intros E. apply (f_equal of_nat) in E. rewrite !cancel_of_to in E. injection E. auto. Qed.
Lemma node_below i j : (grid_node i j < grid_size k)%nat <-> (i + j <= 2 * k + 2)%nat.
Proof.
  unfold grid_node, grid_size. pose proof (to_nat_spec i j) as A. pose proof (to_nat_spec (2 * k + 3) 0) as B. remember (to_nat (i, j)) as a. remember (to_nat (2 * k + 3, 0)%nat) as b. clear Heqa Heqb.
  remember (j + i)%nat as s. remember (2 * k + 3)%nat as K. rewrite !Nat.add_0_l in B. split; intros H.
  - assert (~ (K <= s)%nat) by (intros L; assert (K * S K <= s * S s)%nat by (apply Nat.mul_le_mono; lia); lia). lia.
  - assert (S s * S (S s) <= K * S K)%nat by (apply Nat.mul_le_mono; lia). nia.
Qed.

Ltac at_nodes := rewrite ?grid_x_at, ?grid_y_at, ?plus_INR, ?mult_INR; change (INR 2) with 2; change (INR 1) with 1.
Lemma up_corners p q : let e := grid_up P Q T m k (p, q) in let a := corner_a e in let b := corner_b e in let c := corner_c e in
  fst b - fst a = (fst Q - fst P) / N /\ snd b - snd a = (snd Q - snd P) / N /\ fst c - fst a = (fst T - fst P) / N /\ snd c - snd a = (snd T - snd P) / N.
Proof.
  intros e a b c. pose proof n_pos. unfold a, b, c, e, corner_a, corner_b, corner_c, grid_up, grid_el, gather. cbn [el_x el_y c0 c1 c2 v0 v1 v2 fst snd]. at_nodes. repeat split; field; lra.
Qed.
Lemma down_corners p q : let e := grid_down P Q T m k (p, q) in let a := corner_a e in let b := corner_b e in let c := corner_c e in
  fst b - fst a = (fst T - fst P) / N /\ snd b - snd a = (snd T - snd P) / N /\ fst c - fst a = (fst T - fst Q) / N /\ snd c - snd a = (snd T - snd Q) / N.
Proof.
  intros e a b c. pose proof n_pos. unfold a, b, c, e, corner_a, corner_b, corner_c, grid_down, grid_el, gather. cbn [el_x el_y c0 c1 c2 v0 v1 v2 fst snd]. at_nodes. repeat split; field; lra.
Qed.
Lemma orient_diff (a b c : point) : orient a b c = (fst b - fst a) * (snd c - snd a) - (fst c - fst a) * (snd b - snd a).
Proof. unfold orient. ring. Qed.
Lemma up_orient c : let e := grid_up P Q T m k c in orient (corner_a e) (corner_b e) (corner_c e) = orient P Q T / N ^ 2.
Proof. destruct c as [p q]. intros e. pose proof n_pos. destruct (up_corners p q) as (A & B & C & D). fold e in A, B, C, D. rewrite orient_diff, A, B, C, D, (orient_diff P Q T). field. lra. Qed.
Lemma down_orient c : let e := grid_down P Q T m k c in orient (corner_a e) (corner_b e) (corner_c e) = orient P Q T / N ^ 2.
Proof. destruct c as [p q]. intros e. pose proof n_pos. destruct (down_corners p q) as (A & B & C & D). fold e in A, B, C, D. rewrite orient_diff, A, B, C, D, (orient_diff P Q T). field. lra. Qed.
Lemma small_orient : 0 < orient P Q T / N ^ 2.
Proof. apply Rdiv_lt_0_compat; [exact O|apply pow_lt, n_pos]. Qed.

Lemma up_valid c : valid_el (grid_up P Q T m k c).
Proof.
  split; [|rewrite up_orient; apply small_orient]. destruct c as [p q]. pose proof n_pos.
  unfold straight, corner_a, corner_b, corner_c, grid_up, grid_el, side_nodes, gather. cbn [el_x el_y c0 c1 c2 c3 c4 c5 v0 v1 v2 fst snd]. at_nodes. split; f_equal; field; lra.
Qed.
Lemma down_valid c : valid_el (grid_down P Q T m k c).
Proof.
  split; [|rewrite down_orient; apply small_orient]. destruct c as [p q]. pose proof n_pos.
  unfold straight, corner_a, corner_b, corner_c, grid_down, grid_el, side_nodes, gather. cbn [el_x el_y c0 c1 c2 c3 c4 c5 v0 v1 v2 fst snd]. at_nodes. split; f_equal; field; lra.
Qed.
Lemma in_grid el : In el els <-> (exists p q, (p + q <= k)%nat /\ el = grid_up P Q T m k (p, q)) \/ (exists p q, (p + q < k)%nat /\ el = grid_down P Q T m k (p, q)).
Proof.
  unfold grid. rewrite in_app_iff, !in_map_iff. split.
  - intros [([p q] & <- & I)|([p q] & <- & I)]; apply in_cells in I; [left|right]; exists p, q; (split; [lia|reflexivity]).
  - intros [(p & q & L & ->)|(p & q & L & ->)]; [left|right]; exists (p, q); (split; [reflexivity|apply in_cells; lia]).
Qed.
Lemma grid_mesh : mesh_on (grid_size k) X Y els.
Proof.
  assert (D : forall l, NoDup l -> NoDup (map (fun c : nat * nat => grid_node (fst c) (snd c)) l)) by (intros l Hl; apply nodup_map; [exact Hl|]; intros [a b] [c d] _ _ E; cbn [fst snd] in E; apply node_inj in E; destruct E as [-> ->]; reflexivity).
  assert (ND : forall a b c d e f a' b' c' d' e' f' : nat, NoDup [(a, a'); (b, b'); (c, c'); (d, d'); (e, e'); (f, f')] -> NoDup [grid_node a a'; grid_node b b'; grid_node c c'; grid_node d d'; grid_node e e'; grid_node f f']) by (intros; exact (D [(a, a'); (b, b'); (c, c'); (d, d'); (e, e'); (f, f')] ltac:(assumption))).
  assert (NE : forall (a b : nat) l, (forall c d, In (c, d) l -> a <> c \/ b <> d) -> NoDup l -> NoDup ((a, b) :: l)) by (intros a b l H Hl; apply NoDup_cons; [intros I; destruct (H a b I); congruence|exact Hl]).
  intros el I. apply in_grid in I. destruct I as [(p & q & L & ->)|(p & q & L & ->)].
  - split; [apply up_valid|]. split; [|split; [|split; reflexivity]].
    + unfold grid_up, grid_el, ids_list. cbn [el_ids c0 c1 c2 c3 c4 c5]. apply ND. repeat (apply NE; [cbn [In]; intros c d J; repeat (destruct J as [J|J]; [injection J as <- <-; lia|]); destruct J|]). apply NoDup_nil.
    + intros i. unfold grid_up, grid_el, ids_list. cbn [el_ids c0 c1 c2 c3 c4 c5 In]. intros J. repeat (destruct J as [J|J]; [subst i; apply node_below; lia|]). destruct J.
  - split; [apply down_valid|]. split; [|split; [|split; reflexivity]].
    + unfold grid_down, grid_el, ids_list. cbn [el_ids c0 c1 c2 c3 c4 c5]. apply ND. repeat (apply NE; [cbn [In]; intros c d J; repeat (destruct J as [J|J]; [injection J as <- <-; lia|]); destruct J|]). apply NoDup_nil.
    + intros i. unfold grid_down, grid_el, ids_list. cbn [el_ids c0 c1 c2 c3 c4 c5 In]. intros J. repeat (destruct J as [J|J]; [subst i; apply node_below; lia|]). destruct J.
Qed.

(** Every node is used *)
Lemma grid_used : all_used (grid_size k) els.
Proof.
  intros n Hn. destruct (of_nat n) as [i j] eqn:E. assert (En : n = grid_node i j) by (unfold grid_node; rewrite <- E, cancel_to_of; reflexivity). rewrite En in Hn |- *. apply node_below in Hn.
  assert (U : forall p q, (p + q <= k)%nat -> In (grid_node i j) (ids_list (el_ids (grid_up P Q T m k (p, q)))) -> exists el, In el els /\ In (grid_node i j) (ids_list (el_ids el))).
  { intros p q L I. exists (grid_up P Q T m k (p, q)). split; [apply in_grid; left; exists p, q; split; [exact L|reflexivity]|exact I]. }
  destruct (Nat.Even_or_Odd i) as [[p Hi]|[p Hi]], (Nat.Even_or_Odd j) as [[q Hj]|[q Hj]]; subst i j.
  - destruct (le_lt_dec (p + q) k) as [L|L]; [apply (U p q L); left; reflexivity|]. destruct p as [|p].
    + destruct q as [|q]; [lia|]. apply (U 0%nat q ltac:(lia)). unfold grid_up, grid_el, ids_list. cbn [el_ids c0 c1 c2 c3 c4 c5 In]. right; right; left. f_equal; lia.
    + apply (U p q ltac:(lia)). unfold grid_up, grid_el, ids_list. cbn [el_ids c0 c1 c2 c3 c4 c5 In]. right; left. f_equal; lia.
  - apply (U p q ltac:(lia)). unfold grid_up, grid_el, ids_list. cbn [el_ids c0 c1 c2 c3 c4 c5 In]. tauto.
  - apply (U p q ltac:(lia)). unfold grid_up, grid_el, ids_list. cbn [el_ids c0 c1 c2 c3 c4 c5 In]. tauto.
  - apply (U p q ltac:(lia)). unfold grid_up, grid_el, ids_list. cbn [el_ids c0 c1 c2 c3 c4 c5 In]. tauto.
Qed.
Lemma grid_connected : connected els.
Proof.
  assert (I : forall p q, (p + q <= k)%nat -> In (grid_up P Q T m k (p, q)) els) by (intros p q L; apply in_grid; left; exists p, q; split; [exact L|reflexivity]).
  assert (Sx : forall p q, share_node (grid_up P Q T m k (S p, q)) (grid_up P Q T m k (p, q))).
  { intros p q. exists (grid_node (2 * p + 2) (2 * q)). unfold grid_up, grid_el, ids_list. cbn [el_ids c0 c1 c2 c3 c4 c5 In]. split; [left; f_equal; lia|tauto]. }
  assert (Sy : forall p q, share_node (grid_up P Q T m k (p, S q)) (grid_up P Q T m k (p, q))).
  { intros p q. exists (grid_node (2 * p) (2 * q + 2)). unfold grid_up, grid_el, ids_list. cbn [el_ids c0 c1 c2 c3 c4 c5 In]. split; [left; f_equal; lia|tauto]. }
  assert (L0 : forall q, (q <= k)%nat -> linked els (grid_up P Q T m k (0%nat, q)) (grid_up P Q T m k (0%nat, 0%nat))).
  { induction q as [|q IH]; intros L; [apply linked_one; eexists; split; left; reflexivity|]. apply (linked_cons els _ (grid_up P Q T m k (0%nat, q))); [apply I; lia|apply Sy|apply IH; lia]. }
  assert (L1 : forall p q, (p + q <= k)%nat -> linked els (grid_up P Q T m k (p, q)) (grid_up P Q T m k (0%nat, 0%nat))).
  { induction p as [|p IH]; intros q L; [apply L0; lia|]. apply (linked_cons els _ (grid_up P Q T m k (p, q))); [apply I; lia|apply Sx|apply IH; lia]. }
  apply (linked_connected els (grid_up P Q T m k (0%nat, 0%nat))); [apply I; lia|]. intros b Hb. apply in_grid in Hb. destruct Hb as [(p & q & L & ->)|(p & q & L & ->)]; [apply L1, L|].
  apply (linked_cons els _ (grid_up P Q T m k (p, q))); [apply I; lia| |apply L1; lia]. exists (grid_node (2 * p + 2) (2 * q)). unfold grid_up, grid_down, grid_el, ids_list. cbn [el_ids c0 c1 c2 c3 c4 c5 In]. tauto.
Qed.

(** ** The free sides *)
Definition side_h (c : nat * nat) : nat * nat * nat := let '(p, q) := c in (grid_node (2 * p) (2 * q), grid_node (2 * p + 2) (2 * q), grid_node (2 * p + 1) (2 * q)).
Definition side_d (c : nat * nat) : nat * nat * nat := let '(p, q) := c in (grid_node (2 * p + 2) (2 * q), grid_node (2 * p) (2 * q + 2), grid_node (2 * p + 1) (2 * q + 1)).
Definition side_v (c : nat * nat) : nat * nat * nat := let '(p, q) := c in (grid_node (2 * p) (2 * q + 2), grid_node (2 * p) (2 * q), grid_node (2 * p) (2 * q + 1)).
Definition grid_free : list (nat * nat * nat) := map side_h (bottom k) ++ map side_d (diagonal k) ++ map side_v (left_side k).
Lemma down_sides c : turned_sides (grid_down P Q T m k c) = [flip (side_v (advance c)); flip (side_h (raise c)); flip (side_d c)].
Proof.
  destruct c as [p q]. unfold turned_sides, grid_down, grid_el, side_v, side_h, side_d, advance, raise, flip. cbn [fst snd el_ids c0 c1 c2 c3 c4 c5].
  replace (2 * S p)%nat with (2 * p + 2)%nat by lia. replace (2 * S q)%nat with (2 * q + 2)%nat by lia. reflexivity.
Qed.
Lemma grid_free_sides : free_sides els grid_free.
Proof.
  exists (map (fun c => side_v (advance c)) (cells k) ++ map (fun c => side_h (raise c)) (cells k) ++ map side_d (cells k)).
  set (V := map (fun c => side_v (advance c)) (cells k)). set (H := map (fun c => side_h (raise c)) (cells k)). set (D := map side_d (cells k)).
  unfold grid. rewrite map_app, concat_app, !map_map.
  rewrite (map_ext (fun c => turned_sides (grid_up P Q T m k c)) (fun c => [side_h c; side_d c; side_v c])) by (intros [p q]; reflexivity).
  rewrite (map_ext (fun c => turned_sides (grid_down P Q T m k c)) (fun c => [flip (side_v (advance c)); flip (side_h (raise c)); flip (side_d c)])) by (intros c; apply down_sides).
  eapply Permutation_trans; [apply Permutation_app; apply three_lists|].
  rewrite <- (map_map (fun c => side_v (advance c)) flip), <- (map_map (fun c => side_h (raise c)) flip), <- (map_map side_d flip). fold V H D. rewrite <- !map_app.
  assert (EH : Permutation (map side_h (cells (S k))) (map side_h (bottom k) ++ H)) by (eapply Permutation_trans; [apply Permutation_map, cells_bottom|rewrite map_app, map_map; apply Permutation_refl]).
  assert (ED : Permutation (map side_d (cells (S k))) (map side_d (diagonal k) ++ D)) by (eapply Permutation_trans; [apply Permutation_map, cells_diagonal|rewrite map_app; apply Permutation_refl]).
  assert (EV : Permutation (map side_v (cells (S k))) (map side_v (left_side k) ++ V)) by (eapply Permutation_trans; [apply Permutation_map, cells_left|rewrite map_app, map_map; apply Permutation_refl]).
  apply Permutation_sym. eapply Permutation_trans; [apply Permutation_app_head; apply two_lists|]. rewrite map_id. rewrite app_assoc. apply Permutation_app_tail. apply Permutation_sym.
  eapply Permutation_trans; [apply Permutation_app; [exact EH|apply Permutation_app; [exact ED|exact EV]]|]. unfold grid_free.
  set (h := map side_h (bottom k)). set (d := map side_d (diagonal k)). set (v := map side_v (left_side k)).
  apply Permutation_trans with (h ++ (d ++ v ++ (V ++ H ++ D))); [|rewrite !app_assoc; apply Permutation_refl]. rewrite <- app_assoc. apply Permutation_app_head.
  apply Permutation_trans with (H ++ (d ++ (v ++ (V ++ D)))).
  - apply Permutation_app_head. rewrite <- app_assoc. apply Permutation_app_head. apply Permutation_trans with (v ++ V ++ D); [rewrite (app_assoc v V D); apply Permutation_app_comm|apply Permutation_refl].
  - apply Permutation_trans with ((d ++ v) ++ (H ++ (V ++ D))); [rewrite (app_assoc d v); apply Permutation_app_swap_app|].
    rewrite <- app_assoc. do 2 apply Permutation_app_head. apply Permutation_app_swap_app.
Qed.
Lemma grid_boundary : same_boundary (mesh_edges els) (S_Section.ring_edges m [P; Q; T]).
Proof.
  pose proof n_pos as HN. eapply sb_trans; [apply (free_outline (grid_size k) X Y els grid_free m grid_mesh); [intros el I; apply in_grid in I; destruct I as [(p & q & _ & ->)|(p & q & _ & ->)]; reflexivity|exact grid_free_sides]|].
  unfold grid_free, bottom, diagonal, left_side. rewrite !map_app, !map_map.
  pose (g1 := fun i : nat => (fst P + INR i * ((fst Q - fst P) / N), snd P + INR i * ((snd Q - snd P) / N)) : point).
  pose (g2 := fun i : nat => (fst Q + INR i * ((fst T - fst Q) / N), snd Q + INR i * ((snd T - snd Q) / N)) : point).
  pose (g3 := fun i : nat => (fst T + INR i * ((fst P - fst T) / N), snd T + INR i * ((snd P - snd T) / N)) : point).
  rewrite (map_ext_in (fun x => side_edge m X Y (side_h (x, 0%nat))) (fun i => (m, g1 i, g1 (S i)))).
  2:{ intros i _. unfold side_edge, side_h, g1. rewrite S_INR. at_nodes. change (INR 0) with 0. apply (f_equal2 pair); [apply (f_equal2 pair); [reflexivity|]|]; apply (f_equal2 pair); field; lra. }
  rewrite (map_ext_in (fun x => side_edge m X Y (side_d ((k - x)%nat, x))) (fun i => (m, g2 i, g2 (S i)))).
  2:{ intros i Hi. apply in_seq in Hi. unfold side_edge, side_d, g2. at_nodes. rewrite minus_INR by lia. rewrite S_INR. assert (E : INR k = N - 1) by (unfold N; rewrite S_INR; ring). rewrite E. apply (f_equal2 pair); [apply (f_equal2 pair); [reflexivity|]|]; apply (f_equal2 pair); field; lra. }
  rewrite (map_ext_in (fun x => side_edge m X Y (side_v (0%nat, (k - x)%nat))) (fun i => (m, g3 i, g3 (S i)))).
  2:{ intros i Hi. apply in_seq in Hi. unfold side_edge, side_v, g3. at_nodes. rewrite minus_INR by lia. rewrite S_INR. change (INR 0) with 0. assert (E : INR k = N - 1) by (unfold N; rewrite S_INR; ring). rewrite E. apply (f_equal2 pair); [apply (f_equal2 pair); [reflexivity|]|]; apply (f_equal2 pair); field; lra. }
  set (s1 := map (fun i => (m, g1 i, g1 (S i))) (seq 0 (S k))). set (s2 := map (fun i => (m, g2 i, g2 (S i))) (seq 0 (S k))). set (s3 := map (fun i => (m, g3 i, g3 (S i))) (seq 0 (S k))).
  assert (C1 : same_boundary s1 [(m, P, Q)]).
  { pose proof (chain_edge m g1 P ((fst Q - fst P) / N, (snd Q - snd P) / N) k [] ltac:(reflexivity)) as C. rewrite app_nil_r in C. fold s1 in C.
    replace (g1 0%nat) with P in C by (unfold g1; change (INR 0) with 0; destruct P; cbn [fst snd]; f_equal; ring). replace (g1 (S k)) with Q in C by (unfold g1; fold N; destruct Q; cbn [fst snd]; f_equal; field; lra). exact C. }
  assert (C2 : same_boundary s2 [(m, Q, T)]).
  { pose proof (chain_edge m g2 Q ((fst T - fst Q) / N, (snd T - snd Q) / N) k [] ltac:(reflexivity)) as C. rewrite app_nil_r in C. fold s2 in C.
    replace (g2 0%nat) with Q in C by (unfold g2; change (INR 0) with 0; destruct Q; cbn [fst snd]; f_equal; ring). replace (g2 (S k)) with T in C by (unfold g2; fold N; destruct T; cbn [fst snd]; f_equal; field; lra). exact C. }
  assert (C3 : same_boundary s3 [(m, T, P)]).
  { pose proof (chain_edge m g3 T ((fst P - fst T) / N, (snd P - snd T) / N) k [] ltac:(reflexivity)) as C. rewrite app_nil_r in C. fold s3 in C.
    replace (g3 0%nat) with T in C by (unfold g3; change (INR 0) with 0; destruct T; cbn [fst snd]; f_equal; ring). replace (g3 (S k)) with P in C by (unfold g3; fold N; destruct P; cbn [fst snd]; f_equal; field; lra). exact C. }
  exact (sb_app s1 [(m, P, Q)] (s2 ++ s3) [(m, Q, T); (m, T, P)] C1 (sb_app s2 [(m, Q, T)] s3 [(m, T, P)] C2 C3)).
Qed.

(** ** Sizes and results *)
Lemma grid_fine h sigma : within h P Q T -> h ^ 2 <= sigma * (orient P Q T / 2) -> fine_mesh_of (h / N) sigma els.
Proof.
  intros W Sg el I. pose proof n_pos as HN. destruct W as (W1 & W2 & W3 & W4 & W5 & W6).
  assert (H0 : 0 <= h) by (eapply Rle_trans; [apply Rabs_pos|exact W1]).
  assert (D : forall x, Rabs x <= h -> Rabs (x / N) <= h / N) by (intros x Hx; unfold Rdiv; rewrite Rabs_mult, (Rabs_pos_eq (/ N)) by (left; apply Rinv_0_lt_compat, HN); apply Rmult_le_compat_r; [left; apply Rinv_0_lt_compat, HN|exact Hx]).
  assert (K : (h / N) ^ 2 <= sigma * (orient P Q T / N ^ 2 / 2)).
  { replace ((h / N) ^ 2) with (h ^ 2 * / N ^ 2) by (field; lra). replace (sigma * (orient P Q T / N ^ 2 / 2)) with (sigma * (orient P Q T / 2) * / N ^ 2) by (field; lra). apply Rmult_le_compat_r; [left; apply Rinv_0_lt_compat, pow_lt, HN|exact Sg]. }
  exists (h / N). split; [split; [apply Rmult_le_pos; [exact H0|left; apply Rinv_0_lt_compat, HN]|lra]|].
  apply in_grid in I. destruct I as [(p & q & _ & ->)|(p & q & _ & ->)].
  - split; [|rewrite up_orient; exact K]. destruct (up_corners p q) as (A & B & C & E). cbv zeta in A, B, C, E. unfold within. rewrite A, B, C, E. repeat (split; [apply D; assumption|]).
    split; [replace (fst _ - fst (corner_b _)) with ((fst T - fst Q) / N) by (replace ((fst T - fst Q) / N) with ((fst T - fst P) / N - (fst Q - fst P) / N) by (field; lra); lra); apply D; assumption|].
    replace (snd _ - snd (corner_b _)) with ((snd T - snd Q) / N) by (replace ((snd T - snd Q) / N) with ((snd T - snd P) / N - (snd Q - snd P) / N) by (field; lra); lra). apply D; assumption.
  - split; [|rewrite down_orient; exact K]. destruct (down_corners p q) as (A & B & C & E). cbv zeta in A, B, C, E. unfold within. rewrite A, B, C, E. repeat (split; [apply D; assumption|]).
    split; [replace (fst _ - fst (corner_b _)) with (- ((fst Q - fst P) / N)) by (replace ((fst Q - fst P) / N) with ((fst T - fst P) / N - (fst T - fst Q) / N) by (field; lra); lra); rewrite Rabs_Ropp; apply D; assumption|].
    replace (snd _ - snd (corner_b _)) with (- ((snd Q - snd P) / N)) by (replace ((snd Q - snd P) / N) with ((snd T - snd P) / N - (snd T - snd Q) / N) by (field; lra); lra). rewrite Rabs_Ropp. apply D; assumption.
Qed.
Lemma grid_analysed : m_E m = 1 -> exists w, analysed (grid_size k) X Y els (best_solver (grid_size k)) false w.
Proof.
  intros Hm. assert (M : forall el, In el els -> m_E (el_mat el) = 1) by (intros el I; apply in_grid in I; destruct I as [(p & q & _ & ->)|(p & q & _ & ->)]; exact Hm).
  assert (Ne : els <> []) by (intros E; assert (J : In (grid_up P Q T m k (0%nat, 0%nat)) els) by (apply in_grid; left; exists 0%nat, 0%nat; split; [lia|reflexivity]); rewrite E in J; destruct J).
  assert (Pm : pos_moduli els) by (intros el I; rewrite (M el I); lra).
  destruct (analysis_exists (grid_size k) X Y els false grid_mesh Ne Pm grid_connected grid_used) as [w W]. exists w. split; [exact grid_mesh|]. split; [exact Ne|]. split; [exact Pm|]. split; [intros _; exact M|]. split; [apply best_exact|exact W].
Qed.
(** The free sides lie on the sides of the triangle *)
Lemma grid_free_in a b s : In (a, b, s) grid_free -> exists l l', (0 <= l <= 1 /\ 0 <= l' <= 1) /\
  (let on (p q : point) := X a = fst p + l * (fst q - fst p) /\ Y a = snd p + l * (snd q - snd p) /\ X b = fst p + l' * (fst q - fst p) /\ Y b = snd p + l' * (snd q - snd p) in on P Q \/ on Q T \/ on T P).
Proof.
  pose proof n_pos as HN. assert (E : INR k = N - 1) by (unfold N; rewrite S_INR; ring).
  assert (Fr : forall i, (i <= S k)%nat -> 0 <= INR i / N <= 1).
  { intros i Hi. apply le_INR in Hi. fold N in Hi. pose proof (pos_INR i). split; [apply Rmult_le_pos; [assumption|left; apply Rinv_0_lt_compat, HN]|]. apply (Rmult_le_reg_r N); [exact HN|]. unfold Rdiv. rewrite Rmult_assoc, Rinv_l by lra. lra. }
  unfold grid_free, bottom, diagonal, left_side. rewrite !map_map, !in_app_iff, !in_map_iff. cbv zeta. intros [(i & J & Hi)|[(i & J & Hi)|(i & J & Hi)]]; apply in_seq in Hi; exists (INR i / N), (INR (S i) / N); (split; [split; apply Fr; lia|]).
  - left. unfold side_h in J. injection J as <- <- _. rewrite S_INR. at_nodes. change (INR 0) with 0. repeat split; field; lra.
  - right; left. unfold side_d in J. injection J as <- <- _. rewrite S_INR. at_nodes. rewrite minus_INR by lia. rewrite E. change (INR 0) with 0. repeat split; field; lra.
  - right; right. unfold side_v in J. injection J as <- <- _. rewrite S_INR. at_nodes. rewrite minus_INR by lia. rewrite E. change (INR 0) with 0. repeat split; field; lra.
Qed.
End Grid.
