(** Every connected mesh has analysed images, and examples of symmetric meshes. *)
From Coq Require Import Reals List Lra Lia Permutation.
From Coquelicot Require Import Coquelicot.
From Verif Require Import Base S_Integral M_Fea S_Fem M_Post M_Section S_Section S_Post S_Warp S_Similar
  P_Integral P_Fea P_Geom P_Elem P_Section P_Totals P_Post P_Yield P_Warp P_Warp2 P_Warp3 P_Warp5 P_Warp7 P_Warp9 P_Warp10 P_WarpEx P_Similar P_Similar2.
Import ListNotations.
Local Open Scope R_scope.

Definition image_el (m : similarity) (el : tri6) : tri6 :=
  if Rlt_dec 0 (s_e m) then move_el m (fun i => i) el else flip_el (move_el m (fun i => i) el).
Lemma image_relisted m el : relisted (move_el m (fun i => i) el) (image_el m el).
Proof. unfold image_el. destruct (Rlt_dec _ _); [apply rl_same|apply rl_flip, rl_same]. Qed.
Lemma image_ids m el i : In i (ids_list (el_ids (image_el m el))) <-> In i (ids_list (el_ids el)).
Proof. unfold image_el. destruct (Rlt_dec _ _); unfold move_el, flip_el, flip_conn, map_conn, ids_list; cbn [el_ids c0 c1 c2 c3 c4 c5 In]; tauto. Qed.
Lemma image_mat m el : el_mat (image_el m el) = el_mat el.
Proof. unfold image_el. destruct (Rlt_dec _ _); reflexivity. Qed.
Lemma nodup_perm {A} (l l' : list A) : Permutation l l' -> NoDup l -> NoDup l'. Proof. apply Permutation_NoDup. Qed.
Lemma image_mesh_on n X Y els m : proper_sim m -> mesh_on n X Y els ->
  mesh_on n (fun i => sim_x m (X i) (Y i)) (fun i => sim_y m (X i) (Y i)) (map (image_el m) els).
Proof.
  intros Hs H el' Hel. apply in_map_iff in Hel. destruct Hel as (el & <- & Hel). destruct (H el Hel) as (V & ND & I & EX & EY). destruct (sim_det m Hs) as [K E].
  split; [|split; [|split]].
  - destruct V as [[S1 S2] O]. destruct el as [x y ids mat]. cbn [el_x el_y corner_a corner_b corner_c] in *. unfold corner_a, corner_b, corner_c in *. cbn [el_x el_y fst snd] in *.
    unfold scale2 in K. unfold image_el. destruct (proj1 Hs) as [P|P]; rewrite P; (destruct (Rlt_dec _ _) as [L|L]; [|try (exfalso; lra)]; try (exfalso; lra)).
    + unfold valid_el, straight, corner_a, corner_b, corner_c, move_el. cbn [el_x el_y]. rewrite S1, S2. unfold side_nodes, zip6, sim_x, sim_y, orient in *. rewrite P. cbn [v0 v1 v2 v3 v4 v5 fst snd] in *. split; [split; f_equal; field|].
      match goal with |- 0 < ?z => replace z with ((s_a m ^ 2 + s_b m ^ 2) * ((v0 (mkV6 (v1 x) 0 0 0 0 0) - v0 x) * (v2 y - v0 y) - (v2 x - v0 x) * (v1 y - v0 y))) by (cbn [v0]; ring) end.
      apply Rmult_lt_0_compat; [exact K|]. cbn [v0]. lra.
    + unfold valid_el, straight, corner_a, corner_b, corner_c, move_el, flip_el, flip6. cbn [el_x el_y]. rewrite S1, S2. unfold side_nodes, zip6, sim_x, sim_y, orient in *. rewrite P. cbn [v0 v1 v2 v3 v4 v5 fst snd] in *. split; [split; f_equal; field|].
      match goal with |- 0 < ?z => replace z with ((s_a m ^ 2 + s_b m ^ 2) * ((v0 (mkV6 (v1 x) 0 0 0 0 0) - v0 x) * (v2 y - v0 y) - (v2 x - v0 x) * (v1 y - v0 y))) by (cbn [v0]; ring) end.
      apply Rmult_lt_0_compat; [exact K|]. cbn [v0]. lra.
  - unfold image_el. destruct (Rlt_dec _ _); [exact ND|]. revert ND. unfold move_el, flip_el, flip_conn, map_conn, ids_list. cbn [el_ids c0 c1 c2 c3 c4 c5]. intros ND.
    repeat match goal with H : NoDup (_ :: _) |- _ => inversion H; clear H; subst end. cbn [In] in *. repeat (apply NoDup_cons; [cbn [In]; intuition congruence|]). apply NoDup_nil.
  - intros k Hk. apply I. apply (image_ids m el k), Hk.
  - unfold image_el. destruct (Rlt_dec _ _); unfold move_el, flip_el, flip6, flip_conn, map_conn; cbn [el_x el_y el_ids]; rewrite EX, EY; split; reflexivity.
Qed.
Lemma image_connected m els : connected els -> connected (map (image_el m) els).
Proof.
  intros H a b Ha Hb. apply in_map_iff in Ha. apply in_map_iff in Hb. destruct Ha as (a0 & <- & Ha). destruct Hb as (b0 & <- & Hb).
  assert (SN : forall x y, share_node x y -> share_node (image_el m x) (image_el m y)) by (intros x y (i & I1 & I2); exists i; split; apply image_ids; assumption).
  destruct (H a0 b0 Ha Hb) as (path & P & C). exists (map (image_el m) path). split.
  - intros e He. apply in_map_iff in He. destruct He as (e0 & <- & He). apply in_map, P, He.
  - clear Ha P. revert a0 C. induction path as [|x path IH]; intros a0 C; [apply SN, C|]. destruct C as [C1 C2]. split; [apply SN, C1|apply IH, C2].
Qed.
Lemma image_used n m els : all_used n els -> all_used n (map (image_el m) els).
Proof. intros H i Hi. destruct (H i Hi) as (el & E1 & E2). exists (image_el m el). split; [apply in_map, E1|apply image_ids, E2]. Qed.
Lemma image_of m els : mesh_image m (fun i => i) els (map (image_el m) els).
Proof. exists (map (image_el m) els). split; [apply Permutation_refl|]. induction els as [|a l IH]; constructor; [apply image_relisted|exact IH]. Qed.

Lemma analysed_exists n X Y els composite : mesh_on n X Y els -> els <> [] -> pos_moduli els -> (composite = false -> unit_moduli els) -> connected els -> all_used n els ->
  exists w, analysed n X Y els (best_solver n) composite w.
Proof.
  intros Hm Hn Hp Hu Hc Ha. destruct (analysis_exists n X Y els composite Hm Hn Hp Hc Ha) as [w Hw].
  exists w. repeat match goal with |- _ /\ _ => split | |- analysed _ _ _ _ _ _ _ => unfold analysed end; try assumption. apply best_exact.
Qed.
Lemma images_exist n X Y els composite m : mesh_on n X Y els -> els <> [] -> pos_moduli els -> (composite = false -> unit_moduli els) -> connected els -> all_used n els -> physical_nu els ->
  proper_sim m -> exists els' w w', analysed_image n m (fun i => i) (fun i => i) els els' composite w w'.
Proof.
  intros Hm Hn Hp Hu Hc Ha Hnu Hs. destruct (analysed_exists n X Y els composite Hm Hn Hp Hu Hc Ha) as [w Hw].
  destruct (analysed_exists n _ _ (map (image_el m) els) composite (image_mesh_on n X Y els m Hs Hm)) as [w' Hw'].
  - destruct els; [contradiction|discriminate].
  - intros el Hel. apply in_map_iff in Hel. destruct Hel as (e & <- & He). rewrite image_mat. apply Hp, He.
  - intros F el Hel. apply in_map_iff in Hel. destruct Hel as (e & <- & He). rewrite image_mat. apply (Hu F e He).
  - apply image_connected, Hc.
  - apply image_used, Ha.
  - exists (map (image_el m) els), w, w'. split; [exact Hs|]. split; [intros i Hi; split; [exact Hi|reflexivity]|]. split; [apply image_of|]. split; [exact Hnu|]. split; do 3 eexists; eassumption.
Qed.

(** an isosceles triangle, symmetric about x = 0 *)
Definition ys : tri6 := mkTri (side_nodes (-1) 1 0) (side_nodes 0 0 2) (mkConn 0 1 2 3 4 5) xm.
Definition yX (i : nat) : R := nth i [-1; 1; 0; 0; 1/2; -1/2] 0.
Definition yY (i : nat) : R := nth i [0; 0; 2; 0; 1; 1] 0.
Definition yp (i : nat) : nat := nth i [1; 0; 2; 3; 5; 4]%nat 0%nat.
Lemma ymesh : mesh_on 6 yX yY [ys].
Proof.
  intros el [<-|[]]. split; [unfold valid_el, straight, corner_a, corner_b, corner_c, ys, side_nodes, orient; cbn [el_x el_y v0 v1 v2 fst snd]; split; [auto|lra]|].
  split; [change (NoDup [0;1;2;3;4;5]%nat); repeat (apply NoDup_cons; [cbn [In]; lia|]); apply NoDup_nil|].
  split; [intros k; change (In k [0;1;2;3;4;5]%nat -> (k < 6)%nat); cbn [In]; lia|].
  unfold ys, side_nodes, gather, yX, yY. cbn [el_x el_y el_ids c0 c1 c2 c3 c4 c5 nth fst snd]. split; f_equal; lra.
Qed.
Lemma y_sym : symmetric_about_x 0 6 [ys].
Proof.
  exists yp, yp. split.
  - intros i Hi. do 6 (destruct i as [|i]; [split; [cbn; lia|reflexivity]|]). lia.
  - exists [ys]. split; [apply Permutation_refl|]. constructor; [|constructor].
    replace ys with (turn_el (turn_el (flip_el (move_el (mkSim (-1) 0 (-1) (2 * 0) 0) yp ys)))) at 2.
    + do 2 apply rl_turn. apply rl_flip, rl_same.
    + unfold turn_el, flip_el, move_el, ys, turn6, flip6, turn_conn, flip_conn, map_conn, zip6, sim_x, sim_y, side_nodes.
      cbn [el_x el_y el_ids el_mat v0 v1 v2 v3 v4 v5 c0 c1 c2 c3 c4 c5 s_a s_b s_e s_dx s_dy]. unfold yp. cbn [nth]. f_equal; f_equal; field.
Qed.
(** the unit square cut along a diagonal, the two halves of different sizes of node numbers *)
Definition zt : tri6 := mkTri (side_nodes 0 1 1) (side_nodes 0 0 1) (mkConn 0 1 2 4 5 6) xm.
Definition zu : tri6 := mkTri (side_nodes 1 0 0) (side_nodes 1 1 0) (mkConn 2 3 0 7 8 6) xm.
Definition zX (i : nat) : R := nth i [0; 1; 1; 0; 1/2; 1; 1/2; 1/2; 0] 0.
Definition zY (i : nat) : R := nth i [0; 0; 1; 1; 0; 1/2; 1/2; 1; 1/2] 0.
Definition zp (i : nat) : nat := nth i [2; 3; 0; 1; 7; 8; 6; 4; 5]%nat 0%nat.
Lemma zmesh : mesh_on 9 zX zY [zt; zu].
Proof.
  intros el [<-|[<-|[]]].
  - split; [unfold valid_el, straight, corner_a, corner_b, corner_c, zt, side_nodes, orient; cbn [el_x el_y v0 v1 v2 fst snd]; split; [auto|lra]|].
    split; [change (NoDup [0;1;2;4;5;6]%nat); repeat (apply NoDup_cons; [cbn [In]; lia|]); apply NoDup_nil|].
    split; [intros k; change (In k [0;1;2;4;5;6]%nat -> (k < 9)%nat); cbn [In]; lia|].
    unfold zt, side_nodes, gather, zX, zY. cbn [el_x el_y el_ids c0 c1 c2 c3 c4 c5 nth fst snd]. split; f_equal; lra.
  - split; [unfold valid_el, straight, corner_a, corner_b, corner_c, zu, side_nodes, orient; cbn [el_x el_y v0 v1 v2 fst snd]; split; [auto|lra]|].
    split; [change (NoDup [2;3;0;7;8;6]%nat); repeat (apply NoDup_cons; [cbn [In]; lia|]); apply NoDup_nil|].
    split; [intros k; change (In k [2;3;0;7;8;6]%nat -> (k < 9)%nat); cbn [In]; lia|].
    unfold zu, side_nodes, gather, zX, zY. cbn [el_x el_y el_ids c0 c1 c2 c3 c4 c5 nth fst snd]. split; f_equal; lra.
Qed.
Lemma z_sym : half_turn_symmetric (1/2) (1/2) 9 [zt; zu].
Proof.
  exists zp, zp. split.
  - intros i Hi. do 9 (destruct i as [|i]; [split; [cbn; lia|reflexivity]|]). lia.
  - exists [zu; zt]. split; [apply perm_swap|]. constructor; [|constructor; [|constructor]].
    + replace zu with (move_el (mkSim (-1) 0 1 (2 * (1/2)) (2 * (1/2))) zp zt); [apply rl_same|]. unfold move_el, zt, zu, map_conn, zip6, sim_x, sim_y, side_nodes.
      cbn [el_x el_y el_ids el_mat v0 v1 v2 v3 v4 v5 c0 c1 c2 c3 c4 c5 s_a s_b s_e s_dx s_dy]. unfold zp. cbn [nth]. f_equal; f_equal; field.
    + replace zt with (move_el (mkSim (-1) 0 1 (2 * (1/2)) (2 * (1/2))) zp zu); [apply rl_same|]. unfold move_el, zt, zu, map_conn, zip6, sim_x, sim_y, side_nodes.
      cbn [el_x el_y el_ids el_mat v0 v1 v2 v3 v4 v5 c0 c1 c2 c3 c4 c5 s_a s_b s_e s_dx s_dy]. unfold zp. cbn [nth]. f_equal; f_equal; field.
Qed.
Lemma y_analysed : exists w, analysed 6 yX yY [ys] (best_solver 6) true w.
Proof.
  apply analysed_exists; [apply ymesh|discriminate|intros el [<-|[]]; cbn; lra|discriminate| |].
  - intros a b [<-|[]] [<-|[]]. exists []. split; [intros e []|]. exists 0%nat. split; left; reflexivity.
  - intros i Hi. exists ys. split; [left; reflexivity|]. change (In i [0;1;2;3;4;5]%nat). cbn [In]. lia.
Qed.
Lemma z_connected : connected [zt; zu].
Proof. intros a b Ha Hb. exists []. split; [intros e []|]. exists 0%nat. destruct Ha as [<-|[<-|[]]]; destruct Hb as [<-|[<-|[]]]; cbn [zt zu el_ids ids_list c0 c1 c2 c3 c4 c5 In]; tauto. Qed.
Lemma z_analysed : exists w, analysed 9 zX zY [zt; zu] (best_solver 9) true w.
Proof.
  apply analysed_exists; [apply zmesh|discriminate|intros el [<-|[<-|[]]]; cbn; lra|discriminate|apply z_connected|].
  intros i Hi. destruct (Nat.eq_dec i 3) as [->|N3]; [exists zu; cbn [zt zu el_ids ids_list c0 c1 c2 c3 c4 c5 In]; tauto|].
  destruct (Nat.eq_dec i 7) as [->|N7]; [exists zu; cbn [zt zu el_ids ids_list c0 c1 c2 c3 c4 c5 In]; tauto|].
  destruct (Nat.eq_dec i 8) as [->|N8]; [exists zu; cbn [zt zu el_ids ids_list c0 c1 c2 c3 c4 c5 In]; tauto|].
  exists zt. split; [left; reflexivity|]. change (In i [0;1;2;4;5;6]%nat). cbn [In]. lia.
Qed.

(** the square with corners (1, -1), (1, 1), (-1, 1), (-1, -1), cut into four triangles at its centre *)
Definition qt (x0 y0 x1 y1 : R) (a b : nat) : tri6 :=
  mkTri (side_nodes x0 x1 0) (side_nodes y0 y1 0) (mkConn a b 4 (5 + a) (9 + b) (9 + a)) xm.
Definition q_mesh : list tri6 := [qt 1 (-1) 1 1 0 1; qt 1 1 (-1) 1 1 2; qt (-1) 1 (-1) (-1) 2 3; qt (-1) (-1) 1 (-1) 3 0].
Definition qX (i : nat) : R := nth i [1; 1; -1; -1; 0; 1; 0; -1; 0; 1/2; 1/2; -1/2; -1/2] 0.
Definition qY (i : nat) : R := nth i [-1; 1; 1; -1; 0; 0; 1; 0; -1; -1/2; 1/2; 1/2; -1/2] 0.
Definition qp (i : nat) : nat := nth i [1; 2; 3; 0; 4; 6; 7; 8; 5; 10; 11; 12; 9]%nat 0%nat.
Definition qq (i : nat) : nat := nth i [3; 0; 1; 2; 4; 8; 5; 6; 7; 12; 9; 10; 11]%nat 0%nat.
Lemma qmesh : mesh_on 13 qX qY q_mesh.
Proof.
  intros el [<-|[<-|[<-|[<-|[]]]]]; unfold qt;
  (split; [unfold valid_el, straight, corner_a, corner_b, corner_c, side_nodes, orient; cbn [el_x el_y v0 v1 v2 fst snd]; split; [auto|lra]|]);
  (split; [unfold ids_list; cbn [el_ids c0 c1 c2 c3 c4 c5]; repeat (apply NoDup_cons; [cbn [In]; lia|]); apply NoDup_nil|]);
  (split; [intros k; unfold ids_list; cbn [el_ids c0 c1 c2 c3 c4 c5 In]; lia|]);
  unfold side_nodes, gather, qX, qY; cbn [el_x el_y el_ids c0 c1 c2 c3 c4 c5 nth fst snd Nat.add]; split; f_equal; lra.
Qed.
Lemma q_sym : quarter_turn_symmetric 0 0 13 q_mesh.
Proof.
  exists qp, qq. split.
  - intros i Hi. do 13 (destruct i as [|i]; [split; [cbn; lia|reflexivity]|]). lia.
  - exists [qt 1 1 (-1) 1 1 2; qt (-1) 1 (-1) (-1) 2 3; qt (-1) (-1) 1 (-1) 3 0; qt 1 (-1) 1 1 0 1]. split.
    + unfold q_mesh. apply Permutation_sym. apply (Permutation_cons_append [qt 1 1 (-1) 1 1 2; qt (-1) 1 (-1) (-1) 2 3; qt (-1) (-1) 1 (-1) 3 0] (qt 1 (-1) 1 1 0 1)).
    + unfold q_mesh. assert (M : forall e e', move_el (mkSim 0 1 1 (0 + 0) (0 - 0)) qp e = e' -> relisted (move_el (mkSim 0 1 1 (0 + 0) (0 - 0)) qp e) e') by (intros e e' <-; apply rl_same).
      repeat (apply Forall2_cons; [apply M; unfold move_el, qt, map_conn, zip6, sim_x, sim_y, side_nodes;
        cbn [el_x el_y el_ids el_mat v0 v1 v2 v3 v4 v5 c0 c1 c2 c3 c4 c5 s_a s_b s_e s_dx s_dy Nat.add]; unfold qp; cbn [nth]; f_equal; f_equal; field|]). constructor.
Qed.
Lemma q_analysed : exists w, analysed 13 qX qY q_mesh (best_solver 13) true w.
Proof.
  apply analysed_exists; [apply qmesh|discriminate|intros el [<-|[<-|[<-|[<-|[]]]]]; cbn; lra|discriminate| |].
  - intros a b Ha Hb. exists []. split; [intros e []|]. exists 4%nat. destruct Ha as [<-|[<-|[<-|[<-|[]]]]]; destruct Hb as [<-|[<-|[<-|[<-|[]]]]]; unfold qt; cbn [el_ids ids_list c0 c1 c2 c3 c4 c5 In]; tauto.
  - intros i Hi. assert (C : (In i [0;1;4;5;10;9] \/ In i [1;2;4;6;11;10] \/ In i [2;3;4;7;12;11] \/ In i [3;0;4;8;9;12])%nat) by (cbn [In]; lia).
    destruct C as [C|[C|[C|C]]]; [exists (qt 1 (-1) 1 1 0 1)|exists (qt 1 1 (-1) 1 1 2)|exists (qt (-1) 1 (-1) (-1) 2 3)|exists (qt (-1) (-1) 1 (-1) 3 0)]; (split; [unfold q_mesh; cbn [In]; tauto|exact C]).
Qed.
