(** Proofs about the plots of the mesh, the warping function and the geometry. *)
From Coq Require Import String Reals List Bool Arith ZArith Lra Lia Permutation.
From Verif Require Import Base M_Fea M_Section M_Init S_Fem S_Init P_Init M_Geometry S_Geometry P_Geometry6 M_Props M_State S_State P_State P_State2 P_State4 P_State5 M_Plots S_Plots P_Plots.
Import ListNotations.
Local Open Scope string_scope.
Local Open Scope R_scope.

(** ** Colours *)
Lemma Int_part_between x k : INR k <= x < INR k + 1 -> Z.to_nat (Int_part x) = k.
Proof.
  intros H. assert (E : Int_part x = Z.of_nat k); [|rewrite E; apply Nat2Z.id]. destruct (base_Int_part x) as [A B]. rewrite INR_IZR_INZ in H.
  apply Z.le_antisymm; apply Z.lt_succ_r; apply lt_IZR; rewrite succ_IZR; lra.
Qed.
Lemma color_of colors i : (i < length colors)%nat -> listed_color colors 0 (INR (length colors - 1)) (INR i) = nth_error colors i.
Proof.
  intros H. unfold listed_color. set (n := length colors) in *. destruct (Nat.eq_dec n 1) as [E1|N1].
  - rewrite E1. assert (i = 0%nat) by lia. subst i. cbn [Nat.sub INR]. destruct (Req_EM_T 0 0) as [_|N]; [|contradiction N; reflexivity]. destruct (Req_EM_T _ _) as [E|_]; [lra|].
    replace (0 * 1) with 0 by ring. rewrite (Int_part_between 0 0) by (cbn [INR]; lra). reflexivity.
  - assert (P : 0 < INR (n - 1)) by (apply lt_0_INR; lia). assert (En : INR n = INR (n - 1) + 1). { rewrite <- S_INR. f_equal. lia. } destruct (Req_EM_T 0 (INR (n - 1))) as [E|_]; [lra|].
    replace ((INR i - 0) / (INR (n - 1) - 0) * INR n) with (INR i + INR i / INR (n - 1)) by (rewrite En; field; lra).
    assert (Q : 0 <= INR i / INR (n - 1)) by (apply Rmult_le_pos; [apply pos_INR|left; apply Rinv_0_lt_compat, P]).
    destruct (Nat.eq_dec i (n - 1)) as [->|Ni].
    + replace (INR (n - 1) / INR (n - 1)) with 1 by (field; lra). destruct (Req_EM_T _ _) as [_|N]; [reflexivity|lra].
    + assert (U : INR i / INR (n - 1) < 1). { apply (Rmult_lt_reg_r (INR (n - 1))); [exact P|]. unfold Rdiv. rewrite Rmult_assoc, Rinv_l, Rmult_1_r, Rmult_1_l by lra. apply lt_INR. lia. }
      assert (V : INR i + 1 <= INR (n - 1)) by (rewrite <- S_INR; apply le_INR; lia). destruct (Req_EM_T _ _) as [E|_]; [lra|]. rewrite (Int_part_between _ i) by lra. reflexivity.
Qed.
Lemma numbers_min n : (0 < n)%nat -> min_of (map INR (seq 0 n)) = Ok 0 /\ max_of (map INR (seq 0 n)) = Ok (INR (n - 1)).
Proof.
  intros H. assert (N : map INR (seq 0 n) <> []) by (destruct n; [lia|discriminate]). split.
  - destruct (min_ok _ N) as (a & -> & I & L). f_equal. apply in_map_iff in I. destruct I as (k & <- & _). apply Rle_antisym; [|apply pos_INR]. apply L. apply in_map_iff. exists 0%nat. split; [reflexivity|apply in_seq; lia].
  - destruct (max_ok _ N) as (a & -> & I & L). f_equal. apply in_map_iff in I. destruct I as (k & <- & Ik). apply in_seq in Ik. apply Rle_antisym; [apply le_INR; lia|]. apply L. apply in_map_iff. exists (n - 1)%nat. split; [reflexivity|apply in_seq; lia].
Qed.
Lemma count_bound l : forall n, (forall i, In i l -> (i < n)%nat) -> (forall i, (count_occ Nat.eq_dec l i <= 2)%nat) -> (length l <= 2 * n)%nat.
Proof.
  intros n. revert l. induction n as [|n IH]; intros l B C.
  - destruct l as [|a l]; [cbn; lia|]. specialize (B a (or_introl eq_refl)). lia.
  - set (l' := filter (fun i => negb (Nat.eqb i n)) l).
    assert (L : length l = (length l' + count_occ Nat.eq_dec l n)%nat).
    { unfold l'. clear. induction l as [|a l IH]; [reflexivity|]. cbn [filter count_occ]. destruct (Nat.eqb_spec a n) as [->|N]; cbn [negb length]; [destruct (Nat.eq_dec n n); [lia|contradiction]|destruct (Nat.eq_dec a n); [contradiction|lia]]. }
    assert (H : (length l' <= 2 * n)%nat).
    { apply IH.
      - intros i Hi. unfold l' in Hi. apply filter_In in Hi. destruct Hi as [Hi K]. specialize (B i Hi). apply negb_true_iff, Nat.eqb_neq in K. lia.
      - intros i. etransitivity; [|apply (C i)]. unfold l'. clear. induction l as [|a l IH]; [cbn; lia|]. cbn [filter count_occ]. destruct (negb _); cbn [count_occ]; destruct (Nat.eq_dec a i); lia. }
    specialize (C n). lia.
Qed.
Lemma more_nodes (rows : list conn6) n : conforming rows -> rows <> [] -> (forall c i, In c rows -> In i (mids c) -> (i < n)%nat) -> (length rows < n)%nat.
Proof.
  intros [_ C] N B. assert (L : length (concat (map mids rows)) = (3 * length rows)%nat) by (clear; induction rows as [|c rows IH]; [reflexivity|cbn [map concat app length mids] in *; lia]).
  pose proof (count_bound (concat (map mids rows)) n) as H. rewrite L in H. assert (length rows <> 0)%nat by (destruct rows; [contradiction|discriminate]). enough (3 * length rows <= 2 * n)%nat by lia. apply H; [|exact C].
  intros i Hi. apply in_concat in Hi. destruct Hi as (m & Hm & Hi). apply in_map_iff in Hm. destruct Hm as (c & <- & Hc). apply (B c i Hc Hi).
Qed.
(** ** The legend *)
Lemma legend_materials rest : forall seen, legend_of seen rest = map (fun m => (mo_color m, mo_name m)) (group_materials seen rest).
Proof.
  induction rest as [|m r IH]; intros seen; [reflexivity|]. cbn [legend_of group_materials]. rewrite IH. destruct seen as [|x seen].
  - reflexivity.
  - destruct (mat_in m (x :: seen)); reflexivity.
Qed.
Lemma not_alike seen rest : (forall m, In m (group_materials seen rest) -> forall x, In x seen -> ~ alike m x) /\ ForallOrdPairs (fun a b => ~ alike b a) (group_materials seen rest) /\ incl (group_materials seen rest) rest.
Proof.
  revert seen. induction rest as [|m rest IH]; intros seen; cbn [group_materials]; [split; [intros x []|split; [constructor|intros x []]]|].
  destruct (IH (seen ++ [m])%list) as (I1 & I2 & I3). assert (I1' : forall y, In y (group_materials (seen ++ [m])%list rest) -> forall x, In x seen -> ~ alike y x) by (intros y Hy x Hx; apply (I1 y Hy x), in_or_app; left; exact Hx).
  destruct (mat_in m seen) eqn:E.
  - split; [exact I1'|]. split; [exact I2|]. intros x Hx. right. apply I3, Hx.
  - split; [|split].
    + intros y [<-|Hy]; [|apply I1', Hy]. intros x Hx A. assert (T : mat_in m seen = true) by (apply mat_in_spec; exists x; auto). congruence.
    + constructor; [|exact I2]. apply Forall_forall. intros y Hy. apply (I1 y Hy m), in_or_app. right. left. reflexivity.
    + intros x [<-|Hx]; [left; reflexivity|right; apply I3, Hx].
Qed.
Lemma all_listed rest : forall seen, coherent (seen ++ rest)%list -> forall m, In m rest -> exists x, (In x seen \/ In x (group_materials seen rest)) /\ same_fields m x.
Proof.
  induction rest as [|a rest IH]; intros seen Co m Hm; [destruct Hm|]. cbn [group_materials].
  assert (Co' : coherent ((seen ++ [a]) ++ rest)%list) by (rewrite <- app_assoc; exact Co).
  assert (Ha : exists x, (In x seen \/ In x (if mat_in a seen then group_materials (seen ++ [a])%list rest else a :: group_materials (seen ++ [a])%list rest)) /\ same_fields a x).
  { destruct (mat_in a seen) eqn:E; [|exists a; split; [right; left; reflexivity|repeat split]]. apply mat_in_spec in E. destruct E as (x & Hx & Al). exists x. split; [left; exact Hx|]. destruct Al as [Al|Al]; [|exact Al].
    rewrite (Co a x); [repeat split| | |exact Al]; apply in_or_app; [right; left; reflexivity|left; exact Hx]. }
  destruct Hm as [<-|Hm]; [exact Ha|]. destruct (IH (seen ++ [a])%list Co' m Hm) as (x & [Hx|Hx] & F).
  - apply in_app_or in Hx. destruct Hx as [Hx|[<-|[]]]; [exists x; auto|]. destruct Ha as (y & Hy & G). exists y. split; [exact Hy|]. unfold same_fields in *. destruct F as (A & B & C), G as (A' & B' & C'). repeat split; congruence.
  - exists x. split; [|exact F]. right. destruct (mat_in a seen); [exact Hx|right; exact Hx].
Qed.
(** ** The mesh *)
Lemma nth_ext_list {A} (a b : list A) : (forall i, nth_error a i = nth_error b i) -> a = b.
Proof.
  revert b. induction a as [|x a IH]; intros [|y b] H; [reflexivity|specialize (H 0%nat); discriminate H|specialize (H 0%nat); discriminate H|].
  pose proof (H 0%nat) as H0. injection H0 as ->. f_equal. apply IH. intros i. apply (H (S i)).
Qed.
Lemma mesh_plotted m mats s : mesher_mesh m -> conforming (rm_triangles m) -> rm_triangles m <> [] -> section_init (Some m) mats = Ok s ->
  plot_mesh s true = Ok (mkMeshPlot (triangulation s) (Some (ByTriangle (map (fun e => Some (mo_color (e_mat e))) (s_els s)))) (map (fun m => (mo_color m, mo_name m)) (group_materials [] mats))).
Proof.
  intros (_ & MM) C N HS. destruct (init_ok _ _ _ HS) as (m' & Em & Na & Lm & Es & En & Ee & _). injection Em as <-.
  assert (Le : length (s_els s) = length (rm_triangles m)) by (rewrite Ee; apply build_length).
  assert (Lt : (length (s_els s) < length (s_nodes s))%nat).
  { rewrite Le, En. apply more_nodes; [exact C|exact N|]. intros c i Hc Hi. apply (proj2 (MM c Hc)). unfold ids_list. unfold mids in Hi. cbn [In] in *. tauto. }
  assert (Pos : (0 < length (s_els s))%nat) by (rewrite Le; destruct (rm_triangles m); [contradiction|cbn; lia]).
  unfold plot_mesh. rewrite Es. destruct mats as [|m0 mats]; [cbn [length] in Lm; lia|]. cbn [andb]. cbv zeta. unfold tripcolor.
  destruct (numbers_min _ Pos) as [-> ->]. cbn [bind]. rewrite map_length, seq_length. destruct (Nat.eqb_spec (length (s_els s)) (length (s_nodes s))) as [E|_]; [lia|]. rewrite Nat.eqb_refl. cbn [bind]. rewrite legend_materials.
  do 4 f_equal. set (colors := map (fun e => mo_color (e_mat e)) (s_els s)). assert (Lc : length colors = length (s_els s)) by apply map_length. rewrite <- Lc. rewrite map_map.
  apply nth_ext_list. intros i. rewrite !nth_error_map. destruct (lt_dec i (length colors)) as [Hi|Hi].
  - rewrite (nth_error_nth' _ 0%nat) by (rewrite seq_length; exact Hi). rewrite seq_nth by exact Hi. cbn [option_map Nat.add]. rewrite (color_of colors i Hi). unfold colors. rewrite nth_error_map. destruct (nth_error (s_els s) i) eqn:E; [reflexivity|]. apply nth_error_None in E. lia.
  - rewrite (proj2 (nth_error_None (seq _ _) i)) by (rewrite seq_length; lia). rewrite (proj2 (nth_error_None (s_els s) i)) by lia. reflexivity.
Qed.
Lemma mesh_triangles m mats s i row : section_init (Some m) mats = Ok s -> nth_error (rm_triangles m) i = Some row ->
  let P k := nth k (rm_vertices m) (0, 0) in nth_error (triangulation s) i = Some (P (c0 row), P (c1 row), P (c2 row)).
Proof.
  intros HS Hr P. destruct (init_ok _ _ _ HS) as (m' & Em & _ & _ & _ & En & Ee & _). injection Em as <-. unfold triangulation. rewrite nth_error_map, Ee, build_nth, Hr. cbn [option_map]. rewrite En. reflexivity.
Qed.

(** ** The warping function *)
Lemma trv_frame l g s st : trv [] (calculate_frame l g s st) [a_omega].
Proof.
  unfold calculate_frame. repeat trv_step.
  apply (trv_keep _ [] []). repeat wr_step.
Qed.
Lemma warping_plotted l q g s st h c lines : built g s -> Forall (uses st) h -> (c = CWarping st \/ c = CFrame st) -> succeeded l q (mkWorld g s no_props) h c ->
  exists om j, the_torsion l s st = Ok (om, j) /\ plot_warping_function (run l q (mkWorld g s no_props) h) lines = Ok (triangulation s, om, lines).
Proof.
  intros Hb U Hc [w' [[h1 [h2 [-> ->]]] S]]. set (w0 := mkWorld g s no_props) in *. rewrite run_app, run_cons.
  pose proof (ok_run l q g s st Hb _ w0 U (ok_new l g s st)) as OK. rewrite run_app, run_cons in OK.
  set (w1 := run l q w0 h1) in *. destruct (snd (step l q w1 c)) as [v|e] eqn:ES; [clear S; rename ES into S|destruct S].
  assert (D : hasv (w_props (fst (step l q w1 c))) a_omega).
  { rewrite step_result in S. rewrite step_state. cbn [w_props]. destruct Hc as [-> | ->]; cbn [method] in *; rewrite map_result in S; rewrite map_state.
    - destruct (snd (calculate_warping l (w_geom w1) (w_sec w1) st (w_props w1))) as [u|e] eqn:E; [|discriminate S]. apply (trv_warping _ _ _ _ _ u); [intros y []|exact E|left; reflexivity].
    - destruct (snd (calculate_frame l (w_geom w1) (w_sec w1) st (w_props w1))) as [u|e] eqn:E; [|discriminate S]. apply (trv_frame _ _ _ _ _ u); [intros y []|exact E|left; reflexivity]. }
  pose proof (run_monov l q h2 _ _ D) as D'. destruct (okw_inv _ _ _ _ _ OK) as [_ [_ I3]]. unfold hasv in D'.
  unfold plot_warping_function. destruct (M_Props.vec _ a_omega) as [om|] eqn:E; [|contradiction]. pose proof (I3 _ _ E) as A. cbn [array_value] in A. rewrite (okw_sec _ _ _ _ _ OK).
  destruct (the_torsion l s st) as [[om' j]|e]; [|discriminate A]. injection A as ->. exists om, j. split; reflexivity.
Qed.
Lemma warping_missing l q g s h lines : (forall st, ~ In (CWarping st) h /\ ~ In (CFrame st) h) -> plot_warping_function (run l q (mkWorld g s no_props) h) lines = Err RuntimeError.
Proof.
  intros H. unfold plot_warping_function. rewrite run_onlyv; [reflexivity|]. intros c Hc. destruct c; cbn [call_arrs]; try (now intros []); destruct (H solver_type) as [A B]; intros _; [destruct (A Hc)|destruct (B Hc)].
Qed.
