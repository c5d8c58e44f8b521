(** Proofs about plot_mesh with a mask. *)
From Coq Require Import String Reals List Bool Arith ZArith Lra Lia.
From Verif Require Import Base M_Fea M_Section M_Init S_Fem S_Init P_Init M_Plots S_Plots P_Plots P_Plots3.
Import ListNotations.
Local Open Scope R_scope.

Lemma unmasked_filter {A} : forall mask (l : list A), unmasked mask l = map snd (filter (fun q => negb (fst q)) (combine mask l)).
Proof. induction mask as [|b mask IH]; intros [|a l]; cbn [unmasked combine filter map]; try reflexivity. cbn [fst]. destruct b; cbn [negb map snd]; rewrite IH; reflexivity. Qed.
Lemma unmasked_map {A B} (f : A -> B) : forall mask l, unmasked mask (map f l) = map f (unmasked mask l).
Proof. induction mask as [|b mask IH]; intros [|a l]; cbn [unmasked map]; try reflexivity. destruct b; cbn [map]; rewrite IH; reflexivity. Qed.
Lemma unmasked_incl {A} : forall mask (l : list A) x, In x (unmasked mask l) -> In x l.
Proof. induction mask as [|b mask IH]; intros [|a l] x H; cbn [unmasked] in H; try (destruct H; fail). destruct b; [right; exact (IH l x H)|]. destruct H as [<-|H]; [left; reflexivity|right; exact (IH l x H)]. Qed.
Lemma unmasked_nth {A} : forall mask (l : list A) i x, nth_error mask i = Some false -> nth_error l i = Some x -> In x (unmasked mask l).
Proof.
  induction mask as [|b mask IH]; intros [|a l] [|i] x H H'; try discriminate; cbn [nth_error unmasked] in *.
  - injection H as ->. injection H' as ->. left. reflexivity.
  - destruct b; [|right]; exact (IH l i x H H').
Qed.
Lemma kept_min mask n : (0 < n)%nat -> nth_error mask 0 = Some false -> nth_error mask (n - 1) = Some false ->
  unmasked mask (map INR (seq 0 n)) <> [] /\ min_of (unmasked mask (map INR (seq 0 n))) = Ok 0 /\ max_of (unmasked mask (map INR (seq 0 n))) = Ok (INR (n - 1)).
Proof.
  intros H H0 H1. set (k := unmasked _ _).
  assert (I0 : In 0 k) by (apply (unmasked_nth mask _ 0); [exact H0|destruct n; [lia|reflexivity]]).
  assert (I1 : In (INR (n - 1)) k). { apply (unmasked_nth mask _ (n - 1)); [exact H1|]. rewrite nth_error_map, (nth_error_nth' _ 0%nat) by (rewrite seq_length; lia). rewrite seq_nth by lia. reflexivity. }
  assert (B : forall x, In x k -> 0 <= x <= INR (n - 1)).
  { intros x Hx. apply unmasked_incl in Hx. apply in_map_iff in Hx. destruct Hx as (j & <- & Hj). apply in_seq in Hj. split; [apply pos_INR|apply le_INR; lia]. }
  assert (N : k <> []) by (intros E; rewrite E in I0; destruct I0). split; [exact N|]. split.
  - destruct (min_ok _ N) as (a & -> & I & L). f_equal. apply Rle_antisym; [apply L, I0|apply B, I].
  - destruct (max_ok _ N) as (a & -> & I & L). f_equal. apply Rle_antisym; [apply B, I|apply L, I1].
Qed.

Lemma mask_plotted m mats s mask : mesher_mesh m -> conforming (rm_triangles m) -> rm_triangles m <> [] -> section_init (Some m) mats = Ok s ->
  length mask = length (rm_triangles m) -> nth_error mask 0 = Some false -> nth_error mask (length (rm_triangles m) - 1) = Some false ->
  plot_mesh_masked s true mask = Ok (mkMeshPlot (unmasked mask (triangulation s)) (Some (ByTriangle (unmasked mask (map (fun e => Some (mo_color (e_mat e))) (s_els s)))))
    (map (fun m => (mo_color m, mo_name m)) (group_materials [] mats))).
Proof.
  intros (_ & MM) C N HS Lk K0 K1. destruct (init_ok _ _ _ HS) as (m' & Em & Na & Lm & Es & En & Ee & _). injection Em as <-.
  assert (Le : length (s_els s) = length (rm_triangles m)) by (rewrite Ee; apply build_length).
  assert (Lt : (length (s_els s) < length (s_nodes s))%nat).
  { rewrite Le, En. apply more_nodes; [exact C|exact N|]. intros c i Hc Hi. apply (proj2 (MM c Hc)). unfold ids_list. unfold mids in Hi. cbn [In] in *. tauto. }
  assert (Pos : (0 < length (s_els s))%nat) by (rewrite Le; destruct (rm_triangles m); [contradiction|cbn; lia]).
  unfold plot_mesh_masked. rewrite Lk, Le, Nat.eqb_refl. cbn [negb]. rewrite Es. destruct mats as [|m0 mats]; [cbn [length] in Lm; lia|]. cbn [andb]. cbv zeta. unfold tripcolor_masked.
  rewrite map_length, seq_length. destruct (Nat.eqb_spec (length (rm_triangles m)) (length (s_nodes s))) as [E|_]; [lia|]. rewrite Nat.eqb_refl.
  rewrite <- Le in *. destruct (kept_min mask _ Pos K0 K1) as (Nk & E0 & E1).
  set (colors := map (fun e => mo_color (e_mat e)) (s_els s)).
  assert (EC : map (listed_color colors 0 (INR (length (s_els s) - 1))) (unmasked mask (map INR (seq 0 (length (s_els s)))))
    = unmasked mask (map (fun e => Some (mo_color (e_mat e))) (s_els s))).
  { rewrite <- unmasked_map. f_equal. assert (Lc : length colors = length (s_els s)) by apply map_length. rewrite <- Lc. rewrite map_map.
    apply nth_ext_list. intros i. rewrite !nth_error_map. destruct (lt_dec i (length colors)) as [Hi|Hi].
    - rewrite (nth_error_nth' _ 0%nat) by (rewrite seq_length; exact Hi). rewrite seq_nth by exact Hi. cbn [option_map Nat.add]. rewrite (color_of colors i Hi). unfold colors. rewrite nth_error_map. destruct (nth_error (s_els s) i) eqn:E; [reflexivity|]. apply nth_error_None in E. lia.
    - rewrite (proj2 (nth_error_None (seq _ _) i)) by (rewrite seq_length; lia). rewrite (proj2 (nth_error_None (s_els s) i)) by lia. reflexivity. }
  rewrite <- EC. destruct (unmasked mask (map INR _)) as [|k0 kr]; [contradiction Nk; reflexivity|]. rewrite E0, E1. cbn [bind]. rewrite legend_materials. reflexivity.
Qed.
