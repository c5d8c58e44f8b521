(** Properties of the construction of a Section from a meshed geometry. *)
From Coq Require Import String Reals List Bool Arith Lra Lia Permutation.
From Verif Require Import Base S_Integral M_Fea S_Fem M_Post M_Section M_Stress S_Section S_Post S_Warp S_Stress
  M_Init S_Init P_Init P_Stress T_Fea T_Section T_Stress.
Import ListNotations.
Local Open Scope R_scope.

(** ** C17: order of the mid-side nodes *)

(** If the mesher delivers its documented node order, every element of the Section is a straight-sided
    triangle whose nodes are ordered as the shape functions expect, with the coordinates of the mesh nodes. *)
Theorem C17_node_order : forall m mats s, mesher_mesh m -> section_init (Some m) mats = Ok s ->
  let P k := nth k (s_nodes s) (0, 0) in
  s_nodes s = rm_vertices m /\ valid_mesh (s_tris s) /\
  mesh_on (length (s_nodes s)) (fun k => fst (P k)) (fun k => snd (P k)) (s_tris s) /\
  (forall el, In el (s_tris s) ->
    P (c3 (el_ids el)) = midpoint (P (c0 (el_ids el))) (P (c1 (el_ids el))) /\
    P (c4 (el_ids el)) = midpoint (P (c1 (el_ids el))) (P (c2 (el_ids el))) /\
    P (c5 (el_ids el)) = midpoint (P (c2 (el_ids el))) (P (c0 (el_ids el)))) /\
  (forall i row e, nth_error (rm_triangles m) i = Some row -> nth_error (s_els s) i = Some e ->
    Permutation (ids_list (el_ids (e_tri e))) (ids_list row) /\
    firstn 3 (ids_list (el_ids (e_tri e))) = firstn 3 (ids_list row)).
Proof.
  intros m mats s Hm H P. pose proof (init_mesh_on m mats s H Hm) as HO.
  destruct (init_ok _ _ _ H) as [m' [Em [_ [_ [_ [Hnod [Els _]]]]]]]. injection Em as <-.
  split; [exact Hnod|]. split; [intros el Hel; apply (HO el Hel)|]. split; [exact HO|]. split.
  - intros el Hel. unfold s_tris in Hel. apply in_map_iff in Hel. destruct Hel as [e [<- He]]. apply In_nth_error in He. destruct He as [i He].
    destruct (el_material m mats s i e H (proj1 Hm) He) as [_ [row [att [Er [_ [_ [_ Ei]]]]]]]. rewrite Ei.
    destruct (proj2 Hm row (nth_error_In _ _ Er)) as [[M3 [M4 [M5 _]]] _]. unfold P. rewrite Hnod.
    cbn [swap_mid c0 c1 c2 c3 c4 c5]. split; [exact M5|split; [exact M3|exact M4]].
  - intros i row e Hr He. destruct (el_material m mats s i e H (proj1 Hm) He) as [_ [row' [att [Er [_ [_ [_ Ei]]]]]]].
    assert (row' = row) by congruence. subst row'. rewrite Ei. split; [apply swap_perm|reflexivity].
Qed.

(** ** C43: material groups *)

Theorem C43_partition : forall m mats s, length (rm_attributes m) = length (rm_triangles m) ->
  coherent mats -> shared mats -> section_init (Some m) mats = Ok s ->
  partitions (s_groups s) (s_els s) /\ (forall x, In x mats <-> In x (map fst (s_groups s))) /\
  groups_ok (s_group_tris s) (s_tris s).
Proof.
  intros m mats s HL Hco Hsh H.
  destruct (groups_partition (Some m) mats s H) as [[A1 [A2 A3]] [B C]]; [intros m' E; injection E as <-; exact HL|exact Hco|exact Hsh|].
  assert (EM : forall e, In e (s_els s) -> el_mat (e_tri e) = mo_val (e_mat e)).
  { intros e He. apply In_nth_error in He. destruct He as [i He]. destruct (el_material m mats s i e H HL He) as [_ [row [att E]]]. tauto. }
  split; [split; [exact A1|split; [exact A2|exact A3]]|split; [exact B|]]. split.
  - intros v l el Hvl Hel. unfold s_group_tris in Hvl. apply in_map_iff in Hvl. destruct Hvl as [[g k] [E Hg]]. cbn [fst snd] in E. injection E as <- <-.
    apply in_map_iff in Hel. destruct Hel as [e [<- He]].
    assert (Ie : In e (s_els s)) by (apply (Permutation_in e A1); apply in_concat; exists k; split; [apply in_map_iff; exists (g, k); split; [reflexivity|exact Hg]|exact He]).
    split; [unfold s_tris; apply in_map; exact Ie|]. rewrite (EM e Ie), (A2 g k e Hg He). reflexivity.
  - intros el Hel. unfold s_tris in Hel. apply in_map_iff in Hel. destruct Hel as [e [<- He]].
    pose proof (Permutation_in e (Permutation_sym A1) He) as Hc. apply in_concat in Hc. destruct Hc as [k [Hk Hek]].
    apply in_map_iff in Hk. destruct Hk as [[g k'] [E Hg]]. cbn [snd] in E. subst k'.
    exists (map e_tri k). split; [|apply in_map; exact Hek]. unfold s_group_tris. apply in_map_iff. exists (g, k).
    split; [|exact Hg]. cbn [fst snd]. rewrite (EM e He), (A2 g k e Hg Hek). reflexivity.
Qed.

(** With two equal materials that are different objects (for example after [shift_points], which copies the
    material) elements can be lost: they are in no group, and their nodes report zero stress although the
    section carries an axial force. *)
Definition ex_raw : raw_mesh :=
  mkRaw [(0,0); (4,0); (4,2); (0,2); (2,0); (4,1); (2,1); (2,2); (0,1)]
    [mkConn 0 1 2 5 6 4; mkConn 0 2 3 7 8 6] [0; 1]%nat.
Definition ex_steel (ref : nat) : mat_obj := mkMatObj ref "steel" ex_mat "grey".
Definition ex_timber (ref : nat) : mat_obj := mkMatObj ref "timber" ex_mat2 "burlywood".

Example ex_raw_ok : mesher_mesh ex_raw.
Proof.
  split; [reflexivity|]. intros row [<-|[<-|[]]].
  - split; [|split; [change (NoDup [0;1;2;5;6;4]%nat); repeat (apply NoDup_cons; [cbn [In]; lia|]); apply NoDup_nil|]].
    + unfold mesher_row, midpoint, orient, ex_raw. cbn [rm_vertices nth c0 c1 c2 c3 c4 c5 fst snd].
      split; [f_equal; lra|split; [f_equal; lra|split; [f_equal; lra|lra]]].
    + intros k. change (In k [0;1;2;5;6;4]%nat -> (k < 9)%nat). cbn [In]. lia.
  - split; [|split; [change (NoDup [0;2;3;7;8;6]%nat); repeat (apply NoDup_cons; [cbn [In]; lia|]); apply NoDup_nil|]].
    + unfold mesher_row, midpoint, orient, ex_raw. cbn [rm_vertices nth c0 c1 c2 c3 c4 c5 fst snd].
      split; [f_equal; lra|split; [f_equal; lra|split; [f_equal; lra|lra]]].
    + intros k. change (In k [0;2;3;7;8;6]%nat -> (k < 9)%nat). cbn [In]. lia.
Qed.

Example ex_section : exists s, section_init (Some ex_raw) [ex_steel 1; ex_timber 2] = Ok s /\
  coherent [ex_steel 1; ex_timber 2] /\ shared [ex_steel 1; ex_timber 2] /\ length (s_els s) = 2%nat.
Proof.
  eexists. split; [reflexivity|]. split; [|split; [|reflexivity]].
  - intros a b [<-|[<-|[]]] [<-|[<-|[]]] H; try reflexivity; discriminate H.
  - intros a b [<-|[<-|[]]] [<-|[<-|[]]] H; try reflexivity; destruct H as [H _]; discriminate H.
Qed.

Lemma eqb_refl_mat a : mat_eqb a a = true.
Proof. apply mat_eqb_spec. repeat split. Qed.

Theorem C43_equal_objects_refuted : exists m mats s e, mesher_mesh m /\ coherent mats /\ section_init (Some m) mats = Ok s /\
  In e (s_els s) /\ (forall g l, In (g, l) (s_groups s) -> ~ In e l) /\
  let t := section_totals (s_tris s) in
  exists node, In node (ids_list (el_ids (e_tri e))) /\
  forall res k st cb, calc_stress true t (centroidal_of t) None (mkActions 10 0 0 0 0 0 0 0) (s_group_tris s) = Ok res ->
    nth_error res k = Some (st, cb) -> ns_zz_n st node = 0 /\ 10 * m_E (el_mat (e_tri e)) / t_ea t <> 0.
Proof.
  set (a := ex_steel 1). set (b := ex_steel 2).
  set (e1 := build_element (rm_vertices ex_raw) [a; b] [0; 1]%nat 0 (mkConn 0 1 2 5 6 4)).
  set (e2 := build_element (rm_vertices ex_raw) [a; b] [0; 1]%nat 1 (mkConn 0 2 3 7 8 6)).
  assert (G : group_materials [] [a; b] = [a]).
  { cbn [group_materials]. unfold mat_in at 1. cbn [existsb]. unfold mat_in. cbn [app existsb].
    replace (mat_eqb b a) with true by (symmetry; apply mat_eqb_spec; repeat split). rewrite orb_true_r. reflexivity. }
  assert (S : section_init (Some ex_raw) [a; b] = Ok (mkSection [a; b] (rm_vertices ex_raw) [e1; e2] [(a, [e1])])).
  { unfold section_init. cbn [rm_attributes ex_raw]. change (Nat.eqb (length [a; b]) (list_max [0; 1]%nat + 1)) with true. cbv iota.
    rewrite G. cbn [map]. unfold e1, e2. reflexivity. }
  exists ex_raw, [a; b], (mkSection [a; b] (rm_vertices ex_raw) [e1; e2] [(a, [e1])]), e2.
  split; [exact ex_raw_ok|]. split; [intros x y [<-|[<-|[]]] [<-|[<-|[]]] H; try reflexivity; discriminate H|].
  split; [exact S|]. cbn [s_els s_groups]. split; [right; left; reflexivity|].
  assert (Ne : e1 <> e2) by (intros F; apply (f_equal e_id) in F; discriminate F).
  split; [intros g l [H|[]] F; injection H as <- <-; destruct F as [F|[]]; contradiction|].
  cbv zeta. exists 3%nat. split; [change (In 3%nat [0;2;3;6;7;8]%nat); cbn [In]; lia|].
  set (ss := mkSection [a; b] (rm_vertices ex_raw) [e1; e2] [(a, [e1])]).
  intros res k st cb HC Hk. set (t := section_totals (s_tris ss)) in *.
  assert (HV : valid_mesh (s_tris ss)) by (apply (C17_node_order ex_raw [a; b] ss ex_raw_ok S)).
  assert (HP : pos_moduli (s_tris ss)).
  { intros el [<-|[<-|[]]]; cbn [e1 e2 build_element e_tri el_mat nth a b ex_steel mo_val ex_mat m_E]; lra. }
  destruct (C09_positivity (s_tris ss) ltac:(discriminate) HV HP) as [_ [Hea _]]. fold t in Hea.
  split.
  - assert (HP' : exists q, stress_parameters true t (centroidal_of t) None (mkActions 10 0 0 0 0 0 0 0) = Ok q).
    { unfold calc_stress in HC. destruct (stress_parameters _ _ _ _ _) as [q|]; [exists q; reflexivity|discriminate HC]. }
    destruct HP' as [[[[p om] ps] ph] HP'].
    destruct k as [|k].
    + refine (proj2 (C34_averaging _ _ _ _ _ _ _ 0%nat st cb (mo_val a) [e_tri e1] p om ps ph HP' HC Hk eq_refl _ ns_zz_n so_zz_n a_n 3%nat (or_introl eq_refl)) _).
      * intros el [<-|[]]. change (NoDup [0;1;2;4;5;6]%nat). repeat (apply NoDup_cons; [cbn [In]; lia|]); apply NoDup_nil.
      * intros [el [[<-|[]] Hi]]. change (In 3%nat [0;1;2;4;5;6]%nat) in Hi. cbn [In] in Hi. lia.
    + exfalso. unfold calc_stress in HC. rewrite HP' in HC. cbn [bind] in HC.
      assert (L : length res = 1%nat) by (apply (f_equal (fun r => match r with Ok x => length x | Err _ => 0%nat end)) in HC; rewrite map_length in HC; symmetry; exact HC).
      assert (nth_error res (Datatypes.S k) = None) by (apply nth_error_None; rewrite L; lia). congruence.
  - cbn [e2 build_element e_tri el_mat nth b ex_steel mo_val ex_mat m_E]. apply Rgt_not_eq. apply Rdiv_lt_0_compat; lra.
Qed.

(** ** C44: materials and regions *)

Theorem C44_no_mesh : forall mats, section_init None mats = Err ValueError.
Proof. reflexivity. Qed.

(** Construction succeeds exactly when there are as many materials as regions (the largest region attribute
    plus one); otherwise it raises ValueError. *)
Theorem C44_success : forall m mats, rm_attributes m <> [] ->
  let regions := S (list_max (rm_attributes m)) in
  (length mats = regions -> exists s, section_init (Some m) mats = Ok s) /\
  (length mats <> regions -> section_init (Some m) mats = Err ValueError).
Proof.
  intros m mats Hn regions. unfold regions, section_init. destruct (rm_attributes m) as [|a l] eqn:E; [congruence|].
  rewrite Nat.add_1_r. split; intros H.
  - rewrite (proj2 (Nat.eqb_eq _ _) H). eexists. reflexivity.
  - rewrite (proj2 (Nat.eqb_neq _ _) H). reflexivity.
Qed.

Theorem C44_materials : forall m mats s, length (rm_attributes m) = length (rm_triangles m) -> section_init (Some m) mats = Ok s ->
  length (s_els s) = length (rm_triangles m) /\ s_mats s = mats /\
  forall i e, nth_error (s_els s) i = Some e -> e_id e = i /\ el_mat (e_tri e) = mo_val (e_mat e) /\
    exists att, nth_error (rm_attributes m) i = Some att /\ nth_error mats att = Some (e_mat e).
Proof.
  intros m mats s HL H. destruct (init_ok _ _ _ H) as [m' [Em [_ [_ [Hmm [_ [Els _]]]]]]]. injection Em as <-.
  split; [rewrite Els; apply build_length|]. split; [exact Hmm|]. intros i e He.
  destruct (el_material m mats s i e H HL He) as [E1 [row [att [_ [E2 [E3 [E4 _]]]]]]]. split; [exact E1|split; [exact E4|]]. exists att. tauto.
Qed.

Print Assumptions C17_node_order.
Print Assumptions C43_partition.
Print Assumptions C43_equal_objects_refuted.
Print Assumptions C44_no_mesh.
Print Assumptions C44_success.
Print Assumptions C44_materials.
