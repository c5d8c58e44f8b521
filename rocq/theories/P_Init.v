(** Proofs about the construction of a Section. *)
From Coq Require Import String Reals List Bool Arith Lia Lra Permutation.
From Verif Require Import Base S_Integral M_Fea M_Section M_Init S_Fem S_Init S_Warp.
Import ListNotations.
Local Open Scope R_scope.

Lemma Reqb_eq a b : Reqb a b = true <-> a = b.
Proof. unfold Reqb. destruct (Req_EM_T a b); split; congruence. Qed.

Lemma mat_eqb_spec a b : mat_eqb a b = true <-> same_fields a b.
Proof.
  unfold mat_eqb, same_fields. rewrite !andb_true_iff, !String.eqb_eq, !Reqb_eq.
  destruct a as [ra na [e1 e2 e3 e4] ca], b as [rb nb [f1 f2 f3 f4] cb]. cbn [mo_name mo_val mo_color m_E m_nu m_fy m_rho].
  split; [intros [[[[[-> ->] ->] ->] ->] ->]; tauto|intros [-> [E ->]]; injection E as -> -> -> ->; tauto].
Qed.

Lemma mat_is_spec a b : mat_is a b = true <-> same_object a b.
Proof. unfold mat_is, same_object. apply Nat.eqb_eq. Qed.

Lemma mat_in_spec m l : mat_in m l = true <-> exists x, In x l /\ (same_object m x \/ same_fields m x).
Proof.
  unfold mat_in. rewrite existsb_exists. split; intros [x [H1 H2]]; exists x; (split; [exact H1|]).
  - apply orb_true_iff in H2. rewrite mat_is_spec, mat_eqb_spec in H2. exact H2.
  - apply orb_true_iff. rewrite mat_is_spec, mat_eqb_spec. exact H2.
Qed.

Lemma swap_perm c : Permutation (ids_list (swap_mid c)) (ids_list c).
Proof.
  unfold swap_mid, ids_list. cbn [c0 c1 c2 c3 c4 c5]. do 3 apply perm_skip.
  apply (Permutation_trans (l' := [c3 c; c5 c; c4 c])); [apply perm_swap|apply perm_skip; apply perm_swap].
Qed.

(** ** Elements *)

Lemma build_length verts mats attrs rows : forall i, length (build_from verts mats attrs i rows) = length rows.
Proof. induction rows as [|r rows IH]; intros i; cbn [build_from length]; [reflexivity|]. rewrite IH. reflexivity. Qed.

Lemma build_nth verts mats attrs rows : forall i k,
  nth_error (build_from verts mats attrs i rows) k = option_map (build_element verts mats attrs (i + k)) (nth_error rows k).
Proof.
  induction rows as [|r rows IH]; intros i k; cbn [build_from].
  - destruct k; reflexivity.
  - destruct k as [|k]; cbn [nth_error option_map]; [rewrite Nat.add_0_r; reflexivity|]. rewrite IH. rewrite Nat.add_succ_comm. reflexivity.
Qed.

Lemma init_ok mesh mats s : section_init mesh mats = Ok s ->
  exists m, mesh = Some m /\ rm_attributes m <> [] /\ length mats = (list_max (rm_attributes m) + 1)%nat /\
    s_mats s = mats /\ s_nodes s = rm_vertices m /\
    s_els s = build_from (rm_vertices m) mats (rm_attributes m) 0 (rm_triangles m) /\
    s_groups s = fold_left add_element (s_els s) (map (fun g => (g, [])) (group_materials [] mats)).
Proof.
  unfold section_init. intros H. destruct mesh as [m|]; [|discriminate]. destruct (rm_attributes m) as [|a at'] eqn:Ea; [discriminate|].
  destruct (Nat.eqb _ _) eqn:E; [|discriminate]. apply Nat.eqb_eq in E. injection H as <-. exists m. cbn [s_mats s_nodes s_els s_groups].
  rewrite Ea. repeat match goal with |- _ /\ _ => split end; try reflexivity; try assumption. discriminate.
Qed.

Lemma list_max_in l x : In x l -> (x <= list_max l)%nat.
Proof. intros H. pose proof (proj1 (list_max_le l (list_max l)) (le_n _)) as F. rewrite Forall_forall in F. apply F. exact H. Qed.

Lemma el_material m mats s i e : section_init (Some m) mats = Ok s -> length (rm_attributes m) = length (rm_triangles m) ->
  nth_error (s_els s) i = Some e ->
  e_id e = i /\ exists row att, nth_error (rm_triangles m) i = Some row /\ nth_error (rm_attributes m) i = Some att /\
    nth_error mats att = Some (e_mat e) /\ el_mat (e_tri e) = mo_val (e_mat e) /\ el_ids (e_tri e) = swap_mid row.
Proof.
  intros H L He. destruct (init_ok _ _ _ H) as [m' [Em [Hn [Hl [_ [_ [Els _]]]]]]]. injection Em as <-.
  rewrite Els in He. rewrite build_nth in He. destruct (nth_error (rm_triangles m) i) as [row|] eqn:Er; [|discriminate].
  cbn [option_map] in He. apply (f_equal (fun o => match o with Some x => x | None => e end)) in He. cbn in He. subst e.
  cbn [build_element e_id e_mat e_tri el_mat el_ids]. split; [reflexivity|].
  assert (Hi : (i < length (rm_attributes m))%nat) by (rewrite L; apply nth_error_Some; congruence).
  exists row, (nth i (rm_attributes m) 0%nat). repeat match goal with |- _ /\ _ => split end; try reflexivity.
  - apply nth_error_nth'. exact Hi.
  - apply nth_error_nth'. rewrite Hl. pose proof (list_max_in (rm_attributes m) (nth i (rm_attributes m) 0%nat) (nth_In _ _ Hi)). lia.
Qed.

Lemma init_mesh_on m mats s : section_init (Some m) mats = Ok s -> mesher_mesh m ->
  mesh_on (length (s_nodes s)) (fun k => fst (nth k (s_nodes s) (0, 0))) (fun k => snd (nth k (s_nodes s) (0, 0))) (s_tris s).
Proof.
  intros H [HL HM] el Hel. destruct (init_ok _ _ _ H) as [m' [Em [_ [_ [_ [Hnod [Els _]]]]]]]. injection Em as <-.
  unfold s_tris in Hel. apply in_map_iff in Hel. destruct Hel as [e [<- He]]. apply In_nth_error in He. destruct He as [i He].
  rewrite Els, build_nth in He. destruct (nth_error (rm_triangles m) i) as [row|] eqn:Er; [|discriminate].
  cbn [option_map] in He. apply (f_equal (fun o => match o with Some x => x | None => e end)) in He. cbn in He. subst e.
  destruct (HM row (nth_error_In _ _ Er)) as [[M3 [M4 [M5 Or]]] [ND HR]]. rewrite Hnod.
  cbn [build_element e_tri el_x el_y el_ids]. cbv beta in M3, M4, M5, Or.
  set (P := fun k => nth k (rm_vertices m) (0, 0)) in *.
  change (P (c3 row) = midpoint (P (c1 row)) (P (c2 row))) in M3. change (P (c4 row) = midpoint (P (c2 row)) (P (c0 row))) in M4.
  change (P (c5 row) = midpoint (P (c0 row)) (P (c1 row))) in M5. change (0 < orient (P (c0 row)) (P (c1 row)) (P (c2 row))) in Or.
  split; [split|split; [|split; [|split; reflexivity]]].
  - unfold straight, corner_a, corner_b, corner_c, gather, side_nodes, swap_mid. cbn [el_x el_y v0 v1 v2 c0 c1 c2 c3 c4 c5 fst snd].
    change (fun k => fst (nth k (rm_vertices m) (0,0))) with (fun k => fst (P k)). cbv beta.
    change (nth (c3 row) (rm_vertices m) (0,0)) with (P (c3 row)). change (nth (c4 row) (rm_vertices m) (0,0)) with (P (c4 row)).
    change (nth (c5 row) (rm_vertices m) (0,0)) with (P (c5 row)). change (nth (c0 row) (rm_vertices m) (0,0)) with (P (c0 row)).
    change (nth (c1 row) (rm_vertices m) (0,0)) with (P (c1 row)). change (nth (c2 row) (rm_vertices m) (0,0)) with (P (c2 row)).
    rewrite M3, M4, M5. unfold midpoint. cbn [fst snd]. split; f_equal; lra.
  - exact Or.
  - apply (Permutation_NoDup (Permutation_sym (swap_perm row)) ND).
  - intros k Hk. apply HR. apply (Permutation_in k (swap_perm row) Hk).
Qed.

(** ** Groups *)

Section Groups.
Variable mats : list mat_obj.
Hypothesis Hco : coherent mats.
Hypothesis Hsh : shared mats.

Lemma same_is_eq a b : In a mats -> In b mats -> (same_object a b \/ same_fields a b) <-> a = b.
Proof.
  intros Ha Hb. split; [intros [H|H]; [apply Hco; assumption|apply Hco; [assumption|assumption|apply Hsh; assumption]]|intros ->; left; reflexivity].
Qed.

Lemma gm_spec rest : forall seen, incl seen mats -> incl rest mats ->
  NoDup (group_materials seen rest) /\ (forall m, In m (group_materials seen rest) <-> In m rest /\ ~ In m seen).
Proof.
  induction rest as [|a rest IH]; intros seen Hs Hr; cbn [group_materials].
  - split; [apply NoDup_nil|]. intros m. split; [intros []|intros [[] _]].
  - assert (Ha : In a mats) by (apply Hr; left; reflexivity).
    assert (Hin : mat_in a seen = true <-> In a seen).
    { rewrite mat_in_spec. split.
      - intros [x [H1 H2]]. apply (same_is_eq a x Ha (Hs x H1)) in H2. rewrite H2. exact H1.
      - intros H. exists a. split; [exact H|left; reflexivity]. }
    destruct (IH (seen ++ [a])) as [ND S].
    { intros x Hx. apply in_app_or in Hx. destruct Hx as [Hx|[<-|[]]]; [apply Hs; exact Hx|exact Ha]. }
    { intros x Hx. apply Hr. right. exact Hx. }
    assert (S' : forall m, In m (group_materials (seen ++ [a]) rest) <-> In m rest /\ ~ In m seen /\ m <> a).
    { intros m. rewrite S, in_app_iff. cbn [In]. split; [intros [H1 H2]; split; [exact H1|split; [tauto|intros ->; tauto]]|intros [H1 [H2 H3]]; split; [exact H1|intros [H|[H|[]]]; [tauto|congruence]]]. }
    destruct (mat_in a seen) eqn:E.
    + assert (Hs' : In a seen) by (apply Hin; reflexivity). split; [exact ND|]. intros m. rewrite S'. cbn [In]. split.
      * intros [H1 [H2 H3]]. tauto.
      * intros [[->|H1] H2]; [contradiction|]. split; [exact H1|split; [exact H2|intros ->; contradiction]].
    + assert (Hs' : ~ In a seen) by (intros F; apply Hin in F; discriminate F). split.
      * apply NoDup_cons; [rewrite S'; tauto|exact ND].
      * intros m. cbn [In]. rewrite S'. split; [intros [->|[H1 [H2 H3]]]; tauto|].
        intros [[->|H1] H2]; [left; reflexivity|].
        destruct (Nat.eq_dec (mo_ref m) (mo_ref a)) as [Ee|Ne].
        { left. symmetry. apply Hco; [apply Hr; right; exact H1|exact Ha|exact Ee]. }
        { right. split; [exact H1|split; [exact H2|intros ->; apply Ne; reflexivity]]. }
Qed.

(** Adding an element whose material is a group material appends it to that group only. *)
Lemma add_in gs e : incl (map fst gs) mats -> NoDup (map fst gs) -> In (e_mat e) mats -> In (e_mat e) (map fst gs) ->
  exists g1 l g2, gs = g1 ++ (e_mat e, l) :: g2 /\ add_element gs e = g1 ++ (e_mat e, l ++ [e]) :: g2.
Proof.
  intros Hi. induction gs as [|[m l] gs IH]; intros ND Hm Hin; [destruct Hin|]. cbn [add_element].
  cbn [map fst] in *. destruct (mat_is (e_mat e) m) eqn:E.
  - apply mat_is_spec in E. assert (Em : e_mat e = m) by (apply Hco; [exact Hm|apply Hi; left; reflexivity|exact E]).
    exists [], l, gs. rewrite Em. split; reflexivity.
  - destruct Hin as [Hin|Hin]; [exfalso; rewrite Hin in E; unfold mat_is in E; rewrite Nat.eqb_refl in E; discriminate|].
    inversion ND as [|? ? N1 N2]; subst. destruct (IH (fun x Hx => Hi x (or_intror Hx)) N2 Hm Hin) as [g1 [l' [g2 [E1 E2]]]].
    exists ((m, l) :: g1), l', g2. rewrite E2. split; [rewrite E1 at 1; reflexivity|reflexivity].
Qed.

Lemma add_all els : forall gs, incl (map fst gs) mats -> NoDup (map fst gs) ->
  (forall e, In e els -> In (e_mat e) mats /\ In (e_mat e) (map fst gs)) ->
  (forall m l e, In (m, l) gs -> In e l -> e_mat e = m) ->
  let gs' := fold_left add_element els gs in
  map fst gs' = map fst gs /\ Permutation (concat (map snd gs')) (concat (map snd gs) ++ els) /\
  (forall m l e, In (m, l) gs' -> In e l -> e_mat e = m) /\
  (forall m l l', In (m, l) gs -> In (m, l') gs' -> l' = l ++ filter (fun e => mat_is (e_mat e) m) els).
Proof.
  induction els as [|e els IH]; intros gs Hi ND He Hg; cbn [fold_left].
  - cbv zeta. rewrite app_nil_r. repeat match goal with |- _ /\ _ => split end; try reflexivity; try assumption.
    intros m l l' H1 H2. cbn [filter]. rewrite app_nil_r.
    clear Hi He Hg. induction gs as [|[m0 l0] gs IHg]; [destruct H1|]. cbn [map fst] in ND. inversion ND as [|? ? N1 N2]; subst.
    destruct H1 as [H1|H1], H2 as [H2|H2].
    + congruence.
    + injection H1 as -> ->. exfalso. apply N1. apply in_map_iff. exists (m, l'). split; [reflexivity|exact H2].
    + injection H2 as -> ->. exfalso. apply N1. apply in_map_iff. exists (m, l). split; [reflexivity|exact H1].
    + apply IHg; assumption.
  - destruct (He e (or_introl eq_refl)) as [Hm Hin].
    destruct (add_in gs e Hi ND Hm Hin) as [g1 [l0 [g2 [E1 E2]]]].
    assert (Ef : map fst (add_element gs e) = map fst gs) by (rewrite E2, E1, !map_app; reflexivity).
    destruct (IH (add_element gs e)) as [A1 [A2 [A3 A4]]].
    { rewrite Ef. exact Hi. } { rewrite Ef. exact ND. }
    { intros x Hx. rewrite Ef. apply He. right. exact Hx. }
    { rewrite E2. intros m l x Hml Hx. apply in_app_or in Hml. destruct Hml as [Hml|[Hml|Hml]].
      - apply (Hg m l x); [rewrite E1; apply in_or_app; left; exact Hml|exact Hx].
      - injection Hml as <- <-. apply in_app_or in Hx. destruct Hx as [Hx|[<-|[]]]; [|reflexivity].
        apply (Hg (e_mat e) l0 x); [rewrite E1; apply in_or_app; right; left; reflexivity|exact Hx].
      - apply (Hg m l x); [rewrite E1; apply in_or_app; right; right; exact Hml|exact Hx]. }
    cbv zeta. split; [rewrite A1, Ef; reflexivity|]. split; [|split; [exact A3|]].
    + eapply Permutation_trans; [exact A2|]. rewrite E2, E1, !map_app, !concat_app. cbn [map snd concat].
      rewrite <- !app_assoc. apply Permutation_app_head. apply Permutation_app_head.
      change ([e] ++ concat (map snd g2) ++ els) with (e :: concat (map snd g2) ++ els).
      apply Permutation_trans with (concat (map snd g2) ++ e :: els); [apply Permutation_middle|apply Permutation_refl].
    + intros m l l' H1 H2.
      destruct (mat_is (e_mat e) m) eqn:E.
      * assert (Hmm : In m mats) by (apply Hi, in_map_iff; exists (m, l); split; [reflexivity|exact H1]).
        assert (Em : e_mat e = m) by (apply Hco; [exact Hm|exact Hmm|apply mat_is_spec; exact E]).
        assert (Hl : In (m, l ++ [e]) (add_element gs e)).
        { rewrite E2. rewrite E1 in H1. apply in_app_or in H1.
          rewrite E1, map_app in ND. cbn [map fst] in ND. pose proof (NoDup_remove_2 _ _ _ ND) as N.
          destruct H1 as [H1|[H1|H1]].
          - exfalso. apply N. apply in_or_app. left. rewrite Em. apply in_map_iff. exists (m, l). split; [reflexivity|exact H1].
          - injection H1 as H1 H1'. subst l0. apply in_or_app. right. left. rewrite Em. reflexivity.
          - exfalso. apply N. apply in_or_app. right. rewrite Em. apply in_map_iff. exists (m, l). split; [reflexivity|exact H1]. }
        cbn [filter]. rewrite E. rewrite (A4 m (l ++ [e]) l' Hl H2), <- app_assoc. reflexivity.
      * cbn [filter]. rewrite E. apply A4; [|exact H2]. rewrite E2. rewrite E1 in H1. apply in_app_or in H1. apply in_or_app.
        destruct H1 as [H1|[H1|H1]]; [left; exact H1| |right; right; exact H1].
        exfalso. injection H1 as H1 _. rewrite H1 in E. unfold mat_is in E. rewrite Nat.eqb_refl in E. discriminate.
Qed.

End Groups.

Lemma concat_nils {A B} (l : list A) : concat (map (fun _ => @nil B) l) = [].
Proof. induction l as [|x l IH]; [reflexivity|exact IH]. Qed.

Lemma groups_partition mesh mats s : section_init mesh mats = Ok s ->
  (forall m, mesh = Some m -> length (rm_attributes m) = length (rm_triangles m)) ->
  coherent mats -> shared mats ->
  partitions (s_groups s) (s_els s) /\
  (forall m, In m mats <-> In m (map fst (s_groups s))) /\
  (forall m l, In (m, l) (s_groups s) -> l = filter (fun e => mat_is (e_mat e) m) (s_els s)).
Proof.
  intros H HL Hco Hsh. destruct (init_ok _ _ _ H) as [m [Em [_ [_ [_ [_ [_ Eg]]]]]]]. specialize (HL m Em). subst mesh.
  destruct (gm_spec mats Hco Hsh mats [] (fun x Hx => match Hx with end) (fun x Hx => Hx)) as [ND S].
  set (gs := map (fun g : mat_obj => (g, @nil element)) (group_materials [] mats)) in *.
  assert (Ef : map fst gs = group_materials [] mats) by (unfold gs; rewrite map_map; cbn [fst]; apply map_id).
  destruct (add_all mats Hco (s_els s) gs) as [A1 [A2 [A3 A4]]].
  - rewrite Ef. intros x Hx. apply S in Hx. tauto.
  - rewrite Ef. exact ND.
  - intros e He. apply In_nth_error in He. destruct He as [i He]. destruct (el_material m mats s i e H HL He) as [_ [row [att [_ [_ [Ea _]]]]]].
    apply nth_error_In in Ea. split; [exact Ea|]. rewrite Ef. apply S. split; [exact Ea|intros []].
  - intros m' l e Hml. unfold gs in Hml. apply in_map_iff in Hml. destruct Hml as [x [Ex _]]. injection Ex as _ <-. intros [].
  - rewrite <- Eg in A1, A2, A3, A4. split; [split; [|split]|split].
    + replace (concat (map snd gs)) with (@nil element) in A2; [exact A2|]. unfold gs. rewrite map_map. cbn [snd].
      symmetry. apply concat_nils.
    + exact A3.
    + rewrite A1, Ef. exact ND.
    + intros m'. rewrite A1, Ef, S. cbn [In]. tauto.
    + intros m' l Hml. assert (Hg : In (m', []) gs).
      { assert (In m' (map fst (s_groups s))) by (apply in_map_iff; exists (m', l); split; [reflexivity|exact Hml]).
        rewrite A1, Ef in H0. unfold gs. apply in_map_iff. exists m'. split; [reflexivity|exact H0]. }
      apply (A4 m' [] l Hg Hml).
Qed.
