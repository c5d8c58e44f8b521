(** Proofs: the material of a geometry made by shift_points, and the groups of a section with it. *)
From Coq Require Import String Reals List Bool Arith ZArith Lia Lra.
From Verif Require Import Base M_Fea M_Section M_Init M_Geometry S_Init P_Init P_Geometry3.
Import ListNotations.
Local Open Scope R_scope.

Lemma from_points_material sh points facets control holes m g : from_points sh points facets control holes m = Ok g -> gm_mat g = m.
Proof.
  unfold from_points. destruct control as [|c [|]]; try discriminate. destruct (fold_result _ _ _) as [s|]; [|discriminate]. cbn [bind].
  destruct (make_polygon _) as [e|]; [|discriminate]. cbn [bind]. destruct (map_result _ _) as [is_|]; [|discriminate]. cbn [bind].
  destruct (sh_difference _ _ _) as [p|]; [|discriminate]. intros H. injection H as <-. apply new_geometry_poly.
Qed.

Lemma shifted_material sh ref g g' idxs dx dy ax ay : shift_points sh ref g idxs dx dy ax ay = Ok g' -> gm_mat g' = copy_material ref (gm_mat g).
Proof.
  unfold shift_points. destruct (fold_result _ _ _) as [ps|]; [|discriminate]. cbn [bind]. apply from_points_material.
Qed.

(** every element of a group has the very object of the group for its material *)
Lemma add_identity e : forall gs, (forall k l x, In (k, l) gs -> In x l -> mat_is (e_mat x) k = true) ->
  forall k l x, In (k, l) (M_Init.add_element gs e) -> In x l -> mat_is (e_mat x) k = true.
Proof.
  induction gs as [|[k0 l0] gs IH]; intros H k l x Hk Hx; cbn [M_Init.add_element] in Hk; [destruct Hk|].
  destruct (mat_is (e_mat e) k0) eqn:E.
  - destruct Hk as [Hk|Hk].
    + injection Hk as <- <-. apply in_app_or in Hx. destruct Hx as [Hx|[<-|[]]]; [exact (H k0 l0 x (or_introl eq_refl) Hx)|exact E].
    + exact (H k l x (or_intror Hk) Hx).
  - destruct Hk as [Hk|Hk].
    + injection Hk as <- <-. exact (H k0 l0 x (or_introl eq_refl) Hx).
    + refine (IH _ k l x Hk Hx). intros k1 l1 x1 H1. apply H. right. exact H1.
Qed.
Lemma fold_identity : forall els gs, (forall k l x, In (k, l) gs -> In x l -> mat_is (e_mat x) k = true) ->
  forall k l x, In (k, l) (fold_left M_Init.add_element els gs) -> In x l -> mat_is (e_mat x) k = true.
Proof.
  induction els as [|e els IH]; intros gs H; cbn [fold_left]; [exact H|]. apply IH. apply add_identity. exact H.
Qed.
Lemma add_keys e : forall gs, map fst (M_Init.add_element gs e) = map fst gs.
Proof. induction gs as [|[k l] gs IH]; cbn [M_Init.add_element map fst]; [reflexivity|]. destruct (mat_is _ _); cbn [map fst]; [reflexivity|f_equal; exact IH]. Qed.
Lemma fold_keys : forall els gs, map fst (fold_left M_Init.add_element els gs) = map fst gs.
Proof. induction els as [|e els IH]; intros gs; cbn [fold_left]; [reflexivity|]. rewrite IH. apply add_keys. Qed.

Lemma copied_lost m a ref s i e : ref <> mo_ref a -> section_init (Some m) [a; copy_material ref a] = Ok s ->
  nth_error (s_els s) i = Some e -> nth i (rm_attributes m) 0%nat = 1%nat -> forall k l, In (k, l) (s_groups s) -> ~ In e l.
Proof.
  intros Hr H He Ha k l Hk Hl. destruct (init_ok _ _ _ H) as [m' [Em [_ [_ [_ [_ [Els Eg]]]]]]]. injection Em as <-.
  assert (Gm : group_materials [] [a; copy_material ref a] = [a]).
  { cbn [group_materials]. unfold mat_in at 1. cbn [existsb]. unfold mat_in. cbn [app existsb].
    replace (mat_eqb (copy_material ref a) a) with true by (symmetry; apply mat_eqb_spec; repeat split). rewrite orb_true_r. reflexivity. }
  rewrite Gm in Eg. cbn [map] in Eg.
  assert (K : k = a).
  { assert (I : In k (map fst (s_groups s))) by (apply in_map_iff; exists (k, l); split; [reflexivity|exact Hk]).
    rewrite Eg, fold_keys in I. destruct I as [I|[]]. symmetry. exact I. }
  rewrite Eg in Hk. assert (Q := fold_identity (s_els s) [(a, [])] ltac:(intros k0 l0 x0 [E|[]] Hx; injection E as <- <-; destruct Hx) k l e Hk Hl).
  rewrite Els, build_nth in He. destruct (nth_error (rm_triangles m) i) as [row|]; [|discriminate]. cbn [option_map] in He.
  apply (f_equal (fun o => match o with Some x => e_mat x | None => a end)) in He. unfold build_element in He. cbn [e_mat] in He.
  change (0 + i)%nat with i in He. rewrite Ha in He. cbn [nth] in He. rewrite <- He, K in Q. apply mat_is_spec in Q. exact (Hr Q).
Qed.
