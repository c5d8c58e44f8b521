(** The tables of results (C84). *)
From Coq Require Import String Reals List Bool Arith Lra Lia DecimalString.
From Coq Require DecimalNat.
From Verif Require Import Base M_Init M_Props M_State S_State P_State P_State2 P_State4 P_State5 M_Draw M_Display S_Display P_Display.
From Verif Require P_Init T_Init T_State.
Import ListNotations.
Local Open Scope list_scope.
Local Open Scope R_scope.

(** After any history of calls, the table of display_results lists, under its name and once, every value that a getter returns, and nothing else. *)
Theorem C84_results : forall l query g s h, built g s -> let w := run l query (mkWorld g s no_props) h in
  exists t, display_results w = Ok t /\ NoDup (map fst t) /\ forall name v, In (name, v) t <-> listed l query w (ENum 1) names name v.
Proof.
  intros l query g s h Hb w. pose proof (results_blocks l query g s h Hb) as E. fold w in E. cbv zeta in E. unfold display_results. rewrite E.
  destruct (table_blocks l query w (map plain_block (shown (is_composite (s_mats s))))) as (t & Et & Hs & M). exists t. split; [exact Et|]. split.
  - apply (sub_nodup _ _ Hs). apply nodup_dec. destruct (is_composite (s_mats s)); vm_compute; reflexivity.
  - intros name v. rewrite M. unfold listed. split.
    + intros (x & nm & f & k & vs & a & I & Hn & Hr & Ha & ->). apply in_map_iff in I. destruct I as (x' & Ex & _). unfold plain_block in Ex. injection Ex as <- <- <-. exists x', k, vs. auto.
    + intros (x & k & vs & Hn & Hr & Hv). exists x, (names x), (fun a => a), k, vs, v. repeat split; try assumption. change (x, names x, fun a : R => a) with (plain_block x). apply in_map.
      apply returns_iff in Hr. destruct Hr as [A _]. unfold w in A. rewrite run_sec in A. cbn [w_sec] in A. destruct (is_composite (s_mats s)); destruct x; try discriminate A; cbn [shown In]; tauto.
Qed.

(** A getter with the reference modulus returns what the getter without returns, divided where the property is modulus-weighted. *)
Lemma returns_over l query w x e vs : returns l query w x (ENum 1) vs -> returns l query w x e (map (if has_e_ref x then fun a => a / e_value e else fun a => a) vs).
Proof.
  rewrite !returns_iff. intros [A (u & Hu & ->)]. split; [exact A|]. exists u. split; [exact Hu|]. unfold finish.
  destruct x; cbn [has_e_ref]; rewrite ?map_id, ?map_map; try reflexivity; apply map_ext; intros a; cbn [e_value]; rewrite Rdiv_one; reflexivity.
Qed.

(** The same for display_transformed_results: the values are those that the getters return for this e_ref, under the names of the geometric properties,
    and the reference modulus itself. It raises RuntimeError if the section is not composite. *)
Theorem C84_transformed : forall l query g s h e, built g s -> e_value e <> 0 -> let w := run l query (mkWorld g s no_props) h in
  (is_composite (s_mats s) = false -> display_transformed_results w e = Err RuntimeError) /\
  (is_composite (s_mats s) = true -> exists t, display_transformed_results w e = Ok t /\ NoDup (map fst t) /\
     forall name v, In (name, v) t <-> name = "e_ref"%string /\ v = e_value e \/ listed l query w e transformed_names name v).
Proof.
  intros l query g s h e Hb He w. assert (Es : w_sec w = s) by (unfold w; rewrite run_sec; reflexivity). unfold display_transformed_results. rewrite Es.
  split; intros Hc; rewrite Hc; [reflexivity|].
  destruct (transformed_blocks l query g s h e Hb) as (a & b & Eab & E). fold w in E. rewrite E. clear E.
  destruct (table_blocks l query w (map (over_block e) a)) as (ta & Eta & Sa & Ma). destruct (table_blocks l query w (map (over_block e) b)) as (tb & Etb & Sb & Mb).
  rewrite !table_app, Eta, Etb. cbn [table bind app]. eexists. split; [reflexivity|]. split.
  - rewrite map_app. cbn [map fst].
    assert (Q : sub (map fst ta ++ "e_ref"%string :: map fst tb) (concat (map transformed_names a) ++ "e_ref"%string :: concat (map transformed_names b))).
    { rewrite !map_map in Sa, Sb. apply sub_app; [exact Sa|apply sub_keep; exact Sb]. }
    apply (sub_nodup _ _ Q). apply NoDup_Add with (a := "e_ref"%string) (l := concat (map transformed_names a) ++ concat (map transformed_names b)); [apply Add_app|].
    rewrite <- concat_app, <- map_app, <- Eab. split; [apply nodup_dec; vm_compute; reflexivity|].
    destruct (in_dec string_dec "e_ref"%string (concat (map transformed_names transformed_shown))) as [I|N]; [exfalso; vm_compute in I; repeat (destruct I as [I|I]; [discriminate I|]); exact I|exact N].
  - assert (K : forall c, incl c transformed_shown -> forall name v,
        (exists x nm f k vs q, In (x, nm, f) (map (over_block e) c) /\ nth_error nm k = Some name /\ returns l query w x (ENum 1) vs /\ nth_error vs k = Some q /\ v = f q) <->
        (exists x k vs, In x c /\ nth_error (transformed_names x) k = Some name /\ returns l query w x e vs /\ nth_error vs k = Some v)).
    { intros c _ name v. split.
      - intros (x & nm & f & k & vs & q & I & Hn & Hr & Hq & ->). apply in_map_iff in I. destruct I as (x' & Ex & I). unfold over_block in Ex. injection Ex as <- <- <-.
        exists x', k, (map (if has_e_ref x' then fun a => a / e_value e else fun a => a) vs). split; [exact I|]. split; [exact Hn|]. split; [apply returns_over, Hr|]. rewrite nth_error_map, Hq. reflexivity.
      - intros (x & k & vs & I & Hn & Hr & Hv). destruct (call_cases l query w x) as [(v1 & _ & R1)|(_ & N)]; [|exfalso; exact (N _ _ Hr)].
        pose proof (returns_over _ _ _ _ e _ R1) as R2. unfold returns in R2, Hr. rewrite R2 in Hr. injection Hr as <-. rewrite nth_error_map in Hv. destruct (nth_error v1 k) as [q|] eqn:Eq; [|discriminate Hv]. injection Hv as <-.
        exists x, (transformed_names x), (if has_e_ref x then fun a => a / e_value e else fun a => a), k, v1, q. repeat split; try assumption. change (In (over_block e x) (map (over_block e) c)). apply in_map, I. }
    intros name v. rewrite in_app_iff. cbn [In]. rewrite Ma, Mb, !K by (rewrite Eab; intros z Hz; apply in_or_app; auto).
    split.
    + intros [(x & k & vs & _ & H)|[Eq|(x & k & vs & _ & H)]]; [right; exists x, k, vs; exact H|left; injection Eq as <- <-; auto|right; exists x, k, vs; exact H].
    + intros [[-> ->]|(x & k & vs & Hn & Hr & Hv)]; [right; left; reflexivity|].
      assert (I : In x transformed_shown).
      { apply returns_iff in Hr. destruct Hr as [A _]. rewrite Es, Hc in A. destruct x; try discriminate A; cbn [transformed_shown In]; tauto. }
      rewrite Eab in I. apply in_app_iff in I. destruct I as [I|I]; [left|right; right]; exists x, k, vs; auto.
Qed.

(** A table that is not empty: after a warping analysis the torsion constant is listed. *)
Example C84_met : exists l query s h t v, built T_State.ex_geometry s /\ display_results (run l query (mkWorld T_State.ex_geometry s no_props) h) = Ok t /\ In ("j"%string, v) t.
Proof.
  destruct T_State.ex_history as (l & query & s & h & Hb & _ & _ & _ & _ & (v & Hv) & _).
  destruct (C84_results l query T_State.ex_geometry s h Hb) as (t & Et & _ & M). exists l, query, s, h, t, (nth 0 v 0). split; [exact Hb|]. split; [exact Et|]. apply M. exists get_j, 0%nat, v. split; [reflexivity|]. split; [exact Hv|].
  apply returns_iff in Hv. destruct Hv as [_ (u & Hu & ->)]. cbn [fields all_values] in Hu. destruct (num _ _); [|discriminate Hu]. injection Hu as <-. reflexivity.
Qed.

(** A composite section of steel and timber: the transformed area is listed after a geometric analysis. *)
Example C84_transformed_met : exists l query g s t v, built g s /\ is_composite (s_mats s) = true /\
  display_transformed_results (run l query (mkWorld g s no_props) [CGeometric]) (EMat (mo_val (T_Init.ex_timber 2))) = Ok t /\ In ("a"%string, v) t.
Proof.
  destruct T_State.ex_libs as (l & _). destruct T_Init.ex_section as (s & Hi & _). set (g := mkGeometry (Some T_Init.ex_raw) [T_Init.ex_steel 1; T_Init.ex_timber 2] 12 (g_plastic T_State.ex_geometry)).
  destruct (P_Init.init_ok _ _ _ Hi) as (m & Em' & _ & _ & Em & En & _). injection Em' as <-.
  assert (Hb : built g s) by (split; [exact Hi|rewrite En; discriminate]).
  assert (Hc : is_composite (s_mats s) = true).
  { destruct (is_composite (s_mats s)) eqn:E; [reflexivity|exfalso]. apply not_composite in E. destruct E as [_ E]. rewrite Em in E. destruct (E (T_Init.ex_steel 1)) as (N & _); [left; reflexivity|discriminate N]. }
  set (q := fun _ : R * R => @nil nat). set (w := run l q (mkWorld g s no_props) [CGeometric]).
  destruct (C84_transformed l q g s [CGeometric] (EMat (mo_val (T_Init.ex_timber 2))) Hb) as [_ T]; [cbn; lra|]. destruct (T Hc) as (t & Et & _ & M).
  destruct (T_State.C40_available l q g s [CGeometric] Geometric CGeometric get_ea (EMat (mo_val (T_Init.ex_timber 2))) Hb) as (v & Hv); try (left; reflexivity); try reflexivity; try exact I; [|exact Hc|].
  { eexists. split; [exists [], []; split; reflexivity|]. rewrite step_result. cbn [method run fold_left w_geom w_sec w_props]. rewrite map_result. destruct (geometric_eval g s Hb no_props) as (z & _ & ->). exact I. }
  exists l, q, g, s, t, (nth 0 v 0). split; [exact Hb|]. split; [exact Hc|]. split; [exact Et|]. apply M. right. exists get_ea, 0%nat, v. split; [reflexivity|]. split; [exact Hv|].
  apply returns_iff in Hv. destruct Hv as [_ (u & Hu & ->)]. cbn [fields all_values] in Hu. destruct (num _ _); [|discriminate Hu]. injection Hu as <-. reflexivity.
Qed.

(** The line "- n what" with the number n in decimal digits. *)
Definition says (line : string) (n : nat) (what : string) : Prop :=
  exists d, line = ("- " ++ d ++ " " ++ what)%string /\ option_map Nat.of_uint (NilZero.uint_of_string d) = Some n.

Lemma append_assoc (a b c : string) : ((a ++ b) ++ c = a ++ b ++ c)%string.
Proof. induction a as [|x a IH]; [reflexivity|]. cbn [append]. f_equal. exact IH. Qed.

Lemma digits_says n what : says ("- " ++ digits n ++ " " ++ what)%string n what.
Proof.
  exists (digits n). split; [reflexivity|]. unfold digits. rewrite NilZero.usu; [cbn [option_map]; rewrite DecimalNat.Unsigned.of_to; reflexivity|].
  intros E. pose proof (DecimalNat.Unsigned.of_to n) as T. rewrite E in T. cbn in T. subst n. discriminate E.
Qed.

(** display_mesh_info says how many nodes and triangles the mesh has and how many materials (one for each region) the section was made of. *)
Theorem C84_mesh_info : forall m mats s, section_init (Some m) mats = Ok s -> exists title nodes elements regions,
  display_mesh_info m s = [title; nodes; elements; regions; ""%string] /\
  says nodes (length (rm_vertices m)) "nodes" /\ says elements (length (rm_triangles m)) "elements" /\
  says regions (length mats) (if Nat.eqb (length mats) 1 then "region" else "regions").
Proof.
  intros m mats s H. destruct (P_Init.init_ok _ _ _ H) as (m' & Em & Ha & El & Es & En & Ee & _). injection Em as <-.
  assert (L : length (s_els s) = length (rm_triangles m)) by (rewrite Ee; apply P_Init.build_length).
  unfold display_mesh_info. rewrite En, L, <- El. eexists _, _, _, _. split; [reflexivity|]. split; [apply (digits_says _ "nodes")|]. split; [apply (digits_says _ "elements")|].
  destruct (Nat.ltb_spec 1 (length mats)) as [G|G].
  - destruct (Nat.eqb_spec (length mats) 1) as [E|_]; [lia|]. rewrite append_assoc, append_assoc. apply (digits_says _ "regions").
  - destruct (Nat.eqb_spec (length mats) 1) as [_|E]; [|lia]. apply (digits_says _ "region").
Qed.

(** For the mesh of two triangles in two regions: nine nodes, two elements, two regions. *)
Example C84_mesh_info_met : exists s, section_init (Some T_Init.ex_raw) [T_Init.ex_steel 1; T_Init.ex_timber 2] = Ok s /\
  display_mesh_info T_Init.ex_raw s = ["Mesh Statistics:"; "- 9 nodes"; "- 2 elements"; "- 2 regions"; ""]%string.
Proof. destruct T_Init.ex_section as (s & Hs & _). exists s. split; [exact Hs|]. destruct (P_Init.init_ok _ _ _ Hs) as (m' & Em & _ & _ & _ & En & Ee & _). injection Em as <-. unfold display_mesh_info. rewrite En, Ee, P_Init.build_length. reflexivity. Qed.

Print Assumptions C84_results.
Print Assumptions C84_transformed.
Print Assumptions C84_mesh_info.
