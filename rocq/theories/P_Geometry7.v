(** Proofs: the network of touching polygons, nested compounds, mesh requests. *)
From Coq Require Import String Reals List Bool Arith ZArith Lia Lra Permutation.
From Verif Require Import Base M_Fea M_Init M_Geometry S_Geometry P_Geometry P_Geometry3 P_Geometry4 P_Geometry5 P_Geometry6.
Import ListNotations.
Local Open Scope R_scope.

(** ** Depth first search *)
Section Search.
  Variable n : nat.
  Variable network : list (nat * list nat).
  Hypothesis bounded : forall i j, In j (network_get network i) -> (j < n)%nat.
  Inductive reach : nat -> nat -> Prop := reach_0 : forall i, reach i i | reach_S : forall i j k, reach i j -> In k (network_get network j) -> reach i k.
  Lemma reach_trans i j k : reach i j -> reach j k -> reach i k.
  Proof. intros A B. induction B as [|? ? ? ? IH H]; [exact A|]. eapply reach_S; [apply IH, A|exact H]. Qed.
  Definition below (l : list nat) : Prop := Forall (fun i => (i < n)%nat) l.
  Definition closed (x : nat) (r : list nat) : Prop := forall y, In y (network_get network x) -> In y r.
  Record searched (node : nat) (vis r : list nat) : Prop := {
    se_nodup : NoDup r; se_below : below r; se_incl : incl vis r;
    se_closed : forall x, In x r -> In x vis \/ closed x r;
    se_reach : forall x, In x r -> In x vis \/ reach node x }.
  Lemma searched_refl node vis : NoDup vis -> below vis -> searched node vis vis.
  Proof. intros A B. constructor; auto. intros x H; exact H. Qed.
  Lemma existsb_in c l : existsb (Nat.eqb c) l = true <-> In c l.
  Proof. rewrite existsb_exists. split; [intros (x & H & E); apply Nat.eqb_eq in E; subst; exact H|intros H; exists c; rewrite Nat.eqb_refl; auto]. Qed.
  Lemma nodup_snoc (l : list nat) c : NoDup l -> ~ In c l -> NoDup (l ++ [c]).
  Proof. intros A B. apply NoDup_rev in A. rewrite <- (rev_involutive (l ++ [c])). apply NoDup_rev. rewrite rev_app_distr. cbn. constructor; [intros X; apply in_rev in X; contradiction|exact A]. Qed.
  Lemma below_length l : NoDup l -> below l -> (length l <= n)%nat.
  Proof. intros A B. rewrite <- (seq_length n 0). apply NoDup_incl_length; [exact A|]. intros x H. unfold below in B. rewrite Forall_forall in B. apply in_seq. specialize (B x H). lia. Qed.

  Lemma walk_searched : forall fuel node vis, NoDup vis -> below vis -> In node vis -> (n < fuel + length vis)%nat ->
    let r := walk_network fuel network node vis in searched node vis r /\ closed node r.
  Proof.
    induction fuel as [|f IH]; intros node vis N B I F; cbv zeta.
    - pose proof (below_length vis N B). cbn in F. lia.
    - cbn [walk_network].
      assert (L : forall cs vis, NoDup vis -> below vis -> In node vis -> (n < S f + length vis)%nat -> (forall c, In c cs -> In c (network_get network node)) ->
        let r := fold_left (fun vis c => if existsb (Nat.eqb c) vis then vis else walk_network f network c (vis ++ [c])) cs vis in
        searched node vis r /\ forall c, In c cs -> In c r).
      { clear vis N B I F. induction cs as [|c cs IHc]; intros vis N B I F Hc; cbv zeta; cbn [fold_left].
        - split; [apply searched_refl; assumption|intros c []].
        - destruct (existsb (Nat.eqb c) vis) eqn:Q.
          + apply existsb_in in Q. destruct (IHc vis N B I F (fun x H => Hc x (or_intror H))) as [S E]. split; [exact S|].
            intros x [<-|H]; [apply (se_incl _ _ _ S), Q|apply E, H].
          + assert (Nc : ~ In c vis) by (intros X; apply existsb_in in X; congruence).
            pose proof (bounded node c (Hc c (or_introl eq_refl))) as Bc.
            assert (N1 : NoDup (vis ++ [c])) by (apply nodup_snoc; assumption).
            assert (B1 : below (vis ++ [c])) by (apply Forall_app; split; [exact B|constructor; [exact Bc|constructor]]).
            assert (I1 : In c (vis ++ [c])) by (apply in_app_iff; right; left; reflexivity).
            destruct (IH c (vis ++ [c]) N1 B1 I1) as [S1 C1]; [rewrite app_length; cbn; lia|]. set (v1 := walk_network f network c (vis ++ [c])) in *.
            assert (Inc : incl vis v1) by (intros x H; apply (se_incl _ _ _ S1), in_app_iff; left; exact H).
            pose proof (NoDup_incl_length N Inc) as Len.
            destruct (IHc v1 (se_nodup _ _ _ S1) (se_below _ _ _ S1) (Inc _ I) ltac:(lia) (fun x H => Hc x (or_intror H))) as [S2 E2].
            set (v2 := fold_left _ cs v1) in *. split.
            * constructor; [apply (se_nodup _ _ _ S2)|apply (se_below _ _ _ S2)|intros x H; apply (se_incl _ _ _ S2), Inc, H| |].
              -- intros x Hx. destruct (se_closed _ _ _ S2 x Hx) as [H|H]; [|right; exact H].
                 destruct (se_closed _ _ _ S1 x H) as [K|K]; [|right; intros y Hy; apply (se_incl _ _ _ S2), K, Hy].
                 apply in_app_iff in K. destruct K as [K|[<-|[]]]; [left; exact K|right; intros y Hy; apply (se_incl _ _ _ S2), C1, Hy].
              -- intros x Hx. destruct (se_reach _ _ _ S2 x Hx) as [H|H]; [|right; exact H].
                 assert (Rc : reach node c) by (eapply reach_S; [apply reach_0|apply Hc; left; reflexivity]).
                 destruct (se_reach _ _ _ S1 x H) as [K|K]; [|right; eapply reach_trans; [exact Rc|exact K]].
                 apply in_app_iff in K. destruct K as [K|[<-|[]]]; [left; exact K|right; exact Rc].
            * intros x [<-|H]; [apply (se_incl _ _ _ S2), (se_incl _ _ _ S1), I1|apply E2, H]. }
      destruct (L (network_get network node) vis N B I F (fun c H => H)) as [S E]. split; [exact S|exact E].
  Qed.
  Lemma walk_reach : (0 < n)%nat -> forall x, In x (walk_network (S n) network 0 [0%nat]) <-> reach 0 x.
  Proof.
    intros P x. destruct (walk_searched (S n) 0 [0%nat]) as [S C]; [repeat constructor; intros []|repeat constructor; exact P|left; reflexivity|cbn; lia|].
    set (r := walk_network (Datatypes.S n) network 0 [0%nat]) in *. split.
    - intros H. destruct (se_reach _ _ _ S x H) as [[<-|[]]|H1]; [apply reach_0|exact H1].
    - assert (K : forall i x, reach i x -> i = 0%nat -> In x r).
      { intros i y Hr. induction Hr as [i|i j k Hr IH H]; intros ->; [apply (se_incl _ _ _ S); left; reflexivity|].
        specialize (IH eq_refl). destruct (se_closed _ _ _ S j IH) as [[<-|[]]|Cj]; [apply C, H|apply Cj, H]. }
      intros H. apply (K 0%nat x H eq_refl).
  Qed.
End Search.

Lemma network_keys sh lop : (2 <= length lop)%nat -> map fst (build_geometry_network sh lop) = seq 0 (length lop).
Proof. intros L. unfold build_geometry_network. replace (Nat.ltb (length lop) 2) with false by (symmetry; apply Nat.ltb_ge; exact L). rewrite map_map. apply map_id. Qed.
Lemma network_get_seq sh lop : forall n s i, network_get (map (fun i => (i, neighbours sh lop i)) (seq s n)) i = if (Nat.leb s i && Nat.ltb i (s + n))%bool then neighbours sh lop i else [].
Proof.
  induction n as [|n IH]; intros s i; cbn [seq map network_get].
  - destruct (Nat.leb_spec s i), (Nat.ltb_spec i (s + 0)); cbn [andb]; reflexivity || lia.
  - rewrite IH. destruct (Nat.eqb_spec s i) as [->|D].
    + rewrite Nat.leb_refl. replace (Nat.ltb i (i + S n)) with true by (symmetry; apply Nat.ltb_lt; lia). reflexivity.
    + destruct (Nat.leb_spec (S s) i), (Nat.leb_spec s i), (Nat.ltb_spec i (S s + n)), (Nat.ltb_spec i (s + S n)); cbn [andb]; reflexivity || lia.
Qed.
Lemma neighbours_spec sh lop i j : In j (neighbours sh lop i) <-> (j < length lop)%nat /\ i <> j /\ sh_intersects sh (nth i lop empty_polygon) (nth j lop empty_polygon) = true.
Proof.
  unfold neighbours. rewrite filter_In, in_seq, andb_true_iff, negb_true_iff, Nat.eqb_neq. split; [intros ([_ H] & K)|intros (H & K)]; (split; [lia|exact K]).
Qed.
Lemma network_edge sh lop i j : (2 <= length lop)%nat -> In j (network_get (build_geometry_network sh lop) i) <->
  (i < length lop)%nat /\ (j < length lop)%nat /\ i <> j /\ touching sh lop i j.
Proof.
  intros L. unfold build_geometry_network. replace (Nat.ltb (length lop) 2) with false by (symmetry; apply Nat.ltb_ge; exact L). rewrite network_get_seq. cbn [Nat.leb andb Nat.add].
  destruct (Nat.ltb_spec i (length lop)) as [H|H]; [rewrite neighbours_spec; unfold touching; tauto|]. split; [intros []|intros (X & _); lia].
Qed.
Lemma reach_walk sh lop i j : (2 <= length lop)%nat -> (i < length lop)%nat ->
  reach (build_geometry_network sh lop) i j <-> walk (touching sh lop) (length lop) i j.
Proof.
  intros L Hi. split.
  - intros H. revert Hi. induction H as [i|i j k H IH K]; intros Hi; [apply walk_nil, Hi|]. apply (network_edge sh lop j k L) in K. destruct K as (_ & K1 & K2 & K3).
    eapply walk_cons; [apply IH, Hi|exact K1|exact K2|exact K3].
  - intros H. revert Hi. induction H as [i Hi|i j k H IH K1 K2 K3]; intros Hi'; [apply reach_0|]. eapply reach_S; [apply IH, Hi'|]. apply network_edge; [exact L|]. split; [|auto].
    clear -H. inversion H; assumption.
Qed.
Lemma walk_sym (touch : nat -> nat -> Prop) n i j : (forall a b, touch a b -> touch b a) -> walk touch n i j -> walk touch n j i.
Proof.
  intros S H. assert (T : forall a b c, walk touch n a b -> walk touch n b c -> walk touch n a c).
  { intros a b c A B. induction B as [|? ? ? ? IH K1 K2 K3]; [exact A|]. eapply walk_cons; [apply IH, A|assumption..]. }
  assert (Rg : forall a b, walk touch n a b -> (a < n)%nat /\ (b < n)%nat) by (intros a b W; induction W; [auto|tauto]).
  induction H as [i Hi|i j k H IH K1 K2 K3]; [apply walk_nil, Hi|]. eapply T; [|exact IH]. destruct (Rg _ _ H) as [_ Hj].
  eapply walk_cons; [apply walk_nil, K1|exact Hj|intros E; apply K2; symmetry; exact E|apply S, K3].
Qed.
Lemma walk_trans (touch : nat -> nat -> Prop) n a b c : walk touch n a b -> walk touch n b c -> walk touch n a c.
Proof. intros A B. induction B as [|? ? ? ? IH K1 K2 K3]; [exact A|]. eapply walk_cons; [apply IH, A|assumption..]. Qed.

Lemma disjoint_spec sh lop : (2 <= length lop)%nat -> (forall p q, sh_intersects sh p q = sh_intersects sh q p) ->
  check_geometry_disjoint sh lop = true <-> ~ connected_graph (touching sh lop) (length lop).
Proof.
  intros L Sy. unfold check_geometry_disjoint. rewrite (network_keys sh lop L).
  assert (B : forall i j, In j (network_get (build_geometry_network sh lop) i) -> (j < length lop)%nat) by (intros i j H; apply (network_edge sh lop i j L) in H; tauto).
  pose proof (walk_reach (length lop) (build_geometry_network sh lop) B ltac:(lia)) as W. set (vis := walk_network _ _ _ _) in *.
  assert (V : forall x, In x vis -> (x < length lop)%nat).
  { intros x H. apply W in H. apply (reach_walk sh lop 0 x L ltac:(lia)) in H. inversion H; assumption. }
  rewrite negb_true_iff, andb_false_iff.
  assert (A : forallb (fun i => existsb (Nat.eqb i) (seq 0 (length lop))) vis = true).
  { apply forallb_forall. intros x H. apply existsb_in, in_seq. specialize (V x H). lia. }
  rewrite A. assert (C : forallb (fun i => existsb (Nat.eqb i) vis) (seq 0 (length lop)) = true <-> connected_graph (touching sh lop) (length lop)).
  { rewrite forallb_forall. split.
    - intros H. assert (K : forall i, (i < length lop)%nat -> walk (touching sh lop) (length lop) 0 i).
      { intros i Hi. apply reach_walk; [exact L|lia|]. apply W, existsb_in, H, in_seq. lia. }
      intros i j Hi Hj. eapply walk_trans; [apply walk_sym; [|apply K, Hi]|apply K, Hj]. intros a b T. unfold touching in *. rewrite Sy. exact T.
    - intros H i Hi. apply existsb_in, W, reach_walk; [exact L|lia|]. apply in_seq in Hi. apply H; lia. }
  split.
  - intros [X|X]; [discriminate|]. intros Y. apply C in Y. congruence.
  - intros X. right. destruct (forallb _ (seq 0 (length lop))) eqn:Q; [|reflexivity]. exfalso. apply X, C. reflexivity.
Qed.

(** ** Nested compounds *)
Fixpoint nest_size (t : nest) : nat := match t with Leaf _ => 1 | Node l => S (list_sum (map nest_size l)) end.
Lemma nest_flat sh : forall k t, (nest_size t <= k)%nat -> match build_nest sh t with ICompound c => cp_geoms c | ISingle g => [g] end = leaves t.
Proof.
  induction k as [|k IH]; intros t H; destruct t as [g|l]; cbn [nest_size] in H; try lia; [reflexivity|]. cbn [build_nest leaves].
  unfold new_compound. rewrite compile_geoms, flatten_eq, map_map. f_equal. assert (L : Forall (fun t => (nest_size t <= k)%nat) l).
  { apply Forall_forall. intros t It. apply in_split in It. destruct It as (a & b & ->). rewrite map_app, list_sum_app in H. cbn [map list_sum fold_right] in H. unfold list_sum in *. lia. }
  apply map_ext_Forall. eapply Forall_impl; [|exact L]. intros t Ht. apply IH, Ht.
Qed.
Lemma nest_geoms sh l : cp_geoms (new_compound sh (map (build_nest sh) l)) = concat (map leaves l).
Proof. pose proof (nest_flat sh (nest_size (Node l)) (Node l) (le_n _)) as H. exact H. Qed.

(** ** Mesh requests *)
Lemma mesh_regions_spec : forall control sizes i r, mesh_regions i control sizes = Ok r ->
  length r = length control /\ forall k c, nth_error control k = Some c -> exists s, nth_error sizes (i + k) = Some s /\ nth_error r k = Some (fst c, snd c, (i + k)%nat, s).
Proof.
  induction control as [|c control IH]; intros sizes i r H; cbn [mesh_regions] in H.
  - injection H as <-. split; [reflexivity|]. intros [|k] c H; discriminate.
  - destruct (nth_error sizes i) as [s|] eqn:Es; [|discriminate]. destruct (mesh_regions (S i) control sizes) as [r'|] eqn:Er; [|discriminate]. cbn [bind] in H. injection H as <-.
    destruct (IH sizes (S i) r' Er) as [L N]. split; [cbn; rewrite L; reflexivity|]. intros [|k] d H; cbn [nth_error] in *.
    + injection H as ->. exists s. rewrite Nat.add_0_r. split; [exact Es|reflexivity].
    + destruct (N k d H) as (s' & A & B). exists s'. replace (i + S k)%nat with (S i + k)%nat by lia. split; assumption.
Qed.
Lemma mesh_regions_ok : forall control sizes i, (i + length control <= length sizes)%nat -> exists r, mesh_regions i control sizes = Ok r.
Proof.
  induction control as [|c control IH]; intros sizes i L; cbn [mesh_regions]; [eexists; reflexivity|]. cbn [length] in L.
  destruct (nth_error sizes i) as [s|] eqn:Es; [|apply nth_error_None in Es; lia]. destruct (IH sizes (S i) ltac:(lia)) as [r ->]. eexists; reflexivity.
Qed.
Lemma mesh_regions_short : forall control sizes i, (length sizes < i + length control)%nat -> control <> [] -> mesh_regions i control sizes = Err IndexError.
Proof.
  induction control as [|c control IH]; intros sizes i L N; [contradiction|]. cbn [mesh_regions length] in *.
  destruct (nth_error sizes i) as [s|] eqn:Es; [|reflexivity]. assert (H : (i < length sizes)%nat) by (apply nth_error_Some; congruence).
  rewrite (IH sizes (S i)); [reflexivity|lia|]. destruct control; [cbn in L; lia|discriminate].
Qed.
