(** Proofs: rounding, facets, compilation of compounds. *)
From Coq Require Import String Reals List Bool Arith ZArith Lia Lra Permutation.
From Verif Require Import Base M_Fea M_Init M_Geometry S_Geometry.
Import ListNotations.
Local Open Scope R_scope.

(** ** Rounding *)
Lemma pow10_pos tol : 0 < 10 ^ tol. Proof. apply pow_lt. lra. Qed.
Lemma half_pos tol : 0 < half tol. Proof. unfold half. pose proof (Rinv_0_lt_compat _ (pow10_pos tol)). lra. Qed.

Lemma Int_part_bounds x : IZR (Int_part x) <= x < IZR (Int_part x) + 1.
Proof. destruct (base_Int_part x) as [A B]. lra. Qed.

Lemma round_even_near x : Rabs (IZR (round_even x) - x) <= 1 / 2.
Proof.
  unfold round_even. pose proof (Int_part_bounds x) as B. set (k := Int_part x) in *.
  destruct (Rlt_dec (x - IZR k) (1 / 2)) as [H|H]; [apply Rabs_le; lra|].
  destruct (Rlt_dec (1 / 2) (x - IZR k)) as [H'|H']; [rewrite plus_IZR; apply Rabs_le; lra|].
  destruct (Z.even k); [|rewrite plus_IZR]; apply Rabs_le; lra.
Qed.
Lemma round_even_unique x k : Rabs (IZR k - x) < 1 / 2 -> round_even x = k.
Proof.
  intros H. pose proof (round_even_near x) as N. apply Rabs_def2 in H.
  assert (A : Rabs (IZR (round_even x) - IZR k) < 1) by (apply Rabs_def1; unfold Rabs in N; destruct (Rcase_abs _) in N; lra).
  rewrite <- minus_IZR in A. rewrite <- abs_IZR in A. apply lt_IZR in A. lia.
Qed.
Lemma round_even_int k : round_even (IZR k) = k.
Proof. apply round_even_unique. replace (IZR k - IZR k) with 0 by ring. rewrite Rabs_R0. lra. Qed.

Lemma round_to_grid tol x : on_grid tol (round_to tol x).
Proof. exists (round_even (x * 10 ^ tol)). unfold round_to. field. apply Rgt_not_eq, pow10_pos. Qed.
Lemma round_to_id tol x : on_grid tol x -> round_to tol x = x.
Proof. intros [k E]. unfold round_to. rewrite E, round_even_int, <- E. field. apply Rgt_not_eq, pow10_pos. Qed.
Lemma scale_abs tol a : Rabs a = Rabs (a * 10 ^ tol) / 10 ^ tol.
Proof. pose proof (pow10_pos tol). rewrite Rabs_mult, (Rabs_right (10 ^ tol)) by lra. field. lra. Qed.
Lemma round_to_near tol x : Rabs (round_to tol x - x) <= half tol.
Proof.
  pose proof (pow10_pos tol) as P. rewrite (scale_abs tol). unfold round_to, half.
  replace ((IZR (round_even (x * 10 ^ tol)) / 10 ^ tol - x) * 10 ^ tol) with (IZR (round_even (x * 10 ^ tol)) - x * 10 ^ tol) by (field; lra).
  pose proof (round_even_near (x * 10 ^ tol)). apply (Rmult_le_reg_r (10 ^ tol)); [exact P|]. unfold Rdiv. rewrite Rmult_assoc, Rinv_l by lra.
  replace (/ 10 ^ tol * / 2 * 10 ^ tol) with (/ 2) by (field; lra). lra.
Qed.
Lemma round_to_unique tol x y : on_grid tol y -> Rabs (y - x) < half tol -> round_to tol x = y.
Proof.
  intros [k E] H. pose proof (pow10_pos tol) as P. unfold round_to. rewrite (round_even_unique _ k).
  - rewrite <- E. field. lra.
  - rewrite (scale_abs tol) in H. unfold half in H. replace ((y - x) * 10 ^ tol) with (IZR k - x * 10 ^ tol) in H by (rewrite <- E; ring).
    apply (Rmult_lt_compat_r (10 ^ tol)) in H; [|exact P]. unfold Rdiv in H. rewrite Rmult_assoc, Rinv_l in H by lra.
    replace (/ 10 ^ tol * / 2 * 10 ^ tol) with (/ 2) in H by (field; lra). lra.
Qed.
Lemma round_to_half tol x : ~ tie tol x -> Rabs (round_to tol x - x) < half tol.
Proof.
  intros H. destruct (Rle_lt_or_eq_dec _ _ (round_to_near tol x)) as [L|E]; [exact L|exfalso]. apply H.
  pose proof (pow10_pos tol) as P. destruct (round_to_grid tol x) as [k K].
  unfold Rabs in E. unfold half in E. destruct (Rcase_abs _) in E.
  - exists k. rewrite <- K. assert (X : x = round_to tol x + / 10 ^ tol / 2) by lra. rewrite X at 1. field. lra.
  - exists (k - 1)%Z. rewrite minus_IZR, <- K. assert (X : x = round_to tol x - / 10 ^ tol / 2) by lra. rewrite X at 1. field. lra.
Qed.
Lemma round_pt_near tol p : near tol p (round_pt tol p).
Proof.
  split; [|split]; try apply round_to_near. intros [A B]. unfold round_pt. rewrite !round_to_id by assumption. destruct p; reflexivity.
Qed.
Lemma round_pt_grid tol p : pt_on_grid tol (round_pt tol p).
Proof. split; apply round_to_grid. Qed.
Lemma round_pt_id tol p : pt_on_grid tol p -> round_pt tol p = p.
Proof. intros [A B]. unfold round_pt. rewrite !round_to_id by assumption. destruct p; reflexivity. Qed.
Lemma grid_0 tol : on_grid tol 0. Proof. exists 0%Z. ring. Qed.
Lemma grid_plus tol a b : on_grid tol a -> on_grid tol b -> on_grid tol (a + b).
Proof. intros [k K] [j J]. exists (k + j)%Z. rewrite plus_IZR, <- K, <- J. ring. Qed.
Lemma grid_opp tol a : on_grid tol a -> on_grid tol (- a).
Proof. intros [k K]. exists (- k)%Z. rewrite opp_IZR, <- K. ring. Qed.
Lemma grid_minus tol a b : on_grid tol a -> on_grid tol b -> on_grid tol (a - b).
Proof. intros A B. apply grid_plus; [exact A|apply grid_opp, B]. Qed.

Lemma Reqb_spec a b : Reqb a b = true <-> a = b.
Proof. unfold Reqb. destruct (Req_EM_T a b); split; congruence. Qed.
Lemma pt_eqb_spec a b : pt_eqb a b = true <-> a = b.
Proof. unfold pt_eqb. rewrite andb_true_iff, !Reqb_spec. destruct a, b. cbn [fst snd]. split; [intros [-> ->]; reflexivity|intros E; injection E as -> ->; auto]. Qed.
Lemma pt_eqb_refl a : pt_eqb a a = true. Proof. apply pt_eqb_spec. reflexivity. Qed.
Lemma pt_eqb_neq a b : a <> b -> pt_eqb a b = false.
Proof. intros H. destruct (pt_eqb a b) eqn:E; [apply pt_eqb_spec in E; contradiction|reflexivity]. Qed.

(** ** Facets *)
Lemma combine_map_pair {A B} (g : A -> B) : forall l m, map (fun f => (g (fst f), g (snd f))) (combine l m) = combine (map g l) (map g m).
Proof. induction l as [|a l IH]; intros [|b m]; cbn [combine map]; try reflexivity. f_equal. apply IH. Qed.
Lemma map_tl {A B} (g : A -> B) l : map g (tl l) = tl (map g l). Proof. destruct l; reflexivity. Qed.
Lemma map_firstn1 {A B} (g : A -> B) l : map g (firstn 1 l) = firstn 1 (map g l). Proof. destruct l; reflexivity. Qed.

Lemma edges_ring pts l : edges pts (ring_facets l) = ring_edges (map (fun i => nth i pts (0, 0)) l).
Proof. unfold edges, ring_facets, ring_edges. rewrite (combine_map_pair (fun i => nth i pts (0, 0))), map_app, map_tl, map_firstn1. reflexivity. Qed.
Lemma edges_app pts a b : edges pts (a ++ b) = edges pts a ++ edges pts b.
Proof. apply map_app. Qed.
Lemma nth_seq_block {A} (d : A) : forall r a b, map (fun i => nth i (a ++ r ++ b) d) (seq (length a) (length r)) = r.
Proof.
  induction r as [|x r IH]; intros a b; cbn [length seq map app]; [reflexivity|]. f_equal.
  - rewrite app_nth2, Nat.sub_diag by lia. reflexivity.
  - replace (a ++ x :: r ++ b) with ((a ++ [x]) ++ r ++ b) by (rewrite <- app_assoc; reflexivity).
    replace (S (length a)) with (length (a ++ [x])) by (rewrite app_length; cbn; lia). apply IH.
Qed.

Lemma create_facets_eq n off : create_facets n true off = ring_facets (seq off n).
Proof.
  unfold create_facets. assert (E : map (fun i => (i + off)%nat) (seq 0 n) = seq off n).
  { change (seq off n) with (seq (0 + off) n). generalize 0%nat. induction n as [|n IH]; intros k; cbn [seq map]; [reflexivity|]. f_equal. apply (IH (S k)). }
  rewrite E. unfold ring_facets. destruct n; reflexivity.
Qed.
Fixpoint chain_rings (off : nat) (rs : list (list pt)) : list (nat * nat) :=
  match rs with [] => [] | r :: t => ring_facets (seq off (length r)) ++ chain_rings (off + length r) t end.
Lemma add_holes_eq tol : forall hs idx mc ec pts fs, length pts = mc -> (idx = 0%nat -> ec = mc) ->
  add_holes tol idx mc ec hs pts fs = (pts ++ concat (map (map (round_pt tol)) hs), fs ++ chain_rings mc hs).
Proof.
  induction hs as [|h hs IH]; intros idx mc ec pts fs Hl He; cbn [add_holes map concat chain_rings]; [rewrite !app_nil_r; reflexivity|].
  rewrite IH; [|rewrite app_length, map_length; lia|discriminate].
  assert (Eo : (if Nat.ltb 0 idx then mc else ec) = mc) by (destruct idx; [exact (He eq_refl)|reflexivity]).
  rewrite Eo, create_facets_eq, map_length, <- !app_assoc. reflexivity.
Qed.
Lemma create_points_and_facets_eq p tol :
  create_points_and_facets p tol = (concat (map (map (round_pt tol)) (rings p)), chain_rings 0 (rings p)).
Proof.
  unfold create_points_and_facets, rings. cbn [map concat chain_rings]. rewrite add_holes_eq; [|apply map_length|reflexivity].
  rewrite create_facets_eq, map_length. reflexivity.
Qed.
Lemma chain_edges : forall rs a, edges (a ++ concat rs) (chain_rings (length a) rs) = concat (map ring_edges rs).
Proof.
  induction rs as [|r rs IH]; intros a; cbn [chain_rings concat map]; [reflexivity|]. rewrite edges_app. f_equal.
  - rewrite edges_ring, nth_seq_block. reflexivity.
  - rewrite <- (app_length a r). rewrite app_assoc. apply IH.
Qed.
Lemma ring_facets_fst l : map fst (ring_facets l) = l.
Proof.
  unfold ring_facets. assert (E : length (tl l ++ firstn 1 l) = length l) by (destruct l as [|a l]; cbn; [reflexivity|rewrite app_length; cbn; lia]).
  revert E. generalize (tl l ++ firstn 1 l). induction l as [|a l IH]; intros [|b m] E; cbn in *; try reflexivity; try discriminate. f_equal. apply IH. lia.
Qed.
Lemma ring_facets_snd l : map snd (ring_facets l) = tl l ++ firstn 1 l.
Proof.
  unfold ring_facets. assert (E : length l = length (tl l ++ firstn 1 l)) by (destruct l as [|a l]; cbn; [reflexivity|rewrite app_length; cbn; lia]).
  revert E. generalize (tl l ++ firstn 1 l). induction l as [|a l IH]; intros [|b m] E; cbn in *; try reflexivity; try discriminate. f_equal. apply IH. lia.
Qed.
Lemma rotate_perm {A} (l : list A) : Permutation (tl l ++ firstn 1 l) l.
Proof. destruct l as [|a l]; cbn; [constructor|]. apply Permutation_sym, Permutation_cons_append. Qed.
Lemma chain_fst : forall rs off, map fst (chain_rings off rs) = seq off (length (concat rs)).
Proof.
  induction rs as [|r rs IH]; intros off; cbn [chain_rings concat length]; [reflexivity|].
  rewrite map_app, ring_facets_fst, IH, app_length, seq_app. reflexivity.
Qed.
Lemma chain_snd : forall rs off, Permutation (map snd (chain_rings off rs)) (seq off (length (concat rs))).
Proof.
  induction rs as [|r rs IH]; intros off; cbn [chain_rings concat length]; [constructor|].
  rewrite map_app, ring_facets_snd, app_length, seq_app. apply Permutation_app; [apply rotate_perm|apply IH].
Qed.
Lemma concat_map_length {A B} (f : A -> B) (l : list (list A)) : length (concat (map (map f) l)) = length (concat l).
Proof. induction l as [|a l IH]; cbn; [reflexivity|]. rewrite !app_length, map_length, IH. reflexivity. Qed.
Lemma chain_rings_map f : forall rs off, chain_rings off (map (map f) rs) = chain_rings off rs.
Proof. induction rs as [|r rs IH]; intros off; cbn [chain_rings map]; [reflexivity|]. rewrite map_length, IH. reflexivity. Qed.

(** the polygon of a Geometry is on its grid *)
Definition poly_on_grid (tol : nat) (p : polygon) : Prop := Forall (Forall (pt_on_grid tol)) (rings p).
Lemma round_polygon_grid p tol : poly_on_grid tol (round_polygon_vertices p tol).
Proof.
  unfold round_polygon_vertices. destruct (forallb _ _); [repeat constructor|]. unfold poly_on_grid, rings, map_polygon. cbn [ext ints].
  constructor; [|apply Forall_map, Forall_forall; intros h _]; apply Forall_map, Forall_forall; intros v _; apply round_pt_grid.
Qed.
Lemma map_round_id tol l : Forall (pt_on_grid tol) l -> map (round_pt tol) l = l.
Proof. intros H. induction H; cbn; [reflexivity|]. rewrite IHForall, round_pt_id by assumption. reflexivity. Qed.
Lemma map_polygon_round_id tol p : poly_on_grid tol p -> map_polygon (round_pt tol) p = p.
Proof.
  unfold poly_on_grid, rings. intros H. inversion H as [|x l He Hi]; subst. unfold map_polygon. rewrite map_round_id by exact He. destruct p as [e i]. cbn [ext ints] in *. f_equal.
  clear -Hi. induction Hi; cbn; [reflexivity|]. rewrite map_round_id, IHHi by assumption. reflexivity.
Qed.
Lemma geometry_points sh g : is_geometry sh g ->
  poly_on_grid (gm_tol g) (gm_poly g) /\ gm_points g = concat (rings (gm_poly g)) /\ gm_facets g = chain_rings 0 (rings (gm_poly g)).
Proof.
  intros [p E]. pose proof (round_polygon_grid p (gm_tol g)) as G. unfold new_geometry in E. set (q := round_polygon_vertices p (gm_tol g)) in *.
  rewrite create_points_and_facets_eq in E. assert (Q : gm_poly g = q) by (rewrite E; reflexivity). rewrite Q. split; [exact G|].
  split; [|rewrite E; reflexivity]. transitivity (concat (map (map (round_pt (gm_tol g))) (rings q))); [rewrite E at 1; reflexivity|]. f_equal.
  unfold poly_on_grid in G. clear -G. induction G; cbn; [reflexivity|]. rewrite map_round_id, IHG by assumption. reflexivity.
Qed.

(** ** Compounds *)
Lemma pt_in_spec p l : pt_in p l = true <-> In p l.
Proof.
  unfold pt_in. rewrite existsb_exists. split; [intros [x [H E]]; apply pt_eqb_spec in E; subst; exact H|intros H; exists p; split; [exact H|apply pt_eqb_refl]].
Qed.
Lemma pt_index_spec p d : forall l, In p l -> (pt_index p l < length l)%nat /\ nth (pt_index p l) l d = p.
Proof.
  induction l as [|a l IH]; intros H; [destruct H|]. cbn [pt_index length]. destruct (pt_eqb a p) eqn:E.
  - apply pt_eqb_spec in E. split; [lia|exact E].
  - destruct H as [->|H]; [rewrite pt_eqb_refl in E; discriminate|]. destruct (IH H) as [L N]. split; [lia|exact N].
Qed.
Lemma add_points_app : forall new pts, exists more, add_points pts new = pts ++ more.
Proof.
  unfold add_points. induction new as [|p new IH]; intros pts; cbn [fold_left]; [exists []; rewrite app_nil_r; reflexivity|].
  destruct (pt_in p pts); [apply IH|]. destruct (IH (pts ++ [p])) as [m E]. exists (p :: m). rewrite E, <- app_assoc. reflexivity.
Qed.
Lemma add_points_in x : forall new pts, In x (add_points pts new) <-> In x pts \/ In x new.
Proof.
  unfold add_points. induction new as [|p new IH]; intros pts; cbn [fold_left In]; [tauto|]. rewrite IH.
  destruct (pt_in p pts) eqn:E; [apply pt_in_spec in E; split; [tauto|intros [H|[<-|H]]; tauto]|]. rewrite in_app_iff. cbn [In]. tauto.
Qed.
Lemma add_points_nodup : forall new pts, NoDup pts -> NoDup (add_points pts new).
Proof.
  unfold add_points. induction new as [|p new IH]; intros pts H; cbn [fold_left]; [exact H|]. apply IH.
  destruct (pt_in p pts) eqn:E; [exact H|]. apply NoDup_rev in H. rewrite <- (rev_involutive (pts ++ [p])). apply NoDup_rev. rewrite rev_app_distr. cbn.
  constructor; [|exact H]. intros X. apply in_rev in X. apply pt_in_spec in X. congruence.
Qed.
Definition facets_below (n : nat) (fs : list (nat * nat)) : Prop := Forall (fun f => (fst f < n)%nat /\ (snd f < n)%nat) fs.
Lemma edges_extend pts more fs : facets_below (length pts) fs -> edges (pts ++ more) fs = edges pts fs.
Proof. intros H. apply map_ext_Forall. eapply Forall_impl; [|exact H]. intros f [A B]. rewrite !app_nth1 by assumption. reflexivity. Qed.
Lemma facets_below_le n m fs : (n <= m)%nat -> facets_below n fs -> facets_below m fs.
Proof. intros L. apply Forall_impl. intros f. lia. Qed.

(** what compile_geometry needs of a sub-geometry: its facets refer to its points *)
Definition good_geom (g : geom) : Prop := facets_below (length (gm_points g)) (gm_facets g).
Lemma compile_step_ok pts fs cs g : good_geom g -> NoDup pts -> facets_below (length pts) fs ->
  let '(pts', fs', cs') := compile_step (pts, fs, cs) g in
  NoDup pts' /\ facets_below (length pts') fs' /\ edges pts' fs' = edges pts fs ++ edges (gm_points g) (gm_facets g) /\
  (forall x, In x pts' <-> In x pts \/ In x (gm_points g)) /\ cs' = cs ++ gm_control g.
Proof.
  intros G N B. unfold compile_step. destruct (add_points_app (gm_points g) pts) as [more E].
  assert (I : forall x, In x (gm_points g) -> In x (add_points pts (gm_points g))) by (intros x H; apply add_points_in; right; exact H).
  split; [apply add_points_nodup, N|]. split; [|split; [|split; [intros x; apply add_points_in|reflexivity]]].
  - apply Forall_app. split; [apply (facets_below_le (length pts)); [rewrite E, app_length; lia|exact B]|].
    apply Forall_map. eapply Forall_impl; [|exact G]. intros f [F1 F2]. cbn [fst snd]. split; apply (pt_index_spec _ (0, 0)), I, nth_In; assumption.
  - rewrite edges_app. f_equal; [rewrite E; apply edges_extend, B|]. unfold edges. rewrite map_map. apply map_ext_Forall. eapply Forall_impl; [|exact G].
    intros f [F1 F2]. cbn [fst snd]. f_equal; apply (pt_index_spec _ (0, 0)), I, nth_In; assumption.
Qed.
Lemma compile_fold : forall gs pts fs cs, Forall good_geom gs -> NoDup pts -> facets_below (length pts) fs ->
  let '(pts', fs', cs') := fold_left compile_step gs (pts, fs, cs) in
  NoDup pts' /\ facets_below (length pts') fs' /\ edges pts' fs' = edges pts fs ++ concat (map (fun g => edges (gm_points g) (gm_facets g)) gs) /\
  (forall x, In x pts' <-> In x pts \/ In x (concat (map gm_points gs))) /\ cs' = cs ++ concat (map gm_control gs).
Proof.
  induction gs as [|g gs IH]; intros pts fs cs G N B; cbn [fold_left map concat].
  - rewrite !app_nil_r. repeat split; try assumption; cbn; tauto.
  - apply Forall_cons_iff in G. destruct G as [Gg Gs].
    pose proof (compile_step_ok pts fs cs g Gg N B) as S. destruct (compile_step (pts, fs, cs) g) as [[p1 f1] c1]. destruct S as (N1 & B1 & E1 & I1 & C1).
    specialize (IH p1 f1 c1 Gs N1 B1). destruct (fold_left compile_step gs (p1, f1, c1)) as [[p2 f2] c2]. destruct IH as (N2 & B2 & E2 & I2 & C2).
    split; [exact N2|]. split; [exact B2|]. split; [rewrite E2, E1, app_assoc; reflexivity|]. split; [|rewrite C2, C1, app_assoc; reflexivity].
    intros x. rewrite I2, I1, in_app_iff. tauto.
Qed.
Lemma geometry_good sh g : is_geometry sh g -> good_geom g.
Proof.
  intros H. destruct (geometry_points sh g H) as (_ & P & F). unfold good_geom, facets_below. rewrite P, F. apply Forall_forall. intros f Hf. split.
  - apply (in_map fst) in Hf. rewrite chain_fst in Hf. apply in_seq in Hf. lia.
  - apply (in_map snd) in Hf. apply (Permutation_in _ (chain_snd _ _)) in Hf. apply in_seq in Hf. lia.
Qed.
Lemma flatten_eq l : flatten_items l = concat (map (fun i => match i with ICompound c => cp_geoms c | ISingle g => [g] end) l).
Proof.
  unfold flatten_items.
  assert (A : forall acc, fold_left (fun acc i => match i with ICompound c => acc ++ cp_geoms c | ISingle g => acc ++ [g] end) l acc =
    acc ++ concat (map (fun i => match i with ICompound c => cp_geoms c | ISingle g => [g] end) l)).
  { induction l as [|i l IH]; intros acc; cbn [fold_left map concat]; [rewrite app_nil_r; reflexivity|]. rewrite IH, app_assoc. destruct i; reflexivity. }
  apply (A []).
Qed.
