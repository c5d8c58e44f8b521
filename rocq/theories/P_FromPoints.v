(** Lemmas for CompoundGeometry.from_points. *)
From Coq Require Import String Reals List Bool Arith ZArith Lia Lra.
From Verif Require Import Base M_Fea M_Init M_Geometry S_Geometry P_Geometry P_Geometry2 P_Geometry3 P_Geometry4 P_Geometry6 S_FromPoints.
Import ListNotations.
Local Open Scope R_scope.

Lemma linked_chain points : forall fs cur polys i j, linked j fs -> Forall (fun f => (fst f < length points)%nat) fs ->
  fold_result (chain_step points) fs (cur, polys, Some (i, j)) = Ok (cur ++ map (fun f => at_ points (fst f)) fs, polys, Some (last fs (i, j))).
Proof.
  induction fs as [|f fs IH]; intros cur polys i j Hl Hr; [cbn [fold_result map last]; rewrite app_nil_r; reflexivity|]. rewrite (last_cons f (i, j) f fs). cbn [fold_result map].
  destruct Hl as [Ef Hl]. apply Forall_cons_iff in Hr. destruct Hr as [Rf Hr]. unfold chain_step at 1. rewrite nth_error_at by exact Rf. cbn [snd]. rewrite Ef, Nat.eqb_refl. cbn [bind].
  destruct f as [fi fj]. cbn [fst snd] in *. rewrite (IH _ _ fi fj Hl Hr), <- app_assoc, Ef. reflexivity.
Qed.
(** a closed loop, as it is sent to shapely *)
Lemma closed_loop points h t : open_loop (map (at_ points) (h :: t)) -> make_polygon (map (at_ points) (h :: t) ++ [at_ points h]) = Ok (region points (h :: t)).
Proof.
  intros [L _]. unfold make_polygon, make_ring, region. cbn [map app]. assert (T : t <> []) by (intros ->; cbn in L; lia). destruct t as [|b t]; [contradiction|].
  cbn [map app]. assert (E : open_ring (at_ points h :: at_ points b :: map (at_ points) t ++ [at_ points h]) = at_ points h :: at_ points b :: map (at_ points) t).
  { unfold open_ring. change (at_ points h :: at_ points b :: map (at_ points) t ++ [at_ points h]) with ((at_ points h :: at_ points b :: map (at_ points) t) ++ [at_ points h]).
    rewrite last_last, removelast_last. rewrite (proj2 (pt_eqb_spec _ _) eq_refl). reflexivity. }
  rewrite E. replace (Nat.ltb _ 3) with false by (symmetry; apply Nat.ltb_ge; cbn [map length] in L |- *; exact L). reflexivity.
Qed.

(** the state after a loop: its points, the polygons before, the last facet ends at its head *)
Definition chain_done (points : list pt) (k : list nat) (polys : list polygon) (s : list pt * list polygon * option (nat * nat)) : Prop :=
  exists i, s = (map (at_ points) k, polys, Some (i, head_of k)).
Lemma loop_tail points h t cur polys : Forall (fun i => (i < length points)%nat) t ->
  exists i, fold_result (chain_step points) (combine t (tl t ++ [h])) (cur, polys, Some (h, match t with [] => h | a :: _ => a end)) = Ok (cur ++ map (at_ points) t, polys, Some (i, h)).
Proof.
  intros Rt. rewrite linked_chain by (first [apply tail_linked|apply (combine_fst_range (fun i => (i < length points)%nat)); exact Rt]). rewrite tail_map.
  set (d := (h, match t with [] => h | a :: _ => a end)). exists (fst (last (combine t (tl t ++ [h])) d)). rewrite (surjective_pairing (last _ d)) at 1. rewrite tail_last; reflexivity.
Qed.
Lemma chain_first points k : good_loop points k -> exists s, fold_result (chain_step points) (ring_facets k) ([], [], None) = Ok s /\ chain_done points k [] s.
Proof.
  intros [Rg [L _]]. destruct k as [|h t]; [cbn in L; lia|]. rewrite ring_facets_cons. cbn [fold_result]. apply Forall_cons_iff in Rg. destruct Rg as [Rh Rt].
  unfold chain_step at 1. cbn [fst]. rewrite nth_error_at by exact Rh. cbn [bind app]. destruct (loop_tail points h t [at_ points h] [] Rt) as (i & ->). eexists. split; [reflexivity|]. exists i. reflexivity.
Qed.
Lemma chain_next points k polys s k' : good_loop points k -> chain_done points k polys s -> good_loop points k' -> head_of k' <> head_of k ->
  exists s', fold_result (chain_step points) (ring_facets k') s = Ok s' /\ chain_done points k' (polys ++ [region points k]) s'.
Proof.
  intros [Rk Ok] (i & ->) [Rg [L _]] N. destruct k' as [|h t]; [cbn in L; lia|]. rewrite ring_facets_cons. cbn [fold_result]. apply Forall_cons_iff in Rg. destruct Rg as [Rh Rt].
  unfold chain_step at 1. cbn [fst snd]. cbv zeta. apply Nat.eqb_neq in N. change (head_of (h :: t)) with h in N. rewrite N.
  destruct k as [|h0 t0]; [destruct Ok as [L0 _]; cbn in L0; lia|]. apply Forall_cons_iff in Rk. destruct Rk as [Rh0 _]. cbn [head_of hd] in *. rewrite nth_error_at by exact Rh0.
  rewrite (closed_loop points h0 t0 Ok). cbn [bind]. rewrite nth_error_at by exact Rh. cbn [bind app]. destruct (loop_tail points h t [at_ points h] (polys ++ [region points (h0 :: t0)]) Rt) as (j & ->). eexists. split; [reflexivity|]. exists j. reflexivity.
Qed.
Lemma chain_more points : forall ls k polys s, good_loop points k -> chain_done points k polys s -> Forall (good_loop points) ls -> separate (head_of k) ls ->
  exists s' kl polys', fold_result (chain_step points) (concat (map ring_facets ls)) s = Ok s' /\ chain_done points kl polys' s' /\ good_loop points kl /\
    polys' ++ [region points kl] = polys ++ map (region points) (k :: ls).
Proof.
  induction ls as [|l ls IH]; intros k polys s G D Gs S.
  - exists s, k, polys. cbn [map concat fold_result]. auto.
  - cbn [map concat]. apply Forall_cons_iff in Gs. destruct Gs as [Gl Gs]. destruct S as [N S]. destruct (chain_next points k polys s l G D Gl N) as (s1 & F1 & D1).
    rewrite fold_result_app, F1. cbn [bind]. destruct (IH l _ s1 Gl D1 Gs S) as (s' & kl & polys' & F & D' & G' & E). exists s', kl, polys'. split; [exact F|]. split; [exact D'|]. split; [exact G'|].
    rewrite E, <- app_assoc. reflexivity.
Qed.
(** The polygons found in a list of facets are the regions of its loops. *)
Lemma chain_loops points l ls : Forall (good_loop points) (l :: ls) -> separate (head_of l) ls ->
  chain_polygons points (concat (map ring_facets (l :: ls))) = Ok (map (region points) (l :: ls)).
Proof.
  intros G S. apply Forall_cons_iff in G. destruct G as [Gl G]. unfold chain_polygons. cbn [map concat]. rewrite fold_result_app. destruct (chain_first points l Gl) as (s & -> & D). cbn [bind].
  destruct (chain_more points ls l [] s Gl D G S) as (s' & kl & polys & -> & (i & ->) & [Rk Ok] & E). cbn [bind snd].
  destruct kl as [|h t]; [destruct Ok as [L _]; cbn in L; lia|]. apply Forall_cons_iff in Rk. destruct Rk as [Rh _]. cbn [head_of hd]. rewrite nth_error_at by exact Rh.
  rewrite (closed_loop points h t Ok). cbn [bind]. rewrite E. reflexivity.
Qed.

(** Voids *)
Definition void_test (sh : shapely) (control holes : list pt) (p : polygon) : bool := existsb (sh_contains sh p) holes && negb (existsb (sh_contains sh p) control).
Lemma void_iff sh points control holes k : void_test sh control holes (region points k) = true <-> is_void sh points control holes k.
Proof.
  unfold void_test, is_void. rewrite andb_true_iff, existsb_exists, negb_true_iff. split; intros [H1 H2]; (split; [exact H1|]).
  - intros c Hc. destruct (sh_contains sh (region points k) c) eqn:E; [|reflexivity]. rewrite <- H2. symmetry. apply existsb_exists. exists c. auto.
  - destruct (existsb _ control) eqn:E; [|reflexivity]. apply existsb_exists in E. destruct E as (c & Hc & E). rewrite (H2 c Hc) in E. discriminate E.
Qed.
Lemma filter_map {A B} (f : A -> B) (t : B -> bool) (u : A -> bool) l : (forall a, In a l -> t (f a) = u a) -> filter t (map f l) = map f (filter u l).
Proof.
  intros H. induction l as [|a l IH]; [reflexivity|]. cbn [map filter]. rewrite (H a (or_introl eq_refl)), IH by (intros b Hb; apply H; right; exact Hb). destruct (u a); reflexivity.
Qed.
Lemma find_first sh control q : (exists c, In c control /\ sh_contains sh q c = true) -> exists c, find (sh_contains sh q) control = Some c /\ first_inside sh control q c.
Proof.
  intros (c0 & I & C). induction control as [|x l IH]; [destruct I|]. cbn [find]. destruct (sh_contains sh q x) eqn:E.
  - exists x. split; [reflexivity|]. exists [], l. split; [reflexivity|]. split; [exact E|intros y []].
  - destruct I as [->|I]; [congruence|]. destruct (IH I) as (c & F & before & after & -> & Cc & B). exists c. split; [exact F|]. exists (x :: before), after. split; [reflexivity|]. split; [exact Cc|].
    intros y [<-|Hy]; auto.
Qed.
Lemma punched_inside sh p is_ q x : shrinks sh -> punched sh p is_ q -> sh_contains sh q x = true -> sh_contains sh p x = true.
Proof. intros S H. induction H as [p|p i rest p' q D _ IH]; intros C; [exact C|]. apply (S _ _ _ _ D), IH, C. Qed.
Lemma punch_ok sh control is_ : shrinks sh -> is_ <> [] -> forall p c0 q, punched sh p is_ q -> (exists c, In c control /\ sh_contains sh q c = true) ->
  exists c, punch sh control p c0 is_ = Ok (q, c) /\ first_inside sh control q c.
Proof.
  intros S N. induction is_ as [|i rest IH]; [contradiction|]. intros p c0 q H Hc. inversion H as [|p0 i0 rest0 p' q0 D K]; subst. cbn [punch]. rewrite D.
  destruct (find_first sh control p') as (c1 & F1 & _). { destruct Hc as (c & I & C). exists c. split; [exact I|]. exact (punched_inside sh p' rest q c S K C). }
  rewrite F1. destruct rest as [|j rest].
  - inversion K; subst. destruct (find_first sh control q Hc) as (c & F & Fi). rewrite F in F1. injection F1 as <-. exists c. split; [reflexivity|exact Fi].
  - apply IH; [discriminate|exact K|exact Hc].
Qed.

(** ** Facets that refer to no point *)
Definition dangles (points : list pt) (f : nat * nat) : Prop := (length points <= fst f)%nat \/ (length points <= snd f)%nat.
Definition chain_end (points : list pt) (st : list pt * list polygon * option (nat * nat)) : result (list polygon) :=
  let '(cur, polys, prev) := st in
  match nth_error points (match prev with Some f => snd f | None => 0%nat end) with
  | None => Err IndexError
  | Some q => bind (make_polygon (cur ++ [q])) (fun poly => Ok (polys ++ [poly]))
  end.
Lemma chain_as points facets : chain_polygons points facets = bind (fold_result (chain_step points) facets ([], [], None)) (chain_end points).
Proof. unfold chain_polygons. destruct (fold_result _ _ _) as [[[cur polys] prev]|e]; reflexivity. Qed.
Lemma start_cases points (f : nat * nat) (cur : list pt) (polys : list polygon) :
  (exists p, (fst f < length points)%nat /\ match nth_error points (fst f) with Some p => Ok (cur ++ [p], polys, Some f) | None => Err IndexError end = Ok (cur ++ [p], polys, Some f)) \/
  ((length points <= fst f)%nat /\ match nth_error points (fst f) with Some p => Ok (cur ++ [p], polys, Some f) | None => Err IndexError end = Err IndexError).
Proof. destruct (nth_error points (fst f)) as [p|] eqn:E; [left; exists p; split; [apply nth_error_Some; congruence|reflexivity]|right; split; [apply nth_error_None, E|reflexivity]]. Qed.
Lemma dangling_chain points : forall facets cur polys prev, (match prev with Some f => length points <= snd f | None => False end)%nat \/ Exists (dangles points) facets ->
  exists e, bind (fold_result (chain_step points) facets (cur, polys, prev)) (chain_end points) = Err e.
Proof.
  induction facets as [|f fs IH]; intros cur polys prev H.
  - cbn [fold_result bind chain_end]. destruct H as [H|H]; [|inversion H]. destruct prev as [pf|]; [|contradiction]. rewrite (proj2 (nth_error_None points (snd pf)) H). exists IndexError. reflexivity.
  - cbn [fold_result]. unfold chain_step at 1. cbv zeta.
    assert (ST : forall cur polys, (exists e, bind (bind (match nth_error points (fst f) with Some p => Ok (cur ++ [p], polys, Some f) | None => Err IndexError end)
      (fun a' => fold_result (chain_step points) fs a')) (chain_end points) = Err e) \/ ~ dangles points f /\ ~ Exists (dangles points) fs).
    { intros c q. destruct (start_cases points f c q) as [(p & Lf & ->)|(Lf & ->)]; cbn [bind]; [|left; exists IndexError; reflexivity].
      destruct (le_lt_dec (length points) (snd f)) as [Ls|Ls]; [left; apply IH; left; exact Ls|].
      destruct (Exists_dec (dangles points) fs) as [Ex|Ex]; [intros x; unfold dangles; destruct (le_lt_dec (length points) (fst x)); [left; left; assumption|]; destruct (le_lt_dec (length points) (snd x)); [left; right; assumption|right; lia]| |].
      - left. apply IH. right. exact Ex.
      - right. split; [unfold dangles; lia|exact Ex]. }
    destruct prev as [pf|].
    + destruct (Nat.eqb_spec (fst f) (snd pf)) as [E|N].
      * destruct (ST cur polys) as [K|(K1 & K2)]; [exact K|]. exfalso. destruct H as [H|H]; [apply K1; left; rewrite E; exact H|]. apply Exists_cons in H. tauto.
      * destruct (nth_error points (snd pf)) as [q|] eqn:Eq; [|exists IndexError; reflexivity]. destruct (make_polygon (cur ++ [q])) as [poly|e]; cbn [bind]; [|exists e; reflexivity].
        destruct (ST [] (polys ++ [poly])) as [K|(K1 & K2)]; [exact K|]. exfalso. destruct H as [H|H]; [apply nth_error_None in H; congruence|]. apply Exists_cons in H. tauto.
    + destruct (ST cur polys) as [K|(K1 & K2)]; [exact K|]. exfalso. destruct H as [[]|H]. apply Exists_cons in H. tauto.
Qed.
Lemma dangling_linked points : forall facets cur polys pf, linked (snd pf) facets -> (length points <= snd pf)%nat \/ Exists (dangles points) facets ->
  bind (fold_result (chain_step points) facets (cur, polys, Some pf)) (chain_end points) = Err IndexError.
Proof.
  induction facets as [|f fs IH]; intros cur polys pf Hl H.
  - cbn [fold_result bind chain_end]. destruct H as [H|H]; [|inversion H]. rewrite (proj2 (nth_error_None points (snd pf)) H). reflexivity.
  - destruct Hl as [Ef Hl]. cbn [fold_result]. unfold chain_step at 1. cbv zeta. rewrite Ef, Nat.eqb_refl.
    destruct (start_cases points f cur polys) as [(p & Lf & E)|(Lf & E)]; rewrite Ef in E, Lf; rewrite E; cbn [bind]; [|reflexivity].
    apply IH; [exact Hl|]. destruct H as [H|H]; [lia|]. apply Exists_cons in H. destruct H as [H|H]; [|right; exact H]. destruct H as [H|H]; [rewrite Ef in H; lia|left; exact H].
Qed.
Lemma dangling_first points f fs : linked (snd f) fs -> Exists (dangles points) (f :: fs) -> chain_polygons points (f :: fs) = Err IndexError.
Proof.
  intros Hl H. rewrite chain_as. cbn [fold_result]. unfold chain_step at 1. cbv zeta. destruct (start_cases points f [] []) as [(p & Lf & E)|(Lf & E)]; rewrite E; cbn [bind]; [|reflexivity].
  apply dangling_linked; [exact Hl|]. apply Exists_cons in H. destruct H as [[H|H]|H]; [lia|left; exact H|right; exact H].
Qed.

Lemma dangling_step points holes : forall facets s, Exists (fun f : nat * nat => (length points <= fst f)%nat) facets -> fold_result (from_points_step points holes) facets s = Err IndexError.
Proof.
  induction facets as [|f fs IH]; intros s H; [inversion H|]. cbn [fold_result]. unfold from_points_step at 1. destruct (nth_error points (fst f)) as [p|] eqn:E; [|reflexivity].
  assert (Ex : Exists (fun f : nat * nat => (length points <= fst f)%nat) fs) by (apply Exists_cons in H; destruct H as [H|H]; [apply nth_error_None in H; congruence|exact H]).
  destruct (lp_prev s) as [pv|]; [|cbn [bind]; apply IH, Ex]. destruct (_ && _); [|cbn [bind]; apply IH, Ex]. cbv zeta. destruct (Nat.ltb _ _); [cbn [bind]; apply IH, Ex|reflexivity].
Qed.
(** the parts of the state that matter without hole points *)
Definition same_state (s s' : loop_state) : Prop := lp_ext s = lp_ext s' /\ lp_ints s = lp_ints s' /\ lp_active s = lp_active s' /\ lp_count s = lp_count s'.
Definition both {A} (R : A -> A -> Prop) (a b : result A) : Prop := match a, b with Ok x, Ok y => R x y | Err e, Err e' => e = e' | _, _ => False end.
Lemma ends_ignored points : forall facets facets' s s', map fst facets = map fst facets' -> same_state s s' ->
  both same_state (fold_result (from_points_step points []) facets s) (fold_result (from_points_step points []) facets' s').
Proof.
  induction facets as [|f fs IH]; intros [|f' fs'] s s' E H; try discriminate E; [exact H|]. injection E as Ef E. cbn [fold_result].
  assert (K : both same_state (from_points_step points [] s f) (from_points_step points [] s' f')).
  { destruct H as (H1 & H2 & H3 & H4). unfold from_points_step. rewrite <- Ef. destruct (nth_error points (fst f)) as [p|]; [|reflexivity].
    assert (A : same_state (append_active s (lp_active s) (lp_count s) p f) (append_active s' (lp_active s') (lp_count s') p f')).
    { unfold append_active. rewrite <- H3. destruct (lp_active s); unfold same_state; cbn [lp_ext lp_ints lp_active lp_count]; rewrite H1, H2, H4; auto. }
    destruct (lp_prev s), (lp_prev s'); rewrite ?andb_false_r; exact A. }
  destruct (from_points_step points [] s f) as [a|e], (from_points_step points [] s' f') as [a'|e']; cbn [both] in K; try contradiction; cbn [bind]; [apply IH; assumption|rewrite K; reflexivity].
Qed.
