(** Proofs: from_points, shift_points. *)
From Coq Require Import String Reals List Bool Arith ZArith Lia Lra Permutation.
From Verif Require Import Base M_Fea M_Init M_Geometry S_Geometry P_Geometry.
Import ListNotations.
Local Open Scope R_scope.

(** ** from_points *)
(** appending a list to the k-th list *)
Fixpoint app_list (k : nat) (x : list pt) (l : list (list pt)) : list (list pt) :=
  match l, k with [], _ => [] | h :: t, O => (h ++ x) :: t | h :: t, S k' => h :: app_list k' x t end.
Lemma app_nth_list k p : forall l, app_nth k p l = app_list k [p] l.
Proof. revert p. induction k as [|k IH]; intros p [|h l]; cbn; try reflexivity. f_equal. apply IH. Qed.
Lemma app_list_app k x y : forall l, app_list k y (app_list k x l) = app_list k (x ++ y) l.
Proof. induction k as [|k IH]; intros [|h l]; cbn; try reflexivity; [rewrite app_assoc; reflexivity|f_equal; apply IH]. Qed.
Lemma app_list_nil k : forall l, app_list k [] l = l.
Proof. induction k as [|k IH]; intros [|h l]; cbn; try reflexivity; [rewrite app_nil_r; reflexivity|f_equal; apply IH]. Qed.
Lemma app_list_mid a x b : app_list (length a) x (a ++ [] :: b) = a ++ x :: b.
Proof. induction a as [|h a IH]; cbn; [reflexivity|]. f_equal. exact IH. Qed.

Definition append_all (s : loop_state) (ps : list pt) (prev : nat * nat) : loop_state :=
  match lp_active s with
  | None => mkLoop (lp_ext s ++ ps) (lp_ints s) None (lp_count s) (Some prev)
  | Some k => mkLoop (lp_ext s) (app_list k ps (lp_ints s)) (Some k) (lp_count s) (Some prev)
  end.
(** a chain of facets that starts at the end of the previous one *)
Fixpoint linked (j : nat) (fs : list (nat * nat)) : Prop :=
  match fs with [] => True | f :: rest => fst f = j /\ linked (snd f) rest end.
Lemma nth_error_at points i : (i < length points)%nat -> nth_error points i = Some (at_ points i).
Proof. intros H. apply nth_error_nth'. exact H. Qed.

Lemma last_cons {A} (a b c : A) : forall l, last (a :: l) b = last l a.
Proof. intros l. revert a b c. induction l as [|x l IH]; intros a b c; [reflexivity|]. change (last (x :: l) b = last (x :: l) a). rewrite !(IH x _ a). reflexivity. Qed.
Lemma linked_fold points holes : forall fs s i j, lp_prev s = Some (i, j) -> linked j fs -> Forall (fun f => (fst f < length points)%nat) fs ->
  fold_result (from_points_step points holes) fs s = Ok (append_all s (map (fun f => at_ points (fst f)) fs) (last fs (i, j))).
Proof.
  induction fs as [|f fs IH]; intros s i j Hp Hl Hr; [cbn [fold_result map last]|rewrite (last_cons f (i, j) f fs); cbn [fold_result map]].
  - unfold append_all. destruct s as [e is_ a c p]. cbn [lp_prev lp_active lp_ext lp_ints lp_count] in *. subst p. destruct a; rewrite ?app_nil_r, ?app_list_nil; reflexivity.
  - cbn [linked] in Hl. destruct Hl as [Ef Hl]. apply Forall_cons_iff in Hr. destruct Hr as [Rf Hr].
    unfold from_points_step at 1. rewrite nth_error_at by exact Rf. rewrite Hp. cbn [snd]. rewrite Ef, Nat.eqb_refl. cbn [negb andb bind]. rewrite <- Ef.
    destruct f as [fi fj]. rewrite (IH _ fi fj); [|destruct (lp_active s); reflexivity|exact Hl|exact Hr].
    f_equal. destruct s as [e is_ a c p]. destruct a; unfold append_all, append_active; cbn [lp_prev lp_active lp_ext lp_ints lp_count fst].
    + rewrite app_nth_list, app_list_app. cbn [app]. reflexivity.
    + rewrite <- app_assoc. cbn [app]. reflexivity.
Qed.

(** one loop of facets through the points [l] *)
Lemma ring_linked : forall t h e, linked h (combine (h :: t) (t ++ [e])).
Proof. induction t as [|a t IH]; intros h e; cbn; [auto|]. split; [reflexivity|]. apply (IH a e). Qed.
Lemma ring_last : forall (t : list nat) (h e : nat) d, snd (last (combine (h :: t) (t ++ [e])) d) = e.
Proof. induction t as [|a t IH]; intros h e d; [reflexivity|]. change (snd (last ((h, a) :: combine (a :: t) (t ++ [e])) d) = e). rewrite (last_cons _ _ d). apply IH. Qed.
Lemma combine_fst_range (P : nat -> Prop) : forall (l m : list nat), Forall P l -> Forall (fun f => P (fst f)) (combine l m).
Proof. induction l as [|a l IH]; intros [|b m] H; cbn; try constructor; apply Forall_cons_iff in H; destruct H; [assumption|apply IH; assumption]. Qed.

(** the facets of the loop, the first one being processed by itself *)
Lemma ring_facets_cons h t : ring_facets (h :: t) = (h, match t with [] => h | a :: _ => a end) :: combine t (tl t ++ [h]).
Proof. unfold ring_facets. destruct t; reflexivity. Qed.
Lemma tail_linked h t : linked (match t with [] => h | a :: _ => a end) (combine t (tl t ++ [h])).
Proof. destruct t as [|a t]; [exact I|]. apply ring_linked. Qed.
Lemma tail_last (h : nat) t d : snd d = (match t with [] => h | a :: _ => a end) -> snd (last (combine t (tl t ++ [h])) d) = h.
Proof. destruct t as [|a t]; intros E; [exact E|apply ring_last]. Qed.
Lemma tail_map points h : forall t, map (fun f => at_ points (fst f)) (combine t (tl t ++ [h])) = map (at_ points) t.
Proof.
  intros t. rewrite <- (map_map fst (at_ points)). f_equal.
  assert (E : length t = length (tl t ++ [h]) \/ t = []) by (destruct t; [right; reflexivity|left; cbn; rewrite app_length; cbn; lia]).
  destruct E as [E| ->]; [|reflexivity]. revert E. generalize (tl t ++ [h]). induction t as [|a t IH]; intros [|b m] E; cbn in *; try reflexivity; try discriminate. f_equal. apply IH. lia.
Qed.

(** the state after the exterior and some interiors *)
Definition loop_done (E : list pt) (I : list (list pt)) (more : nat) (s : loop_state) (last_head : nat) : Prop :=
  lp_ext s = E /\ lp_ints s = I ++ repeat [] more /\ (exists i, lp_prev s = Some (i, last_head)) /\
  match I with [] => lp_active s = None /\ lp_count s = 0%nat | _ => lp_active s = Some (length I - 1)%nat /\ lp_count s = (length I - 1)%nat end.

Lemma app_list_repeat I x more : app_list (length I) x (I ++ repeat [] (S more)) = (I ++ [x]) ++ repeat [] more.
Proof. cbn [repeat]. rewrite app_list_mid, <- app_assoc. reflexivity. Qed.
Lemma pts_eqb_spec a b : pts_eqb a b = true <-> a = b.
Proof.
  unfold pts_eqb. split.
  - revert b. induction a as [|x a IH]; intros [|y b] H; cbn in H; try discriminate; [reflexivity|].
    apply andb_true_iff in H. destruct H as [L H]. apply andb_true_iff in H. destruct H as [E H]. apply pt_eqb_spec in E. cbn in E. subst y. f_equal. apply IH.
    apply andb_true_iff. split; assumption.
  - intros <-. rewrite Nat.eqb_refl. cbn [andb]. apply forallb_forall. intros q Hq. apply pt_eqb_spec. revert Hq. induction a as [|x a IH]; cbn; [intros []|].
    intros [<-|H]; [reflexivity|apply IH, H].
Qed.

Lemma first_loop points holes n l : l <> [] -> Forall (fun i => (i < length points)%nat) l ->
  exists s, fold_result (from_points_step points holes) (ring_facets l) (mkLoop [] (repeat [] n) None 0 None) = Ok s /\
    loop_done (map (at_ points) l) [] n s (head_of l).
Proof.
  intros Hl Hr. destruct l as [|h t]; [contradiction|]. rewrite ring_facets_cons. cbn [fold_result]. apply Forall_cons_iff in Hr. destruct Hr as [Rh Rt].
  unfold from_points_step at 1. cbn [fst]. rewrite nth_error_at by exact Rh. cbn [lp_prev bind].
  erewrite linked_fold; [|reflexivity|apply tail_linked|apply (combine_fst_range (fun i => (i < length points)%nat)); exact Rt].
  eexists. split; [reflexivity|]. unfold loop_done, append_all, append_active. cbn [lp_active lp_ext lp_ints lp_count lp_prev]. rewrite tail_map.
  split; [reflexivity|]. split; [reflexivity|]. split; [|split; reflexivity].
  set (d := (h, match t with [] => h | a :: _ => a end)). exists (fst (last (combine t (tl t ++ [h])) d)). rewrite (surjective_pairing (last _ d)) at 1.
  cbn [fst]. rewrite tail_last; reflexivity.
Qed.
Lemma next_loop points holes E I more s j l : l <> [] -> Forall (fun i => (i < length points)%nat) l -> holes <> [] ->
  loop_done E I (S more) s j -> head_of l <> j -> ~ In E I ->
  exists s', fold_result (from_points_step points holes) (ring_facets l) s = Ok s' /\ loop_done E (I ++ [map (at_ points) l]) more s' (head_of l).
Proof.
  intros Hl Hr Hh (DE & DI & (i & DP) & DA) Hj Hn. destruct l as [|h t]; [contradiction|]. rewrite ring_facets_cons. cbn [fold_result]. apply Forall_cons_iff in Hr. destruct Hr as [Rh Rt].
  unfold from_points_step at 1. cbn [fst]. rewrite nth_error_at by exact Rh. rewrite DP. cbn [snd]. cbn [head_of hd] in Hj. apply Nat.eqb_neq in Hj. rewrite Hj.
  assert (Eh : negb (match holes with [] => true | _ => false end) = true) by (destruct holes; [contradiction|reflexivity]). rewrite Eh. cbn [negb andb].
  assert (Ec : (if pts_eqb (active s) (lp_ext s) then lp_count s else S (lp_count s)) = length I).
  { unfold active. destruct I as [|a I'].
    - destruct DA as [-> ->]. rewrite (proj2 (pts_eqb_spec _ _) eq_refl). reflexivity.
    - destruct DA as [-> ->]. rewrite DE, DI. assert (X : pts_eqb (nth (length (a :: I') - 1) ((a :: I') ++ repeat [] (S more)) []) E = false).
      { destruct (pts_eqb _ E) eqn:Q; [|reflexivity]. apply pts_eqb_spec in Q. exfalso. apply Hn. rewrite <- Q. rewrite app_nth1 by (cbn; lia). apply nth_In. cbn; lia. }
      rewrite X. cbn. lia. }
  rewrite Ec, DI, app_length, repeat_length. replace (length I <? length I + S more)%nat with true by (symmetry; apply Nat.ltb_lt; lia). cbn [bind].
  erewrite linked_fold; [|reflexivity|apply tail_linked|apply (combine_fst_range (fun i => (i < length points)%nat)); exact Rt].
  eexists. split; [reflexivity|]. unfold loop_done, append_all, append_active. cbn [lp_active lp_ext lp_ints lp_count lp_prev]. rewrite tail_map, app_nth_list, app_list_app, DI, app_list_repeat.
  split; [exact DE|]. split; [reflexivity|]. split.
  - set (d := (h, match t with [] => h | a :: _ => a end)). exists (fst (last (combine t (tl t ++ [h])) d)). rewrite (surjective_pairing (last _ d)) at 1.
    cbn [fst]. rewrite tail_last; reflexivity.
  - rewrite app_length. cbn [length]. replace (length I + 1 - 1)%nat with (length I) by lia. destruct I; cbn; auto.
Qed.

Lemma fold_result_app {A B} (f : A -> B -> result A) l1 l2 a : fold_result f (l1 ++ l2) a = bind (fold_result f l1 a) (fun a' => fold_result f l2 a').
Proof. revert a. induction l1 as [|b l1 IH]; intros a; cbn [app fold_result]; [reflexivity|]. destruct (f a b); [apply IH|reflexivity]. Qed.

Lemma more_loops points holes E : forall ls I more s j, Forall (fun l => l <> [] /\ Forall (fun i => (i < length points)%nat) l) ls -> (ls <> [] -> holes <> []) ->
  loop_done E I (length ls + more) s j -> separate j ls -> ~ In E I -> Forall (fun l => map (at_ points) l <> E) ls ->
  exists s' j', fold_result (from_points_step points holes) (concat (map ring_facets ls)) s = Ok s' /\ loop_done E (I ++ map (map (at_ points)) ls) more s' j'.
Proof.
  induction ls as [|l ls IH]; intros I more s j Hr Hh D Hs Hn He; cbn [map concat fold_result].
  - exists s, j. rewrite app_nil_r. split; [reflexivity|exact D].
  - apply Forall_cons_iff in Hr. destruct Hr as [[Nl Rl] Hr]. apply Forall_cons_iff in He. destruct He as [El He]. destruct Hs as [Hj Hs].
    destruct (next_loop points holes E I (length ls + more) s j l Nl Rl (Hh ltac:(discriminate)) D Hj Hn) as (s1 & F1 & D1).
    rewrite fold_result_app, F1. cbn [bind]. destruct (IH (I ++ [map (at_ points) l]) more s1 (head_of l) Hr) as (s2 & j2 & F2 & D2); try assumption.
    + intros _. apply Hh. discriminate.
    + intros X. apply in_app_iff in X. destruct X as [X|[X|[]]]; [exact (Hn X)|exact (El X)].
    + exists s2, j2. split; [exact F2|]. rewrite <- app_assoc in D2. exact D2.
Qed.

(** from_points gives shapely exactly the loops. *)
Lemma from_points_loops sh points l ls control holes m :
  Forall (fun l => l <> [] /\ Forall (fun i => (i < length points)%nat) l) (l :: ls) -> separate (head_of l) ls ->
  length holes = length ls -> Forall (fun k => map (at_ points) k <> map (at_ points) l) ls -> forall c, control = [c] ->
  from_points sh points (concat (map ring_facets (l :: ls))) control holes m =
  bind (make_polygon (map (at_ points) l)) (fun e => bind (map_result (fun k => make_polygon (map (at_ points) k)) ls) (fun is_ =>
    match sh_difference sh e is_ with Some p => Ok (new_geometry sh p m (Some c) 12) | None => Err RuntimeError end)).
Proof.
  intros Hr Hs Hh He c ->. unfold from_points. cbn [map concat]. rewrite fold_result_app. apply Forall_cons_iff in Hr. destruct Hr as [[Nl Rl] Hr].
  assert (Er : map (fun _ : pt => @nil pt) holes = repeat [] (length ls)) by (rewrite <- Hh; clear; induction holes; cbn; [reflexivity|f_equal; assumption]).
  rewrite Er. destruct (first_loop points holes (length ls) l Nl Rl) as (s1 & F1 & D1). rewrite F1. cbn [bind].
  rewrite <- (Nat.add_0_r (length ls)) in D1. destruct (more_loops points holes (map (at_ points) l) ls [] 0 s1 (head_of l) Hr) as (s2 & j & F2 & D2); try assumption.
  { intros X Y. subst holes. destruct ls; [contradiction|discriminate]. } { intros []. }
  rewrite F2. cbn [bind]. destruct D2 as (E2 & I2 & _). cbn [app repeat] in I2. rewrite app_nil_r in I2. rewrite E2, I2.
  destruct (make_polygon (map (at_ points) l)) as [e|er]; cbn [bind]; [|reflexivity]. f_equal.
  clear. induction ls as [|k ls IH]; cbn [map map_result]; [reflexivity|]. destruct (make_polygon _); cbn [bind]; [rewrite IH; reflexivity|reflexivity].
Qed.
