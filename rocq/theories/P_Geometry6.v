(** Proofs: rebuilding a geometry from its points and facets, shift_points. *)
From Coq Require Import String Reals List Bool Arith ZArith Lia Lra Permutation.
From Verif Require Import Base M_Fea M_Init M_Geometry S_Geometry P_Geometry P_Geometry2 P_Geometry3 P_Geometry4.
Import ListNotations.
Local Open Scope R_scope.

(** the index lists of consecutive rings *)
Fixpoint blocks {A} (off : nat) (rs : list (list A)) : list (list nat) :=
  match rs with [] => [] | r :: t => seq off (length r) :: blocks (off + length r) t end.
Lemma chain_blocks : forall rs off, chain_rings off rs = concat (map ring_facets (blocks off rs)).
Proof. induction rs as [|r rs IH]; intros off; cbn [chain_rings blocks map concat]; [reflexivity|]. rewrite IH. reflexivity. Qed.
Lemma blocks_length {A} : forall (rs : list (list A)) off, length (blocks off rs) = length rs.
Proof. induction rs as [|r rs IH]; intros off; cbn; [reflexivity|]. rewrite IH. reflexivity. Qed.
Lemma blocks_same {A} : forall (rs rs' : list (list A)) off, map (@length _) rs = map (@length _) rs' -> blocks off rs = blocks off rs'.
Proof. induction rs as [|r rs IH]; intros [|r' rs'] off E; cbn in *; try discriminate; [reflexivity|]. injection E as E1 E2. rewrite E1. f_equal. apply IH, E2. Qed.
Lemma blocks_rings : forall rs a, map (map (at_ (a ++ concat rs))) (blocks (length a) rs) = rs.
Proof.
  induction rs as [|r rs IH]; intros a; cbn [blocks map concat]; [reflexivity|]. f_equal.
  - apply (nth_seq_block (0, 0) r a (concat rs)).
  - rewrite <- (app_length a r), app_assoc. apply IH.
Qed.
Lemma blocks_range : forall rs (a : list pt) n, (length (a ++ concat rs) <= n)%nat -> Forall (fun r => r <> []) rs ->
  Forall (fun l => l <> [] /\ Forall (fun i => (i < n)%nat) l) (blocks (length a) rs).
Proof.
  induction rs as [|r rs IH]; intros a n L N; cbn [blocks]; constructor; apply Forall_cons_iff in N; destruct N as [Nr N]; cbn [concat] in L; rewrite !app_length in L.
  - split; [destruct r; [contradiction|discriminate]|]. apply Forall_forall. intros i Hi. apply in_seq in Hi. lia.
  - rewrite <- app_length. apply IH; [rewrite !app_length; lia|exact N].
Qed.
Lemma blocks_separate {A} : forall (rs : list (list A)) off j, Forall (fun r => r <> []) rs -> (j < off)%nat -> separate j (blocks off rs).
Proof.
  induction rs as [|r rs IH]; intros off j N L; cbn [blocks separate]; [exact I|]. apply Forall_cons_iff in N. destruct N as [Nr N]. destruct r as [|x r]; [contradiction|]. cbn [length seq head_of hd].
  split; [lia|]. apply IH; [exact N|lia].
Qed.
Lemma open_loop_ring r : open_loop r -> make_polygon r = Ok (mkPoly r []).
Proof.
  intros [L H]. unfold make_polygon, make_ring. destruct r as [|a [|b r]]; cbn [length] in L; try lia.
  assert (E : open_ring (a :: b :: r) = a :: b :: r). { unfold open_ring. rewrite pt_eqb_neq; [reflexivity|]. exact (H a). }
  rewrite E. replace (Nat.ltb (length (a :: b :: r)) 3) with false by (symmetry; apply Nat.ltb_ge; exact L). reflexivity.
Qed.
Lemma map_result_ok {A B} (f : A -> result B) (g : A -> B) l : Forall (fun a => f a = Ok (g a)) l -> map_result f l = Ok (map g l).
Proof. intros H. induction H as [|a l E _ IH]; cbn; [reflexivity|]. rewrite E. cbn. rewrite IH. reflexivity. Qed.

(** from_points on loops that shapely accepts *)
Lemma from_points_valid sh points l ls c holes m :
  Forall (fun l => Forall (fun i => (i < length points)%nat) l /\ open_loop (map (at_ points) l)) (l :: ls) -> separate (head_of l) ls ->
  length holes = length ls -> Forall (fun k => map (at_ points) k <> map (at_ points) l) ls ->
  from_points sh points (concat (map ring_facets (l :: ls))) [c] holes m =
  match build_polygon sh (map (at_ points) l) (map (map (at_ points)) ls) with Some p => Ok (new_geometry sh p m (Some c) 12) | None => Err RuntimeError end.
Proof.
  intros V S L N. rewrite (from_points_loops sh points l ls [c] holes m) with (c := c); try assumption; try reflexivity.
  - apply Forall_cons_iff in V. destruct V as [[_ Vl] V]. rewrite (open_loop_ring _ Vl). cbn [bind].
    rewrite (map_result_ok _ (fun k => mkPoly (map (at_ points) k) [])) by (eapply Forall_impl; [|exact V]; intros k [_ K]; apply open_loop_ring, K).
    cbn [bind]. unfold build_polygon. rewrite map_map. reflexivity.
  - eapply Forall_impl; [|exact V]. intros k [Kr [Kl _]]. split; [|exact Kr]. intros ->. cbn in Kl. lia.
Qed.
Lemma from_rings sh r rs c holes m : Forall open_loop (r :: rs) -> length holes = length rs -> ~ In r rs ->
  from_points sh (concat (r :: rs)) (chain_rings 0 (r :: rs)) [c] holes m =
  match build_polygon sh r rs with Some p => Ok (new_geometry sh p m (Some c) 12) | None => Err RuntimeError end.
Proof.
  intros V L N. rewrite chain_blocks. cbn [blocks Nat.add].
  pose proof (blocks_rings (r :: rs) []) as B. cbn [length app blocks map] in B. injection B as B1 B2. change (r ++ concat rs) with (concat (r :: rs)) in B1, B2.
  assert (NE : Forall (fun r => r <> []) (r :: rs)) by (eapply Forall_impl; [|exact V]; intros k [K _] ->; cbn in K; lia).
  rewrite from_points_valid.
  - rewrite B1, B2. reflexivity.
  - pose proof (blocks_range (r :: rs) [] (length (concat (r :: rs))) (le_n _) NE) as Rg. cbn [length blocks Nat.add] in Rg.
    apply Forall_forall. intros k Hk. split; [rewrite Forall_forall in Rg; apply (Rg k Hk)|]. apply (in_map (map (at_ (concat (r :: rs))))) in Hk.
    cbn [map] in Hk. rewrite B1, B2 in Hk. rewrite Forall_forall in V. apply V, Hk.
  - apply Forall_cons_iff in NE. destruct NE as [NR NE]. destruct r as [|x r]; [contradiction|]. cbn [length seq head_of hd]. apply blocks_separate; [exact NE|lia].
  - rewrite blocks_length. exact L.
  - apply Forall_forall. intros k Hk E. apply N. rewrite B1 in E. apply (in_map (map (at_ (concat (r :: rs))))) in Hk. rewrite B2, E in Hk. exact Hk.
Qed.
Lemma geometry_control sh g : is_geometry sh g -> nonempty g -> exists c, gm_control g = [c] /\ (forall a, gm_assigned g = Some a -> c = a) /\ (gm_assigned g = None -> c = sh_rep sh (gm_poly g)).
Proof.
  intros H NE. pose proof (geometry_rebuild sh g H) as E. pose proof (geometry_round sh g H) as Q. unfold new_geometry in E. rewrite Q in E. destruct (create_points_and_facets _ _) as [ps fs].
  assert (C : gm_control g = match gm_assigned g with Some c => [c] | None => [sh_rep sh (gm_poly g)] end).
  { rewrite <- E at 1. cbn [gm_control]. unfold control_points. destruct (gm_assigned g); [reflexivity|]. unfold nonempty in NE. destruct (ext (gm_poly g)); [contradiction NE; reflexivity|reflexivity]. }
  rewrite C. destruct (gm_assigned g) as [c|]; eexists; (split; [reflexivity|]); split; intros; congruence.
Qed.
Lemma geometry_holes sh g : is_geometry sh g -> gm_holes g = map (fun h => sh_rep sh (mkPoly h [])) (ints (gm_poly g)).
Proof.
  intros H. pose proof (geometry_rebuild sh g H) as E. pose proof (geometry_round sh g H) as Q. unfold new_geometry in E. rewrite Q in E. destruct (create_points_and_facets _ _) as [ps fs].
  rewrite <- E at 1. reflexivity.
Qed.

(** ** shift_points *)
Lemma set_nth_length {A} k (x : A) l : (k < length l)%nat -> length (set_nth k x l) = length l.
Proof. intros H. unfold set_nth. rewrite app_length. cbn [length]. rewrite firstn_length, skipn_length. lia. Qed.
Lemma set_nth_nth {A} k (x : A) l i d : (k < length l)%nat -> nth i (set_nth k x l) d = if Nat.eqb i k then x else nth i l d.
Proof.
  revert l i. induction k as [|k IH]; intros [|a l] i H; cbn [length] in H; try lia.
  - destruct i; reflexivity.
  - destruct i as [|i]; [reflexivity|]. cbn [Nat.eqb nth]. rewrite <- IH by lia. reflexivity.
Qed.
Lemma shift_fold dx dy ax ay : forall idxs ks pts, map (py_index (length pts)) idxs = map Some ks -> NoDup ks ->
  exists pts', fold_result (shift_one dx dy ax ay) idxs pts = Ok pts' /\ changed (move_pt dx dy ax ay) ks pts pts'.
Proof.
  induction idxs as [|i idxs IH]; intros ks pts E N; destruct ks as [|k ks]; try discriminate; cbn [fold_result].
  - exists pts. split; [reflexivity|]. split; [reflexivity|]. intros j d Hj. split; [intros []|reflexivity].
  - cbn [map] in E. injection E as Ek E. inversion N as [|? ? Nk N']; subst.
    assert (K : (k < length pts)%nat). { unfold py_index in Ek. destruct (i <? 0)%Z eqn:S.
      - apply Z.ltb_lt in S. destruct (0 <=? _)%Z eqn:Q; [|discriminate]. apply Z.leb_le in Q. injection Ek as <-. lia.
      - apply Z.ltb_ge in S. destruct (i <? _)%Z eqn:Q; [|discriminate]. apply Z.ltb_lt in Q. injection Ek as <-. lia. }
    unfold shift_one at 1. rewrite Ek. rewrite (nth_error_nth' pts (0, 0) K). cbn [bind].
    set (p1 := set_nth k _ pts). assert (L1 : length p1 = length pts) by (apply set_nth_length, K).
    destruct (IH ks p1) as (p2 & F2 & L2 & C2); [rewrite L1; exact E|exact N'|]. exists p2. split; [exact F2|]. split; [congruence|]. intros j d Hj.
    rewrite <- L1 in Hj. destruct (C2 j d Hj) as [Ca Cb]. unfold p1 in Ca, Cb. rewrite set_nth_nth in Ca, Cb by exact K.
    destruct (Nat.eqb_spec j k) as [->|D].
    + split; [intros _|intros X; exfalso; apply X; left; reflexivity]. rewrite Cb by exact Nk. rewrite (nth_indep pts d (0, 0) K). reflexivity.
    + split; [intros [X|X]; [congruence|apply Ca, X]|intros X; apply Cb; intros Y; apply X; right; exact Y].
Qed.
Lemma shift_bad dx dy ax ay : forall idxs pts, Exists (fun i => py_index (length pts) i = None) idxs -> fold_result (shift_one dx dy ax ay) idxs pts = Err IndexError.
Proof.
  induction idxs as [|i idxs IH]; intros pts H; inversion H as [? ? H0|? ? H0]; subst; cbn [fold_result]; unfold shift_one at 1.
  - rewrite H0. reflexivity.
  - destruct (py_index (length pts) i) as [k|] eqn:Ek; [|reflexivity]. destruct (nth_error pts k) eqn:En; [|reflexivity]. cbn [bind]. apply IH.
    rewrite set_nth_length; [exact H0|]. apply nth_error_Some. congruence.
Qed.
(** cutting a list of points into rings of given lengths *)
Fixpoint cut (ns : list nat) (l : list pt) : list (list pt) := match ns with [] => [] | n :: t => firstn n l :: cut t (skipn n l) end.
Lemma cut_spec : forall ns l, length l = list_sum ns -> concat (cut ns l) = l /\ map (@length _) (cut ns l) = ns.
Proof.
  induction ns as [|n ns IH]; intros l E; cbn [cut concat map list_sum fold_right] in *.
  - destruct l; [auto|discriminate].
  - destruct (IH (skipn n l)) as [A B]; [rewrite skipn_length, E; unfold list_sum; lia|]. rewrite A, B, firstn_skipn. split; [reflexivity|]. f_equal. rewrite firstn_length, E. lia.
Qed.
Lemma concat_length_sum {A} (ll : list (list A)) : length (concat ll) = list_sum (map (@length _) ll).
Proof. induction ll as [|l ll IH]; cbn; [reflexivity|]. rewrite app_length, IH. reflexivity. Qed.
Lemma cut_unique : forall rs rs', map (@length pt) rs = map (@length pt) rs' -> concat rs = concat rs' -> rs = rs'.
Proof.
  induction rs as [|r rs IH]; intros [|r' rs'] L E; cbn in *; try discriminate; [reflexivity|]. injection L as L1 L2.
  assert (X : r = r' /\ concat rs = concat rs').
  { clear -L1 E. revert r' L1 E. induction r as [|a r IH]; intros [|b r'] L1 E; cbn in *; try discriminate; [auto|]. injection E as -> E. destruct (IH r' ltac:(lia) E) as [-> ->]. auto. }
  destruct X as [-> X]. f_equal. apply IH; assumption.
Qed.

Lemma shift_points_spec sh ref g idxs dx dy ax ay ks r rs c : is_geometry sh g -> map (py_index (length (gm_points g))) idxs = map Some ks -> NoDup ks ->
  map (@length _) (r :: rs) = map (@length _) (rings (gm_poly g)) -> changed (move_pt dx dy ax ay) ks (gm_points g) (concat (r :: rs)) ->
  Forall open_loop (r :: rs) -> ~ In r rs -> gm_control g = [c] ->
  shift_points sh ref g idxs dx dy ax ay = match build_polygon sh r rs with Some p => Ok (new_geometry sh p (copy_material ref (gm_mat g)) (Some c) 12) | None => Err RuntimeError end.
Proof.
  intros G E N L C V D Hc. unfold shift_points. destruct (shift_fold dx dy ax ay idxs ks (gm_points g) E N) as (pts' & F & C'). rewrite F. cbn [bind].
  assert (Ep : pts' = concat (r :: rs)).
  { destruct C as [L1 C1]. destruct C' as [L2 C2]. apply (nth_ext _ _ (0, 0) (0, 0)); [exact (eq_trans L2 (eq_sym L1))|]. intros i Hi0. assert (Hi : (i < length (gm_points g))%nat) by (rewrite <- L2; exact Hi0). destruct (C1 i (0, 0) Hi) as [A1 B1]. destruct (C2 i (0, 0) Hi) as [A2 B2].
    destruct (in_dec Nat.eq_dec i ks) as [I|I]; [exact (eq_trans (A2 I) (eq_sym (A1 I)))|exact (eq_trans (B2 I) (eq_sym (B1 I)))]. }
  destruct (geometry_points sh g G) as (_ & P & Fa). rewrite Ep, Fa, Hc.
  assert (Eb : chain_rings 0 (rings (gm_poly g)) = chain_rings 0 (r :: rs)) by (rewrite !chain_blocks; f_equal; f_equal; apply blocks_same; symmetry; exact L).
  rewrite Eb. apply from_rings; [exact V| |exact D]. rewrite (geometry_holes sh g G), map_length. apply (f_equal (@length _)) in L. unfold rings in L. cbn [map length] in L. rewrite !map_length in L. lia.
Qed.
