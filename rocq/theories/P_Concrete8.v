(** Inserting a list of bars: what the compound consists of afterwards. *)
From Coq Require Import String Reals List Bool Arith ZArith Lra Lia Permutation.
From Verif Require Import Base M_Fea M_Init M_Bisect M_Geometry S_Geometry P_Geometry P_Geometry3 P_Geometry6 M_Library S_Library P_Library P_Library2 P_Library5 P_Library6 P_Library8 M_SetOps S_SetOps P_SetOps M_Concrete S_Concrete P_Concrete P_Concrete3 P_Concrete6 P_Concrete7.
Import ListNotations.
Local Open Scope R_scope.

Definition holes (k : nat) (K : list (rebar * list pt)) : list (list pt) := map snd (filter (fun x => Nat.eqb (rb_body (fst x)) k) K).
Definition state (bodies : list (list pt)) (conc steel : mat_obj) (H K : list (rebar * list pt)) : list (list pt * mat_obj * list (list pt)) :=
  map (fun kr => (snd kr, conc, holes (fst kr) H)) (combine (seq 0 (length bodies)) bodies) ++ map (fun x => (snd x, steel, [])) K.
Definition placed (n : nat) (bodies : list (list pt)) (b : rebar) : Prop :=
  (rb_body b < length bodies)%nat /\ 1 / 10 ^ 20 <= rb_area b /\
  forall l, reach (rb_at b) (circumradius n (rb_area b) + 10 * h) l -> forall k r, nth_error bodies k = Some r -> if Nat.eqb (rb_body b) k then inside l r else apart r l.
Definition laids (n : nat) (K : list (rebar * list pt)) : Prop := Forall (fun x => laid n (fst x) (snd x)) K.

Lemma combine_nth {A} (l : list A) k r : In (k, r) (combine (seq 0 (length l)) l) -> nth_error l k = Some r.
Proof.
  assert (G : forall (l : list A) s, In (k, r) (combine (seq s (length l)) l) -> (s <= k)%nat /\ nth_error l (k - s) = Some r).
  { clear l. induction l as [|a l IH]; intros s; [contradiction|]. cbn [length seq combine]. intros [E|I].
    - injection E as <- <-. rewrite Nat.sub_diag. auto.
    - destruct (IH (S s) I) as [L E]. split; [lia|]. replace (k - s)%nat with (S (k - S s)) by lia. exact E. }
  intros I. destruct (G l 0%nat I) as [_ E]. rewrite Nat.sub_0_r in E. exact E.
Qed.
Lemma laid_apart n a l b m : laid n a l -> laid n b m -> clear_of n a b -> apart l m.
Proof.
  intros (_ & R1 & r & P1 & C1 & _) (_ & R2 & s & P2 & C2 & _) C. unfold clear_of in C. pose proof h_pos. rewrite h_tiny in C. eapply apart_discs; [exact R1|exact R2| |]; lra.
Qed.
Lemma is_cut_perm s s' g : fst s = fst s' -> Permutation (snd s) (snd s') -> is_cut s g -> is_cut s' g.
Proof.
  intros E P (S & G & M & T & C & Q & R). rewrite E in *. split; [exact S|]. split; [eapply Permutation_Forall; eassumption|]. repeat (split; [assumption|]). eapply rings_perm; eassumption.
Qed.
Lemma cut_state n bodies conc steel H K b l : placed n bodies b -> laid n b l -> laids n H -> laids n K -> Forall (fun x => clear_of n (fst x) b) H -> Forall (fun x => clear_of n (fst x) b) K ->
  Forall2 (cuts_to l) (state bodies conc steel H K)
    (map (fun kr => (snd kr, conc, if Nat.eqb (rb_body b) (fst kr) then l :: holes (fst kr) H else holes (fst kr) H)) (combine (seq 0 (length bodies)) bodies) ++ map (fun x => (snd x, steel, [])) K).
Proof.
  intros (_ & _ & P) L LH LK CH CK. unfold state. apply Forall2_app.
  - assert (Q : forall kr, In kr (combine (seq 0 (length bodies)) bodies) -> nth_error bodies (fst kr) = Some (snd kr)) by (intros [k r] I; apply combine_nth, I).
    generalize dependent (combine (seq 0 (length bodies)) bodies). intros C Q. induction C as [|[k r] C IH]; [constructor|]. cbn [map]. constructor; [|apply IH; intros kr I; apply Q; right; exact I].
    specialize (P l (proj1 (proj2 L)) k r (Q (k, r) (or_introl eq_refl))). split; [reflexivity|]. cbn [fst snd]. destruct (Nat.eqb (rb_body b) k); [right|left; split; [exact P|reflexivity]].
    split; [exact P|]. split; [|reflexivity]. unfold holes. apply Forall_map, Forall_forall. intros x Hx. apply filter_In in Hx as [Hx _]. unfold laids in LH. rewrite Forall_forall in LH, CH. apply apart_sym. eapply laid_apart; [apply LH, Hx|exact L|apply CH, Hx].
  - clear - L LK CK. induction K as [|x K IH]; [constructor|]. inversion LK; inversion CK; subst. cbn [map]. constructor; [|apply IH; assumption]. split; [reflexivity|]. left. cbn [fst snd]. split; [|reflexivity]. eapply laid_apart; eassumption.
Qed.
Lemma sub_state sh so n bodies conc steel H K b l bar i : cuts so -> placed n bodies b -> laid n b l -> laids n H -> laids n K -> Forall (fun x => clear_of n (fst x) b) H -> Forall (fun x => clear_of n (fst x) b) K ->
  gm_poly bar = mkPoly l [] -> Forall2 is_cut (state bodies conc steel H K) (members_of i) ->
  exists i', geom_sub sh so i (ISingle bar) = Ok i' /\ Forall2 is_cut (state bodies conc steel (H ++ [(b, l)]) K) (members_of i').
Proof.
  intros U P L LH LK CH CK B F. destruct (sub_members sh so l bar _ _ i U F (cut_state n bodies conc steel H K b l P L LH LK CH CK) B (proj1 L)) as (i' & E & F'). exists i'. split; [exact E|].
  unfold state. apply Forall2_app_inv_l in F' as (g1 & g2 & F1 & F2 & ->). apply Forall2_app; [|exact F2]. clear - F1. revert g1 F1. generalize (combine (seq 0 (length bodies)) bodies). intros C.
  induction C as [|[k r] C IH]; intros g1 F1; inversion F1; subst; [constructor|]. cbn [map]. constructor; [|apply IH; assumption]. eapply is_cut_perm; [| |eassumption]; [reflexivity|]. cbn [fst snd]. unfold holes. rewrite filter_app, map_app. cbn [filter].
  destruct (Nat.eqb (rb_body (fst (b, l))) k) eqn:E; cbn [fst] in E; rewrite E; cbn [map snd].
  - apply Permutation_cons_append.
  - rewrite app_nil_r. reflexivity.
Qed.
Lemma add_state sh bodies conc steel H K b l bar i : is_cut (l, steel, []) bar -> Forall2 is_cut (state bodies conc steel H K) (members_of i) ->
  Forall2 is_cut (state bodies conc steel H (K ++ [(b, l)])) (cp_geoms (add_geometry sh i (ISingle bar))).
Proof.
  intros B F. unfold add_geometry. rewrite new_members. cbn [map concat members_of]. rewrite app_nil_r. unfold state in *. rewrite map_app. rewrite app_assoc. apply Forall2_app; [exact F|]. constructor; [exact B|constructor].
Qed.
Definition compound_if (K : list (rebar * list pt)) (i : item) : Prop := K <> [] -> exists c, i = ICompound c.
Lemma clear_last n (K : list (rebar * list pt)) b L : ForallOrdPairs (clear_of n) (map fst K ++ b :: L) -> Forall (fun x => clear_of n (fst x) b) K.
Proof.
  induction K as [|x K IH]; [constructor|]. cbn [map app]. intros F. inversion F as [|? ? G1 G2]; subst. constructor; [|apply IH, G2]. rewrite Forall_forall in G1. apply G1, in_or_app. right. left. reflexivity.
Qed.
Lemma run_bars sh so n bodies conc steel area : cuts so -> (3 <= n)%nat -> forall L K i,
  Forall (fun b => rb_area b = area) L -> Forall (placed n bodies) L -> ForallOrdPairs (clear_of n) (map fst K ++ L) -> laids n K -> compound_if K i -> Forall2 is_cut (state bodies conc steel K K) (members_of i) ->
  exists i' K', fold_result (add_bar sh so area n steel) (map rb_at L) i = Ok i' /\ map fst K' = map fst K ++ L /\ laids n K' /\ compound_if K' i' /\ Forall2 is_cut (state bodies conc steel K' K') (members_of i').
Proof.
  intros U Hn. induction L as [|b L IH]; intros K i A P C LK CI F.
  - exists i, K. rewrite app_nil_r. repeat split; try assumption; reflexivity.
  - inversion A as [|? ? A1 A2]; inversion P as [|? ? P1 P2]; subst. destruct (bar_cut sh b n steel Hn (proj1 (proj2 P1))) as (g & l & E & B & Q & Ld & _). pose proof (clear_last _ _ _ _ C) as CK.
    destruct (sub_state sh so n bodies conc steel K K b l g i U P1 Ld LK LK CK CK B F) as (i1 & E1 & F1). pose proof (add_state sh bodies conc steel (K ++ [(b, l)]) K b l g i1 Q F1) as F2.
    destruct (IH (K ++ [(b, l)]) (ICompound (add_geometry sh i1 (ISingle g)))) as (i' & K' & E' & M' & L' & C' & F').
    + exact A2. + exact P2. + rewrite map_app, <- app_assoc. exact C. + apply Forall_app. split; [exact LK|constructor; [exact Ld|constructor]]. + intros _. eauto. + exact F2.
    + exists i', K'. cbn [map fold_result]. unfold add_bar at 1. rewrite E. cbn [bind]. unfold insert_bar. rewrite E1. cbn [bind]. rewrite E'. split; [reflexivity|]. rewrite map_app, <- app_assoc in M'. auto.
Qed.
Lemma run_sides sh so n bodies conc steel area dx : cuts so -> (3 <= n)%nat -> forall L K i, let R b := mkRebar (fst (rb_at b) + dx, snd (rb_at b)) (rb_area b) (rb_body b) in
  Forall (fun b => rb_area b = area) L -> Forall (fun b => placed n bodies b /\ placed n bodies (R b)) L -> ForallOrdPairs (clear_of n) (map fst K ++ concat (map (fun b => [b; R b]) L)) -> laids n K -> compound_if K i -> Forall2 is_cut (state bodies conc steel K K) (members_of i) ->
  exists i' K', fold_result (add_side sh so area n steel dx) (map rb_at L) i = Ok i' /\ map fst K' = map fst K ++ concat (map (fun b => [b; R b]) L) /\ laids n K' /\ compound_if K' i' /\ Forall2 is_cut (state bodies conc steel K' K') (members_of i').
Proof.
  intros U Hn. intros L. induction L as [|b L IH]; intros K i R A P C LK CI F.
  - exists i, K. cbn [map concat]. rewrite app_nil_r. repeat split; try assumption; reflexivity.
  - inversion A as [|? ? A1 A2]; inversion P as [|? ? [P1 P1'] P2]; subst. destruct (bar_cut sh b n steel Hn (proj1 (proj2 P1))) as (g & l & E & B & Q & Ld & r & R1 & C1 & N). cbn [map concat app] in C. pose proof (clear_last _ _ _ _ C) as CK.
    destruct (bar_shift_cut sh b n steel g l r dx Hn B Q Ld R1 C1 N) as (l' & B' & Q' & Ld'). change (mkRebar _ _ _) with (R b) in Ld'.
    destruct (sub_state sh so n bodies conc steel K K b l g i U P1 Ld LK LK CK CK B F) as (i1 & E1 & F1).
    assert (CK' : Forall (fun x => clear_of n (fst x) (R b)) (K ++ [(b, l)])) by (apply (clear_last n _ _ (concat (map (fun b => [b; R b]) L))); rewrite map_app, <- app_assoc; exact C).
    assert (LK' : laids n (K ++ [(b, l)])) by (apply Forall_app; split; [exact LK|constructor; [exact Ld|constructor]]).
    destruct (sub_state sh so n bodies conc steel (K ++ [(b, l)]) K (R b) l' (shift_section sh g dx 0) i1 U P1' Ld' LK' LK CK' (proj1 (proj1 (Forall_app _ _ _) CK')) B' F1) as (i2 & E2 & F2).
    pose proof (add_state sh bodies conc steel _ K b l g i2 Q F2) as F3. pose proof (add_state sh bodies conc steel _ (K ++ [(b, l)]) (R b) l' (shift_section sh g dx 0) (ICompound _) Q' F3) as F4.
    destruct (IH ((K ++ [(b, l)]) ++ [(R b, l')]) (ICompound (add_geometry sh (ICompound (add_geometry sh i2 (ISingle g))) (ISingle (shift_section sh g dx 0))))) as (i' & K' & E' & M' & L' & C' & F').
    + exact A2. + exact P2. + rewrite !map_app, <- !app_assoc. exact C. + apply Forall_app. split; [exact LK'|constructor; [exact Ld'|constructor]]. + intros _. eauto. + exact F4.
    + exists i', K'. cbn [map fold_result]. unfold add_side at 1. rewrite E. cbn [bind]. rewrite E1. cbn [bind]. rewrite E2. cbn [bind]. rewrite E'. split; [reflexivity|]. rewrite !map_app, <- !app_assoc in M'. auto.
Qed.

(** ** The result *)
Lemma sumf_app' {A} (f : A -> R) l m : sumf f (l ++ m) = sumf f l + sumf f m.
Proof. unfold sumf, Rsum. induction l as [|a l IH]; cbn [app map fold_right]; lra. Qed.
Lemma cut_area r m hs g : is_cut (r, m, hs) g -> poly_area (gm_poly g) = Rabs (ring_area r) - sumf (fun l => Rabs (ring_area l)) hs.
Proof.
  intros (_ & _ & _ & _ & _ & E & H). unfold poly_area. cbn [fst snd] in *. rewrite orient_area, <- (same_area _ _ E). f_equal. unfold sumf at 1. rewrite (map_ext _ (fun l => Rabs (ring_area l))) by (intros l; apply orient_area). symmetry. apply rings_area, H.
Qed.
Lemma holes_all (bodies : list (list pt)) (K : list (rebar * list pt)) s : Forall (fun x => (s <= rb_body (fst x) < s + length bodies)%nat) K ->
  Rsum (map (fun kr : nat * list pt => sumf (fun l => Rabs (ring_area l)) (holes (fst kr) K)) (combine (seq s (length bodies)) bodies)) = sumf (fun x => Rabs (ring_area (snd x))) K.
Proof.
  induction K as [|x K IH]; intros F.
  - unfold holes. cbn [filter map]. unfold sumf, Rsum. cbn [map fold_right]. induction (combine _ _) as [|c C IH]; cbn [map fold_right]; lra.
  - inversion F as [|? ? [F1 F2] F']; subst. replace (sumf (fun y => Rabs (ring_area (snd y))) (x :: K)) with (Rabs (ring_area (snd x)) + sumf (fun y => Rabs (ring_area (snd y))) K) by reflexivity. rewrite <- IH by exact F'. clear IH F F'.
    assert (G : forall (bs : list (list pt)) s, Rsum (map (fun kr : nat * list pt => sumf (fun l => Rabs (ring_area l)) (holes (fst kr) (x :: K))) (combine (seq s (length bs)) bs)) =
      (if (s <=? rb_body (fst x)) && (rb_body (fst x) <? s + length bs) then Rabs (ring_area (snd x)) else 0) + Rsum (map (fun kr : nat * list pt => sumf (fun l => Rabs (ring_area l)) (holes (fst kr) K)) (combine (seq s (length bs)) bs))).
    { induction bs as [|b bs IH]; intros t.
      - cbn [length seq combine map]. unfold Rsum. cbn [fold_right]. destruct ((t <=? _) && _)%nat eqn:Q; [|lra]. apply andb_prop in Q as [Q1 Q2]. apply Nat.leb_le in Q1. apply Nat.ltb_lt in Q2. lia.
      - cbn [length seq combine map]. unfold Rsum in *. cbn [fold_right]. rewrite (IH (S t)). cbn [fst]. unfold holes at 1. cbn [filter]. destruct (Nat.eqb_spec (rb_body (fst x)) t) as [E|E].
        + assert (V1 : ((t <=? rb_body (fst x)) && (rb_body (fst x) <? t + S (length bs)))%nat = true) by (apply andb_true_intro; split; [apply Nat.leb_le|apply Nat.ltb_lt]; lia).
          assert (V2 : ((S t <=? rb_body (fst x)) && (rb_body (fst x) <? S t + length bs))%nat = false) by (apply andb_false_iff; left; apply Nat.leb_gt; lia). rewrite V1, V2. cbn [map]. unfold sumf at 1, Rsum. cbn [map fold_right]. unfold sumf at 2, Rsum, holes at 2. lra.
        + assert (V : ((S t <=? rb_body (fst x)) && (rb_body (fst x) <? S t + length bs))%nat = ((t <=? rb_body (fst x)) && (rb_body (fst x) <? t + S (length bs)))%nat).
          { apply eq_true_iff_eq. rewrite !andb_true_iff, !Nat.leb_le, !Nat.ltb_lt. lia. } rewrite V. unfold holes at 2. lra. }
    rewrite G. replace ((s <=? rb_body (fst x)) && (rb_body (fst x) <? s + length bodies))%nat with true by (symmetry; apply andb_true_intro; split; [apply Nat.leb_le|apply Nat.ltb_lt]; lia). reflexivity.
Qed.
Lemma state_cast outlines bodies conc steel n K c bars : Forall2 (Forall2 close) outlines bodies -> Forall (placed n bodies) bars -> map fst K = bars -> laids n K ->
  Forall2 is_cut (state bodies conc steel K K) (cp_geoms c) -> cast outlines conc steel n bars c.
Proof.
  intros O P M L F. unfold state in F. apply Forall2_app_inv_l in F as (g1 & g2 & F1 & F2 & G). exists g1, g2, bodies. split; [exact G|].
  assert (S1 : Forall2 (fun x g => laid n (fst x) (snd x) /\ is_cut (snd x, steel, []) g) K g2).
  { clear - F2 L. revert g2 F2. induction L as [|x K H L IH]; intros g2 F2; inversion F2; subst; constructor; [split; assumption|apply IH; assumption]. }
  split; [|split; [exact O|split]].
  - subst bars. clear - S1. induction S1 as [|x g K gs [(S & R & r & R1 & R2 & R3 & R4) (_ & _ & M & _ & _ & E & H)] F IH]; cbn [map]; constructor; [|exact IH]. cbn [fst snd] in *. split; [exact M|]. split; [apply rings_nil, H|]. exists r, (snd x). auto.
  - assert (H : forall k, Forall2 same_ring (bars_of k bars g2) (holes k K)).
    { intros k. subst bars. unfold bars_of, holes. clear - S1. induction S1 as [|x g K gs [_ (_ & _ & _ & _ & _ & E & _)] F IH]; [constructor|]. cbn [map combine filter fst]. cbn [fst snd] in E. destruct (Nat.eqb (rb_body (fst x)) k); cbn [map snd]; [constructor; [apply same_sym, E|exact IH]|exact IH]. }
    clear - F1 H. revert g1 F1. generalize (combine (seq 0 (length bodies)) bodies). intros C. induction C as [|kr C IH]; intros g1 F1; inversion F1 as [|? ? ? ? Q F]; subst; [constructor|]. cbn [map] in *. constructor; [|apply IH; assumption].
    destruct Q as (_ & _ & M & _ & _ & E & Hh). cbn [fst snd] in *. split; [exact M|]. split; [exact E|]. eapply rings_left; [apply H|exact Hh].
  - assert (A1 : multi_area (map gm_poly g1) = sumf (fun l => Rabs (ring_area l)) bodies - Rsum (map (fun kr : nat * list pt => sumf (fun l => Rabs (ring_area l)) (holes (fst kr) K)) (combine (seq 0 (length bodies)) bodies))).
    { assert (B : sumf (fun l => Rabs (ring_area l)) bodies = Rsum (map (fun kr : nat * list pt => Rabs (ring_area (snd kr))) (combine (seq 0 (length bodies)) bodies))).
      { unfold sumf. rewrite <- (combine_snd (seq 0 (length bodies)) bodies) at 1 by (rewrite seq_length; lia). rewrite map_map. reflexivity. }
      rewrite B. clear - F1. revert g1 F1. generalize (combine (seq 0 (length bodies)) bodies). intros C. unfold multi_area, sumf at 1, Rsum. induction C as [|kr C IH]; intros g1 F1; inversion F1 as [|? ? ? ? Q F]; subst; cbn [map fold_right]; [lra|].
      cbn [map] in *. rewrite (IH _ F). rewrite (cut_area _ _ _ _ Q). lra. }
    assert (A2 : multi_area (map gm_poly g2) = sumf (fun x => Rabs (ring_area (snd x))) K).
    { clear - S1. unfold multi_area, sumf, Rsum. induction S1 as [|x g K gs [_ Q] F IH]; cbn [map fold_right]; [reflexivity|]. rewrite IH, (cut_area _ _ _ _ Q). unfold sumf, Rsum. cbn [map fold_right]. lra. }
    rewrite A1, A2, holes_all; [lra|]. subst bars. rewrite Forall_map in P. eapply Forall_impl; [|exact P]. intros x (B & _). cbv beta in *. lia.
Qed.
