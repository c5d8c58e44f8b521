(** Proofs about the plots of stresses. *)
From Coq Require Import String Reals List Bool Arith Sorted Lra Lia.
From Verif Require Import Base M_Fea M_Init S_Init P_Init M_Section M_Stress P_Stress M_Geometry P_Geometry6 M_StressPost S_StressPost P_StressPost M_Plots S_Plots.
Import ListNotations.
Local Open Scope R_scope.

(** ** Lists *)
Lemma sorted_map_S ks : StronglySorted lt ks -> StronglySorted lt (map S ks).
Proof. induction 1 as [|k ks H IH F]; cbn; constructor; [exact IH|]. apply Forall_map. revert F. apply Forall_impl. intros; lia. Qed.
Lemma filter_index {A} (f : A -> bool) l : exists ks, StronglySorted lt ks /\ (forall k, In k ks <-> exists a, nth_error l k = Some a /\ f a = true) /\
  Forall2 (fun k a => nth_error l k = Some a) ks (filter f l).
Proof.
  induction l as [|a l (ks & S1 & I1 & F1)].
  - exists []. split; [constructor|]. split; [|constructor]. intros k. split; [intros []|intros (a & H & _); destruct k; discriminate H].
  - assert (F2 : Forall2 (fun k x => nth_error (a :: l) k = Some x) (map S ks) (filter f l)) by (clear -F1; induction F1; constructor; assumption).
    assert (I2 : forall k, In (S k) (map S ks) <-> exists x, nth_error l k = Some x /\ f x = true). { intros k. rewrite <- I1, in_map_iff. split; [intros (j & E & Hj); injection E as <-; exact Hj|intros H; exists k; auto]. }
    cbn [filter]. destruct (f a) eqn:E.
    + exists (0%nat :: map S ks). split; [constructor; [apply sorted_map_S, S1|apply Forall_map, Forall_forall; intros; lia]|]. split; [|constructor; [reflexivity|exact F2]].
      intros [|k]; cbn [In nth_error].
      * split; [intros _; exists a; auto|auto].
      * rewrite <- I2. split; [intros [K|K]; [discriminate K|exact K]|auto].
    + exists (map S ks). split; [apply sorted_map_S, S1|]. split; [|exact F2]. intros [|k]; cbn [nth_error].
      * split; [intros K; apply in_map_iff in K; destruct K as (j & K & _); discriminate K|intros (x & K & Fx); injection K as <-; congruence].
      * apply I2.
Qed.
Lemma Forall2_and_map {A B C} (Q : A -> B -> Prop) (f : B -> C) (P : A -> C -> Prop) l l' : Forall2 Q l l' -> (forall a b, In b l' -> Q a b -> P a (f b)) -> Forall2 P l (map f l').
Proof. induction 1 as [|a b l l' H F IH]; intros K; cbn; constructor; [apply K; [left; reflexivity|exact H]|apply IH; intros x y Hy; apply K; right; exact Hy]. Qed.
Lemma nth_combine {A B} (a : list A) : forall (b : list B) k p, nth_error (combine a b) k = Some p <-> nth_error a k = Some (fst p) /\ nth_error b k = Some (snd p).
Proof.
  induction a as [|x a IH]; intros [|y b] [|k] [u v]; cbn [combine nth_error fst snd]; try (split; [discriminate|intros [H K]; discriminate]).
  - split; [intros E; injection E as <- <-; auto|intros [E F]; injection E as <-; injection F as <-; reflexivity].
  - apply IH.
Qed.
Lemma combine_map_r {A B} (f : A -> B) l : combine l (map f l) = map (fun a => (a, f a)) l.
Proof. induction l as [|a l IH]; [reflexivity|]. cbn. rewrite IH. reflexivity. Qed.
Lemma concat_singles {A B} (f : A -> B) l : concat (map (fun a => [f a]) l) = map f l.
Proof. induction l as [|a l IH]; [reflexivity|]. cbn. rewrite IH. reflexivity. Qed.

(** ** Names *)
Lemma attr_entry n r key : In key (map (fun x => fst (fst x)) direct_keys ++ combined_keys) -> stress_attr n r key = entry key (stress_dict n r).
Proof. destruct r as [s c]. intros I. cbn [map app direct_keys combined_keys fst In] in I. repeat (destruct I as [<-|I]; [reflexivity|]). destruct I. Qed.
Lemma documented_key q : In q documented -> lookup (plot_name q) contour_dict = Ok (stress_key q) /\ In (stress_key q) (map (fun x => fst (fst x)) direct_keys ++ combined_keys).
Proof. intros I. cbn [documented In] in I. repeat (destruct I as [<-|I]; [split; [reflexivity|vm_compute; tauto]|]). destruct I. Qed.
Lemma entry_length n r key : In key (map (fun x => fst (fst x)) direct_keys ++ combined_keys) -> exists l, entry key (stress_dict n r) = Some l /\ length l = n.
Proof. destruct r as [s c]. intros I. cbn [map app direct_keys combined_keys fst In] in I. repeat (destruct I as [<-|I]; [eexists; split; [reflexivity|rewrite map_length, seq_length; reflexivity]|]). destruct I. Qed.
Lemma lookup_missing {A} key (d : list (string * A)) : ~ In key (map fst d) -> lookup key d = Err KeyError.
Proof. induction d as [|[k v] d IH]; intros N; [reflexivity|]. cbn in *. destruct (String.eqb_spec key k) as [->|_]; [exfalso; apply N; auto|apply IH; tauto]. Qed.
Lemma dict_names : map fst contour_dict = map plot_name documented.
Proof. reflexivity. Qed.
Lemma wanted_iff ml m : left_out ml m = false <-> wanted ml m.
Proof.
  unfold left_out, wanted. destruct ml as [[|x l]|].
  - split; [auto|reflexivity].
  - rewrite negb_false_iff, mat_in_spec. split; [intros H; right; right; exists (x :: l); destruct H as (y & H); exists y; auto|].
    intros [E|[E|(l' & y & E & H)]]; [discriminate E|discriminate E|injection E as <-; exists y; exact H].
  - split; [auto|reflexivity].
Qed.

(** ** Minima and maxima *)
Lemma fold_min l : forall a, (fold_left Rmin l a = a \/ In (fold_left Rmin l a) l) /\ fold_left Rmin l a <= a /\ forall x, In x l -> fold_left Rmin l a <= x.
Proof.
  induction l as [|b l IH]; intros a; cbn [fold_left In]; [split; [auto|split; [lra|intros x []]]|]. destruct (IH (Rmin a b)) as (A & B & C). pose proof (Rmin_l a b). pose proof (Rmin_r a b).
  split; [|split; [lra|intros x [<-|Hx]; [lra|apply C, Hx]]]. destruct A as [A|A]; [|auto]. rewrite A. unfold Rmin. destruct (Rle_dec a b); auto.
Qed.
Lemma fold_max l : forall a, (fold_left Rmax l a = a \/ In (fold_left Rmax l a) l) /\ a <= fold_left Rmax l a /\ forall x, In x l -> x <= fold_left Rmax l a.
Proof.
  induction l as [|b l IH]; intros a; cbn [fold_left In]; [split; [auto|split; [lra|intros x []]]|]. destruct (IH (Rmax a b)) as (A & B & C). pose proof (Rmax_l a b). pose proof (Rmax_r a b).
  split; [|split; [lra|intros x [<-|Hx]; [lra|apply C, Hx]]]. destruct A as [A|A]; [|auto]. rewrite A. unfold Rmax. destruct (Rle_dec a b); auto.
Qed.
Lemma min_ok l : l <> [] -> exists a, min_of l = Ok a /\ In a l /\ forall x, In x l -> a <= x.
Proof.
  destruct l as [|b l]; [contradiction|]. intros _. cbn [min_of]. eexists. split; [reflexivity|]. destruct (fold_min l b) as (A & B & C). split; [destruct A as [->|A]; [left; reflexivity|right; exact A]|]. intros x [<-|Hx]; [exact B|apply C, Hx].
Qed.
Lemma max_ok l : l <> [] -> exists a, max_of l = Ok a /\ In a l /\ forall x, In x l -> x <= a.
Proof.
  destruct l as [|b l]; [contradiction|]. intros _. cbn [max_of]. eexists. split; [reflexivity|]. destruct (fold_max l b) as (A & B & C). split; [destruct A as [->|A]; [left; reflexivity|right; exact A]|]. intros x [<-|Hx]; [exact B|apply C, Hx].
Qed.
Lemma min_lists ls : ls <> [] -> (forall l, In l ls -> l <> []) -> exists a, bind (map_result min_of ls) min_of = Ok a /\ least ls a.
Proof.
  intros N K. assert (M : exists ms, map_result min_of ls = Ok ms /\ Forall2 (fun l a => In a l /\ forall x, In x l -> a <= x) ls ms).
  { clear N. induction ls as [|l ls IH]; [exists []; split; [reflexivity|constructor]|]. destruct IH as (ms & E & F); [intros; apply K; right; assumption|]. destruct (min_ok l) as (a & Ea & Fa); [apply K; left; reflexivity|].
    exists (a :: ms). cbn [map_result]. rewrite Ea, E. split; [reflexivity|constructor; assumption]. }
  destruct M as (ms & E & F). destruct (min_ok ms) as (a & Ea & Ia & La). { intros ->. inversion F; subst. contradiction. } exists a. rewrite E. cbn [bind]. split; [exact Ea|]. split.
  - clear -F Ia. induction F as [|l b ls ms [H _] F IH]; [destruct Ia|]. destruct Ia as [<-|Ia]; [exists l; split; [left; reflexivity|exact H]|]. destruct (IH Ia) as (l' & A & B). exists l'. split; [right; exact A|exact B].
  - intros l x Hl Hx. clear -F La Hl Hx. induction F as [|l0 b ls ms [_ H] F IH]; [destruct Hl|]. destruct Hl as [->|Hl]; [pose proof (H x Hx); pose proof (La b (or_introl eq_refl)); lra|apply IH; [intros; apply La; right; assumption|exact Hl]].
Qed.
Lemma max_lists ls : ls <> [] -> (forall l, In l ls -> l <> []) -> exists a, bind (map_result max_of ls) max_of = Ok a /\ greatest ls a.
Proof.
  intros N K. assert (M : exists ms, map_result max_of ls = Ok ms /\ Forall2 (fun l a => In a l /\ forall x, In x l -> x <= a) ls ms).
  { clear N. induction ls as [|l ls IH]; [exists []; split; [reflexivity|constructor]|]. destruct IH as (ms & E & F); [intros; apply K; right; assumption|]. destruct (max_ok l) as (a & Ea & Fa); [apply K; left; reflexivity|].
    exists (a :: ms). cbn [map_result]. rewrite Ea, E. split; [reflexivity|constructor; assumption]. }
  destruct M as (ms & E & F). destruct (max_ok ms) as (a & Ea & Ia & La). { intros ->. inversion F; subst. contradiction. } exists a. rewrite E. cbn [bind]. split; [exact Ea|]. split.
  - clear -F Ia. induction F as [|l b ls ms [H _] F IH]; [destruct Ia|]. destruct Ia as [<-|Ia]; [exists l; split; [left; reflexivity|exact H]|]. destruct (IH Ia) as (l' & A & B). exists l'. split; [right; exact A|exact B].
  - intros l x Hl Hx. clear -F La Hl Hx. induction F as [|l0 b ls ms [_ H] F IH]; [destruct Hl|]. destruct Hl as [->|Hl]; [pose proof (H x Hx); pose proof (La b (or_introl eq_refl)); lra|apply IH; [intros; apply La; right; assumption|exact Hl]].
Qed.

(** ** Levels *)
Lemma linspace_spaced a b : spaced a b (linspace15 a b).
Proof.
  unfold spaced. split; [reflexivity|]. split; [cbn; f_equal; lra|]. split; [unfold linspace15; rewrite nth_error_map; cbn [seq nth_error option_map]; f_equal; cbn [INR]; lra|].
  intros i x y Hx Hy. unfold linspace15 in *. rewrite nth_error_map in Hx, Hy. assert (L : (S i < length (seq 0 15))%nat) by (apply nth_error_Some; intros E; rewrite E in Hy; discriminate Hy). rewrite seq_length in L.
  rewrite (nth_error_nth' _ 0%nat), seq_nth in Hx by (rewrite ?seq_length; lia). rewrite (nth_error_nth' _ 0%nat), seq_nth in Hy by (rewrite ?seq_length; lia). cbn [option_map] in *. rewrite Nat.add_0_l in Hx. rewrite Nat.add_0_l, S_INR in Hy.
  assert (Ex : a + INR i * ((b - a) / 14) = x) by congruence. assert (Ey : a + (INR i + 1) * ((b - a) / 14) = y) by congruence. lra.
Qed.
Lemma levels_ok a b : levels_for a b (if isclose (nth 0 (linspace15 a b) 0) (nth 14 (linspace15 a b) 0) then Automatic 15 else Given (linspace15 a b)).
Proof.
  destruct (linspace_spaced a b) as (_ & A & B & _). apply nth_error_nth with (d := 0) in A, B. rewrite A, B. unfold isclose, levels_for. destruct (Rle_dec _ _) as [H|H]; [left; auto|right]. split; [lra|]. exists (linspace15 a b). split; [apply linspace_spaced|reflexivity].
Qed.

(** ** The groups of a section *)
Lemma added (es : list element) : forall gs x, (exists g, In g (fold_left add_element es gs) /\ In x (snd g)) -> (exists g, In g gs /\ In x (snd g)) \/ In x es.
Proof.
  induction es as [|e es IH]; intros gs x H; cbn [fold_left] in H; [auto|]. apply IH in H. destruct H as [H|H]; [|right; right; exact H].
  assert (K : (exists g, In g gs /\ In x (snd g)) \/ x = e).
  { clear IH. induction gs as [|[m l] gs IH]; cbn [add_element] in H; [destruct H as (g & [] & _)|]. destruct (mat_is (e_mat e) m).
    - destruct H as (g & [<-|Hg] & Hx); cbn [snd] in Hx; [apply in_app_or in Hx; destruct Hx as [Hx|[->|[]]]; [left; exists (m, l); split; [left; reflexivity|exact Hx]|auto]|left; exists g; split; [right; exact Hg|exact Hx]].
    - destruct H as (g & [<-|Hg] & Hx); [left; exists (m, l); split; [left; reflexivity|exact Hx]|]. destruct IH as [(g' & A & B)|E]; [exists g; auto|left; exists g'; split; [right; exact A|exact B]|auto]. }
  destruct K as [K| ->]; [auto|right; left; reflexivity].
Qed.
Lemma group_members mesh mats s m els e : section_init mesh mats = Ok s -> In (m, els) (s_groups s) -> In e els -> In e (s_els s).
Proof.
  intros H Hg He. destruct (init_ok _ _ _ H) as (r & -> & _ & _ & _ & _ & _ & E). rewrite E in Hg.
  destruct (added _ _ e (ex_intro _ _ (conj Hg He))) as [(g & Ig & Ie)|I]; [|exact I]. apply in_map_iff in Ig. destruct Ig as (m0 & <- & _). destruct Ie.
Qed.
Lemma element_number mesh mats s e : section_init mesh mats = Ok s -> In e (s_els s) -> nth_error (s_els s) (e_id e) = Some e.
Proof.
  intros H He. destruct (init_ok _ _ _ H) as (r & -> & _ & _ & _ & _ & E & _). rewrite E in *. apply In_nth_error in He. destruct He as [k Hk]. rewrite <- Hk. f_equal. rewrite build_nth in Hk. destruct (nth_error (rm_triangles r) k); [|discriminate Hk].
  cbn in Hk. injection Hk as <-. reflexivity.
Qed.
Lemma shown_triangles mesh mats s m els : section_init mesh mats = Ok s -> In (m, els) (s_groups s) ->
  let ids := filter (fun i => existsb (Nat.eqb i) (map e_id els)) (seq 0 (length (s_els s))) in NoDup ids /\ forall i, In i ids <-> exists e, In e els /\ e_id e = i.
Proof.
  intros H G ids. split; [apply NoDup_filter, seq_NoDup|]. intros i. unfold ids. rewrite filter_In, existsb_exists, in_seq. split.
  - intros (_ & j & Hj & E). apply Nat.eqb_eq in E. subst j. apply in_map_iff in Hj. destruct Hj as (e & <- & He). exists e. auto.
  - intros (e & He & <-). split; [|exists (e_id e); split; [apply in_map, He|apply Nat.eqb_refl]]. pose proof (element_number mesh mats s e H (group_members mesh mats s m els e H G He)) as N.
    assert (e_id e < length (s_els s))%nat by (apply nth_error_Some; congruence). lia.
Qed.

(** ** plot_stress *)
Definition item : Type := (group * (nodal_stress * (nat -> combined)))%type.
Definition plotted_of (s : section_obj) (res : list (nodal_stress * (nat -> combined))) (ml : option (list mat_obj)) : list item :=
  filter (fun gr : item => negb (left_out ml (fst (fst gr)))) (combine (s_groups s) res).
Lemma plot_unfold s res q titled limits ml : In q documented -> length res = length (s_groups s) ->
  let n := length (s_nodes s) in
  let plotted := plotted_of s res ml in
  let sig (gr : item) := match entry (stress_key q) (stress_dict n (snd gr)) with Some l => l | None => [] end in
  plot_stress s res (plot_name q) titled limits ml =
  bind (match limits with
        | None => bind (bind (map_result min_of (map sig plotted)) min_of) (fun lo => bind (bind (map_result max_of (map sig plotted)) max_of) (fun hi => Ok (lo - / 10 ^ 12, hi + / 10 ^ 12)))
        | Some l => Ok l end) (fun lim =>
  let v := linspace15 (fst lim) (snd lim) in
  let lv := if isclose (nth 0 v 0) (nth 14 v 0) then Automatic 15 else Given v in
  Ok (map (fun gr => mkContour (filter (fun i => existsb (Nat.eqb i) (map e_id (snd (fst gr)))) (seq 0 (length (s_els s)))) (sig gr) lv) plotted)).
Proof.
  intros I L n plotted sig. unfold plot_stress. destruct (documented_key q I) as [Eq Kq]. rewrite Eq. cbv zeta. fold n. change (filter _ (combine (s_groups s) res)) with plotted.
  rewrite (map_result_ok _ sig).
  2:{ apply Forall_forall. intros gr _. unfold sig. cbn [bind]. unfold attr_of. rewrite (attr_entry n _ _ Kq). destruct (entry_length n (snd gr) _ Kq) as (l & El & _). change (match entry (stress_key q) (stress_dict n (snd gr)) with Some l => Ok l | None => Err KeyError end = Ok match entry (stress_key q) (stress_dict n (snd gr)) with Some l => l | None => [] end). rewrite El. reflexivity. }
  cbn [bind]. replace (bind (if titled then Ok ""%string else Ok (stress_key q))) with (fun f : string -> result (list contour) => f (if titled then ""%string else stress_key q)) by (destruct titled; reflexivity).
  cbv beta. destruct (match limits with None => _ | Some l => Ok l end) as [lim|e]; cbn [bind]; [|reflexivity]. f_equal. rewrite combine_map_r, map_map.
  etransitivity; [|apply concat_singles]. f_equal. apply map_ext_in. intros [[m els] r] Hin. unfold plotted in Hin. apply filter_In in Hin. destruct Hin as [_ Hl]. cbn [fst snd] in *. apply negb_true_iff in Hl. rewrite Hl. reflexivity.
Qed.
Lemma plotted_numbers s (res : list (nodal_stress * (nat -> combined))) ml : length res = length (s_groups s) ->
  exists ks, plotted_groups s ml ks /\ Forall2 (fun k (gr : item) => nth_error (s_groups s) k = Some (fst gr) /\ nth_error res k = Some (snd gr) /\ wanted ml (fst (fst gr))) ks
    (plotted_of s res ml).
Proof.
  intros L. destruct (filter_index (fun gr : item => negb (left_out ml (fst (fst gr)))) (combine (s_groups s) res)) as (ks & So & I & F). exists ks. split.
  - split; [exact So|]. intros k. rewrite I. split.
    + intros ([[m els] r] & Hn & Hw). apply nth_combine in Hn. cbn [fst snd] in *. exists m, els. split; [tauto|]. apply wanted_iff, negb_true_iff, Hw.
    + intros (m & els & Hn & Hw). destruct (nth_error res k) as [r|] eqn:Er.
      * exists ((m, els), r). split; [apply nth_combine; auto|]. apply negb_true_iff, wanted_iff, Hw.
      * apply nth_error_None in Er. assert (k < length (s_groups s))%nat by (apply nth_error_Some; congruence). lia.
  - assert (K : forall gr : item, In gr (plotted_of s res ml) -> wanted ml (fst (fst gr))).
    { intros gr Hg. unfold plotted_of in Hg. apply filter_In in Hg. apply wanted_iff, negb_true_iff. tauto. }
    clear I So. unfold plotted_of in *. revert K. induction F as [|k gr ks' l Hn F IH]; intros K; constructor.
    + apply nth_combine in Hn. split; [tauto|]. split; [tauto|]. apply K. left. reflexivity.
    + apply IH. intros g Hg. apply K. right. exact Hg.
Qed.
