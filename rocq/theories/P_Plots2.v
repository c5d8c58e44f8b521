(** Proofs about the plots of stresses: zeros outside a group, vectors. *)
From Coq Require Import String Reals List Bool Arith Sorted Lra Lia.
From Verif Require Import Base M_Fea S_Fem M_Init S_Init P_Init M_Section M_Stress S_Stress P_Stress T_Stress M_Geometry P_Geometry6 M_StressPost S_StressPost P_StressPost M_Plots S_Plots P_Plots.
Import ListNotations.
Local Open Scope string_scope.
Local Open Scope R_scope.

Lemma calc_length composite t c w a s res : calc_stress composite t c w a (s_group_tris s) = Ok res -> length res = length (s_groups s).
Proof. intros H. destruct (calc_inv _ _ _ _ _ _ _ H) as (? & ? & ? & ? & _ & ->). unfold s_group_tris. rewrite !map_length. reflexivity. Qed.
Lemma Forall2_nth_l {A B} (P : A -> B -> Prop) l l' : Forall2 P l l' -> forall j a, nth_error l j = Some a -> exists b, nth_error l' j = Some b /\ P a b.
Proof. induction 1 as [|x y l l' H F IH]; intros [|j] a Ha; try discriminate Ha; cbn in *; [injection Ha as <-; exists y; auto|apply IH, Ha]. Qed.
Lemma Forall2_nth_r {A B} (P : A -> B -> Prop) l l' : Forall2 P l l' -> forall j b, nth_error l' j = Some b -> exists a, nth_error l j = Some a /\ P a b.
Proof. induction 1 as [|x y l l' H F IH]; intros [|j] b Hb; try discriminate Hb; cbn in *; [injection Hb as <-; exists x; auto|apply IH, Hb]. Qed.
Lemma sorted_nodup ks : StronglySorted lt ks -> NoDup ks.
Proof. induction 1 as [|k ks H IH F]; constructor; [|exact IH]. intros I. rewrite Forall_forall in F. specialize (F k I). lia. Qed.

(** ** Zeros outside a group *)
Lemma sqrt_zero x y : x = 0 -> y = 0 -> sqrt (x ^ 2 + y ^ 2) = 0.
Proof. intros -> ->. replace (0 ^ 2 + 0 ^ 2) with 0 by ring. apply sqrt_0. Qed.
Lemma zero_outside composite t c w a s res p om ps ph q k m els i r l : stress_parameters composite t c w a = Ok (p, om, ps, ph) -> calc_stress composite t c w a (s_group_tris s) = Ok res -> In q documented ->
  nth_error (s_groups s) k = Some (m, els) -> nth_error res k = Some r -> distinct_ids (map e_tri els) -> (i < length (s_nodes s))%nat -> ~ in_group (map e_tri els) i ->
  entry (stress_key q) (stress_dict (length (s_nodes s)) r) = Some l -> In 0 l.
Proof.
  intros HP HC I G Rk D Hi Out En. destruct r as [ns cb].
  assert (Z : forall f so act, In (f, so, act) components -> f ns i = 0).
  { intros f so act If. apply (C34_averaging composite t c w a (s_group_tris s) res k ns cb (mo_val m) (map e_tri els) p om ps ph HP HC Rk) with (so := so) (act := act); [exact (map_nth_error (fun g : group => (mo_val (fst g), map e_tri (snd g))) k (s_groups s) G)|exact D|exact If|exact Out]. }
  assert (C : cb i = combine_node ns i).
  { destruct (calc_inv _ _ _ _ _ _ _ HC) as (? & ? & ? & ? & _ & E). rewrite E in Rk. rewrite nth_error_map in Rk. destruct (nth_error (s_group_tris s) k); [|discriminate Rk]. cbn in Rk. injection Rk as <- <-. reflexivity. }
  assert (Z1 : ns_zz_n ns i = 0) by (eapply Z; left; reflexivity). assert (Z2 : ns_zz_mxx ns i = 0) by (eapply Z; do 1 right; left; reflexivity). assert (Z3 : ns_zz_myy ns i = 0) by (eapply Z; do 2 right; left; reflexivity).
  assert (Z4 : ns_zz_m11 ns i = 0) by (eapply Z; do 3 right; left; reflexivity). assert (Z5 : ns_zz_m22 ns i = 0) by (eapply Z; do 4 right; left; reflexivity). assert (Z6 : ns_zx_mzz ns i = 0) by (eapply Z; do 5 right; left; reflexivity).
  assert (Z7 : ns_zy_mzz ns i = 0) by (eapply Z; do 6 right; left; reflexivity). assert (Z8 : ns_zx_vx ns i = 0) by (eapply Z; do 7 right; left; reflexivity). assert (Z9 : ns_zy_vx ns i = 0) by (eapply Z; do 8 right; left; reflexivity).
  assert (ZA : ns_zx_vy ns i = 0) by (eapply Z; do 9 right; left; reflexivity). assert (ZB : ns_zy_vy ns i = 0) by (eapply Z; do 10 right; left; reflexivity).
  assert (CZ : cb i = mkCombined 0 0 0 0 0 0 0 0 0 0 0 0 0 0).
  { rewrite C. unfold combine_node. cbv zeta. rewrite Z1, Z2, Z3, Z4, Z5, Z6, Z7, Z8, Z9, ZA, ZB. rewrite !Rplus_0_l. rewrite (sqrt_zero 0 0) by reflexivity. rewrite ?Rplus_0_l.
    replace (0 / 2) with 0 by lra. rewrite (sqrt_zero 0 0) by reflexivity. replace (0 ^ 2 + 3 * 0 ^ 2) with (0 ^ 2 + 0 ^ 2) by ring. rewrite (sqrt_zero 0 0) by reflexivity. f_equal; ring. }
  assert (K : forall f, f i = 0 -> Some (map f (seq 0 (length (s_nodes s)))) = Some l -> In 0 l).
  { intros f Ef E. injection E as <-. apply in_map_iff. exists i. split; [exact Ef|apply in_seq; lia]. }
  cbn [documented In] in I. repeat (destruct I as [<-|I]; [cbv [stress_key fst snd] in En; cbn [entry stress_dict String.eqb Ascii.eqb Bool.eqb String.append] in En; eapply K; [|exact En]; cbv beta; rewrite ?CZ; first [reflexivity|assumption]|]). destruct I.
Qed.

(** ** Vectors *)
Lemma vector_key act : In act documented_vectors -> lookup (plot_name (act, "zxy")) vector_dict = Ok (stress_key (act, "zx"), stress_key (act, "zy")) /\
  In (act, "zx") documented /\ In (act, "zy") documented /\ In (act, "zxy") documented.
Proof. intros I. cbn [documented_vectors In] in I. repeat (destruct I as [<-|I]; [split; [reflexivity|]; cbn [documented In]; repeat split; tauto|]). destruct I. Qed.
Lemma hypot_map (f g : nat -> R) l : hypot (map f l) (map g l) = map (fun i => sqrt (f i ^ 2 + g i ^ 2)) l.
Proof. unfold hypot. induction l as [|a l IH]; [reflexivity|]. cbn [map combine fst snd]. rewrite IH. reflexivity. Qed.
Lemma magnitudes n ns act : In act documented_vectors -> exists x y, entry (stress_key (act, "zx")) (stress_dict n (ns, combine_node ns)) = Some x /\ entry (stress_key (act, "zy")) (stress_dict n (ns, combine_node ns)) = Some y /\
  entry (stress_key (act, "zxy")) (stress_dict n (ns, combine_node ns)) = Some (hypot x y) /\ length x = n /\ length y = n.
Proof.
  intros I. cbn [documented_vectors In] in I.
  repeat (destruct I as [<-|I]; [cbv [stress_key fst snd]; cbn [entry stress_dict String.eqb Ascii.eqb Bool.eqb String.append]; eexists; eexists; split; [reflexivity|]; split; [reflexivity|]; rewrite hypot_map, !map_length, seq_length; repeat split|]). destruct I.
Qed.
Lemma vector_fold scale (sigs : list (list R * list R)) : (forall xy, In xy sigs -> hypot (fst xy) (snd xy) <> []) -> forall mx lo hi,
  exists sc a b, fold_result (fun acc (xy : list R * list R) => let '(mx, lo, hi) := acc in
      bind (min_of (hypot (fst xy) (snd xy))) (fun a => bind (max_of (hypot (fst xy) (snd xy))) (fun b => Ok (Rmax mx (scale (fst xy) (snd xy)), Rmin lo a, Rmax hi b)))) sigs (mx, lo, hi) = Ok (sc, a, b) /\
    (sc = mx \/ exists xy, In xy sigs /\ sc = scale (fst xy) (snd xy)) /\ mx <= sc /\ (forall xy, In xy sigs -> scale (fst xy) (snd xy) <= sc) /\
    (a = lo \/ exists xy, In xy sigs /\ In a (hypot (fst xy) (snd xy))) /\ a <= lo /\ (forall xy x, In xy sigs -> In x (hypot (fst xy) (snd xy)) -> a <= x) /\
    (b = hi \/ exists xy, In xy sigs /\ In b (hypot (fst xy) (snd xy))) /\ hi <= b /\ (forall xy x, In xy sigs -> In x (hypot (fst xy) (snd xy)) -> x <= b).
Proof.
  induction sigs as [|xy sigs IH]; intros N mx lo hi; cbn [fold_result].
  - exists mx, lo, hi. split; [reflexivity|]. cbn [In]. repeat match goal with |- _ /\ _ => split end; try (left; reflexivity); try lra; intros; tauto.
  - destruct (min_ok _ (N xy (or_introl eq_refl))) as (u & Eu & Iu & Lu). destruct (max_ok _ (N xy (or_introl eq_refl))) as (v & Ev & Iv & Lv). rewrite Eu, Ev. cbn [bind].
    destruct (IH (fun z Hz => N z (or_intror Hz)) (Rmax mx (scale (fst xy) (snd xy))) (Rmin lo u) (Rmax hi v)) as (sc & a & b & E & S1 & S2 & S3 & A1 & A2 & A3 & B1 & B2 & B3).
    exists sc, a, b. split; [exact E|]. clear E IH Eu Ev.
    pose proof (Rmax_l mx (scale (fst xy) (snd xy))). pose proof (Rmax_r mx (scale (fst xy) (snd xy))). pose proof (Rmin_l lo u). pose proof (Rmin_r lo u). pose proof (Rmax_l hi v). pose proof (Rmax_r hi v).
    split; [destruct S1 as [->|(z & Hz & Ez)]; [unfold Rmax; destruct (Rle_dec _ _); [right; exists xy; split; [left|]; reflexivity|left; reflexivity]|right; exists z; split; [right; exact Hz|exact Ez]]|].
    split; [lra|]. split; [intros z [<-|Hz]; [lra|apply S3, Hz]|].
    split; [destruct A1 as [->|(z & Hz & Ez)]; [unfold Rmin; destruct (Rle_dec _ _); [left; reflexivity|right; exists xy; split; [left; reflexivity|exact Iu]]|right; exists z; split; [right; exact Hz|exact Ez]]|].
    split; [lra|]. split; [intros z x [<-|Hz] Hx; [pose proof (Lu x Hx); lra|apply (A3 z x Hz Hx)]|].
    split; [destruct B1 as [->|(z & Hz & Ez)]; [unfold Rmax; destruct (Rle_dec _ _); [right; exists xy; split; [left; reflexivity|exact Iv]|left; reflexivity]|right; exists z; split; [right; exact Hz|exact Ez]]|].
    split; [lra|]. intros z x [<-|Hz] Hx; [pose proof (Lv x Hx); lra|apply (B3 z x Hz Hx)].
Qed.
Lemma vectors : forall s composite t c w a scale res act titled, calc_stress composite t c w a (s_group_tris s) = Ok res -> In act documented_vectors -> s_nodes s <> [] -> s_groups s <> [] ->
  exists quivers ticks sc lo hi, plot_stress_vector scale s res (plot_name (act, "zxy")) titled = Ok (quivers, ticks) /\ length quivers = length (s_groups s) /\
    (forall k m els, nth_error (s_groups s) k = Some (m, els) -> exists dict v, nth_error (get_stress (length (s_nodes s)) (s_groups s) res) k = Some (mo_name m, dict) /\ nth_error quivers k = Some v /\
       qv_at v = s_nodes s /\ entry (stress_key (act, "zx")) dict = Some (qv_x v) /\ entry (stress_key (act, "zy")) dict = Some (qv_y v) /\ entry (stress_key (act, "zxy")) dict = Some (qv_color v) /\
       qv_scale v = sc /\ scale (qv_x v) (qv_y v) <= sc) /\
    least (map qv_color quivers) lo /\ greatest (map qv_color quivers) hi /\ spaced (lo - / 10 ^ 12) (hi + / 10 ^ 12) ticks /\
    (sc = 0 \/ exists v, In v quivers /\ sc = scale (qv_x v) (qv_y v)).
Proof.
  intros s composite t c w a scale res act titled HC I HN HG. pose proof (calc_length _ _ _ _ _ _ _ HC) as L. destruct (vector_key act I) as (Ek & Kx & Ky & Kz). set (n := length (s_nodes s)) in *.
  assert (C : forall k r, nth_error res k = Some r -> exists ns, r = (ns, combine_node ns)).
  { intros k r Hr. destruct (calc_inv _ _ _ _ _ _ _ HC) as (? & ? & ? & ? & _ & E). rewrite E, nth_error_map in Hr. destruct (nth_error (s_group_tris s) k); [|discriminate Hr]. cbn in Hr. injection Hr as <-. eexists. reflexivity. }
  set (val := fun q (gr : item) => match entry (stress_key q) (stress_dict n (snd gr)) with Some l => l | None => [] end).
  set (pairs := map (fun gr : item => (val (act, "zx") gr, val (act, "zy") gr)) (combine (s_groups s) res)).
  assert (Q : forall gr : item, In gr (combine (s_groups s) res) -> exists x y, val (act, "zx") gr = x /\ val (act, "zy") gr = y /\ entry (stress_key (act, "zx")) (stress_dict n (snd gr)) = Some x /\
     entry (stress_key (act, "zy")) (stress_dict n (snd gr)) = Some y /\ entry (stress_key (act, "zxy")) (stress_dict n (snd gr)) = Some (hypot x y) /\ length x = n /\ length y = n).
  { intros gr Hg. apply In_nth_error in Hg. destruct Hg as [k Hk]. apply nth_combine in Hk. destruct Hk as [_ Hk]. destruct (C k _ Hk) as [ns En]. destruct (magnitudes n ns act I) as (x & y & A & B & D & Lx & Ly). exists x, y. unfold val. rewrite En, A, B. auto 10. }
  assert (E : map_result (fun gr : item => bind (lookup (plot_name (act, "zxy")) vector_dict) (fun a0 => bind (attr_of n (fst a0) (snd gr)) (fun x => bind (attr_of n (snd a0) (snd gr)) (fun y => Ok (x, y))))) (combine (s_groups s) res) = Ok pairs).
  { apply map_result_ok. apply Forall_forall. intros gr Hg. rewrite Ek. cbn [bind fst snd]. unfold attr_of. destruct (documented_key _ Kx) as [_ Jx]. destruct (documented_key _ Ky) as [_ Jy]. rewrite (attr_entry n (snd gr) _ Jx), (attr_entry n (snd gr) _ Jy).
    destruct (Q gr Hg) as (x & y & Vx & Vy & Ex & Ey & _). rewrite Vx, Vy, Ex, Ey. reflexivity. }
  assert (Np : pairs <> []). { unfold pairs. destruct (s_groups s); [contradiction|]. destruct res; [discriminate L|]. discriminate. }
  assert (Nh : forall xy, In xy pairs -> hypot (fst xy) (snd xy) <> []).
  { intros xy Hxy. apply in_map_iff in Hxy. destruct Hxy as (gr & <- & Hg). destruct (Q gr Hg) as (x & y & -> & -> & _ & _ & _ & Lx & Ly). cbn [fst snd]. intros Eh. apply (f_equal (@length R)) in Eh. unfold hypot in Eh. rewrite map_length, combine_length, Lx, Ly in Eh. unfold n in Eh.
    destruct (s_nodes s); [contradiction|]. cbn in Eh. lia. }
  unfold plot_stress_vector. fold n. change (map_result _ (combine (s_groups s) res)) with (map_result (fun gr : item => bind (lookup (plot_name (act, "zxy")) vector_dict) (fun a0 => bind (attr_of n (fst a0) (snd gr)) (fun x => bind (attr_of n (snd a0) (snd gr)) (fun y => Ok (x, y))))) (combine (s_groups s) res)).
  rewrite E. cbn [bind]. rewrite Ek. destruct pairs as [|[x0 y0] rest] eqn:Ep; [contradiction|].
  destruct (min_ok _ (Nh (x0, y0) (or_introl eq_refl))) as (u & Eu & Iu & Lu). destruct (max_ok _ (Nh (x0, y0) (or_introl eq_refl))) as (v & Ev & Iv & Lv). cbn [fst snd] in Eu, Ev, Iu, Iv.
  destruct (vector_fold scale ((x0, y0) :: rest) Nh 0 u v) as (sc & lo & hi & Ef & S1 & S2 & S3 & A1 & A2 & A3 & B1 & B2 & B3).
  replace (bind (if titled then Ok ("", "") else Ok (stress_key (act, "zx"), stress_key (act, "zy")))) with (fun f : string * string -> result (list quiver * list R) => f (if titled then ("", "") else (stress_key (act, "zx"), stress_key (act, "zy")))) by (destruct titled; reflexivity).
  cbv beta. rewrite Eu, Ev. cbn [bind]. rewrite Ef. cbn [bind]. eexists. eexists. exists sc, lo, hi. split; [reflexivity|]. rewrite <- Ep in S1, S3, A1, A3, B1, B3 |- *.
  assert (Hd : forall xy, In xy pairs -> In (hypot (fst xy) (snd xy)) (map qv_color (map (fun xy => mkQuiver (s_nodes s) (fst xy) (snd xy) (hypot (fst xy) (snd xy)) sc) pairs))).
  { intros xy H. rewrite map_map. cbn [qv_color]. exact (in_map (fun xy => hypot (fst xy) (snd xy)) _ _ H). }
  assert (Hi : forall l, In l (map qv_color (map (fun xy => mkQuiver (s_nodes s) (fst xy) (snd xy) (hypot (fst xy) (snd xy)) sc) pairs)) -> exists xy, In xy pairs /\ l = hypot (fst xy) (snd xy)).
  { intros l H. rewrite map_map in H. apply in_map_iff in H. destruct H as (xy & <- & H). exists xy. auto. }
  split; [unfold pairs; rewrite !map_length; etransitivity; [apply combine_length|lia]|]. split; [|split; [|split; [|split; [apply linspace_spaced|]]]].
  - intros k m els G. destruct (nth_error res k) as [r|] eqn:Er; [|apply nth_error_None in Er; assert (k < length (s_groups s))%nat by (apply nth_error_Some; congruence); lia].
    assert (Hg : nth_error (combine (s_groups s) res) k = Some ((m, els), r)) by (apply nth_combine; auto). destruct (Q _ (nth_error_In _ _ Hg)) as (x & y & Vx & Vy & Ex & Ey & Ez & _).
    exists (stress_dict n r), (mkQuiver (s_nodes s) x y (hypot x y) sc). split; [apply (get_stress_at _ _ _ _ _ els); assumption|].
    assert (Hp : nth_error pairs k = Some (x, y)) by (unfold pairs; rewrite (map_nth_error (fun gr : item => (val (act, "zx") gr, val (act, "zy") gr)) k (combine (s_groups s) res) Hg), Vx, Vy; reflexivity).
    split; [rewrite nth_error_map, Hp; reflexivity|]. cbn [qv_at qv_x qv_y qv_color qv_scale]. repeat (split; [first [reflexivity|assumption]|]). apply (S3 (x, y)), (nth_error_In _ _ Hp).
  - split; [|intros l x Hl Hx; apply Hi in Hl; destruct Hl as (xy & Hxy & ->); apply (A3 xy x Hxy Hx)]. destruct A1 as [->|(xy & Hxy & Hx)]; [exists (hypot x0 y0); split; [apply (Hd (x0, y0)); rewrite Ep; left; reflexivity|exact Iu]|exists (hypot (fst xy) (snd xy)); split; [apply Hd, Hxy|exact Hx]].
  - split; [|intros l x Hl Hx; apply Hi in Hl; destruct Hl as (xy & Hxy & ->); apply (B3 xy x Hxy Hx)]. destruct B1 as [->|(xy & Hxy & Hx)]; [exists (hypot x0 y0); split; [apply (Hd (x0, y0)); rewrite Ep; left; reflexivity|exact Iv]|exists (hypot (fst xy) (snd xy)); split; [apply Hd, Hxy|exact Hx]].
  - destruct S1 as [->|(xy & Hxy & ->)]; [left; reflexivity|right]. eexists. split; [apply in_map; exact Hxy|]. reflexivity.
Qed.
