(** Proofs about histories of calls: guards, availability of the getters, values. *)
From Coq Require Import String Reals List Bool Arith Lra Lia.
From Verif Require Import Base M_Fea M_Section M_Stress M_Init M_Bisect M_Plastic M_Solver M_Props M_State S_Init S_State.
From Verif Require Import P_Yield P_Init P_State P_State2 P_State3 P_State4.
From Verif Require Import M_Post.
Import ListNotations.
Local Open Scope R_scope.

(** ** Errors of the stress calls *)
Definition errs {A} (m : M A) : Prop := forall p e, snd (m p) = Err e -> e = RuntimeError.
Lemma e_bind {A B} (m : M A) (f : A -> M B) : errs m -> (forall a, errs (f a)) -> errs (mbind m f).
Proof.
  intros Hm Hf p e. specialize (Hm p). unfold mbind. destruct (m p) as [p' [a|e']]; cbn [fst snd] in *; [apply Hf|intros E; injection E as <-; apply Hm; reflexivity].
Qed.
Lemma e_ret {A} (a : A) : errs (mret a). Proof. intros p e E. discriminate E. Qed.
Lemma e_raise {A} : errs (mraise RuntimeError (A := A)). Proof. intros p e E. injection E as <-. reflexivity. Qed.
Lemma e_get x : errs (mget x). Proof. intros p e E. discriminate E. Qed.
Lemma e_getv x : errs (mgetv x). Proof. intros p e E. discriminate E. Qed.
Lemma e_getter b x e : errs (run_getter b x e). Proof. intros p er. apply getter_err. Qed.
Lemma e_get1 b x : errs (get1 b x). Proof. unfold get1. apply e_bind; [apply e_getter|intros; apply e_ret]. Qed.
Lemma e_get2 b x : errs (get2 b x). Proof. unfold get2. apply e_bind; [apply e_getter|intros; apply e_ret]. Qed.
Lemma e_get3 b x : errs (get3 b x). Proof. unfold get3. apply e_bind; [apply e_getter|intros; apply e_ret]. Qed.
Ltac e_step := match goal with
  | |- errs (mbind _ _) => apply e_bind; [|intro]
  | |- errs (mret _) => apply e_ret
  | |- errs (mraise RuntimeError) => apply e_raise
  | |- errs (mget _) => apply e_get
  | |- errs (mgetv _) => apply e_getv
  | |- errs (get1 _ _) => apply e_get1
  | |- errs (get2 _ _) => apply e_get2
  | |- errs (get3 _ _) => apply e_get3
  | |- errs (let _ := _ in _) => cbv zeta
  | |- errs (match ?x with _ => _ end) => destruct x
  end.
Lemma e_guard : errs guard_geometric. Proof. unfold guard_geometric. repeat e_step. Qed.
Lemma e_gwarp a : errs (guard_warping a). Proof. unfold guard_warping. repeat e_step. Qed.
Lemma e_read b a : errs (read_parameters b a). Proof. unfold read_parameters. repeat e_step. Qed.
Lemma e_stress s a : errs (calculate_stress s a).
Proof. unfold calculate_stress. apply e_bind; [apply e_guard|intro]. apply e_bind; [apply e_gwarp|intro]. apply e_bind; [apply e_read|intros [[[sp om] ps] ph]]. apply e_ret. Qed.
Lemma e_points s q agg a pts : errs (stress_points s q agg a pts).
Proof. unfold stress_points. apply e_bind; [apply e_gwarp|intro]. apply e_bind; [apply e_read|intros [[[sp om] ps] ph]]. apply e_ret. Qed.

(** a call that is neither an analysis nor a change of the geometry leaves the world alone *)
Lemma reads_step l q w c : reads c = true -> fst (step l q w c) = w.
Proof.
  intros H. rewrite step_state. destruct w as [g s p]. cbn [w_geom w_sec w_props].
  destruct c; try discriminate H; cbn [method]; rewrite map_state, writes_nothing; try reflexivity; [apply writes_stress|apply writes_points|apply writes_getter].
Qed.

Lemma reads_err l q w c e : reads c = true -> snd (step l q w c) = Err e -> e = RuntimeError.
Proof.
  intros H. rewrite step_result. destruct c; try discriminate H; cbn [method]; rewrite map_result.
  - pose proof (e_stress (w_sec w) a (w_props w)) as K. destruct (snd _) as [r|e']; cbn [bind]; [discriminate|]. intros E. injection E as <-. apply K. reflexivity.
  - pose proof (e_points (w_sec w) q agg a pts (w_props w)) as K. destruct (snd _) as [r|e']; cbn [bind]; [discriminate|]. intros E. injection E as <-. apply K. reflexivity.
  - pose proof (e_getter (is_composite (s_mats (w_sec w))) x e0 (w_props w)) as K. destruct (snd _) as [r|e']; cbn [bind]; [discriminate|]. intros E. injection E as <-. apply K. reflexivity.
Qed.

Lemma run_filter l q h : forall w, run l q w h = run l q w (filter (fun c => negb (reads c)) h).
Proof.
  induction h as [|c h IH]; intros w; [reflexivity|]. cbn [filter]. destruct (reads c) eqn:E; cbn [negb].
  - rewrite run_cons, (reads_step l q w c E). apply IH.
  - rewrite !run_cons. apply IH.
Qed.

(** ** Requests before the analyses they need *)
Lemma absent l q g s h x : (forall c, In c h -> ~ In x (call_props c)) -> num (w_props (run l q (mkWorld g s no_props) h)) x = None.
Proof. intros H. rewrite run_only; [reflexivity|exact H]. Qed.

Lemma read_none b a p : num p M_Props.p_cx = None -> snd (read_parameters b a p) = Err RuntimeError.
Proof.
  intros E. unfold read_parameters, get2, run_getter. cbn [gate]. cbn [fields need]. unfold mbind, mget. rewrite E. reflexivity.
Qed.
Lemma guard_none p : num p M_Props.p_cx = None -> guard_geometric p = (p, Err RuntimeError).
Proof. intros E. unfold guard_geometric, mbind, mget. rewrite E. destruct (num p M_Props.p_area); [destruct (num p M_Props.p_ixx_c)|]; reflexivity. Qed.

Lemma ok_or_runtime {A} (m : M A) p : errs m -> (forall a, snd (m p) <> Ok a) -> snd (m p) = Err RuntimeError.
Proof. intros He Hn. destruct (snd (m p)) as [a|e] eqn:E; [destruct (Hn a); reflexivity|]. rewrite (He p e E). reflexivity. Qed.

Lemma shear_none b a p : needs_warping a = true -> num p M_Props.p_delta_s = None -> snd (read_parameters b a p) = Err RuntimeError.
Proof.
  intros Hn E. apply ok_or_runtime; [apply e_read|]. intros r. unfold read_parameters.
  assert (W1 : forall x, writes [] [] (get1 b x)) by (intros; unfold get1; apply writes_bind; [apply writes_getter|intros; apply writes_ret]).
  assert (W2 : forall x, writes [] [] (get2 b x)) by (intros; unfold get2; apply writes_bind; [apply writes_getter|intros; apply writes_ret]).
  assert (W3 : forall x, writes [] [] (get3 b x)) by (intros; unfold get3; apply writes_bind; [apply writes_getter|intros; apply writes_ret]).
  assert (B : forall A B (m : M A) (f : A -> M B) (r : B), writes [] [] m -> (forall x, snd (f x p) <> Ok r) -> snd (mbind m f p) <> Ok r).
  { intros A B m f r0 W H. unfold mbind. pose proof (writes_nothing m p W) as E1. destruct (m p) as [p' [x|e]]; cbn [fst snd] in *; subst; [apply H|discriminate]. }
  apply B; [apply W2|intros [cx cy]]. apply B; [apply W1|intros ph]. apply B; [apply W1|intros ea]. apply B; [apply W3|intros [[x y] z]]. apply B; [apply W2|intros [i1 i2]].
  rewrite Hn. apply B; [apply W1|intros j]. apply B; [destruct b; [apply W1|apply writes_ret]|intros nu].
  unfold mbind, mget, mgetv. rewrite E. discriminate.
Qed.

(** ** Arrays after a successful warping analysis *)
Definition trv {A} (L : list arr) (m : M A) (L' : list arr) : Prop :=
  forall p a, (forall x, In x L -> hasv p x) -> snd (m p) = Ok a -> forall x, In x L' -> hasv (fst (m p)) x.
Lemma trv_bind {A B} L L1 L2 (m : M A) (f : A -> M B) : trv L m L1 -> (forall a, trv L1 (f a) L2) -> trv L (mbind m f) L2.
Proof.
  intros Hm Hf p b Hp. unfold mbind. specialize (Hm p). destruct (m p) as [p' [a|e]]; cbn [fst snd] in *; [|discriminate].
  intros Hb. apply (Hf a p' b); [|exact Hb]. apply (Hm a); [exact Hp|reflexivity].
Qed.
Lemma trv_keep {A} L L1 L2 (m : M A) : writes L1 L2 m -> trv L m L.
Proof. intros H p a Hp _ q Hq. apply (writes_monov _ _ _ _ _ H), Hp, Hq. Qed.
Lemma trv_tell L l : trv L (mtell l) (vecprops l ++ L).
Proof.
  intros p a Hp _ x Hx. cbn [mtell fst]. unfold hasv. rewrite vec_writes. destruct (last_vec l x) eqn:E; [discriminate|].
  apply in_app_or in Hx. destruct Hx as [Hx|Hx]; [|apply Hp, Hx]. exfalso. revert E. clear Hp.
  induction l as [|w l IH]; [destruct Hx|]. destruct w as [y v|b u]; cbn [vecprops map concat app last_vec] in *.
  - apply IH, Hx.
  - destruct (last_vec l x); [discriminate|]. destruct (arr_eq_dec x b) as [->|N]; [discriminate|]. destruct Hx as [->|Hx]; [contradiction N; reflexivity|]. intros _. apply IH; [exact Hx|reflexivity].
Qed.
Lemma trv_incl {A} L (m : M A) L1 L2 : trv L m L1 -> incl L2 L1 -> trv L m L2.
Proof. intros H I p a Hp Ha x Hx. apply (H p a Hp Ha). apply I, Hx. Qed.
Lemma trv_raise {A} L e L' : trv (A := A) L (mraise e) L'.
Proof. intros p a _ H. discriminate H. Qed.
Ltac trv_step := match goal with
  | |- trv _ (mbind (mtell _) _) _ => eapply trv_bind; [apply trv_tell|intro]
  | |- trv _ (mbind _ _) _ => eapply trv_bind; [apply (trv_keep _ [] []); repeat wr_step|intro]
  | |- trv _ (let _ := _ in _) _ => cbv zeta
  | |- trv _ (match ?x with _ => _ end) _ => destruct x
  | |- trv _ (mraise _) _ => apply trv_raise
  | |- trv _ (mtell _) _ => eapply trv_incl; [apply trv_tell|]
  end.
Lemma trv_warping l g s st : trv [] (calculate_warping l g s st) [a_omega; a_psi_shear; a_phi_shear].
Proof.
  unfold calculate_warping. eapply trv_bind; [apply (trv_keep _ [] []), writes_guard|intro]. repeat trv_step.
  unfold vecprops. cbn [map concat app]. intros ? ?. cbn [In] in *. tauto.
Qed.

Section History.
Variables (l : libs) (q : R * R -> list nat) (g : geometry) (s : section_obj) (st : string).
Hypothesis Hb : built g s.

Lemma warped_run h : Forall (uses st) h -> let w0 := mkWorld g s no_props in succeeded l q w0 h (CWarping st) ->
  exists v, the_warping l s st = Ok v /\ warped v (w_props (run l q w0 h)).
Proof.
  intros U w0 [w' [[h1 [h2 [-> ->]]] S]]. rewrite run_app, run_cons.
  pose proof (ok_run l q g s st Hb _ w0 U (ok_new l g s st)) as OK. rewrite run_app, run_cons in OK.
  set (w1 := run l q w0 h1) in *. destruct (snd (step l q w1 (CWarping st))) as [v|e] eqn:ES; [clear S; rename ES into S|destruct S].
  assert (D : has (w_props (fst (step l q w1 (CWarping st)))) M_Props.p_delta_s /\ has (w_props (fst (step l q w1 (CWarping st)))) M_Props.p_j /\
    forall x, hasv (w_props (fst (step l q w1 (CWarping st)))) x).
  { rewrite step_result in S. rewrite step_state. cbn [method] in *. rewrite map_result in S. cbn [w_props]. rewrite map_state.
    destruct (snd (calculate_warping l (w_geom w1) (w_sec w1) st (w_props w1))) as [u|e] eqn:E; [|discriminate S].
    repeat split.
    - apply (tr_warping _ _ _ _ _ u); [intros y []|exact E|]. apply in_or_app. left. unfold warping_props. cbn [In]. tauto.
    - apply (tr_warping _ _ _ _ _ u); [intros y []|exact E|]. apply in_or_app. left. unfold warping_props. cbn [In]. tauto.
    - intros x. apply (trv_warping _ _ _ _ _ u); [intros y []|exact E|]. destruct x; cbn [In]; tauto. }
  destruct D as [D [J V]]. set (w2 := fst (step l q w1 (CWarping st))) in *.
  pose proof (run_mono l q h2 w2 _ D) as D'. pose proof (run_mono l q h2 w2 _ J) as J'.
  assert (V' : forall x, hasv (w_props (run l q w2 h2)) x) by (intros x; apply run_monov, V).
  destruct (okw_inv _ _ _ _ _ OK) as [I1 [I2 I3]]. set (p := w_props (run l q w2 h2)) in *.
  unfold has in D', J'. destruct (num p M_Props.p_delta_s) as [d|] eqn:Ed; [|contradiction]. destruct (num p M_Props.p_j) as [j|] eqn:Ej; [|contradiction].
  pose proof (I1 _ _ Ed ltac:(discriminate)) as Pd. cbn [property_value] in Pd. unfold of_warping in Pd.
  destruct (the_warping l s st) as [w|e] eqn:Ew; [|discriminate Pd]. exists w. split; [reflexivity|].
  pose proof (warping_torsion l s st w Ew) as ET.
  assert (AV : forall x, exists u, vec p x = Some u /\ array_value l s st x = Some u).
  { intros x. specialize (V' x). unfold hasv in V'. destruct (vec p x) as [u|] eqn:E; [|contradiction]. exists u. split; [reflexivity|apply I3, E]. }
  repeat split.
  - rewrite Ej. destruct (I2 j eq_refl) as [E|[E _]]; cbn [property_value] in E; rewrite ET in E; [symmetry; exact E|discriminate E].
  - rewrite Ed. symmetry. exact Pd.
  - destruct (AV a_omega) as [u [E1 E2]]. cbn [array_value] in E2. rewrite ET in E2. rewrite E1, <- E2. reflexivity.
  - destruct (AV a_psi_shear) as [u [E1 E2]]. cbn [array_value] in E2. rewrite Ew in E2. rewrite E1, <- E2. reflexivity.
  - destruct (AV a_phi_shear) as [u [E1 E2]]. cbn [array_value] in E2. rewrite Ew in E2. rewrite E1, <- E2. reflexivity.
Qed.

(** ** Getters *)
Lemma tr_plastic g' s' p : snd (calculate_plastic l g' s' p) = Ok tt ->
  has p M_Props.p_cx /\ forall x, In x [p_x_pc; p_y_pc; p_x11_pc; p_y22_pc; p_sxx; p_syy; p_s11; p_s22] -> has (fst (calculate_plastic l g' s' p)) x.
Proof.
  unfold calculate_plastic, mbind, mget. destruct (num p M_Props.p_cx) as [cx|] eqn:Ecx; [|discriminate]. unfold mrun. cbn [fst snd].
  intros E. split; [unfold has; rewrite Ecx; discriminate|]. intros x Hx.
  destruct (num p M_Props.p_phi) as [phi|] eqn:Ep.
  2:{ destruct (plastic_no_phi (l_brentq l) (g_plastic g') (num p) (negb (is_composite (s_mats s'))) Ep) as [v [k [_ E']]]. rewrite E' in E. discriminate E. }
  destruct (plastic_course (l_brentq l) (g_plastic g') phi) as [k [pvs HC]].
  destruct (HC (num p) (negb (is_composite (s_mats s'))) Ep) as [[K1 E1]|[K1 E1]]; rewrite E1 in E |- *; [|discriminate E]. cbn [fst].
  unfold has. rewrite num_writes. destruct (last_write _ x) eqn:EL; [discriminate|]. exfalso. revert EL. rewrite last_write_app, sf_none; [|cbn [In] in *; tauto].
  apply last_write_some. unfold pv_writes, numprops. cbn [map concat app]. cbn [In] in *. tauto.
Qed.

Lemma returns_iff w x e v : returns l q w x e v <->
  allowed (is_composite (s_mats (w_sec w))) x /\ exists u, all_values (num (w_props w)) (fields x) = Some u /\ v = finish x e u.
Proof.
  unfold returns. rewrite step_result. cbn [method]. rewrite map_result. rewrite <- (getter_returns _ x e (w_props w) v).
  destruct (snd (run_getter _ x e (w_props w))) as [r|er]; cbn [bind]; split; intros E; try discriminate E; injection E as <-; reflexivity.
Qed.

Lemma provided_has g0 s0 h a c x : no_mod s0 -> s_nodes s0 <> [] -> let w0 := mkWorld g0 s0 no_props in
  In a (provided_by x) -> shape_factor_getter x = false -> is_analysis a c -> succeeded l q w0 h c ->
  forall f, In f (fields x) -> has (w_props (run l q w0 h)) f.
Proof.
  intros Hu Hn w0 Ha Hsf Hc [w' [[h1 [h2 [-> ->]]] S]] f Hf. rewrite run_app, run_cons. set (w1 := run l q w0 h1) in *.
  assert (Es : w_sec w1 = s0) by (unfold w1; rewrite run_sec; reflexivity).
  assert (Cl : closed (w_props w1)) by (unfold w1; apply closed_run; [exact Hu|exact Hn|intros H; contradiction H; reflexivity]).
  assert (Cl2 : closed (w_props (fst (step l q w1 c)))).
  { rewrite step_state. cbn [w_props]. apply closed_method; [rewrite Es; exact Hu|rewrite Es; exact Hn|exact Cl]. }
  apply run_mono. destruct (snd (step l q w1 c)) as [v|e] eqn:ES; [clear S|destruct S].
  rewrite step_result in ES. revert Cl2. rewrite step_state. cbn [w_props].
  destruct a, c; try (destruct Hc; fail); cbn [method] in *; rewrite map_result in ES; rewrite map_state; intros Cl2.
  - destruct (snd (calculate_geometric _ _ _)) as [u|e] eqn:E; [|discriminate ES]. apply (tr_geometric _ _ _ u); [intros y []|exact E|].
    destruct x; cbn [provided_by In] in Ha; repeat (destruct Ha as [Ha|Ha]; [try discriminate Ha|]); try destruct Ha; revert Hf; unfold geometric_props; cbn [fields In]; tauto.
  - destruct (snd (calculate_warping _ _ _ _ _)) as [u|e] eqn:E; [|discriminate ES]. apply (tr_warping _ _ _ _ _ u); [intros y []|exact E|].
    destruct x; cbn [provided_by In] in Ha; repeat (destruct Ha as [Ha|Ha]; [try discriminate Ha|]); try destruct Ha; revert Hf; unfold warping_props; cbn [fields In app]; tauto.
  - destruct (snd (calculate_frame _ _ _ _ _)) as [u|e] eqn:E; [|discriminate ES]. apply (tr_frame _ _ _ _ _ u); [intros y []|exact E|].
    destruct x; cbn [provided_by In] in Ha; repeat (destruct Ha as [Ha|Ha]; [try discriminate Ha|]); try destruct Ha; revert Hf; unfold frame_props; cbn [fields In]; tauto.
  - destruct (snd (calculate_plastic _ _ _ _)) as [[]|e] eqn:E; [|discriminate ES]. destruct (tr_plastic _ _ _ E) as [Hcx H8].
    pose proof (writes_mono _ _ _ _ _ (writes_plastic l (w_geom w1) (w_sec w1)) Hcx) as Hcx2.
    destruct x; try discriminate Hsf; cbn [provided_by In] in Ha; repeat (destruct Ha as [Ha|Ha]; [try discriminate Ha|]); try destruct Ha;
      cbn [fields In] in Hf; repeat (destruct Hf as [<-|Hf]; [first [apply H8; cbn [In]; tauto | apply (Cl2 Hcx2); unfold basic_props; cbn [In]; tauto]|]); destruct Hf.
Qed.

Lemma returns_called g0 s0 h x e v : let w0 := mkWorld g0 s0 no_props in
  returns l q (run l q w0 h) x e v -> exists a c, In a (provided_by x) /\ In c h /\ is_analysis a c.
Proof.
  intros w0 H. apply returns_iff in H. destruct H as [_ [u [Hu _]]].
  set (f := nth 0 (fields x) M_Props.p_area).
  assert (Hf : has (w_props (run l q w0 h)) f).
  { apply (proj1 (fields_has _ (fields x)) (ex_intro _ u Hu)). unfold f. destruct x; cbn [fields nth In]; left; reflexivity. }
  destruct (Exists_dec (fun c => In f (call_props c)) h (fun c => in_dec prop_eq_dec f (call_props c))) as [E|E].
  - apply Exists_exists in E. destruct E as [c [Hc Hi]].
    assert (K : exists a, In a (provided_by x) /\ is_analysis a c).
    { unfold f in Hi. destruct c; cbn [call_props In] in Hi; try (destruct Hi; fail);
      destruct x; cbn [fields nth] in Hi;
      first [ exfalso; revert Hi; notin
            | exists Geometric; split; [cbn [provided_by In]; tauto|exact I]
            | exists Warping; split; [cbn [provided_by In]; tauto|exact I]
            | exists Frame; split; [cbn [provided_by In]; tauto|exact I]
            | exists Plastic; split; [cbn [provided_by In]; tauto|exact I] ]. }
    destruct K as [a [K1 K2]]. exists a, c. tauto.
  - exfalso. apply Hf. unfold w0. apply absent. intros c Hc Hi. apply E. apply Exists_exists. exists c. split; assumption.
Qed.

(** values *)
Lemma returns_value h x e v : Forall (uses st) h -> let w0 := mkWorld g s no_props in
  returns l q (run l q w0 h) x e v -> getter_value l g s st x e = Some v \/
    ((x = get_j \/ x = get_ej) /\ (exists er, the_torsion l s st = Err er) /\ v = finish x e [0]).
Proof.
  intros U w0 H. apply returns_iff in H. destruct H as [_ [u [Hv ->]]].
  pose proof (okw_inv _ _ _ _ _ (ok_run l q g s st Hb _ w0 U (ok_new l g s st))) as Hi. set (p := w_props (run l q w0 h)) in *.
  destruct (in_dec prop_eq_dec M_Props.p_j (fields x)) as [Hj|Hj].
  - assert (X : (x = get_j \/ x = get_ej) /\ fields x = [M_Props.p_j]).
    { destruct x; try (exfalso; revert Hj; cbn [fields]; let K := fresh in intros K; cbn [In] in K; repeat (destruct K as [K|K]; [discriminate K|]); exact K); split; try reflexivity; tauto. }
    destruct X as [X F]. rewrite F in Hv. cbn [all_values] in Hv. destruct (num p M_Props.p_j) as [j|] eqn:Ej; [|discriminate Hv]. injection Hv as <-.
    destruct Hi as [_ [I2 _]]. destruct (I2 j Ej) as [E|[E ->]].
    + left. unfold getter_value. rewrite F. cbn [all_values]. rewrite E. reflexivity.
    + right. split; [exact X|split; [|reflexivity]]. cbn [property_value] in E. destruct (the_torsion l s st) as [[om j']|er]; [discriminate E|exists er; reflexivity].
  - left. unfold getter_value. rewrite (inv_values l g s st p (fields x) u Hi Hj Hv). reflexivity.
Qed.
End History.

(** ** Shape factors *)
Definition sf_props : list prop := [p_sf_xx_plus; p_sf_xx_minus; p_sf_yy_plus; p_sf_yy_minus; p_sf_11_plus; p_sf_11_minus; p_sf_22_plus; p_sf_22_minus].
Definition sf_needs : list prop := [M_Props.p_zxx_plus; M_Props.p_z11_plus; M_Props.p_my_xx; M_Props.p_my_11].

Lemma sf_absent l g s p x : (forall y, In y sf_needs -> num p y = None) -> In x sf_props -> num (fst (calculate_plastic l g s p)) x = num p x.
Proof.
  intros Hn Hx. unfold calculate_plastic, mbind, mget. destruct (num p M_Props.p_cx); [|reflexivity]. unfold mrun. cbn [fst]. rewrite num_writes.
  set (W := plastic_analysis _ _ _ _). assert (E : last_write (fst W) x = None); [|rewrite E; reflexivity].
  assert (Hx' : ~ In x [p_y_pc; p_sxx; p_x_pc; p_syy; p_y22_pc; p_s11; p_x11_pc; p_s22]).
  { unfold sf_props in Hx. cbn [In] in Hx. repeat (destruct Hx as [<-|Hx]; [notin|]). destruct Hx. }
  unfold W. clear W. destruct (num p M_Props.p_phi) as [phi|] eqn:Ep.
  - destruct (plastic_course (l_brentq l) (g_plastic g) phi) as [k [pvs HC]].
    destruct (HC (num p) (negb (is_composite (s_mats s))) Ep) as [[K1 E1]|[K1 E1]]; rewrite E1; cbn [fst]; [|apply pv_writes_none, Hx'].
    rewrite last_write_app. assert (S : forall d a b c e, shape_factors (num p) d a b c e = []).
    { intros d a b c e. unfold shape_factors. rewrite !(Hn M_Props.p_zxx_plus), !(Hn M_Props.p_z11_plus), !(Hn M_Props.p_my_xx), !(Hn M_Props.p_my_11) by (unfold sf_needs; cbn [In]; tauto).
      destruct d; reflexivity. }
    rewrite S. cbn [last_write]. rewrite <- (firstn_all (pv_writes pvs)). apply pv_writes_none, Hx'.
  - destruct (plastic_no_phi (l_brentq l) (g_plastic g) (num p) (negb (is_composite (s_mats s))) Ep) as [v [k [_ E']]]. rewrite E'. cbn [fst]. apply pv_writes_none, Hx'.
Qed.

Lemma sf_before l q g s h1 h2 x : let w0 := mkWorld g s no_props in ~ In CGeometric h1 -> ~ In CPlastic h2 ->
  In x sf_props -> num (w_props (run l q w0 (h1 ++ h2))) x = None.
Proof.
  intros w0 H1 H2 Hx. rewrite run_app. rewrite run_only.
  2:{ intros c Hc. destruct c; try (unfold sf_props in Hx; cbn [In] in Hx; repeat (destruct Hx as [<-|Hx]; [notin|]); exfalso; exact Hx). contradiction. }
  induction h1 as [|c h1 IH] using rev_ind; [reflexivity|].
  assert (H1' : ~ In CGeometric h1) by (intros K; apply H1; apply in_or_app; left; exact K).
  specialize (IH H1'). rewrite run_app, run_cons. cbn [run fold_left]. rewrite step_state. cbn [w_props].
  set (w1 := run l q w0 h1) in *. rewrite <- IH.
  assert (D : c = CPlastic \/ ~ In x (call_props c)).
  { destruct c; try (left; reflexivity); right; unfold sf_props in Hx; cbn [In] in Hx; repeat (destruct Hx as [<-|Hx]; [notin|]); destruct Hx. }
  destruct D as [-> |D]; [|apply (writes_only _ _ _ _ _ (writes_method l q (w_geom w1) (w_sec w1) c)), D].
  cbn [method]. rewrite map_state. apply sf_absent; [|exact Hx]. intros y Hy. unfold w1. apply (absent l q g s). intros c Hc.
  destruct c; try (unfold sf_needs in Hy; cbn [In] in Hy; repeat (destruct Hy as [<-|Hy]; [notin|]); exfalso; exact Hy). contradiction.
Qed.

Lemma truthy_nz v : v <> 0 -> truthy (Some v) = true.
Proof. intros H. unfold truthy. destruct (Req_EM_T v 0); [contradiction|reflexivity]. Qed.

Lemma sf_present get d pr a b c e : (forall x, In x (sf_divisors (negb d) pr) -> exists v, get x = Some v /\ v <> 0) ->
  incl (fields (if pr then get_sf_p else get_sf)) (numprops (shape_factors get d a b c e)).
Proof.
  intros H x Hx.
  assert (T : forall y, In y (sf_divisors (negb d) pr) -> truthy (get y) = true).
  { intros y Hy. destruct (H y Hy) as [v [-> Hv]]. apply truthy_nz, Hv. }
  unfold shape_factors. destruct d; rewrite numprops_app; apply in_or_app; destruct pr; cbn [negb sf_divisors] in T.
  - right. rewrite !T by (cbn [In]; tauto). cbn [andb]. exact Hx.
  - left. rewrite !T by (cbn [In]; tauto). cbn [andb]. exact Hx.
  - right. rewrite !T by (cbn [In]; tauto). cbn [andb]. exact Hx.
  - left. rewrite !T by (cbn [In]; tauto). cbn [andb]. exact Hx.
Qed.

Lemma sf_after l q g s st h1 h2 pr : built g s -> let w0 := mkWorld g s no_props in Forall (uses st) (h1 ++ CPlastic :: h2) ->
  In CGeometric h1 -> is_ok (snd (the_plastic l g s)) ->
  (forall x, In x (sf_divisors (is_composite (s_mats s)) pr) -> exists v, geometric_value g s x = Some v /\ v <> 0) ->
  forall f, In f (fields (if pr then get_sf_p else get_sf)) -> has (w_props (run l q w0 (h1 ++ CPlastic :: h2))) f.
Proof.
  intros Hb w0 U Hg Hok Hd f Hf. rewrite run_app, run_cons. apply run_mono. rewrite step_state. cbn [w_props method]. rewrite map_state.
  apply Forall_app in U. destruct U as [U1 U2].
  pose proof (ok_run l q g s st Hb h1 w0 U1 (ok_new l g s st)) as OK. pose proof (geo_run l q g s st Hb h1 w0 U1 (ok_new l g s st) Hg) as G.
  set (w1 := run l q w0 h1) in *. rewrite (okw_geom _ _ _ _ _ OK), (okw_sec _ _ _ _ _ OK).
  pose proof (plastic_eval l q g s (w_props w1) G) as EP. 
  unfold calculate_plastic, mbind, mget in *. rewrite (geo_num g s (w_props w1) M_Props.p_cx (p_cx (the_centroidal s)) G ltac:(unfold geometric_props; cbn [In]; tauto) eq_refl) in *.
  unfold mrun in *. cbn [fst snd] in *. rewrite <- EP in Hok.
  assert (Ephi : num (w_props w1) M_Props.p_phi = Some (p_phi (the_centroidal s))) by (apply (geo_num g s _ _ _ G); [unfold geometric_props; cbn [In]; tauto|reflexivity]).
  destruct (plastic_course (l_brentq l) (g_plastic g) (p_phi (the_centroidal s))) as [k [pvs HC]].
  destruct (HC (num (w_props w1)) (negb (is_composite (s_mats s))) Ephi) as [[K1 E1]|[K1 E1]]; rewrite E1 in Hok |- *; [|destruct Hok]. cbn [fst].
  unfold has. rewrite num_writes, last_write_app. set (sf := shape_factors _ _ _ _ _ _). destruct (last_write sf f) eqn:E; [discriminate|].
  exfalso. revert E. apply last_write_some. unfold sf. apply (sf_present (num (w_props w1)) (negb (is_composite (s_mats s))) pr); [|exact Hf].
  rewrite negb_involutive. intros x Hx. destruct (Hd x Hx) as [v [Ev Hv]]. exists v. split; [|exact Hv]. apply (geo_num g s _ _ _ G); [|exact Ev].
  destruct (is_composite (s_mats s)), pr; unfold geometric_props; cbn [sf_divisors In] in *; tauto.
Qed.

(** ** The geometry was meshed again *)
Lemma remesh_warping l g s st g2 s2 p : built g s -> section_init (g_mesh g2) (g_mats g2) = Ok s2 -> length (s_nodes s2) <> length (s_nodes s) -> geo g s p ->
  exists e, snd (calculate_warping l g2 s st p) = Err e.
Proof.
  intros Hb H2 Hn G. unfold calculate_warping.
  assert (B : forall A (m : M A) (f : A -> M unit) v, ev g s m (Ok v) -> (forall p', geo g s p' -> exists e, snd (f v p') = Err e) -> forall p', geo g s p' -> exists e, snd (mbind m f p') = Err e).
  { intros A m f v E F p' G'. destruct (E p' G') as [G2 E2]. unfold mbind. destruct (m p') as [p2 r]. cbn [fst snd] in *. subst r. apply F, G2. }
  revert p G. eapply B; [apply (ev_guard (fun _ => []))|]. cbv beta. rewrite H2. eapply B; [apply ev_lift|]. eapply B; [apply (ev_c (fun _ => []))|]. cbv beta iota zeta.
  destruct (assemble_torsion _ _) as [K f]. destruct (choose_solver l st _ _ K f) as [om|e]; [|intros p _; exists e; reflexivity].
  eapply B; [apply ev_lift|]. eapply B; [apply ev_tell; intros x Hx []|]. eapply B; [apply (ev_ic (fun _ => []))|].
  eapply B.
  { apply ev_tell. intros x Hx [<-|[]]. revert Hx. notin. }
  eapply B; [apply (ev_nu (fun _ => []))|]. rewrite (proj2 (Nat.eqb_neq _ _) (not_eq_sym Hn)). intros p _. exists ValueError. reflexivity.
Qed.

Lemma remesh_frame l s st g2 s2 p : no_mod s -> section_init (g_mesh g2) (g_mats g2) = Ok s2 ->
  snd (calculate_frame l g2 s st p) =
  bind (torsion_on l s s2 st) (fun r => Ok (mkFrame (t_area (the_totals s)) (p_ixx_c (the_centroidal s)) (p_iyy_c (the_centroidal s)) (p_ixy_c (the_centroidal s)) (snd r) (p_phi (the_centroidal s)))).
Proof.
  intros Hu H2. set (c := the_centroidal s). set (t := the_totals s). rewrite (frame_split l g2 s st p Hu). unfold frame_tail. rewrite H2, lift_ok. cbv zeta.
  set (comp := is_composite (s_mats s)). set (p1 := apply_writes p (frame_head s)).
  rewrite (bind_ok _ _ p1 p1 (p_cx c, p_cy c)); [|].
  2:{ apply get2_ok; [exact I| | |reflexivity]; cbn [fields nth]; unfold p1, frame_head; lookup; reflexivity. }
  cbv beta iota. unfold torsion_on. cbv zeta. fold c. destruct (assemble_torsion _ _) as [K f].
  destruct (choose_solver l st _ _ K f) as [om|e]; [|reflexivity]. rewrite lift_ok. cbn [bind]. rewrite tell_bind. cbv beta.
  set (p4 := apply_writes p1 [WVec a_omega om]).
  rewrite (bind_ok _ _ p4 p4 (p_ixx_c c, p_iyy_c c, p_ixy_c c)); [|].
  2:{ destruct comp eqn:Ec; apply get3_ok; try reflexivity; cbn [fields nth]; unfold p4, p1, frame_head; lookup; reflexivity. }
  cbv beta iota. rewrite tell_bind. cbv beta. unfold p4.
  rewrite <- apply_writes_app. cbn [app]. set (j := _ - _). set (p5 := apply_writes p1 _).
  rewrite (bind_ok _ _ p5 p5 [t_area t; p_ixx_c c; p_iyy_c c; p_ixy_c c; j; p_phi c]); [reflexivity|].
  apply need_ok. cbn [all_values]. unfold p5, p1, frame_head; lookup. reflexivity.
Qed.
