(** Proofs about histories of calls: the invariants along a history, what the analyses return, availability. *)
From Coq Require Import String Reals List Bool Arith Lra Lia.
From Verif Require Import Base M_Fea M_Section M_Stress M_Init M_Bisect M_Plastic M_Solver M_Props M_State S_Init S_State.
From Verif Require Import P_Yield P_Init P_State P_State2 P_State3.
From Verif Require Import M_Post.
Import ListNotations.
Local Open Scope R_scope.

Lemma build_mat verts mats attrs rows : forall i e, In e (build_from verts mats attrs i rows) ->
  exists k, e_mat e = nth k mats default_material /\ el_mat (e_tri e) = mo_val (e_mat e).
Proof.
  induction rows as [|r rows IH]; intros i e He; cbn [build_from] in He; [destruct He|]. destruct He as [<-|He]; [|apply (IH (S i) e He)].
  eexists. split; reflexivity.
Qed.

Lemma not_composite mats : is_composite mats = false <-> mats <> [] /\ forall m, In m mats -> same_fields m default_material.
Proof.
  unfold is_composite. rewrite negb_false_iff. destruct mats as [|m mats]; [split; [discriminate|intros [H _]; contradiction H; reflexivity]|].
  rewrite forallb_forall. split.
  - intros H. split; [discriminate|]. intros x Hx. apply mat_eqb_spec, H, Hx.
  - intros [_ H] x Hx. apply mat_eqb_spec, H, Hx.
Qed.

Lemma built_no_mod mesh mats s : section_init mesh mats = Ok s -> no_mod s.
Proof.
  intros H C el Hel. destruct (init_ok _ _ _ H) as [m [_ [_ [_ [Em [_ [Els _]]]]]]]. rewrite Em in C.
  unfold s_tris in Hel. apply in_map_iff in Hel. destruct Hel as [e [<- He]]. rewrite Els in He.
  destruct (build_mat _ _ _ _ _ _ He) as [k [E1 E2]]. rewrite E2, E1.
  destruct (nth_in_or_default k mats default_material) as [Hin|E]; [|rewrite E; reflexivity].
  apply not_composite in C. destruct C as [_ C]. destruct (C _ Hin) as [_ [E _]]. rewrite E. reflexivity.
Qed.

(** ** Effects of single calls *)
Lemma map_state {A B} (f : A -> B) (m : M A) p : fst (mmap f m p) = fst (m p).
Proof. unfold mmap, mbind. destruct (m p) as [p' [a|e]]; reflexivity. Qed.
Lemma map_result {A B} (f : A -> B) (m : M A) p : snd (mmap f m p) = bind (snd (m p)) (fun a => Ok (f a)).
Proof. unfold mmap, mbind. destruct (m p) as [p' [a|e]]; reflexivity. Qed.

Lemma step_state l q w c : fst (step l q w c) =
  mkWorld (match c with CGeometry g => g | _ => w_geom w end) (w_sec w) (fst (method l q (w_geom w) (w_sec w) c (w_props w))).
Proof. unfold step. destruct (method _ _ _ _ _ _). reflexivity. Qed.
Lemma step_result l q w c : snd (step l q w c) = snd (method l q (w_geom w) (w_sec w) c (w_props w)).
Proof. unfold step. destruct (method _ _ _ _ _ _). reflexivity. Qed.

Lemma run_app l q w a b : run l q w (a ++ b) = run l q (run l q w a) b.
Proof. apply fold_left_app. Qed.
Lemma run_cons l q w c h : run l q w (c :: h) = run l q (fst (step l q w c)) h.
Proof. reflexivity. Qed.
Lemma run_sec l q h : forall w, w_sec (run l q w h) = w_sec w.
Proof. induction h as [|c h IH]; intros w; [reflexivity|]. rewrite run_cons, IH, step_state. reflexivity. Qed.
Lemma run_mono l q h : forall w x, has (w_props w) x -> has (w_props (run l q w h)) x.
Proof.
  induction h as [|c h IH]; intros w x Hx; [exact Hx|]. rewrite run_cons. apply IH. rewrite step_state. cbn [w_props].
  apply (writes_mono _ _ _ _ _ (writes_method l q (w_geom w) (w_sec w) c)), Hx.
Qed.
Lemma run_monov l q h : forall w x, hasv (w_props w) x -> hasv (w_props (run l q w h)) x.
Proof.
  induction h as [|c h IH]; intros w x Hx; [exact Hx|]. rewrite run_cons. apply IH. rewrite step_state. cbn [w_props].
  apply (writes_monov _ _ _ _ _ (writes_method l q (w_geom w) (w_sec w) c)), Hx.
Qed.
(** a property is only there if a call that stores it was made *)
Lemma run_only l q h : forall w x, (forall c, In c h -> ~ In x (call_props c)) -> num (w_props (run l q w h)) x = num (w_props w) x.
Proof.
  induction h as [|c h IH]; intros w x Hx; [reflexivity|]. rewrite run_cons, IH; [|intros d Hd; apply Hx; right; exact Hd].
  rewrite step_state. cbn [w_props]. apply (writes_only _ _ _ _ _ (writes_method l q (w_geom w) (w_sec w) c)). apply Hx. left. reflexivity.
Qed.
Lemma run_onlyv l q h : forall w x, (forall c, In c h -> ~ In x (call_arrs c)) -> vec (w_props (run l q w h)) x = vec (w_props w) x.
Proof.
  induction h as [|c h IH]; intros w x Hx; [reflexivity|]. rewrite run_cons, IH; [|intros d Hd; apply Hx; right; exact Hd].
  rewrite step_state. cbn [w_props]. apply (writes_onlyv _ _ _ _ _ (writes_method l q (w_geom w) (w_sec w) c)). apply Hx. left. reflexivity.
Qed.

(** ** The attributes of the geometric or frame analysis come together *)
Lemma geometric_succeeds g s p : s_nodes s <> [] -> snd (calculate_geometric g s p) = Ok tt.
Proof.
  intros Hn. unfold calculate_geometric. cbv zeta. rewrite !tell_bind. cbv beta. unfold moduli_of.
  destruct (s_nodes s); [contradiction Hn; reflexivity|]. rewrite lift_ok. cbv beta. rewrite tell_bind. reflexivity.
Qed.

Lemma basic_geometric : incl basic_props geometric_props.
Proof. unfold basic_props, geometric_props. intros x Hx. cbn [In] in *. tauto. Qed.
Lemma basic_frame : incl basic_props frame_props.
Proof. unfold basic_props, frame_props. intros x Hx. cbn [In] in *. tauto. Qed.

Ltac notin := let H := fresh in intros H; cbn [call_props call_arrs In] in H; unfold geometric_props, warping_props, frame_props, plastic_props in H; cbn [In] in H;
  repeat (destruct H as [H|H]; [discriminate H|]); exact H.

Lemma closed_method l q g s c p : no_mod s -> s_nodes s <> [] -> closed p -> closed (fst (method l q g s c p)).
Proof.
  intros Hu Hn Hc. pose proof (writes_method l q g s c) as W.
  assert (D : (c = CGeometric \/ exists st, c = CFrame st) \/ ~ In M_Props.p_cx (call_props c)).
  { destruct c; try (right; notin); left; [left; reflexivity|right; eexists; reflexivity]. }
  destruct D as [[->|[st ->]]|D].
  - intros _ x Hx. cbn [method]. rewrite map_state. apply (tr_geometric g s p tt); [intros y []|apply geometric_succeeds, Hn|apply basic_geometric, Hx].
  - intros _ x Hx. cbn [method]. rewrite map_state. apply frame_leaves; [exact Hu|apply basic_frame, Hx].
  - intros Hcx x Hx. apply (writes_mono _ _ _ _ _ W). apply Hc; [|exact Hx].
    unfold has in *. rewrite (writes_only _ _ _ _ _ W D) in Hcx. exact Hcx.
Qed.

Lemma closed_run l q h : forall w, no_mod (w_sec w) -> s_nodes (w_sec w) <> [] -> closed (w_props w) -> closed (w_props (run l q w h)).
Proof.
  induction h as [|c h IH]; intros w Hu Hn Hc; [exact Hc|]. rewrite run_cons. apply IH; rewrite step_state; cbn [w_sec w_props]; try assumption.
  apply closed_method; assumption.
Qed.

Section History.
Variables (l : libs) (q : R * R -> list nat) (g : geometry) (s : section_obj) (st : string).
Hypothesis Hb : built g s.
Notation pv := (property_value l g s st).

Lemma Hu : no_mod s.
Proof. apply (built_no_mod _ _ _ (proj1 Hb)). Qed.

Record ok_world (w : world) : Prop := { okw_geom : w_geom w = g; okw_sec : w_sec w = s; okw_inv : Inv l g s st (w_props w); okw_closed : closed (w_props w) }.

Lemma ok_method c p : uses st c -> Inv l g s st p -> closed p -> Inv l g s st (fst (method l q g s c p)).
Proof.
  intros U H Hc. destruct c; cbn [method]; cbn [uses] in U; rewrite ?map_state; try subst.
  - apply inv_geometric; assumption.
  - apply (keeps_warping l g s st Hb); assumption.
  - apply inv_frame; [assumption|apply Hu|assumption].
  - apply inv_plastic; assumption.
  - rewrite writes_nothing; [exact H|apply writes_stress].
  - rewrite writes_nothing; [exact H|apply writes_points].
  - rewrite writes_nothing; [exact H|apply writes_getter].
  - destruct U.
Qed.

Lemma ok_step w c : uses st c -> ok_world w -> ok_world (fst (step l q w c)).
Proof.
  intros U [E1 E2 H Hc]. rewrite step_state. constructor; cbn [w_geom w_sec w_props].
  - destruct c; try exact E1. destruct U.
  - exact E2.
  - rewrite E1, E2. apply ok_method; assumption.
  - rewrite E1, E2. apply closed_method; [apply Hu|apply Hb|exact Hc].
Qed.

Lemma ok_run h : forall w, Forall (uses st) h -> ok_world w -> ok_world (run l q w h).
Proof.
  induction h as [|c h IH]; intros w U H; [exact H|]. inversion U; subst. rewrite run_cons. apply IH; [assumption|apply ok_step; assumption].
Qed.

Lemma ok_new : ok_world (mkWorld g s no_props).
Proof. constructor; [reflexivity|reflexivity| |]; [split; [|split]; intros; discriminate|intros H; contradiction H; reflexivity]. Qed.

(** ** After a geometric analysis *)
Definition geo (p : props) : Prop := forall x, In x geometric_props -> exists v, num p x = Some v /\ geometric_value g s x = Some v.

Lemma geo_of p : Inv l g s st p -> (forall x, In x geometric_props -> has p x) -> geo p.
Proof.
  intros H Hh x Hx. specialize (Hh x Hx). unfold has in Hh. destruct (num p x) as [v|] eqn:E; [|contradiction]. exists v. split; [reflexivity|].
  rewrite <- (geometric_props_value l g s st x Hx). apply (proj1 H); [exact E|]. intros ->. revert Hx. notin.
Qed.

Lemma geo_run h w : Forall (uses st) h -> ok_world w -> In CGeometric h -> geo (w_props (run l q w h)).
Proof.
  intros U H Hi. apply geo_of; [apply (ok_run h w U H)|]. apply in_split in Hi. destruct Hi as [h1 [h2 ->]]. intros x Hx.
  rewrite run_app, run_cons. apply run_mono. rewrite step_state. cbn [w_props method]. rewrite map_state.
  apply (tr_geometric _ _ _ tt); [intros y []| |exact Hx]. apply geometric_succeeds. rewrite run_sec, (okw_sec _ H). apply Hb.
Qed.

Definition ev {A} (m : M A) (r : result A) : Prop := forall p, geo p -> geo (fst (m p)) /\ snd (m p) = r.
Lemma ev_bind {A B} (m : M A) (f : A -> M B) a r : ev m (Ok a) -> ev (f a) r -> ev (mbind m f) r.
Proof.
  intros Hm Hf p Hp. destruct (Hm p Hp) as [G1 E1]. unfold mbind. destruct (m p) as [p' r']; cbn [fst snd] in *. subst r'. apply Hf, G1.
Qed.
Lemma ev_err {A B} (m : M A) (f : A -> M B) e : ev m (Err e) -> ev (mbind m f) (Err e).
Proof.
  intros Hm p Hp. destruct (Hm p Hp) as [G1 E1]. unfold mbind. destruct (m p) as [p' r']; cbn [fst snd] in *. subst r'. split; [exact G1|reflexivity].
Qed.
Lemma ev_tell ws : (forall x, In x geometric_props -> ~ In x (numprops ws)) -> ev (mtell ws) (Ok tt).
Proof.
  intros H p Hp. split; [|reflexivity]. intros x Hx. cbn [mtell fst]. rewrite num_writes. destruct (last_write ws x) eqn:E; [|apply Hp, Hx].
  destruct (H x Hx). apply last_write_some. rewrite E. discriminate.
Qed.
Lemma ev_lift {A} (r : result A) : ev (mlift r) r.
Proof. intros p Hp. split; [exact Hp|reflexivity]. Qed.
Lemma ev_ret {A} (a : A) : ev (mret a) (Ok a).
Proof. intros p Hp. split; [exact Hp|reflexivity]. Qed.
Lemma geo_num p x v : geo p -> In x geometric_props -> geometric_value g s x = Some v -> num p x = Some v.
Proof. intros H Hx Hv. destruct (H x Hx) as [u [E1 E2]]. rewrite E1. rewrite E2 in Hv. exact Hv. Qed.
Ltac ingeo := unfold geometric_props; cbn [fields nth In]; tauto.
Notation c := (the_centroidal s).
Notation t := (the_totals s).
Notation n := (length (s_nodes s)).
Notation comp := (is_composite (s_mats s)).

Lemma ev_c : ev (get2 comp get_c) (Ok (p_cx c, p_cy c)).
Proof. intros p Hp. rewrite (get2_ok _ _ p (p_cx c) (p_cy c)); [split; [exact Hp|reflexivity]|exact I| | |reflexivity]; (apply (geo_num p _ _ Hp); [ingeo|reflexivity]). Qed.
Lemma ev_phi : ev (get1 comp get_phi) (Ok (p_phi c)).
Proof. intros p Hp. rewrite (get1_ok _ _ p (p_phi c)); [split; [exact Hp|reflexivity]|exact I| |reflexivity]; (apply (geo_num p _ _ Hp); [ingeo|reflexivity]). Qed.
Lemma ev_area : ev (get1 comp get_area) (Ok (t_area t)).
Proof. intros p Hp. rewrite (get1_ok _ _ p (t_area t)); [split; [exact Hp|reflexivity]|exact I| |reflexivity]; (apply (geo_num p _ _ Hp); [ingeo|reflexivity]). Qed.
Lemma ev_ea : ev (get1 comp (if comp then get_ea else get_area)) (Ok (if comp then t_ea t else t_area t)).
Proof.
  intros p Hp. destruct comp eqn:E.
  - rewrite (get1_ok _ _ p (t_ea t)); [split; [exact Hp|reflexivity]|reflexivity| |reflexivity]; (apply (geo_num p _ _ Hp); [ingeo|reflexivity]).
  - rewrite (get1_ok _ _ p (t_area t)); [split; [exact Hp|reflexivity]|reflexivity| |reflexivity]; (apply (geo_num p _ _ Hp); [ingeo|reflexivity]).
Qed.
Lemma ev_nu : ev (if comp then get1 comp get_nu_eff else mret 0) (Ok (if comp then nu_eff t else 0)).
Proof.
  intros p Hp. destruct comp eqn:E; [|split; [exact Hp|reflexivity]].
  rewrite (get1_ok _ _ p (nu_eff t)); [split; [exact Hp|reflexivity]|reflexivity| |reflexivity]; (apply (geo_num p _ _ Hp); [ingeo|reflexivity]).
Qed.
Lemma ev_ic : ev (get3 comp (if comp then get_eic else get_ic)) (Ok (p_ixx_c c, p_iyy_c c, p_ixy_c c)).
Proof.
  intros p Hp. destruct comp eqn:E;
    (rewrite (get3_ok _ _ p (p_ixx_c c) (p_iyy_c c) (p_ixy_c c)); [split; [exact Hp|reflexivity]|reflexivity| | | |reflexivity]; (apply (geo_num p _ _ Hp); [ingeo|reflexivity])).
Qed.
Lemma ev_ip : ev (get2 comp (if comp then get_eip else get_ip)) (Ok (p_i11_c c, p_i22_c c)).
Proof.
  intros p Hp. destruct comp eqn:E;
    (rewrite (get2_ok _ _ p (p_i11_c c) (p_i22_c c)); [split; [exact Hp|reflexivity]|reflexivity| | |reflexivity]; (apply (geo_num p _ _ Hp); [ingeo|reflexivity])).
Qed.
Lemma ev_guard : ev guard_geometric (Ok tt).
Proof.
  intros p Hp. unfold guard_geometric, mbind, mget.
  rewrite (geo_num p M_Props.p_area (t_area t) Hp ltac:(ingeo) eq_refl), (geo_num p M_Props.p_ixx_c (p_ixx_c c) Hp ltac:(ingeo) eq_refl), (geo_num p M_Props.p_cx (p_cx c) Hp ltac:(ingeo) eq_refl).
  split; [exact Hp|reflexivity].
Qed.

Definition unit_of {A} (r : result A) : result unit := bind r (fun _ => Ok tt).

Ltac evt := eapply ev_bind; [apply ev_tell; intros x Hx; unfold numprops; cbn [map concat app]; revert Hx; unfold geometric_props; cbn [In];
  intros Hx Hy; repeat (destruct Hx as [<-|Hx]; [repeat (destruct Hy as [Hy|Hy]; [discriminate Hy|]); exact Hy|]); exact Hx|].

Lemma ev_warping : ev (calculate_warping l g s st) (unit_of (the_warping l s st)).
Proof.
  unfold calculate_warping.
  eapply ev_bind; [apply ev_guard|]. rewrite (proj1 Hb). eapply ev_bind; [apply ev_lift|].
  eapply ev_bind; [apply ev_c|]. cbv beta iota zeta.
  unfold unit_of, the_warping, warping_analysis. fold (the_solver l s st).
  destruct (assemble_torsion n (map (shift_el (p_cx c) (p_cy c)) (s_tris s))) as [K f] eqn:EA.
  destruct (the_solver l s st K f) as [om|e] eqn:Eom; cbn [bind]; [|apply ev_err, ev_lift]. eapply ev_bind; [apply ev_lift|].
  eapply ev_bind; [apply ev_tell; intros x Hx []|].
  eapply ev_bind; [apply ev_ic|]. evt. eapply ev_bind; [apply ev_nu|]. rewrite Nat.eqb_refl.
  destruct (assemble_shear_load _ _ _ _ _) as [fp fh] eqn:ES.
  destruct (the_solver l s st K fp) as [ps|e] eqn:Eps; cbn [bind]; [|apply ev_err, ev_lift]. eapply ev_bind; [apply ev_lift|].
  destruct (the_solver l s st K fh) as [ph|e] eqn:Eph; cbn [bind]; [|apply ev_err, ev_lift]. eapply ev_bind; [apply ev_lift|].
  eapply ev_bind; [apply ev_tell; intros x Hx []|].
  eapply ev_bind; [apply ev_phi|].
  destruct (principal_coordinate _ _ _) as [x11 y22]. evt. eapply ev_bind; [apply ev_ea|]. evt.
  destruct (shear_deformation _ _ _ _ _ _ _) as [[kx ky] kxy]. evt. eapply ev_bind; [apply ev_area|]. evt.
  eapply ev_bind; [apply ev_ip|]. cbn [bind].
  intros p Hp. split; [|reflexivity]. assert (E : ev (mbind (mtell [
    WNum M_Props.p_beta_x_plus 0; WNum M_Props.p_beta_x_minus 0; WNum M_Props.p_beta_y_plus 0; WNum M_Props.p_beta_y_minus 0;
    WNum M_Props.p_beta_11_plus 0; WNum M_Props.p_beta_11_minus 0; WNum M_Props.p_beta_22_plus 0; WNum M_Props.p_beta_22_minus 0]) (fun _ => mret tt)) (Ok tt)) by (evt; apply ev_ret).
  destruct (E p Hp) as [G _]. intros x Hx. destruct (G x Hx) as [v [E1 E2]]. exists v. split; [|exact E2].
  cbn [mbind mtell mret fst] in E1 |- *. rewrite num_writes in E1 |- *. revert E1. cbn [last_write].
  repeat match goal with |- context[prop_eq_dec x ?b] => destruct (prop_eq_dec x b) as [->|]; [exfalso; revert Hx; notin|] end. tauto.
Qed.

Lemma warping_torsion w : the_warping l s st = Ok w -> the_torsion l s st = Ok (w_omega w, w_j w).
Proof.
  unfold the_warping, warping_analysis, the_torsion. destruct (assemble_torsion n (map (shift_el (p_cx c) (p_cy c)) (s_tris s))) as [K f].
  destruct (the_solver l s st K f) as [om|e]; cbn [bind]; [|discriminate].
  destruct (assemble_shear_load _ _ _ _ _) as [fp fh]. destruct (the_solver l s st K fp) as [ps|]; cbn [bind]; [|discriminate].
  destruct (the_solver l s st K fh) as [ph|]; cbn [bind]; [|discriminate].
  destruct (principal_coordinate _ _ _) as [x11 y22]. destruct (shear_deformation _ _ _ _ _ _ _) as [[kx ky] kxy].
  intros E. injection E as <-. reflexivity.
Qed.

(** all attributes of the warping analysis are there *)
Definition warped (w : warping) (p : props) : Prop :=
  num p M_Props.p_j = Some (w_j w) /\ num p M_Props.p_delta_s = Some (w_delta_s w) /\
  vec p a_omega = Some (w_omega w) /\ vec p a_psi_shear = Some (w_psi w) /\ vec p a_phi_shear = Some (w_phi w).

Lemma read_eval p a w : geo p -> (needs_warping a = true -> exists v, w = Some v /\ warped v p) ->
  read_parameters comp a p = (p, stress_parameters comp t c w a).
Proof.
  intros Hp Hw.
  assert (R1 : forall A B (m : M A) (f : A -> M B) v, writes [] [] m -> ev m (Ok v) -> mbind m f p = f v p).
  { intros A B m f v W E. destruct (E p Hp) as [_ E2]. unfold mbind. pose proof (writes_nothing m p W) as E1. destruct (m p) as [p' r]. cbn [fst snd] in *. subst. reflexivity. }
  assert (W1 : forall b x, writes [] [] (get1 b x)) by (intros; unfold get1; apply writes_bind; [apply writes_getter|intros; apply writes_ret]).
  assert (W2 : forall b x, writes [] [] (get2 b x)) by (intros; unfold get2; apply writes_bind; [apply writes_getter|intros; apply writes_ret]).
  assert (W3 : forall b x, writes [] [] (get3 b x)) by (intros; unfold get3; apply writes_bind; [apply writes_getter|intros; apply writes_ret]).
  unfold read_parameters. rewrite (R1 _ _ _ _ _ (W2 _ _) ev_c). cbv beta iota. rewrite (R1 _ _ _ _ _ (W1 _ _) ev_phi). rewrite (R1 _ _ _ _ _ (W1 _ _) ev_ea).
  rewrite (R1 _ _ _ _ _ (W3 _ _) ev_ic). cbv beta iota. rewrite (R1 _ _ _ _ _ (W2 _ _) ev_ip). cbv beta iota.
  unfold stress_parameters. destruct (needs_warping a); [|reflexivity].
  destruct (Hw eq_refl) as [v [-> [J [D [O [P F]]]]]].
  rewrite (bind_ok _ _ p p (w_j v)); [|destruct comp eqn:E; apply get1_ok; try reflexivity; exact J].
  assert (Wn : writes [] [] (if comp then get1 comp get_nu_eff else mret 0)) by (destruct comp; [apply W1|apply writes_ret]).
  rewrite (R1 _ _ _ _ _ Wn ev_nu).
  unfold mbind, mget, mgetv. rewrite D, O, P, F. reflexivity.
Qed.

Lemma stress_eval p a w : geo p -> (needs_warping a = true -> exists v, w = Some v /\ warped v p) ->
  calculate_stress s a p = (p, calc_stress comp t c w a (s_group_tris s)).
Proof.
  intros Hp Hw. unfold calculate_stress. destruct (ev_guard p Hp) as [_ E].
  rewrite (bind_ok _ _ p p tt); [|pose proof (writes_nothing guard_geometric p (writes_guard [] [])) as E1; destruct (guard_geometric p); cbn [fst snd] in *; subst; reflexivity].
  rewrite (bind_ok _ _ p p tt).
  2:{ unfold guard_warping. destruct (needs_warping a); [|reflexivity]. destruct (Hw eq_refl) as [v [_ [_ [_ [O _]]]]]. unfold mbind, mgetv. rewrite O. reflexivity. }
  unfold mbind, calc_stress. rewrite (read_eval p a w Hp Hw). destruct (stress_parameters comp t c w a) as [[[[sp om] ps] ph]|e]; reflexivity.
Qed.

Lemma points_eval p a w qr agg pts : geo p -> (needs_warping a = true -> exists v, w = Some v /\ warped v p) ->
  stress_points s qr agg a pts p = (p, bind (stress_parameters comp t c w a) (fun r => let '(sp, om, ps, ph) := r in
     Ok (map (fun pt => stress_at_point (s_tris s) (qr pt) agg a sp om ps ph pt) pts))).
Proof.
  intros Hp Hw. unfold stress_points.
  rewrite (bind_ok _ _ p p tt).
  2:{ unfold guard_warping. destruct (needs_warping a); [|reflexivity]. destruct (Hw eq_refl) as [v [_ [_ [_ [O _]]]]]. unfold mbind, mgetv. rewrite O. reflexivity. }
  unfold mbind. rewrite (read_eval p a w Hp Hw). destruct (stress_parameters comp t c w a) as [[[[sp om] ps] ph]|e]; reflexivity.
Qed.

Lemma plastic_eval p : geo p -> snd (calculate_plastic l g s p) = snd (the_plastic l g s).
Proof.
  intros Hp. unfold calculate_plastic, mbind, mget. rewrite (geo_num p M_Props.p_cx (p_cx c) Hp ltac:(ingeo) eq_refl). unfold mrun. cbn [snd].
  unfold the_plastic. destruct (plastic_course (l_brentq l) (g_plastic g) (p_phi c)) as [k [pvs HC]].
  destruct (HC (num p) (negb comp) (geo_num p M_Props.p_phi (p_phi c) Hp ltac:(ingeo) eq_refl)) as [[K1 E1]|[K1 E1]];
    destruct (HC (geometric_value g s) (negb comp) eq_refl) as [[K2 E2]|[K2 E2]]; try lia; rewrite E1, E2; reflexivity.
Qed.
End History.
