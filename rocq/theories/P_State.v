(** Proofs about histories of calls. *)
From Coq Require Import String Reals List Bool Arith Lra Lia.
From Verif Require Import Base M_Fea M_Section M_Stress M_Init M_Bisect M_Plastic M_Solver M_Props M_State S_Init S_State.
From Verif Require Import P_Yield P_Init.
From Verif Require Import M_Post.
Import ListNotations.
Local Open Scope R_scope.

(** ** Assignments *)
Lemma num_writes (l : list write) : forall s q, num (apply_writes s l) q = match last_write l q with Some v => Some v | None => num s q end.
Proof.
  induction l as [|w l IH]; intros s q; [reflexivity|]. cbn [apply_writes fold_left]. change (fold_left apply_write l (apply_write s w)) with (apply_writes (apply_write s w) l).
  rewrite IH. destruct w as [p v|a u]; cbn [last_write apply_write num]; destruct (last_write l q); try reflexivity.
  destruct (prop_eq_dec q p); reflexivity.
Qed.

Fixpoint last_vec (l : list write) (a : arr) : option (nat -> R) :=
  match l with
  | [] => None
  | WVec b u :: rest => match last_vec rest a with Some x => Some x | None => if arr_eq_dec a b then Some u else None end
  | WNum _ _ :: rest => last_vec rest a
  end.
Lemma vec_writes (l : list write) : forall s a, vec (apply_writes s l) a = match last_vec l a with Some v => Some v | None => vec s a end.
Proof.
  induction l as [|w l IH]; intros s q; [reflexivity|]. cbn [apply_writes fold_left]. change (fold_left apply_write l (apply_write s w)) with (apply_writes (apply_write s w) l).
  rewrite IH. destruct w as [p v|a u]; cbn [last_vec apply_write vec]; destruct (last_vec l q); try reflexivity.
  destruct (arr_eq_dec q a); reflexivity.
Qed.

Lemma apply_writes_app (a b : list write) s : apply_writes s (a ++ b) = apply_writes (apply_writes s a) b.
Proof. unfold apply_writes. apply fold_left_app. Qed.

Lemma last_write_in (l : list write) q v : last_write l q = Some v -> In (WNum q v) l.
Proof.
  induction l as [|w l IH]; [discriminate|]. destruct w as [p x|a u]; cbn [last_write].
  - destruct (last_write l q) as [y|]; [intros E; right; apply IH; exact E|]. destruct (prop_eq_dec q p) as [->|]; [|discriminate].
    intros E. injection E as ->. left. reflexivity.
  - intros E. right. apply IH. exact E.
Qed.

Definition numprops (l : list write) : list prop := concat (map (fun w => match w with WNum p _ => [p] | WVec _ _ => [] end) l).
Definition vecprops (l : list write) : list arr := concat (map (fun w => match w with WNum _ _ => [] | WVec a _ => [a] end) l).

Lemma last_write_some (l : list write) q : In q (numprops l) <-> last_write l q <> None.
Proof.
  induction l as [|w l IH]; [split; [intros []|intros H; contradiction H; reflexivity]|].
  destruct w as [p x|a u]; cbn [last_write numprops map concat].
  - change (concat (map _ l)) with (numprops l). rewrite in_app_iff, IH. destruct (last_write l q) as [y|].
    + split; [discriminate|intros _; right; discriminate].
    + destruct (prop_eq_dec q p) as [->|N]; [split; [discriminate|left; left; reflexivity]|].
      split; [intros [[E|[]]|E]; [contradiction N; symmetry; exact E|exact E]|intros E; contradiction E; reflexivity].
  - exact IH.
Qed.

(** ** Which attributes a method may assign *)
Section Writes.
Variables (L : list prop) (LV : list arr).

Definition writes {A} (m : M A) : Prop :=
  forall s, exists ws, fst (m s) = apply_writes s ws /\ incl (numprops ws) L /\ incl (vecprops ws) LV.

Lemma writes_pure {A} (f : props -> result A) : writes (fun s => (s, f s)).
Proof. intros s. exists []. split; [reflexivity|split; intros x []]. Qed.
Lemma writes_ret {A} (a : A) : writes (mret a). Proof. apply (writes_pure (fun _ => Ok a)). Qed.
Lemma writes_raise {A} e : writes (A := A) (mraise e). Proof. apply (writes_pure (fun _ => Err e)). Qed.
Lemma writes_lift {A} (r : result A) : writes (mlift r). Proof. apply (writes_pure (fun _ => r)). Qed.
Lemma writes_get p : writes (mget p). Proof. apply (writes_pure (fun s => Ok (num s p))). Qed.
Lemma writes_getv a : writes (mgetv a). Proof. apply (writes_pure (fun s => Ok (vec s a))). Qed.
Lemma writes_tell l : incl (numprops l) L -> incl (vecprops l) LV -> writes (mtell l).
Proof. intros A B s. exists l. split; [reflexivity|split; assumption]. Qed.
Lemma numprops_app a b : numprops (a ++ b) = numprops a ++ numprops b.
Proof. unfold numprops. rewrite map_app, concat_app. reflexivity. Qed.
Lemma vecprops_app a b : vecprops (a ++ b) = vecprops a ++ vecprops b.
Proof. unfold vecprops. rewrite map_app, concat_app. reflexivity. Qed.
Lemma writes_bind {A B} (m : M A) (f : A -> M B) : writes m -> (forall a, writes (f a)) -> writes (mbind m f).
Proof.
  intros Hm Hf s. unfold mbind. destruct (Hm s) as [ws [E [I1 I2]]]. destruct (m s) as [s' [a|e]]; cbn [fst] in E; subst s'.
  - destruct (Hf a (apply_writes s ws)) as [ws' [E' [I1' I2']]]. exists (ws ++ ws'). rewrite apply_writes_app, numprops_app, vecprops_app.
    split; [exact E'|split; apply incl_app; assumption].
  - exists ws. split; [reflexivity|split; assumption].
Qed.
Lemma writes_need l : writes (need l).
Proof.
  induction l as [|p l IH]; [apply writes_ret|]. cbn [need]. apply writes_bind; [apply writes_get|]. intros [v|]; [|apply writes_raise].
  apply writes_bind; [exact IH|]. intros r. apply writes_ret.
Qed.
Lemma writes_getter b x e : writes (run_getter b x e).
Proof.
  unfold run_getter. assert (H : writes (do v <- need (fields x); mret (finish x e v))) by (apply writes_bind; [apply writes_need|intros; apply writes_ret]).
  destruct (gate x) as [g|]; [destruct (Bool.eqb g b); [exact H|apply writes_raise]|exact H].
Qed.
End Writes.

Ltac wr_step := match goal with
  | |- writes _ _ (mbind _ _) => apply writes_bind; [|intro]
  | |- writes _ _ (mret _) => apply writes_ret
  | |- writes _ _ (mraise _) => apply writes_raise
  | |- writes _ _ (mlift _) => apply writes_lift
  | |- writes _ _ (mget _) => apply writes_get
  | |- writes _ _ (mgetv _) => apply writes_getv
  | |- writes _ _ (need _) => apply writes_need
  | |- writes _ _ (run_getter _ _ _) => apply writes_getter
  | |- writes _ _ (get1 _ _) => unfold get1
  | |- writes _ _ (get2 _ _) => unfold get2
  | |- writes _ _ (get3 _ _) => unfold get3
  | |- writes _ _ (mtell _) => apply writes_tell; [unfold numprops; cbn [map concat app]; intros ? ?; cbn [In] in *; tauto | unfold vecprops; cbn [map concat app]; intros ? ?; cbn [In] in *; tauto]
  | |- writes _ _ (match ?x with _ => _ end) => destruct x
  | |- writes _ _ (let _ := _ in _) => cbv zeta
  end.

Definition geometric_props : list prop :=
  [M_Props.p_area; M_Props.p_perimeter; M_Props.p_mass; M_Props.p_ea; M_Props.p_ga; M_Props.p_nu_eff; M_Props.p_e_eff; M_Props.p_g_eff;
   M_Props.p_qx; M_Props.p_qy; M_Props.p_ixx_g; M_Props.p_iyy_g; M_Props.p_ixy_g; M_Props.p_cx; M_Props.p_cy;
   M_Props.p_ixx_c; M_Props.p_iyy_c; M_Props.p_ixy_c; M_Props.p_zxx_plus; M_Props.p_zxx_minus; M_Props.p_zyy_plus; M_Props.p_zyy_minus;
   M_Props.p_rx_c; M_Props.p_ry_c; M_Props.p_i11_c; M_Props.p_i22_c; M_Props.p_phi;
   M_Props.p_z11_plus; M_Props.p_z11_minus; M_Props.p_z22_plus; M_Props.p_z22_minus; M_Props.p_r11_c; M_Props.p_r22_c;
   M_Props.p_my_xx; M_Props.p_my_yy; M_Props.p_my_11; M_Props.p_my_22].
Definition warping_props : list prop :=
  [M_Props.p_j; M_Props.p_delta_s; M_Props.p_x_se; M_Props.p_y_se; M_Props.p_x11_se; M_Props.p_y22_se; M_Props.p_x_st; M_Props.p_y_st;
   M_Props.p_gamma; M_Props.p_a_sx; M_Props.p_a_sy; M_Props.p_a_sxy; M_Props.p_a_s11; M_Props.p_a_s22;
   M_Props.p_beta_x_plus; M_Props.p_beta_x_minus; M_Props.p_beta_y_plus; M_Props.p_beta_y_minus;
   M_Props.p_beta_11_plus; M_Props.p_beta_11_minus; M_Props.p_beta_22_plus; M_Props.p_beta_22_minus].
Definition frame_props : list prop :=
  [M_Props.p_area; M_Props.p_ea; M_Props.p_qx; M_Props.p_qy; M_Props.p_ixx_g; M_Props.p_iyy_g; M_Props.p_ixy_g; M_Props.p_cx; M_Props.p_cy;
   M_Props.p_ixx_c; M_Props.p_iyy_c; M_Props.p_ixy_c; M_Props.p_phi; M_Props.p_j].
Definition plastic_props : list prop :=
  [p_x_pc; p_y_pc; p_x11_pc; p_y22_pc; p_sxx; p_syy; p_s11; p_s22; p_sf_xx_plus; p_sf_xx_minus; p_sf_yy_plus; p_sf_yy_minus;
   p_sf_11_plus; p_sf_11_minus; p_sf_22_plus; p_sf_22_minus].

Lemma writes_geometric g s : writes geometric_props [] (calculate_geometric g s).
Proof. unfold calculate_geometric, geometric_props. repeat wr_step. Qed.

Lemma writes_guard L LV : writes L LV guard_geometric.
Proof. unfold guard_geometric. repeat wr_step. Qed.

Lemma writes_warping l g s st : writes warping_props [a_omega; a_psi_shear; a_phi_shear] (calculate_warping l g s st).
Proof.
  unfold calculate_warping. apply writes_bind; [apply writes_guard|intro]. unfold warping_props. repeat wr_step.
Qed.

Lemma writes_frame l g s st : writes frame_props [a_omega] (calculate_frame l g s st).
Proof. unfold calculate_frame, frame_props. repeat wr_step. Qed.

Lemma writes_read : forall L LV b a, writes L LV (read_parameters b a).
Proof. intros. unfold read_parameters. repeat wr_step. Qed.
Lemma writes_gwarp : forall L LV a, writes L LV (guard_warping a).
Proof. intros. unfold guard_warping. repeat wr_step. Qed.
Lemma writes_stress s a : writes [] [] (calculate_stress s a).
Proof.
  unfold calculate_stress. apply writes_bind; [apply writes_guard|intro]. apply writes_bind; [apply writes_gwarp|intro].
  apply writes_bind; [apply writes_read|intro]. repeat wr_step.
Qed.
Lemma writes_points s q agg a pts : writes [] [] (stress_points s q agg a pts).
Proof.
  unfold stress_points. apply writes_bind; [apply writes_gwarp|intro].
  apply writes_bind; [apply writes_read|intro]. repeat wr_step.
Qed.

(** The plastic analysis *)
Lemma shape_factor_props get d a b c e : incl (numprops (shape_factors get d a b c e)) plastic_props /\ vecprops (shape_factors get d a b c e) = [].
Proof.
  unfold shape_factors, plastic_props. destruct d.
  - destruct (truthy _ && _ && _ && _), (truthy (get p_z11_plus) && _ && _ && _); split; try reflexivity; unfold numprops; cbn [map concat app]; intros ? ?; cbn [In] in *; tauto.
  - destruct (truthy _ && _), (truthy (get p_my_11) && _); split; try reflexivity; unfold numprops; cbn [map concat app]; intros ? ?; cbn [In] in *; tauto.
Qed.

(** The course of the plastic analysis. *)
Record plastic_vals : Type := mkPV { v_y : R; v_sxx : R; v_x : R; v_syy : R; v_y22 : R; v_s11 : R; v_x11 : R; v_s22 : R }.
Definition pv_writes (v : plastic_vals) : list write :=
  [WNum p_y_pc (v_y v); WNum p_sxx (v_sxx v); WNum p_x_pc (v_x v); WNum p_syy (v_syy v);
   WNum p_y22_pc (v_y22 v); WNum p_s11 (v_s11 v); WNum p_x11_pc (v_x11 v); WNum p_s22 (v_s22 v)].

(** The analysis depends on the attributes only through the angle and the shape factors. *)
Lemma plastic_course brentq g phi : exists k v, forall get d, get M_Props.p_phi = Some phi ->
  (k = 4%nat /\ plastic_analysis brentq g get d = (pv_writes v ++ shape_factors get d (v_sxx v) (v_syy v) (v_s11 v) (v_s22 v), Ok tt)) \/
  ((k < 4)%nat /\ plastic_analysis brentq g get d = (firstn (2 * k) (pv_writes v), Err RuntimeError)).
Proof.
  unfold plastic_analysis.
  destruct (calculate_extreme_fibres (pl_points g) 0) as [[[x1 x2] y1] y2].
  destruct (pc_algorithm brentq (pl_geoms g) (1, 0) (y1, y2) true) as [[a la]|ea] eqn:E1;
    [|exists 0%nat, (mkPV 0 0 0 0 0 0 0 0); intros get d Hg; right; split; [lia|];
      assert (ea = RuntimeError) as -> by (unfold pc_algorithm in E1; destruct (rr_converged _); [discriminate|injection E1 as <-; reflexivity]); reflexivity].
  destruct (pc_algorithm brentq (pl_geoms g) (0, 1) (x1, x2) false) as [[b lb]|eb] eqn:E2;
    [|exists 1%nat, (mkPV a (plastic_modulus (fun _ cy => cy) a la) 0 0 0 0 0 0); intros get d Hg; right; split; [lia|];
      assert (eb = RuntimeError) as -> by (unfold pc_algorithm in E2; destruct (rr_converged _); [discriminate|injection E2 as <-; reflexivity]); reflexivity].
  destruct (calculate_extreme_fibres (pl_points g) phi) as [[[u1 u2] w1] w2] eqn:EF.
  destruct (pc_algorithm brentq (pl_geoms g) (cos (phi * PI / 180), sin (phi * PI / 180)) (w1, w2) true) as [[c lc]|ec] eqn:E3;
    [|exists 2%nat, (mkPV a (plastic_modulus (fun _ cy => cy) a la) b (plastic_modulus (fun cx _ => cx) b lb) 0 0 0 0); intros get d Hg; right; split; [lia|]; rewrite Hg, EF;
      assert (ec = RuntimeError) as -> by (unfold pc_algorithm in E3; destruct (rr_converged _); [discriminate|injection E3 as <-; reflexivity]);
      unfold wbind, wlift, tell; cbn [fst snd]; rewrite E3; reflexivity].
  destruct (pc_algorithm brentq (pl_geoms g) (- sin (phi * PI / 180), cos (phi * PI / 180)) (u1, u2) false) as [[e le]|ee] eqn:E4.
  - exists 4%nat, (mkPV a (plastic_modulus (fun _ cy => cy) a la) b (plastic_modulus (fun cx _ => cx) b lb)
        c (plastic_modulus (fun cx cy => snd (principal_coordinate phi cx cy)) c lc)
        e (plastic_modulus (fun cx cy => fst (principal_coordinate phi cx cy)) e le)).
    intros get d Hg. left. split; [reflexivity|]. rewrite Hg, EF. unfold wbind, wlift, tell. cbn [fst snd]. rewrite E3. cbn [fst snd]. rewrite E4. cbn [fst snd]. reflexivity.
  - exists 3%nat, (mkPV a (plastic_modulus (fun _ cy => cy) a la) b (plastic_modulus (fun cx _ => cx) b lb)
        c (plastic_modulus (fun cx cy => snd (principal_coordinate phi cx cy)) c lc) 0 0).
    intros get d Hg. right. split; [lia|]. rewrite Hg, EF. unfold wbind, wlift, tell. cbn [fst snd]. rewrite E3. cbn [fst snd]. rewrite E4. cbn [fst snd].
    assert (ee = RuntimeError) as -> by (unfold pc_algorithm in E4; destruct (rr_converged _); [discriminate|injection E4 as <-; reflexivity]). reflexivity.
Qed.

Lemma plastic_no_phi brentq g get d : get M_Props.p_phi = None -> exists v k, (k <= 2)%nat /\ plastic_analysis brentq g get d = (firstn (2 * k) (pv_writes v), Err RuntimeError).
Proof.
  intros Hg. unfold plastic_analysis.
  destruct (calculate_extreme_fibres (pl_points g) 0) as [[[x1 x2] y1] y2].
  destruct (pc_algorithm brentq (pl_geoms g) (1, 0) (y1, y2) true) as [[a la]|ea] eqn:E1;
    [|exists (mkPV 0 0 0 0 0 0 0 0), 0%nat; split; [lia|];
      assert (ea = RuntimeError) as -> by (unfold pc_algorithm in E1; destruct (rr_converged _); [discriminate|injection E1 as <-; reflexivity]); reflexivity].
  destruct (pc_algorithm brentq (pl_geoms g) (0, 1) (x1, x2) false) as [[b lb]|eb] eqn:E2;
    [|exists (mkPV a (plastic_modulus (fun _ cy => cy) a la) 0 0 0 0 0 0), 1%nat; split; [lia|];
      assert (eb = RuntimeError) as -> by (unfold pc_algorithm in E2; destruct (rr_converged _); [discriminate|injection E2 as <-; reflexivity]); reflexivity].
  exists (mkPV a (plastic_modulus (fun _ cy => cy) a la) b (plastic_modulus (fun cx _ => cx) b lb) 0 0 0 0), 2%nat. split; [lia|].
  rewrite Hg. reflexivity.
Qed.

Lemma pv_props v k : incl (numprops (firstn k (pv_writes v))) plastic_props /\ vecprops (firstn k (pv_writes v)) = [].
Proof.
  unfold pv_writes, plastic_props.
  do 9 (destruct k as [|k]; [cbn [firstn]; split; [unfold numprops; cbn [map concat app]; intros ? ?; cbn [In] in *; tauto|reflexivity]|]).
  cbn [firstn]; split; [unfold numprops; cbn [map concat app]; intros ? ?; cbn [In] in *; tauto|reflexivity].
Qed.

Lemma plastic_writes brentq g get d : incl (numprops (fst (plastic_analysis brentq g get d))) plastic_props /\ vecprops (fst (plastic_analysis brentq g get d)) = [].
Proof.
  destruct (get M_Props.p_phi) as [phi|] eqn:Ep.
  - destruct (plastic_course brentq g phi) as [k [v H]]. destruct (H get d Ep) as [[_ E]|[_ E]]; rewrite E; cbn [fst].
    + rewrite numprops_app, vecprops_app. destruct (shape_factor_props get d (v_sxx v) (v_syy v) (v_s11 v) (v_s22 v)) as [A ->].
      destruct (pv_props v 8) as [B1 B2]. split; [apply incl_app; [exact B1|exact A]|]. rewrite app_nil_r. exact B2.
    + apply pv_props.
  - destruct (plastic_no_phi brentq g get d Ep) as [v [k [_ E]]]. rewrite E. cbn [fst]. apply pv_props.
Qed.

Lemma writes_plastic l g s : writes plastic_props [] (calculate_plastic l g s).
Proof.
  unfold calculate_plastic. apply writes_bind; [apply writes_get|]. intros [c|]; [|apply writes_raise].
  intros p. unfold mrun. cbn [fst]. eexists. split; [reflexivity|].
  destruct (plastic_writes (l_brentq l) (g_plastic g) (num p) (negb (is_composite (s_mats s)))) as [A ->]. split; [exact A|intros x []].
Qed.

(** ** The calls *)
Definition call_props (c : call) : list prop :=
  match c with CGeometric => geometric_props | CWarping _ => warping_props | CFrame _ => frame_props | CPlastic => plastic_props | _ => [] end.
Definition call_arrs (c : call) : list arr :=
  match c with CWarping _ => [a_omega; a_psi_shear; a_phi_shear] | CFrame _ => [a_omega] | _ => [] end.

Lemma writes_map {A B} L LV (f : A -> B) m : writes L LV m -> writes L LV (mmap f m).
Proof. intros H. unfold mmap. apply writes_bind; [exact H|intros; apply writes_ret]. Qed.

Lemma writes_method l q g s c : writes (call_props c) (call_arrs c) (method l q g s c).
Proof.
  destruct c; cbn [method call_props call_arrs]; try apply writes_map.
  - apply writes_geometric. - apply writes_warping. - apply writes_frame. - apply writes_plastic. - apply writes_stress.
  - apply writes_points. - apply writes_getter. - apply writes_ret.
Qed.

Lemma writes_nothing {A} (m : M A) s : writes [] [] m -> fst (m s) = s.
Proof.
  intros H. destruct (H s) as [ws [E [I1 I2]]]. rewrite E. destruct ws as [|[p v|a u] ws]; [reflexivity| |].
  - destruct (I1 p). left. reflexivity.
  - destruct (I2 a). left. reflexivity.
Qed.

Definition has (p : props) (q : prop) : Prop := num p q <> None.
Definition hasv (p : props) (a : arr) : Prop := vec p a <> None.

Lemma writes_mono {A} L LV (m : M A) s q : writes L LV m -> has s q -> has (fst (m s)) q.
Proof.
  intros H Hq. destruct (H s) as [ws [E _]]. rewrite E. unfold has. rewrite num_writes. destruct (last_write ws q); [discriminate|exact Hq].
Qed.
Lemma writes_monov {A} L LV (m : M A) s q : writes L LV m -> hasv s q -> hasv (fst (m s)) q.
Proof.
  intros H Hq. destruct (H s) as [ws [E _]]. rewrite E. unfold hasv. rewrite vec_writes. destruct (last_vec ws q); [discriminate|exact Hq].
Qed.
Lemma writes_only {A} L LV (m : M A) s q : writes L LV m -> ~ In q L -> num (fst (m s)) q = num s q.
Proof.
  intros H Hq. destruct (H s) as [ws [E [I1 _]]]. rewrite E, num_writes. destruct (last_write ws q) as [v|] eqn:El; [|reflexivity].
  destruct Hq. apply I1. apply last_write_some. rewrite El. discriminate.
Qed.
Lemma last_vec_some (l : list write) q : last_vec l q <> None -> In q (vecprops l).
Proof.
  induction l as [|w l IH]; [intros H; contradiction H; reflexivity|].
  destruct w as [p x|a u]; cbn [last_vec vecprops map concat].
  - exact IH.
  - change (concat (map _ l)) with (vecprops l). destruct (last_vec l q) as [y|]; [intros _; right; apply IH; discriminate|].
    destruct (arr_eq_dec q a) as [->|N]; [intros _; left; reflexivity|intros H; contradiction H; reflexivity].
Qed.
Lemma writes_onlyv {A} L LV (m : M A) s q : writes L LV m -> ~ In q LV -> vec (fst (m s)) q = vec s q.
Proof.
  intros H Hq. destruct (H s) as [ws [E [_ I1]]]. rewrite E, vec_writes. destruct (last_vec ws q) as [v|] eqn:El; [|reflexivity].
  destruct Hq. apply I1. apply last_vec_some. rewrite El. discriminate.
Qed.

(** ** What a successful analysis leaves *)
Definition tr {A} (L : list prop) (m : M A) (L' : list prop) : Prop :=
  forall p a, (forall q, In q L -> has p q) -> snd (m p) = Ok a -> forall q, In q L' -> has (fst (m p)) q.

Lemma tr_bind {A B} L L1 L2 (m : M A) (f : A -> M B) : tr L m L1 -> (forall a, tr L1 (f a) L2) -> tr L (mbind m f) L2.
Proof.
  intros Hm Hf p b Hp. unfold mbind. specialize (Hm p). destruct (m p) as [p' [a|e]]; cbn [fst snd] in *; [|discriminate].
  intros Hb. apply (Hf a p' b); [|exact Hb]. apply (Hm a); [exact Hp|reflexivity].
Qed.
Lemma tr_keep {A} L (m : M A) : writes [] [] m -> tr L m L.
Proof. intros H p a Hp _ q Hq. rewrite (writes_nothing m p H). apply Hp, Hq. Qed.
Lemma tr_tell L l : tr L (mtell l) (numprops l ++ L).
Proof.
  intros p a Hp _ q Hq. cbn [mtell fst]. unfold has. rewrite num_writes. destruct (last_write l q) eqn:E; [discriminate|].
  apply in_app_or in Hq. destruct Hq as [Hq|Hq]; [apply last_write_some in Hq; contradiction|apply Hp, Hq].
Qed.
Lemma tr_incl {A} L (m : M A) L1 L2 : tr L m L1 -> incl L2 L1 -> tr L m L2.
Proof. intros H I p a Hp Ha q Hq. apply (H p a Hp Ha). apply I, Hq. Qed.
Lemma tr_raise {A} L e L' : tr (A := A) L (mraise e) L'.
Proof. intros p a _ H. discriminate H. Qed.

Lemma need_present l : forall p v, snd (need l p) = Ok v -> forall q, In q l -> has p q.
Proof.
  induction l as [|x l IH]; intros p v Hv q Hq; [destruct Hq|]. cbn [need] in Hv. unfold mbind, mget in Hv.
  destruct (num p x) as [a|] eqn:E; [|discriminate Hv]. destruct (need l p) as [p' r] eqn:En.
  pose proof (writes_nothing (need l) p (writes_need [] [] l)) as Ep. rewrite En in Ep. cbn [fst] in Ep. subst p'.
  destruct r as [r|e]; [|discriminate Hv]. destruct Hq as [<-|Hq]; [unfold has; rewrite E; discriminate|].
  apply (IH p r); [rewrite En; reflexivity|exact Hq].
Qed.
Lemma need_state l p : fst (need l p) = p.
Proof. apply writes_nothing, writes_need. Qed.
Lemma tr_need L l : tr L (need l) (l ++ L).
Proof.
  intros p v Hp Hv q Hq. rewrite need_state. apply in_app_or in Hq. destruct Hq as [Hq|Hq]; [apply (need_present l p v Hv q Hq)|apply Hp, Hq].
Qed.
Lemma tr_getter L b x e : tr L (run_getter b x e) (fields x ++ L).
Proof.
  unfold run_getter. assert (H : tr L (do v <- need (fields x); mret (finish x e v)) (fields x ++ L)).
  { eapply tr_bind; [apply tr_need|]. intros a. apply tr_keep, writes_ret. }
  destruct (gate x) as [g|]; [destruct (Bool.eqb g b); [exact H|apply tr_raise]|exact H].
Qed.
Lemma tr_get1 L b x : tr L (get1 b x) (fields x ++ L).
Proof. unfold get1. eapply tr_bind; [apply tr_getter|]. intros a. apply tr_keep, writes_ret. Qed.
Lemma tr_get2 L b x : tr L (get2 b x) (fields x ++ L).
Proof. unfold get2. eapply tr_bind; [apply tr_getter|]. intros a. apply tr_keep, writes_ret. Qed.
Lemma tr_get3 L b x : tr L (get3 b x) (fields x ++ L).
Proof. unfold get3. eapply tr_bind; [apply tr_getter|]. intros a. apply tr_keep, writes_ret. Qed.

Ltac tr_step := match goal with
  | |- tr _ (mbind (mtell _) _) _ => eapply tr_bind; [apply tr_tell|intro]
  | |- tr _ (mbind (get2 _ get_c) _) _ => eapply tr_bind; [apply tr_get2|intro]
  | |- tr _ (mbind _ _) _ => eapply tr_bind; [apply tr_keep; repeat wr_step|intro]
  | |- tr _ (let _ := _ in _) _ => cbv zeta
  | |- tr _ (match ?x with _ => _ end) _ => destruct x
  | |- tr _ (mraise _) _ => apply tr_raise
  | |- tr _ (mtell _) _ => eapply tr_incl; [apply tr_tell|]
  | |- tr _ (mret _) _ => eapply tr_incl; [apply tr_keep, writes_ret|]
  end.
Ltac in_list := unfold numprops; cbn [map concat app fields]; intros ? ?; cbn [In] in *; tauto.

Lemma tr_geometric g s : tr [] (calculate_geometric g s) geometric_props.
Proof. unfold calculate_geometric, geometric_props. repeat tr_step. in_list. Qed.

Lemma tr_warping l g s st : tr [] (calculate_warping l g s st) (warping_props ++ [M_Props.p_cx; M_Props.p_cy]).
Proof.
  unfold calculate_warping. eapply tr_bind; [apply tr_keep, writes_guard|intro]. unfold warping_props. repeat tr_step. in_list.
Qed.

Lemma tr_frame l g s st : tr [] (calculate_frame l g s st) frame_props.
Proof. unfold calculate_frame, frame_props. repeat tr_step. in_list. Qed.
