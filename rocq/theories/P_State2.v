(** Proofs about histories of calls: evaluation of the analyses, and the invariant of the stored values. *)
From Coq Require Import String Reals List Bool Arith Lra Lia.
From Verif Require Import Base M_Fea M_Section M_Stress M_Init M_Bisect M_Plastic M_Solver M_Props M_State S_Init S_State.
From Verif Require Import P_Yield P_Init P_State.
From Verif Require Import M_Post.
Import ListNotations.
Local Open Scope R_scope.

Lemma need_ok l : forall p v, all_values (num p) l = Some v -> need l p = (p, Ok v).
Proof.
  induction l as [|x l IH]; intros p v H; cbn [all_values need] in *; [injection H as <-; reflexivity|].
  unfold mbind, mget. destruct (num p x) as [a|]; [|discriminate]. destruct (all_values (num p) l) as [r|] eqn:E; [|discriminate].
  injection H as <-. rewrite (IH p r E). reflexivity.
Qed.
Lemma need_values l : forall p v, snd (need l p) = Ok v <-> all_values (num p) l = Some v.
Proof.
  intros p v. split; [|intros H; rewrite (need_ok l p v H); reflexivity]. revert p v.
  induction l as [|x l IH]; intros p v H; cbn [all_values need] in *; [injection H as <-; reflexivity|].
  unfold mbind, mget in H. destruct (num p x) as [a|]; [|discriminate H]. pose proof (need_state l p) as Es. specialize (IH p).
  destruct (need l p) as [p' [r|e]]; [|discriminate H]. cbn [snd fst] in *. injection H as <-. rewrite (IH r eq_refl). reflexivity.
Qed.
Lemma need_err l p e : snd (need l p) = Err e -> e = RuntimeError.
Proof.
  revert p. induction l as [|x l IH]; intros p H; [discriminate H|]. cbn [need] in H. unfold mbind, mget in H.
  destruct (num p x) as [a|]; [|injection H as <-; reflexivity]. specialize (IH p). destruct (need l p) as [p' [r|e']]; [discriminate H|].
  cbn [snd] in *. injection H as <-. apply IH. reflexivity.
Qed.

Lemma allowed_gate b x : allowed b x <-> (match gate x with Some g => Bool.eqb g b | None => true end) = true.
Proof. destruct x; cbn [allowed gate]; destruct b; cbn [Bool.eqb]; split; intros; try reflexivity; try discriminate; try exact I. Qed.

Lemma getter_ok b x e p v : allowed b x -> all_values (num p) (fields x) = Some v -> run_getter b x e p = (p, Ok (finish x e v)).
Proof.
  intros Ha Hv. apply allowed_gate in Ha. unfold run_getter. destruct (gate x) as [g|]; [rewrite Ha|]; unfold mbind; rewrite (need_ok _ p v Hv); reflexivity.
Qed.
Lemma getter_returns b x e p v : snd (run_getter b x e p) = Ok v <-> allowed b x /\ exists u, all_values (num p) (fields x) = Some u /\ v = finish x e u.
Proof.
  split.
  - intros H. unfold run_getter in H. rewrite allowed_gate.
    assert (K : snd ((do v <- need (fields x); mret (finish x e v)) p) = Ok v -> exists u, all_values (num p) (fields x) = Some u /\ v = finish x e u).
    { unfold mbind. pose proof (need_values (fields x) p) as Hn. destruct (need (fields x) p) as [p' [u|er]]; cbn [snd mret]; [|discriminate].
      intros E. injection E as <-. exists u. split; [apply Hn; reflexivity|reflexivity]. }
    destruct (gate x) as [g|]; [destruct (Bool.eqb g b); [|discriminate H]|]; split; try reflexivity; apply K; exact H.
  - intros [Ha [u [Hu ->]]]. rewrite (getter_ok b x e p u Ha Hu). reflexivity.
Qed.
Lemma getter_err b x e p er : snd (run_getter b x e p) = Err er -> er = RuntimeError.
Proof.
  unfold run_getter. assert (K : snd ((do v <- need (fields x); mret (finish x e v)) p) = Err er -> er = RuntimeError).
  { unfold mbind. pose proof (need_err (fields x) p) as Hn. destruct (need (fields x) p) as [p' [u|er']]; cbn [snd mret]; [discriminate|].
    intros E. injection E as <-. apply Hn. reflexivity. }
  destruct (gate x) as [g|]; [destruct (Bool.eqb g b)|]; try exact K. intros E. injection E as <-. reflexivity.
Qed.

Lemma fields_has p l : (exists v, all_values (num p) l = Some v) <-> forall q, In q l -> has p q.
Proof.
  split.
  - intros [v Hv]. apply (need_present l p v). apply need_values, Hv.
  - induction l as [|x l IH]; intros H; [exists []; reflexivity|]. cbn [all_values].
    destruct IH as [r Hr]; [intros q Hq; apply H; right; exact Hq|]. specialize (H x (or_introl eq_refl)). unfold has in H.
    destruct (num p x) as [a|]; [|contradiction]. rewrite Hr. exists (a :: r). reflexivity.
Qed.

(** ** Frame analysis *)
Definition no_mod (s : section_obj) : Prop := is_composite (s_mats s) = false -> forall el, In el (s_tris s) -> m_E (el_mat el) = 1.

Definition frame_head (s : section_obj) : list write :=
  let t := the_totals s in let c := the_centroidal s in
  [WNum M_Props.p_area 0; WNum M_Props.p_ea 0; WNum M_Props.p_qx 0; WNum M_Props.p_qy 0; WNum M_Props.p_ixx_g 0; WNum M_Props.p_iyy_g 0; WNum M_Props.p_ixy_g 0;
   WNum M_Props.p_ixx_c 0; WNum M_Props.p_iyy_c 0; WNum M_Props.p_ixy_c 0; WNum M_Props.p_j 0; WNum M_Props.p_phi 0] ++
  [WNum M_Props.p_area (t_area t); WNum M_Props.p_ea (t_ea t); WNum M_Props.p_qx (t_qx t); WNum M_Props.p_qy (t_qy t);
   WNum M_Props.p_ixx_g (t_ixx_g t); WNum M_Props.p_iyy_g (t_iyy_g t); WNum M_Props.p_ixy_g (t_ixy_g t);
   WNum M_Props.p_cx (p_cx c); WNum M_Props.p_cy (p_cy c)] ++
  [WNum M_Props.p_ixx_c (p_ixx_c c); WNum M_Props.p_iyy_c (p_iyy_c c); WNum M_Props.p_ixy_c (p_ixy_c c)] ++ [WNum M_Props.p_phi (p_phi c)].

Definition frame_tail (l : libs) (g : geometry) (s : section_obj) (solver_type : string) : M frame_out :=
  let comp := is_composite (s_mats s) in
  do ws <- mlift (section_init (g_mesh g) (g_mats g));
  do (cx, cy) <- get2 comp get_c;
  let n := length (s_nodes ws) in
  let wels := map (shift_el cx cy) (s_tris ws) in
  let '(k_lg, f_torsion) := assemble_torsion n wels in
  do omega <- mlift (choose_solver l solver_type (length (s_nodes s)) n k_lg f_torsion);
  mtell [WVec a_omega omega] ;;
  do (ixx_c, iyy_c, _) <- get3 comp (if comp then get_eic else get_ic);
  mtell [WNum M_Props.p_j (ixx_c + iyy_c - dotn n omega f_torsion)] ;;
  do v <- need [M_Props.p_area; M_Props.p_ixx_c; M_Props.p_iyy_c; M_Props.p_ixy_c; M_Props.p_j; M_Props.p_phi];
  mret (mkFrame (nth 0 v 0) (nth 1 v 0) (nth 2 v 0) (nth 3 v 0) (nth 4 v 0) (nth 5 v 0)).

Lemma bind_ok {A B} (m : M A) (f : A -> M B) p p' a : m p = (p', Ok a) -> mbind m f p = f a p'.
Proof. intros H. unfold mbind. rewrite H. reflexivity. Qed.
Lemma bind_err {A B} (m : M A) (f : A -> M B) p p' e : m p = (p', Err e) -> mbind m f p = (p', Err e).
Proof. intros H. unfold mbind. rewrite H. reflexivity. Qed.
Lemma tell_bind {B} l (f : unit -> M B) p : mbind (mtell l) f p = f tt (apply_writes p l).
Proof. reflexivity. Qed.
Lemma lift_ok {A B} (a : A) (f : A -> M B) p : mbind (mlift (Ok a)) f p = f a p.
Proof. reflexivity. Qed.
Lemma Rdiv_one x : x / 1 = x. Proof. field. Qed.

Lemma get1_ok b x p v : allowed b x -> num p (nth 0 (fields x) M_Props.p_area) = Some v -> length (fields x) = 1%nat -> get1 b x p = (p, Ok v).
Proof.
  intros Ha Hv Hl. assert (F : finish x (ENum 1) [v] = [v]) by (destruct x; try discriminate Hl; cbn [finish has_e_ref map e_value]; rewrite ?Rdiv_one; reflexivity).
  assert (V : all_values (num p) (fields x) = Some [v]).
  { destruct (fields x) as [|q0 [|q1 [|q2 [|q3 r]]]]; try discriminate Hl; cbn [nth] in *; cbn [all_values]; rewrite Hv; reflexivity. }
  unfold get1. rewrite (bind_ok _ _ p p [v]); [reflexivity|]. rewrite <- F. apply getter_ok; assumption.
Qed.
Lemma get2_ok b x p v w : allowed b x -> num p (nth 0 (fields x) M_Props.p_area) = Some v -> num p (nth 1 (fields x) M_Props.p_area) = Some w ->
  length (fields x) = 2%nat -> get2 b x p = (p, Ok (v, w)).
Proof.
  intros Ha Hv Hw Hl. assert (F : finish x (ENum 1) [v; w] = [v; w]) by (destruct x; try discriminate Hl; cbn [finish has_e_ref map e_value]; rewrite ?Rdiv_one; reflexivity).
  assert (V : all_values (num p) (fields x) = Some [v; w]).
  { destruct (fields x) as [|q0 [|q1 [|q2 [|q3 r]]]]; try discriminate Hl; cbn [nth] in *; cbn [all_values]; rewrite Hv, Hw; reflexivity. }
  unfold get2. rewrite (bind_ok _ _ p p [v; w]); [reflexivity|]. rewrite <- F. apply getter_ok; assumption.
Qed.
Lemma get3_ok b x p u v w : allowed b x -> num p (nth 0 (fields x) M_Props.p_area) = Some u -> num p (nth 1 (fields x) M_Props.p_area) = Some v ->
  num p (nth 2 (fields x) M_Props.p_area) = Some w -> length (fields x) = 3%nat -> get3 b x p = (p, Ok (u, v, w)).
Proof.
  intros Ha Hu Hv Hw Hl. assert (F : finish x (ENum 1) [u; v; w] = [u; v; w]) by (destruct x; try discriminate Hl; cbn [finish has_e_ref map e_value]; rewrite ?Rdiv_one; reflexivity).
  assert (V : all_values (num p) (fields x) = Some [u; v; w]).
  { destruct (fields x) as [|q0 [|q1 [|q2 [|q3 r]]]]; try discriminate Hl; cbn [nth] in *; cbn [all_values]; rewrite Hu, Hv, Hw; reflexivity. }
  unfold get3. rewrite (bind_ok _ _ p p [u; v; w]); [reflexivity|]. rewrite <- F. apply getter_ok; assumption.
Qed.

Ltac lookup := rewrite ?num_writes; cbn [last_write app]; 
  repeat match goal with |- context[prop_eq_dec ?a ?b] => let r := eval cbv in (prop_eq_dec a b) in change (prop_eq_dec a b) with r; cbv iota end.

Lemma frame_split l g s st p : no_mod s -> calculate_frame l g s st p = frame_tail l g s st (apply_writes p (frame_head s)).
Proof.
  intros Hu. unfold calculate_frame. rewrite frame_loop_totals. cbv zeta. cbn [f_area f_ea f_qx f_qy f_ixx_g f_iyy_g f_ixy_g].
  set (t := section_totals (s_tris s)). set (comp := is_composite (s_mats s)) in *.
  rewrite !tell_bind. cbv beta.
  set (p2 := apply_writes (apply_writes p _) _).
  rewrite (bind_ok _ _ p2 p2 (t_ea t)); [|].
  2:{ destruct comp eqn:Ec; [apply get1_ok; [reflexivity| |reflexivity]|apply get1_ok; [exact I| |reflexivity]]; cbn [fields nth]; unfold p2; lookup; [reflexivity|].
      unfold t; rewrite (unit_ea (s_tris s) (Hu Ec)). reflexivity. }
  rewrite (bind_ok _ _ p2 p2 (t_qx t, t_qy t)); [|].
  2:{ destruct comp eqn:Ec; apply get2_ok; try reflexivity; cbn [fields nth]; unfold p2; lookup; reflexivity. }
  cbv beta iota.
  rewrite (bind_ok _ _ p2 p2 (t_ixx_g t, t_iyy_g t, t_ixy_g t)); [|].
  2:{ destruct comp eqn:Ec; apply get3_ok; try reflexivity; cbn [fields nth]; unfold p2; lookup; reflexivity. }
  cbv beta iota. rewrite !tell_bind. cbv beta. set (c := the_centroidal s).
  set (p3 := apply_writes p2 _).
  rewrite (bind_ok _ _ p3 p3 (p_ixx_c c, p_iyy_c c, p_ixy_c c)); [|].
  2:{ destruct comp eqn:Ec; apply get3_ok; try reflexivity; cbn [fields nth]; unfold p3, p2; lookup; reflexivity. }
  cbv beta iota. rewrite !tell_bind. cbv beta.
  unfold frame_head. rewrite !apply_writes_app. reflexivity.
Qed.

Lemma writes_ftail l g s st : writes frame_props [a_omega] (frame_tail l g s st).
Proof. unfold frame_tail, frame_props. repeat wr_step. Qed.

(** Whatever happens in the linear solver, the frame analysis leaves these. *)
Lemma frame_leaves l g s st p q : no_mod s -> In q frame_props -> has (fst (calculate_frame l g s st p)) q.
Proof.
  intros Hu Hq. rewrite (frame_split l g s st p Hu). eapply writes_mono; [apply writes_ftail|].
  unfold has. rewrite num_writes. destruct (last_write (frame_head s) q) eqn:E; [discriminate|]. exfalso.
  assert (I : In q (numprops (frame_head s))); [|apply last_write_some in I; contradiction].
  unfold frame_head, numprops, frame_props in *. cbn [map concat app] in *. cbn [In] in *. tauto.
Qed.

Section Inv.
Variables (l : libs) (g : geometry) (s : section_obj) (st : string).
Hypothesis Hb : built g s.
Hypothesis Hu : no_mod s.
Notation pv := (property_value l g s st).
Notation av := (array_value l s st).
Notation c := (the_centroidal s).
Notation t := (the_totals s).
Notation n := (length (s_nodes s)).

(** After the frame analysis with the geometry of the section. *)
Lemma frame_eval p : calculate_frame l g s st p =
  let p1 := apply_writes p (frame_head s) in
  match the_torsion l s st with
  | Ok (om, j) => (apply_writes p1 [WVec a_omega om; WNum M_Props.p_j j],
                   Ok (mkFrame (t_area t) (p_ixx_c c) (p_iyy_c c) (p_ixy_c c) j (p_phi c)))
  | Err e => (p1, Err e)
  end.
Proof.
  rewrite (frame_split l g s st p Hu). unfold frame_tail. rewrite (proj1 Hb), lift_ok. cbv zeta.
  set (comp := is_composite (s_mats s)). set (p1 := apply_writes p (frame_head s)).
  rewrite (bind_ok _ _ p1 p1 (p_cx c, p_cy c)); [|].
  2:{ apply get2_ok; [exact I| | |reflexivity]; cbn [fields nth]; unfold p1, frame_head; lookup; reflexivity. }
  cbv beta iota. unfold the_torsion, the_solver. destruct (assemble_torsion n _) as [K f].
  destruct (choose_solver l st n n K f) as [om|e]; [|reflexivity]. rewrite lift_ok. cbn [bind]. rewrite tell_bind. cbv beta.
  set (p4 := apply_writes p1 [WVec a_omega om]).
  rewrite (bind_ok _ _ p4 p4 (p_ixx_c c, p_iyy_c c, p_ixy_c c)); [|].
  2:{ destruct comp eqn:Ec; apply get3_ok; try reflexivity; cbn [fields nth]; unfold p4, p1, frame_head; lookup; reflexivity. }
  cbv beta iota. rewrite tell_bind. cbv beta. unfold p4.
  rewrite <- apply_writes_app. cbn [app]. set (j := _ - _). set (p5 := apply_writes p1 _).
  rewrite (bind_ok _ _ p5 p5 [t_area t; p_ixx_c c; p_iyy_c c; p_ixy_c c; j; p_phi c]); [reflexivity|].
  apply need_ok. cbn [all_values]. unfold p5, p1, frame_head; lookup. reflexivity.
Qed.

(** Geometric analysis *)
Definition geo_writes (z : moduli) : list write :=
  let my := yield_moments c (s_group_tris s) in
  [WNum M_Props.p_area 0; WNum M_Props.p_perimeter 0; WNum M_Props.p_mass 0; WNum M_Props.p_ea 0; WNum M_Props.p_ga 0; WNum M_Props.p_qx 0; WNum M_Props.p_qy 0;
   WNum M_Props.p_ixx_g 0; WNum M_Props.p_iyy_g 0; WNum M_Props.p_ixy_g 0; WNum M_Props.p_perimeter (g_perimeter g)] ++
  [WNum M_Props.p_area (t_area t); WNum M_Props.p_mass (t_mass t); WNum M_Props.p_ea (t_ea t); WNum M_Props.p_ga (t_ga t);
   WNum M_Props.p_qx (t_qx t); WNum M_Props.p_qy (t_qy t); WNum M_Props.p_ixx_g (t_ixx_g t);
   WNum M_Props.p_iyy_g (t_iyy_g t); WNum M_Props.p_ixy_g (t_ixy_g t)] ++
  [WNum M_Props.p_nu_eff (nu_eff t); WNum M_Props.p_e_eff (e_eff t); WNum M_Props.p_g_eff (g_eff t);
   WNum M_Props.p_cx (p_cx c); WNum M_Props.p_cy (p_cy c);
   WNum M_Props.p_ixx_c (p_ixx_c c); WNum M_Props.p_iyy_c (p_iyy_c c); WNum M_Props.p_ixy_c (p_ixy_c c)] ++
  [WNum M_Props.p_zxx_plus (z_xx_plus z); WNum M_Props.p_zxx_minus (z_xx_minus z);
   WNum M_Props.p_zyy_plus (z_yy_plus z); WNum M_Props.p_zyy_minus (z_yy_minus z);
   WNum M_Props.p_rx_c (z_rx z); WNum M_Props.p_ry_c (z_ry z);
   WNum M_Props.p_i11_c (p_i11_c c); WNum M_Props.p_i22_c (p_i22_c c); WNum M_Props.p_phi (p_phi c);
   WNum M_Props.p_z11_plus (z_11_plus z); WNum M_Props.p_z11_minus (z_11_minus z);
   WNum M_Props.p_z22_plus (z_22_plus z); WNum M_Props.p_z22_minus (z_22_minus z);
   WNum M_Props.p_r11_c (z_r11 z); WNum M_Props.p_r22_c (z_r22 z);
   WNum M_Props.p_my_xx 0; WNum M_Props.p_my_yy 0; WNum M_Props.p_my_11 0; WNum M_Props.p_my_22 0] ++
  [WNum M_Props.p_my_xx (q_xx my); WNum M_Props.p_my_yy (q_yy my); WNum M_Props.p_my_11 (q_11 my); WNum M_Props.p_my_22 (q_22 my)].

Lemma geometric_eval p : exists z, moduli_of t c (s_nodes s) = Ok z /\ calculate_geometric g s p = (apply_writes p (geo_writes z), Ok tt).
Proof.
  destruct (moduli_of t c (s_nodes s)) as [z|e] eqn:Ez.
  - exists z. split; [reflexivity|]. unfold calculate_geometric. cbv zeta. rewrite !tell_bind. cbv beta.
    unfold the_centroidal, the_totals in Ez. rewrite Ez, lift_ok. rewrite tell_bind. unfold geo_writes. rewrite !apply_writes_app. reflexivity.
  - exfalso. destruct Hb as [_ Hn]. unfold moduli_of in Ez. destruct (s_nodes s); [apply Hn; reflexivity|discriminate Ez].
Qed.

(** ** The invariant: stored values are the values of the properties *)
Definition Inv (p : props) : Prop :=
  (forall q v, num p q = Some v -> q <> M_Props.p_j -> pv q = Some v) /\
  (forall v, num p M_Props.p_j = Some v -> pv M_Props.p_j = Some v \/ (pv M_Props.p_j = None /\ v = 0)) /\
  (forall a u, vec p a = Some u -> av a = Some u).

Definition good (w : write) : Prop := match w with WNum q v => pv q = Some v | WVec a u => av a = Some u end.

Lemma inv_last p ws : Inv p -> (forall q v, last_write ws q = Some v -> pv q = Some v) -> (forall a u, last_vec ws a = Some u -> av a = Some u) ->
  Inv (apply_writes p ws).
Proof.
  intros [A [B C]] H1 H2. split; [|split].
  - intros q v Hv Hq. rewrite num_writes in Hv. destruct (last_write ws q) as [x|] eqn:E; [injection Hv as <-; apply H1, E|apply A; assumption].
  - intros v Hv. rewrite num_writes in Hv. destruct (last_write ws M_Props.p_j) as [x|] eqn:E; [injection Hv as <-; left; apply H1, E|apply B; assumption].
  - intros a u Hv. rewrite vec_writes in Hv. destruct (last_vec ws a) as [x|] eqn:E; [injection Hv as <-; apply H2, E|apply C; assumption].
Qed.
Lemma last_vec_in ws a u : last_vec ws a = Some u -> In (WVec a u) ws.
Proof.
  induction ws as [|w ws IH]; [discriminate|]. destruct w as [p x|b y]; cbn [last_vec].
  - intros E. right. apply IH. exact E.
  - destruct (last_vec ws a) as [z|]; [intros E; right; apply IH; exact E|]. destruct (arr_eq_dec a b) as [->|]; [|discriminate].
    intros E. injection E as ->. left. reflexivity.
Qed.
Lemma inv_good p ws : Inv p -> Forall good ws -> Inv (apply_writes p ws).
Proof.
  intros H HF. rewrite Forall_forall in HF. apply inv_last; [exact H| |].
  - intros q v E. apply (HF (WNum q v)). apply last_write_in, E.
  - intros a u E. apply (HF (WVec a u)). apply last_vec_in, E.
Qed.

Ltac lookup_in H := cbn [last_write app] in H;
  repeat match type of H with context[prop_eq_dec ?a ?b] => let r := eval cbv in (prop_eq_dec a b) in change (prop_eq_dec a b) with r in H; cbv iota in H end.

Lemma inv_geometric p : Inv p -> Inv (fst (calculate_geometric g s p)).
Proof.
  intros H. destruct (geometric_eval p) as [z [Ez ->]]. cbn [fst]. apply inv_last; [exact H| |intros a u E; discriminate E].
  intros q v E. unfold geo_writes in E. cbv zeta in E.
  destruct q; lookup_in E; try discriminate E; injection E as <-; cbn [property_value geometric_value]; unfold of_moduli; rewrite ?Ez; reflexivity.
Qed.

Lemma inv_head p : Inv p -> let p1 := apply_writes p (frame_head s) in
  (forall q v, num p1 q = Some v -> q <> M_Props.p_j -> pv q = Some v) /\ num p1 M_Props.p_j = Some 0 /\ (forall a u, vec p1 a = Some u -> av a = Some u).
Proof.
  intros [A [B C]]. cbv zeta. split; [|split].
  - intros q v Hv Hq. rewrite num_writes in Hv. destruct (last_write (frame_head s) q) as [x|] eqn:E; [|apply A; assumption]. injection Hv as <-.
    unfold frame_head in E. cbv zeta in E. destruct q; lookup_in E; try discriminate E; try (contradiction Hq; reflexivity); injection E as <-; reflexivity.
  - rewrite num_writes. unfold frame_head. cbv zeta. lookup. reflexivity.
  - intros a u Hv. rewrite vec_writes in Hv. apply C. exact Hv.
Qed.

Lemma inv_frame p : Inv p -> Inv (fst (calculate_frame l g s st p)).
Proof.
  intros H. rewrite (frame_eval p). cbv zeta. destruct (inv_head p H) as [A [B C]]. cbv zeta in A, B, C.
  destruct (the_torsion l s st) as [[om j]|e] eqn:ET; cbn [fst].
  - set (p1 := apply_writes p (frame_head s)) in *. split; [|split].
    + intros q v Hv Hq. rewrite num_writes in Hv. cbn [last_write] in Hv. destruct (prop_eq_dec q M_Props.p_j) as [->|]; [contradiction|]. apply A; assumption.
    + intros v Hv. rewrite num_writes in Hv. cbn [last_write] in Hv. destruct (prop_eq_dec M_Props.p_j M_Props.p_j) as [_|N]; [|contradiction N; reflexivity]. injection Hv as <-.
      left. cbn [property_value]. rewrite ET. reflexivity.
    + intros a u Hv. rewrite vec_writes in Hv. cbn [last_vec] in Hv. destruct (arr_eq_dec a a_omega) as [->|]; [injection Hv as <-|apply C; exact Hv].
      cbn [array_value]. rewrite ET. reflexivity.
  - split; [exact A|split; [|exact C]]. intros v Hv. rewrite B in Hv. injection Hv as <-. right. split; [|reflexivity]. cbn [property_value]. rewrite ET. reflexivity.
Qed.

(** Methods that only store values of the properties *)
Definition keeps {A} (m : M A) (Q : A -> Prop) : Prop :=
  forall p, Inv p -> Inv (fst (m p)) /\ (forall a, snd (m p) = Ok a -> Q a).
Lemma k_bind {A B} (m : M A) (f : A -> M B) Q Q' : keeps m Q -> (forall a, Q a -> keeps (f a) Q') -> keeps (mbind m f) Q'.
Proof.
  intros Hm Hf p Hp. destruct (Hm p Hp) as [I1 H1]. unfold mbind. destruct (m p) as [p' [a|e]]; cbn [fst snd] in *.
  - apply (Hf a (H1 a eq_refl) p' I1).
  - split; [exact I1|discriminate].
Qed.
Lemma k_tell ws : Forall good ws -> keeps (mtell ws) (fun _ => True).
Proof. intros HF p Hp. split; [apply inv_good; assumption|intros; exact I]. Qed.
Lemma k_lift {A} (r : result A) : keeps (mlift r) (fun a => r = Ok a).
Proof. intros p Hp. split; [exact Hp|intros a E; exact E]. Qed.
Lemma k_ret {A} (a : A) (Q : A -> Prop) : Q a -> keeps (mret a) Q.
Proof. intros H p Hp. split; [exact Hp|intros b E; injection E as <-; exact H]. Qed.
Lemma k_raise {A} e (Q : A -> Prop) : keeps (mraise e) Q.
Proof. intros p Hp. split; [exact Hp|intros a E; discriminate E]. Qed.
Lemma k_read {A} (m : M A) : writes [] [] m -> keeps m (fun _ => True).
Proof. intros H p Hp. rewrite (writes_nothing m p H). split; [exact Hp|intros; exact I]. Qed.

Lemma inv_values p qs v : Inv p -> ~ In M_Props.p_j qs -> all_values (num p) qs = Some v -> all_values pv qs = Some v.
Proof.
  intros [A _]. revert v. induction qs as [|q qs IH]; intros v Hj H; cbn [all_values] in *; [exact H|].
  destruct (num p q) as [x|] eqn:Eq; [|discriminate]. destruct (all_values (num p) qs) as [r|] eqn:Er; [|discriminate].
  rewrite (A q x Eq), (IH r); [exact H|intros HH; apply Hj; right; exact HH|reflexivity|intros ->; apply Hj; left; reflexivity].
Qed.
Lemma k_getter b x : ~ In M_Props.p_j (fields x) -> keeps (run_getter b x (ENum 1)) (fun v => exists u, all_values pv (fields x) = Some u /\ v = finish x (ENum 1) u).
Proof.
  intros Hj p Hp. rewrite (writes_nothing (run_getter b x (ENum 1)) p (writes_getter [] [] _ _ _)). split; [exact Hp|].
  intros v Hv. apply getter_returns in Hv. destruct Hv as [_ [u [Hx ->]]]. exists u. split; [apply (inv_values p); assumption|reflexivity].
Qed.
Lemma finish_one x u : In x [get_area; get_ea; get_eic; get_ic; get_c; get_phi; get_nu_eff; get_eip; get_ip] -> finish x (ENum 1) u = u.
Proof.
  intros H. cbn [In] in H. repeat (destruct H as [<-|H]); try destruct H; cbn [finish has_e_ref]; try reflexivity;
    cbn [e_value]; rewrite (map_ext _ (fun a => a) Rdiv_one); apply map_id.
Qed.
Lemma k_get1 b x : In x [get_area; get_ea; get_phi; get_nu_eff] -> keeps (get1 b x) (fun v => pv (nth 0 (fields x) M_Props.p_area) = Some v).
Proof.
  intros H. unfold get1. eapply k_bind; [apply k_getter; cbn [In] in H; repeat (destruct H as [<-|H]; [cbn [fields In]; intros [E|[]]; discriminate E|]); destruct H|].
  intros v [u [Hv ->]]. apply k_ret. rewrite finish_one; [|cbn [In] in *; tauto].
  cbn [In] in H. repeat (destruct H as [<-|H]; [cbn [fields nth all_values] in *; destruct (pv _) as [y|]; [injection Hv as <-; reflexivity|discriminate Hv]|]); destruct H.
Qed.
Lemma k_get2 b x : In x [get_c; get_eip; get_ip] -> keeps (get2 b x) (fun v => pv (nth 0 (fields x) M_Props.p_area) = Some (fst v) /\ pv (nth 1 (fields x) M_Props.p_area) = Some (snd v)).
Proof.
  intros H. unfold get2. eapply k_bind; [apply k_getter; cbn [In] in H; repeat (destruct H as [<-|H]; [cbn [fields In]; intros [E|[E|[]]]; discriminate E|]); destruct H|].
  intros v [u [Hv ->]]. apply k_ret. rewrite finish_one; [|cbn [In] in *; tauto].
  cbn [In] in H. repeat (destruct H as [<-|H]; [cbn [fields nth all_values property_value geometric_value] in *; injection Hv as <-; split; reflexivity|]); destruct H.
Qed.
Lemma k_get3 b x : In x [get_eic; get_ic] -> keeps (get3 b x) (fun v => v = (p_ixx_c c, p_iyy_c c, p_ixy_c c)).
Proof.
  intros H. unfold get3. eapply k_bind; [apply k_getter; cbn [In] in H; repeat (destruct H as [<-|H]; [cbn [fields In]; intros [E|[E|[E|[]]]]; discriminate E|]); destruct H|].
  intros v [u [Hv ->]]. apply k_ret. rewrite finish_one; [|cbn [In] in *; tauto].
  cbn [In] in H. repeat (destruct H as [<-|H]; [cbn [fields nth all_values property_value geometric_value] in *; injection Hv as <-; reflexivity|]); destruct H.
Qed.

Lemma the_ea : t_ea t = if is_composite (s_mats s) then t_ea t else t_area t.
Proof. destruct (is_composite (s_mats s)) eqn:E; [reflexivity|]. apply (unit_ea (s_tris s) (Hu E)). Qed.

Lemma Some_inj {A} (a b : A) : Some a = Some b -> a = b.
Proof. intros E. injection E as E. exact E. Qed.
Lemma pair_inj {A B} (a a' : A) (b b' : B) : (a, b) = (a', b') -> a = a' /\ b = b'.
Proof. intros E. injection E as E1 E2. split; assumption. Qed.
Lemma triple_inj {A B C} (a a' : A) (b b' : B) (d d' : C) : (a, b, d) = (a', b', d') -> a = a' /\ b = b' /\ d = d'.
Proof. intros E. injection E as E1 E2 E3. repeat split; assumption. Qed.

Lemma keeps_warping : keeps (calculate_warping l g s st) (fun _ => True).
Proof.
  unfold calculate_warping. set (comp := is_composite (s_mats s)).
  eapply k_bind; [apply k_read, writes_guard|]. intros _ _. rewrite (proj1 Hb). eapply k_bind; [apply k_lift|]. intros ws E. injection E as <-. 
  eapply k_bind; [apply k_get2; left; reflexivity|]. intros [cx cy] [E1 E2]. cbn [fields nth property_value geometric_value fst snd] in E1, E2. apply Some_inj in E1. apply Some_inj in E2. subst cx cy.
  cbv zeta. destruct (assemble_torsion n (map (shift_el (p_cx c) (p_cy c)) (s_tris s))) as [K f] eqn:EA.
  eapply k_bind; [apply k_lift|]. intros om Eom.
  assert (ET : the_torsion l s st = Ok (om, p_ixx_c c + p_iyy_c c - dotn n om f)) by (unfold the_torsion, the_solver; rewrite EA, Eom; reflexivity).
  eapply k_bind; [apply k_tell|]. { constructor; [|constructor]. cbn [good array_value]. rewrite ET. reflexivity. } intros _ _.
  eapply k_bind; [apply k_get3; destruct comp; cbn [In]; tauto|]. intros [[a b] d] E. apply triple_inj in E. destruct E as [-> [-> ->]].
  eapply k_bind; [apply k_tell|]. { constructor; [|constructor]. cbn [good property_value]. rewrite ET. reflexivity. } intros _ _.
  eapply (k_bind _ _ (fun nu => nu = (if comp then nu_eff t else 0))).
  { destruct comp; [|apply k_ret; reflexivity]. intros p Hp. destruct (k_get1 true get_nu_eff ltac:(cbn [In]; tauto) p Hp) as [A B]. split; [exact A|].
    intros v Hv. specialize (B v Hv). cbn [fields nth property_value geometric_value] in B. apply Some_inj in B. symmetry. exact B. }
  intros nu Enu. rewrite Nat.eqb_refl. destruct (assemble_shear_load _ _ _ _ _) as [fp fh] eqn:ES.
  eapply k_bind; [apply k_lift|]. intros ps Eps. eapply k_bind; [apply k_lift|]. intros ph Eph.
  destruct (shear_deformation (p_ixx_c c) (p_iyy_c c) (p_ixy_c c) nu ps ph (map (shift_el (p_cx c) (p_cy c)) (s_tris s))) as [[kx ky] kxy] eqn:EK.
  destruct (principal_coordinate (p_phi c)
     (1 / (2 * (1 + nu) * (p_ixx_c c * p_iyy_c c - p_ixy_c c ^ 2)) * (nu / 2 * wi_scx (sc_warping_integrals (p_ixx_c c) (p_iyy_c c) (p_ixy_c c) om (map (shift_el (p_cx c) (p_cy c)) (s_tris s))) - dotn n f ph))
     (1 / (2 * (1 + nu) * (p_ixx_c c * p_iyy_c c - p_ixy_c c ^ 2)) * (nu / 2 * wi_scy (sc_warping_integrals (p_ixx_c c) (p_iyy_c c) (p_ixy_c c) om (map (shift_el (p_cx c) (p_cy c)) (s_tris s))) + dotn n f ps))) as [x11 y22] eqn:EP.
  assert (EW : exists w, the_warping l s st = Ok w /\ True).
  { unfold the_warping, warping_analysis. fold comp. rewrite EA. unfold the_solver. rewrite Eom. cbn [bind]. rewrite <- Enu, ES, Eps. cbn [bind]. rewrite Eph. cbn [bind]. rewrite EP, EK. eexists. split; [reflexivity|exact I]. }
  destruct EW as [w [EW _]]. pose proof EW as EW'.
  unfold the_warping, warping_analysis in EW'. fold comp in EW'. rewrite EA in EW'. unfold the_solver in EW'. rewrite Eom in EW'. cbn [bind] in EW'. rewrite <- Enu, ES, Eps in EW'. cbn [bind] in EW'.
  rewrite Eph in EW'. cbn [bind] in EW'. rewrite EP, EK in EW'. injection EW' as EW'.
  eapply k_bind; [apply k_tell|]. { repeat constructor; cbn [good array_value]; rewrite EW, <- EW'; reflexivity. } intros _ _.
  eapply k_bind; [apply k_get1; cbn [In]; tauto|]. intros phi Ephi. cbn [fields nth property_value geometric_value] in Ephi. apply Some_inj in Ephi. subst phi. rewrite EP.
  eapply k_bind; [apply k_tell|]. { repeat constructor; cbn [good property_value]; unfold of_warping; rewrite EW, <- EW'; reflexivity. } intros _ _.
  eapply (k_bind _ _ (fun ea => ea = (if comp then t_ea t else t_area t))).
  { intros p Hp. destruct (k_get1 comp (if comp then get_ea else get_area) ltac:(destruct comp; cbn [In]; tauto) p Hp) as [A B]. split; [exact A|].
    intros v Hv. specialize (B v Hv). destruct comp; cbn [fields nth property_value geometric_value] in B; apply Some_inj in B; symmetry; exact B. }
  intros ea Eea.
  eapply k_bind; [apply k_tell|]. { repeat constructor; cbn [good property_value]; unfold of_warping; rewrite EW, <- EW', Eea; reflexivity. } intros _ _.
  eapply k_bind; [apply k_tell|]. { repeat constructor; cbn [good property_value]; unfold of_warping; rewrite EW, <- EW'; reflexivity. } intros _ _.
  eapply k_bind; [apply k_get1; cbn [In]; tauto|]. intros area Earea. cbn [fields nth property_value geometric_value] in Earea. apply Some_inj in Earea. subst area.
  eapply k_bind; [apply k_tell|]. { repeat constructor; cbn [good property_value]; unfold of_warping; rewrite EW, <- EW'; reflexivity. } intros _ _.
  eapply (k_bind _ _ (fun v => v = (p_i11_c c, p_i22_c c))).
  { intros p Hp. destruct (k_get2 comp (if comp then get_eip else get_ip) ltac:(destruct comp; cbn [In]; tauto) p Hp) as [A B]. split; [exact A|].
    intros [v1 v2] Hv. specialize (B (v1, v2) Hv). destruct comp; cbn [fields nth property_value geometric_value fst snd] in B; destruct B as [B1 B2]; apply Some_inj in B1; apply Some_inj in B2; rewrite B1, B2; reflexivity. }
  intros [i11 i22] E. apply pair_inj in E. destruct E as [-> ->].
  apply k_tell. repeat constructor; cbn [good property_value]; unfold of_warping; rewrite EW, <- EW'; reflexivity.
Qed.
End Inv.
