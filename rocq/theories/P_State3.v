(** Proofs about histories of calls: the invariant along histories, availability of the getters, guards. *)
From Coq Require Import String Reals List Bool Arith Lra Lia.
From Verif Require Import Base M_Fea M_Section M_Stress M_Init M_Bisect M_Plastic M_Solver M_Props M_State S_Init S_State.
From Verif Require Import P_Yield P_Init P_State P_State2.
From Verif Require Import M_Post.
Import ListNotations.
Local Open Scope R_scope.

Lemma last_write_app a b q : last_write (a ++ b) q = match last_write b q with Some x => Some x | None => last_write a q end.
Proof.
  induction a as [|w a IH]; cbn [app last_write]; [destruct (last_write b q); reflexivity|].
  destruct w as [p v|r u]; rewrite IH; destruct (last_write b q); reflexivity.
Qed.

Lemma truthy_some x : truthy x = true -> exists v, x = Some v.
Proof. destruct x as [v|]; [intros _; exists v; reflexivity|discriminate]. Qed.

Lemma shape_factors_sub get can d a b c e q x :
  (forall r v, In r geometric_props -> get r = Some v -> can r = Some v) ->
  last_write (shape_factors get d a b c e) q = Some x -> last_write (shape_factors can d a b c e) q = Some x.
Proof.
  intros H. assert (T : forall r, In r geometric_props -> truthy (get r) = true -> can r = get r).
  { intros r Hr Ht. destruct (truthy_some _ Ht) as [v Hv]. rewrite Hv. apply H; assumption. }
  assert (N : forall (b1 b2 : bool) A B A' B', (b1 = true -> A' = A) -> (b2 = true -> B' = B) ->
     incl (numprops A') [p_sf_xx_plus; p_sf_xx_minus; p_sf_yy_plus; p_sf_yy_minus] ->
     incl (numprops B') [p_sf_11_plus; p_sf_11_minus; p_sf_22_plus; p_sf_22_minus] ->
     last_write ((if b1 then A else []) ++ (if b2 then B else [])) q = Some x -> last_write (A' ++ B') q = Some x).
  { intros b1 b2 A B A' B' HA HB IA IB. rewrite !last_write_app.
    assert (D : last_write A' q <> None -> last_write B' q = None).
    { intros HH. destruct (last_write B' q) eqn:EB; [|reflexivity]. exfalso. apply last_write_some in HH.
      assert (HB' : In q (numprops B')) by (apply last_write_some; rewrite EB; discriminate).
      apply IA in HH. apply IB in HB'. cbn [In] in HH, HB'. repeat (destruct HH as [<-|HH]; [repeat (destruct HB' as [HB'|HB']; [discriminate HB'|]); destruct HB'|]); destruct HH. }
    destruct b1; [rewrite (HA eq_refl) in *|]; (destruct b2; [rewrite (HB eq_refl) in *|]); cbn [last_write].
    - intros E; exact E.
    - intros E. rewrite D; [exact E|rewrite E; discriminate].
    - intros E. destruct (last_write B q); [exact E|discriminate E].
    - discriminate. }
  assert (G : forall r, In r geometric_props -> truthy (get r) = true -> can r = get r) by exact T.
  unfold shape_factors. destruct d; (apply N;
  [ intros E; repeat (apply andb_true_iff in E; let E2 := fresh "E" in destruct E as [E E2]);
    repeat match goal with K : truthy (get ?r) = true |- _ => pose proof (G r ltac:(unfold geometric_props; cbn [In]; tauto) K) as Q; rewrite Q; clear Q; revert K end; intros;
    repeat match goal with K : truthy (get ?r) = true |- _ => rewrite K; clear K end; reflexivity
  | intros E; repeat (apply andb_true_iff in E; let E2 := fresh "E" in destruct E as [E E2]);
    repeat match goal with K : truthy (get ?r) = true |- _ => pose proof (G r ltac:(unfold geometric_props; cbn [In]; tauto) K) as Q; rewrite Q; clear Q; revert K end; intros;
    repeat match goal with K : truthy (get ?r) = true |- _ => rewrite K; clear K end; reflexivity
  | match goal with |- incl (numprops (if ?b then _ else _)) _ => destruct b end; unfold numprops; cbn [map concat app]; intros ? K; cbn [In] in *; tauto
  | match goal with |- incl (numprops (if ?b then _ else _)) _ => destruct b end; unfold numprops; cbn [map concat app]; intros ? K; cbn [In] in *; tauto ]).
Qed.

Lemma pv_writes_none v k q : ~ In q [p_y_pc; p_sxx; p_x_pc; p_syy; p_y22_pc; p_s11; p_x11_pc; p_s22] -> last_write (firstn k (pv_writes v)) q = None.
Proof.
  intros H. destruct (last_write (firstn k (pv_writes v)) q) eqn:E; [|reflexivity]. destruct H.
  apply last_write_in in E. assert (E' : In (WNum q r) (pv_writes v)) by (rewrite <- (firstn_skipn k); apply in_or_app; left; exact E).
  unfold pv_writes in E'. cbn [In] in *. repeat (destruct E' as [E'|E']; [injection E' as <- _; tauto|]). destruct E'.
Qed.

Lemma sf_none get d a b c e q : In q [p_y_pc; p_sxx; p_x_pc; p_syy; p_y22_pc; p_s11; p_x11_pc; p_s22] -> last_write (shape_factors get d a b c e) q = None.
Proof.
  intros H. destruct (last_write _ q) eqn:E; [|reflexivity]. exfalso.
  assert (E' : In q (numprops (shape_factors get d a b c e))) by (apply last_write_some; rewrite E; discriminate). clear E.
  assert (K : In q [p_sf_xx_plus; p_sf_xx_minus; p_sf_yy_plus; p_sf_yy_minus; p_sf_11_plus; p_sf_11_minus; p_sf_22_plus; p_sf_22_minus]).
  { revert E'. unfold shape_factors. destruct d; rewrite numprops_app; intros E'; apply in_app_or in E';
      destruct E' as [E'|E'];
      match type of E' with In _ (numprops (if ?b then _ else _)) => destruct b end; unfold numprops in E'; cbn [map concat app In] in *; tauto. }
  cbn [In] in H, K. repeat (destruct H as [<-|H]; [repeat (destruct K as [K|K]; [discriminate K|]); destruct K|]). destruct H.
Qed.

Section Inv.
Variables (l : libs) (g : geometry) (s : section_obj) (st : string).
Hypothesis Hb : built g s.
Hypothesis Hu : no_mod s.
Notation pv := (property_value l g s st).

Definition basic_props : list prop :=
  [M_Props.p_area; M_Props.p_ea; M_Props.p_qx; M_Props.p_qy; M_Props.p_ixx_g; M_Props.p_iyy_g; M_Props.p_ixy_g; M_Props.p_cx; M_Props.p_cy;
   M_Props.p_ixx_c; M_Props.p_iyy_c; M_Props.p_ixy_c; M_Props.p_phi].
(** the attributes of a geometric or frame analysis come together *)
Definition closed (p : props) : Prop := has p M_Props.p_cx -> forall q, In q basic_props -> has p q.

Lemma plastic_props_value q : In q plastic_props -> pv q = last_write (fst (the_plastic l g s)) q.
Proof. intros H. unfold plastic_props in H. cbn [In] in H. repeat (destruct H as [<-|H]; [reflexivity|]). destruct H. Qed.

Lemma geometric_props_value q : In q geometric_props -> pv q = geometric_value g s q.
Proof. intros H. unfold geometric_props in H. cbn [In] in H. repeat (destruct H as [<-|H]; [reflexivity|]). destruct H. Qed.

Lemma inv_plastic p : closed p -> Inv l g s st p -> Inv l g s st (fst (calculate_plastic l g s p)).
Proof.
  intros Hc H. unfold calculate_plastic. unfold mbind, mget. destruct (num p M_Props.p_cx) as [cx|] eqn:Ecx; [|exact H].
  assert (Hp : has p M_Props.p_phi) by (apply Hc; [unfold has; rewrite Ecx; discriminate|unfold basic_props; cbn [In]; tauto]).
  unfold has in Hp. destruct (num p M_Props.p_phi) as [phi|] eqn:Ep; [|contradiction]. unfold mrun. cbn [fst].
  assert (Eg : geometric_value g s M_Props.p_phi = Some phi).
  { pose proof (proj1 H M_Props.p_phi phi Ep ltac:(discriminate)) as E. exact E. }
  apply inv_last; [exact H| |].
  2:{ intros a u E. apply last_vec_in in E. pose proof (proj2 (plastic_writes (l_brentq l) (g_plastic g) (num p) (negb (is_composite (s_mats s))))) as V.
      exfalso. assert (In a (vecprops (fst (plastic_analysis (l_brentq l) (g_plastic g) (num p) (negb (is_composite (s_mats s))))))) as K; [|rewrite V in K; destruct K].
      unfold vecprops. apply in_concat. exists [a]. split; [|left; reflexivity]. apply in_map_iff. eexists. split; [|exact E]. reflexivity. }
  intros q v E.
  assert (Iq : In q plastic_props).
  { apply (proj1 (plastic_writes (l_brentq l) (g_plastic g) (num p) (negb (is_composite (s_mats s))))). apply last_write_some. rewrite E. discriminate. }
  rewrite (plastic_props_value q Iq). unfold the_plastic.
  destruct (plastic_course (l_brentq l) (g_plastic g) phi) as [k [pvs HC]].
  destruct (HC (num p) (negb (is_composite (s_mats s))) Ep) as [[K1 E1]|[K1 E1]]; destruct (HC (geometric_value g s) (negb (is_composite (s_mats s))) Eg) as [[K2 E2]|[K2 E2]]; try lia; rewrite E1 in E; rewrite E2; cbn [fst] in *.
  - rewrite last_write_app in *. set (sf := shape_factors (num p) _ _ _ _ _) in E.
    destruct (last_write sf q) as [y|] eqn:Es.
    + injection E as <-. unfold sf in Es. rewrite (shape_factors_sub (num p) (geometric_value g s) _ _ _ _ _ q y); [reflexivity| |exact Es].
      intros r w Hr Hw. rewrite <- (geometric_props_value r Hr). apply (proj1 H); [exact Hw|]. intros ->. unfold geometric_props in Hr. cbn [In] in Hr. repeat (destruct Hr as [Hr|Hr]; [discriminate Hr|]). destruct Hr.
    + rewrite sf_none; [exact E|]. apply last_write_in in E. unfold pv_writes in E. cbn [In] in *.
      repeat (destruct E as [E|E]; [injection E as <- _; tauto|]). destruct E.
  - exact E.
Qed.
End Inv.
