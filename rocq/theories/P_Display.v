(** Lemmas for the tables of results. *)
From Coq Require Import String Reals List Bool Arith Lia.
From Verif Require Import Base M_Init M_Props M_State S_State P_State P_State2 P_State4 P_State5 M_Draw M_Display S_Display.
Import ListNotations.
Local Open Scope list_scope.
Local Open Scope R_scope.

Definition getter_eq_dec (x y : getter) : {x = y} + {x <> y}. Proof. decide equality. Defined.

Lemma call_cases l query w x : (exists v, call_getter w x = Ok v /\ returns l query w x (ENum 1) v) \/
  (call_getter w x = Err RuntimeError /\ forall e v, ~ returns l query w x e v).
Proof.
  unfold call_getter. destruct (snd (run_getter (is_composite (s_mats (w_sec w))) x (ENum 1) (w_props w))) as [v|er] eqn:G.
  - left. exists v. split; [reflexivity|]. apply returns_iff. apply getter_returns in G. exact G.
  - right. rewrite (getter_err _ _ _ _ _ G). split; [reflexivity|]. intros e v H. apply returns_iff in H. destruct H as [A (u & U & ->)].
    rewrite (getter_ok _ _ (ENum 1) _ _ A U) in G. discriminate G.
Qed.

(** A block of rows: a getter, the names, and how the values are shown. *)
Definition block : Type := getter * list string * (R -> R).
Definition show_block (w : world) (b : block) : result rows := attempt (call_getter w (fst (fst b))) (fun v => combine (snd (fst b)) (map (snd b) v)).

Lemma nth_combine {A B} (a : list A) : forall (b : list B) x y, In (x, y) (combine a b) <-> exists k, nth_error a k = Some x /\ nth_error b k = Some y.
Proof.
  induction a as [|a0 a IH]; intros b x y; [split; [intros []|intros (k & H & _); destruct k; discriminate H]|].
  destruct b as [|b0 b]; [split; [intros []|intros (k & _ & H); destruct k; discriminate H]|]. cbn [combine In]. rewrite IH. split.
  - intros [E|(k & H)]; [injection E as -> ->; exists 0%nat; split; reflexivity|exists (S k); exact H].
  - intros ([|k] & H1 & H2); [left; cbn in *; congruence|right; exists k; split; assumption].
Qed.
Lemma fst_combine {A B} (a : list A) : forall b : list B, exists n, map fst (combine a b) = firstn n a.
Proof. induction a as [|x a IH]; intros [|y b]; try (exists 0%nat; reflexivity). destruct (IH b) as (n & E). exists (S n). cbn. rewrite E. reflexivity. Qed.

(** The table of a list of blocks. *)
Inductive sub {A} : list A -> list A -> Prop :=
| sub_nil : sub [] []
| sub_skip x a b : sub a b -> sub a (x :: b)
| sub_keep x a b : sub a b -> sub (x :: a) (x :: b).
Lemma sub_none {A} (b : list A) : sub [] b. Proof. induction b; constructor; assumption. Qed.
Lemma sub_firstn {A} n : forall b : list A, sub (firstn n b) b.
Proof. induction n as [|n IH]; intros [|x b]; try apply sub_none. cbn. apply sub_keep, IH. Qed.
Lemma sub_app {A} (a b c d : list A) : sub a b -> sub c d -> sub (a ++ c) (b ++ d).
Proof. intros H K. induction H; cbn; [exact K|apply sub_skip|apply sub_keep]; exact IHsub. Qed.
Lemma sub_in {A} (a b : list A) x : sub a b -> In x a -> In x b.
Proof. intros H. induction H as [|y a b H IH|y a b H IH]; intros I; [destruct I|right; auto|destruct I as [<-|I]; [left; reflexivity|right; auto]]. Qed.
Lemma sub_nodup {A} (a b : list A) : sub a b -> NoDup b -> NoDup a.
Proof.
  intros H. induction H as [|x a b H IH|x a b H IH]; intros N; [constructor|inversion N; auto|]. inversion N as [|y c N1 N2]; subst. constructor; [|auto].
  intros I. apply N1. eapply sub_in; eassumption.
Qed.

Lemma table_blocks l query w (bl : list block) : exists t, table (map (show_block w) bl) = Ok t /\ sub (map fst t) (concat (map (fun b : block => snd (fst b)) bl)) /\
  forall name v, In (name, v) t <-> exists x nm f k vs a, In (x, nm, f) bl /\ nth_error nm k = Some name /\ returns l query w x (ENum 1) vs /\ nth_error vs k = Some a /\ v = f a.
Proof.
  induction bl as [|[[x nm] f] bl (t & Et & S & M)].
  - exists []. split; [reflexivity|]. split; [constructor|]. intros name v. split; [intros []|]. intros (x & nm & f & k & vs & a & I & _). destruct I.
  - cbn [map table]. unfold show_block at 1. cbn [fst snd]. rewrite Et. destruct (call_cases l query w x) as [(vs & C & Rt)|(C & N)]; rewrite C; cbn [attempt bind].
    + exists (combine nm (map f vs) ++ t). split; [reflexivity|]. split.
      * rewrite map_app. cbn [map concat fst snd]. apply sub_app; [|exact S]. destruct (fst_combine nm (map f vs)) as (n & ->). apply sub_firstn.
      * intros name v. rewrite in_app_iff, M, nth_combine. split.
        { intros [(k & H1 & H2)|(x' & nm' & f' & k & vs' & a & I & H)].
          - rewrite nth_error_map in H2. destruct (nth_error vs k) as [a|] eqn:E; [|discriminate H2]. injection H2 as <-.
            exists x, nm, f, k, vs, a. repeat split; try assumption. left. reflexivity.
          - exists x', nm', f', k, vs', a. split; [right; exact I|exact H]. }
        { intros (x' & nm' & f' & k & vs' & a & [E|I] & H1 & H2 & H3 & ->).
          - injection E as <- <- <-. left. exists k. split; [exact H1|]. unfold returns in Rt, H2. rewrite Rt in H2. injection H2 as <-. rewrite nth_error_map, H3. reflexivity.
          - right. exists x', nm', f', k, vs', a. auto. }
    + exists t. split; [reflexivity|]. split.
      * cbn [map concat fst snd]. change (map fst t) with ([] ++ map fst t). apply sub_app; [apply sub_none|exact S].
      * intros name v. rewrite M. split.
        { intros (x' & nm' & f' & k & vs' & a & I & H). exists x', nm', f', k, vs', a. split; [right; exact I|exact H]. }
        { intros (x' & nm' & f' & k & vs' & a & [E|I] & H1 & H2 & H3 & ->); [injection E as <- <- <-; exfalso; exact (N _ _ H2)|]. exists x', nm', f', k, vs', a. auto. }
Qed.

Lemma nodup_dec (l : list string) : (if list_eq_dec string_dec (nodup string_dec l) l then true else false) = true -> NoDup l.
Proof. destruct (list_eq_dec string_dec (nodup string_dec l) l) as [E|]; [intros _; rewrite <- E; apply NoDup_nodup|discriminate]. Qed.

(** The three effective moduli are known together. *)
Lemma eff_together l query g s h x y e v : built g s -> In x [get_e_eff; get_g_eff; get_nu_eff] -> In y [get_e_eff; get_g_eff; get_nu_eff] ->
  let w := run l query (mkWorld g s no_props) h in returns l query w x e v -> exists u, returns l query w y e u.
Proof.
  intros Hb Hx Hy w H. assert (H' := H). unfold w in H. apply returns_called in H. destruct H as (a & c & Ha & Hc & Hac).
  assert (a = Geometric) as -> by (destruct Hx as [<-|[<-|[<-|[]]]]; destruct Ha as [<-|[]]; reflexivity).
  destruct c; try (destruct Hac; fail). clear Hac Ha.
  apply returns_iff in H'. destruct H' as [A _]. unfold w in A. rewrite run_sec in A. cbn [w_sec] in A.
  assert (Hal : allowed (is_composite (s_mats s)) y) by (destruct Hx as [<-|[<-|[<-|[]]]]; destruct Hy as [<-|[<-|[<-|[]]]]; exact A).
  assert (Sc : succeeded l query (mkWorld g s no_props) h CGeometric).
  { apply in_split in Hc. destruct Hc as (h1 & h2 & ->). eexists. split; [exists h1, h2; split; reflexivity|]. rewrite step_result. cbn [method]. rewrite map_result, run_sec. cbn [w_sec].
    unfold is_ok. set (w1 := run l query _ h1). destruct (snd (calculate_geometric (w_geom w1) s (w_props w1))) as [u|er] eqn:E; cbn [bind]; [exact I|exfalso].
    unfold calculate_geometric in E. cbv zeta in E. rewrite !tell_bind in E. destruct (s_nodes s) as [|n0 ns] eqn:En; [apply (proj2 Hb); exact En|].
    unfold M_Post.moduli_of in E. discriminate E. }
  assert (P : forall f, In f (fields y) -> has (w_props w) f).
  { apply (provided_has l query g s h Geometric CGeometric y (built_no_mod _ _ _ (proj1 Hb)) (proj2 Hb)); try assumption; [|destruct Hy as [<-|[<-|[<-|[]]]]; reflexivity|exact I].
    destruct Hy as [<-|[<-|[<-|[]]]]; left; reflexivity. }
  apply fields_has in P. destruct P as [u Hu]. exists (finish y e u). apply returns_iff. unfold w. rewrite run_sec. split; [exact Hal|]. exists u. split; [exact Hu|reflexivity].
Qed.

(** The getters in the order of the tables. *)
Definition shown (comp : bool) : list getter :=
  if comp then [get_area; get_perimeter; get_mass; get_ea; get_eq; get_eig; get_c; get_eic; get_ez; get_my; get_rc; get_eip; get_phi; get_ezp; get_my_p; get_rp; get_e_eff; get_g_eff; get_nu_eff; get_ej; get_sc; get_sc_p; get_sc_t; get_egamma; get_eas; get_eas_p; get_beta; get_beta_p; get_pc; get_pc_p; get_mp; get_mp_p; get_sf; get_sf_p]
  else [get_area; get_perimeter; get_q; get_ig; get_c; get_ic; get_z; get_rc; get_ip; get_phi; get_zp; get_rp; get_j; get_sc; get_sc_p; get_sc_t; get_gamma; get_as; get_as_p; get_beta; get_beta_p; get_pc; get_pc_p; get_s; get_sp; get_sf; get_sf_p].
Definition transformed_shown : list getter := [get_area; get_perimeter; get_mass; get_ea; get_eq; get_eig; get_c; get_eic; get_ez; get_my; get_rc; get_eip; get_phi; get_ezp; get_my_p; get_rp; get_e_eff; get_g_eff; get_nu_eff; get_ej; get_sc; get_sc_p; get_sc_t; get_egamma; get_eas; get_eas_p; get_beta; get_beta_p; get_pc; get_pc_p; get_mp; get_mp_p; get_sf; get_sf_p].
Definition plain_block (x : getter) : block := (x, names x, fun a => a).
Definition over_block (e : e_ref) (x : getter) : block := (x, transformed_names x, if has_e_ref x then fun a => a / e_value e else fun a => a).

Lemma show_id w x nm : show w x nm = show_block w (x, nm, fun a => a).
Proof. unfold show, show_block. cbn [fst snd]. destruct (call_getter w x) as [v|[]]; cbn [attempt]; rewrite ?map_id; reflexivity. Qed.
Lemma table_app a : forall b, table (a ++ b) = bind (table a) (fun x => bind (table b) (fun y => Ok (x ++ y))).
Proof.
  induction a as [|r a IH]; intros b; cbn [app table]; [destruct (table b); reflexivity|]. destruct r as [x|]; cbn [bind]; [|reflexivity]. rewrite IH. destruct (table a); cbn [bind]; [|reflexivity].
  destruct (table b); cbn [bind]; [rewrite app_assoc; reflexivity|reflexivity].
Qed.
Lemma length_one l query w x v e : In x [get_e_eff; get_g_eff; get_nu_eff] -> returns l query w x e v -> exists a, v = [a].
Proof.
  intros I H. apply returns_iff in H. destruct H as [_ (u & Hu & ->)].
  destruct I as [<-|[<-|[<-|[]]]]; cbn [fields all_values] in Hu; destruct (num _ _); try discriminate Hu; injection Hu as <-; cbn; eauto.
Qed.
Lemma show_eff_blocks l query g s h : built g s -> let w := run l query (mkWorld g s no_props) h in
  show_eff w = table (map (show_block w) (map plain_block [get_e_eff; get_g_eff; get_nu_eff])).
Proof.
  intros Hb w. assert (T : forall x y e v, In x [get_e_eff; get_g_eff; get_nu_eff] -> In y [get_e_eff; get_g_eff; get_nu_eff] -> returns l query w x e v -> exists u, returns l query w y e u)
    by (intros x y e v Hx Hy; apply (eff_together l query g s h x y e v Hb Hx Hy)).
  assert (I1 : In get_e_eff [get_e_eff; get_g_eff; get_nu_eff]) by (cbn; auto). assert (I2 : In get_g_eff [get_e_eff; get_g_eff; get_nu_eff]) by (cbn; auto). assert (I3 : In get_nu_eff [get_e_eff; get_g_eff; get_nu_eff]) by (cbn; auto).
  unfold show_eff. cbn [map table plain_block]. unfold show_block. cbn [plain_block fst snd].
  destruct (call_cases l query w get_e_eff) as [(v1 & -> & R1)|(-> & N1)]; destruct (call_cases l query w get_g_eff) as [(v2 & -> & R2)|(-> & N2)]; destruct (call_cases l query w get_nu_eff) as [(v3 & -> & R3)|(-> & N3)];
    try (exfalso; match goal with N : forall e v, ~ returns _ _ _ ?y e v, R0 : returns _ _ _ ?x ?e ?v |- _ => destruct (T x y e v) as (u & U); [assumption|assumption|assumption|exact (N _ _ U)] end); cbn [attempt bind]; [|reflexivity].
  destruct (length_one _ _ _ _ _ _ I1 R1) as (a1 & ->). destruct (length_one _ _ _ _ _ _ I2 R2) as (a2 & ->). destruct (length_one _ _ _ _ _ _ I3 R3) as (a3 & ->). reflexivity.
Qed.
Lemma split_eff w (t : result rows) a b : t = table (map (show_block w) [plain_block get_e_eff; plain_block get_g_eff; plain_block get_nu_eff]) ->
  table (map (show_block w) a ++ [t] ++ map (show_block w) b) = table (map (show_block w) (a ++ [plain_block get_e_eff; plain_block get_g_eff; plain_block get_nu_eff] ++ b)).
Proof.
  intros ->. rewrite !map_app. set (m := map (show_block w) [_; _; _]).
  assert (K : table [table m] = table m) by (cbn [table]; destruct (table m); cbn [bind]; rewrite ?app_nil_r; reflexivity).
  rewrite !(table_app (map (show_block w) a)), (table_app [table m]), (table_app m), K. reflexivity.
Qed.
Lemma results_blocks l query g s h : built g s -> let w := run l query (mkWorld g s no_props) h in
  print_results w = table (map (show_block w) (map plain_block (shown (is_composite (s_mats s))))).
Proof.
  intros Hb w. pose proof (show_eff_blocks l query g s h Hb) as E. fold w in E. cbv zeta in E. unfold print_results. assert (Es : w_sec w = s) by (unfold w; rewrite run_sec; reflexivity). rewrite Es.
  unfold shown. destruct (is_composite (s_mats s)); cbv zeta; cbn [concat app]; rewrite !show_id; [|reflexivity].
  set (a := map plain_block [get_area; get_perimeter; get_mass; get_ea; get_eq; get_eig; get_c; get_eic; get_ez; get_my; get_rc; get_eip; get_phi; get_ezp; get_my_p; get_rp]).
  set (b := map plain_block [get_ej; get_sc; get_sc_p; get_sc_t; get_egamma; get_eas; get_eas_p; get_beta; get_beta_p; get_pc; get_pc_p; get_mp; get_mp_p; get_sf; get_sf_p]).
  exact (split_eff w (show_eff w) a b E).
Qed.
Lemma over_id e w x nm : show_over e w x nm = show_block w (x, nm, fun a => a / e_value e). Proof. reflexivity. Qed.
Lemma transformed_blocks l query g s h e : built g s -> let w := run l query (mkWorld g s no_props) h in
  exists a b, transformed_shown = a ++ b /\
  print_transformed_results w e = table (map (show_block w) (map (over_block e) a) ++ [Ok [("e_ref"%string, e_value e)]] ++ map (show_block w) (map (over_block e) b)).
Proof.
  intros Hb w. pose proof (show_eff_blocks l query g s h Hb) as E. fold w in E. cbv zeta in E.
  exists [get_area; get_perimeter; get_mass], (skipn 3 transformed_shown). split; [reflexivity|]. unfold print_transformed_results. cbn [concat app]. rewrite !show_id, !over_id.
  set (p := [show_block w (over_block e get_area); show_block w (over_block e get_perimeter); show_block w (over_block e get_mass); Ok [("e_ref"%string, e_value e)]]).
  set (a := map (over_block e) [get_ea; get_eq; get_eig; get_c; get_eic; get_ez; get_my; get_rc; get_eip; get_phi; get_ezp; get_my_p; get_rp]).
  set (b := map (over_block e) [get_ej; get_sc; get_sc_p; get_sc_t; get_egamma; get_eas; get_eas_p; get_beta; get_beta_p; get_pc; get_pc_p; get_mp; get_mp_p; get_sf; get_sf_p]).
  transitivity (table (p ++ map (show_block w) a ++ [show_eff w] ++ map (show_block w) b)); [reflexivity|].
  rewrite (table_app p), (split_eff w (show_eff w) a b E), <- table_app. reflexivity.
Qed.
