(** The plot of the centroids and the principal axes (C83). *)
From Coq Require Import String Reals List Bool Arith Permutation Sorted Lra Lia.
From Verif Require Import Base M_Init M_State S_State P_State2 P_State4 P_State5 M_Draw S_Draw P_Draw.
Import ListNotations.
Local Open Scope R_scope.

(** The lines drawn are the parts of the principal axes through the centroid that are inside the limits of the plot, however numpy orders equal entries. *)
Theorem C83_axes : forall sort lims phi cx cy, sorts sort -> in_box lims (cx, cy) -> exists line11 line22,
  draw_principal_axis sort lims phi cx cy = [("11-axis"%string, line11); ("22-axis"%string, line22)] /\
  cuts_box (cx, cy) (cos phi, sin phi) lims line11 /\ cuts_box (cx, cy) (- sin phi, cos phi) lims line22.
Proof.
  intros sort lims phi cx cy S B. unfold draw_principal_axis. eexists _, _. split; [reflexivity|]. rewrite !Rmult_1_r, !Rmult_0_r, !Rplus_0_r, !Rplus_0_l.
  pose proof (sin2_cos2 phi) as Q. unfold Rsqr in Q. split; apply principal_points_box; try assumption; intros E; injection E as E1 E2; rewrite ?E1, ?E2 in Q; try lra.
  assert (sin phi = 0) as Z by lra. rewrite Z in Q. lra.
Qed.

(** What a getter gives: the same as the call in the API, or RuntimeError. *)
Lemma getter_cases l query w x : (exists v, snd (run_getter (is_composite (s_mats (w_sec w))) x (ENum 1) (w_props w)) = Ok v /\ returns l query w x (ENum 1) v) \/
  (snd (run_getter (is_composite (s_mats (w_sec w))) x (ENum 1) (w_props w)) = Err RuntimeError /\ forall v, ~ returns l query w x (ENum 1) v).
Proof.
  pose proof (step_result l query w (CGet x (ENum 1))) as E. cbn [method] in E. rewrite map_result in E. unfold returns. rewrite E. clear E.
  destruct (snd (run_getter _ x (ENum 1) (w_props w))) as [v|e] eqn:G; cbn [bind]; [left; exists v; auto|right].
  assert (e = RuntimeError) as ->; [|split; [reflexivity|discriminate]].
  apply (reads_err l query w (CGet x (ENum 1)) e eq_refl). rewrite step_result. cbn [method]. rewrite map_result, G. reflexivity.
Qed.
Lemma pair_values l query w x v : In x [get_c; get_sc; get_pc; get_pc_p] -> returns l query w x (ENum 1) v -> exists a b, v = [a; b].
Proof.
  intros I H. apply returns_iff in H. destruct H as [_ (u & Hu & ->)].
  destruct I as [<-|[<-|[<-|[<-|[]]]]]; cbn [fields all_values] in Hu; repeat match type of Hu with context [M_Props.num ?p ?q] => destruct (M_Props.num p q); try discriminate Hu end; injection Hu as <-; cbn; eauto.
Qed.
Lemma get2_cases l query w x : In x [get_c; get_sc; get_pc; get_pc_p] ->
  (exists a b, snd (get2 (is_composite (s_mats (w_sec w))) x (w_props w)) = Ok (a, b) /\ returns l query w x (ENum 1) [a; b]) \/
  (snd (get2 (is_composite (s_mats (w_sec w))) x (w_props w)) = Err RuntimeError /\ forall v, ~ returns l query w x (ENum 1) v).
Proof.
  intros I. unfold get2, mbind. destruct (getter_cases l query w x) as [(v & G & Rt)|(G & N)]; destruct (run_getter _ x (ENum 1) (w_props w)) as [p r]; cbn [snd] in G; subst r; [left|right; auto].
  destruct (pair_values l query w x v I Rt) as (a & b & ->). exists a, b. auto.
Qed.
Lemma get1_cases l query w : (exists a, snd (get1 (is_composite (s_mats (w_sec w))) get_phi (w_props w)) = Ok a /\ returns l query w get_phi (ENum 1) [a]) \/
  (snd (get1 (is_composite (s_mats (w_sec w))) get_phi (w_props w)) = Err RuntimeError /\ forall v, ~ returns l query w get_phi (ENum 1) v).
Proof.
  unfold get1, mbind. destruct (getter_cases l query w get_phi) as [(v & G & Rt)|(G & N)]; destruct (run_getter _ get_phi (ENum 1) (w_props w)) as [p r]; cbn [snd] in G; subst r; [left|right; auto].
  assert (exists a, v = [a]) as (a & ->); [|exists a; auto]. apply returns_iff in Rt. destruct Rt as [_ (u & Hu & ->)]. cbn [fields all_values] in Hu. destruct (M_Props.num _ _); [|discriminate Hu]. injection Hu as <-. cbn. eauto.
Qed.
Lemma returns_inj l query w x e u v : returns l query w x e u -> returns l query w x e v -> u = v.
Proof. unfold returns. intros A B. rewrite A in B. injection B as <-. reflexivity. Qed.

(** plot_centroids never fails, and marks with each label exactly the point that the getter returns, if it returns one; it draws the principal axes,
    through the centroid and at the angle phi in degrees, if both are known. *)
Theorem C83_plot : forall sort lims l query w, exists markers lines, plot_centroids sort lims w = Ok (markers, lines) /\ NoDup (map fst markers) /\
  (forall label p, In (label, p) markers <-> exists x, In (label, x) centroid_labels /\ returns l query w x (ENum 1) [fst p; snd p]) /\
  (forall phi cx cy, returns l query w get_phi (ENum 1) [phi] -> returns l query w get_c (ENum 1) [cx; cy] -> lines = draw_principal_axis sort lims (phi * PI / 180) cx cy) /\
  ((forall phi, ~ returns l query w get_phi (ENum 1) [phi]) \/ (forall cx cy, ~ returns l query w get_c (ENum 1) [cx; cy]) -> lines = []).
Proof.
  intros sort lims l query w. unfold plot_centroids.
  assert (K : forall x (label : string), In x [get_c; get_sc; get_pc; get_pc_p] -> exists m, attempt (snd (get2 (is_composite (s_mats (w_sec w))) x (w_props w))) (fun p => [(label, p)]) = Ok m /\
    (m = [] \/ exists p, m = [(label, p)]) /\ forall lb p, In (lb, p) m <-> lb = label /\ returns l query w x (ENum 1) [fst p; snd p]).
  { intros x label I. destruct (get2_cases l query w x I) as [(a & b & -> & Rt)|(-> & N)]; cbn [attempt].
    - eexists. split; [reflexivity|]. split; [right; eauto|]. intros lb p. split.
      + intros [E|[]]. injection E as <- <-. auto.
      + intros [-> Rp]. left. pose proof (returns_inj _ _ _ _ _ _ _ Rt Rp) as E. injection E as -> ->. destruct p. reflexivity.
    - exists []. split; [reflexivity|]. split; [auto|]. intros lb p. split; [intros []|intros [_ Rp]; exact (N _ Rp)]. }
  destruct (K get_c "Elastic centroid"%string) as (m1 & -> & O1 & M1); [cbn; auto|]. destruct (K get_sc "Shear centre"%string) as (m2 & -> & O2 & M2); [cbn; auto|].
  destruct (K get_pc "Global plastic centroid"%string) as (m3 & -> & O3 & M3); [cbn; auto|]. destruct (K get_pc_p "Principal plastic centroid"%string) as (m4 & -> & O4 & M4); [cbn; auto|]. cbn [bind].
  assert (LI : exists lines, attempt (bind (snd (get1 (is_composite (s_mats (w_sec w))) get_phi (w_props w))) (fun phi => bind (snd (get2 (is_composite (s_mats (w_sec w))) get_c (w_props w))) (fun c => Ok (phi, c))))
      (fun q => draw_principal_axis sort lims (fst q * PI / 180) (fst (snd q)) (snd (snd q))) = Ok lines /\
      (forall phi cx cy, returns l query w get_phi (ENum 1) [phi] -> returns l query w get_c (ENum 1) [cx; cy] -> lines = draw_principal_axis sort lims (phi * PI / 180) cx cy) /\
      ((forall phi, ~ returns l query w get_phi (ENum 1) [phi]) \/ (forall cx cy, ~ returns l query w get_c (ENum 1) [cx; cy]) -> lines = [])).
  { destruct (get1_cases l query w) as [(a & -> & Ra)|(-> & N)]; cbn [bind attempt].
    - destruct (get2_cases l query w get_c) as [(cx & cy & -> & Rc)|(-> & N)]; [cbn; auto| |]; cbn [bind attempt].
      + eexists. split; [reflexivity|]. cbn [fst snd]. split.
        * intros phi cx' cy' Rp Rc'. pose proof (returns_inj _ _ _ _ _ _ _ Ra Rp) as E. injection E as ->. pose proof (returns_inj _ _ _ _ _ _ _ Rc Rc') as E. injection E as -> ->. reflexivity.
        * intros [H|H]; exfalso; [apply (H _ Ra)|apply (H _ _ Rc)].
      + exists []. split; [reflexivity|]. split; [|reflexivity]. intros phi cx cy _ Rc. exfalso. apply (N _ Rc).
    - exists []. split; [reflexivity|]. split; [|reflexivity]. intros phi cx cy Rp _. exfalso. apply (N _ Rp). }
  destruct LI as (lines & E & L1 & L2). exists (m1 ++ m2 ++ m3 ++ m4), lines. rewrite E. split; [reflexivity|]. split; [|split; [|split; assumption]].
  - destruct O1 as [->|(p1 & ->)]; destruct O2 as [->|(p2 & ->)]; destruct O3 as [->|(p3 & ->)]; destruct O4 as [->|(p4 & ->)]; cbn; repeat constructor; cbn; intuition discriminate.
  - intros label p. rewrite !in_app_iff, M1, M2, M3, M4. unfold centroid_labels. split.
    + intros [[-> H]|[[-> H]|[[-> H]|[-> H]]]]; eexists; (split; [|exact H]); cbn; tauto.
    + intros (x & I & H). cbn [In] in I. destruct I as [I|[I|[I|[I|[]]]]]; injection I as <- <-; tauto.
Qed.

(** A sort exists, and the box is met: 0.3 radians through (1, 1) in a box of 4 x 2. *)
Fixpoint insert_x (p : R * R) (l : list (R * R)) : list (R * R) := match l with [] => [p] | q :: r => if Rle_dec (fst p) (fst q) then p :: l else q :: insert_x p r end.
Definition ex_sort (l : list (R * R)) : list (R * R) := fold_right insert_x [] l.
Example C83_sorts : sorts ex_sort.
Proof.
  assert (P : forall p l, Permutation (insert_x p l) (p :: l)).
  { intros p l. induction l as [|q l IH]; cbn; [apply Permutation_refl|]. destruct (Rle_dec (fst p) (fst q)); [apply Permutation_refl|]. eapply perm_trans; [apply perm_skip, IH|apply perm_swap]. }
  intros l. induction l as [|p l [IP IS]]; [split; constructor|]. cbn [ex_sort fold_right]. fold (ex_sort l). split; [eapply perm_trans; [apply P|apply perm_skip, IP]|].
  clear IP. induction IS as [|q r S IH F]; cbn; [repeat constructor|]. destruct (Rle_dec (fst p) (fst q)) as [H|H].
  - constructor; [constructor; assumption|]. constructor; [exact H|]. eapply Forall_impl; [|exact F]. intros a Ha. cbn beta in Ha. lra.
  - constructor; [exact IH|]. apply Forall_forall. intros a Ha. apply (Permutation_in a (P p r)) in Ha. destruct Ha as [<-|Ha]; [lra|]. rewrite Forall_forall in F. apply F, Ha.
Qed.
Example C83_axes_met : exists a b, draw_principal_axis ex_sort (mkLimits 0 4 0 2) 0.3 1 1 = [a; b].
Proof. destruct (C83_axes ex_sort (mkLimits 0 4 0 2) 0.3 1 1 C83_sorts) as (a & b & -> & _); [unfold in_box; cbn; lra|eauto]. Qed.

Print Assumptions C83_axes.
Print Assumptions C83_plot.
