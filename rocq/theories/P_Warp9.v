(** The assembled system: entries as integrals, kernel, multiplier, unique solvability. *)
From Coq Require Import Reals List Lra Lia Bool Permutation ClassicalEpsilon.
From Coquelicot Require Import Coquelicot.
From Verif Require Import Base S_Integral M_Fea S_Fem M_Post M_Section S_Section S_Post S_Warp M_Stress
  P_Integral P_Fea P_Geom P_Elem P_Section P_Totals P_Post P_Yield P_Warp P_Warp2 P_Warp3 P_Warp4 P_Warp5 P_Warp6 P_Warp7.
Import ListNotations.
Local Open Scope R_scope.

(** ** Square systems: injective implies solvable *)
Lemma sumn_skip (n k : nat) (f : nat -> R) : (k < n)%nat -> (forall i, (i < n)%nat -> i <> k -> f i = 0) -> sumn n f = f k.
Proof.
  intros Hk H. rewrite <- (sumn_delta n k f Hk). apply sumn_ext. intros i Hi.
  destruct (Nat.eqb_spec i k) as [->|N]; [reflexivity|apply H; assumption].
Qed.

Lemma square_solvable (n : nat) : forall A : nat -> nat -> R,
  (forall u, (forall i, (i < n)%nat -> sumn n (fun j => A i j * u j) = 0) -> forall j, (j < n)%nat -> u j = 0) ->
  forall f, exists u, forall i, (i < n)%nat -> sumn n (fun j => A i j * u j) = f i.
Proof.
  induction n as [|n IH]; intros A Hinj f; [exists (fun _ => 0); intros; lia|].
  assert (Hp : exists i0, (i0 < S n)%nat /\ A i0 n <> 0).
  { destruct (excluded_middle_informative (exists i0, (i0 < S n)%nat /\ A i0 n <> 0)) as [Y|N]; [exact Y|exfalso].
    assert (Z : (fun k => if Nat.eqb k n then 1 else 0) n = 0).
    { apply (Hinj (fun k => if Nat.eqb k n then 1 else 0)); [|lia]. intros i Hi. rewrite (sumn_skip (S n) n).
      - destruct (Req_dec (A i n) 0) as [->|Q]; [ring|exfalso; apply N; exists i; auto].
      - lia.
      - intros j Hj Hne. destruct (Nat.eqb_spec j n); [contradiction|ring]. }
    cbv beta in Z. rewrite Nat.eqb_refl in Z. lra. }
  destruct Hp as [i0 [Hi0 Ha]].
  set (r := fun i => if Nat.eqb i i0 then n else i).
  assert (Hr : forall i, (i < n)%nat -> (r i < S n)%nat /\ r i <> i0).
  { intros i Hi. unfold r. destruct (Nat.eqb_spec i i0); split; lia. }
  assert (Hr' : forall k, (k < S n)%nat -> k <> i0 -> exists i, (i < n)%nat /\ r i = k).
  { intros k Hk Hne. destruct (Nat.eq_dec k n) as [->|Nk].
    - exists i0. unfold r. rewrite Nat.eqb_refl. split; [lia|reflexivity].
    - exists k. unfold r. destruct (Nat.eqb_spec k i0); [contradiction|]. split; [lia|reflexivity]. }
  set (A' := fun i j => A (r i) j - A (r i) n / A i0 n * A i0 j).
  set (ext := fun (u : nat -> R) (b : R) (j : nat) => if Nat.eqb j n then (b - sumn n (fun k => A i0 k * u k)) / A i0 n else u j).
  assert (Hs : forall u b i, sumn (S n) (fun j => A i j * ext u b j) =
     sumn n (fun j => A i j * u j) + A i n * ((b - sumn n (fun k => A i0 k * u k)) / A i0 n)).
  { intros u b i. cbn [sumn]. f_equal.
    - apply sumn_ext. intros j Hj. unfold ext. destruct (Nat.eqb_spec j n); [lia|reflexivity].
    - unfold ext. rewrite Nat.eqb_refl. reflexivity. }
  assert (H0 : forall u b, sumn (S n) (fun j => A i0 j * ext u b j) = b).
  { intros u b. rewrite Hs. field. exact Ha. }
  assert (HA' : forall u i, sumn n (fun j => A' i j * u j) = sumn n (fun j => A (r i) j * u j) - A (r i) n / A i0 n * sumn n (fun k => A i0 k * u k)).
  { intros u i. rewrite <- sumn_scal. unfold Rminus at 1. rewrite <- (Rmult_1_l (- _)), <- Ropp_mult_distr_r, Ropp_mult_distr_l, <- sumn_scal, <- sumn_plus.
    apply sumn_ext. intros j Hj. unfold A'. ring. }
  destruct (IH A') with (f := fun i => f (r i) - A (r i) n / A i0 n * f i0) as [u Hu].
  - intros u Hz j Hj.
    assert (E : ext u 0 j = 0).
    { apply Hinj; [|lia]. intros k Hk. destruct (Nat.eq_dec k i0) as [->|Nk]; [apply H0|].
      destruct (Hr' k Hk Nk) as [i [Hi <-]]. rewrite Hs. pose proof (Hz i Hi) as Q. rewrite HA' in Q.
      transitivity (sumn n (fun j0 => A (r i) j0 * u j0) - A (r i) n / A i0 n * sumn n (fun k => A i0 k * u k)); [field; exact Ha|exact Q]. }
    unfold ext in E. destruct (Nat.eqb_spec j n); [lia|exact E].
  - exists (ext u (f i0)). intros k Hk. destruct (Nat.eq_dec k i0) as [->|Nk]; [apply H0|].
    destruct (Hr' k Hk Nk) as [i [Hi <-]]. rewrite Hs. pose proof (Hu i Hi) as Q. rewrite HA' in Q.
    replace (sumn n (fun j => A (r i) j * u j)) with
      (f (r i) - A (r i) n / A i0 n * f i0 + A (r i) n / A i0 n * sumn n (fun k => A i0 k * u k)) by (rewrite <- Q; ring).
    field. exact Ha.
Qed.

(** ** Entries of the assembled system as integrals of basis functions *)
Section OnMesh.
Context (n : nat) (X Y : nat -> R) (els : list tri6) (Hm : mesh_on n X Y els).
Let K := fst (assemble_torsion n els).
Let f := snd (assemble_torsion n els).

Lemma dotn_unit i (v : nat -> R) : (i < n)%nat -> sumn n (fun k => unit_node i k * v k) = v i.
Proof.
  intros Hi. rewrite (sumn_skip n i); [unfold unit_node; rewrite Nat.eqb_refl; ring|exact Hi|].
  intros k Hk Hne. unfold unit_node. destruct (Nat.eqb_spec k i); [contradiction|ring].
Qed.

Lemma mulv_unit (A : nat -> nat -> R) i j : (j < n)%nat -> mulv n A (unit_node j) i = A i j.
Proof.
  intros Hj. unfold mulv. rewrite (sumn_skip n j); [unfold unit_node; rewrite Nat.eqb_refl; ring|exact Hj|].
  intros k Hk Hne. unfold unit_node. destruct (Nat.eqb_spec k j); [contradiction|ring].
Qed.

Lemma MQ_E (F : field) (F' : tri6 -> R -> R -> R) :
  (forall el, In el els -> pdeg 3 (F el)) -> (forall el s t, In el els -> F el (loc s t) = F' el s t) -> MQ els F = E_int F' els.
Proof.
  intros Hd He. rewrite (MQ_exact els F (on_valid n X Y els Hm) Hd). unfold E_int. apply field_int_ext.
  intros el s t Hel. rewrite He by exact Hel. reflexivity.
Qed.

Lemma G_loc u el s t : In el els -> Gx u el (loc s t) = ddx u el s t /\ Gy u el (loc s t) = ddy u el s t.
Proof. intros Hel. apply gxy_fe. apply (on_valid n X Y els Hm), Hel. Qed.

Lemma pos_loc el s t : In el els -> px el (loc s t) = loc_x el s t /\ py el (loc s t) = loc_y el s t.
Proof.
  intros Hel. pose proof (pos_shift 0 0 el s t (on_valid n X Y els Hm el Hel)) as [A B].
  assert (E : shift_el 0 0 el = el).
  { unfold shift_el. destruct el as [[a0 a1 a2 a3 a4 a5] [b0 b1 b2 b3 b4 b5] c m]; unfold map6; cbn [el_x el_y el_ids el_mat v0 v1 v2 v3 v4 v5]. rewrite !Rminus_0_r. reflexivity. }
  rewrite E in A, B. rewrite A, B. split; ring.
Qed.

Lemma d1 u el : In el els -> pdeg 1 (Gx u el) /\ pdeg 1 (Gy u el) /\ pdeg 1 (px el) /\ pdeg 1 (py el).
Proof.
  intros Hel. pose proof (on_valid n X Y els Hm el Hel) as Hv.
  split; [|split; [|split]]; apply pdeg_lin3; [apply lin3_gx|apply lin3_gy|apply lin3_px|apply lin3_py]; exact Hv.
Qed.

Lemma B_int u v : B els u v = E_int (fun el s t => ddx u el s t * ddx v el s t + ddy u el s t * ddy v el s t) els.
Proof.
  unfold B. apply MQ_E.
  - intros el Hel. destruct (d1 u el Hel) as [A [C _]]. destruct (d1 v el Hel) as [A' [C' _]].
    apply (pdeg_weaken 2); [lia|]. apply pdeg_plus; apply (pdeg_mul 1 1); assumption.
  - intros el s t Hel. destruct (G_loc u el s t Hel) as [-> ->]. destruct (G_loc v el s t Hel) as [-> ->]. reflexivity.
Qed.

Lemma L_int v : L els v = E_int (fun el s t => ddx v el s t * loc_y el s t - ddy v el s t * loc_x el s t) els.
Proof.
  unfold L. apply MQ_E.
  - intros el Hel. destruct (d1 v el Hel) as [A [C [P Q]]].
    apply (pdeg_weaken 2); [lia|]. apply pdeg_minus; apply (pdeg_mul 1 1); assumption.
  - intros el s t Hel. destruct (G_loc v el s t Hel) as [-> ->]. destruct (pos_loc el s t Hel) as [-> ->]. reflexivity.
Qed.

Lemma Mn_int v : Mn els v = E_int (val v) els.
Proof.
  unfold Mn. apply MQ_E.
  - intros el Hel. apply (pdeg_weaken 2); [lia|]. apply pdeg_vl, (on_valid n X Y els Hm), Hel.
  - intros el s t Hel. apply vl_fe.
Qed.

Lemma entry_int i j : (i < n)%nat -> (j < n)%nat ->
  K i j = E_int (fun el s t => ddx (unit_node i) el s t * ddx (unit_node j) el s t + ddy (unit_node i) el s t * ddy (unit_node j) el s t) els.
Proof.
  intros Hi Hj. rewrite <- B_int. rewrite B_sym. rewrite <- (B_form n X Y els Hm). rewrite (dotn_unit i) by exact Hi.
  symmetry. apply mulv_unit. exact Hj.
Qed.

Lemma load_int i : (i < n)%nat ->
  f i = E_int (fun el s t => ddx (unit_node i) el s t * loc_y el s t - ddy (unit_node i) el s t * loc_x el s t) els.
Proof. intros Hi. rewrite <- L_int, <- (L_form n X Y els Hm). unfold dotn. rewrite (dotn_unit i) by exact Hi. reflexivity. Qed.

Lemma border_int i : (i < n)%nat -> K i n = E_int (val (unit_node i)) els /\ K n i = E_int (val (unit_node i)) els.
Proof.
  intros Hi. destruct (bordered_blocks n els (on_wf n X Y els Hm)) as [_ [Kc [Kr _]]]. unfold K. rewrite (Kc i Hi), (Kr i Hi).
  rewrite <- Mn_int. unfold Mn. rewrite <- (c_tor_form n els _ (on_wf n X Y els Hm)). unfold dotn. rewrite (dotn_unit i) by exact Hi. split; reflexivity.
Qed.

Lemma corner_zero : K n n = 0.
Proof. apply (bordered_blocks n els (on_wf n X Y els Hm)). Qed.

Lemma ea_MQ : MQ els (fun _ _ => 1) = t_ea (section_totals els).
Proof.
  transitivity (mesh_q m_E (fun _ _ => 1) els); [exact (MQ_pos els (fun _ _ => 1))|]. symmetry. rewrite section_totals_q. reflexivity.
Qed.

Lemma border_sum : sumn n (fun i => K i n) = t_ea (section_totals els).
Proof.
  destruct (bordered_blocks n els (on_wf n X Y els Hm)) as [_ [Kc _]].
  transitivity (dotn n (fun _ => 1) (c_tor els)).
  - unfold dotn. apply sumn_ext. intros i Hi. unfold K. rewrite (Kc i Hi). ring.
  - rewrite (c_tor_form n els _ (on_wf n X Y els Hm)). fold (Mn els (fun _ => 1)). rewrite (Mn_const n X Y els Hm), ea_MQ. ring.
Qed.

Lemma load_sum : sumn n f = 0.
Proof.
  transitivity (dotn n (fun _ => 1) f); [unfold dotn; apply sumn_ext; intros; ring|]. unfold f. rewrite (L_form n X Y els Hm). apply (L_const n X Y els Hm).
Qed.

Lemma kernel_const k i : (i < n)%nat -> mulv n K (fun _ => k) i = 0.
Proof.
  intros Hi. rewrite <- (dotn_unit i (mulv n K (fun _ => k)) Hi). unfold K. rewrite (B_form n X Y els Hm), (B_sym els).
  apply (B_const n X Y els Hm).
Qed.

Lemma multiplier g u lam : solves n K g u lam -> lam * t_ea (section_totals els) = sumn n g.
Proof.
  intros H. destruct (weak n X Y els Hm g u lam H) as [W _]. pose proof (W (fun _ => 1)) as E.
  rewrite (B_sym els), (B_sym els), (B_const n X Y els Hm), (Mn_const n X Y els Hm), ea_MQ in E.
  transitivity (dotn n (fun _ => 1) g); [lra|]. unfold dotn. apply sumn_ext. intros; ring.
Qed.

Context (Hp : pos_moduli els).
Lemma kernel_only u : connected els -> els <> [] -> (forall i, (i < n)%nat -> mulv n K u i = 0) ->
  exists k, forall el, In el els -> forall i, In i (ids_list (el_ids el)) -> u i = k.
Proof.
  intros Hc Hn Hz.
  destruct (unique_connected n X Y els Hm Hp (fun _ => 0) u Hc Hn) as [k Hk].
  - intros v. rewrite (B_sym els _ v), (B_const n X Y els Hm). rewrite <- (B_form n X Y els Hm). symmetry. apply sumn_zero.
    intros i Hi. fold K. rewrite (Hz i Hi). ring.
  - exists k. intros el Hel i Hi. rewrite (Hk el Hel i Hi). ring.
Qed.

Lemma energy_nonneg u : 0 <= sumn n (fun i => u i * mulv n K u i).
Proof. unfold K. rewrite (B_form n X Y els Hm). apply (B_nonneg n X Y els Hm Hp). Qed.

(** ** Unique solvability *)
Lemma bordered_injective u lam : connected els -> els <> [] -> all_used n els -> solves n K (fun _ => 0) u lam ->
  lam = 0 /\ forall i, (i < n)%nat -> u i = 0.
Proof.
  intros Hc Hn Hu H.
  assert (Hea : 0 < t_ea (section_totals els)) by (apply ea_pos; [exact Hn|apply (on_valid n X Y els Hm)|exact Hp]).
  pose proof (multiplier _ _ _ H) as E. rewrite (sumn_zero n (fun _ => 0)) in E by reflexivity.
  assert (lam = 0) by (apply (Rmult_eq_reg_r (t_ea (section_totals els))); lra). subst lam. split; [reflexivity|].
  destruct (kernel_only u Hc Hn) as [k Hk].
  { intros i Hi. destruct H as [H _]. rewrite <- (H i Hi). ring. }
  assert (Z : Mn els u = k * t_ea (section_totals els)).
  { rewrite <- ea_MQ, <- (Mn_const n X Y els Hm k). unfold Mn. apply MQ_ext. intros el g Hel Hg. unfold Vl. f_equal.
    unfold gather. f_equal; apply (Hk el Hel); cbn [ids_list In]; tauto. }
  destruct (weak n X Y els Hm _ u 0 H) as [_ M0]. rewrite M0 in Z.
  assert (k = 0) by (apply (Rmult_eq_reg_r (t_ea (section_totals els))); lra). subst k.
  intros i Hi. destruct (Hu i Hi) as [el [Hel Hin]]. apply (Hk el Hel i Hin).
Qed.

Lemma bordered_solvable g : connected els -> els <> [] -> all_used n els -> exists u lam, solves n K g u lam.
Proof.
  intros Hc Hn Hu.
  destruct (square_solvable (S n) K) with (f := fun i => if Nat.eqb i n then 0 else g i) as [u Hsol].
  - intros u Hz. assert (S0 : solves n K (fun _ => 0) u (u n)).
    { split; [intros i Hi; apply (Hz i); lia|apply (Hz n); lia]. }
    destruct (bordered_injective u (u n) Hc Hn Hu S0) as [A C]. intros j Hj. destruct (Nat.eq_dec j n) as [->|]; [exact A|apply C; lia].
  - exists u, (u n). split.
    + intros i Hi. pose proof (Hsol i ltac:(lia)) as E. cbn [sumn] in E. destruct (Nat.eqb_spec i n); [lia|]. exact E.
    + pose proof (Hsol n ltac:(lia)) as E. cbn [sumn] in E. rewrite Nat.eqb_refl in E. exact E.
Qed.

Lemma bordered_unique g u u' lam lam' : connected els -> els <> [] -> all_used n els ->
  solves n K g u lam -> solves n K g u' lam' -> lam' = lam /\ forall i, (i < n)%nat -> u' i = u i.
Proof.
  intros Hc Hn Hu [A1 A2] [C1 C2].
  assert (D : forall i, mulv n K (fun j => u' j - u j) i = mulv n K u' i - mulv n K u i).
  { intros i. unfold mulv. transitivity (sumn n (fun j => K i j * u' j + (-1) * (K i j * u j))); [apply sumn_ext; intros; ring|].
    rewrite sumn_plus, sumn_scal. ring. }
  destruct (bordered_injective (fun j => u' j - u j) (lam' - lam) Hc Hn Hu) as [E1 E2].
  - split.
    + intros i Hi. rewrite D. pose proof (A1 i Hi). pose proof (C1 i Hi). lra.
    + rewrite D. lra.
  - split; [lra|]. intros i Hi. pose proof (E2 i Hi). lra.
Qed.

(** ** Disjoint regions: singular *)
Lemma MQ_app F l l' : MQ (l ++ l') F = MQ l F + MQ l' F.
Proof. unfold MQ. rewrite sumf_app. reflexivity. Qed.

Lemma apart_singular els1 els2 : falls_apart els els1 els2 ->
  exists u i, (i < n)%nat /\ u i <> 0 /\ solves n K (fun _ => 0) u 0.
Proof.
  intros [N1 [N2 [P Hd]]].
  assert (in1 : forall el, In el els1 -> In el els) by (intros el H; apply (Permutation_in el (Permutation_sym P)), in_or_app; left; exact H).
  assert (in2 : forall el, In el els2 -> In el els) by (intros el H; apply (Permutation_in el (Permutation_sym P)), in_or_app; right; exact H).
  assert (M1 : mesh_on n X Y els1) by (intros el H; apply Hm, in1, H).
  assert (M2 : mesh_on n X Y els2) by (intros el H; apply Hm, in2, H).
  assert (E1 : 0 < t_ea (section_totals els1)) by (apply ea_pos; [exact N1|apply (on_valid n X Y els1 M1)|intros el H; apply Hp, in1, H]).
  assert (E2 : 0 < t_ea (section_totals els2)) by (apply ea_pos; [exact N2|apply (on_valid n X Y els2 M2)|intros el H; apply Hp, in2, H]).
  set (e1 := t_ea (section_totals els1)) in *. set (e2 := t_ea (section_totals els2)) in *.
  set (b1 := fun i => existsb (fun el => existsb (Nat.eqb i) (ids_list (el_ids el))) els1).
  assert (Hb1 : forall el i, In el els1 -> In i (ids_list (el_ids el)) -> b1 i = true).
  { intros el i H Hi. apply existsb_exists. exists el. split; [exact H|]. apply existsb_exists. exists i. split; [exact Hi|apply Nat.eqb_refl]. }
  assert (Hb2 : forall el i, In el els2 -> In i (ids_list (el_ids el)) -> b1 i = false).
  { intros el i H Hi. destruct (b1 i) eqn:Eb; [|reflexivity]. exfalso. apply existsb_exists in Eb. destruct Eb as [e [He Hx]].
    apply existsb_exists in Hx. destruct Hx as [k [Hk Ek]]. apply Nat.eqb_eq in Ek. subst k. apply (Hd e el He H). exists i. auto. }
  set (u := fun i => if b1 i then e2 else - e1).
  assert (G1 : forall el, In el els1 -> gather u (el_ids el) = gather (fun _ => e2) (el_ids el)).
  { intros el H. unfold gather, u. f_equal; rewrite (Hb1 el) by (first [exact H|cbn [ids_list In]; tauto]); reflexivity. }
  assert (G2 : forall el, In el els2 -> gather u (el_ids el) = gather (fun _ => - e1) (el_ids el)).
  { intros el H. unfold gather, u. f_equal; rewrite (Hb2 el) by (first [exact H|cbn [ids_list In]; tauto]); reflexivity. }
  assert (H0 : exists e0, In e0 els1) by (clear - N1; destruct els1 as [|e0 l0]; [contradiction|exists e0; left; reflexivity]).
  destruct H0 as [e0 H0].
  exists u, (c0 (el_ids e0)).
  assert (Hc0 : In (c0 (el_ids e0)) (ids_list (el_ids e0))) by (left; reflexivity).
  split; [apply (M1 e0 H0), Hc0|]. split; [unfold u; rewrite (Hb1 e0 _ H0 Hc0); lra|].
  apply (weak_solves n X Y els Hm).
  - intros v. rewrite Rmult_0_l, Rplus_0_r. transitivity 0.
    + unfold B. apply MQ_zero. intros el g Hel Hg. apply (Permutation_in el P) in Hel. apply in_app_or in Hel. destruct Hel as [H|H].
      * unfold Gx, Gy. rewrite (G1 el H). destruct (const_fields n X Y els Hm e2 el g (in1 el H) (sum1_4 g Hg)) as [A [C _]]. unfold Gx, Gy in A, C. rewrite A, C. ring.
      * unfold Gx, Gy. rewrite (G2 el H). destruct (const_fields n X Y els Hm (- e1) el g (in2 el H) (sum1_4 g Hg)) as [A [C _]]. unfold Gx, Gy in A, C. rewrite A, C. ring.
    + unfold dotn. symmetry. apply sumn_zero. intros; ring.
  - transitivity (MQ (els1 ++ els2) (Vl u)).
    + unfold Mn, MQ. apply sumf_perm. exact P.
    + rewrite MQ_app. rewrite (MQ_ext els1 (Vl u) (Vl (fun _ => e2))) by (intros el g H _; unfold Vl; rewrite (G1 el H); reflexivity).
      rewrite (MQ_ext els2 (Vl u) (Vl (fun _ => - e1))) by (intros el g H _; unfold Vl; rewrite (G2 el H); reflexivity).
      fold (Mn els1 (fun _ => e2)) (Mn els2 (fun _ => - e1)). rewrite (Mn_const n X Y els1 M1), (Mn_const n X Y els2 M2).
      assert (Q : forall l, MQ l (fun _ _ => 1) = t_ea (section_totals l)).
      { intros l. transitivity (mesh_q m_E (fun _ _ => 1) l); [exact (MQ_pos l (fun _ _ => 1))|]. symmetry. rewrite section_totals_q. reflexivity. }
      rewrite !Q. fold e1 e2. ring.
Qed.
End OnMesh.

(** ** A solver that returns a solution whenever there is one *)
Definition best_solver (n : nat) : lg_solver := fun K f =>
  match excluded_middle_informative (exists u lam, solves n K f u lam) with
  | left H => Ok (proj1_sig (constructive_indefinite_description _ H))
  | right _ => Err RuntimeError
  end.

Lemma best_exact n : exact_solver n (best_solver n).
Proof.
  intros K f u H. unfold best_solver in H. destruct excluded_middle_informative as [Y|N]; [|discriminate].
  injection H as <-. apply (proj2_sig (constructive_indefinite_description _ Y)).
Qed.

Lemma best_ok n K f : (exists u lam, solves n K f u lam) -> exists u, best_solver n K f = Ok u.
Proof. intros H. unfold best_solver. destruct excluded_middle_informative as [Y|N]; [eexists; reflexivity|contradiction]. Qed.

Lemma shift_connected cx cy els : connected els -> connected (map (shift_el cx cy) els).
Proof.
  intros Hc a b Ha Hb. apply in_map_iff in Ha. destruct Ha as [e [<- He]]. apply in_map_iff in Hb. destruct Hb as [e' [<- He']].
  destruct (Hc e e' He He') as [path [Hp Hch]]. exists (map (shift_el cx cy) path). split.
  - intros x Hx. apply in_map_iff in Hx. destruct Hx as [y [<- Hy]]. apply in_map, Hp, Hy.
  - clear Hp He. revert e Hch. induction path as [|y path IH]; intros e Hch.
    + exact Hch.
    + destruct Hch as [S Hch]. split; [exact S|]. apply IH, Hch.
Qed.

Lemma shift_used n cx cy els : all_used n els -> all_used n (map (shift_el cx cy) els).
Proof. intros H i Hi. destruct (H i Hi) as [el [A C]]. exists (shift_el cx cy el). split; [apply in_map, A|exact C]. Qed.

Lemma analysis_exists n X Y els composite : mesh_on n X Y els -> els <> [] -> pos_moduli els -> connected els -> all_used n els ->
  exists w, warping_analysis n (best_solver n) composite (section_totals els) (centroidal_of (section_totals els)) els = Ok w.
Proof.
  intros Hm Hn Hp Hc Hu. set (t := section_totals els). set (c := centroidal_of t). set (cx := p_cx c). set (cy := p_cy c).
  set (wels := map (shift_el cx cy) els).
  pose proof (shift_mesh_on n X Y els cx cy Hm) as Hmw. fold wels in Hmw.
  assert (S : forall f, exists u, best_solver n (fst (assemble_torsion n wels)) f = Ok u).
  { intros f. apply best_ok. apply (bordered_solvable n _ _ wels Hmw).
    - intros el H. apply in_map_iff in H. destruct H as [e [<- He]]. apply (Hp e He).
    - apply shift_connected, Hc.
    - unfold wels. destruct els; [contradiction|discriminate].
    - apply shift_used, Hu. }
  unfold warping_analysis. fold cx cy wels. destruct (assemble_torsion n wels) as [K f] eqn:EA. cbn [fst] in S.
  destruct (S f) as [om ->]. cbn [bind].
  destruct (assemble_shear_load _ _ _ _ wels) as [fp fh]. destruct (S fp) as [ps ->]. cbn [bind]. destruct (S fh) as [ph ->]. cbn [bind].
  destruct (principal_coordinate _ _ _) as [a b]. destruct (shear_deformation _ _ _ _ _ _ _) as [[kx ky] kxy].
  eexists. reflexivity.
Qed.
