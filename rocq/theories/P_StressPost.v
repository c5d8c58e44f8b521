(** Proofs about the dictionaries of stresses and Mohr's circles. *)
From Coq Require Import String Reals List Bool Arith Lra Lia.
From Verif Require Import Base M_Fea S_Fem M_Init M_Section M_Stress S_Stress P_Stress M_StressPost S_StressPost.
Import ListNotations.
Local Open Scope R_scope.

(** ** Dictionaries *)
Lemma shows_map n d key f : entry key d = Some (map f (seq 0 n)) -> shows n d key f.
Proof.
  intros E. exists (map f (seq 0 n)). split; [exact E|]. split; [rewrite map_length, seq_length; reflexivity|].
  intros i H. rewrite nth_error_map. assert (N : nth_error (seq 0 n) i = Some i); [|rewrite N; reflexivity].
  rewrite nth_error_nth' with (d := 0%nat) by (rewrite seq_length; exact H). rewrite seq_nth by exact H. reflexivity.
Qed.
Lemma shows_unique n d key f g i : shows n d key f -> shows n d key g -> (i < n)%nat -> f i = g i.
Proof. intros (l & E & _ & A) (l' & E' & _ & B) H. rewrite E in E'. injection E' as <-. specialize (A i H). rewrite (B i H) in A. injection A as ->. reflexivity. Qed.

Lemma get_stress_nth n groups res k r d : nth_error (get_stress n groups res) k = Some (r, d) ->
  exists m l x, nth_error groups k = Some (m, l) /\ nth_error res k = Some x /\ r = mo_name m /\ d = stress_dict n x.
Proof.
  unfold get_stress. revert res k. induction groups as [|[m l] groups IH]; intros res k H; [destruct k; discriminate H|]. destruct res as [|x res]; [destruct k; discriminate H|].
  destruct k as [|k]; [|apply (IH res k), H]. cbn in H. injection H as <- <-. exists m, l, x. auto.
Qed.

Lemma get_stress_at n groups res k m l x : nth_error groups k = Some (m, l) -> nth_error res k = Some x -> nth_error (get_stress n groups res) k = Some (mo_name m, stress_dict n x).
Proof.
  unfold get_stress. revert res k. induction groups as [|[m' l'] groups IH]; intros res k H R; [destruct k; discriminate H|]. destruct res as [|x' res]; [destruct k; discriminate R|].
  destruct k as [|k]; [|apply (IH res k H R)]. cbn in H, R. injection H as -> ->. injection R as ->. reflexivity.
Qed.

(** ** The three eigenvalues *)
Definition state (zz zx zy : R) : nodal_stress :=
  let z := fun _ : nat => 0 in mkNodalStress (fun _ => zz) z z z z (fun _ => zx) (fun _ => zy) z z z z.
Lemma principal_facts zz zx zy : exists s1 s3, s3 <= 0 <= s1 /\ is_principal s1 zz zx zy /\ is_principal s3 zz zx zy /\
  (forall e, is_principal e zz zx zy -> e = s1 \/ e = 0 \/ e = s3) /\ s1 + s3 = zz /\ s1 * s3 = - (zx ^ 2 + zy ^ 2).
Proof.
  destruct (combined_facts (state zz zx zy) 0) as (_ & _ & P1 & P3 & _ & U & B & S & V1 & V2 & _). set (b := combine_node _ _) in *.
  assert (Z : cb_zz b = zz) by (unfold b, combine_node, state; cbn [cb_zz ns_zz_n ns_zz_mxx ns_zz_myy ns_zz_m11 ns_zz_m22]; ring).
  assert (X : cb_zx b = zx) by (unfold b, combine_node, state; cbn [cb_zx ns_zx_mzz ns_zx_vx ns_zx_vy]; ring).
  assert (Y : cb_zy b = zy) by (unfold b, combine_node, state; cbn [cb_zy ns_zy_mzz ns_zy_vx ns_zy_vy]; ring).
  rewrite Z, X, Y in *. exists (cb_11 b), (cb_33 b). do 5 (split; [assumption|]). rewrite V1 in V2. replace (zz ^ 2) with ((cb_11 b + cb_33 b) ^ 2) in V2 by (rewrite S; reflexivity). lra.
Qed.

Lemma below3_lt P : below3 P -> forall i, (i < 3)%nat -> P i.
Proof. intros (A & B & C) i H. destruct i as [|[|[|i]]]; try assumption. lia. Qed.
Lemma sum3_ext f g : (forall i, (i < 3)%nat -> f i = g i) -> sum3 f = sum3 g.
Proof. intros H. unfold sum3. rewrite !H by lia. reflexivity. Qed.
Lemma sum3_identity f j : (j < 3)%nat -> sum3 (fun l => f l * identity3 l j) = f j.
Proof. intros H. unfold sum3, identity3. destruct j as [|[|[|j]]]; cbn [Nat.eqb]; try ring. lia. Qed.
Lemma sum3_identity' f i : (i < 3)%nat -> sum3 (fun l => identity3 i l * f l) = f i.
Proof. intros H. unfold sum3, identity3. destruct i as [|[|[|i]]]; cbn [Nat.eqb]; try ring. lia. Qed.

Lemma sort3_distinct s a b c : sort3 s = (a, b, c) -> a < b < c -> forall i j, (i < 3)%nat -> (j < 3)%nat -> i <> j -> s i <> s j.
Proof.
  unfold sort3. intros E O i j I J N.
  assert (D : s 0%nat <> s 1%nat /\ s 0%nat <> s 2%nat /\ s 1%nat <> s 2%nat).
  { repeat match type of E with context [Rle_dec ?x ?y] => destruct (Rle_dec x y) end; injection E as <- <- <-; repeat split; lra. }
  destruct i as [|[|[|i]]], j as [|[|[|j]]]; try lia; try apply D; try (apply not_eq_sym; apply D).
Qed.

Section eigen.
Variables (zz zx zy : R) (s : vec3) (n m : mat3).
Let A := stress_tensor zz zx zy.
Hypothesis An : forall i k, (i < 3)%nat -> (k < 3)%nat -> mul3 A n i k = s k * n i k.
Hypothesis unit : forall k, (k < 3)%nat -> sum3 (fun i => n i k ^ 2) = 1.
Hypothesis nm : forall i j, (i < 3)%nat -> (j < 3)%nat -> mul3 n m i j = identity3 i j.
Hypothesis mn : forall i j, (i < 3)%nat -> (j < 3)%nat -> mul3 m n i j = identity3 i j.

Lemma A_sym i j : A i j = A j i.
Proof. unfold A, stress_tensor. destruct i as [|[|[|i]]], j as [|[|[|j]]]; reflexivity. Qed.
(** the matrix from its eigenvectors *)
Lemma A_form i j : (i < 3)%nat -> (j < 3)%nat -> A i j = sum3 (fun k => n i k * s k * m k j).
Proof.
  intros I J. rewrite <- (sum3_identity (A i) j J). transitivity (sum3 (fun l => A i l * mul3 n m l j)); [apply sum3_ext; intros l L; rewrite nm by assumption; reflexivity|].
  transitivity (sum3 (fun k => mul3 A n i k * m k j)); [unfold mul3, sum3; ring|]. apply sum3_ext. intros k K. rewrite An by assumption. ring.
Qed.
Lemma mA k j : (k < 3)%nat -> (j < 3)%nat -> sum3 (fun l => m k l * A l j) = s k * m k j.
Proof.
  intros K J. transitivity (sum3 (fun l => m k l * sum3 (fun i => n l i * s i * m i j))); [apply sum3_ext; intros l L; rewrite A_form by assumption; reflexivity|].
  transitivity (sum3 (fun i => mul3 m n k i * (s i * m i j))); [unfold mul3, sum3; ring|].
  transitivity (sum3 (fun i => identity3 k i * (s i * m i j))); [apply sum3_ext; intros i I; rewrite mn by assumption; reflexivity|]. apply (sum3_identity' (fun i => s i * m i j)), K.
Qed.
Lemma trace : sum3 s = zz.
Proof.
  transitivity (sum3 (fun i => A i i)); [|unfold A, stress_tensor, sum3; ring].
  transitivity (sum3 (fun i => sum3 (fun k => n i k * s k * m k i))); [|apply sum3_ext; intros i I; rewrite (A_form i i) by assumption; reflexivity].
  transitivity (sum3 (fun k => s k * mul3 m n k k)); [|unfold mul3, sum3; ring]. apply sum3_ext. intros k K. rewrite mn by assumption. unfold identity3. rewrite Nat.eqb_refl. ring.
Qed.
Lemma trace2 : sum3 (fun k => s k ^ 2) = zz ^ 2 + 2 * (zx ^ 2 + zy ^ 2).
Proof.
  transitivity (sum3 (fun i => sum3 (fun l => A i l * A l i))); [|unfold A, stress_tensor, sum3; ring].
  transitivity (sum3 (fun i => sum3 (fun l => A i l * sum3 (fun k => n l k * s k * m k i)))).
  2: { apply sum3_ext. intros i I. apply sum3_ext. intros l L. rewrite (A_form l i) by assumption. reflexivity. }
  transitivity (sum3 (fun i => sum3 (fun k => mul3 A n i k * (s k * m k i)))); [|unfold mul3, sum3; ring].
  transitivity (sum3 (fun i => sum3 (fun k => (s k * n i k) * (s k * m k i)))).
  2: { apply sum3_ext. intros i I. apply sum3_ext. intros k K. rewrite An by assumption. reflexivity. }
  transitivity (sum3 (fun k => s k ^ 2 * mul3 m n k k)); [|unfold mul3, sum3; ring]. apply sum3_ext. intros k K. rewrite mn by assumption. unfold identity3. rewrite Nat.eqb_refl. ring.
Qed.
Lemma eigenvalue k : (k < 3)%nat -> is_principal (s k) zz zx zy.
Proof.
  intros K. pose proof (unit k K) as U. exists (n 0%nat k), (n 1%nat k), (n 2%nat k).
  pose proof (An 0 k ltac:(lia) K) as E0. pose proof (An 1 k ltac:(lia) K) as E1. pose proof (An 2 k ltac:(lia) K) as E2. unfold mul3, sum3, A, stress_tensor in E0, E1, E2. unfold sum3 in U.
  split; [|split; [|split]; lra].
  destruct (Req_dec (n 0%nat k) 0) as [Z0|]; [|auto]. destruct (Req_dec (n 1%nat k) 0) as [Z1|]; [|auto]. right; right. intros Z2. rewrite Z0, Z1, Z2 in U. lra.
Qed.
Lemma sorted s1 s3 : s3 <= 0 <= s1 -> (forall e, is_principal e zz zx zy -> e = s1 \/ e = 0 \/ e = s3) -> s1 + s3 = zz -> s1 * s3 = - (zx ^ 2 + zy ^ 2) -> sort3 s = (s3, 0, s1).
Proof.
  intros B U S P. pose proof trace as T. pose proof trace2 as T2. unfold sum3 in T, T2.
  pose proof (U _ (eigenvalue 0 ltac:(lia))) as K0. pose proof (U _ (eigenvalue 1 ltac:(lia))) as K1. pose proof (U _ (eigenvalue 2 ltac:(lia))) as K2.
  set (a := s 0%nat) in *. set (b := s 1%nat) in *. set (c := s 2%nat) in *. unfold sort3. fold a b c. clearbody a b c.
  assert (Q : a = s1 \/ b = s1 \/ c = s1 \/ s1 = 0).
  { destruct K0 as [K0|[K0|K0]]; [auto| |]; (destruct K1 as [K1|[K1|K1]]; [auto| |]); (destruct K2 as [K2|[K2|K2]]; [auto| |]); right; right; right; try lra.
    rewrite K0, K1, K2 in T, T2. assert (E : s3 = - s1) by lra. assert (Z : zx ^ 2 + zy ^ 2 = 0) by (rewrite <- S, E in T2; nra). rewrite Z, E in P. nra. }
  assert (F : (a = s1 /\ (b = 0 /\ c = s3 \/ b = s3 /\ c = 0)) \/ (b = s1 /\ (a = 0 /\ c = s3 \/ a = s3 /\ c = 0)) \/ (c = s1 /\ (b = 0 /\ a = s3 \/ b = s3 /\ a = 0))).
  { destruct Q as [Q|[Q|[Q|Q]]].
    - subst a. destruct K1 as [->|[->| ->]]; destruct K2 as [->|[->| ->]]; lra.
    - subst b. destruct K0 as [->|[->| ->]]; destruct K2 as [->|[->| ->]]; lra.
    - subst c. destruct K0 as [->|[->| ->]]; destruct K1 as [->|[->| ->]]; lra.
    - subst s1. destruct K0 as [->|[->| ->]]; destruct K1 as [->|[->| ->]]; destruct K2 as [->|[->| ->]]; lra. }
  clear Q K0 K1 K2 T T2 U.
  destruct (Rle_dec a b); destruct (Rle_dec b c); try destruct (Rle_dec a c); repeat match goal with |- context [Rle_dec ?x ?y] => destruct (Rle_dec x y) end;
    (apply f_equal2; [apply f_equal2|]); lra.
Qed.
(** different eigenvalues: the inverse is the transpose *)
Lemma orthogonal : (forall i j, (i < 3)%nat -> (j < 3)%nat -> i <> j -> s i <> s j) -> forall k j, (k < 3)%nat -> (j < 3)%nat -> m k j = n j k.
Proof.
  intros D k j K J.
  assert (O : forall i, (i < 3)%nat -> sum3 (fun l => n l k * n l i) = identity3 k i).
  { intros i I. unfold identity3. destruct (Nat.eqb k i) eqn:E.
    - apply Nat.eqb_eq in E. subst i. rewrite <- (unit k K). unfold sum3. ring.
    - apply Nat.eqb_neq in E. assert (Z : (s k - s i) * sum3 (fun l => n l k * n l i) = 0).
      { transitivity (sum3 (fun l => (s k * n l k) * n l i) - sum3 (fun l => n l k * (s i * n l i))); [unfold sum3; ring|].
        transitivity (sum3 (fun l => mul3 A n l k * n l i) - sum3 (fun l => n l k * mul3 A n l i)).
        { f_equal; apply sum3_ext; intros l L; rewrite An by assumption; reflexivity. }
        unfold mul3, sum3. rewrite (A_sym 1 0), (A_sym 2 0), (A_sym 2 1). ring. }
      apply Rmult_integral in Z. destruct Z as [Z|Z]; [exfalso; apply (D k i K I E); lra|exact Z]. }
  rewrite <- (sum3_identity' (fun i => m i j) k K). transitivity (sum3 (fun i => sum3 (fun l => n l k * n l i) * m i j)); [apply sum3_ext; intros i I; rewrite O by exact I; reflexivity|].
  transitivity (sum3 (fun l => n l k * mul3 n m l j)); [unfold mul3, sum3; ring|].
  transitivity (sum3 (fun l => n l k * identity3 l j)); [apply sum3_ext; intros l L; rewrite nm by assumption; reflexivity|]. apply (sum3_identity (fun l => n l k)), J.
Qed.
Lemma squares s1 s3 c : s3 <= 0 <= s1 -> (forall e, is_principal e zz zx zy -> e = s1 \/ e = 0 \/ e = s3) -> s1 + s3 = zz -> s1 * s3 = - (zx ^ 2 + zy ^ 2) -> (c < 3)%nat ->
  sum3 (fun k => m k c * s k * m k c) = A c c /\ sum3 (fun k => (s k * m k c) ^ 2) = sum3 (fun l => A c l ^ 2).
Proof.
  intros B U S P C. pose proof (sorted s1 s3 B U S P) as SO.
  destruct (Req_dec (zx ^ 2 + zy ^ 2) 0) as [Z|Z].
  - assert (X : zx = 0) by nra. assert (Y : zy = 0) by nra.
    assert (M : forall k, (k < 3)%nat -> s k * m k c = if Nat.eqb c 2 then zz * m k c else 0).
    { intros k K. rewrite <- mA by assumption. unfold A, stress_tensor, sum3. rewrite X, Y. destruct c as [|[|[|c]]]; cbn [Nat.eqb]; try ring. }
    destruct (Nat.eqb c 2) eqn:E.
    + apply Nat.eqb_eq in E. subst c. destruct (Req_dec zz 0) as [Z0|Z0].
      { assert (M0 : forall k, (k < 3)%nat -> s k * m k 2%nat = 0) by (intros k K; rewrite M by exact K; rewrite Z0; ring). split.
        - transitivity (sum3 (fun k => m k 2%nat * 0)); [apply sum3_ext; intros k K; rewrite Rmult_assoc, M0 by exact K; reflexivity|]. unfold A, stress_tensor, sum3. rewrite Z0. ring.
        - transitivity (sum3 (fun k => 0 ^ 2)); [apply sum3_ext; intros k K; rewrite M0 by exact K; reflexivity|]. unfold A, stress_tensor, sum3. rewrite X, Y, Z0. ring. }
      assert (N : sum3 (fun k => m k 2%nat ^ 2) = 1).
      { pose proof (nm 2 2 ltac:(lia) ltac:(lia)) as I. unfold mul3, identity3 in I. cbn [Nat.eqb] in I.
        assert (K1 : forall k, (k < 3)%nat -> m k 2%nat = 0 \/ n 2%nat k ^ 2 = 1).
        { intros k K. specialize (M k K). destruct (Req_dec (s k) zz) as [Es|Es]; [right|left].
          - pose proof (An 0 k ltac:(lia) K) as E0. pose proof (An 1 k ltac:(lia) K) as E1. unfold mul3, sum3, A, stress_tensor in E0, E1. rewrite X in E0. rewrite Y in E1. pose proof (unit k K) as U1. unfold sum3 in U1.
            assert (n 0%nat k = 0). { apply Rmult_eq_reg_l with (s k); [lra|rewrite Es; exact Z0]. } assert (n 1%nat k = 0). { apply Rmult_eq_reg_l with (s k); [lra|rewrite Es; exact Z0]. } nra.
          - apply Rmult_eq_reg_l with (s k - zz); [lra|intros F; apply Es; lra]. }
        assert (K2 : exists k, (k < 3)%nat /\ s k = zz /\ forall j, (j < 3)%nat -> j <> k -> s j = 0).
        { assert (W : s1 = 0 /\ s3 = zz \/ s3 = 0 /\ s1 = zz). { rewrite Z in P. assert (P0 : s1 * s3 = 0) by lra. apply Rmult_integral in P0. destruct P0 as [P0|P0]; [left|right]; split; lra. }
          unfold sort3 in SO. repeat match type of SO with context [Rle_dec ?x ?y] => destruct (Rle_dec x y) end; injection SO as S3 S2 S1;
            (destruct W as [[W1 W3]|[W3 W1]];
             first [exists 0%nat; split; [lia|]; split; [lra|]; intros [|[|[|j]]] J NJ; try lia; lra
                   |exists 1%nat; split; [lia|]; split; [lra|]; intros [|[|[|j]]] J NJ; try lia; lra
                   |exists 2%nat; split; [lia|]; split; [lra|]; intros [|[|[|j]]] J NJ; try lia; lra]). }
        destruct K2 as (k & K & Sk & O).
        assert (M0 : forall j, (j < 3)%nat -> j <> k -> m j 2%nat = 0). { intros j J NJ. specialize (M j J). rewrite (O j J NJ) in M. apply Rmult_eq_reg_l with zz; [lra|exact Z0]. }
        destruct (K1 k K) as [F|F].
        - exfalso. unfold sum3 in I. destruct k as [|[|[|k]]]; [rewrite F, (M0 1%nat), (M0 2%nat) in I by lia|rewrite F, (M0 0%nat), (M0 2%nat) in I by lia|rewrite F, (M0 0%nat), (M0 1%nat) in I by lia|lia]; lra.
        - unfold sum3 in *. assert (G : m k 2%nat ^ 2 = 1).
          { assert (I' : n 2%nat k * m k 2%nat = 1) by (destruct k as [|[|[|k]]]; [rewrite (M0 1%nat), (M0 2%nat) in I by lia|rewrite (M0 0%nat), (M0 2%nat) in I by lia|rewrite (M0 0%nat), (M0 1%nat) in I by lia|lia]; lra).
            transitivity (n 2%nat k ^ 2 * m k 2%nat ^ 2); [rewrite F; ring|]. transitivity ((n 2%nat k * m k 2%nat) ^ 2); [ring|]. rewrite I'. ring. }
          destruct k as [|[|[|k]]]; [rewrite (M0 1%nat), (M0 2%nat) by lia|rewrite (M0 0%nat), (M0 2%nat) by lia|rewrite (M0 0%nat), (M0 1%nat) by lia|lia]; lra. }
      split.
      * transitivity (zz * sum3 (fun k => m k 2%nat ^ 2)); [|rewrite N; unfold A, stress_tensor; ring]. transitivity (sum3 (fun k => m k 2%nat * (zz * m k 2%nat))); [apply sum3_ext; intros k K; rewrite Rmult_assoc, M by exact K; reflexivity|unfold sum3; ring].
      * transitivity (zz ^ 2 * sum3 (fun k => m k 2%nat ^ 2)); [|rewrite N; unfold A, stress_tensor, sum3; rewrite X, Y; ring]. transitivity (sum3 (fun k => (zz * m k 2%nat) ^ 2)); [apply sum3_ext; intros k K; rewrite M by exact K; reflexivity|unfold sum3; ring].
    + apply Nat.eqb_neq in E. split.
      * transitivity (sum3 (fun k => m k c * 0)); [apply sum3_ext; intros k K; rewrite Rmult_assoc, M by exact K; reflexivity|]. unfold A, stress_tensor, sum3. destruct c as [|[|[|c]]]; try lia; ring.
      * transitivity (sum3 (fun k => 0 ^ 2)); [apply sum3_ext; intros k K; rewrite M by exact K; reflexivity|]. unfold A, stress_tensor, sum3. rewrite X, Y. destruct c as [|[|[|c]]]; try lia; ring.
  - assert (D : forall i j, (i < 3)%nat -> (j < 3)%nat -> i <> j -> s i <> s j).
    { assert (T : 0 < zx ^ 2 + zy ^ 2) by (pose proof (pow2_ge_0 zx); pose proof (pow2_ge_0 zy); lra). apply (sort3_distinct s s3 0 s1 SO). split.
      - destruct (Req_dec s3 0) as [E|E]; [rewrite E in P; lra|lra].
      - destruct (Req_dec s1 0) as [E|E]; [rewrite E in P; lra|lra]. }
    pose proof (orthogonal D) as O. split.
    + rewrite (A_form c c C C). apply sum3_ext. intros k K. rewrite (O k c K C). ring.
    + transitivity (sum3 (fun l => A c l * A l c)); [|apply sum3_ext; intros l L; rewrite (A_sym l c); ring].
      transitivity (sum3 (fun l => A c l * sum3 (fun k => n l k * s k * m k c))); [|apply sum3_ext; intros l L; rewrite (A_form l c) by assumption; reflexivity].
      transitivity (sum3 (fun k => mul3 A n c k * (s k * m k c))); [|unfold mul3, sum3; ring].
      apply sum3_ext. intros k K. rewrite An by assumption. rewrite (O k c K C). ring.
Qed.
End eigen.

Lemma mohr_of_diagram eig inv zz zx zy : eigen_ok eig inv (stress_tensor zz zx zy) -> exists s1 s3, mohr_diagram zz zx zy s1 s3 (mohr_of eig inv zz zx zy).
Proof.
  unfold eigen_ok, mohr_of. destruct (eig (stress_tensor zz zx zy)) as [s n]. intros (E & U & I).
  assert (An : forall i k, (i < 3)%nat -> (k < 3)%nat -> mul3 (stress_tensor zz zx zy) n i k = s k * n i k) by (intros i k Hi Hk; exact (below3_lt _ (below3_lt _ E i Hi) k Hk)).
  pose proof (below3_lt _ U) as U'. cbv beta in U'.
  assert (nm : forall i j, (i < 3)%nat -> (j < 3)%nat -> mul3 n (inv n) i j = identity3 i j) by (intros i k Hi Hk; exact (proj1 (below3_lt _ (below3_lt _ I i Hi) k Hk))).
  assert (mn : forall i j, (i < 3)%nat -> (j < 3)%nat -> mul3 (inv n) n i j = identity3 i j) by (intros i k Hi Hk; exact (proj2 (below3_lt _ (below3_lt _ I i Hi) k Hk))).
  destruct (principal_facts zz zx zy) as (s1 & s3 & B & P1 & P3 & UN & S & P). exists s1, s3.
  rewrite (sorted zz zx zy s n (inv n) An U' nm mn s1 s3 B UN S P).
  do 5 (split; [assumption|]). cbn [circles faces]. split; [repeat (apply f_equal2; [apply f_equal2; [apply f_equal2|]; lra|]); reflexivity|].
  assert (F : forall c, (c < 3)%nat -> traction s (inv n) c = (stress_tensor zz zx zy c c, sqrt (sum3 (fun l => stress_tensor zz zx zy c l ^ 2) - stress_tensor zz zx zy c c ^ 2))).
  { intros c C. destruct (squares zz zx zy s n (inv n) An U' nm mn s1 s3 c B UN S P C) as [Q1 Q2]. unfold traction. rewrite Q1, Q2. rewrite pow2_sqrt; [reflexivity|].
    unfold sum3. pose proof (pow2_ge_0 (stress_tensor zz zx zy c 0%nat)). pose proof (pow2_ge_0 (stress_tensor zz zx zy c 1%nat)). pose proof (pow2_ge_0 (stress_tensor zz zx zy c 2%nat)). lra. }
  cbn [map]. rewrite !F by lia. unfold sum3, stress_tensor. apply f_equal2; [|apply f_equal2; [|apply f_equal2; [|reflexivity]]]; (apply f_equal2; [reflexivity|]).
  - rewrite <- sqrt_Rsqr_abs. f_equal. unfold Rsqr. ring.
  - rewrite <- sqrt_Rsqr_abs. f_equal. unfold Rsqr. ring.
  - f_equal. ring.
Qed.

(** ** The group of the point *)
Lemma point_group_spec {A : Type} find (groups : list (list nat * A)) pt :
  match point_group find groups pt with
  | Some a => exists k ids, nth_error groups k = Some (ids, a) /\ find ids pt <> None /\ forall k' ids' a', (k < k')%nat -> nth_error groups k' = Some (ids', a') -> find ids' pt = None
  | None => forall ids a, In (ids, a) groups -> find ids pt = None
  end.
Proof.
  unfold point_group. induction groups as [|[ids a] groups IH] using rev_ind; [intros ids a []|]. rewrite fold_left_app. cbn [fold_left fst snd].
  destruct (find ids pt) as [i|] eqn:F.
  - exists (length groups), ids. split; [rewrite nth_error_app2, Nat.sub_diag by lia; reflexivity|]. split; [rewrite F; discriminate|].
    intros k' ids' a' L E. apply nth_error_Some_lt in E || (assert (E' : nth_error (groups ++ [(ids, a)]) k' <> None) by congruence; apply nth_error_Some in E'; rewrite app_length in E'; cbn in E'; lia).
  - destruct (fold_left _ groups None) as [b|].
    + destruct IH as (k & ids0 & E & N & L). exists k, ids0. split; [rewrite nth_error_app1; [exact E|apply nth_error_Some; congruence]|]. split; [exact N|].
      intros k' ids' a' K E'. destruct (lt_dec k' (length groups)) as [H|H]; [rewrite nth_error_app1 in E' by exact H; apply (L k' ids' a' K E')|].
      rewrite nth_error_app2 in E' by lia. destruct (k' - length groups)%nat as [|q]; [injection E' as <- <-; exact F|destruct q; discriminate E'].
    + intros ids' a' I. apply in_app_or in I. destruct I as [I|[I|[]]]; [apply (IH _ _ I)|]. injection I as <- <-. exact F.
Qed.
Lemma combine_nth_error {A B : Type} (l : list A) (r : list B) k x y : nth_error (combine l r) k = Some (x, y) <-> nth_error l k = Some x /\ nth_error r k = Some y.
Proof.
  revert r k. induction l as [|a l IH]; intros r k; [destruct k; cbn; split; [discriminate|intros [H _]; discriminate H|discriminate|intros [H _]; discriminate H]|].
  destruct r as [|b r]; [destruct k; cbn; split; [discriminate|intros [_ H]; discriminate H|discriminate|intros [_ H]; discriminate H]|].
  destruct k as [|k]; [cbn; split; [intros H; injection H as <- <-; auto|intros [H1 H2]; injection H1 as <-; injection H2 as <-; reflexivity]|]. cbn. apply IH.
Qed.
