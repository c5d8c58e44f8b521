(** Proofs about runs of bars. *)
From Coq Require Import String Reals List Bool Arith ZArith Lra Lia.
From Verif Require Import Base M_Fea M_Init M_Bisect M_Geometry S_Geometry M_Library M_SetOps S_SetOps M_Concrete S_Concrete.
Import ListNotations.
Local Open Scope R_scope.

Lemma ceil_spec x : x <= IZR (ceil x) < x + 1.
Proof. unfold ceil. rewrite opp_IZR. pose proof (base_Int_part (- x)). lra. Qed.

(** What is known of a run from P to Q *)
Record is_run (s P Q : R) (l : list R) : Prop := mkRun {
  run_cover : exists k, (1 <= k)%nat /\ Q - P <= INR k * s /\ forall i, (i <= k)%nat -> In (P + INR i / INR k * (Q - P)) l;
  run_le : P <= Q;
  run_first : In P l; run_last : In Q l; run_nonnil : l <> [];
  run_in : forall x, In x l -> P <= x <= Q;
  run_inner : forall x, In x (inner l) -> P < x < Q;
  run_from : forall x, In x (from_1 l) -> P < x <= Q;
  run_to : forall x, In x (to_last l) -> P <= x < Q;
  run_nodup : NoDup l;
  run_split : forall x, In x l -> x = P \/ x = Q \/ In x (inner l);
  run_split_from : forall x, In x l -> x = P \/ In x (from_1 l);
  run_split_to : forall x, In x l -> x = Q \/ In x (to_last l) }.

Lemma removelast_map {A B} (f : A -> B) l : removelast (map f l) = map f (removelast l).
Proof. induction l as [|a [|b l] IH]; [reflexivity|reflexivity|]. cbn [map removelast] in *. rewrite IH. reflexivity. Qed.
Lemma removelast_seq a n : removelast (seq a (S n)) = seq a n.
Proof. revert a. induction n as [|n IH]; intros a; [reflexivity|]. change (seq a (S (S n))) with (a :: seq (S a) (S n)). cbn [removelast]. rewrite IH. cbn [seq]. destruct n; reflexivity. Qed.
Lemma NoDup_map_lt (f : nat -> R) a n : (forall i, f i < f (S i)) -> NoDup (map f (seq a n)).
Proof.
  intros H. assert (M : forall i k, f i < f (i + S k)%nat).
  { intros i k. induction k as [|k IH]; [rewrite Nat.add_1_r; apply H|]. eapply Rlt_trans; [exact IH|]. replace (i + S (S k))%nat with (S (i + S k)) by lia. apply H. }
  revert a. induction n as [|n IH]; intros a; [constructor|]. cbn [seq map]. constructor; [|apply IH]. intros I. apply in_map_iff in I. destruct I as (j & E & J). apply in_seq in J.
  pose proof (M a (j - a - 1)%nat) as L. replace (a + S (j - a - 1))%nat with j in L by lia. lra.
Qed.
Lemma run_ok s P Q len start stop : 0 < s -> start = P -> stop = Q -> P < Q <= P + len \/ P = Q /\ len = 0 -> exists l, run start stop len s = Ok l /\ is_run s P Q l.
Proof.
  intros Hs -> -> H. unfold run, linspace. pose proof (ceil_spec (len / s)) as [C1 C2]. set (c := ceil (len / s)) in *.
  destruct H as [[H1 H2]|[-> ->]].
  - assert (Hl : 0 < len / s) by (apply Rdiv_lt_0_compat; lra). assert (Hc : (1 <= c)%Z) by (apply le_IZR; assert (0 < c)%Z by (apply lt_IZR; lra); apply IZR_le; lia).
    destruct ((c + 1 <? 0)%Z) eqn:E1; [apply Z.ltb_lt in E1; lia|]. destruct ((c + 1 =? 1)%Z) eqn:E2; [apply Z.eqb_eq in E2; lia|]. clear E1 E2.
    replace (c + 1 - 1)%Z with c by lia. set (k := Z.to_nat c). assert (Ek : IZR c = INR k) by (rewrite INR_IZR_INZ; unfold k; rewrite Z2Nat.id by lia; reflexivity).
    replace (Z.to_nat (c + 1)) with (S k) by (unfold k; lia). rewrite Ek in *. assert (K1 : (1 <= k)%nat) by (unfold k; lia). assert (K0 : 1 <= INR k) by (apply (le_INR 1) in K1; exact K1).
    assert (Hk : Q - P <= INR k * s). { assert (len <= INR k * s); [|lra]. apply (Rmult_le_reg_r (/ s)); [apply Rinv_0_lt_compat, Hs|]. rewrite Rmult_assoc, Rinv_r by lra. lra. }
    set (h := (Q - P) / INR k). assert (Hh : 0 < h) by (apply Rdiv_lt_0_compat; lra). assert (Ekh : INR k * h = Q - P) by (unfold h; field; lra).
    set (f := fun i : nat => P + INR i * h). assert (F0 : f 0%nat = P) by (unfold f; cbn [INR]; ring). assert (Fk : f k = Q) by (unfold f; lra).
    assert (FS : forall i, f i < f (S i)) by (intros i; unfold f; rewrite S_INR; lra).
    assert (FM : forall i, (i <= k)%nat -> P <= f i <= Q). { intros i Hi. apply le_INR in Hi. pose proof (pos_INR i). unfold f. split; [|assert (INR i * h <= INR k * h) by (apply Rmult_le_compat_r; lra); lra]. assert (0 <= INR i * h) by (apply Rmult_le_pos; lra). lra. }
    assert (F1 : forall i, (1 <= i)%nat -> P < f i) by (intros i Hi; apply (le_INR 1) in Hi; unfold f; assert (1 * h <= INR i * h) by (apply Rmult_le_compat_r; [lra|exact Hi]); lra).
    assert (F2 : forall i, (i < k)%nat -> f i < Q) by (intros i Hi; assert (S i <= k)%nat as Hi' by lia; pose proof (FM (S i) Hi'); pose proof (FS i); lra).
    assert (EF : from_1 (map f (seq 0 (S k))) = map f (seq 1 k)) by reflexivity.
    assert (ET : to_last (map f (seq 0 (S k))) = map f (seq 0 k)) by (unfold to_last; rewrite removelast_map, removelast_seq; reflexivity).
    assert (EI : inner (map f (seq 0 (S k))) = map f (seq 1 (k - 1))). { unfold inner. change (tl (map f (seq 0 (S k)))) with (map f (seq 1 k)). rewrite removelast_map. replace k with (S (k - 1)) at 1 by lia. rewrite removelast_seq. reflexivity. }
    exists (map f (seq 0 (S k))). split; [reflexivity|]. split.
    + exists k. split; [exact K1|]. split; [exact Hk|]. intros i Hi. apply in_map_iff. exists i. split; [unfold f, h; field; lra|apply in_seq; lia].
    + lra.
    + apply in_map_iff. exists 0%nat. split; [exact F0|apply in_seq; lia].
    + apply in_map_iff. exists k. split; [exact Fk|apply in_seq; lia].
    + discriminate.
    + intros x I. apply in_map_iff in I. destruct I as (i & <- & I). apply in_seq in I. apply FM. lia.
    + rewrite EI. intros x I. apply in_map_iff in I. destruct I as (i & <- & I). apply in_seq in I. split; [apply F1|apply F2]; lia.
    + rewrite EF. intros x I. apply in_map_iff in I. destruct I as (i & <- & I). apply in_seq in I. split; [apply F1; lia|apply FM; lia].
    + rewrite ET. intros x I. apply in_map_iff in I. destruct I as (i & <- & I). apply in_seq in I. split; [apply FM; lia|apply F2; lia].
    + apply NoDup_map_lt, FS.
    + rewrite EI. intros x I. apply in_map_iff in I. destruct I as (i & <- & I). apply in_seq in I. destruct (Nat.eq_dec i 0) as [->|N0]; [left; exact F0|].
      destruct (Nat.eq_dec i k) as [->|Nk]; [right; left; exact Fk|]. right; right. apply in_map, in_seq. lia.
    + rewrite EF. intros x I. apply in_map_iff in I. destruct I as (i & <- & I). apply in_seq in I. destruct (Nat.eq_dec i 0) as [->|N0]; [left; exact F0|]. right. apply in_map, in_seq. lia.
    + rewrite ET. intros x I. apply in_map_iff in I. destruct I as (i & <- & I). apply in_seq in I. destruct (Nat.eq_dec i k) as [->|N0]; [left; exact Fk|]. right. apply in_map, in_seq. lia.
  - assert (c = 0)%Z as ->. { replace (0 / s) with 0 in * by (field; lra). assert (0 <= c)%Z by (apply le_IZR; lra). assert (c < 1)%Z by (apply lt_IZR; lra). lia. }
    cbn. exists [Q]. split; [reflexivity|]. split; cbn [In inner from_1 to_last tl removelast]; try contradiction; try (intros x [->|[]]); try lra; auto; try discriminate.
    + exists 1%nat. split; [lia|]. split; [cbn [INR]; lra|]. intros i _. left. ring.
    + repeat constructor. intros [].
Qed.

Lemma run_ex s P Q len start stop : 0 < s -> start = P -> stop = Q -> P <= Q -> len = Q - P -> exists l, run start stop len s = Ok l /\ is_run s P Q l.
Proof. intros Hs E F H G. apply run_ok; [exact Hs|exact E|exact F|]. lra. Qed.
Lemma run_first_eq s P Q l x : is_run s P Q l -> x = P -> In x l. Proof. intros H ->. apply H. Qed.
Lemma run_last_eq s P Q l x : is_run s P Q l -> x = Q -> In x l. Proof. intros H ->. apply H. Qed.

Lemma inner_app {A} (a b : list A) : a <> [] -> b <> [] -> inner (a ++ b) = from_1 a ++ to_last b.
Proof. destruct a as [|x a]; intros Ha Hb; [contradiction|]. unfold inner, from_1, to_last. cbn [app tl]. apply removelast_app, Hb. Qed.
Lemma sub_nodup {A} (l : list A) : NoDup l -> NoDup (inner l) /\ NoDup (from_1 l) /\ NoDup (to_last l).
Proof.
  assert (T : forall l : list A, NoDup l -> NoDup (tl l)) by (intros m H; destruct H; [constructor|assumption]).
  assert (R : forall l : list A, NoDup l -> NoDup (removelast l)).
  { intros m H. destruct m as [|a m]; [constructor|]. rewrite (app_removelast_last a) in H by discriminate. apply NoDup_remove_1 in H. rewrite app_nil_r in H. exact H. }
  intros H. split; [apply R, T, H|]. split; [apply T, H|apply R, H].
Qed.

(** * Membership *)
Lemma in_row xs y p : In p (row xs y) <-> In (fst p) xs /\ snd p = y.
Proof.
  unfold row. rewrite in_map_iff. split; [intros (x & <- & H); auto|]. intros [H <-]. exists (fst p). split; [symmetry; apply surjective_pairing|exact H].
Qed.
Lemma in_col x ys p : In p (col x ys) <-> fst p = x /\ In (snd p) ys.
Proof.
  unfold col. rewrite in_map_iff. split; [intros (y & <- & H); auto|]. intros [<- H]. exists (snd p). split; [symmetry; apply surjective_pairing|exact H].
Qed.
Lemma in_for_x_y xs ys p : In p (for_x_y xs ys) <-> In (fst p) xs /\ In (snd p) ys.
Proof.
  unfold for_x_y. rewrite in_concat. split.
  - intros (l & Hl & Hp). apply in_map_iff in Hl. destruct Hl as (x & <- & Hx). apply in_col in Hp. destruct Hp as [-> H]. auto.
  - intros [H1 H2]. exists (col (fst p) ys). split; [apply in_map_iff; eauto|]. apply in_col. auto.
Qed.
Lemma in_for_y_x xs ys p : In p (for_y_x xs ys) <-> In (fst p) xs /\ In (snd p) ys.
Proof.
  unfold for_y_x. rewrite in_concat. split.
  - intros (l & Hl & Hp). apply in_map_iff in Hl. destruct Hl as (x & <- & Hx). apply in_row in Hp. destruct Hp as [H ->]. auto.
  - intros [H1 H2]. exists (row xs (snd p)). split; [apply in_map_iff; eauto|]. apply in_row. auto.
Qed.
Lemma NoDup_app2 {A} (a b : list A) : NoDup a -> NoDup b -> (forall p, In p a -> In p b -> False) -> NoDup (a ++ b).
Proof.
  intros Ha Hb H. induction Ha as [|x a N _ IH]; [exact Hb|]. cbn. constructor; [|apply IH; intros p I; apply H; right; exact I].
  rewrite in_app_iff. intros [I|I]; [contradiction|apply (H x); [left; reflexivity|exact I]].
Qed.
Lemma nodup_row xs y : NoDup xs -> NoDup (row xs y).
Proof. intros H. induction H as [|x xs N _ IH]; [constructor|]. cbn. constructor; [|exact IH]. intros I. apply (in_row xs y (x, y)) in I. apply N, I. Qed.
Lemma nodup_col x ys : NoDup ys -> NoDup (col x ys).
Proof. intros H. induction H as [|y ys N _ IH]; [constructor|]. cbn. constructor; [|exact IH]. intros I. apply (in_col x ys (x, y)) in I. apply N, I. Qed.
Lemma nodup_x_y xs ys : NoDup xs -> NoDup ys -> NoDup (for_x_y xs ys).
Proof.
  intros H Hy. induction H as [|x xs N _ IH]; [constructor|]. change (for_x_y (x :: xs) ys) with (col x ys ++ for_x_y xs ys). apply NoDup_app2; [apply nodup_col, Hy|exact IH|].
  intros p Ip Iq. apply in_col in Ip. apply in_for_x_y in Iq. destruct Ip as [E _], Iq as [I _]. rewrite E in I. contradiction.
Qed.
Lemma nodup_y_x xs ys : NoDup xs -> NoDup ys -> NoDup (for_y_x xs ys).
Proof.
  intros Hx H. induction H as [|y ys N _ IH]; [constructor|]. change (for_y_x xs (y :: ys)) with (row xs y ++ for_y_x xs ys). apply NoDup_app2; [apply nodup_row, Hx|exact IH|].
  intros p Ip Iq. apply in_row in Ip. apply in_for_y_x in Iq. destruct Ip as [_ E], Iq as [_ I]. rewrite E in I. contradiction.
Qed.
Lemma nodup_two (a b : R) : a <> b -> NoDup [a; b].
Proof. intros H. constructor; [intros [E|[]]; congruence|]. constructor; [intros []|constructor]. Qed.

(** * From runs to the specification *)
Lemma dist_x P Q y : P <= Q -> distance (P, y) (Q, y) = Q - P.
Proof. intros H. unfold distance. cbn [fst snd]. replace ((Q - P) ^ 2 + (y - y) ^ 2) with ((Q - P) ^ 2) by ring. apply sqrt_pow2. lra. Qed.
Lemma dist_y P Q x : P <= Q -> distance (x, P) (x, Q) = Q - P.
Proof. intros H. unfold distance. cbn [fst snd]. replace ((x - x) ^ 2 + (Q - P) ^ 2) with ((Q - P) ^ 2) by ring. apply sqrt_pow2. lra. Qed.
Lemma spaced_row s P Q (l : list pt) xs y y' f g : is_run s P Q xs -> y = y' -> (forall x, In x xs -> (x = P -> P < Q -> f = true) -> (x = Q -> P < Q -> g = true) -> In (x, y') l) -> spaced s l (mkLine (P, y') (Q, y) f g).
Proof.
  intros H -> I. destruct (run_cover _ _ _ _ H) as (k & K & L & C). exists k. cbn [ln_from ln_to ln_first ln_last]. split; [exact K|]. rewrite dist_x by apply H. split; [exact L|].
  intros i Hi F G. unfold toward. cbn [fst snd]. replace (y' + INR i / INR k * (y' - y')) with y' by ring. apply (le_INR 1) in K. cbn [INR] in K. apply I; [apply C, Hi| |].
  - intros E Lt. apply F. apply INR_eq. cbn [INR]. assert (Z : INR i / INR k * (Q - P) = 0) by lra. apply Rmult_integral in Z. destruct Z as [Z|Z]; [|lra].
    apply (Rmult_eq_compat_r (INR k)) in Z. unfold Rdiv in Z. rewrite Rmult_assoc, Rinv_l, Rmult_1_r, Rmult_0_l in Z by lra. exact Z.
  - intros E Lt. apply G. apply INR_eq. assert (Z : (INR i / INR k - 1) * (Q - P) = 0) by lra. apply Rmult_integral in Z. destruct Z as [Z|Z]; [|lra].
    apply (Rmult_eq_compat_r (INR k)) in Z. unfold Rdiv in Z. rewrite Rmult_minus_distr_r, Rmult_assoc, Rinv_l, Rmult_1_r, Rmult_0_l in Z by lra. lra.
Qed.
Lemma spaced_col s P Q (l : list pt) ys x x' f g : is_run s P Q ys -> x = x' -> (forall y, In y ys -> (y = P -> P < Q -> f = true) -> (y = Q -> P < Q -> g = true) -> In (x', y) l) -> spaced s l (mkLine (x', P) (x, Q) f g).
Proof.
  intros H -> I. destruct (run_cover _ _ _ _ H) as (k & K & L & C). exists k. cbn [ln_from ln_to ln_first ln_last]. split; [exact K|]. rewrite dist_y by apply H. split; [exact L|].
  intros i Hi F G. unfold toward. cbn [fst snd]. replace (x' + INR i / INR k * (x' - x')) with x' by ring. apply (le_INR 1) in K. cbn [INR] in K. apply I; [apply C, Hi| |].
  - intros E Lt. apply F. apply INR_eq. cbn [INR]. assert (Z : INR i / INR k * (Q - P) = 0) by lra. apply Rmult_integral in Z. destruct Z as [Z|Z]; [|lra].
    apply (Rmult_eq_compat_r (INR k)) in Z. unfold Rdiv in Z. rewrite Rmult_assoc, Rinv_l, Rmult_1_r, Rmult_0_l in Z by lra. exact Z.
  - intros E Lt. apply G. apply INR_eq. assert (Z : (INR i / INR k - 1) * (Q - P) = 0) by lra. apply Rmult_integral in Z. destruct Z as [Z|Z]; [|lra].
    apply (Rmult_eq_compat_r (INR k)) in Z. unfold Rdiv in Z. rewrite Rmult_minus_distr_r, Rmult_assoc, Rinv_l, Rmult_1_r, Rmult_0_l in Z by lra. lra.
Qed.
Lemma on_row P Q y p : P <= fst p <= Q -> snd p = y -> exists t, 0 <= t <= 1 /\ p = toward (P, y) (Q, y) t.
Proof.
  intros H E. destruct p as [x y']. cbn [fst snd] in *. subst y'. unfold toward. cbn [fst snd]. destruct (Req_dec P Q) as [->|N].
  - exists 0. split; [lra|]. f_equal; [lra|ring].
  - exists ((x - P) / (Q - P)). split; [|f_equal; field; lra]. split; [apply Rmult_le_pos; [lra|left; apply Rinv_0_lt_compat; lra]|].
    apply (Rmult_le_reg_r (Q - P)); [lra|]. unfold Rdiv. rewrite Rmult_assoc, Rinv_l by lra. lra.
Qed.
Lemma on_col P Q x p : fst p = x -> P <= snd p <= Q -> exists t, 0 <= t <= 1 /\ p = toward (x, P) (x, Q) t.
Proof.
  intros E H. destruct p as [x' y]. cbn [fst snd] in *. subst x'. unfold toward. cbn [fst snd]. destruct (Req_dec P Q) as [->|N].
  - exists 0. split; [lra|]. f_equal; [ring|lra].
  - exists ((y - P) / (Q - P)). split; [|f_equal; field; lra]. split; [apply Rmult_le_pos; [lra|left; apply Rinv_0_lt_compat; lra]|].
    apply (Rmult_le_reg_r (Q - P)); [lra|]. unfold Rdiv. rewrite Rmult_assoc, Rinv_l by lra. lra.
Qed.
