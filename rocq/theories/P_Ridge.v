(** Integrals of ridge functions over triangles as boundary integrals. *)
From Coquelicot Require Import Coquelicot.
From Coq Require Import Reals Lra Lia List Psatz.
From Verif Require Import Base S_Integral P_Integral M_Fea S_Fem P_Fea P_Geom S_Section P_Section P_Totals S_Plastic.
Import ListNotations.
Local Open Scope R_scope.

Ltac eqR := match goal with |- ?a = ?b => change (@eq R a b) end.

Lemma RInt_scalR (g : R -> R) k u v : ex_RInt g u v -> RInt (fun x => k * g x) u v = k * RInt g u v.
Proof. intros H. apply (RInt_scal (V := R_CompleteNormedModule) g u v k H). Qed.
Lemma RInt_minusR (f g : R -> R) u v : ex_RInt f u v -> ex_RInt g u v ->
  RInt (fun x => f x - g x) u v = RInt f u v - RInt g u v.
Proof. intros F G. apply (RInt_minus (V := R_CompleteNormedModule) f g u v F G). Qed.
Lemma ex_RInt_scalR (g : R -> R) k u v : ex_RInt g u v -> ex_RInt (fun x => k * g x) u v.
Proof. intros H. apply (ex_RInt_scal (V := R_CompleteNormedModule) g u v k H). Qed.
Lemma ex_RInt_minusR (f g : R -> R) u v : ex_RInt f u v -> ex_RInt g u v -> ex_RInt (fun x => f x - g x) u v.
Proof. intros F G. apply (ex_RInt_minus (V := R_CompleteNormedModule) f g u v F G). Qed.

Section Ridge.
Context (f F1 F2 : R -> R).
Hypothesis Hf : forall h, continuous f h.
Hypothesis H1 : forall h, is_derive F1 h (f h).
Hypothesis H2 : forall h, is_derive F2 h (F1 h).

Lemma F1_cont h : continuous F1 h.
Proof. apply (ex_derive_continuous F1). eexists; apply H1. Qed.

Lemma aff_cont (g : R -> R) (a b s : R) : (forall h, continuous g h) -> continuous (fun s => g (a + b * s)) s.
Proof.
  intros Hg. apply (continuous_comp (fun s => a + b * s) g); [|apply Hg].
  apply (ex_derive_continuous (fun s => a + b * s)). auto_derive; trivial.
Qed.

Lemma aff_derive (g g' : R -> R) (a b s : R) : (forall h, is_derive g h (g' h)) ->
  is_derive (fun s => g (a + b * s)) s (b * g' (a + b * s)).
Proof.
  intros Hg. apply (is_derive_comp g (fun s => a + b * s)); [apply Hg|]. auto_derive; trivial. ring.
Qed.

Lemma RInt_aff (g g' : R -> R) (a b u v : R) :
  (forall h, is_derive g h (g' h)) -> (forall h, continuous g' h) ->
  is_RInt (fun s => b * g' (a + b * s)) u v (g (a + b * v) - g (a + b * u)).
Proof.
  intros Hg Hc. apply (is_RInt_derive (fun s => g (a + b * s))).
  - intros s _. apply aff_derive, Hg.
  - intros s _. apply (continuous_mult (fun _ => b)); [apply continuous_const|]. apply (aff_cont g' a b s Hc).
Qed.

(** Mean of F1 between two heights. *)
Definition mean1 (p q : R) : R := RInt (fun s => F1 (p + (q - p) * s)) 0 1.

Lemma mean1_ex p q u v : ex_RInt (fun s => F1 (p + (q - p) * s)) u v.
Proof. apply (ex_RInt_continuous (V := R_CompleteNormedModule)). intros z _. apply aff_cont, F1_cont. Qed.

Lemma mean1_diff p q : (q - p) * mean1 p q = F2 q - F2 p.
Proof.
  unfold mean1.
  assert (E := RInt_aff F2 F1 p (q - p) 0 1 H2 F1_cont).
  apply (is_RInt_unique (V := R_CompleteNormedModule)) in E.
  change (scal (q - p) (RInt (fun s => F1 (p + (q - p) * s)) 0 1) = F2 q - F2 p).
  rewrite <- RInt_scal by apply mean1_ex.
  change (RInt (fun x => (q - p) * F1 (p + (q - p) * x)) 0 1 = F2 q - F2 p).
  rewrite E. f_equal; f_equal; ring.
Qed.

Lemma mean1_sym p q : mean1 p q = mean1 q p.
Proof.
  unfold mean1.
  assert (E := RInt_comp_lin (fun s => F1 (q + (p - q) * s)) (-1) 1 0 1).
  assert (X : ex_RInt (fun s => F1 (q + (p - q) * s)) (-1 * 0 + 1) (-1 * 1 + 1)) by apply mean1_ex.
  specialize (E X).
  replace (-1 * 0 + 1) with 1 in E by ring. replace (-1 * 1 + 1) with 0 in E by ring.
  assert (S : RInt (fun s => F1 (q + (p - q) * s)) 1 0 = opp (RInt (fun s => F1 (q + (p - q) * s)) 0 1)).
  { symmetry. apply (opp_RInt_swap (V := R_CompleteNormedModule)), mean1_ex. }
  rewrite S in E. clear S.
  assert (S : RInt (fun y => scal (-1) (F1 (q + (p - q) * (-1 * y + 1)))) 0 1 = opp (RInt (fun s => F1 (p + (q - p) * s)) 0 1)).
  { rewrite <- (RInt_opp (V := R_CompleteNormedModule)) by apply mean1_ex. apply RInt_ext.
    intros x _. unfold scal, opp; cbn. unfold mult; cbn.
    replace (q + (p - q) * (-1 * x + 1)) with (p + (q - p) * x) by ring. eqR. ring. }
  assert (E' := eq_trans (eq_sym S) E). clear E.
  change (- RInt (fun s => F1 (p + (q - p) * s)) 0 1 = - RInt (fun s => F1 (q + (p - q) * s)) 0 1) in E'. lra.
Qed.

Lemma mean1_const p : mean1 p p = F1 p.
Proof.
  unfold mean1. rewrite (RInt_ext _ (fun _ => F1 p)).
  2:{ intros x _. f_equal. ring. }
  rewrite RInt_const. change ((1 - 0) * F1 p = F1 p). ring.
Qed.

(** Splitting a segment at a fraction t. *)
Lemma mean1_split p q t : let r := p + t * (q - p) in
  t * mean1 p r + (1 - t) * mean1 r q = mean1 p q.
Proof.
  intros r. unfold mean1.
  assert (E1 : t * RInt (fun s => F1 (p + (r - p) * s)) 0 1 = RInt (fun s => F1 (p + (q - p) * s)) 0 t).
  { assert (E := RInt_comp_lin (fun s => F1 (p + (q - p) * s)) t 0 0 1).
    assert (X : ex_RInt (fun s => F1 (p + (q - p) * s)) (t * 0 + 0) (t * 1 + 0)) by apply mean1_ex.
    specialize (E X). replace (t * 0 + 0) with 0 in E by ring. replace (t * 1 + 0) with t in E by ring.
    rewrite <- E.
    change (scal t (RInt (fun s => F1 (p + (r - p) * s)) 0 1) =
            RInt (fun y => scal t (F1 (p + (q - p) * (t * y + 0)))) 0 1).
    rewrite <- RInt_scal by apply mean1_ex. apply RInt_ext. intros x _. f_equal. f_equal. unfold r. ring. }
  assert (E2 : (1 - t) * RInt (fun s => F1 (r + (q - r) * s)) 0 1 = RInt (fun s => F1 (p + (q - p) * s)) t 1).
  { assert (E := RInt_comp_lin (fun s => F1 (p + (q - p) * s)) (1 - t) t 0 1).
    assert (X : ex_RInt (fun s => F1 (p + (q - p) * s)) ((1 - t) * 0 + t) ((1 - t) * 1 + t)) by apply mean1_ex.
    specialize (E X). replace ((1 - t) * 0 + t) with t in E by ring. replace ((1 - t) * 1 + t) with 1 in E by ring.
    rewrite <- E.
    change (scal (1 - t) (RInt (fun s => F1 (r + (q - r) * s)) 0 1) =
            RInt (fun y => scal (1 - t) (F1 (p + (q - p) * ((1 - t) * y + t)))) 0 1).
    rewrite <- RInt_scal by apply mean1_ex. apply RInt_ext. intros x _. f_equal. f_equal. unfold r. ring. }
  rewrite E1, E2.
  change (plus (RInt (fun s => F1 (p + (q - p) * s)) 0 t) (RInt (fun s => F1 (p + (q - p) * s)) t 1) =
          RInt (fun s => F1 (p + (q - p) * s)) 0 1).
  apply RInt_Chasles; apply mean1_ex.
Qed.

(** Inner integral and integrability. *)
Section Simplex.
Context (al be ga : R).
Let g s t := f (al + be * s + ga * t).

Lemma inner_ex s u v : ex_RInt (g s) u v.
Proof.
  apply (ex_RInt_continuous (V := R_CompleteNormedModule)). intros z _. unfold g. apply aff_cont, Hf.
Qed.

Lemma inner_ga0 s : ga = 0 -> RInt (g s) 0 (1 - s) = (1 - s) * f (al + be * s).
Proof.
  intros Hz. unfold g. rewrite (RInt_ext _ (fun _ => f (al + be * s))).
  2:{ intros x _. f_equal. rewrite Hz. ring. }
  rewrite RInt_const. change ((1 - s - 0) * f (al + be * s) = (1 - s) * f (al + be * s)). ring.
Qed.

Lemma inner_ga s : ga <> 0 ->
  RInt (g s) 0 (1 - s) = (F1 (al + ga + (be - ga) * s) - F1 (al + be * s)) / ga.
Proof.
  intros Hz. unfold g.
  assert (E := RInt_aff F1 f (al + be * s) ga 0 (1 - s) H1 Hf).
  apply (is_RInt_unique (V := R_CompleteNormedModule)) in E.
  assert (E' : ga * RInt (fun t => f (al + be * s + ga * t)) 0 (1 - s) =
               F1 (al + be * s + ga * (1 - s)) - F1 (al + be * s + ga * 0)).
  { rewrite <- E.
    symmetry. apply (RInt_scalR (fun t => f (al + be * s + ga * t))), inner_ex. }
  replace (al + be * s + ga * (1 - s)) with (al + ga + (be - ga) * s) in E' by ring.
  replace (al + be * s + ga * 0) with (al + be * s) in E' by ring.
  assert (Dv : forall I X : R, ga * I = X -> I = X / ga) by (intros I X <-; field; exact Hz).
  apply Dv, E'.
Qed.

Lemma ridge_ok : simplex_ok g.
Proof.
  split; [intros; apply inner_ex|].
  apply (ex_RInt_continuous (V := R_CompleteNormedModule)). intros s _.
  destruct (Req_dec ga 0) as [Hz|Hz].
  - apply (continuous_ext (fun s => (1 - s) * f (al + be * s))); [intros; symmetry; apply inner_ga0, Hz|].
    apply (continuous_mult (fun s => 1 - s) (fun s => f (al + be * s))); [|apply aff_cont, Hf].
    apply (ex_derive_continuous (fun s => 1 - s)). auto_derive; trivial.
  - apply (continuous_ext (fun s => (F1 (al + ga + (be - ga) * s) - F1 (al + be * s)) / ga)); [intros; symmetry; apply inner_ga, Hz|].
    apply (continuous_mult (fun s => F1 (al + ga + (be - ga) * s) - F1 (al + be * s)) (fun _ => / ga)); [|apply continuous_const].
    apply (continuous_minus (fun s => F1 (al + ga + (be - ga) * s)) (fun s => F1 (al + be * s))); apply aff_cont, F1_cont.
Qed.

Lemma ridge_simplex kb kc :
  (kb * ga - kc * be) * simplex_int g =
  - (kb * mean1 al (al + be) + (kc - kb) * mean1 (al + be) (al + ga) + (0 - kc) * mean1 (al + ga) al).
Proof.
  pose proof (mean1_diff al (al + be)) as D1. pose proof (mean1_diff (al + be) (al + ga)) as D2.
  pose proof (mean1_diff (al + ga) al) as D3.
  unfold simplex_int.
  destruct (Req_dec ga 0) as [Hz|Hz].
  - rewrite (RInt_ext _ (fun s => (1 - s) * f (al + be * s))) by (intros s _; apply inner_ga0, Hz).
    assert (P : be * RInt (fun s => (1 - s) * f (al + be * s)) 0 1 = mean1 al (al + be) - F1 al).
    { assert (Xa : ex_RInt (fun s => (1 - s) * f (al + be * s)) 0 1).
      { apply (ex_RInt_continuous (V := R_CompleteNormedModule)). intros s _.
        apply (continuous_mult (fun s => 1 - s) (fun s => f (al + be * s))); [|apply aff_cont, Hf].
        apply (ex_derive_continuous (fun s => 1 - s)). auto_derive; trivial. }
      assert (Q : is_RInt (fun s => (1 - s) * (be * f (al + be * s)) - F1 (al + be * s)) 0 1
                   (minus ((fun s => (1 - s) * F1 (al + be * s)) 1) ((fun s => (1 - s) * F1 (al + be * s)) 0))).
      { apply (is_RInt_derive (fun s => (1 - s) * F1 (al + be * s))).
        - intros s _.
          assert (D : is_derive (fun s => (1 - s) * F1 (al + be * s)) s
                        (plus (mult (-1) (F1 (al + be * s))) (mult (1 - s) (be * f (al + be * s))))).
          { apply (is_derive_mult (fun s => 1 - s) (fun s => F1 (al + be * s))).
            - assert (D : is_derive (fun s : R => 1 - s) s (-1)) by (auto_derive; [trivial|ring]). exact D.
            - apply aff_derive, H1.
            - intros; apply Rmult_comm. }
          replace ((1 - s) * (be * f (al + be * s)) - F1 (al + be * s))
            with (plus (mult (-1) (F1 (al + be * s))) (mult (1 - s) (be * f (al + be * s)))); [exact D|].
          unfold plus, mult; cbn. ring.
        - intros s _.
          apply (continuous_minus (fun s => (1 - s) * (be * f (al + be * s))) (fun s => F1 (al + be * s))); [|apply aff_cont, F1_cont].
          apply (continuous_mult (fun s => 1 - s) (fun s => be * f (al + be * s))).
          + apply (ex_derive_continuous (fun s => 1 - s)). auto_derive; trivial.
          + apply (continuous_mult (fun _ => be) (fun s => f (al + be * s))); [apply continuous_const|apply aff_cont, Hf]. }
      apply (is_RInt_unique (V := R_CompleteNormedModule)) in Q.
      assert (Q' : RInt (fun s => (1 - s) * (be * f (al + be * s)) - F1 (al + be * s)) 0 1 =
        be * RInt (fun s => (1 - s) * f (al + be * s)) 0 1 - RInt (fun s => F1 (al + be * s)) 0 1).
      { rewrite <- (RInt_scalR (fun s => (1 - s) * f (al + be * s)) be) by exact Xa.
        rewrite <- RInt_minusR.
        - apply RInt_ext. intros s _. eqR. ring.
        - apply ex_RInt_scalR, Xa.
        - replace be with (al + be - al) by ring. apply mean1_ex. }
      assert (Q2 := eq_trans (eq_sym Q') Q). clear Q Q'. rename Q2 into Q.
      assert (M : RInt (fun s => F1 (al + be * s)) 0 1 = mean1 al (al + be)).
      { unfold mean1. apply RInt_ext. intros x _. f_equal. ring. }
      change (be * RInt (fun s => (1 - s) * f (al + be * s)) 0 1 - RInt (fun s => F1 (al + be * s)) 0 1 =
        (1 - 1) * F1 (al + be * 1) - (1 - 0) * F1 (al + be * 0)) in Q.
      rewrite M in Q. replace (al + be * 0) with al in Q by ring. lra. }
    rewrite Hz in *. replace (al + 0) with al in * by ring.
    rewrite (mean1_sym (al + be) al) in *. rewrite mean1_const in *.
    replace ((kb * 0 - kc * be) * RInt (fun s => (1 - s) * f (al + be * s)) 0 1)
      with (- kc * (be * RInt (fun s => (1 - s) * f (al + be * s)) 0 1)) by ring.
    rewrite P. ring.
  - rewrite (RInt_ext _ (fun s => / ga * (F1 (al + ga + (al + be - (al + ga)) * s) - F1 (al + (al + be - al) * s)))).
    2:{ intros s _. eapply eq_trans; [exact (inner_ga s Hz)|].
        replace (al + ga + (al + be - (al + ga)) * s) with (al + ga + (be - ga) * s) by ring.
        replace (al + (al + be - al) * s) with (al + be * s) by ring. unfold Rdiv. eqR. ring. }
    rewrite (RInt_scalR (fun s => F1 (al + ga + (al + be - (al + ga)) * s) - F1 (al + (al + be - al) * s)))
      by (apply ex_RInt_minusR; apply mean1_ex).
    rewrite RInt_minusR by apply mean1_ex.
    change (RInt (fun x => F1 (al + ga + (al + be - (al + ga)) * x)) 0 1) with (mean1 (al + ga) (al + be)).
    change (RInt (fun x => F1 (al + (al + be - al) * x)) 0 1) with (mean1 al (al + be)).
    rewrite (mean1_sym (al + ga) (al + be)). rewrite (mean1_sym (al + ga) al) in *.
    set (Iab := mean1 al (al + be)) in *. set (Ibc := mean1 (al + be) (al + ga)) in *. set (Iac := mean1 al (al + ga)) in *.
    assert (E : ga * Iac = be * Iab + (ga - be) * Ibc).
    { replace (al + be - al) with be in D1 by ring. replace (al + ga - (al + be)) with (ga - be) in D2 by ring.
      replace (al - (al + ga)) with (- ga) in D3 by ring. nra. }
    assert (E' : Iac = (be * Iab + (ga - be) * Ibc) / ga) by (rewrite <- E; field; exact Hz).
    rewrite E'. field. exact Hz.
Qed.
End Simplex.

(** Edge function in direction n. *)
Definition b_ridge (n : R * R) (p q : point) : R :=
  - ((snd n * fst q - fst n * snd q) - (snd n * fst p - fst n * snd p)) *
    mean1 (height n (fst p) (snd p)) (height n (fst q) (snd q)).

Lemma edge_fun_ridge n : edge_fun (b_ridge n).
Proof.
  split.
  - intros p q. unfold b_ridge. rewrite (mean1_sym (height n (fst q) (snd q))). ring.
  - intros p q t r. unfold b_ridge. subst r. cbn [fst snd].
    pose proof (mean1_split (height n (fst p) (snd p)) (height n (fst q) (snd q)) t) as S. cbv zeta in S.
    replace (height n (fst p) (snd p) + t * (height n (fst q) (snd q) - height n (fst p) (snd p)))
      with (height n (fst p + t * (fst q - fst p)) (snd p + t * (snd q - snd p))) in S by (unfold height; ring).
    rewrite <- S. ring.
Qed.

Lemma ridge_pull n (a b c : point) s t :
  height n (fst a + s * (fst b - fst a) + t * (fst c - fst a)) (snd a + s * (snd b - snd a) + t * (snd c - snd a))
  = height n (fst a) (snd a) + (height n (fst b) (snd b) - height n (fst a) (snd a)) * s
    + (height n (fst c) (snd c) - height n (fst a) (snd a)) * t.
Proof. unfold height. ring. Qed.

Lemma ridge_tri n a b c : unit_vec n -> 0 < orient a b c ->
  tri_int a b c (fun x y => f (height n x y)) = b_ridge n a b + b_ridge n b c + b_ridge n c a.
Proof.
  intros Hn Ho. unfold tri_int. rewrite Rabs_pos_eq by lra.
  rewrite (simplex_int_ext _ (fun s t => f (height n (fst a) (snd a) + (height n (fst b) (snd b) - height n (fst a) (snd a)) * s
    + (height n (fst c) (snd c) - height n (fst a) (snd a)) * t))).
  2:{ intros s t. rewrite ridge_pull. reflexivity. }
  set (ha := height n (fst a) (snd a)). set (hb := height n (fst b) (snd b)). set (hc := height n (fst c) (snd c)).
  set (k := fun p : point => snd n * fst p - fst n * snd p).
  pose proof (ridge_simplex ha (hb - ha) (hc - ha) (k b - k a) (k c - k a)) as E.
  replace ((k b - k a) * (hc - ha) - (k c - k a) * (hb - ha)) with (orient a b c) in E.
  2:{ unfold k, hc, ha, hb, height, orient. unfold unit_vec in Hn.
      transitivity (((fst b - fst a) * (snd c - snd a) - (fst c - fst a) * (snd b - snd a)) * (fst n * fst n + snd n * snd n)).
      - rewrite Hn. ring. - ring. }
  rewrite E. unfold b_ridge. fold ha hb hc. fold (k a) (k b) (k c).
  replace (ha + (hb - ha)) with hb by ring. replace (ha + (hc - ha)) with hc by ring. ring.
Qed.

Lemma ridge_tri_ok n a b c : tri_ok a b c (fun x y => f (height n x y)).
Proof.
  unfold tri_ok.
  pose proof (ridge_ok (height n (fst a) (snd a)) (height n (fst b) (snd b) - height n (fst a) (snd a))
                (height n (fst c) (snd c) - height n (fst a) (snd a))) as [A B].
  split.
  - intros s Hs. eapply ex_RInt_ext; [|apply (A s Hs)]. intros t _. cbn beta. rewrite ridge_pull. reflexivity.
  - eapply ex_RInt_ext; [|apply B]. intros s _. apply RInt_ext. intros t _. cbn beta. rewrite ridge_pull. reflexivity.
Qed.

(** The integral over a region only depends on its boundary. *)
Lemma ridge_region w n l : unit_vec n -> Forall ccw l ->
  region_int w (fun x y => f (height n x y)) l = boundary_sum w (b_ridge n) (region_edges l).
Proof.
  intros Hn Hc. unfold region_int, region_edges, boundary_sum. rewrite sumf_concat, sumf_map.
  apply sumf_ext. intros t Ht. rewrite Forall_forall in Hc. specialize (Hc t Ht).
  unfold mt_int. rewrite (ridge_tri n _ _ _ Hn Hc). unfold mt_edges. rewrite !sumf_cons, sumf_nil. ring.
Qed.

Lemma ridge_same w n l l' : unit_vec n -> Forall ccw l -> Forall ccw l' ->
  same_boundary (region_edges l) (region_edges l') ->
  region_int w (fun x y => f (height n x y)) l = region_int w (fun x y => f (height n x y)) l'.
Proof.
  intros Hn Hl Hl' H. rewrite !ridge_region by assumption. apply boundary_sum_same; [apply edge_fun_ridge|exact H].
Qed.
End Ridge.

(** ** The functions 1, h and |h - d| *)
Lemma one_d : forall h, is_derive (fun h => h) h 1.
Proof. intros h. auto_derive; trivial. Qed.
Lemma id_d : forall h, is_derive (fun h => h ^ 2 / 2) h h.
Proof. intros h. auto_derive; trivial. field. Qed.
Lemma sq_d : forall h, is_derive (fun h => h ^ 3 / 6) h (h ^ 2 / 2).
Proof. intros h. auto_derive; trivial. field. Qed.

Lemma abs_cont d : forall h, continuous (fun h => Rabs (h - d)) h.
Proof.
  intros h. apply (continuous_comp (fun h => h - d) Rabs).
  - apply (ex_derive_continuous (fun h => h - d)). auto_derive; trivial.
  - apply continuous_Rabs.
Qed.
Lemma derive_shift (g : R -> R) d h l : is_derive g (h - d) l -> is_derive (fun h => g (h - d)) h l.
Proof.
  intros H. replace l with (scal 1 l) by (unfold scal; cbn; unfold mult; cbn; ring).
  apply (is_derive_comp g (fun h => h - d)); [exact H|]. auto_derive; trivial.
Qed.
Lemma abs_d1 (h : R) : is_derive (fun h => h * Rabs h / 2) h (Rabs h).
Proof.
  destruct (Rtotal_order h 0) as [Hh|[Hh|Hh]].
  - apply (is_derive_ext_loc (fun h => - (h ^ 2 / 2))).
    + exists (mkposreal (- h) ltac:(lra)). intros y Hy.
      assert (y < 0). { unfold ball in Hy; cbn in Hy. unfold AbsRing_ball, abs, minus, plus, opp in Hy. cbn in Hy. apply Rabs_def2 in Hy. lra. }
      rewrite (Rabs_left y) by lra. eqR. field.
    + rewrite (Rabs_left h) by lra. auto_derive; trivial. eqR. field.
  - subst h. rewrite Rabs_R0. split; [apply is_linear_scal_l|].
    intros x Hx eps. apply (is_filter_lim_locally_unique 0 x) in Hx. subst x.
    exists (mkposreal (2 * eps) ltac:(pose proof (cond_pos eps); lra)). intros y Hy.
    unfold ball in Hy; cbn in Hy. unfold AbsRing_ball, abs, minus, plus, opp in Hy. cbn in Hy.
    unfold norm, minus, plus, opp, scal; cbn. unfold abs, mult; cbn.
    rewrite Rabs_R0. change R in y.
    replace (y + - 0) with y in * by (eqR; ring).
    replace (y * Rabs y / 2 + - (0 * 0 / 2) + - (y * 0)) with (y * Rabs y / 2) by field.
    unfold Rdiv. rewrite !Rabs_mult, Rabs_Rabsolu, (Rabs_pos_eq (/ 2)) by lra.
    pose proof (Rabs_pos y). nra.
  - apply (is_derive_ext_loc (fun h => h ^ 2 / 2)).
    + exists (mkposreal h ltac:(lra)). intros y Hy.
      assert (0 < y). { unfold ball in Hy; cbn in Hy. unfold AbsRing_ball, abs, minus, plus, opp in Hy. cbn in Hy. apply Rabs_def2 in Hy. lra. }
      rewrite (Rabs_right y) by lra. eqR. field.
    + rewrite (Rabs_right h) by lra. auto_derive; trivial. eqR. field.
Qed.
Lemma abs_d2 (h : R) : is_derive (fun h => h * h * Rabs h / 6) h (h * Rabs h / 2).
Proof.
  destruct (Rtotal_order h 0) as [Hh|[Hh|Hh]].
  - apply (is_derive_ext_loc (fun h => - (h ^ 3 / 6))).
    + exists (mkposreal (- h) ltac:(lra)). intros y Hy.
      assert (y < 0). { unfold ball in Hy; cbn in Hy. unfold AbsRing_ball, abs, minus, plus, opp in Hy. cbn in Hy. apply Rabs_def2 in Hy. lra. }
      rewrite (Rabs_left y) by lra. eqR. field.
    + rewrite (Rabs_left h) by lra. auto_derive; trivial. eqR. field.
  - subst h. rewrite Rabs_R0. replace (0 * 0 / 2) with 0 by field. split; [apply is_linear_scal_l|].
    intros x Hx eps. apply (is_filter_lim_locally_unique 0 x) in Hx. subst x.
    assert (P : 0 < Rmin 1 eps) by (apply Rmin_pos; [lra|apply cond_pos]).
    exists (mkposreal _ P). intros y Hy.
    unfold ball in Hy; cbn in Hy. unfold AbsRing_ball, abs, minus, plus, opp in Hy. cbn in Hy.
    unfold norm, minus, plus, opp, scal; cbn. unfold abs, mult; cbn.
    rewrite Rabs_R0. change R in y.
    replace (y + - 0) with y in * by (eqR; ring).
    replace (y * y * Rabs y / 6 + - (0 * 0 * 0 / 6) + - (y * 0)) with (y * y * Rabs y / 6) by field.
    unfold Rdiv. rewrite !Rabs_mult, Rabs_Rabsolu, (Rabs_pos_eq (/ 6)) by lra.
    pose proof (Rabs_pos y). assert (Rabs y < 1) by (eapply Rlt_le_trans; [exact Hy|apply Rmin_l]).
    assert (Rabs y < eps) by (eapply Rlt_le_trans; [exact Hy|apply Rmin_r]). nra.
  - apply (is_derive_ext_loc (fun h => h ^ 3 / 6)).
    + exists (mkposreal h ltac:(lra)). intros y Hy.
      assert (0 < y). { unfold ball in Hy; cbn in Hy. unfold AbsRing_ball, abs, minus, plus, opp in Hy. cbn in Hy. apply Rabs_def2 in Hy. lra. }
      rewrite (Rabs_right y) by lra. eqR. field.
    + rewrite (Rabs_right h) by lra. auto_derive; trivial. eqR. field.
Qed.

Lemma region_one_same w n l l' : unit_vec n -> Forall ccw l -> Forall ccw l' ->
  same_boundary (region_edges l) (region_edges l') ->
  region_int w (fun _ _ => 1) l = region_int w (fun _ _ => 1) l'.
Proof.
  intros. apply (ridge_same (fun _ => 1) (fun h => h) (fun h => h ^ 2 / 2)) with (n := n); auto.
  - intros; apply continuous_const. - apply one_d. - apply id_d.
Qed.
Lemma region_height_same w n l l' : unit_vec n -> Forall ccw l -> Forall ccw l' ->
  same_boundary (region_edges l) (region_edges l') ->
  region_int w (height n) l = region_int w (height n) l'.
Proof.
  intros. apply (ridge_same (fun h => h) (fun h => h ^ 2 / 2) (fun h => h ^ 3 / 6)) with (n := n); auto.
  - intros; apply continuous_id. - apply id_d. - apply sq_d.
Qed.
Lemma region_abs_same w n d l l' : unit_vec n -> Forall ccw l -> Forall ccw l' ->
  same_boundary (region_edges l) (region_edges l') ->
  region_int w (fun x y => Rabs (height n x y - d)) l = region_int w (fun x y => Rabs (height n x y - d)) l'.
Proof.
  intros. apply (ridge_same (fun h => Rabs (h - d)) (fun h => (h - d) * Rabs (h - d) / 2)
    (fun h => (h - d) * (h - d) * Rabs (h - d) / 6)) with (n := n); auto.
  - apply abs_cont.
  - intros h. apply (derive_shift (fun h => h * Rabs h / 2)), abs_d1.
  - intros h. apply (derive_shift (fun h => h * h * Rabs h / 6)), abs_d2.
Qed.
Lemma abs_tri_ok n d a b c : tri_ok a b c (fun x y => Rabs (height n x y - d)).
Proof.
  apply (ridge_tri_ok (fun h => Rabs (h - d)) (fun h => (h - d) * Rabs (h - d) / 2)).
  - apply abs_cont.
  - intros h. apply (derive_shift (fun h => h * Rabs h / 2)), abs_d1.
Qed.
Lemma height_tri_ok n a b c : tri_ok a b c (height n).
Proof.
  apply (ridge_tri_ok (fun h => h) (fun h => h ^ 2 / 2)).
  - intros; apply continuous_id. - apply id_d.
Qed.
Lemma const_tri_ok k a b c : tri_ok a b c (fun _ _ => k).
Proof.
  pose proof (fun A B => ridge_tri_ok (fun _ => k) (fun h => k * h) A B (0, 1) a b c) as P.
  apply P.
  - intros; apply continuous_const. - intros h. auto_derive; trivial. eqR. ring.
Qed.
