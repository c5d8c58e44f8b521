(** Plastic moduli against elastic moduli, and shape factors. *)
From Coquelicot Require Import Coquelicot.
From Coq Require Import Reals List Lra Lia Permutation Bool.
From Verif Require Import Base S_Integral P_Integral M_Fea S_Fem P_Fea P_Geom M_Section S_Section S_Post P_Section P_Totals P_Post M_Bisect M_Props M_Plastic S_Plastic P_Ridge P_Plastic P_Plastic2 P_Plastic3 P_Plastic4 P_Shape S_Shape M_Post.
Import ListNotations.
Local Open Scope R_scope.

Lemma about_val els n : valid_mesh els -> t_ea (section_totals els) <> 0 ->
  let c := centroidal_of (section_totals els) in
  about els n = fst n * fst n * p_iyy_c c + 2 * fst n * snd n * p_ixy_c c + snd n * snd n * p_ixx_c c.
Proof.
  intros Hv He c. unfold about. fold c.
  rewrite (mesh_int_ext m_E _ (fun x y => quad 0 0 0 (fst n * fst n) (2 * fst n * snd n) (snd n * snd n) (x - p_cx c) (y - p_cy c)))
    by (intros; unfold quad, height; ring).
  eapply eq_trans; [exact (mesh_int_centred els _ _ _ _ _ _ Hv He)|]. fold c. ring.
Qed.

Lemma tri_height_bound n a b c0 p lo hi x0 y0 : in_triangle a b c0 p ->
  (forall q, In q [a; b; c0] -> lo <= height n (fst q - x0) (snd q - y0) <= hi) ->
  lo <= height n (fst p - x0) (snd p - y0) <= hi.
Proof.
  intros (e & x & z & He & Hx & Hz & Hs & E1 & E2) H.
  pose proof (H a (or_introl eq_refl)) as A. pose proof (H b (or_intror (or_introl eq_refl))) as B.
  pose proof (H c0 (or_intror (or_intror (or_introl eq_refl)))) as C.
  assert (E : height n (fst p - x0) (snd p - y0) = e * height n (fst a - x0) (snd a - y0) + x * height n (fst b - x0) (snd b - y0) + z * height n (fst c0 - x0) (snd c0 - y0)).
  { rewrite E1, E2. unfold height. replace e with (1 - x - z) by lra. ring. }
  rewrite E. split.
  - replace lo with (e * lo + x * lo + z * lo) by (rewrite <- !Rmult_plus_distr_r, Hs; ring).
    repeat apply Rplus_le_compat; apply Rmult_le_compat_l; lra.
  - replace hi with (e * hi + x * hi + z * hi) by (rewrite <- !Rmult_plus_distr_r, Hs; ring).
    repeat apply Rplus_le_compat; apply Rmult_le_compat_l; lra.
Qed.

(** The elastic field about a direction, at first yield. *)
Lemma elastic_direction els sx sy sec n I hp hm :
  valid_mesh els -> t_ea (section_totals els) <> 0 ->
  (forall el, In el els -> m_E (el_mat el) = 1 /\ m_fy (el_mat el) = 1) ->
  same_boundary (mesh_edges (map (translate_el sx sy) els)) (region_edges sec) ->
  0 < hp -> 0 < hm -> 0 < I ->
  let c := centroidal_of (section_totals els) in
  (forall el q, In el els -> In q [corner_a el; corner_b el; corner_c el] -> - hm <= height n (fst q - p_cx c) (snd q - p_cy c) <= hp) ->
  exists fld, admissible sec n fld /\ field_moment n fld * I = Rmin (I / hp) (I / hm) * about els n.
Proof.
  intros Hv He Hm Hb Hp Hmm HI c Hq.
  set (k := Rmin (I / hp) (I / hm) / I).
  assert (Hk0 : 0 < k). { unfold k. apply Rdiv_lt_0_compat; [|assumption]. apply Rmin_pos; apply Rdiv_lt_0_compat; assumption. }
  assert (Hkp : k * hp <= 1).
  { unfold k. apply Rmult_le_reg_r with (I / hp); [apply Rdiv_lt_0_compat; assumption|].
    replace (Rmin (I / hp) (I / hm) / I * hp * (I / hp)) with (Rmin (I / hp) (I / hm)) by (field; lra). rewrite Rmult_1_l. apply Rmin_l. }
  assert (Hkm : k * hm <= 1).
  { unfold k. apply Rmult_le_reg_r with (I / hm); [apply Rdiv_lt_0_compat; assumption|].
    replace (Rmin (I / hp) (I / hm) / I * hm * (I / hm)) with (Rmin (I / hp) (I / hm)) by (field; lra). rewrite Rmult_1_l. apply Rmin_r. }
  exists (elastic_field els sx sy (k * fst n) (k * snd n)). split.
  - apply elastic_admissible; [exact Hv|exact He|exact Hb|]. fold c. intros el p Hel Hin.
    destruct (Hm el Hel) as [-> ->].
    pose proof (tri_height_bound n _ _ _ p (- hm) hp (p_cx c) (p_cy c) Hin (fun q Hq' => Hq el q Hel Hq')) as B.
    replace (1 * (k * fst n * (fst p - p_cx c) + k * snd n * (snd p - p_cy c))) with (k * height n (fst p - p_cx c) (snd p - p_cy c)) by (unfold height; ring).
    apply Rabs_le. split; nra.
  - rewrite elastic_moment by assumption. fold c. pose proof (about_val els n Hv He) as A. cbv zeta in A. fold c in A. rewrite A.
    unfold k. field. lra.
Qed.

(** Available attributes are truthy. *)
Lemma truthy_spec get p : truthy (get p) = true <-> available get p.
Proof.
  unfold truthy, available. destruct (get p) as [v|].
  - destruct (Req_EM_T v 0) as [->|Hv]; split.
    + discriminate. + intros (w & E & Hw). injection E as E. congruence. + intros _. exists v. auto. + reflexivity.
  - split; [discriminate|intros (v & E & _); discriminate].
Qed.

(** ** Shape factors *)
Lemma apply_last P l q v : (forall w, In w l -> writes_of w <> Some q) -> num (apply_writes P (WNum q v :: l)) q = Some v.
Proof.
  intros H. change (apply_writes P (WNum q v :: l)) with (apply_writes (apply_write P (WNum q v)) l).
  rewrite (apply_other _ l q H). cbn [apply_write num]. destruct (prop_eq_dec q q); congruence.
Qed.

Ltac solve_num := unfold apply_writes; cbn [app fold_left apply_write num];
  repeat match goal with |- context [prop_eq_dec ?a ?b] => destruct (prop_eq_dec a b); try congruence end; try reflexivity.

Lemma sf_default get a b c d P :
  let P' := apply_writes P (shape_factors get true a b c d) in
  ((available get p_zxx_plus /\ available get p_zxx_minus /\ available get p_zyy_plus /\ available get p_zyy_minus) /\
    num P' p_sf_xx_plus = Some (a / value (get p_zxx_plus)) /\ num P' p_sf_xx_minus = Some (a / value (get p_zxx_minus)) /\
    num P' p_sf_yy_plus = Some (b / value (get p_zyy_plus)) /\ num P' p_sf_yy_minus = Some (b / value (get p_zyy_minus)) \/
   ~ (available get p_zxx_plus /\ available get p_zxx_minus /\ available get p_zyy_plus /\ available get p_zyy_minus) /\
    forall q, In q [p_sf_xx_plus; p_sf_xx_minus; p_sf_yy_plus; p_sf_yy_minus] -> num P' q = num P q) /\
  ((available get p_z11_plus /\ available get p_z11_minus /\ available get p_z22_plus /\ available get p_z22_minus) /\
    num P' p_sf_11_plus = Some (c / value (get p_z11_plus)) /\ num P' p_sf_11_minus = Some (c / value (get p_z11_minus)) /\
    num P' p_sf_22_plus = Some (d / value (get p_z22_plus)) /\ num P' p_sf_22_minus = Some (d / value (get p_z22_minus)) \/
   ~ (available get p_z11_plus /\ available get p_z11_minus /\ available get p_z22_plus /\ available get p_z22_minus) /\
    forall q, In q [p_sf_11_plus; p_sf_11_minus; p_sf_22_plus; p_sf_22_minus] -> num P' q = num P q).
Proof.
  cbv zeta. rewrite <- !(truthy_spec get). unfold shape_factors.
  destruct (truthy (get p_zxx_plus)), (truthy (get p_zxx_minus)), (truthy (get p_zyy_plus)), (truthy (get p_zyy_minus)); cbn [andb];
  destruct (truthy (get p_z11_plus)), (truthy (get p_z11_minus)), (truthy (get p_z22_plus)), (truthy (get p_z22_minus)); cbn [andb];
  (split; [first [solve [left; split; [auto|]; repeat split; solve_num] | right; split; [intros (?&?&?&?); discriminate|]; intros q Hq; cbn [In] in Hq; repeat destruct Hq as [<-|Hq]; try contradiction; solve_num]
   | first [solve [left; split; [auto|]; repeat split; solve_num] | right; split; [intros (?&?&?&?); discriminate|]; intros q Hq; cbn [In] in Hq; repeat destruct Hq as [<-|Hq]; try contradiction; solve_num]]).
Qed.

Lemma sf_composite get a b c d P :
  let P' := apply_writes P (shape_factors get false a b c d) in
  ((available get p_my_xx /\ available get p_my_yy) /\
    num P' p_sf_xx_plus = Some (a / value (get p_my_xx)) /\ num P' p_sf_xx_minus = Some (a / value (get p_my_xx)) /\
    num P' p_sf_yy_plus = Some (b / value (get p_my_yy)) /\ num P' p_sf_yy_minus = Some (b / value (get p_my_yy)) \/
   ~ (available get p_my_xx /\ available get p_my_yy) /\
    forall q, In q [p_sf_xx_plus; p_sf_xx_minus; p_sf_yy_plus; p_sf_yy_minus] -> num P' q = num P q) /\
  ((available get p_my_11 /\ available get p_my_22) /\
    num P' p_sf_11_plus = Some (c / value (get p_my_11)) /\ num P' p_sf_11_minus = Some (c / value (get p_my_11)) /\
    num P' p_sf_22_plus = Some (d / value (get p_my_22)) /\ num P' p_sf_22_minus = Some (d / value (get p_my_22)) \/
   ~ (available get p_my_11 /\ available get p_my_22) /\
    forall q, In q [p_sf_11_plus; p_sf_11_minus; p_sf_22_plus; p_sf_22_minus] -> num P' q = num P q).
Proof.
  cbv zeta. rewrite <- !(truthy_spec get). unfold shape_factors.
  destruct (truthy (get p_my_xx)), (truthy (get p_my_yy)); cbn [andb];
  destruct (truthy (get p_my_11)), (truthy (get p_my_22)); cbn [andb];
  (split; [first [solve [left; split; [auto|]; repeat split; solve_num] | right; split; [intros (?&?); discriminate|]; intros q Hq; cbn [In] in Hq; repeat destruct Hq as [<-|Hq]; try contradiction; solve_num]
   | first [solve [left; split; [auto|]; repeat split; solve_num] | right; split; [intros (?&?); discriminate|]; intros q Hq; cbn [In] in Hq; repeat destruct Hq as [<-|Hq]; try contradiction; solve_num]]).
Qed.
