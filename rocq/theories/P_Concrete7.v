(** Inserting bars one by one. *)
From Coq Require Import String Reals List Bool Arith ZArith Lra Lia Permutation.
From Verif Require Import Base M_Fea M_Init M_Bisect M_Geometry S_Geometry P_Geometry P_Geometry3 P_Geometry6 M_Library S_Library P_Library P_Library2 P_Library5 P_Library6 P_Library8 M_SetOps S_SetOps P_SetOps M_Concrete S_Concrete P_Concrete P_Concrete3 P_Concrete6.
Import ListNotations.
Local Open Scope R_scope.

Lemma forall2_right {A B} (P : A -> B -> Prop) l m : Forall2 P l m -> forall y, In y m -> exists x, In x l /\ P x y.
Proof. induction 1 as [|x y l m H F IH]; intros z I; [contradiction|]. destruct I as [<-|I]; [exists x; split; [left; reflexivity|exact H]|]. destruct (IH z I) as (w & J & K). exists w. split; [right; exact J|exact K]. Qed.
Lemma forall2_left {A B} (P : A -> B -> Prop) l m : Forall2 P l m -> forall x, In x l -> exists y, In y m /\ P x y.
Proof. induction 1 as [|x y l m H F IH]; intros z I; [contradiction|]. destruct I as [<-|I]; [exists y; split; [left; reflexivity|exact H]|]. destruct (IH z I) as (w & J & K). exists w. split; [right; exact J|exact K]. Qed.
(** ** Bars are in discs *)
Definition reach (p : pt) (r : R) (l : list pt) : Prop := forall v a b, In v l -> a ^ 2 + b ^ 2 = 1 -> a * (fst v - fst p) + b * (snd v - snd p) <= r.
Lemma unit_bound a b : a ^ 2 + b ^ 2 = 1 -> Rabs a <= 1 /\ Rabs b <= 1.
Proof. intros H. pose proof (pow2_ge_0 a). pose proof (pow2_ge_0 b). split; apply Rabs_le; split; nra. Qed.
Lemma ngon_reach e n p r l : 0 <= e -> 0 <= r -> Forall2 (near e) (ngon n p r) l -> reach p (r + 2 * e) l.
Proof.
  intros He Hr F v a b Hv U. destruct (forall2_right _ _ _ F v Hv) as (q & I & N1 & N2). unfold ngon in I. apply in_map_iff in I as (i & <- & _). cbn [fst snd] in *.
  set (c := cos (INR i * 2 * PI / INR n)) in *. set (s := sin (INR i * 2 * PI / INR n)) in *. assert (V : s * s + c * c = 1) by apply (sin2_cos2 (INR i * 2 * PI / INR n)).
  destruct (unit_bound a b U) as [A B]. set (dx := fst v - (fst p + r * c)) in *. set (dy := snd v - (snd p + r * s)) in *.
  replace (fst v - fst p) with (r * c + dx) by (unfold dx; lra). replace (snd v - snd p) with (r * s + dy) by (unfold dy; lra).
  assert (K : a * c + b * s <= 1) by (pose proof (pow2_ge_0 (a - c)); pose proof (pow2_ge_0 (b - s)); nra).
  assert (r * (a * c + b * s) <= r * 1) by (apply Rmult_le_compat_l; lra).
  assert (a * dx <= e). { apply (Rle_trans _ (Rabs (a * dx))); [apply Rle_abs|]. rewrite Rabs_mult. replace e with (1 * e) by lra. apply Rmult_le_compat; try apply Rabs_pos; assumption. }
  assert (b * dy <= e). { apply (Rle_trans _ (Rabs (b * dy))); [apply Rle_abs|]. rewrite Rabs_mult. replace e with (1 * e) by lra. apply Rmult_le_compat; try apply Rabs_pos; assumption. }
  lra.
Qed.
Lemma apart_discs p r l q s m : reach p r l -> reach q s m -> r + s < distance p q -> 0 < r + s -> apart l m.
Proof.
  intros A B D P. unfold distance in D. set (x := fst q - fst p) in *. set (y := snd q - snd p) in *. set (d := sqrt (x ^ 2 + y ^ 2)) in *. assert (D2 : d * d = x ^ 2 + y ^ 2) by (apply sqrt_sqrt; pose proof (pow2_ge_0 x); pose proof (pow2_ge_0 y); lra).
  assert (U : (x / d) ^ 2 + (y / d) ^ 2 = 1). { apply (Rmult_eq_reg_r (d * d)); [|nra]. transitivity (x ^ 2 + y ^ 2); [field; lra|lra]. }
  assert (Q : x / d * x + y / d * y = d). { apply (Rmult_eq_reg_r d); [|lra]. transitivity (x ^ 2 + y ^ 2); [field; lra|lra]. }
  set (a := x / d) in *. set (b := y / d) in *. exists a, b, ((a * fst p + b * snd p + r + (a * fst q + b * snd q) - s) / 2). split; apply Forall_forall; intros v Hv.
  - specialize (A v a b Hv U). unfold x, y in *. lra.
  - specialize (B v (- a) (- b) Hv ltac:(lra)). unfold x, y in *. lra.
Qed.
Lemma reach_box p r l : reach p r l -> Forall (fun v => fst p - r <= fst v <= fst p + r /\ snd p - r <= snd v <= snd p + r) l.
Proof.
  intros A. apply Forall_forall. intros v Hv. pose proof (A v 1 0 Hv ltac:(ring)). pose proof (A v (-1) 0 Hv ltac:(ring)). pose proof (A v 0 1 Hv ltac:(ring)). pose proof (A v 0 (-1) Hv ltac:(ring)). lra.
Qed.
Lemma inside_quad p r l X1 Y1 X2 Y2 : reach p r l -> X1 < fst p - r -> fst p + r < X2 -> Y1 < snd p - r -> snd p + r < Y2 -> X1 < X2 -> Y1 < Y2 -> inside l (ext (quad false X1 Y1 X2 Y2)).
Proof.
  intros A H1 H2 H3 H4 H5 H6. left. eapply Forall_impl; [|apply (reach_box _ _ _ A)]. intros v B. cbv beta in *. unfold quad. cbn [ext]. unfold edges. cbn [tl firstn app combine].
  repeat constructor; unfold turn; cbn [fst snd]; nra.
Qed.
(** ** The rings of bars *)
Lemma circum n r area : (3 <= n)%nat -> 0 < r -> ngon_area n r = area -> circumradius n area = r.
Proof.
  intros H Hr <-. unfold circumradius, ngon_area. assert (N : 3 <= INR n) by (apply le_INR in H; cbn in H; lra). pose proof PI_RGT_0.
  assert (S : 0 < sin (2 * PI / INR n)). { apply sin_gt_0; [apply Rdiv_lt_0_compat; lra|]. apply (Rmult_lt_reg_r (INR n)); [lra|]. replace (2 * PI / INR n * INR n) with (2 * PI) by (field; lra). nra. }
  match goal with |- sqrt ?x = _ => replace x with (r * r) by (field; split; lra) end. apply sqrt_square. lra.
Qed.
Lemma ring_far n p r l e : (3 <= n)%nat -> 0 <= e <= 10 * h -> 100 * h < r -> Forall2 (near e) (ngon n p r) l -> exists v, In v l /\ (h < Rabs (fst v) \/ h < Rabs (snd v)).
Proof.
  intros H He Hr F. pose proof h_pos as Hh. destruct (ngon_toward n p H) as (i & Hi & Q). set (c := cos (INR i * 2 * PI / INR n)) in *. set (s := sin (INR i * 2 * PI / INR n)) in *. assert (V : s * s + c * c = 1) by apply (sin2_cos2 (INR i * 2 * PI / INR n)).
  assert (G : exists v, In v l /\ near e (fst p + r * c, snd p + r * s) v).
  { assert (I : In (fst p + r * c, snd p + r * s) (ngon n p r)) by (unfold ngon, c, s; apply (in_map (fun i => (fst p + r * cos (INR i * 2 * PI / INR n), snd p + r * sin (INR i * 2 * PI / INR n)))), in_seq; lia). exact (forall2_left _ _ _ F _ I). }
  destruct G as (v & Hv & N1 & N2). cbn [fst snd] in *. exists v. split; [exact Hv|]. destruct (Rlt_dec h (Rabs (fst v))) as [L|L]; [left; exact L|]. right. apply Rnot_le_lt. intros L'. apply Rnot_lt_le in L.
  assert (X : Rabs (fst p + r * c) <= 11 * h) by (apply Rabs_le; unfold Rabs in L, N1; destruct (Rcase_abs (fst v)), (Rcase_abs (fst v - (fst p + r * c))); lra).
  assert (Y : Rabs (snd p + r * s) <= 11 * h) by (apply Rabs_le; unfold Rabs in L', N2; destruct (Rcase_abs (snd v)), (Rcase_abs (snd v - (snd p + r * s))); lra).
  assert (X2 : (fst p + r * c) ^ 2 <= (11 * h) ^ 2) by (rewrite <- (pow2_abs (fst p + r * c)); apply pow_incr; split; [apply Rabs_pos|exact X]). assert (Y2 : (snd p + r * s) ^ 2 <= (11 * h) ^ 2) by (rewrite <- (pow2_abs (snd p + r * s)); apply pow_incr; split; [apply Rabs_pos|exact Y]).
  assert (0 <= 2 * r * (fst p * c + snd p * s)) by (apply Rmult_le_pos; lra). assert ((100 * h) ^ 2 <= r ^ 2) by (apply pow_incr; lra). pose proof (pow2_ge_0 (fst p)). pose proof (pow2_ge_0 (snd p)). assert (0 < h ^ 2) by (apply pow_lt; exact Hh). nra.
Qed.
(** A bar of the list and the ring drawn for it *)
Definition laid (n : nat) (b : rebar) (l : list pt) : Prop :=
  solid l /\ reach (rb_at b) (circumradius n (rb_area b) + 10 * h) l /\ exists r, 0 < r /\ circumradius n (rb_area b) = r /\ poly_area (mkPoly (ngon n (rb_at b) r) []) = rb_area b /\ Forall2 close (ngon n (rb_at b) r) l.
Lemma rounded_grid sh p m c : (exists v, In v (ext (gm_poly (new_geometry sh p m c 12))) /\ (h < Rabs (fst v) \/ h < Rabs (snd v))) -> solid (ext (gm_poly (new_geometry sh p m c 12))).
Proof.
  intros V. split; [|exact V]. destruct (new_geometry_poly sh p m c 12) as (P & _). rewrite P in V |- *. unfold round_polygon_vertices in V |- *. destruct (forallb _ _) eqn:Q.
  - exfalso. destruct V as (v & Hv & _). destruct Hv.
  - unfold grid, map_polygon. cbn [ext]. apply Forall_forall. intros v Hv. apply in_map_iff in Hv as (w & <- & _). apply round_pt_grid.
Qed.
Lemma bar_cut sh b n m : (3 <= n)%nat -> 1 / 10 ^ 20 <= rb_area b -> exists g l, bar_at sh (rb_area b) n m (rb_at b) = Ok g /\ gm_poly g = mkPoly l [] /\ is_cut (l, m, []) g /\ laid n b l /\
  exists r, 100 * h < r /\ circumradius n (rb_area b) = r /\ Forall2 (near (2 * h)) (ngon n (rb_at b) r) l.
Proof.
  intros H Ha. destruct (bar_near sh (rb_area b) n m (rb_at b) H Ha) as (g & r & E & M & I & R1 & A & B & F). pose proof h_pos as Hh. exists g, (ext (gm_poly g)). split; [exact E|]. split; [destruct (gm_poly g) as [e is_]; cbn [ext ints] in *; subst; reflexivity|].
  pose proof (ring_far n (rb_at b) r _ (2 * h) H ltac:(lra) R1 F) as V. pose proof (circum n r (rb_area b) H ltac:(lra) A) as C.
  assert (X : exists q c, g = new_geometry sh q m c 12 /\ c = None).
  { unfold bar_at in E. destruct (circular_section_by_area sh (rb_area b) n m) as [g0|] eqn:E0; [|discriminate]. cbn [bind] in E. injection E as <-. unfold circular_section_by_area, circular_section, polygon_geometry in E0.
    destruct (make_polygon _) as [q|] eqn:Q; [|discriminate]. cbn [bind] in E0. injection E0 as <-. destruct (new_geometry_poly sh q m None 12) as (_ & M0 & C0 & T0). unfold shift_section. rewrite M0, C0, T0. eexists. exists None. split; reflexivity. }
  destruct X as (q & c & -> & ->). pose proof (rounded_grid sh q m None V) as S. destruct (new_geometry_poly sh q m None 12) as (_ & M0 & C0 & T0).
  split; [|split].
  - split; [exact S|]. split; [constructor|]. split; [exact M0|]. split; [exact T0|]. split; [exact C0|]. split; [apply same_refl|]. cbn [snd]. rewrite I. apply rings_refl.
  - split; [exact S|]. rewrite C. split; [intros v a d Hv U; pose proof (ngon_reach (2 * h) n (rb_at b) r _ ltac:(lra) ltac:(lra) F v a d Hv U); lra|]. exists r. split; [lra|]. split; [reflexivity|]. split; [exact B|]. apply (near_close (2 * h)); [lra|exact F].
  - exists r. auto.
Qed.
(** the right bar, made from the left one *)
Lemma bar_shift_cut sh b n m g l r dx : (3 <= n)%nat -> gm_poly g = mkPoly l [] -> is_cut (l, m, []) g -> laid n b l -> 100 * h < r -> circumradius n (rb_area b) = r -> Forall2 (near (2 * h)) (ngon n (rb_at b) r) l ->
  let b' := mkRebar (fst (rb_at b) + dx, snd (rb_at b)) (rb_area b) (rb_body b) in
  exists l', gm_poly (shift_section sh g dx 0) = mkPoly l' [] /\ is_cut (l', m, []) (shift_section sh g dx 0) /\ laid n b' l'.
Proof.
  intros H P (_ & _ & M & T & C & _ & _) (_ & _ & r' & _ & C2 & A & _) R1 C1 F b'. pose proof h_pos as Hh. rewrite C1 in C2. subst r'. cbn [fst snd] in M. unfold shift_section. rewrite M, T, C, P. cbn [option_map].
  set (q := map_polygon (translate_pt dx 0) (mkPoly l [])).
  assert (F' : Forall2 (near (3 * h)) (ngon n (rb_at b') r) (map (fun v => round_pt 12 (translate_pt dx 0 v)) l)).
  { assert (G : Forall2 (near (2 * h)) (ngon n (rb_at b') r) (map (translate_pt dx 0) l)).
    { clear - F. unfold ngon in F |- *. generalize dependent l. generalize (seq 0 n). intros L. induction L as [|i L IH]; intros [|v l] F; inversion F as [|? ? ? ? [N1 N2] F']; subst; cbn [map] in *; constructor; [|apply IH; assumption].
      unfold near, translate_pt in *. cbn [fst snd rb_at b'] in *. split; [replace (fst v + dx - _) with (fst v - (fst (rb_at b) + r * cos (INR i * 2 * PI / INR n))) by lra|replace (snd v + 0 - _) with (snd v - (snd (rb_at b) + r * sin (INR i * 2 * PI / INR n))) by lra]; assumption. }
    rewrite <- (map_map (translate_pt dx 0) (round_pt 12)). clear - G. induction G as [|a v k0 l0 [N1 N2] G IH]; cbn [map]; constructor; [|exact IH].
    unfold near, round_pt in *. cbn [fst snd] in *. pose proof (round_h (fst v)). pose proof (round_h (snd v)). split; apply Rabs_le; unfold Rabs in N1, N2; destruct (Rcase_abs (fst v - fst a)), (Rcase_abs (snd v - snd a)); lra. }
  assert (K : gm_poly (new_geometry sh q m None 12) = mkPoly (map (fun v => round_pt 12 (translate_pt dx 0 v)) l) []).
  { destruct (new_geometry_poly sh q m None 12) as (-> & _). unfold round_polygon_vertices, q. destruct (ring_far n (rb_at b') r _ (3 * h) H ltac:(lra) R1 F') as (v & Hv & V).
    match goal with |- (if ?c then _ else _) = _ => destruct c eqn:Q end; [|unfold map_polygon; cbn [ext ints map]; rewrite map_map; reflexivity]. exfalso.
    rewrite forallb_forall in Q. unfold map_polygon in Q. cbn [ext] in Q. rewrite map_map in Q. specialize (Q v Hv). apply pt_eqb_spec in Q. subst v. cbn [fst snd] in V. rewrite Rabs_R0 in V. lra. }
  assert (V : exists v, In v (ext (gm_poly (new_geometry sh q m None 12))) /\ (h < Rabs (fst v) \/ h < Rabs (snd v))) by (rewrite K; cbn [ext]; exact (ring_far n (rb_at b') r _ (3 * h) H ltac:(lra) R1 F')).
  pose proof (rounded_grid sh q m None V) as S. destruct (new_geometry_poly sh q m None 12) as (_ & M0 & C0 & T0). rewrite K in S. cbn [ext] in S.
  eexists. split; [exact K|]. split.
  - split; [exact S|]. split; [constructor|]. split; [exact M0|]. split; [exact T0|]. split; [exact C0|]. rewrite K. split; [apply same_refl|apply rings_refl].
  - split; [exact S|]. change (rb_area b') with (rb_area b). rewrite C1. split; [intros v a d Hv U; pose proof (ngon_reach (3 * h) n (rb_at b') r _ ltac:(lra) ltac:(lra) F' v a d Hv U); lra|]. exists r. split; [lra|]. split; [reflexivity|]. split.
    + rewrite <- A. rewrite !ngon_map. unfold poly_area. cbn [ext ints]. rewrite !orient_area, !ring_area_translate. reflexivity.
    + apply (near_close (3 * h)); [lra|exact F'].
Qed.
