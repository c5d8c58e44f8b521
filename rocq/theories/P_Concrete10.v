(** Tee beams. *)
From Coq Require Import String Reals List Bool Arith ZArith Lra Lia Permutation.
From Verif Require Import Base M_Fea M_Init M_Bisect M_Geometry S_Geometry P_Geometry P_Geometry3 P_Geometry6 M_Library S_Library P_Library P_Library2 P_Library5 P_Library6 P_Library8 M_SetOps S_SetOps P_SetOps M_Concrete S_Concrete P_Concrete P_Concrete3 P_Concrete6 P_Concrete7 P_Concrete8 P_Concrete9.
Import ListNotations.
Local Open Scope R_scope.

Lemma rn_top sh e f x1 y1 x2 y2 x1' y1' x2' y2' m m' g o : rn false e x1 y1 x2 y2 m g -> rn false f x1' y1' x2' y2' m' o -> 2 * e + 2 * h < x2 - x1 -> 2 * e < y2 - y1 -> 2 * f < x2' - x1' -> 2 * f < y2' - y1' ->
  exists g', align_to sh g (TGeometry [gm_poly o]) "top" false = Ok g' /\ rn false (e + (e + f) + h) x1 y2' x2 (y2' + (y2 - y1)) m g'.
Proof.
  intros G O W1 W2 W3 W4. pose proof h_pos. pose proof G as (_ & _ & _ & X1 & Y1 & X2 & Y2 & P & B1 & B2 & B3 & B4). destruct O as (_ & _ & _ & X1' & Y1' & X2' & Y2' & P' & B1' & B2' & B3' & B4').
  assert (0 <= e + f) by lra.
  unfold align_to, align_offset. cbn [align_indices String.eqb Ascii.eqb Bool.eqb bind orb]. rewrite P, P', quad_bottom, quad_top by lra. cbn [fst snd].
  eexists. split; [reflexivity|]. replace (y2' + (y2 - y1)) with (y2 + (y2' - y1)) by lra. replace y2' with (y1 + (y2' - y1)) at 1 by lra. replace x1 with (x1 + 0) by lra. replace x2 with (x2 + 0) at 1 by lra.
  replace (x1 + 0 + 0) with (x1 + 0) by lra.
  apply (rn_shift sh false e _ _ _ _ m g _ _ _ _ _ G); lra.
Qed.
Lemma rn_eq flip e x1 y1 x2 y2 e' x1' y1' x2' y2' m g : rn flip e x1 y1 x2 y2 m g -> e = e' -> x1 = x1' -> y1 = y1' -> x2 = x2' -> y2 = y2' -> rn flip e' x1' y1' x2' y2' m g.
Proof. intros H -> -> -> -> ->. exact H. Qed.
Lemma shift_new sh g dx dy e x1 y1 x2 y2 m : rn false e x1 y1 x2 y2 m g -> exists q, shift_section sh g dx dy = new_geometry sh q m None 12.
Proof. intros (M & T & C & _). unfold shift_section. rewrite M, T, C. cbn [option_map]. eauto. Qed.
Lemma row_tee b k cover dia y : map (fun i => (fst (if Nat.eqb k 1 then (0, 0) else (- b / 2 + cover + dia / 2, (b - 2 * cover - dia) / (INR k - 1))) + snd (if Nat.eqb k 1 then (0, 0) else (- b / 2 + cover + dia / 2, (b - 2 * cover - dia) / (INR k - 1))) * INR i, y)) (seq 0 k) =
  row_of k (- (b / 2 - (cover + dia / 2)), y) (b / 2 - (cover + dia / 2), y).
Proof.
  unfold row_of. destruct (Nat.eqb_spec k 1) as [->|N]; [cbn [seq map fst snd INR]; unfold toward; cbn [fst snd]; apply (f_equal (fun p : pt => [p])); apply injective_projections; cbn [fst snd]; lra|].
  apply map_ext_in. intros i I. apply in_seq in I. assert (K : INR k - 1 <> 0) by (assert (2 <= INR k) by (change 2 with (INR 2); apply le_INR; lia); lra). unfold toward. cbn [fst snd]. f_equal; [field; exact K|field; exact K].
Qed.
Lemma tee_made sh so d b d_f b_f dia_top area_top n_top c_top dia_bot area_bot n_bot c_bot dia_side area_side n_side c_side n conc steel sides :
  cuts so -> (3 <= n)%nat -> tiny <= d_f -> tiny <= d - d_f -> tiny <= b -> tiny <= b_f ->
  let cover c := if Req_EM_T c_side 0 then c else c_side in
  let xt := b_f / 2 - (cover c_top + dia_top / 2) in let xb := b / 2 - (cover c_bot + dia_bot / 2) in
  let yt := d - c_top - dia_top / 2 in let yb := c_bot + dia_bot / 2 in let body := flange_above (d - d_f) in
  (sides = [] /\ (area_side = None \/ n_side = 0%nat) \/
   exists ds a, dia_side = Some ds /\ ds <> 0 /\ area_side = Some a /\ sides = bars_at a body (both_sides 0 (between n_side (- (b / 2 - (c_side + ds / 2)), yb) (- (b / 2 - (c_side + ds / 2)), yt)))) ->
  let bars := bars_at area_top body (row_of n_top (- xt, yt) (xt, yt)) ++ bars_at area_bot body (row_of n_bot (- xb, yb) (xb, yb)) ++ sides in
  let web := ((- (b / 2), 0), (b / 2, d - d_f)) in let flange := ((- (b_f / 2), d - d_f), (b_f / 2, d)) in
  bars <> [] -> fits n [web; flange] bars ->
  exists c, concrete_tee_section sh so d b d_f b_f dia_top area_top n_top c_top dia_bot area_bot n_bot c_bot dia_side area_side n_side c_side n conc steel = Ok c /\
    cast [outline web; outline flange] conc steel n bars c.
Proof.
  intros U Hn D1 D2 D3 D4 cover xt xb yt yb body ES bars web flange NE [FI FC]. pose proof h_pos as Hh. pose proof h_tiny as HT.
  destruct (rect_made sh (d - d_f) b conc D2 D3) as (g1 & G1 & R1). destruct (rect_made sh d_f b_f conc D1 D4) as (g2 & G2 & R2). rewrite HT in *.
  destruct (rn_top sh h h _ _ _ _ _ _ _ _ _ _ g2 g1 R2 R1 ltac:(lra) ltac:(lra) ltac:(lra) ltac:(lra)) as (g3 & G3 & R3).
  assert (R4 : rn false (5 * h) (0 - (b_f / 2 - b / 2)) (d - d_f) (b_f - (b_f / 2 - b / 2)) d conc (shift_section sh g3 (- (b_f / 2 - b / 2)) 0)).
  { pose proof (rn_shift sh false (h + (h + h) + h) _ _ _ _ conc g3 (- (b_f / 2 - b / 2)) 0 (- (b_f / 2 - b / 2)) 0 0 R3 ltac:(lra) ltac:(lra) ltac:(lra)) as Q. eapply rn_eq; [exact Q|..]; lra. }
  set (g4 := shift_section sh g3 (- (b_f / 2 - b / 2)) 0) in *.
  assert (R5 : rn false (6 * h) (- (b_f / 2)) (d - d_f) (b_f / 2) d conc (shift_section sh g4 (- b / 2) 0)).
  { pose proof (rn_shift sh false (5 * h) _ _ _ _ conc g4 (- b / 2) 0 (- b / 2) 0 0 R4 ltac:(lra) ltac:(lra) ltac:(lra)) as Q. eapply rn_eq; [exact Q|..]; lra. }
  assert (R6 : rn false (2 * h) (- (b / 2)) 0 (b / 2) (d - d_f) conc (shift_section sh g1 (- b / 2) 0)).
  { pose proof (rn_shift sh false h _ _ _ _ conc g1 (- b / 2) 0 (- b / 2) 0 0 R1 ltac:(lra) ltac:(lra) ltac:(lra)) as Q. eapply rn_eq; [exact Q|..]; lra. }
  destruct (shift_new sh g4 (- b / 2) 0 _ _ _ _ _ _ R4) as (q2 & N2). destruct (shift_new sh g1 (- b / 2) 0 _ _ _ _ _ _ R1) as (q1 & N1). rewrite N1 in R6. rewrite N2 in R5.
  destruct (rn_cut sh _ _ _ _ _ conc q1 R6 ltac:(lra)) as (X1 & Y1 & X2 & Y2 & Q1 & B1 & B2 & B3 & B4). destruct (rn_cut sh _ _ _ _ _ conc q2 R5 ltac:(lra)) as (V1 & W1 & V2 & W2 & Q2 & A1 & A2 & A3 & A4).
  unfold concrete_tee_section. rewrite G1. cbn [bind]. rewrite G2. cbn [bind]. rewrite G3. cbn [bind]. fold g4.
  set (geom := compound_shift sh (add_geometry sh (ISingle g1) (ISingle g4)) (- b / 2) 0).
  assert (MG : members_of (ICompound geom) = [new_geometry sh q1 conc None 12; new_geometry sh q2 conc None 12]).
  { unfold geom, compound_shift, add_geometry. cbn [members_of]. rewrite !new_members. cbn [map members_of concat app]. rewrite N1, N2. reflexivity. }
  set (side := match truthy_num dia_side with Some dia => if Nat.eqb n_side 0 then (0, 0, 0) else (- b / 2 + c_side + dia / 2, - (- b / 2 + c_side + dia / 2), (d - c_top - c_bot - dia_top / 2 - dia_bot / 2) / (INR n_side + 1)) | None => (0, 0, 0) end).
  destruct side as [[xl xr] sp] eqn:SE.
  apply (layers_made sh so [outline web; outline flange] [ext (quad false X1 Y1 X2 Y2); ext (quad false V1 W1 V2 W2)] conc steel n (ICompound geom) d dia_top area_top n_top c_top dia_bot area_bot n_bot c_bot area_side n_side (tee_layer b_f n_top dia_top c_top c_side) (tee_layer b n_bot dia_bot c_bot c_side) xl xr sp body 0
    (row_of n_top (- xt, yt) (xt, yt)) (row_of n_bot (- xb, yb) (xb, yb)) sides U Hn).
  - constructor; [|constructor; [|constructor]]; [apply (rect_outline (2 * h))|apply (rect_outline (6 * h))]; (lra || assumption).
  - rewrite MG. unfold state. cbn. constructor; [exact Q1|constructor; [exact Q2|constructor]].
  - unfold tee_layer, xt, cover. cbv zeta. fold yt. apply row_tee.
  - unfold tee_layer, xb, cover. cbv zeta. fold yb. apply row_tee.
  - destruct ES as [[-> [->| ->]]|(ds & a & ED & ND & EA & ES)].
    + left. split; reflexivity.
    + destruct (truthy_num area_side) as [a|]; [right|left; split; reflexivity]. exists a, []. split; [reflexivity|]. split; [reflexivity|]. split; [reflexivity|]. intros N; contradiction.
    + destruct (Nat.eq_dec n_side 0) as [->|N0].
      { cbn in ES. subst sides. destruct (truthy_num area_side) as [a'|]; [right|left; split; reflexivity]. exists a', []. split; [reflexivity|]. split; [reflexivity|]. split; [reflexivity|]. intros N; contradiction. }
      assert (S0 : sides <> []) by (rewrite ES; destruct n_side as [|k]; [contradiction|]; discriminate).
      assert (A0 : a <> 0).
      { intros ->. destruct sides as [|x sides]; [contradiction|]. unfold bars in FI. rewrite !Forall_app in FI. destruct FI as (_ & _ & FI). inversion FI as [|? ? [FA _] _]; subst.
        assert (rb_area x = 0) by (destruct n_side as [|k]; [contradiction|]; injection ES as -> _; reflexivity). assert (0 < 1 / 10 ^ 20) by (apply Rdiv_lt_0_compat; [lra|apply pow_lt; lra]). lra. }
      right. exists a. eexists. split; [rewrite EA; unfold truthy_num; destruct (Req_EM_T a 0); [contradiction|reflexivity]|]. split; [reflexivity|].
      unfold side in SE. rewrite ED in SE. unfold truthy_num in SE. destruct (Req_EM_T ds 0); [contradiction|]. destruct (Nat.eqb_spec n_side 0); [contradiction|]. injection SE as <- <- <-. split; [|intros _; lra].
      rewrite ES. do 2 f_equal. rewrite <- between_side. fold yb. replace (yt - yb) with (d - c_top - c_bot - dia_top / 2 - dia_bot / 2) by (unfold yt, yb; lra). replace (- b / 2 + c_side + ds / 2) with (- (b / 2 - (c_side + ds / 2))) by lra. reflexivity.
  - exact NE.
  - eapply Forall_impl; [|exact FI]. intros x (A & r & E & K1 & K2). pose proof (circum_pos n (rb_area x)).
    destruct (rb_body x) as [|[|k]] eqn:RB; [| |destruct k; discriminate]; injection E as <-; cbn [fst snd web flange] in *; unfold web, flange in *; cbn [fst snd] in *; (split; [rewrite RB; cbn; lia|]); (split; [exact A|]); intros l Rl k r E; rewrite RB; pose proof (reach_box _ _ _ Rl) as Bx.
    + destruct k as [|[|k]]; [| |destruct k; discriminate]; injection E as <-; cbn [Nat.eqb]; [eapply inside_quad; [exact Rl|..]; lra|].
      exists 0, (-1), (- (d - d_f) + 50 * h). split; [repeat constructor; cbn [fst snd]; lra|]. eapply Forall_impl; [|exact Bx]. intros v Bv. cbv beta in *. lra.
    + destruct k as [|[|k]]; [| |destruct k; discriminate]; injection E as <-; cbn [Nat.eqb]; [|eapply inside_quad; [exact Rl|..]; lra].
      exists 0, 1, (d - d_f + 50 * h). split; [repeat constructor; cbn [fst snd]; lra|]. eapply Forall_impl; [|exact Bx]. intros v Bv. cbv beta in *. lra.
  - exact FC.
Qed.
