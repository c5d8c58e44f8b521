(** Rectangular and tee beams. *)
From Coq Require Import String Reals List Bool Arith ZArith Lra Lia Permutation.
From Verif Require Import Base M_Fea M_Init M_Bisect M_Geometry S_Geometry P_Geometry P_Geometry3 P_Geometry6 M_Library S_Library P_Library P_Library2 P_Library5 P_Library6 P_Library8 M_SetOps S_SetOps P_SetOps M_Concrete S_Concrete P_Concrete P_Concrete3 P_Concrete6 P_Concrete7 P_Concrete8.
Import ListNotations.
Local Open Scope R_scope.

Lemma at_bars area body l : map rb_at (bars_at area body l) = l.
Proof. unfold bars_at. rewrite map_map. cbn [rb_at]. apply map_id. Qed.
Lemma area_bars area body l : Forall (fun b => rb_area b = area) (bars_at area body l).
Proof. unfold bars_at. apply Forall_map, Forall_forall. reflexivity. Qed.
Lemma sides_list (body : R -> nat) a dx c x l : (l <> [] -> dx = 2 * c - 2 * x) -> Forall (fun p : pt => fst p = x) l ->
  concat (map (fun b => [b; mkRebar (fst (rb_at b) + dx, snd (rb_at b)) (rb_area b) (rb_body b)]) (bars_at a body l)) = bars_at a body (both_sides c l).
Proof.
  intros D F. destruct l as [|p0 l0]; [reflexivity|]. specialize (D ltac:(discriminate)). subst dx. generalize dependent (p0 :: l0). intros l F. unfold bars_at, both_sides. induction F as [|p l E F IH]; [reflexivity|]. cbn [map concat app rb_at rb_area rb_body fst snd]. rewrite IH. do 2 f_equal. f_equal. f_equal. lra.
Qed.
Lemma layers_made sh so outlines bodies conc steel n geometry d dia_top area_top n_top c_top dia_bot area_bot n_bot c_bot area_side n_side top bot xl xr sp body c0 tops bots sides :
  cuts so -> (3 <= n)%nat -> Forall2 (Forall2 close) outlines bodies -> Forall2 is_cut (state bodies conc steel [] []) (members_of geometry) ->
  map (fun i => (fst top + snd top * INR i, d - c_top - dia_top / 2)) (seq 0 n_top) = tops ->
  map (fun i => (fst bot + snd bot * INR i, c_bot + dia_bot / 2)) (seq 0 n_bot) = bots ->
  (sides = [] /\ truthy_num area_side = None \/ exists a l, truthy_num area_side = Some a /\ map (fun i => (xl, c_bot + dia_bot / 2 + sp * INR (i + 1))) (seq 0 n_side) = l /\ sides = bars_at a body (both_sides c0 l) /\ (l <> [] -> xr = 2 * c0 - xl)) ->
  let bars := bars_at area_top body tops ++ bars_at area_bot body bots ++ sides in
  bars <> [] -> Forall (placed n bodies) bars -> ForallOrdPairs (clear_of n) bars ->
  exists c, add_layers sh so geometry d dia_top area_top n_top c_top dia_bot area_bot n_bot c_bot area_side n_side n steel top bot (xl, xr, sp) = Ok c /\ cast outlines conc steel n bars c.
Proof.
  intros U Hn O F ET EB ES bars NE P C. unfold bars in P, C. apply Forall_app in P as [P1 P]. apply Forall_app in P as [P2 P3].
  assert (C1 : ForallOrdPairs (clear_of n) (bars_at area_top body tops)). { revert C. generalize (bars_at area_bot body bots ++ sides). generalize (bars_at area_top body tops). clear. intros l m. induction l as [|a l IH]; intros C; [constructor|]. inversion C; subst. constructor; [|apply IH; assumption]. apply Forall_app in H1. apply H1. }
  assert (C2 : ForallOrdPairs (clear_of n) (bars_at area_top body tops ++ bars_at area_bot body bots)). { rewrite app_assoc in C. revert C. generalize (bars_at area_top body tops ++ bars_at area_bot body bots). generalize sides. clear. intros m l. induction l as [|a l IH]; intros C; [constructor|]. inversion C; subst. constructor; [|apply IH; assumption]. apply Forall_app in H1. apply H1. }
  unfold add_layers. rewrite ET, EB.
  destruct (run_bars sh so n bodies conc steel area_top U Hn (bars_at area_top body tops) [] geometry (area_bars _ _ _) P1 C1 (Forall_nil _)) as (i1 & K1 & E1 & M1 & L1 & CI1 & F1); [intros N; contradiction|exact F|]. rewrite at_bars in E1. rewrite E1. cbn [bind].
  destruct (run_bars sh so n bodies conc steel area_bot U Hn (bars_at area_bot body bots) K1 i1 (area_bars _ _ _) P2) as (i2 & K2 & E2 & M2 & L2 & CI2 & F2); [rewrite M1; exact C2|exact L1|exact CI1|exact F1|]. rewrite at_bars in E2. rewrite E2. cbn [bind].
  rewrite M1 in M2. cbn [map app] in M2.
  assert (Z : exists i3 K3, match truthy_num area_side with Some a => fold_result (add_side sh so a n steel (xr - xl)) (map (fun i => (xl, c_bot + dia_bot / 2 + sp * INR (i + 1))) (seq 0 n_side)) i2 | None => Ok i2 end = Ok i3 /\
     map fst K3 = bars /\ laids n K3 /\ compound_if K3 i3 /\ Forall2 is_cut (state bodies conc steel K3 K3) (members_of i3)).
  { destruct ES as [[ES ->]|(a & l & -> & EL & ES & EX)]; subst sides.
    - exists i2, K2. split; [reflexivity|]. split; [unfold bars; rewrite app_nil_r; exact M2|]. auto.
    - assert (FX : Forall (fun p : pt => fst p = xl) l) by (rewrite <- EL; apply Forall_map, Forall_forall; reflexivity). assert (DX : l <> [] -> xr - xl = 2 * c0 - 2 * xl) by (intros N; specialize (EX N); lra). pose proof (sides_list body a _ c0 xl l DX FX) as SL.
      destruct (run_sides sh so n bodies conc steel a (xr - xl) U Hn (bars_at a body l) K2 i2 (area_bars _ _ _)) as (i3 & K3 & E3 & M3 & L3 & CI3 & F3).
      + rewrite <- SL in P3. clear - P3. revert P3. generalize (bars_at a body l). intros L. induction L as [|b L IH]; cbn [map concat app]; intros P; [constructor|]. inversion P as [|? ? A1 P']; inversion P' as [|? ? A2 P'']; subst. constructor; [split; assumption|apply IH; assumption].
      + rewrite SL, M2, <- app_assoc. exact C.
      + exact L2. + exact CI2. + exact F2.
      + rewrite at_bars in E3. exists i3, K3. rewrite EL. split; [exact E3|]. split; [|auto]. rewrite M3, SL, M2. unfold bars. rewrite <- app_assoc. reflexivity. }
  destruct Z as (i3 & K3 & -> & M3 & L3 & CI3 & F3). cbn [bind]. destruct CI3 as (c & ->); [intros ->; cbn in M3; congruence|]. exists c. split; [reflexivity|]. eapply state_cast; try eassumption. unfold bars. rewrite !Forall_app. auto.
Qed.

(** ** Rectangles *)
Lemma rn_cut sh e x1 y1 x2 y2 m q : rn false e x1 y1 x2 y2 m (new_geometry sh q m None 12) -> 2 * h + 2 * e < x2 - x1 -> exists X1 Y1 X2 Y2,
  is_cut (ext (quad false X1 Y1 X2 Y2), m, []) (new_geometry sh q m None 12) /\ x1 - e <= X1 <= x1 + e /\ y1 - e <= Y1 <= y1 + e /\ x2 - e <= X2 <= x2 + e /\ y2 - e <= Y2 <= y2 + e.
Proof.
  intros (M & T & C & X1 & Y1 & X2 & Y2 & P & B1 & B2 & B3 & B4) W. exists X1, Y1, X2, Y2. split; [|auto].
  assert (V : exists v, In v (ext (gm_poly (new_geometry sh q m None 12))) /\ (h < Rabs (fst v) \/ h < Rabs (snd v))).
  { rewrite P. destruct (far X1 X2 ltac:(lra)) as [K|K]; [exists (X1, Y1)|exists (X2, Y1)]; (split; [cbn; auto|left; exact K]). }
  pose proof (rounded_grid sh q m None V) as S. rewrite P in S. split; [exact S|]. split; [constructor|]. split; [exact M|]. split; [exact T|]. split; [exact C|]. rewrite P. split; [apply same_refl|apply rings_refl].
Qed.
Lemma rect_outline e x1 y1 x2 y2 X1 Y1 X2 Y2 : e <= 20 * h -> x1 - e <= X1 <= x1 + e -> y1 - e <= Y1 <= y1 + e -> x2 - e <= X2 <= x2 + e -> y2 - e <= Y2 <= y2 + e ->
  Forall2 close (outline ((x1, y1), (x2, y2))) (ext (quad false X1 Y1 X2 Y2)).
Proof. intros H A B C D. unfold outline, quad. cbn [ext]. repeat apply Forall2_cons; [..|apply Forall2_nil]; unfold close; cbn [fst snd]; rewrite h_close; split; apply Rabs_le; lra. Qed.
Lemma circum_pos n area : 0 <= circumradius n area. Proof. apply sqrt_pos. Qed.
Lemma row_layer b k cover dia y : map (fun i => (fst (if Nat.eqb k 1 then (b / 2, 0) else (cover + dia / 2, (b - 2 * cover - dia) / (INR k - 1))) + snd (if Nat.eqb k 1 then (b / 2, 0) else (cover + dia / 2, (b - 2 * cover - dia) / (INR k - 1))) * INR i, y)) (seq 0 k) =
  row_of k (cover + dia / 2, y) (b - (cover + dia / 2), y).
Proof.
  unfold row_of. destruct (Nat.eqb_spec k 1) as [->|N]; [cbn [seq map fst snd INR]; unfold toward; cbn [fst snd]; apply (f_equal (fun p : pt => [p])); apply injective_projections; cbn [fst snd]; lra|].
  apply map_ext_in. intros i I. apply in_seq in I. assert (K : INR k - 1 <> 0) by (assert (2 <= INR k) by (change 2 with (INR 2); apply le_INR; lia); lra). unfold toward. cbn [fst snd]. f_equal; [field; exact K|field; exact K].
Qed.
Lemma between_side k x y0 y1 : map (fun i => (x, y0 + (y1 - y0) / (INR k + 1) * INR (i + 1))) (seq 0 k) = between k (x, y0) (x, y1).
Proof.
  unfold between. rewrite <- seq_shift, map_map. apply map_ext. intros i. assert (K : INR k + 1 <> 0) by (pose proof (pos_INR k); lra). unfold toward. cbn [fst snd]. rewrite Nat.add_1_r. f_equal; field; exact K.
Qed.
Lemma rectangular_made sh so d b dia_top area_top n_top c_top dia_bot area_bot n_bot c_bot dia_side area_side n_side c_side n conc steel sides :
  cuts so -> (3 <= n)%nat ->
  let cover c := if Req_EM_T c_side 0 then c else c_side in
  let xt := cover c_top + dia_top / 2 in let xb := cover c_bot + dia_bot / 2 in
  let yt := d - c_top - dia_top / 2 in let yb := c_bot + dia_bot / 2 in
  (sides = [] /\ (area_side = None \/ n_side = 0%nat) \/
   exists ds a, dia_side = Some ds /\ ds <> 0 /\ area_side = Some a /\ sides = bars_at a (fun _ => 0%nat) (both_sides (b / 2) (between n_side (c_side + ds / 2, yb) (c_side + ds / 2, yt)))) ->
  let bars := bars_at area_top (fun _ => 0%nat) (row_of n_top (xt, yt) (b - xt, yt)) ++ bars_at area_bot (fun _ => 0%nat) (row_of n_bot (xb, yb) (b - xb, yb)) ++ sides in
  bars <> [] -> fits n [((0, 0), (b, d))] bars ->
  exists c, concrete_rectangular_section sh so d b dia_top area_top n_top c_top dia_bot area_bot n_bot c_bot dia_side area_side n_side c_side n conc steel = Ok c /\
    cast [outline ((0, 0), (b, d))] conc steel n bars c.
Proof.
  intros U Hn cover xt xb yt yb ES bars NE [FI FC]. pose proof h_pos as Hh. rewrite h_tiny in FI.
  assert (D : 400 * h <= b /\ 400 * h <= d).
  { destruct bars as [|x bars]; [contradiction|]. inversion FI as [|? ? [_ (r & E & W1 & W2)] _]; subst. destruct (rb_body x) as [|k]; [|destruct k; discriminate]. injection E as <-. cbn [fst snd] in *. pose proof (circum_pos n (rb_area x)). lra. }
  destruct (rect_made sh d b conc) as (g & G & RN); [rewrite h_tiny; lra|rewrite h_tiny; lra|]. unfold concrete_rectangular_section. rewrite G. cbn [bind].
  assert (X : exists q, g = new_geometry sh q conc None 12). { unfold rectangular_section, polygon_geometry in G. destruct (make_polygon _) as [q|]; [|discriminate]. cbn [bind] in G. injection G as <-. eauto. }
  destruct X as (q & ->). destruct (rn_cut sh h 0 0 b d conc q RN ltac:(lra)) as (X1 & Y1 & X2 & Y2 & Q & B1 & B2 & B3 & B4).
  set (side := match truthy_num dia_side with Some dia => if Nat.eqb n_side 0 then (0, 0, 0) else (c_side + dia / 2, b - (c_side + dia / 2), (d - c_top - c_bot - dia_top / 2 - dia_bot / 2) / (INR n_side + 1)) | None => (0, 0, 0) end).
  destruct side as [[xl xr] sp] eqn:SE.
  apply (layers_made sh so [outline ((0, 0), (b, d))] [ext (quad false X1 Y1 X2 Y2)] conc steel n (ISingle (new_geometry sh q conc None 12)) d dia_top area_top n_top c_top dia_bot area_bot n_bot c_bot area_side n_side (layer b n_top dia_top c_top c_side) (layer b n_bot dia_bot c_bot c_side) xl xr sp (fun _ => 0%nat) (b / 2)
    (row_of n_top (xt, yt) (b - xt, yt)) (row_of n_bot (xb, yb) (b - xb, yb)) sides U Hn).
  - constructor; [|constructor]. apply (rect_outline h); (lra || assumption).
  - unfold state. cbn. constructor; [exact Q|constructor].
  - unfold layer, xt, cover. cbv zeta. fold yt. apply row_layer.
  - unfold layer, xb, cover. cbv zeta. fold yb. apply row_layer.
  - destruct ES as [[-> [->| ->]]|(ds & a & ED & ND & EA & ES)].
    + left. split; reflexivity.
    + destruct (truthy_num area_side) as [a|]; [right|left; split; reflexivity]. exists a, []. split; [reflexivity|]. split; [reflexivity|]. split; [reflexivity|]. intros N; contradiction.
    + destruct (Nat.eq_dec n_side 0) as [->|N0].
      { cbn in ES. subst sides. destruct (truthy_num area_side) as [a'|]; [right|left; split; reflexivity]. exists a', []. split; [reflexivity|]. split; [reflexivity|]. split; [reflexivity|]. intros N; contradiction. }
      assert (S0 : sides <> []) by (rewrite ES; destruct n_side as [|k]; [contradiction|]; discriminate).
      assert (A0 : a <> 0).
      { intros ->. destruct sides as [|x sides]; [contradiction|]. unfold bars in FI. rewrite !Forall_app in FI. destruct FI as (_ & _ & FI). inversion FI as [|? ? [FA _] _]; subst.
        assert (rb_area x = 0) by (destruct n_side as [|k]; [contradiction|]; injection ES as -> _; reflexivity). assert (0 < 1 / 10 ^ 20) by (apply Rdiv_lt_0_compat; [lra|apply pow_lt; lra]). lra. }
      right. exists a. eexists. split; [rewrite EA; unfold truthy_num; destruct (Req_EM_T a 0); [contradiction|reflexivity]|]. split; [reflexivity|].
      unfold side in SE. rewrite ED in SE. unfold truthy_num in SE. destruct (Req_EM_T ds 0); [contradiction|]. destruct (Nat.eqb_spec n_side 0); [contradiction|]. injection SE as <- <- <-. split; [|intros _; lra].
      rewrite ES. do 2 f_equal. rewrite <- between_side. fold yb. replace (yt - yb) with (d - c_top - c_bot - dia_top / 2 - dia_bot / 2) by (unfold yt, yb; lra). reflexivity.
  - exact NE.
  - eapply Forall_impl; [|exact FI]. intros x (A & r & E & W1 & W2). destruct (rb_body x) as [|k] eqn:RB; [|destruct k; discriminate]. injection E as <-. cbn [fst snd] in *. split; [rewrite RB; cbn; lia|]. split; [exact A|].
    intros l Rl k r E. rewrite RB. destruct k as [|k]; [|destruct k; discriminate]. injection E as <-. cbn [Nat.eqb]. pose proof (circum_pos n (rb_area x)). eapply inside_quad; [exact Rl|..]; lra.
  - exact FC.
Qed.
