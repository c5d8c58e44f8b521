(** Proofs: shifting and mirroring back, alignment. *)
From Coq Require Import String Reals List Bool Arith ZArith Lia Lra Permutation.
From Verif Require Import Base M_Fea M_Init M_Geometry S_Geometry P_Geometry P_Geometry3.
Import ListNotations.
Local Open Scope R_scope.

Lemma new_geometry_cong sh p q m c tol : round_polygon_vertices p tol = round_polygon_vertices q tol -> new_geometry sh p m c tol = new_geometry sh q m c tol.
Proof. intros E. unfold new_geometry. rewrite E. reflexivity. Qed.
Lemma round_idem p tol : round_polygon_vertices (round_polygon_vertices p tol) tol = round_polygon_vertices p tol.
Proof.
  pose proof (round_polygon_grid p tol) as G. destruct (forallb (fun a => pt_eqb a (0, 0)) (ext (map_polygon (round_pt tol) p))) eqn:Q.
  - assert (E : round_polygon_vertices p tol = empty_polygon) by (unfold round_polygon_vertices; rewrite Q; reflexivity). rewrite E. reflexivity.
  - assert (E : round_polygon_vertices p tol = map_polygon (round_pt tol) p) by (unfold round_polygon_vertices; rewrite Q; reflexivity).
    rewrite E in *. unfold round_polygon_vertices. rewrite (map_polygon_round_id _ _ G), Q. reflexivity.
Qed.
Lemma geometry_rebuild sh g : is_geometry sh g -> new_geometry sh (gm_poly g) (gm_mat g) (gm_assigned g) (gm_tol g) = g.
Proof.
  intros [p E]. transitivity (new_geometry sh p (gm_mat g) (gm_assigned g) (gm_tol g)); [|symmetry; exact E]. apply new_geometry_cong.
  assert (P : gm_poly g = round_polygon_vertices p (gm_tol g)). { rewrite E at 1. apply new_geometry_poly. } rewrite P. apply round_idem.
Qed.
Lemma geometry_round sh g : is_geometry sh g -> round_polygon_vertices (gm_poly g) (gm_tol g) = gm_poly g.
Proof. intros H. pose proof (geometry_rebuild sh g H) as E. rewrite <- E at 3. symmetry. apply new_geometry_poly. Qed.
Lemma on_grid_map_id tol f p : poly_on_grid tol p -> (forall v, pt_on_grid tol v -> f v = v) -> map_polygon f p = p.
Proof.
  intros G E. unfold poly_on_grid, rings in G. inversion G as [|x l He Hi]; subst. destruct p as [e i]. unfold map_polygon. cbn [ext ints] in *. f_equal.
  - clear -He E. induction He; cbn; [reflexivity|]. rewrite E, IHHe by assumption. reflexivity.
  - clear -Hi E. induction Hi as [|l i H _ IH]; cbn; [reflexivity|]. rewrite IH. f_equal. induction H; cbn; [reflexivity|]. rewrite E, IHForall by assumption. reflexivity.
Qed.

(** moving there and back *)
Lemma there_and_back sh f h g c : is_geometry sh g -> away f g -> (forall v, pt_on_grid (gm_tol g) v -> round_pt (gm_tol g) (h (round_pt (gm_tol g) (f v))) = v) ->
  let g1 := new_geometry sh (map_polygon f (gm_poly g)) (gm_mat g) c (gm_tol g) in
  new_geometry sh (map_polygon h (gm_poly g1)) (gm_mat g1) (gm_assigned g) (gm_tol g1) = g.
Proof.
  intros G A B g1. unfold g1. destruct (new_geometry_poly sh (map_polygon f (gm_poly g)) (gm_mat g) c (gm_tol g)) as (P & M & _ & T). rewrite P, M, T.
  rewrite (away_keeps f g A), map_polygon_map. rewrite <- (geometry_rebuild sh g G) at 5. apply new_geometry_cong. rewrite (geometry_round sh g G).
  destruct (geometry_points sh g G) as (Gr & _). unfold round_polygon_vertices at 1. rewrite map_polygon_map, (on_grid_map_id (gm_tol g)); [|exact Gr|exact B].
  pose proof (geometry_round sh g G) as Q. unfold round_polygon_vertices in Q. rewrite (map_polygon_round_id _ _ Gr) in Q. exact Q.
Qed.

(** coordinatewise maps x -> s x + e with s = 1 or -1 *)
Lemma grid_pm tol s x : s = 1 \/ s = -1 -> on_grid tol x -> on_grid tol (s * x).
Proof. intros [-> | ->] G; [rewrite Rmult_1_l; exact G|]. replace (-1 * x) with (- x) by ring. apply grid_opp, G. Qed.
Lemma tie_shift tol a x : on_grid tol x -> tie tol (x + a) -> tie tol a.
Proof. intros [k K] [j J]. exists (j - k)%Z. rewrite minus_IZR. lra. Qed.
Lemma grid_not_tie tol x : on_grid tol x -> ~ tie tol x.
Proof.
  intros [k K] [j J]. rewrite K in J. assert (E : IZR (2 * k) = IZR (2 * j + 1)) by (rewrite plus_IZR, !mult_IZR; lra). apply eq_IZR in E. lia.
Qed.
Lemma back1 tol s e x : s = 1 \/ s = -1 -> ~ tie tol e -> on_grid tol x -> round_to tol (s * round_to tol (s * x + e) - s * e) = x.
Proof.
  intros S T G. apply round_to_unique; [exact G|].
  pose proof (round_to_half tol (s * x + e) (fun H => T (tie_shift tol e (s * x) (grid_pm tol s x S G) H))) as N.
  replace (x - (s * round_to tol (s * x + e) - s * e)) with (- s * (round_to tol (s * x + e) - (s * x + e))) by (destruct S as [-> | ->]; ring).
  rewrite Rabs_mult. replace (Rabs (- s)) with 1 by (destruct S as [-> | ->]; [rewrite Rabs_Ropp, Rabs_R1|replace (- -1) with 1 by ring; rewrite Rabs_R1]; reflexivity). lra.
Qed.
Definition axis_map (sx sy ex ey : R) (v : pt) : pt := (sx * fst v + ex, sy * snd v + ey).
Lemma axis_back tol sx sy ex ey v : sx = 1 \/ sx = -1 -> sy = 1 \/ sy = -1 -> ~ tie tol ex -> ~ tie tol ey -> pt_on_grid tol v ->
  round_pt tol (axis_map sx sy (- sx * ex) (- sy * ey) (round_pt tol (axis_map sx sy ex ey v))) = v.
Proof.
  intros Sx Sy Tx Ty [Gx Gy]. unfold axis_map, round_pt. cbn [fst snd].
  replace (sx * round_to tol (sx * fst v + ex) + - sx * ex) with (sx * round_to tol (sx * fst v + ex) - sx * ex) by ring.
  replace (sy * round_to tol (sy * snd v + ey) + - sy * ey) with (sy * round_to tol (sy * snd v + ey) - sy * ey) by ring.
  rewrite !back1 by assumption. symmetry. apply surjective_pairing.
Qed.
Lemma notie_same tol s e x y : s = 1 \/ s = -1 -> ~ tie tol e -> on_grid tol x -> on_grid tol y ->
  round_to tol (s * x + e) = round_to tol (s * y + e) -> x = y.
Proof. intros S T Gx Gy E. rewrite <- (back1 tol s e x), <- (back1 tol s e y) by assumption. rewrite E. reflexivity. Qed.
Lemma axis_away sh g sx sy ex ey : is_geometry sh g -> proper g -> sx = 1 \/ sx = -1 -> sy = 1 \/ sy = -1 -> ~ tie (gm_tol g) ex -> ~ tie (gm_tol g) ey ->
  away (axis_map sx sy ex ey) g.
Proof.
  intros G (a & b & Ia & Ib & N) Sx Sy Tx Ty. destruct (geometry_points sh g G) as (Gr & _). unfold poly_on_grid, rings in Gr. apply Forall_cons_iff in Gr. destruct Gr as [Ge _].
  rewrite Forall_forall in Ge. destruct (Ge a Ia) as [Ax Ay]. destruct (Ge b Ib) as [Bx By].
  assert (NT : forall s e x, s = 1 \/ s = -1 -> ~ tie (gm_tol g) e -> on_grid (gm_tol g) x -> ~ Rabs (s * x + e) <= half (gm_tol g) \/ round_to (gm_tol g) (s * x + e) = 0).
  { intros s e x S T Gx. destruct (Rle_dec (Rabs (s * x + e)) (half (gm_tol g))) as [L|L]; [right|left; exact L]. apply round_to_unique; [apply grid_0|].
    unfold Rminus. rewrite Rplus_0_l, Rabs_Ropp. destruct L as [L|L]; [exact L|]. exfalso. apply T. apply (tie_shift _ e (s * x)); [apply grid_pm; assumption|].
    pose proof (pow10_pos (gm_tol g)) as P. unfold half in L. unfold Rabs in L. destruct (Rcase_abs _).
    - exists (-1)%Z. apply (f_equal (fun z => - z * 10 ^ gm_tol g)) in L. replace (- - (s * x + e) * 10 ^ gm_tol g) with ((s * x + e) * 10 ^ gm_tol g) in L by ring. rewrite L. field. lra.
    - exists 0%Z. rewrite L. field. lra. }
  assert (W : forall v, In v (ext (gm_poly g)) -> pt_on_grid (gm_tol g) v -> away (axis_map sx sy ex ey) g \/
     (round_to (gm_tol g) (sx * fst v + ex) = 0 /\ round_to (gm_tol g) (sy * snd v + ey) = 0)).
  { intros v Iv [Vx Vy]. destruct (NT sx ex (fst v) Sx Tx Vx) as [H|H].
    - left. exists v. split; [exact Iv|]. left. unfold axis_map. cbn [fst]. lra.
    - destruct (NT sy ey (snd v) Sy Ty Vy) as [K|K]; [|right; split; assumption]. left. exists v. split; [exact Iv|]. right. unfold axis_map. cbn [snd]. lra. }
  destruct (W a Ia (conj Ax Ay)) as [D|[A1 A2]]; [exact D|]. destruct (W b Ib (conj Bx By)) as [D|[B1 B2]]; [exact D|]. exfalso. apply N.
  rewrite (surjective_pairing a), (surjective_pairing b). f_equal; [apply (notie_same (gm_tol g) sx ex)|apply (notie_same (gm_tol g) sy ey)]; try assumption; congruence.
Qed.
Lemma translate_axis dx dy v : translate_pt dx dy v = axis_map 1 1 dx dy v.
Proof. unfold translate_pt, axis_map. f_equal; ring. Qed.
Lemma scale_axis fx fy o v : scale_pt fx fy o v = axis_map fx fy (fst o - fx * fst o) (snd o - fy * snd o) v.
Proof. unfold scale_pt, axis_map. f_equal; ring. Qed.
Lemma away_ext f h g : (forall v, f v = h v) -> away f g -> away h g.
Proof. intros E (v & I & A). exists v. rewrite <- E. split; assumption. Qed.

Lemma shift_inverse sh g dx dy : is_geometry sh g -> proper g -> ~ tie (gm_tol g) dx -> ~ tie (gm_tol g) dy ->
  shift_section sh (shift_section sh g dx dy) (- dx) (- dy) = g.
Proof.
  intros G P Tx Ty. unfold shift_section at 1. destruct (new_geometry_poly sh (map_polygon (translate_pt dx dy) (gm_poly g)) (gm_mat g) (option_map (translate_pt dx dy) (gm_assigned g)) (gm_tol g)) as (_ & _ & C & _).
  assert (Ec : option_map (translate_pt (- dx) (- dy)) (gm_assigned (shift_section sh g dx dy)) = gm_assigned g).
  { unfold shift_section. rewrite C. destruct (gm_assigned g) as [c|]; [|reflexivity]. cbn [option_map]. f_equal. unfold translate_pt. cbn [fst snd]. rewrite (surjective_pairing c) at 3. f_equal; ring. }
  rewrite Ec. apply there_and_back; [exact G| |].
  - apply (away_ext (axis_map 1 1 dx dy)); [intros v; symmetry; apply translate_axis|]. apply (axis_away sh); auto.
  - intros v Gv. rewrite <- (axis_back (gm_tol g) 1 1 dx dy v) at 2 by auto. rewrite !translate_axis. f_equal. unfold axis_map. f_equal; ring.
Qed.
Lemma shift_shift sh g dx dy ex ey : is_geometry sh g -> proper g -> on_grid (gm_tol g) dx -> on_grid (gm_tol g) dy ->
  shift_section sh (shift_section sh g dx dy) ex ey = shift_section sh g (dx + ex) (dy + ey).
Proof.
  intros G P Gx Gy. assert (A : away (translate_pt dx dy) g).
  { apply (away_ext (axis_map 1 1 dx dy)); [intros v; symmetry; apply translate_axis|]. apply (axis_away sh); auto; apply grid_not_tie; assumption. }
  unfold shift_section. destruct (new_geometry_poly sh (map_polygon (translate_pt dx dy) (gm_poly g)) (gm_mat g) (option_map (translate_pt dx dy) (gm_assigned g)) (gm_tol g)) as (Q & M & C & T).
  rewrite Q, M, C, T, (away_keeps _ g A), map_polygon_map.
  destruct (geometry_points sh g G) as (Gr & _).
  assert (E : map_polygon (fun v => translate_pt ex ey (round_pt (gm_tol g) (translate_pt dx dy v))) (gm_poly g) = map_polygon (translate_pt (dx + ex) (dy + ey)) (gm_poly g)).
  { assert (E0 : forall l, Forall (pt_on_grid (gm_tol g)) l -> map (fun v => translate_pt ex ey (round_pt (gm_tol g) (translate_pt dx dy v))) l = map (translate_pt (dx + ex) (dy + ey)) l).
    { intros l Hl. apply map_ext_Forall. eapply Forall_impl; [|exact Hl]. intros v [Vx Vy]. rewrite round_pt_id.
      - unfold translate_pt. cbn [fst snd]. f_equal; ring.
      - split; apply grid_plus; assumption. }
    unfold poly_on_grid, rings in Gr. inversion Gr as [|x l He Hi]; subst. unfold map_polygon. f_equal; [apply E0, He|].
    apply map_ext_Forall. eapply Forall_impl; [|exact Hi]. intros l Hl. apply E0, Hl. }
  rewrite E. f_equal. destruct (gm_assigned g) as [c|]; [|reflexivity]. cbn [option_map]. f_equal. unfold translate_pt. cbn [fst snd]. f_equal; ring.
Qed.

(** ** Mirroring *)
Lemma mirror_back sh g axis p : axis = "x"%string \/ axis = "y"%string -> is_geometry sh g -> proper g ->
  (axis = "x"%string -> ~ tie (gm_tol g) (2 * snd p)) -> (axis = "y"%string -> ~ tie (gm_tol g) (2 * fst p)) ->
  mirror_section sh (mirror_section sh g axis (At p)) axis (At p) = g.
Proof.
  intros Ha G P Tx Ty. destruct (mirror_cases axis Ha) as (fx & fy & F & FX & FY & FF & SX & SY). unfold mirror_section. rewrite F. cbn [origin_of].
  assert (NX : ~ tie (gm_tol g) (fst p - fx * fst p)).
  { destruct SX as [-> | ->]; [replace (fst p - 1 * fst p) with 0 by ring; apply grid_not_tie, grid_0|]. replace (fst p - -1 * fst p) with (2 * fst p) by ring. apply Ty.
    destruct Ha as [-> | ->]; [|reflexivity]. cbn in F. injection F as F _. lra. }
  assert (NY : ~ tie (gm_tol g) (snd p - fy * snd p)).
  { destruct SY as [-> | ->]; [replace (snd p - 1 * snd p) with 0 by ring; apply grid_not_tie, grid_0|]. replace (snd p - -1 * snd p) with (2 * snd p) by ring. apply Tx.
    destruct Ha as [-> | ->]; [reflexivity|]. cbn in F. injection F as F1 F2. lra. }
  set (c1 := option_map _ (gm_assigned g)). destruct (new_geometry_poly sh (map_polygon (scale_pt fx fy p) (gm_poly g)) (gm_mat g) c1 (gm_tol g)) as (_ & _ & C & _).
  assert (Ec : option_map (fun c => scale_pt fx fy p c) (gm_assigned (new_geometry sh (map_polygon (scale_pt fx fy p) (gm_poly g)) (gm_mat g) c1 (gm_tol g))) = gm_assigned g).
  { rewrite C. unfold c1. destruct (gm_assigned g) as [c|]; [|reflexivity]. cbn [option_map]. f_equal. unfold scale_pt. cbn [fst snd]. rewrite (surjective_pairing c) at 3.
    f_equal; destruct SX as [-> | ->], SY as [-> | ->]; ring. }
  rewrite Ec. apply there_and_back; [exact G| |].
  - eapply away_ext; [|apply (axis_away sh g fx fy (fst p - fx * fst p) (snd p - fy * snd p)); assumption]. intros v. symmetry. apply scale_axis.
  - intros v Gv. rewrite <- (axis_back (gm_tol g) fx fy (fst p - fx * fst p) (snd p - fy * snd p) v) at 2 by assumption. rewrite !scale_axis. f_equal. unfold axis_map.
    f_equal; [destruct SX as [-> | ->]; ring|destruct SY as [-> | ->]; ring].
Qed.

(** ** Bounds *)
Lemma least_unique a b l : least a l -> least b l -> a = b.
Proof. intros [I A] [J B]. apply Rle_antisym; [apply A, J|apply B, I]. Qed.
Lemma greatest_unique a b l : greatest a l -> greatest b l -> a = b.
Proof. intros [I A] [J B]. apply Rle_antisym; [apply B, I|apply A, J]. Qed.
Lemma fold_min_least : forall l a, least (fold_left Rmin l a) (a :: l).
Proof.
  induction l as [|b l IH]; intros a; cbn [fold_left].
  - split; [left; reflexivity|]. intros x [<-|[]]. lra.
  - destruct (IH (Rmin a b)) as [I L]. split.
    + destruct I as [<-|I]; [|right; right; exact I]. unfold Rmin. destruct (Rle_dec a b); [left; reflexivity|right; left; reflexivity].
    + intros x [<-|[<-|H]]; [apply Rle_trans with (Rmin a b); [apply L; left; reflexivity|apply Rmin_l]|
        apply Rle_trans with (Rmin a b); [apply L; left; reflexivity|apply Rmin_r]|apply L; right; exact H].
Qed.
Lemma fold_max_greatest : forall l a, greatest (fold_left Rmax l a) (a :: l).
Proof.
  induction l as [|b l IH]; intros a; cbn [fold_left].
  - split; [left; reflexivity|]. intros x [<-|[]]. lra.
  - destruct (IH (Rmax a b)) as [I L]. split.
    + destruct I as [<-|I]; [|right; right; exact I]. unfold Rmax. destruct (Rle_dec a b); [right; left; reflexivity|left; reflexivity].
    + intros x [<-|[<-|H]]; [apply Rle_trans with (Rmax a b); [apply Rmax_l|apply L; left; reflexivity]|
        apply Rle_trans with (Rmax a b); [apply Rmax_r|apply L; left; reflexivity]|apply L; right; exact H].
Qed.
Definition side_index (s : side) : nat := match s with AtLeft => 0 | AtRight => 1 | AtBottom => 2 | AtTop => 3 end.
Lemma extents_extreme ps s : exterior_points ps <> [] -> extreme s (nth4 (extents ps) (side_index s)) (exterior_points ps).
Proof.
  intros N. unfold extents, bounds. change (concat (map ext ps)) with (exterior_points ps). destruct (exterior_points ps) as [|a l]; [contradiction|]. cbn [list_bounds].
  destruct s; cbn [extreme side_index nth4 map]; try apply fold_min_least; apply fold_max_greatest.
Qed.
Lemma extreme_unique s a b l : extreme s a l -> extreme s b l -> a = b.
Proof. destruct s; cbn; try apply least_unique; apply greatest_unique. Qed.

Lemma round_to_mono tol x y : x <= y -> round_to tol x <= round_to tol y.
Proof.
  intros L. unfold round_to. apply Rmult_le_compat_r; [apply Rlt_le, Rinv_0_lt_compat, pow10_pos|]. apply IZR_le.
  assert (H : x * 10 ^ tol <= y * 10 ^ tol) by (apply Rmult_le_compat_r; [pose proof (pow10_pos tol); lra|exact L]). revert H. generalize (x * 10 ^ tol) (y * 10 ^ tol). clear. intros x y H.
  pose proof (round_even_near x) as A. pose proof (round_even_near y) as B.
  destruct (Z_le_gt_dec (round_even x) (round_even y)) as [K|K]; [exact K|exfalso]. assert (K1 : (round_even y + 1 <= round_even x)%Z) by lia. apply IZR_le in K1. rewrite plus_IZR in K1.
  assert (A' : IZR (round_even x) - x <= 1 / 2) by (eapply Rle_trans; [apply Rle_abs|exact A]).
  assert (B' : y - IZR (round_even y) <= 1 / 2) by (eapply Rle_trans; [apply Rle_abs|]; rewrite Rabs_minus_sym; exact B).
  assert (E : x = y) by lra. subst y. lia.
Qed.

(** the extreme coordinate of the moved points *)
Lemma extreme_moved tol ox oy s m l : extreme s m l ->
  extreme s (round_to tol (m + if horizontal s then ox else oy)) (map (fun v => round_pt tol (translate_pt ox oy v)) l).
Proof.
  assert (Hm : forall (cs : pt -> R) o, (forall v, cs (round_pt tol (translate_pt ox oy v)) = round_to tol (cs v + o)) ->
    (least m (map cs l) -> least (round_to tol (m + o)) (map cs (map (fun v => round_pt tol (translate_pt ox oy v)) l))) /\
    (greatest m (map cs l) -> greatest (round_to tol (m + o)) (map cs (map (fun v => round_pt tol (translate_pt ox oy v)) l)))).
  { intros cs o E. rewrite map_map. split; intros [I L].
    - apply in_map_iff in I. destruct I as (v & Ev & Iv). split; [apply in_map_iff; exists v; rewrite E, Ev; split; [reflexivity|exact Iv]|].
      intros x Hx. apply in_map_iff in Hx. destruct Hx as (w & <- & Iw). rewrite E. apply round_to_mono. apply Rplus_le_compat_r, L, in_map, Iw.
    - apply in_map_iff in I. destruct I as (v & Ev & Iv). split; [apply in_map_iff; exists v; rewrite E, Ev; split; [reflexivity|exact Iv]|].
      intros x Hx. apply in_map_iff in Hx. destruct Hx as (w & <- & Iw). rewrite E. apply round_to_mono. apply Rplus_le_compat_r, L, in_map, Iw. }
  destruct s; cbn [extreme horizontal]; intros H; [apply (Hm fst ox)|apply (Hm fst ox)|apply (Hm snd oy)|apply (Hm snd oy)]; try exact H; reflexivity.
Qed.

(** ** align_to *)
Lemma align_offset_geometry self ps s inner : exists off,
  align_offset self (TGeometry ps) (side_name s) inner = Ok (if horizontal s then (off, 0) else (0, off)) /\
  off = nth4 (extents ps) (side_index s) - nth4 (extents self) (side_index (if inner then s else opposite s)).
Proof. destruct s, inner; cbn; eexists; split; reflexivity. Qed.
Lemma align_offset_point self p s : exists off,
  align_offset self (TPoint p) (side_name s) false = Ok (if horizontal s then (off, 0) else (0, off)) /\
  off = along s p - nth4 (extents self) (side_index (opposite s)).
Proof. destruct s; cbn; eexists; split; reflexivity. Qed.
Lemma align_offset_left self p : exists off,
  align_offset self (TPoint p) "left" true = Ok (off, 0) /\ off = fst p - nth4 (extents self) 0.
Proof. cbn. eexists; split; reflexivity. Qed.
Lemma aligned tol self s s' t e off : horizontal s' = horizontal s -> exterior_points self <> [] ->
  off = t - nth4 (extents self) (side_index s') ->
  let o := if horizontal s then (off, 0) else (0, off) in
  extreme s' e (map (fun v => round_pt tol (translate_pt (fst o) (snd o) v)) (exterior_points self)) -> e = round_to tol t.
Proof.
  intros Hh N E o X. pose proof (extreme_moved tol (fst o) (snd o) s' _ _ (extents_extreme self s' N)) as Y.
  rewrite (extreme_unique s' _ _ _ X Y). f_equal. rewrite Hh. unfold o. destruct (horizontal s); cbn [fst snd]; lra.
Qed.
Lemma rounded_spec tol e t : e = round_to tol t -> Rabs (e - t) <= half tol /\ (on_grid tol t -> e = t).
Proof. intros ->. split; [apply round_to_near|apply round_to_id]. Qed.
