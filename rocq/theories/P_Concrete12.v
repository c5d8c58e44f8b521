(** Bars in a column. *)
From Coq Require Import String Reals List Bool Arith ZArith Lra Lia Permutation.
From Verif Require Import Base M_Fea M_Init M_Bisect M_Geometry S_Geometry P_Geometry P_Geometry3 P_Geometry4 P_Geometry6 M_Library S_Library P_Library P_Library2 P_Library5 P_Library6 P_Library8 M_SetOps S_SetOps P_SetOps M_Concrete S_Concrete P_Concrete P_Concrete3 P_Concrete6 P_Concrete7 P_Concrete8 P_Concrete9 P_Concrete11.
Import ListNotations.
Local Open Scope R_scope.

Lemma extents_quad p X1 Y1 X2 Y2 : Permutation [(X1, Y1); (X2, Y1); (X2, Y2); (X1, Y2)] (ext p) -> X1 <= X2 -> Y1 <= Y2 -> extents [p] = (X1, X2, Y1, Y2).
Proof.
  intros P HX HY. assert (EP : exterior_points [p] = ext p) by (unfold exterior_points; cbn; apply app_nil_r).
  assert (N : exterior_points [p] <> []) by (rewrite EP; intros E; rewrite E in P; symmetry in P; apply Permutation_nil in P; discriminate).
  assert (L : forall q, In q (ext p) <-> q = (X1, Y1) \/ q = (X2, Y1) \/ q = (X2, Y2) \/ q = (X1, Y2)).
  { intros q. split; [intros I; apply (Permutation_in _ (Permutation_sym P)) in I; cbn in I; intuition congruence|intros I; apply (Permutation_in _ P); cbn; intuition congruence]. }
  assert (K1 : nth4 (extents [p]) 0 = X1). { apply (extreme_unique AtLeft _ _ (ext p)); [rewrite <- EP; apply (extents_extreme [p] AtLeft N)|]. split; [apply in_map_iff; exists (X1, Y1); split; [reflexivity|apply L; auto]|]. intros x Hx. apply in_map_iff in Hx as (q & <- & Hq). apply L in Hq as [->|[->|[->| ->]]]; cbn; lra. }
  assert (K2 : nth4 (extents [p]) 1 = X2). { apply (extreme_unique AtRight _ _ (ext p)); [rewrite <- EP; apply (extents_extreme [p] AtRight N)|]. split; [apply in_map_iff; exists (X2, Y1); split; [reflexivity|apply L; auto]|]. intros x Hx. apply in_map_iff in Hx as (q & <- & Hq). apply L in Hq as [->|[->|[->| ->]]]; cbn; lra. }
  assert (K3 : nth4 (extents [p]) 2 = Y1). { apply (extreme_unique AtBottom _ _ (ext p)); [rewrite <- EP; apply (extents_extreme [p] AtBottom N)|]. split; [apply in_map_iff; exists (X1, Y1); split; [reflexivity|apply L; auto]|]. intros x Hx. apply in_map_iff in Hx as (q & <- & Hq). apply L in Hq as [->|[->|[->| ->]]]; cbn; lra. }
  assert (K4 : nth4 (extents [p]) 3 = Y2). { apply (extreme_unique AtTop _ _ (ext p)); [rewrite <- EP; apply (extents_extreme [p] AtTop N)|]. split; [apply in_map_iff; exists (X1, Y2); split; [reflexivity|apply L; auto]|]. intros x Hx. apply in_map_iff in Hx as (q & <- & Hq). apply L in Hq as [->|[->|[->| ->]]]; cbn; lra. }
  destruct (extents [p]) as [[[a b] c] e]. cbn in K1, K2, K3, K4. subst. reflexivity.
Qed.
(** the offset of the rectangle *)
Lemma column_offset sh so g q conc X1 Y1 X2 Y2 t : insets so -> g = new_geometry sh q conc None 12 -> gm_poly g = quad false X1 Y1 X2 Y2 -> 0 < t -> X1 + 2 * t + 10 * h < X2 -> Y1 + 2 * t < Y2 ->
  exists o, offset_perimeter sh so g (- t) "exterior" 12 = Ok o /\ item_extents o = (round_to 12 (X1 + t), round_to 12 (X2 - t), round_to 12 (Y1 + t), round_to 12 (Y2 - t)).
Proof.
  intros I EG P Ht WX WY. pose proof h_pos as Hh. destruct (I ((X1, Y1), (X2, Y2)) t 12%nat Ht ltac:(cbn [fst snd]; lra) ltac:(cbn [fst snd]; lra)) as (p & E & S & N).
  unfold offset_perimeter. cbn [String.eqb Ascii.eqb Bool.eqb]. rewrite P. unfold quad. cbn [ext ints fold_left]. unfold buffer_polygon. unfold outline in E. rewrite E. cbn [of_polygonal offset_finish]. eexists. split; [reflexivity|].
  unfold keep_control. rewrite EG. destruct (new_geometry_poly sh q conc None 12) as (_ & M & C & T). rewrite M, C, T. unfold item_extents. cbn [item_polys]. destruct (new_geometry_poly sh p conc None 12) as (-> & _).
  apply same_vertices in S. unfold outline, shrunk in S. cbn [fst snd] in S.
  rewrite round_keep.
  - apply extents_quad; [|apply round_to_mono; lra|apply round_to_mono; lra]. unfold map_polygon. cbn [ext]. apply (Permutation_map (round_pt 12)) in S. exact S.
  - destruct (far (X1 + t) (X2 - t) ltac:(lra)) as [K|K]; [exists (X1 + t, Y1 + t)|exists (X2 - t, Y1 + t)]; (split; [apply (Permutation_in _ S); cbn; auto|left; exact K]).
Qed.
(** ** The points *)
Definition spot (x1 x2 y1 y2 : R) (n_x n_y : nat) (ij : nat * nat) : pt := (x1 + INR (fst ij) * ((x2 - x1) / (INR n_x - 1)), y1 + INR (snd ij) * ((y2 - y1) / (INR n_y - 1))).
Lemma linspace_is a b n : (2 <= n)%nat -> linspace a b (Z.of_nat n) = Ok (map (fun i => a + INR i * ((b - a) / (INR n - 1))) (seq 0 n)).
Proof.
  intros H. unfold linspace. destruct (Z.ltb_spec (Z.of_nat n) 0) as [L|_]; [lia|]. rewrite Nat2Z.id. f_equal. apply map_ext. intros i. destruct (Z.eqb_spec (Z.of_nat n) 1) as [L|_]; [lia|]. rewrite minus_IZR, <- INR_IZR_INZ. reflexivity.
Qed.
Lemma spot_last x1 x2 y1 y2 n_x n_y i j : (2 <= n_x)%nat -> (2 <= n_y)%nat -> spot x1 x2 y1 y2 n_x n_y (pred n_x, j) = (x2, snd (spot x1 x2 y1 y2 n_x n_y (i, j))) /\ spot x1 x2 y1 y2 n_x n_y (i, pred n_y) = (fst (spot x1 x2 y1 y2 n_x n_y (i, j)), y2).
Proof.
  intros Hx Hy. assert (X : 2 <= INR n_x) by (apply le_INR in Hx; cbn in Hx; lra). assert (Y : 2 <= INR n_y) by (apply le_INR in Hy; cbn in Hy; lra). unfold spot. cbn [fst snd].
  replace (INR (pred n_x)) with (INR n_x - 1) by (rewrite <- Nat.sub_1_r, minus_INR by lia; reflexivity). replace (INR (pred n_y)) with (INR n_y - 1) by (rewrite <- Nat.sub_1_r, minus_INR by lia; reflexivity).
  split; f_equal; field; lra.
Qed.
Lemma spot_first x1 x2 y1 y2 n_x n_y i j : spot x1 x2 y1 y2 n_x n_y (0%nat, j) = (x1, snd (spot x1 x2 y1 y2 n_x n_y (i, j))) /\ spot x1 x2 y1 y2 n_x n_y (i, 0%nat) = (fst (spot x1 x2 y1 y2 n_x n_y (i, j)), y1).
Proof. unfold spot. cbn [fst snd INR]. split; f_equal; ring. Qed.
Lemma spot_inj x1 x2 y1 y2 n_x n_y a b : (2 <= n_x)%nat -> (2 <= n_y)%nat -> x1 < x2 -> y1 < y2 -> spot x1 x2 y1 y2 n_x n_y a = spot x1 x2 y1 y2 n_x n_y b -> a = b.
Proof.
  intros Hx Hy LX LY. assert (X : 2 <= INR n_x) by (apply le_INR in Hx; cbn in Hx; lra). assert (Y : 2 <= INR n_y) by (apply le_INR in Hy; cbn in Hy; lra). unfold spot. destruct a as [i j], b as [k l]. cbn [fst snd]. intros E. injection E as E1 E2.
  assert (S1 : 0 < (x2 - x1) / (INR n_x - 1)) by (apply Rdiv_lt_0_compat; lra). assert (S2 : 0 < (y2 - y1) / (INR n_y - 1)) by (apply Rdiv_lt_0_compat; lra).
  f_equal; apply INR_eq; [apply (Rmult_eq_reg_r ((x2 - x1) / (INR n_x - 1)))|apply (Rmult_eq_reg_r ((y2 - y1) / (INR n_y - 1)))]; lra.
Qed.
Definition border (n_x n_y : nat) : list (nat * nat) :=
  map (fun i => (i, 0%nat)) (seq 0 n_x) ++ map (fun i => (i, pred n_y)) (seq 0 n_x) ++ map (fun j => (0%nat, j)) (seq 1 (n_y - 2)) ++ map (fun j => (pred n_x, j)) (seq 1 (n_y - 2)).
Lemma nodup_map {A B} (f : A -> B) l : (forall a b, In a l -> In b l -> f a = f b -> a = b) -> NoDup l -> NoDup (map f l).
Proof.
  intros F N. induction N as [|a l I N IH]; [constructor|]. cbn [map]. constructor; [|apply IH; intros; apply F; try (right; assumption); assumption]. intros J. apply in_map_iff in J as (b & E & K). apply I. rewrite (F a b); [exact K|left; reflexivity|right; exact K|symmetry; exact E].
Qed.
Lemma nodup_app {A} (l m : list A) : NoDup l -> NoDup m -> (forall x, In x l -> ~ In x m) -> NoDup (l ++ m).
Proof. intros L M D. induction L as [|a l I L IH]; [exact M|]. cbn [app]. constructor; [intros J; apply in_app_or in J as [J|J]; [contradiction|apply (D a); [left; reflexivity|exact J]]|]. apply IH. intros x X. apply D. right. exact X. Qed.
Lemma border_in n_x n_y ij : (2 <= n_x)%nat -> (2 <= n_y)%nat -> In ij (border n_x n_y) <-> (fst ij < n_x)%nat /\ (snd ij < n_y)%nat /\ on_border n_x n_y ij.
Proof.
  intros Hx Hy. destruct ij as [i j]. unfold border, on_border. rewrite !in_app_iff, !in_map_iff. cbn [fst snd]. split.
  - intros [(k & E & K)|[(k & E & K)|[(k & E & K)|(k & E & K)]]]; injection E as <- <-; apply in_seq in K; lia.
  - intros (A & B & C). destruct (Nat.eq_dec j 0) as [->|J0]; [left; exists i; split; [reflexivity|apply in_seq; lia]|]. destruct (Nat.eq_dec j (pred n_y)) as [->|J1]; [right; left; exists i; split; [reflexivity|apply in_seq; lia]|].
    destruct (Nat.eq_dec i 0) as [->|I0]; [right; right; left; exists j; split; [reflexivity|apply in_seq; lia]|]. right; right; right. exists j. split; [f_equal; lia|apply in_seq; lia].
Qed.
Lemma border_nodup n_x n_y : (2 <= n_x)%nat -> (2 <= n_y)%nat -> NoDup (border n_x n_y).
Proof.
  intros Hx Hy. unfold border. repeat apply nodup_app; try (apply nodup_map; [intros a b _ _ E; congruence|apply seq_NoDup]); intros [i j] K L; rewrite ?in_app_iff, ?in_map_iff in *;
    repeat match goal with H : _ \/ _ |- _ => destruct H | H : exists _, _ |- _ => destruct H as (? & H) | H : _ /\ _ |- _ => destruct H end;
    repeat match goal with H : (_, _) = (_, _) |- _ => injection H as ? ? end; subst; repeat match goal with H : In _ (seq _ _) |- _ => apply in_seq in H end; lia.
Qed.
Lemma border_length n_x n_y : (2 <= n_x)%nat -> (2 <= n_y)%nat -> length (border n_x n_y) = (2 * n_x + 2 * n_y - 4)%nat.
Proof. intros Hx Hy. unfold border. rewrite !app_length, !map_length, !seq_length. lia. Qed.
Definition all_spots (n_x n_y : nat) : list (nat * nat) := concat (map (fun j => map (fun i => (i, j)) (seq 0 n_x)) (seq 0 n_y)).
Lemma all_in n_x n_y ij : In ij (all_spots n_x n_y) <-> (fst ij < n_x)%nat /\ (snd ij < n_y)%nat.
Proof.
  destruct ij as [i j]. unfold all_spots. rewrite in_concat. cbn [fst snd]. split.
  - intros (l & L & I). apply in_map_iff in L as (k & <- & K). apply in_map_iff in I as (m & E & M). injection E as -> ->. apply in_seq in K, M. lia.
  - intros [A B]. exists (map (fun i => (i, j)) (seq 0 n_x)). split; [apply in_map_iff; exists j; split; [reflexivity|apply in_seq; lia]|apply in_map_iff; exists i; split; [reflexivity|apply in_seq; lia]].
Qed.
Lemma all_nodup n_x n_y : NoDup (all_spots n_x n_y).
Proof.
  unfold all_spots. assert (G : forall m s, NoDup (concat (map (fun j => map (fun i => (i, j)) (seq 0 n_x)) (seq s m)))); [|apply G]. induction m as [|m IH]; intros s; [constructor|]. cbn [seq map concat]. apply nodup_app.
  - apply nodup_map; [intros a b _ _ E; congruence|apply seq_NoDup]. - apply IH.
  - intros [i j] I J. apply in_map_iff in I as (k & E & _). injection E as -> <-. apply in_concat in J as (l & L & J). apply in_map_iff in L as (t & <- & T). apply in_map_iff in J as (u & E & _). injection E as -> ->. apply in_seq in T. lia.
Qed.
Lemma all_length n_x n_y : length (all_spots n_x n_y) = (n_x * n_y)%nat.
Proof. unfold all_spots. assert (G : forall m s, length (concat (map (fun j => map (fun i => (i, j)) (seq 0 n_x)) (seq s m))) = (n_x * m)%nat); [|apply G]. induction m as [|m IH]; intros s; [cbn; lia|]. cbn [seq map concat]. rewrite app_length, map_length, seq_length, IH. lia. Qed.
Lemma column_points order x1 x2 y1 y2 n_x n_y filled : (forall l, Permutation l (order l)) -> (2 <= n_x)%nat -> (2 <= n_y)%nat -> x1 < x2 -> y1 < y2 ->
  exists ijs, column_bars order (x1, x2, y1, y2) n_x n_y filled = Ok (map (spot x1 x2 y1 y2 n_x n_y) ijs) /\ NoDup ijs /\ (forall ij, In ij ijs <-> wanted filled n_x n_y ij) /\ length ijs = how_many filled n_x n_y.
Proof.
  intros O Hx Hy LX LY. unfold column_bars. rewrite !linspace_is by assumption. cbn [bind]. set (P := spot x1 x2 y1 y2 n_x n_y). destruct filled.
  - exists (all_spots n_x n_y). split; [|split; [apply all_nodup|split; [intros ij; rewrite all_in; unfold wanted; tauto|apply all_length]]]. f_equal. unfold for_y_x, all_spots, row. rewrite concat_map, !map_map. f_equal. apply map_ext. intros j. rewrite !map_map. reflexivity.
  - set (l := row _ _ ++ _).
    assert (M : forall p, In p l <-> In p (map P (border n_x n_y))).
    { intros p. unfold l, row, col. rewrite !in_app_iff, !in_map_iff. split.
      - intros K. assert (exists ij, p = P ij /\ (fst ij < n_x)%nat /\ (snd ij < n_y)%nat /\ on_border n_x n_y ij).
        { destruct K as [(x & <- & X)|[(x & <- & X)|[(x & <- & X)|(x & <- & X)]]]; apply in_map_iff in X as (i & <- & I); apply in_seq in I.
          - exists (i, pred n_y). split; [unfold P; rewrite (proj2 (spot_last x1 x2 y1 y2 n_x n_y i 0 Hx Hy)); reflexivity|]. unfold on_border. cbn [fst snd]. lia.
          - exists (i, 0%nat). split; [unfold P; rewrite (proj2 (spot_first x1 x2 y1 y2 n_x n_y i 0)); reflexivity|]. unfold on_border. cbn [fst snd]. lia.
          - exists (pred n_x, i). split; [unfold P; rewrite (proj1 (spot_last x1 x2 y1 y2 n_x n_y 0 i Hx Hy)); reflexivity|]. unfold on_border. cbn [fst snd]. lia.
          - exists (0%nat, i). split; [unfold P; rewrite (proj1 (spot_first x1 x2 y1 y2 n_x n_y 0 i)); reflexivity|]. unfold on_border. cbn [fst snd]. lia. }
        destruct H as (ij & -> & H). exists ij. split; [reflexivity|]. apply border_in; assumption.
      - intros (ij & <- & I). apply border_in in I as (A & B & C); [|assumption|assumption]. destruct ij as [i j]. cbn [fst snd] in *. unfold on_border in C. cbn [fst snd] in C. destruct C as [->|[E|[->|E]]].
        + right; right; right. exists (y1 + INR j * ((y2 - y1) / (INR n_y - 1))). split; [unfold P; rewrite (proj1 (spot_first x1 x2 y1 y2 n_x n_y 0 j)); reflexivity|]. apply in_map_iff. exists j. split; [reflexivity|apply in_seq; lia].
        + right; right; left. exists (y1 + INR j * ((y2 - y1) / (INR n_y - 1))). split; [replace i with (pred n_x) by lia; unfold P; rewrite (proj1 (spot_last x1 x2 y1 y2 n_x n_y 0 j Hx Hy)); reflexivity|]. apply in_map_iff. exists j. split; [reflexivity|apply in_seq; lia].
        + right; left. exists (x1 + INR i * ((x2 - x1) / (INR n_x - 1))). split; [unfold P; rewrite (proj2 (spot_first x1 x2 y1 y2 n_x n_y i 0)); reflexivity|]. apply in_map_iff. exists i. split; [reflexivity|apply in_seq; lia].
        + left. exists (x1 + INR i * ((x2 - x1) / (INR n_x - 1))). split; [replace j with (pred n_y) by lia; unfold P; rewrite (proj2 (spot_last x1 x2 y1 y2 n_x n_y i 0 Hx Hy)); reflexivity|]. apply in_map_iff. exists i. split; [reflexivity|apply in_seq; lia]. }
    assert (Q : Permutation (order (add_points [] l)) (map P (border n_x n_y))).
    { etransitivity; [symmetry; apply O|]. apply NoDup_Permutation; [apply add_points_nodup; constructor|apply nodup_map; [intros a b _ _; apply spot_inj; assumption|apply border_nodup; assumption]|]. intros p. rewrite add_points_in, M. cbn. tauto. }
    apply Permutation_map_inv in Q as (ijs & E & Q). exists ijs. rewrite E. split; [reflexivity|]. split; [eapply Permutation_NoDup; [exact Q|apply border_nodup; assumption]|]. split.
    + intros ij. unfold wanted. split.
      * intros I. apply (Permutation_in _ (Permutation_sym Q)) in I. apply border_in in I; [|assumption|assumption]. tauto.
      * intros (A & B & [C|C]); [discriminate|]. apply (Permutation_in _ Q). apply border_in; tauto.
    + rewrite <- (Permutation_length Q). apply border_length; assumption.
Qed.
Lemma spot_clear n area x1 x2 y1 y2 n_x n_y ijs : (2 <= n_x)%nat -> (2 <= n_y)%nat -> 2 * circumradius n area + tiny <= (x2 - x1) / (INR n_x - 1) -> 2 * circumradius n area + tiny <= (y2 - y1) / (INR n_y - 1) -> NoDup ijs ->
  ForallOrdPairs (clear_of n) (bars_at area (fun _ => 0%nat) (map (spot x1 x2 y1 y2 n_x n_y) ijs)).
Proof.
  intros Hx Hy CX CY N. pose proof (circum_pos n area) as Z. assert (T : 0 < tiny) by (rewrite h_tiny; pose proof h_pos; lra). induction N as [|a ijs I N IH]; [constructor|]. cbn [map bars_at]. constructor; [|exact IH].
  unfold bars_at. apply Forall_map, Forall_map, Forall_forall. intros b B. unfold clear_of. cbn [rb_at rb_area]. assert (AB : a <> b) by (intros ->; contradiction).
  destruct a as [i j], b as [k m]. unfold spot, distance. cbn [fst snd].
  assert (G : forall u v s, u <> v -> 0 < s -> s ^ 2 <= ((INR u - INR v) * s) ^ 2).
  { intros u v s UV S. assert (1 <= (INR u - INR v) ^ 2). { destruct (Nat.lt_total u v) as [L|[L|L]]; [|contradiction|]; [assert (INR u + 1 <= INR v) by (rewrite <- S_INR; apply le_INR; lia)|assert (INR v + 1 <= INR u) by (rewrite <- S_INR; apply le_INR; lia)]; nra. }
    replace (((INR u - INR v) * s) ^ 2) with ((INR u - INR v) ^ 2 * s ^ 2) by ring. pose proof (pow2_ge_0 s). nra. }
  set (sx := (x2 - x1) / (INR n_x - 1)) in *. set (sy := (y2 - y1) / (INR n_y - 1)) in *.
  apply (Rle_trans _ (2 * circumradius n area + tiny)); [lra|]. rewrite <- (sqrt_pow2 (2 * circumradius n area + tiny)) by lra. apply sqrt_le_1_alt.
  destruct (Nat.eq_dec i k) as [E|NE].
  - assert (JM : m <> j) by congruence. pose proof (G m j sy JM ltac:(lra)). replace (y1 + INR m * sy - (y1 + INR j * sy)) with ((INR m - INR j) * sy) by ring. pose proof (pow2_ge_0 (x1 + INR k * sx - (x1 + INR i * sx))). assert ((2 * circumradius n area + tiny) ^ 2 <= sy ^ 2) by (apply pow_incr; lra). lra.
  - pose proof (G k i sx ltac:(congruence) ltac:(lra)). replace (x1 + INR k * sx - (x1 + INR i * sx)) with ((INR k - INR i) * sx) by ring. pose proof (pow2_ge_0 (y1 + INR m * sy - (y1 + INR j * sy))). assert ((2 * circumradius n area + tiny) ^ 2 <= sx ^ 2) by (apply pow_incr; lra). lra.
Qed.
Lemma spot_between a b i n : (2 <= n)%nat -> (i < n)%nat -> a <= b -> a <= a + INR i * ((b - a) / (INR n - 1)) <= b.
Proof.
  intros H I L. assert (N : 2 <= INR n) by (apply le_INR in H; cbn in H; lra). assert (K : INR i + 1 <= INR n) by (rewrite <- S_INR; apply le_INR; lia). pose proof (pos_INR i). replace (a + INR i * ((b - a) / (INR n - 1))) with (a + INR i / (INR n - 1) * (b - a)) by (field; lra).
  assert (0 <= INR i / (INR n - 1) <= 1). { split; [apply Rmult_le_pos; [lra|apply Rlt_le, Rinv_0_lt_compat; lra]|]. apply (Rmult_le_reg_r (INR n - 1)); [lra|]. replace (INR i / (INR n - 1) * (INR n - 1)) with (INR i) by (field; lra). lra. } nra.
Qed.
(** what the rest of the program makes of the points *)
Lemma column_core sh so order d b dia_bar area_bar n_x n_y cover n filled conc steel : cuts so -> insets so -> (3 <= n)%nat -> 1 / 10 ^ 20 <= area_bar ->
  let m := cover + dia_bar / 2 in let r := circumradius n area_bar in
  r + 2 * tiny <= m -> 2 * r + 2 * tiny <= b - 2 * m -> 2 * r + 2 * tiny <= d - 2 * m ->
  exists x1 x2 y1 y2, m - 2 * h <= x1 <= m + 2 * h /\ b - m - 2 * h <= x2 <= b - m + 2 * h /\ m - 2 * h <= y1 <= m + 2 * h /\ d - m - 2 * h <= y2 <= d - m + 2 * h /\
  forall pts, column_bars order (x1, x2, y1, y2) n_x n_y filled = Ok pts -> pts <> [] -> Forall (fun p => x1 <= fst p <= x2 /\ y1 <= snd p <= y2) pts -> ForallOrdPairs (clear_of n) (bars_at area_bar (fun _ => 0%nat) pts) ->
  exists c, concrete_column_section sh so order d b dia_bar area_bar n_x n_y cover n filled conc steel = Ok c /\ cast [outline ((0, 0), (b, d))] conc steel n (bars_at area_bar (fun _ => 0%nat) pts) c.
Proof.
  intros U IN Hn Ha m r W BX BY. pose proof h_pos as Hh. pose proof (circum_pos n area_bar) as Z. fold r in Z. rewrite h_tiny in *.
  destruct (rect_made sh d b conc) as (g & G & RN); [rewrite h_tiny; lra|rewrite h_tiny; lra|]. unfold concrete_column_section. rewrite G. cbn [bind].
  assert (Q0 : exists q, g = new_geometry sh q conc None 12). { unfold rectangular_section, polygon_geometry in G. destruct (make_polygon _) as [q|]; [|discriminate]. cbn [bind] in G. injection G as <-. eauto. }
  destruct Q0 as (q & EG). rewrite EG in RN. destruct (rn_cut sh h 0 0 b d conc q RN ltac:(lra)) as (X1 & Y1 & X2 & Y2 & Q & B1 & B2 & B3 & B4).
  assert (PG : exists X1 Y1 X2 Y2, gm_poly g = quad false X1 Y1 X2 Y2 /\ 0 - h <= X1 <= 0 + h /\ 0 - h <= Y1 <= 0 + h /\ b - h <= X2 <= b + h /\ d - h <= Y2 <= d + h) by (rewrite EG; apply RN).
  destruct PG as (A1 & E1 & A2 & E2 & PG & H1 & H2 & H3 & H4).
  destruct (column_offset sh so g q conc A1 E1 A2 E2 m IN EG PG ltac:(lra) ltac:(lra) ltac:(lra)) as (o & EO & XO). replace (- cover - dia_bar / 2) with (- m) by (unfold m; lra). rewrite EO. cbn [bind]. rewrite XO.
  pose proof (round_h (A1 + m)) as R1. pose proof (round_h (A2 - m)) as R2. pose proof (round_h (E1 + m)) as R3. pose proof (round_h (E2 - m)) as R4.
  set (x1 := round_to 12 (A1 + m)) in *. set (x2 := round_to 12 (A2 - m)) in *. set (y1 := round_to 12 (E1 + m)) in *. set (y2 := round_to 12 (E2 - m)) in *.
  exists x1, x2, y1, y2. repeat (split; [lra|]). intros pts EP NE RG CL. rewrite EP. cbn [bind].
  apply (run_one sh so n [ext (quad false X1 Y1 X2 Y2)] [outline ((0, 0), (b, d))] conc steel area_bar pts (fun _ => 0%nat) (ISingle g) U Hn).
  - constructor; [|constructor]. apply (rect_outline h); (lra || assumption).
  - rewrite EG. unfold state. cbn. constructor; [exact Q|constructor].
  - exact NE.
  - unfold bars_at. apply Forall_map. eapply Forall_impl; [|exact RG]. intros p [G1 G2]. split; [cbn; lia|]. split; [exact Ha|]. intros l Rl k s E. destruct k as [|k]; [|destruct k; discriminate]. injection E as <-. cbn [rb_body rb_at rb_area Nat.eqb] in *. fold r in Rl.
    eapply inside_quad; [exact Rl|..]; lra.
  - exact CL.
Qed.
Lemma column_made sh so order d b dia_bar area_bar n_x n_y cover n filled conc steel : cuts so -> insets so -> (forall l, Permutation l (order l)) -> (3 <= n)%nat -> (2 <= n_x)%nat -> (2 <= n_y)%nat -> 1 / 10 ^ 20 <= area_bar ->
  let m := cover + dia_bar / 2 in let r := circumradius n area_bar in
  r + 2 * tiny <= m -> 2 * r + 2 * tiny <= (b - 2 * m) / (INR n_x - 1) -> 2 * r + 2 * tiny <= (d - 2 * m) / (INR n_y - 1) ->
  exists ijs pts c, concrete_column_section sh so order d b dia_bar area_bar n_x n_y cover n filled conc steel = Ok c /\
    NoDup ijs /\ (forall ij, In ij ijs <-> wanted filled n_x n_y ij) /\ length ijs = how_many filled n_x n_y /\
    Forall2 close (map (lattice n_x n_y ((m, m), (b - m, d - m))) ijs) pts /\ cast [outline ((0, 0), (b, d))] conc steel n (bars_at area_bar (fun _ => 0%nat) pts) c.
Proof.
  intros U IN O Hn Hx Hy Ha m r W CX CY. pose proof h_pos as Hh. pose proof (circum_pos n area_bar) as Z. fold r in Z. pose proof h_tiny as HT. assert (X : 2 <= INR n_x) by (apply le_INR in Hx; cbn in Hx; lra). assert (Y : 2 <= INR n_y) by (apply le_INR in Hy; cbn in Hy; lra).
  assert (DX : (2 * r + 2 * tiny) * (INR n_x - 1) <= b - 2 * m). { apply (Rmult_le_compat_r (INR n_x - 1)) in CX; [|lra]. replace ((b - 2 * m) / (INR n_x - 1) * (INR n_x - 1)) with (b - 2 * m) in CX by (field; lra). exact CX. }
  assert (DY : (2 * r + 2 * tiny) * (INR n_y - 1) <= d - 2 * m). { apply (Rmult_le_compat_r (INR n_y - 1)) in CY; [|lra]. replace ((d - 2 * m) / (INR n_y - 1) * (INR n_y - 1)) with (d - 2 * m) in CY by (field; lra). exact CY. }
  assert (BX : 2 * r + 2 * tiny <= b - 2 * m) by nra. assert (BY : 2 * r + 2 * tiny <= d - 2 * m) by nra.
  destruct (column_core sh so order d b dia_bar area_bar n_x n_y cover n filled conc steel U IN Hn Ha W BX BY) as (x1 & x2 & y1 & y2 & R1 & R2 & R3 & R4 & K). fold m in R1, R2, R3, R4.
  destruct (column_points order x1 x2 y1 y2 n_x n_y filled O Hx Hy ltac:(lra) ltac:(lra)) as (ijs & EI & NI & WI & LI).
  destruct (K _ EI) as (c & EC & CC).
  - intros N. apply map_eq_nil in N. subst ijs. cbn in LI. unfold how_many in LI. destruct filled; nia.
  - apply Forall_map, Forall_forall. intros ij I. apply WI in I as (I1 & I2 & _). split; apply spot_between; (assumption || lra).
  - apply spot_clear; try assumption; fold r.
    + apply (Rmult_le_reg_r (INR n_x - 1)); [lra|]. replace ((x2 - x1) / (INR n_x - 1) * (INR n_x - 1)) with (x2 - x1) by (field; lra). assert (0 <= tiny * (INR n_x - 2)) by (apply Rmult_le_pos; lra). lra.
    + apply (Rmult_le_reg_r (INR n_y - 1)); [lra|]. replace ((y2 - y1) / (INR n_y - 1) * (INR n_y - 1)) with (y2 - y1) by (field; lra). assert (0 <= tiny * (INR n_y - 2)) by (apply Rmult_le_pos; lra). lra.
  - exists ijs, (map (spot x1 x2 y1 y2 n_x n_y) ijs), c. split; [exact EC|]. split; [exact NI|]. split; [exact WI|]. split; [exact LI|]. split; [|exact CC].
    assert (IN2 : Forall (wanted filled n_x n_y) ijs) by (apply Forall_forall; intros ij; apply WI). clear - IN2 R1 R2 R3 R4 X Y Hh. induction IN2 as [|[i j] ijs (I1 & I2 & _) F IH]; cbn [map]; constructor; [|exact IH]. unfold close, lattice, spot. cbn [fst snd] in *. rewrite h_close.
    assert (K : forall k n u v u' v' : R, 0 <= k -> k <= n -> 0 < n -> u - 2 * h <= u' <= u + 2 * h -> v - 2 * h <= v' <= v + 2 * h -> Rabs (u' + k * ((v' - u') / n) - (u + k / n * (v - u))) <= 20 * h).
    { intros k n0 u v u' v' K0 K1 N0 A B. replace (u' + k * ((v' - u') / n0) - (u + k / n0 * (v - u))) with ((1 - k / n0) * (u' - u) + k / n0 * (v' - v)) by (field; lra).
      assert (T : 0 <= k / n0 <= 1). { split; [apply Rmult_le_pos; [lra|apply Rlt_le, Rinv_0_lt_compat; lra]|]. apply (Rmult_le_reg_r n0); [lra|]. replace (k / n0 * n0) with k by (field; lra). lra. } set (t := k / n0) in *. apply Rabs_le. split; nra. }
    assert (INR i + 1 <= INR n_x) by (rewrite <- S_INR; apply le_INR; lia). assert (INR j + 1 <= INR n_y) by (rewrite <- S_INR; apply le_INR; lia). pose proof (pos_INR i). pose proof (pos_INR j).
    split; apply K; lra.
Qed.
(** one row only, with the inside filled: every bar is at the left cover *)
Lemma column_one_row sh so order d b dia_bar area_bar n_y cover n conc steel : cuts so -> insets so -> (3 <= n)%nat -> (2 <= n_y)%nat -> 1 / 10 ^ 20 <= area_bar ->
  let m := cover + dia_bar / 2 in let r := circumradius n area_bar in
  r + 2 * tiny <= m -> 2 * r + 2 * tiny <= b - 2 * m -> 2 * r + 2 * tiny <= (d - 2 * m) / (INR n_y - 1) ->
  exists pts c, concrete_column_section sh so order d b dia_bar area_bar 1 n_y cover n true conc steel = Ok c /\ length pts = n_y /\
    Forall (fun p => Rabs (fst p - m) <= 1 / 10 ^ 11) pts /\ cast [outline ((0, 0), (b, d))] conc steel n (bars_at area_bar (fun _ => 0%nat) pts) c.
Proof.
  intros U IN Hn Hy Ha m r W BX CY. pose proof h_pos as Hh. pose proof (circum_pos n area_bar) as Z. fold r in Z. pose proof h_tiny as HT. assert (Y : 2 <= INR n_y) by (apply le_INR in Hy; cbn in Hy; lra).
  assert (DY : (2 * r + 2 * tiny) * (INR n_y - 1) <= d - 2 * m). { apply (Rmult_le_compat_r (INR n_y - 1)) in CY; [|lra]. replace ((d - 2 * m) / (INR n_y - 1) * (INR n_y - 1)) with (d - 2 * m) in CY by (field; lra). exact CY. }
  assert (BY : 2 * r + 2 * tiny <= d - 2 * m) by nra.
  destruct (column_core sh so order d b dia_bar area_bar 1 n_y cover n true conc steel U IN Hn Ha W BX BY) as (x1 & x2 & y1 & y2 & R1 & R2 & R3 & R4 & K). fold m in R1, R2, R3, R4.
  set (pts := map (spot x1 x2 y1 y2 2 n_y) (map (fun j => (0%nat, j)) (seq 0 n_y))).
  assert (FX : Forall (fun p => fst p = x1 /\ y1 <= snd p <= y2) pts). { apply Forall_map, Forall_map, Forall_forall. intros j J. apply in_seq in J. unfold spot. cbn [fst snd INR]. split; [ring|]. apply spot_between; (assumption || lra || lia). }
  destruct (K pts) as (c & EC & CC).
  - unfold column_bars. rewrite (linspace_is y1 y2 n_y Hy). change (linspace x1 x2 (Z.of_nat 1)) with (Ok [x1]). cbn [bind]. f_equal. unfold for_y_x, row, pts. cbn [map]. rewrite !map_map. unfold spot. cbn [fst snd INR].
    clear. induction (seq 0 n_y) as [|j L IH]; [reflexivity|]. cbn [map concat app]. f_equal; [|exact IH]. f_equal. ring.
  - unfold pts. destruct n_y; [lia|discriminate].
  - eapply Forall_impl; [|exact FX]. intros p [E1 E2]. cbv beta in *. lra.
  - apply spot_clear; [lia|exact Hy| | |apply nodup_map; [intros a a' _ _ E; congruence|apply seq_NoDup]]; fold r.
    + cbn [INR]. replace ((x2 - x1) / (1 + 1 - 1)) with (x2 - x1) by field. lra.
    + apply (Rmult_le_reg_r (INR n_y - 1)); [lra|]. replace ((y2 - y1) / (INR n_y - 1) * (INR n_y - 1)) with (y2 - y1) by (field; lra). assert (0 <= tiny * (INR n_y - 2)) by (apply Rmult_le_pos; lra). lra.
  - exists pts, c. split; [exact EC|]. split; [unfold pts; rewrite !map_length, seq_length; reflexivity|]. split; [|exact CC]. eapply Forall_impl; [|exact FX]. intros p [E1 _]. cbv beta. rewrite E1, h_close. apply Rabs_le. lra.
Qed.
