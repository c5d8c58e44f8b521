(** Proofs about library outlines: symmetric rings have their centroid on the axis; tactics for outlines. *)
From Coq Require Import Reals List Bool Arith Lra Lia.
From Verif Require Import Base M_Fea M_Init M_Geometry S_Geometry P_Geometry P_Geometry3 P_Geometry6 M_Library S_Library P_Library.
Import ListNotations.
Local Open Scope R_scope.

Lemma path_split f a m : forall l, path f (l ++ a :: m) = path f (l ++ [a]) + path f (a :: m).
Proof.
  induction l as [|x l IH]; [change (path f (a :: m) = 0 + path f (a :: m)); lra|]. destruct l as [|y l].
  - cbn [app]. rewrite !path_cons. change (path f [a]) with 0. lra.
  - cbn [app] in *. rewrite !path_cons, IH. lra.
Qed.
Lemma around_path f x t : around f (x :: t) = path f (x :: t ++ [x]).
Proof.
  unfold around. rewrite (shoelace_path f x (x :: t) x) by discriminate. destruct (exists_last (l := x :: t) ltac:(discriminate)) as (l' & y & E).
  change (x :: t ++ [x]) with ((x :: t) ++ [x]). rewrite E, last_last, <- app_assoc. cbn [app]. rewrite (path_split f y [x] l'), path_cons. change (path f [x]) with 0. lra.
Qed.
Lemma around_rotate f a b : around f (a ++ b) = around f (b ++ a).
Proof.
  destruct a as [|x a]; [rewrite app_nil_r; reflexivity|]. destruct b as [|y b]; [rewrite app_nil_r; reflexivity|]. cbn [app]. rewrite !around_path, <- !app_assoc.
  change (x :: a ++ (y :: b) ++ [x]) with ((x :: a) ++ y :: (b ++ [x])). change (y :: b ++ (x :: a) ++ [y]) with ((y :: b) ++ x :: (a ++ [y])).
  rewrite (path_split f y (b ++ [x]) (x :: a)), (path_split f x (a ++ [y]) (y :: b)). cbn [app]. lra.
Qed.
Lemma same_ring_around f l l' : same_ring l l' -> around f l = around f l'.
Proof. intros (a & b & -> & ->). apply around_rotate. Qed.
Lemma path_rev f : forall l, path f (rev l) = path (fun p q => f q p) l.
Proof.
  induction l as [|a l IH]; [reflexivity|]. destruct l as [|b l]; [reflexivity|]. cbn [rev] in *. rewrite <- app_assoc. cbn [app]. rewrite (path_split f b [a] (rev l)), IH.
  change (path f [a]) with 0. change (path f (b :: [a])) with (f b a + 0). rewrite path_cons. lra.
Qed.
Lemma around_rev f l : around f (rev l) = around (fun p q => f q p) l.
Proof.
  destruct l as [|x t]; [reflexivity|]. cbn [rev]. rewrite around_rotate. cbn [app]. rewrite !around_path.
  replace (x :: rev t ++ [x]) with (rev (x :: t ++ [x])); [apply path_rev|]. cbn [rev]. rewrite rev_app_distr. reflexivity.
Qed.
Lemma area_rev l : ring_area (rev l) = - ring_area l.
Proof.
  unfold ring_area. rewrite around_rev. rewrite (around_ext _ (fun p q => -1 * cross p q + 0 * cross p q)) by (intros; unfold cross; ring).
  rewrite (around_lin (-1) cross (fun p q => 0 * cross p q)). rewrite (around_ext (fun p q => 0 * cross p q) (fun p q => (fun _ => 0) q - (fun _ => 0) p)) by (intros; ring).
  rewrite (around_tele (fun _ => 0)). lra.
Qed.
Lemma mx_rev l : ring_mx (rev l) = - ring_mx l.
Proof.
  unfold ring_mx. rewrite around_rev. set (F := fun p q : pt => (fst p + fst q) * cross p q). rewrite (around_ext _ (fun p q => -1 * F p q + 0 * F p q)) by (intros; unfold F, cross; ring).
  rewrite (around_lin (-1) F (fun p q => 0 * F p q)). rewrite (around_ext (fun p q => 0 * F p q) (fun p q => (fun _ => 0) q - (fun _ => 0) p)) by (intros; ring).
  rewrite (around_tele (fun _ => 0)). lra.
Qed.
Lemma my_rev l : ring_my (rev l) = - ring_my l.
Proof.
  unfold ring_my. rewrite around_rev. set (F := fun p q : pt => (snd p + snd q) * cross p q). rewrite (around_ext _ (fun p q => -1 * F p q + 0 * F p q)) by (intros; unfold F, cross; ring).
  rewrite (around_lin (-1) F (fun p q => 0 * F p q)). rewrite (around_ext (fun p q => 0 * F p q) (fun p q => (fun _ => 0) q - (fun _ => 0) p)) by (intros; ring).
  rewrite (around_tele (fun _ => 0)). lra.
Qed.
Lemma symmetric_x_mx c l : symmetric_x c l -> ring_mx l = c * ring_area l.
Proof.
  intros H. assert (E : ring_mx l = ring_mx (rev (map (affine (-1) 0 0 1 (2 * c) 0) l))).
  { unfold ring_mx. rewrite (same_ring_around _ _ _ H). f_equal. f_equal. f_equal. apply map_ext. intros p. unfold mirror_x, mirror_y, affine. f_equal; ring. }
  rewrite mx_rev, ring_mx_affine in E. lra.
Qed.
Lemma symmetric_y_my c l : symmetric_y c l -> ring_my l = c * ring_area l.
Proof.
  intros H. assert (E : ring_my l = ring_my (rev (map (affine 1 0 0 (-1) 0 (2 * c)) l))).
  { unfold ring_my. rewrite (same_ring_around _ _ _ H). f_equal. f_equal. f_equal. apply map_ext. intros p. unfold mirror_x, mirror_y, affine. f_equal; ring. }
  rewrite my_rev, ring_my_affine in E. lra.
Qed.
Lemma symmetric_point_m c l : symmetric_point c l -> ring_mx l = fst c * ring_area l /\ ring_my l = snd c * ring_area l.
Proof.
  intros H. split.
  - assert (E : ring_mx l = ring_mx (map (affine (-1) 0 0 (-1) (2 * fst c) (2 * snd c)) l)).
    { unfold ring_mx. rewrite (same_ring_around _ _ _ H). f_equal. f_equal. apply map_ext. intros p. unfold half_turn, affine. f_equal; ring. }
    rewrite ring_mx_affine in E. lra.
  - assert (E : ring_my l = ring_my (map (affine (-1) 0 0 (-1) (2 * fst c) (2 * snd c)) l)).
    { unfold ring_my. rewrite (same_ring_around _ _ _ H). f_equal. f_equal. apply map_ext. intros p. unfold half_turn, affine. f_equal; ring. }
    rewrite ring_my_affine in E. lra.
Qed.

(** one ring: area and centroid of the polygon *)
Lemma one_area l : 0 <= ring_area l -> poly_area (mkPoly l []) = ring_area l.
Proof. intros H. unfold poly_area. cbn [ext ints]. rewrite orient_area, Rabs_pos_eq by exact H. unfold sumf, Rsum. cbn. lra. Qed.
Lemma one_mx l : 0 <= ring_area l -> poly_mx (mkPoly l []) = ring_mx l.
Proof. intros H. unfold poly_mx, orient. cbn [ext ints]. destruct (Rlt_dec (ring_area l) 0); [lra|]. unfold sumf, Rsum. cbn. lra. Qed.
Lemma one_my l : 0 <= ring_area l -> poly_my (mkPoly l []) = ring_my l.
Proof. intros H. unfold poly_my, orient. cbn [ext ints]. destruct (Rlt_dec (ring_area l) 0); [lra|]. unfold sumf, Rsum. cbn. lra. Qed.
Lemma hollow_area o i : 0 <= ring_area o -> 0 <= ring_area i -> poly_area (mkPoly o [i]) = ring_area o - ring_area i.
Proof. intros H H'. unfold poly_area. cbn [ext ints]. unfold sumf, Rsum. cbn [map fold_right]. rewrite !orient_area, !Rabs_pos_eq by assumption. lra. Qed.

(** ** Bounding boxes *)
Lemma spans_intro l x1 y1 x2 y2 : Forall (in_box x1 y1 x2 y2) l -> Exists (fun p => fst p = x1) l -> Exists (fun p => fst p = x2) l ->
  Exists (fun p => snd p = y1) l -> Exists (fun p => snd p = y2) l -> spans l x1 y1 x2 y2.
Proof.
  intros F A B C D. rewrite Forall_forall in F. rewrite Exists_exists in A, B, C, D. destruct A as (a & A & <-), B as (b & B & <-), C as (c & C & <-), D as (d & D & <-).
  repeat split; try (apply in_map; assumption); intros x H; apply in_map_iff in H; destruct H as (p & <- & H); specialize (F p H); unfold in_box in F; lra.
Qed.
Lemma box_weaken x1 y1 x2 y2 x1' y1' x2' y2' l : Forall (in_box x1 y1 x2 y2) l -> x1' <= x1 -> y1' <= y1 -> x2 <= x2' -> y2 <= y2' -> Forall (in_box x1' y1' x2' y2') l.
Proof. intros F A B C D. eapply Forall_impl; [|exact F]. unfold in_box. intros p H. lra. Qed.
(** an arc in a box that contains its extreme points *)
Lemma quarter_in q c r n (ccw : bool) x1 y1 x2 y2 : 0 <= r -> let q' := q_next ccw q in
  x1 <= fst c + r * q_cos q <= x2 -> x1 <= fst c + r * q_cos q' <= x2 -> y1 <= snd c + r * q_sin q <= y2 -> y1 <= snd c + r * q_sin q' <= y2 ->
  Forall (in_box x1 y1 x2 y2) (draw_radius c r (q_angle q) n ccw (PI / 2)).
Proof.
  intros Hr q' A B C D. eapply box_weaken; [apply quarter_box; exact Hr| | | |]; fold q'; unfold Rmin, Rmax;
  match goal with |- context [Rle_dec ?a ?b] => destruct (Rle_dec a b) end; lra.
Qed.
Lemma quarter_has q c r n (ccw : bool) (P : pt -> Prop) : (2 <= n)%nat -> let q' := q_next ccw q in
  P (fst c + r * q_cos q, snd c + r * q_sin q) \/ P (fst c + r * q_cos q', snd c + r * q_sin q') -> Exists P (draw_radius c r (q_angle q) n ccw (PI / 2)).
Proof.
  intros H q' [A|A]; apply Exists_exists; eexists; (split; [|exact A]); apply (quarter_ends q c r n ccw H).
Qed.
Lemma corner_nonneg n r : 0 <= corner n r.
Proof.
  unfold corner. destruct (Nat.le_gt_cases n 1) as [L|L].
  - replace (n - 1)%nat with 0%nat by lia. cbn [INR]. pose proof (pow2_ge_0 r). lra.
  - assert (0 < INR (n - 1)) by (apply lt_0_INR; lia). set (k := INR (n - 1)) in *. pose proof PI_RGT_0. pose proof PI_4.
    assert (0 < PI / 2 / k) by (apply Rdiv_lt_0_compat; lra). pose proof (sin_lt_x (PI / 2 / k) ltac:(assumption)) as S.
    assert (k * (PI / 2 / k) = PI / 2) by (field; lra). assert (k * sin (PI / 2 / k) <= k * (PI / 2 / k)) by (apply Rmult_le_compat_l; lra).
    pose proof (pow2_ge_0 r). nra.
Qed.
