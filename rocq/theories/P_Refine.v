(** Proofs about the torsion constants of related meshes. *)
From Coquelicot Require Import Coquelicot.
From Coq Require Import Reals List Permutation Bool Arith Lra Lia.
From Verif Require Import Base S_Integral M_Fea S_Fem M_Post M_Section S_Section S_Post S_Warp M_Init S_Init P_Integral P_Fea P_Geom P_Elem P_Section P_Totals P_Post
  P_Warp P_Warp2 P_Warp3 P_Warp4 P_Warp5 P_Fibre S_Refine.
Import ListNotations.
Local Open Scope R_scope.

(** ** Integrals of quadratic functions over tiled triangles *)
Definition b_quad (k0 k1 k2 k3 k4 k5 : R) (p q : point) : R :=
  k0 * b_area p q + k1 * b_qy p q + k2 * b_qx p q + k3 * b_iyy p q + k4 * b_ixy p q + k5 * b_ixx p q.
Lemma edge_fun_quad k0 k1 k2 k3 k4 k5 : edge_fun (b_quad k0 k1 k2 k3 k4 k5).
Proof.
  split; [intros p q | intros p q t r; subst r]; unfold b_quad, b_area, b_qx, b_qy, b_ixx, b_iyy, b_ixy, cross; cbn [fst snd]; field.
Qed.
Lemma el_int_quad el k0 k1 k2 k3 k4 k5 : valid_el el -> el_int el (quad k0 k1 k2 k3 k4 k5) =
  b_quad k0 k1 k2 k3 k4 k5 (corner_a el) (corner_b el) + b_quad k0 k1 k2 k3 k4 k5 (corner_b el) (corner_c el) + b_quad k0 k1 k2 k3 k4 k5 (corner_c el) (corner_a el).
Proof.
  intros [_ O]. unfold el_int. rewrite tri_int_quad, Rabs_pos_eq by lra. unfold orient, b_quad, b_area, b_qx, b_qy, b_ixx, b_iyy, b_ixy, cross.
  destruct (corner_a el), (corner_b el), (corner_c el). cbn [fst snd]. field.
Qed.
Lemma tiles_int el ch k0 k1 k2 k3 k4 k5 : valid_el el -> valid_mesh ch -> tiles el ch ->
  sumf (fun c => el_int c (quad k0 k1 k2 k3 k4 k5)) ch = el_int el (quad k0 k1 k2 k3 k4 k5).
Proof.
  intros V Vc [B _]. pose proof (boundary_sum_same (fun _ => 1) _ _ _ (edge_fun_quad k0 k1 k2 k3 k4 k5) B) as S.
  unfold boundary_sum, mesh_edges in S. rewrite sumf_concat, sumf_map in S. unfold el_edges in S at 2. rewrite !sumf_cons, sumf_nil in S.
  rewrite (el_int_quad el _ _ _ _ _ _ V). etransitivity; [|etransitivity; [exact S|ring]].
  apply sumf_ext. intros c Hc. rewrite (el_int_quad c _ _ _ _ _ _ (Vc c Hc)). unfold el_edges. rewrite !sumf_cons, sumf_nil. ring.
Qed.

(** ** The energy of a quadratic field in an element *)
Lemma quad_field el k0 k1 k2 k3 k4 k5 s t : valid_el el -> let u := nodal (quad k0 k1 k2 k3 k4 k5) el in
  fe_dx el u s t = k1 + 2 * k3 * loc_x el s t + k4 * loc_y el s t /\ fe_dy el u s t = k2 + k4 * loc_x el s t + 2 * k5 * loc_y el s t.
Proof.
  intros V u. destruct (gxy_fe el u s t V) as [<- <-]. destruct V as [S O]. assert (O' : orient (corner_a el) (corner_b el) (corner_c el) <> 0) by lra.
  pose proof (interp_dx el _ _ _ S O' 0 (1 - s - t) s t ltac:(lra) k0 k1 k2 k3 k4 k5) as DX. pose proof (interp_dy el _ _ _ S O' 0 (1 - s - t) s t ltac:(lra) k0 k1 k2 k3 k4 k5) as DY.
  unfold gx, gy, shp, loc. split; [etransitivity; [exact DX|]|etransitivity; [exact DY|]].
  - reflexivity.
  - reflexivity.
Qed.
Definition en_quad (m cx cy k1 k2 k3 k4 k5 : R) : R -> R -> R :=
  quad (m * ((k1 + cy) ^ 2 + (k2 - cx) ^ 2)) (m * (4 * (k1 + cy) * k3 + 2 * (k2 - cx) * (k4 + 1))) (m * (2 * (k1 + cy) * (k4 - 1) + 4 * (k2 - cx) * k5))
    (m * (4 * k3 ^ 2 + (k4 + 1) ^ 2)) (m * (4 * k3 * (k4 - 1) + 4 * k5 * (k4 + 1))) (m * ((k4 - 1) ^ 2 + 4 * k5 ^ 2)).
Definition el_energy (cx cy : R) (u : nat -> R) (el : tri6) : R :=
  loc_int el (fun s t => m_E (el_mat el) * ((ddx u el s t - (loc_y el s t - cy)) ^ 2 + (ddy u el s t + (loc_x el s t - cx)) ^ 2)).
Lemma twist_sum cx cy els u : twist_energy cx cy els u = sumf (el_energy cx cy u) els.
Proof. reflexivity. Qed.
Lemma loc_el_int el f : valid_el el -> loc_int el (fun s t => f (loc_x el s t) (loc_y el s t)) = el_int el f.
Proof.
  intros [_ O]. unfold loc_int, el_int, tri_int. rewrite Rabs_pos_eq by lra. f_equal. apply simplex_int_ext. intros s t. unfold loc_x, loc_y, el_point. cbn [fst snd]. f_equal; ring.
Qed.
Lemma loc_int_ext el F G : (forall s t, F s t = G s t) -> loc_int el F = loc_int el G.
Proof. intros H. unfold loc_int. f_equal. apply simplex_int_ext. exact H. Qed.
Lemma el_energy_quad cx cy u el k0 k1 k2 k3 k4 k5 : valid_el el -> gather u (el_ids el) = nodal (quad k0 k1 k2 k3 k4 k5) el ->
  el_energy cx cy u el = el_int el (en_quad (m_E (el_mat el)) cx cy k1 k2 k3 k4 k5).
Proof.
  intros V N. rewrite <- (loc_el_int el _ V). apply loc_int_ext. intros s t. unfold ddx, ddy. rewrite N. destruct (quad_field el k0 k1 k2 k3 k4 k5 s t V) as [-> ->].
  unfold en_quad, quad. ring.
Qed.

(** ** The finite element function on the triangle of an element *)
Lemma interpolant_at el u e f g x y : valid_el el -> e + f + g = 1 ->
  x = e * fst (corner_a el) + f * fst (corner_b el) + g * fst (corner_c el) -> y = e * snd (corner_a el) + f * snd (corner_b el) + g * snd (corner_c el) ->
  interpolant el u x y = dot6 (shape_n e f g) u.
Proof.
  intros [_ O] S -> ->. set (a := corner_a el) in *. set (b := corner_b el) in *. set (c := corner_c el) in *. set (D := orient a b c) in *. unfold interpolant.
  replace (area_eta _ _ _) with e by (unfold area_eta; fold a b c D; replace f with (1 - e - g) by lra; unfold orient at 1; cbn [fst snd]; apply (Rmult_eq_reg_r D); [|lra]; field_simplify; [unfold D, orient; ring|lra]).
  replace (area_xi _ _ _) with f by (unfold area_xi; fold a b c D; replace e with (1 - f - g) by lra; unfold orient at 1; cbn [fst snd]; apply (Rmult_eq_reg_r D); [|lra]; field_simplify; [unfold D, orient; ring|lra]).
  replace (area_zeta _ _ _) with g by (unfold area_zeta; fold a b c D; replace e with (1 - f - g) by lra; unfold orient at 1; cbn [fst snd]; apply (Rmult_eq_reg_r D); [|lra]; field_simplify; [unfold D, orient; ring|lra]). reflexivity.
Qed.
Section Values.
Context (X Y : nat -> R) (el : tri6) (u : nat -> R).
Hypothesis V : valid_el el.
Hypothesis EX : el_x el = gather X (el_ids el).
Hypothesis EY : el_y el = gather Y (el_ids el).
Lemma corners_at : corner_a el = (X (c0 (el_ids el)), Y (c0 (el_ids el))) /\ corner_b el = (X (c1 (el_ids el)), Y (c1 (el_ids el))) /\ corner_c el = (X (c2 (el_ids el)), Y (c2 (el_ids el))).
Proof. unfold corner_a, corner_b, corner_c. rewrite EX, EY. repeat split. Qed.
Lemma value_corner i : In i (corner_ids el) -> interpolant el (gather u (el_ids el)) (X i) (Y i) = u i.
Proof.
  destruct corners_at as (A & B & C). intros [<-|[<-|[<-|[]]]].
  - rewrite (interpolant_at el _ 1 0 0) by (try exact V; try rewrite A; try rewrite B; try rewrite C; cbn [fst snd]; lra). unfold shape_n, dot6, gather. cbn [v0 v1 v2 v3 v4 v5]. lra.
  - rewrite (interpolant_at el _ 0 1 0) by (try exact V; try rewrite A; try rewrite B; try rewrite C; cbn [fst snd]; lra). unfold shape_n, dot6, gather. cbn [v0 v1 v2 v3 v4 v5]. lra.
  - rewrite (interpolant_at el _ 0 0 1) by (try exact V; try rewrite A; try rewrite B; try rewrite C; cbn [fst snd]; lra). unfold shape_n, dot6, gather. cbn [v0 v1 v2 v3 v4 v5]. lra.
Qed.
Lemma value_side a b m l : has_side el a b m -> interpolant el (gather u (el_ids el)) (X a + l * (X b - X a)) (Y a + l * (Y b - Y a)) =
  u a * ((1 - l) * (1 - 2 * l)) + u b * (l * (2 * l - 1)) + u m * (4 * l * (1 - l)).
Proof.
  destruct corners_at as (A & B & C).
  assert (F : forall e f g, e + f + g = 1 -> X a + l * (X b - X a) = e * X (c0 (el_ids el)) + f * X (c1 (el_ids el)) + g * X (c2 (el_ids el)) ->
     Y a + l * (Y b - Y a) = e * Y (c0 (el_ids el)) + f * Y (c1 (el_ids el)) + g * Y (c2 (el_ids el)) ->
     interpolant el (gather u (el_ids el)) (X a + l * (X b - X a)) (Y a + l * (Y b - Y a)) = dot6 (shape_n e f g) (gather u (el_ids el))).
  { intros e f g S Hx Hy. apply interpolant_at; [exact V|exact S|rewrite A, B, C; exact Hx|rewrite A, B, C; exact Hy]. }
  intros [H|H]; cbn [side_ids In] in H; destruct H as [H|[H|[H|[]]]]; injection H as <- <- <-;
  [rewrite (F (1 - l) l 0)|rewrite (F 0 (1 - l) l)|rewrite (F (1 - l) 0 l)|rewrite (F l (1 - l) 0)|rewrite (F 0 l (1 - l))|rewrite (F l 0 (1 - l))]; try ring;
  unfold shape_n, dot6, gather; cbn [v0 v1 v2 v3 v4 v5]; ring.
Qed.
End Values.

Lemma mid_in_el el p q : in_el el p -> in_el el q -> in_el el ((fst p + fst q) / 2, (snd p + snd q) / 2).
Proof.
  intros (e & f & g & E & F & G & S & Hx & Hy) (e' & f' & g' & E' & F' & G' & S' & Hx' & Hy').
  exists ((e + e') / 2), ((f + f') / 2), ((g + g') / 2). cbn [fst snd]. rewrite Hx, Hy, Hx', Hy'. repeat split; try lra.
Qed.

(** ** Refinement *)
Section Refined.
Context (n : nat) (X Y : nat -> R) (els : list tri6) (n' : nat) (X' Y' : nat -> R) (els' : list tri6) (cuts : list (tri6 * list tri6)) (u : nat -> R).
Hypothesis Hm : mesh_on n X Y els.
Hypothesis Hm' : mesh_on n' X' Y' els'.
Hypothesis Hc : conforming X Y els.
Hypothesis Hf : map fst cuts = els.
Hypothesis Hp : Permutation (concat (map snd cuts)) els'.
Hypothesis Ht : forall el children, In (el, children) cuts -> tiles el children.

Definition field_on (el : tri6) : R -> R -> R := interpolant el (gather u (el_ids el)).
Lemma agree el el' p : In el els -> In el' els -> in_el el p -> in_el el' p -> field_on el (fst p) (snd p) = field_on el' (fst p) (snd p).
Proof.
  intros I I' P P'. destruct (Hm el I) as (V & _ & _ & EX & EY). destruct (Hm el' I') as (V' & _ & _ & EX' & EY').
  destruct (Hc el el' p I I' P P') as [<-|[(i & C & C' & ->)|(a & b & m & S & S' & l & L & ->)]]; [reflexivity| |]; unfold field_on; cbn [fst snd].
  - rewrite (value_corner X Y el u V EX EY i C), (value_corner X Y el' u V' EX' EY' i C'). reflexivity.
  - rewrite (value_side X Y el u V EX EY a b m l S), (value_side X Y el' u V' EX' EY' a b m l S'). reflexivity.
Qed.
Lemma child_in el ch c : In (el, ch) cuts -> In c ch -> In el els /\ In c els'.
Proof.
  intros I J. split; [rewrite <- Hf; apply (in_map fst _ _ I)|]. apply (Permutation_in _ Hp). apply in_concat. exists ch. split; [apply (in_map snd _ _ I)|exact J].
Qed.
Lemma node_in el ch c i : In (el, ch) cuts -> In c ch -> In i (ids_list (el_ids c)) -> in_el el (X' i, Y' i).
Proof.
  intros I J K. destruct (child_in el ch c I J) as [_ J']. destruct (Hm' c J') as (V & _ & _ & EX & EY). destruct (Ht el ch I) as [_ T]. destruct (T c J) as (_ & A & B & C).
  destruct (corners_at X' Y' c EX EY) as (EA & EB & EC). destruct V as [[Sx Sy] _].
  assert (M : forall k p q, p = (X' k, Y' k) -> p = q -> in_el el q -> in_el el (X' k, Y' k)) by (intros k p q -> ->; auto).
  rewrite EX in Sx. rewrite EY in Sy. unfold gather, side_nodes in Sx, Sy. injection Sx as _ _ _ X3 X4 X5. injection Sy as _ _ _ Y3 Y4 Y5.
  destruct K as [<-|[<-|[<-|[<-|[<-|[<-|[]]]]]]].
  - rewrite <- EA. exact A.
  - rewrite <- EB. exact B.
  - rewrite <- EC. exact C.
  - rewrite X3, Y3. apply (mid_in_el el (corner_a c) (corner_b c) A B).
  - rewrite X4, Y4. apply (mid_in_el el (corner_b c) (corner_c c) B C).
  - rewrite X5, Y5. apply (mid_in_el el (corner_a c) (corner_c c) A C).
Qed.
Definition fine (i : nat) : R :=
  match find (fun c => existsb (fun ch => existsb (Nat.eqb i) (ids_list (el_ids ch))) (snd c)) cuts with
  | Some c => field_on (fst c) (X' i) (Y' i) | None => 0 end.
Lemma fine_val el ch c i : In (el, ch) cuts -> In c ch -> In i (ids_list (el_ids c)) -> fine i = field_on el (X' i) (Y' i).
Proof.
  intros I J K. unfold fine. destruct (find _ cuts) as [[el0 ch0]|] eqn:F.
  - apply find_some in F. destruct F as [I0 F]. cbn [snd fst] in *. apply existsb_exists in F. destruct F as (c0' & J0 & F). apply existsb_exists in F. destruct F as (j & K0 & F). apply Nat.eqb_eq in F. subst j.
    apply (agree el0 el (X' i, Y' i)); [apply (child_in el0 ch0 c0' I0 J0)|apply (child_in el ch c I J)|apply (node_in el0 ch0 c0' i I0 J0 K0)|apply (node_in el ch c i I J K)].
  - pose proof (find_none _ _ F _ I) as N. cbn [snd] in N. exfalso. enough (E : existsb (fun ch1 => existsb (Nat.eqb i) (ids_list (el_ids ch1))) ch = true) by congruence.
    apply existsb_exists. exists c. split; [exact J|]. apply existsb_exists. exists i. split; [exact K|apply Nat.eqb_refl].
Qed.
Lemma energy_child cx cy el ch : In (el, ch) cuts -> sumf (el_energy cx cy fine) ch = el_energy cx cy u el.
Proof.
  intros I. assert (J : In el els) by (rewrite <- Hf; apply (in_map fst _ _ I)). destruct (Hm el J) as (V & _).
  destruct (interpolant_quad el (gather u (el_ids el)) V) as (k0 & k1 & k2 & k3 & k4 & k5 & Q).
  rewrite (el_energy_quad cx cy u el k0 k1 k2 k3 k4 k5 V).
  2:{ rewrite <- (interpolant_nodal el (gather u (el_ids el)) V) at 1. apply nodal_ext, Q. }
  pose proof (Ht el ch I) as T. assert (Vc : valid_mesh ch) by (intros c Hc'; apply (Hm' c), (child_in el ch c I Hc')).
  unfold en_quad. rewrite <- (tiles_int el ch _ _ _ _ _ _ V Vc T). apply sumf_ext. intros c Hc'. destruct T as [_ T]. destruct (T c Hc') as (M & _). rewrite <- M.
  apply (el_energy_quad cx cy fine c k0 k1 k2 k3 k4 k5 (Vc c Hc')).
  destruct (child_in el ch c I Hc') as [_ J']. destruct (Hm' c J') as (_ & _ & _ & EX & EY). unfold nodal. rewrite EX, EY. unfold gather, zip6. cbn [v0 v1 v2 v3 v4 v5].
  rewrite !(fine_val el ch c) by (try exact I; try exact Hc'; cbn [ids_list In]; tauto). unfold field_on. rewrite !Q. reflexivity.
Qed.
Lemma energy_fine cx cy : twist_energy cx cy els' fine = twist_energy cx cy els u.
Proof.
  rewrite !twist_sum. rewrite <- (sumf_perm _ _ _ Hp), sumf_concat, sumf_map, <- Hf, sumf_map. apply sumf_ext. intros [el ch] I. apply (energy_child cx cy el ch I).
Qed.
Lemma refined_boundary : same_boundary (mesh_edges els') (mesh_edges els).
Proof.
  apply (sb_trans _ (mesh_edges (concat (map snd cuts)))).
  - apply sb_perm. unfold mesh_edges. rewrite <- !(flat_map_concat_map el_edges). apply Permutation_flat_map, Permutation_sym, Hp.
  - rewrite <- Hf. clear Hp Hf Hc Hm. induction cuts as [|[el ch] l IH]; [apply sb_refl|]. cbn [map concat fst snd]. unfold mesh_edges. rewrite map_app, concat_app. cbn [map concat].
    apply P_Plastic.sb_app; [apply (Ht el ch); left; reflexivity|]. apply IH. intros e c H. apply Ht. right. exact H.
Qed.
End Refined.

Lemma refined_energy n X Y els n' X' Y' els' cx cy u : mesh_on n X Y els -> mesh_on n' X' Y' els' -> conforming X Y els -> refines els els' ->
  same_boundary (mesh_edges els') (mesh_edges els) /\ exists u', twist_energy cx cy els' u' = twist_energy cx cy els u.
Proof.
  intros Hm Hm' Hc (cuts & Hf & Hp & Ht). split; [apply (refined_boundary els els' cuts Hf Hp Ht)|].
  exists (fine X' Y' cuts u). apply (energy_fine n X Y els n' X' Y' els' cuts u Hm Hm' Hc Hf Hp Ht).
Qed.

(** ** The centre of twist *)
Lemma recentred n X Y els cx cy cx' cy' u : mesh_on n X Y els -> exists u', twist_energy cx' cy' els u' = twist_energy cx cy els u.
Proof.
  intros Hm. exists (fun i => u i + ((cy - cy') * X i + (cx' - cx) * Y i)). rewrite !twist_sum. apply sumf_ext. intros el I. destruct (Hm el I) as (V & _ & _ & EX & EY).
  destruct (interpolant_quad el (gather u (el_ids el)) V) as (k0 & k1 & k2 & k3 & k4 & k5 & Q).
  assert (N : gather u (el_ids el) = nodal (quad k0 k1 k2 k3 k4 k5) el). { rewrite <- (interpolant_nodal el (gather u (el_ids el)) V) at 1. apply nodal_ext, Q. }
  rewrite (el_energy_quad cx cy u el k0 k1 k2 k3 k4 k5 V N), (el_energy_quad cx' cy' _ el k0 (k1 + (cy - cy')) (k2 + (cx' - cx)) k3 k4 k5 V).
  - unfold en_quad. replace (k1 + (cy - cy') + cy') with (k1 + cy) by ring. replace (k2 + (cx' - cx) - cx') with (k2 - cx) by ring. reflexivity.
  - unfold nodal in *. rewrite EX, EY in *. unfold gather, zip6 in *. cbn [v0 v1 v2 v3 v4 v5] in *. injection N as N0 N1 N2 N3 N4 N5. rewrite N0, N1, N2, N3, N4, N5. unfold quad. f_equal; ring.
Qed.

(** ** Parts and materials *)
Lemma renumber_energy cx cy g u els : twist_energy cx cy (map (renumber g) els) u = twist_energy cx cy els (fun i => u (g i)).
Proof. rewrite !twist_sum, sumf_map. reflexivity. Qed.
Lemma el_energy_nonneg cx cy u el : valid_el el -> 0 <= m_E (el_mat el) -> exists w, 0 <= w /\ el_energy cx cy u el = m_E (el_mat el) * w.
Proof.
  intros V P. destruct (interpolant_quad el (gather u (el_ids el)) V) as (k0 & k1 & k2 & k3 & k4 & k5 & Q).
  assert (N : gather u (el_ids el) = nodal (quad k0 k1 k2 k3 k4 k5) el). { rewrite <- (interpolant_nodal el (gather u (el_ids el)) V) at 1. apply nodal_ext, Q. }
  exists (el_int el (en_quad 1 cx cy k1 k2 k3 k4 k5)). split.
  - rewrite <- (loc_el_int el _ V). apply loc_int_nonneg; [destruct V; lra| |].
    + set (a := corner_a el). set (b := corner_b el). set (c := corner_c el).
      set (A := (k1 + cy + 2 * k3 * fst a + (k4 - 1) * snd a, 2 * k3 * (fst b - fst a) + (k4 - 1) * (snd b - snd a), 2 * k3 * (fst c - fst a) + (k4 - 1) * (snd c - snd a))).
      set (B := (k2 - cx + (k4 + 1) * fst a + 2 * k5 * snd a, (k4 + 1) * (fst b - fst a) + 2 * k5 * (snd b - snd a), (k4 + 1) * (fst c - fst a) + 2 * k5 * (snd c - snd a))).
      destruct (quad_comb 1 _ _ (quad_mul A A) (quad_mul B B)) as (q0 & q1 & q2 & q3 & q4 & q5 & E). apply (poly_weaken 2); [|lia]. apply (poly_ext _ (quad q0 q1 q2 q3 q4 q5)); [apply poly_quad|].
      intros s t. rewrite <- E. unfold A, B, en_quad, quad, loc_x, loc_y, el_point. fold a b c. cbn [fst snd]. ring.
    + intros s t. unfold en_quad, quad. set (x := loc_x el s t). set (y := loc_y el s t).
      match goal with |- 0 <= ?e => replace e with ((k1 + cy + 2 * k3 * x + (k4 - 1) * y) ^ 2 + (k2 - cx + (k4 + 1) * x + 2 * k5 * y) ^ 2) by ring end. apply Rplus_le_le_0_compat; apply pow2_ge_0.
  - rewrite (el_energy_quad cx cy u el k0 k1 k2 k3 k4 k5 V N). unfold en_quad, el_int. rewrite !tri_int_quad. field.
Qed.
Lemma stiffer_energy cx cy u el el' : valid_el el -> stiffer el el' -> el_energy cx cy u el <= el_energy cx cy u el'.
Proof.
  intros V (EX & EY & EI & M). assert (V' : valid_el el'). { unfold valid_el, straight, corner_a, corner_b, corner_c in *. rewrite EX, EY. exact V. }
  destruct (interpolant_quad el (gather u (el_ids el)) V) as (k0 & k1 & k2 & k3 & k4 & k5 & Q).
  assert (N : gather u (el_ids el) = nodal (quad k0 k1 k2 k3 k4 k5) el). { rewrite <- (interpolant_nodal el (gather u (el_ids el)) V) at 1. apply nodal_ext, Q. }
  assert (N' : gather u (el_ids el') = nodal (quad k0 k1 k2 k3 k4 k5) el') by (unfold nodal; rewrite EI, EX, EY; exact N).
  assert (G : forall m, el_int el (en_quad m cx cy k1 k2 k3 k4 k5) = m * el_int el (en_quad 1 cx cy k1 k2 k3 k4 k5)). { intros m. unfold en_quad, el_int. rewrite !tri_int_quad. field. }
  rewrite (el_energy_quad cx cy u el k0 k1 k2 k3 k4 k5 V N), (el_energy_quad cx cy u el' k0 k1 k2 k3 k4 k5 V' N').
  replace (el_int el' (en_quad (m_E (el_mat el')) cx cy k1 k2 k3 k4 k5)) with (el_int el (en_quad (m_E (el_mat el')) cx cy k1 k2 k3 k4 k5)) by (unfold el_int, corner_a, corner_b, corner_c; rewrite EX, EY; reflexivity).
  rewrite (G (m_E (el_mat el))), (G (m_E (el_mat el'))). apply Rmult_le_compat_r; [|exact M].
  set (e1 := mkTri (el_x el) (el_y el) (el_ids el) (mkMat 1 0 0 0)).
  destruct (el_energy_nonneg cx cy u e1 V ltac:(cbn; lra)) as (w1 & W1 & E1). cbn [e1 el_mat m_E] in E1. rewrite Rmult_1_l in E1. rewrite <- E1 in W1.
  rewrite (el_energy_quad cx cy u e1 k0 k1 k2 k3 k4 k5 V N) in W1. exact W1.
Qed.
Lemma sumf_forall2 {A} (f g : A -> R) P l l' : Forall2 P l l' -> (forall a b, In a l -> P a b -> f a <= g b) -> sumf f l <= sumf g l'.
Proof.
  intros F. induction F as [|a b l l' Hab F IH]; intros H; [unfold sumf; cbn; lra|]. rewrite !sumf_cons. apply Rplus_le_compat; [apply H; [left; reflexivity|exact Hab]|]. apply IH. intros x y I. apply H. right. exact I.
Qed.
