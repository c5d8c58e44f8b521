(** Proofs about hollow rectangles: integrals of products over the mesh, the ring around the hole, the lower bound. *)
From Coquelicot Require Import Coquelicot.
From Coq Require Import Reals List Permutation Bool Arith Lra Lia.
From Verif Require Import Base S_Integral M_Fea S_Fem M_Post M_Section S_Section S_Post S_Warp M_Init S_Init P_Integral P_Fea P_Geom P_Elem P_Section P_Totals P_Post
  P_Warp P_Warp2 P_Warp3 P_Warp4 P_Warp5 S_Plastic P_Plastic P_Fibre S_Refine P_Refine S_Prandtl P_Green P_Prandtl P_Prandtl2 S_Hollow P_Hollow P_Hollow2.
Import ListNotations.
Local Open Scope R_scope.

(** ** Products of functions of one variable *)
Lemma cont2_fst (p : R -> R) : (forall x, continuous p x) -> cont2 (fun x _ => p x).
Proof. intros C x y. apply (continuity_1d_2d_pt_comp p (fun x _ => x)); [apply continuity_pt_filterlim, C|apply continuity_2d_pt_id1]. Qed.
Lemma cont2_snd (q : R -> R) : (forall x, continuous q x) -> cont2 (fun _ y => q y).
Proof. intros C x y. apply (continuity_1d_2d_pt_comp q (fun _ y => y)); [apply continuity_pt_filterlim, C|apply continuity_2d_pt_id2]. Qed.
Lemma smooth_fst (p p' : R -> R) : (forall x, is_derive p x (p' x)) -> (forall x, continuous p' x) -> smooth (fun x _ => p x) (fun x _ => p' x) (fun _ _ => 0).
Proof. intros D C x y. split; [apply D|]. split; [apply (is_derive_const (V := R_NormedModule))|]. split; [apply cont2_fst, C|apply continuity_2d_pt_const]. Qed.
Lemma smooth_snd (q q' : R -> R) : (forall x, is_derive q x (q' x)) -> (forall x, continuous q' x) -> smooth (fun _ y => q y) (fun _ _ => 0) (fun _ y => q' y).
Proof. intros D C x y. split; [apply (is_derive_const (V := R_NormedModule))|]. split; [apply D|]. split; [apply continuity_2d_pt_const|apply cont2_snd, C]. Qed.
Lemma smooth_prod (p p' q q' : R -> R) : (forall x, is_derive p x (p' x)) -> (forall x, continuous p' x) -> (forall x, is_derive q x (q' x)) -> (forall x, continuous q' x) ->
  smooth (fun x y => p x * q y) (fun x y => p' x * q y) (fun x y => p x * q' y).
Proof.
  intros D C D' C'. eapply smooth_ext; [| | |exact (smooth_mult _ _ _ _ _ _ (smooth_fst p p' D C) (smooth_snd q q' D' C'))]; intros; cbv beta; ring.
Qed.
Definition prim (p : R -> R) (a x : R) : R := RInt p a x.
Lemma prim_derive p a : (forall x, continuous p x) -> forall x, is_derive (prim p a) x (p x).
Proof.
  intros C x. apply (is_derive_RInt (V := R_CompleteNormedModule) p (prim p a) a x); [|apply C].
  exists (mkposreal 1 Rlt_0_1). intros y _. apply (RInt_correct (V := R_CompleteNormedModule)), int_cont, C.
Qed.
Lemma prim_diff p a x y : (forall x, continuous p x) -> prim p a y - prim p a x = RInt p x y.
Proof. intros C. unfold prim. pose proof (int_split p a x y C). lra. Qed.

Lemma int_swap p a b : (forall x, continuous p x) -> RInt p b a = - RInt p a b.
Proof. intros C. pose proof (prim_diff p 0 a b C). pose proof (prim_diff p 0 b a C). lra. Qed.

(** ** Edges parallel to the axes *)
Lemma edge_vertical (p q : R -> R) x y1 y2 G : (forall y, continuous q y) -> edge_int (fun x y => p x * q y) G (x, y1) (x, y2) = p x * RInt q y1 y2.
Proof.
  intros C. unfold edge_int. cbn [fst snd].
  transitivity (RInt (fun l => scal (p x) ((y2 - y1) * q ((y2 - y1) * l + y1))) 0 1).
  - apply RInt_ext. intros l _. replace (x + l * (x - x)) with x by ring. replace (y1 + l * (y2 - y1)) with ((y2 - y1) * l + y1) by ring. cbn. unfold mult; cbn. match goal with |- ?u = ?v => change (@eq R u v) end. ring.
  - rewrite (RInt_scal (V := R_CompleteNormedModule)).
    2:{ apply int_cont. intros l. apply (continuous_mult (fun _ => y2 - y1) (fun l => q ((y2 - y1) * l + y1))); [apply continuous_const|apply cont_affine, C]. }
    assert (E : RInt (fun l => (y2 - y1) * q ((y2 - y1) * l + y1)) 0 1 = RInt q y1 y2); [|rewrite E; reflexivity].
    etransitivity; [apply (RInt_scal (V := R_CompleteNormedModule) (fun l => q ((y2 - y1) * l + y1))), int_cont; intros l; apply cont_affine, C|].
    etransitivity; [exact (int_affine q (y2 - y1) y1 0 1 C)|]. f_equal; ring.
Qed.
Lemma edge_flat_zero F x1 x2 y : edge_int F (fun _ _ => 0) (x1, y) (x2, y) = 0.
Proof.
  unfold edge_int. cbn [fst snd]. transitivity (RInt (fun _ : R => 0) 0 1); [|rewrite int_const; ring]. apply RInt_ext. intros l _. match goal with |- ?u = ?v => change (@eq R u v) end. ring.
Qed.
Lemma edge_upright_zero G x y1 y2 : edge_int (fun _ _ => 0) G (x, y1) (x, y2) = 0.
Proof.
  unfold edge_int. cbn [fst snd]. transitivity (RInt (fun _ : R => 0) 0 1); [|rewrite int_const; ring]. apply RInt_ext. intros l _. match goal with |- ?u = ?v => change (@eq R u v) end. ring.
Qed.
Lemma edge_horizontal (p q : R -> R) y x1 x2 F : (forall x, continuous p x) -> edge_int F (fun x y => p x * q y) (x1, y) (x2, y) = - (RInt p x1 x2 * q y).
Proof.
  intros C. pose proof (edge_vertical q p y x1 x2 (fun _ _ => 0) C) as E. rewrite Rmult_comm, <- E. unfold edge_int. cbn [fst snd].
  etransitivity; [|apply (RInt_opp (V := R_CompleteNormedModule))].
  - apply RInt_ext. intros l _. replace (y + l * (y - y)) with y by ring. match goal with |- ?u = ?v => change (@eq R u v) end. unfold opp; cbn. ring.
  - apply int_cont. intros l.
    apply (continuous_ext (fun l => (q y * (x2 - x1)) * p ((x2 - x1) * l + x1))).
    + intros k. replace (y + k * (y - y)) with y by ring. replace (x1 + k * (x2 - x1)) with ((x2 - x1) * k + x1) by ring. match goal with |- ?u = ?v => change (@eq R u v) end. ring.
    + apply (continuous_mult (fun _ => q y * (x2 - x1)) (fun l => p ((x2 - x1) * l + x1))); [apply continuous_const|apply cont_affine, C].
Qed.

(** ** Integrals over a hollow rectangle *)
Section Box.
Context (x0 y0 b d t : R) (m : material) (els : list tri6).
Hypothesis V : valid_mesh els.
Hypothesis B : same_boundary (mesh_edges els) (hollow_edges m x0 y0 b d t).

Lemma box_int_x (p q q' : R -> R) : (forall x, continuous p x) -> (forall y, is_derive q y (q' y)) -> (forall y, continuous q' y) ->
  mesh_int (fun _ => 1) (fun x y => p x * q y) els =
  RInt p x0 (x0 + b) * RInt q y0 (y0 + d) - RInt p (x0 + t) (x0 + b - t) * RInt q (y0 + t) (y0 + d - t).
Proof.
  intros Cp Dq Cq'. assert (Cq : forall y, continuous q y) by (intros; apply (derive_cont q q'), Dq).
  pose proof (mesh_green (fun _ => 1) els _ _ _ (fun _ _ => 0) (fun _ _ => 0) (fun _ _ => 0) _ V B (smooth_prod (prim p x0) p q q' (prim_derive p x0 Cp) Cp Dq Cq') (smooth_const 0)) as G. cbv beta in G.
  transitivity (mesh_int (fun _ => 1) (fun x y => p x * q y + 0) els); [apply mesh_int_ext; intros; ring|]. rewrite G. clear G.
  unfold boundary_sum, hollow_edges, rectangle. cbn [rev app S_Section.ring_edges path_edges]. rewrite !sumf_cons, sumf_nil, !edge_flat_zero, !(edge_vertical (prim p x0) q) by exact Cq.
  rewrite <- (prim_diff p x0 x0 (x0 + b) Cp), <- (prim_diff p x0 (x0 + t) (x0 + b - t) Cp).
  replace (x0 + t + (b - 2 * t)) with (x0 + b - t) by ring. replace (y0 + t + (d - 2 * t)) with (y0 + d - t) by ring.
  rewrite (int_swap q y0 (y0 + d) Cq), (int_swap q (y0 + t) (y0 + d - t) Cq). ring.
Qed.
Lemma box_int_y (p p' q : R -> R) : (forall x, is_derive p x (p' x)) -> (forall x, continuous p' x) -> (forall y, continuous q y) ->
  mesh_int (fun _ => 1) (fun x y => p x * q y) els =
  RInt p x0 (x0 + b) * RInt q y0 (y0 + d) - RInt p (x0 + t) (x0 + b - t) * RInt q (y0 + t) (y0 + d - t).
Proof.
  intros Dp Cp' Cq. assert (Cp : forall y, continuous p y) by (intros; apply (derive_cont p p'), Dp).
  pose proof (mesh_green (fun _ => 1) els (fun _ _ => 0) (fun _ _ => 0) (fun _ _ => 0) _ _ _ _ V B (smooth_const 0) (smooth_prod p p' (prim q y0) q Dp Cp' (prim_derive q y0 Cq) Cq)) as G. cbv beta in G.
  transitivity (mesh_int (fun _ => 1) (fun x y => 0 + p x * q y) els); [apply mesh_int_ext; intros; ring|]. rewrite G. clear G.
  unfold boundary_sum, hollow_edges, rectangle. cbn [rev app S_Section.ring_edges path_edges]. rewrite !sumf_cons, sumf_nil, !edge_upright_zero, !(edge_horizontal p (prim q y0)) by exact Cp.
  rewrite <- (prim_diff q y0 y0 (y0 + d) Cq), <- (prim_diff q y0 (y0 + t) (y0 + d - t) Cq).
  replace (x0 + t + (b - 2 * t)) with (x0 + b - t) by ring. replace (y0 + t + (d - 2 * t)) with (y0 + d - t) by ring.
  rewrite (int_swap p x0 (x0 + b) Cp), (int_swap p (x0 + t) (x0 + b - t) Cp). ring.
Qed.
End Box.

(** ** The ring around the hole is closed *)
Lemma free_balance els free (u : nat -> R) : free_sides els free -> sumf (fun s => u (side_start s)) free = sumf (fun s => u (side_end s)) free.
Proof.
  intros F. pose proof (sides_free (fun s => u (side_start s) + - 1 * u (side_end s)) els free ltac:(intros [[a b] m]; cbn [flip side_start side_end]; ring) F) as E.
  rewrite (sumf_ext _ (fun _ => 0) els), sumf_none in E by (intros el _; unfold turned_sides; rewrite !sumf_cons, sumf_nil; cbn [side_start side_end]; ring).
  rewrite sumf_plus, sumf_scal in E. lra.
Qed.
Definition mark (j k : nat) : R := if Nat.eq_dec k j then 1 else 0.
Lemma mark_count j l : sumf (mark j) l = INR (count_occ Nat.eq_dec l j).
Proof.
  induction l as [|k l IH]; [reflexivity|]. rewrite sumf_cons, IH. unfold mark. cbn [count_occ]. destruct (Nat.eq_dec k j); [rewrite S_INR; ring|ring].
Qed.
Lemma split_closed els outer inner : free_sides els (outer ++ inner) ->
  (forall s s' , In s outer -> In s' inner -> side_start s <> side_start s' /\ side_start s <> side_end s' /\ side_end s <> side_start s' /\ side_end s <> side_end s') -> closed_ring inner.
Proof.
  intros F N. unfold closed_ring. apply (Permutation_count_occ Nat.eq_dec). intros j. apply INR_eq. rewrite <- !mark_count, !sumf_map.
  pose proof (free_balance els _ (mark j) F) as E. rewrite !sumf_app in E.
  assert (Z : forall g : nat * nat * nat -> nat, (forall s, In s outer -> g s <> j) -> sumf (fun s => mark j (g s)) outer = 0).
  { intros g H. rewrite (sumf_ext _ (fun _ => 0)); [apply sumf_none|]. intros s I. unfold mark. destruct (Nat.eq_dec (g s) j); [exfalso; exact (H s I e)|reflexivity]. }
  assert (Z' : forall g : nat * nat * nat -> nat, (forall s, In s inner -> g s <> j) -> sumf (fun s => mark j (g s)) inner = 0).
  { intros g H. rewrite (sumf_ext _ (fun _ => 0)); [apply sumf_none|]. intros s I. unfold mark. destruct (Nat.eq_dec (g s) j); [exfalso; exact (H s I e)|reflexivity]. }
  destruct (in_dec Nat.eq_dec j (map side_start inner ++ map side_end inner)) as [I|I].
  - assert (K : forall s, In s outer -> side_start s <> j /\ side_end s <> j).
    { intros s Is. apply in_app_or in I. destruct I as [I|I]; apply in_map_iff in I; destruct I as (s' & <- & Is'); destruct (N s s' Is Is') as (? & ? & ? & ?); split; assumption. }
    rewrite (Z side_start), (Z side_end) in E by (intros s Is; apply K, Is). lra.
  - rewrite (Z' side_start), (Z' side_end); [reflexivity| |]; intros s Is <-; apply I, in_or_app; [right|left]; apply in_map, Is.
Qed.

(** ** The lower bound *)
Section Lower.
Context (n : nat) (X Y : nat -> R) (els : list tri6) (x0 y0 b d t : R) (m : material) (outer inner : list (nat * nat * nat)) (K : R) (r r' : R -> R).
Hypothesis Hm : mesh_on n X Y els.
Hypothesis Ht : 0 < t.
Hypothesis Hb : 2 * t < b.
Hypothesis Hd : 2 * t < d.
Hypothesis B : same_boundary (mesh_edges els) (hollow_edges m x0 y0 b d t).
Hypothesis Hf : free_sides els (outer ++ inner).
Hypothesis Ho : forall i j k, In (i, j, k) outer -> on_rectangle_side x0 y0 b d (X i, Y i) (X j, Y j).
Hypothesis Hi : forall i j k, In (i, j, k) inner -> along_rectangle (x0 + t) (y0 + t) (b - 2 * t) (d - 2 * t) (X i, Y i) (X j, Y j).
Hypothesis Hr : ramp K r r'.
Local Notation g := (bump r x0 b t).
Local Notation g' := (bump' r' x0 b t).
Local Notation h := (bump r y0 d t).
Local Notation h' := (bump' r' y0 d t).
Let Cg := bump_cont K r r' Hr x0 b t Ht.
Let Ch := bump_cont K r r' Hr y0 d t Ht.
Let Cg' := bump_cont' K r r' Hr x0 b t Ht.
Let Ch' := bump_cont' K r r' Hr y0 d t Ht.
Let Dg := bump_derive K r r' Hr x0 b t Ht.
Let Dh := bump_derive K r r' Hr y0 d t Ht.

Lemma ring_closed : closed_ring inner.
Proof.
  apply (split_closed els outer inner Hf). intros [[i j] k] [[i' j'] k'] I I'. cbn [side_start side_end].
  pose proof (Ho i j k I) as O. destruct (Hi i' j' k' I') as (_ & P & Q). unfold on_rectangle_side, in_rectangle in *. cbn [fst snd] in *.
  repeat split; intros E; rewrite E in *; lra.
Qed.
Lemma box_stress : hollow_stress X Y els (fun x y => g x * h y) (fun x y => g' x * h y) (fun x y => g x * h' y) [(1, inner)].
Proof.
  split; [apply smooth_prod; assumption|]. split.
  - constructor; [|constructor]. cbn [fst snd]. split; [apply ring_closed|]. intros i j k l I L. destruct (Hi i j k I) as (S & P & Q). unfold on_rectangle_side, in_rectangle in *. cbn [fst snd] in *.
    assert (Px : forall u v lo hi, lo <= u <= hi -> lo <= v <= hi -> lo <= u + l * (v - u) <= hi).
    { intros u v lo hi Hu Hv. replace (u + l * (v - u)) with ((1 - l) * u + l * v) by ring. split.
      - apply Rle_trans with ((1 - l) * lo + l * lo); [right; ring|]. apply Rplus_le_compat; apply Rmult_le_compat_l; lra.
      - apply Rle_trans with ((1 - l) * hi + l * hi); [|right; ring]. apply Rplus_le_compat; apply Rmult_le_compat_l; lra. }
    rewrite (proj1 (bump_flat K r r' Hr x0 b t Ht _ (Px (X i) (X j) (x0 + t) (x0 + b - t) ltac:(lra) ltac:(lra)))).
    rewrite (proj1 (bump_flat K r r' Hr y0 d t Ht _ (Px (Y i) (Y j) (y0 + t) (y0 + d - t) ltac:(lra) ltac:(lra)))). ring.
  - exists outer. split; [cbn [map snd concat]; rewrite app_nil_r; exact Hf|]. intros i j k l I L. cbv beta.
    destruct (bump_ends K r r' Hr x0 b t Ht Hb) as [G0 G1]. destruct (bump_ends K r r' Hr y0 d t Ht Hd) as [H0 H1].
    destruct (Ho i j k I) as [[P Q]|[[P Q]|[[P Q]|[P Q]]]]; cbn [fst snd] in P, Q; rewrite P, Q.
    + replace (x0 + l * (x0 - x0)) with x0 by ring. rewrite G0. ring.
    + replace (x0 + b + l * (x0 + b - (x0 + b))) with (x0 + b) by ring. rewrite G1. ring.
    + replace (y0 + l * (y0 - y0)) with y0 by ring. rewrite H0. ring.
    + replace (y0 + d + l * (y0 + d - (y0 + d))) with (y0 + d) by ring. rewrite H1. ring.
Qed.
Lemma flat_int (p : R -> R) lo hi c : lo <= hi -> (forall x, lo <= x <= hi -> p x = c) -> RInt p lo hi = c * (hi - lo).
Proof. intros L E. rewrite (int_ext p (fun _ => c) lo hi L E). apply int_const. Qed.
Lemma box_hole : enclosed X Y inner = (b - 2 * t) * (d - 2 * t).
Proof.
  pose proof box_stress as (Sf & Hh & out & Hf' & Zf).
  pose proof (hollow_div n X Y els _ _ _ out [(1, inner)] Hm Sf Hf' Zf Hh 0 0) as E. rewrite sumf_cons, sumf_nil in E. cbn [fst snd] in E.
  pose proof (mesh_green (fun _ => 1) els _ _ _ _ _ _ _ (on_valid _ _ _ _ Hm) B (smooth_mult _ _ _ _ _ _ Sf (smooth_affine (- 0) 1 0)) (smooth_mult _ _ _ _ _ _ Sf (smooth_affine (- 0) 0 1))) as G. cbv beta in G.
  unfold mesh_int in G. rewrite (sumf_ext _ (fun el => el_int el (fun x y => (g' x * h y * (- 0 + 1 * x + 0 * y) + g x * h y * 1) + (g x * h' y * (- 0 + 0 * x + 1 * y) + g x * h y * 1))) els) in G by (intros; ring).
  rewrite E in G. clear E.
  destruct (bump_ends K r r' Hr x0 b t Ht Hb) as [G0 G1]. destruct (bump_ends K r r' Hr y0 d t Ht Hd) as [H0 H1].
  unfold boundary_sum, hollow_edges, rectangle in G. cbn [rev app S_Section.ring_edges path_edges] in G. rewrite !sumf_cons, sumf_nil in G.
  assert (EV : forall x y1 y2, edge_int (fun x y => g x * h y * (- 0 + 1 * x + 0 * y)) (fun x y => g x * h y * (- 0 + 0 * x + 1 * y)) (x, y1) (x, y2) = (g x * x) * RInt h y1 y2).
  { intros x y1 y2. etransitivity; [|apply (edge_vertical (fun x => g x * x) h x y1 y2 (fun _ _ => 0) Ch)]. unfold edge_int. cbn [fst snd]. apply RInt_ext. intros l _. match goal with |- ?u = ?v => change (@eq R u v) end. ring. }
  assert (EH : forall y x1 x2, edge_int (fun x y => g x * h y * (- 0 + 1 * x + 0 * y)) (fun x y => g x * h y * (- 0 + 0 * x + 1 * y)) (x1, y) (x2, y) = - (RInt g x1 x2 * (h y * y))).
  { intros y x1 x2. etransitivity; [|apply (edge_horizontal g (fun y => h y * y) y x1 x2 (fun _ _ => 0) Cg)]. unfold edge_int. cbn [fst snd]. apply RInt_ext. intros l _. match goal with |- ?u = ?v => change (@eq R u v) end. ring. }
  rewrite !EV, !EH, G0, G1, H0, H1 in G. clear EV EH.
  replace (x0 + t + (b - 2 * t)) with (x0 + b - t) in G by ring. replace (y0 + t + (d - 2 * t)) with (y0 + d - t) in G by ring.
  rewrite (proj1 (bump_flat K r r' Hr x0 b t Ht (x0 + t) ltac:(lra))), (proj1 (bump_flat K r r' Hr x0 b t Ht (x0 + b - t) ltac:(lra))) in G.
  rewrite (proj1 (bump_flat K r r' Hr y0 d t Ht (y0 + t) ltac:(lra))), (proj1 (bump_flat K r r' Hr y0 d t Ht (y0 + d - t) ltac:(lra))) in G.
  assert (Fx : RInt g (x0 + t) (x0 + b - t) = b - 2 * t) by (etransitivity; [apply (flat_int g (x0 + t) (x0 + b - t) 1); [lra|intros; apply (bump_flat K r r' Hr); lra]|match goal with |- ?u = ?v => change (@eq R u v) end; ring]).
  assert (Fy : RInt h (y0 + t) (y0 + d - t) = d - 2 * t) by (etransitivity; [apply (flat_int h (y0 + t) (y0 + d - t) 1); [lra|intros; apply (bump_flat K r r' Hr); lra]|match goal with |- ?u = ?v => change (@eq R u v) end; ring]).
  assert (Fx' : RInt g (x0 + b - t) (x0 + t) = - (b - 2 * t)) by (rewrite (int_swap g (x0 + t) (x0 + b - t) Cg), Fx; reflexivity).
  assert (Fy' : RInt h (y0 + d - t) (y0 + t) = - (d - 2 * t)) by (rewrite (int_swap h (y0 + t) (y0 + d - t) Ch), Fy; reflexivity).
  rewrite ?Fx, ?Fx', ?Fy, ?Fy' in G. lra.
Qed.
Lemma box_volume : volume_of X Y els (fun x y => g x * h y) [(1, inner)] = RInt g x0 (x0 + b) * RInt h y0 (y0 + d).
Proof.
  unfold volume_of. rewrite (box_int_x x0 y0 b d t m els (on_valid _ _ _ _ Hm) B g h h' Cg Dh Ch'), sumf_cons, sumf_nil. cbn [fst snd]. rewrite box_hole.
  rewrite (flat_int g (x0 + t) (x0 + b - t) 1) by (try lra; intros; apply (bump_flat K r r' Hr); lra). rewrite (flat_int h (y0 + t) (y0 + d - t) 1) by (try lra; intros; apply (bump_flat K r r' Hr); lra). ring.
Qed.
Lemma box_slopes : mesh_int (fun _ => 1) (fun x y => (g' x * h y) ^ 2 + (g x * h' y) ^ 2) els =
  RInt (fun x => g' x * g' x) x0 (x0 + b) * RInt (fun y => h y * h y) y0 (y0 + d) + RInt (fun x => g x * g x) x0 (x0 + b) * RInt (fun y => h' y * h' y) y0 (y0 + d).
Proof.
  pose proof (cont_mul g' g' Cg' Cg') as C1. pose proof (cont_mul h' h' Ch' Ch') as C2.
  assert (D1 : forall y, is_derive (fun y => h y * h y) y (h' y * h y + h y * h' y)) by (intros y; apply (is_derive_mult h h); [apply Dh|apply Dh|intros; apply Rmult_comm]).
  assert (D2 : forall x, is_derive (fun x => g x * g x) x (g' x * g x + g x * g' x)) by (intros x; apply (is_derive_mult g g); [apply Dg|apply Dg|intros; apply Rmult_comm]).
  assert (C3 : forall y, continuous (fun y => h' y * h y + h y * h' y) y) by (intros y; apply (continuous_plus (V := R_NormedModule) (fun y => h' y * h y) (fun y => h y * h' y)); apply cont_mul; assumption).
  assert (C4 : forall x, continuous (fun x => g' x * g x + g x * g' x) x) by (intros x; apply (continuous_plus (V := R_NormedModule) (fun x => g' x * g x) (fun x => g x * g' x)); apply cont_mul; assumption).
  pose proof (box_int_x x0 y0 b d t m els (on_valid _ _ _ _ Hm) B (fun x : R => g' x * g' x) (fun y : R => h y * h y) _ C1 D1 C3) as E1. pose proof (box_int_y x0 y0 b d t m els (on_valid _ _ _ _ Hm) B (fun x : R => g x * g x) _ (fun y : R => h' y * h' y) D2 C4 C2) as E2. cbv beta in E1, E2.
  rewrite (flat_int (fun x => g' x * g' x) (x0 + t) (x0 + b - t) 0) in E1 by (try lra; intros; rewrite (proj2 (bump_flat K r r' Hr x0 b t Ht x ltac:(lra))); ring).
  rewrite (flat_int (fun y => h' y * h' y) (y0 + t) (y0 + d - t) 0) in E2 by (try lra; intros; rewrite (proj2 (bump_flat K r r' Hr y0 d t Ht x ltac:(lra))); ring).
  match type of E1 with _ = ?R1 => match type of E2 with _ = ?R2 => transitivity (R1 + R2); [rewrite <- E1, <- E2|ring] end end.
  unfold mesh_int. rewrite <- sumf_plus. apply sumf_ext. intros el _.
  assert (K1 : cont2 (fun x y => g' x * g' x * (h y * h y))) by (intros x y; apply continuity_2d_pt_mult; [apply (cont2_fst _ C1)|apply (cont2_snd _ (cont_mul h h Ch Ch))]).
  assert (K2 : cont2 (fun x y => g x * g x * (h' y * h' y))) by (intros x y; apply continuity_2d_pt_mult; [apply (cont2_fst _ (cont_mul g g Cg Cg))|apply (cont2_snd _ C2)]).
  rewrite (el_int_ext el _ (fun x y => 1 * (g' x * g' x * (h y * h y)) + 1 * (g x * g x * (h' y * h' y)))) by (intros; ring).
  rewrite (el_int_lin el _ _ 1 1 K1 K2). ring.
Qed.
End Lower.

(** ** Thinner and thinner corners of the ramps *)
Lemma limit_nonneg (phi : R -> R) : continuous phi 1 -> (forall k, 1 < k < 2 -> 0 <= phi k) -> 0 <= phi 1.
Proof.
  intros C H. destruct (Rle_lt_dec 0 (phi 1)) as [L|L]; [exact L|exfalso].
  destruct (C (fun z => z < 0)) as [e He].
  { exists (mkposreal (- phi 1) ltac:(lra)). intros y Hy. unfold ball in Hy; cbn in Hy. unfold AbsRing_ball, abs, minus, plus, opp in Hy; cbn in Hy. apply Rabs_def2 in Hy. lra. }
  pose proof (cond_pos e) as Pe. set (k := 1 + Rmin (e / 2) (1 / 2)). assert (Hk : 0 < Rmin (e / 2) (1 / 2)) by (apply Rmin_pos; lra). assert (K1 : Rmin (e / 2) (1 / 2) <= e / 2) by apply Rmin_l. assert (K2 : Rmin (e / 2) (1 / 2) <= 1 / 2) by apply Rmin_r.
  specialize (H k ltac:(unfold k; lra)). specialize (He k). assert (B : ball 1 e k). { unfold ball; cbn. unfold AbsRing_ball, abs, minus, plus, opp; cbn. rewrite Rabs_pos_eq; unfold k; lra. }
  specialize (He B). cbv beta in He. lra.
Qed.
Lemma square_int_nonneg (p : R -> R) a b : a <= b -> (forall x, continuous p x) -> 0 <= RInt (fun x => p x * p x) a b.
Proof.
  intros L C. apply Rle_trans with (RInt (fun _ => 0) a b); [right; rewrite int_const; ring|]. apply int_le; [exact L|apply cont_k|apply (cont_mul p p C C)|]. intros x _. apply Rle_0_sqr.
Qed.
Lemma product_bounds J k b d t g1 h1 g2 h2 g3 h3 : 0 <= J -> 1 < k < 2 -> 0 < t -> 2 * t < b -> 2 * t < d ->
  b - k * t <= g1 -> d - k * t <= h1 -> 0 <= g2 <= b - 2 * t + 2 * t * k ^ 2 / 3 -> 0 <= h2 <= d - 2 * t + 2 * t * k ^ 2 / 3 -> 0 <= g3 <= 2 * k / t -> 0 <= h3 <= 2 * k / t ->
  4 * (g1 * h1) ^ 2 <= J * (g3 * h2 + g2 * h3) ->
  0 <= J * (2 * k / t * ((b - 2 * t + 2 * t * k ^ 2 / 3) + (d - 2 * t + 2 * t * k ^ 2 / 3))) - 4 * ((b - k * t) * (d - k * t)) ^ 2.
Proof.
  intros HJ Hk Ht Hb Hd M1 M2 Q1 Q2 E1 E2 L.
  assert (Kt : k * t < 2 * t) by (apply Rmult_lt_compat_r; lra).
  assert (V : 0 <= (b - k * t) * (d - k * t) <= g1 * h1) by (split; [apply Rmult_le_pos; lra|apply Rmult_le_compat; lra]).
  assert (V2 : ((b - k * t) * (d - k * t)) ^ 2 <= (g1 * h1) ^ 2) by (apply pow_incr, V).
  assert (S1 : g3 * h2 <= 2 * k / t * (d - 2 * t + 2 * t * k ^ 2 / 3)) by (apply Rmult_le_compat; lra).
  assert (S2 : g2 * h3 <= (b - 2 * t + 2 * t * k ^ 2 / 3) * (2 * k / t)) by (apply Rmult_le_compat; lra).
  assert (S : J * (g3 * h2 + g2 * h3) <= J * (2 * k / t * ((b - 2 * t + 2 * t * k ^ 2 / 3) + (d - 2 * t + 2 * t * k ^ 2 / 3)))) by (apply Rmult_le_compat_l; [exact HJ|]; rewrite Rmult_plus_distr_l; lra).
  lra.
Qed.
