(** Theorems: hole marks of a compound remove no material: C51. *)
From Coq Require Import Reals String List ZArith Bool Lra Lia.
From Verif Require Import Base M_Init M_Geometry S_Geometry P_Geometry P_Geometry3 P_Geometry6 P_Geometry8 S_Concrete S_Nastran S_Holes T_Geometry.
Import ListNotations.
Local Open Scope list_scope.
Local Open Scope R_scope.

Lemma compiled_holes sh gs : cp_geoms (compile_compound sh gs) = gs /\ cp_holes (compile_compound sh gs) = sh_union_holes sh (map gm_poly gs).
Proof. unfold compile_compound. destruct (fold_left compile_step gs ([], [], [])) as [[a b] c]. split; reflexivity. Qed.
Lemma made_compiled sh c : made sh c -> exists gs, c = compile_compound sh gs.
Proof. intros H. induction H; try (eexists; reflexivity). unfold compound_align_to, bind in H0. destruct (align_offset _ _ _ _); [|discriminate]. injection H0 as <-. eexists. reflexivity. Qed.

(** If the geometries of a compound hang together, whatever is passed to the mesher as a hole lies in none of them, so no part of them is left without elements on this account. *)
Theorem C51_hole_marks sh c sizes min_angle coarse rq hs q g : marks_gaps sh -> made sh c -> connected_polygons sh (map gm_poly (cp_geoms c)) -> compound_create_mesh c sizes min_angle coarse = Ok rq -> rq_holes rq = Some hs -> In q hs -> In g (cp_geoms c) ->
  ~ in_polygon (gm_poly g) q.
Proof.
  intros M Hm Co E Hh Hq Hg. destruct (made_compiled sh c Hm) as (gs & ->). destruct (compiled_holes sh gs) as [Eg Eh].
  destruct (C69_compound_mesh (compile_compound sh gs) min_angle coarse) as (_ & _ & _ & _ & R). destruct (R sizes rq E) as (_ & _ & Rh & _). rewrite Hh in Rh.
  assert (hs = cp_holes (compile_compound sh gs)) as -> by (destruct (cp_holes (compile_compound sh gs)); [discriminate|injection Rh as <-; reflexivity]).
  rewrite Eh in Hq. rewrite Eg in Hg, Co. apply (M (map gm_poly gs) q (gm_poly g) Co Hq). apply in_map, Hg.
Qed.

(** ** A case: a channel closed by a bar; the gap between them is marked *)
Definition in_polygonb (p : polygon) (q : pt) : bool := negb (Z.eqb (winding q (ext p)) 0) && forallb (fun h => Z.eqb (winding q h) 0) (ints p).
Lemma in_polygonb_spec p q : in_polygonb p q = true <-> in_polygon p q.
Proof.
  unfold in_polygonb, in_polygon. rewrite andb_true_iff, negb_true_iff, Z.eqb_neq, forallb_forall, Forall_forall. split; intros [A B]; (split; [exact A|]); intros h Hh; specialize (B h Hh); apply Z.eqb_eq; exact B.
Qed.
Definition gap_shapely : shapely := mkShapely (fun p => hd (0, 0) (ext p)) (fun _ _ => true) (fun p l => Some (mkPoly (ext p) (map ext l)))
  (fun ps => filter (fun q => forallb (fun p => negb (in_polygonb p q)) ps) [(2, 2)]) (fun _ _ => true).
Definition gap_channel : polygon := mkPoly [(0, 0); (4, 0); (4, 1); (1, 1); (1, 3); (4, 3); (4, 4); (0, 4)] [].
Definition gap_bar : polygon := mkPoly [(4, 0); (5, 0); (5, 4); (4, 4)] [].
Lemma gap_poly p : poly_on_grid 12 p -> (exists v, In v (ext p) /\ v <> (0, 0)) -> gm_poly (new_geometry gap_shapely p default_material None 12) = p.
Proof. apply new_grid_poly. Qed.
Ltac windings := unfold winding, edges, crossing, turn; cbn [tl firstn combine app map fold_right fst snd]; repeat (destruct (Rle_dec _ _); try lra); cbn.
Example C51_hole_marks_met : marks_gaps gap_shapely /\ exists c rq, made gap_shapely c /\ connected_polygons gap_shapely (map gm_poly (cp_geoms c)) /\ map gm_poly (cp_geoms c) = [gap_channel; gap_bar] /\ compound_create_mesh c (SNumber 1) 30 false = Ok rq /\ rq_holes rq = Some [(2, 2)].
Proof.
  split.
  { intros ps q p _ Hq Hp K. cbn [gap_shapely sh_union_holes] in Hq. apply filter_In in Hq as [_ Hq]. rewrite forallb_forall in Hq. specialize (Hq p Hp). apply in_polygonb_spec in K. rewrite K in Hq. discriminate. }
  set (a := new_geometry gap_shapely gap_channel default_material None 12). set (b := new_geometry gap_shapely gap_bar default_material None 12).
  assert (Ea : gm_poly a = gap_channel). { apply gap_poly; [unfold gap_channel; repeat constructor; apply int_grid|]. exists (4, 0). split; [right; left; reflexivity|]. intros E. injection E. lra. }
  assert (Eb : gm_poly b = gap_bar). { apply gap_poly; [unfold gap_bar; repeat constructor; apply int_grid|]. exists (4, 0). split; [left; reflexivity|]. intros E. injection E. lra. }
  set (c := add_geometry gap_shapely (ISingle a) (ISingle b)). destruct (compiled_holes gap_shapely [a; b]) as [Eg Eh]. change (compile_compound gap_shapely [a; b]) with c in Eg, Eh.
  assert (Na : in_polygonb gap_channel (2, 2) = false) by (unfold in_polygonb, gap_channel; cbn [ext ints]; windings; reflexivity).
  assert (Nb : in_polygonb gap_bar (2, 2) = false) by (unfold in_polygonb, gap_bar; cbn [ext ints]; windings; reflexivity).
  assert (H : cp_holes c = [(2, 2)]) by (rewrite Eh; cbn [map gap_shapely sh_union_holes filter forallb]; rewrite Ea, Eb, Na, Nb; reflexivity).
  destruct (C69_compound_mesh c 30 false) as (R1 & _ & _ & _ & R). destruct (R1 1) as (rq & E & _). destruct (R _ rq E) as (_ & _ & Rh & _). exists c, rq.
  split; [apply made_sum|]. split; [intros i j Hi Hj; destruct (Nat.eq_dec i j) as [->|D]; [apply walk_nil; exact Hj|eapply walk_cons; [apply walk_nil; exact Hi|exact Hj|exact D|reflexivity]]|]. split; [rewrite Eg; cbn [map]; rewrite Ea, Eb; reflexivity|]. split; [exact E|]. rewrite Rh, H. reflexivity.
Qed.

(** ** An island: a square tube with a square bar in the middle of its hole. The hole of the union is the inside of the tube, its representative point is the
    middle, which lies in the bar: the bar would not be meshed. (These polygons touch each other if and only if they have the same number of holes.) *)
Definition island_tube : polygon := mkPoly [(0, 0); (10, 0); (10, 10); (0, 10)] [[(1, 1); (9, 1); (9, 9); (1, 9)]].
Definition island_bar : polygon := mkPoly [(4, 4); (6, 4); (6, 6); (4, 6)] [].
Definition has_hole (p : polygon) : bool := match ints p with [] => false | _ => true end.
Definition island_shapely : shapely := mkShapely (fun p => hd (0, 0) (ext p)) (fun _ _ => true) (fun p l => Some (mkPoly (ext p) (map ext l)))
  (fun ps => if existsb has_hole ps && existsb (fun p => negb (has_hole p)) ps then [(5, 5)] else []) (fun p q => Bool.eqb (has_hole p) (has_hole q)).
Lemma island_walk ps n i j : walk (touching island_shapely ps) n i j -> has_hole (nth i ps empty_polygon) = has_hole (nth j ps empty_polygon).
Proof. intros W. induction W as [i H|i j k W IH H D T]; [reflexivity|]. rewrite IH. unfold touching in T. cbn [island_shapely sh_intersects] in T. apply Bool.eqb_prop in T. exact T. Qed.
Lemma island_marks : marks_gaps island_shapely.
Proof.
  intros ps q p Co Hq _. exfalso. cbn [island_shapely sh_union_holes] in Hq. destruct (existsb has_hole ps) eqn:E1; [|destruct Hq]. destruct (existsb (fun p => negb (has_hole p)) ps) eqn:E2; [|destruct Hq].
  apply existsb_exists in E1 as (a & Ia & Ha). apply existsb_exists in E2 as (b & Ib & Hb). apply negb_true_iff in Hb. destruct (In_nth ps a empty_polygon Ia) as (i & Li & Ei). destruct (In_nth ps b empty_polygon Ib) as (j & Lj & Ej).
  pose proof (island_walk ps _ i j (Co i j Li Lj)) as W. rewrite Ei, Ej in W. congruence.
Qed.
Theorem C51_island_refuted : exists sh c rq g, marks_gaps sh /\ made sh c /\ map gm_poly (cp_geoms c) = [island_tube; island_bar] /\ ~ connected_polygons sh (map gm_poly (cp_geoms c)) /\
  compound_create_mesh c (SNumber 1) 30 false = Ok rq /\ rq_holes rq = Some [(5, 5)] /\ In g (cp_geoms c) /\ in_polygon (gm_poly g) (5, 5).
Proof.
  set (a := new_geometry island_shapely island_tube default_material None 12). set (b := new_geometry island_shapely island_bar default_material None 12).
  assert (Ea : gm_poly a = island_tube). { apply new_grid_poly; [unfold island_tube; repeat constructor; apply int_grid|]. exists (10, 0). split; [right; left; reflexivity|]. intros E. injection E. lra. }
  assert (Eb : gm_poly b = island_bar). { apply new_grid_poly; [unfold island_bar; repeat constructor; apply int_grid|]. exists (4, 4). split; [left; reflexivity|]. intros E. injection E. lra. }
  set (c := add_geometry island_shapely (ISingle a) (ISingle b)). destruct (compiled_holes island_shapely [a; b]) as [Eg Eh]. change (compile_compound island_shapely [a; b]) with c in Eg, Eh.
  assert (H : cp_holes c = [(5, 5)]) by (rewrite Eh; cbn [map]; rewrite Ea, Eb; reflexivity).
  destruct (C69_compound_mesh c 30 false) as (R1 & _ & _ & _ & R). destruct (R1 1) as (rq & E & _). destruct (R _ rq E) as (_ & _ & Rh & _). exists island_shapely, c, rq, b.
  split; [exact island_marks|]. split; [apply made_sum|]. split; [rewrite Eg; cbn [map]; rewrite Ea, Eb; reflexivity|]. split.
  - intros Co. rewrite Eg in Co. cbn [map] in Co. rewrite Ea, Eb in Co. pose proof (island_walk _ _ 0%nat 1%nat (Co 0%nat 1%nat ltac:(cbn; lia) ltac:(cbn; lia))) as W. discriminate W.
  - split; [exact E|]. split; [rewrite Rh, H; reflexivity|]. split; [rewrite Eg; right; left; reflexivity|]. rewrite Eb. apply in_polygonb_spec. unfold in_polygonb, island_bar. cbn [ext ints]. windings; reflexivity.
Qed.

Print Assumptions C51_hole_marks.
Print Assumptions C51_island_refuted.
Print Assumptions C51_hole_marks_met.
