(** Theorems about geometries (C50-C56, C58, C69). Numbers are reals; the vertices of a Geometry are rounded to its
    tolerance ([near], [half], [on_grid] in S_Geometry). *)
From Coq Require Import String Reals List Bool Arith ZArith Lia Lra Permutation.
From Verif Require Import Base M_Fea M_Init M_Geometry S_Geometry P_Geometry P_Geometry2 P_Geometry3 P_Geometry4 P_Geometry5 P_Geometry6 P_Geometry7 P_Geometry8 P_Geometry9 P_ShiftPoints.
Import ListNotations.
Local Open Scope R_scope.

(** * C50: points and facets of a polygon *)

(** The facets are the edges of the rounded rings, one closed ring after the other; every point is the first end of
    exactly one facet and the second end of exactly one facet. *)
Theorem C50_facets_closed_rings : forall p tol, let '(points, facets) := create_points_and_facets p tol in
  exists rs, Forall2 (Forall2 (near tol)) (rings p) rs /\ points = concat rs /\
  edges points facets = concat (map ring_edges rs) /\
  map fst facets = seq 0 (length points) /\ Permutation (map snd facets) (seq 0 (length points)).
Proof.
  intros p tol. rewrite create_points_and_facets_eq. exists (map (map (round_pt tol)) (rings p)).
  split; [apply Forall2_map_r, Forall2_self; intros r; apply Forall2_map_r, Forall2_self; intros v; apply round_pt_near|]. split; [reflexivity|].
  rewrite <- (chain_rings_map (round_pt tol)). split; [exact (chain_edges (map (map (round_pt tol)) (rings p)) [])|]. split; [apply chain_fst|apply chain_snd].
Qed.
Print Assumptions C50_facets_closed_rings.

(** The same for the points and facets of a Geometry object: its rings exactly. *)
Theorem C50_geometry_edges : forall sh g, is_geometry sh g ->
  gm_points g = concat (rings (gm_poly g)) /\
  edges (gm_points g) (gm_facets g) = concat (map ring_edges (rings (gm_poly g))) /\
  map fst (gm_facets g) = seq 0 (length (gm_points g)) /\ Permutation (map snd (gm_facets g)) (seq 0 (length (gm_points g))).
Proof.
  intros sh g H. destruct (geometry_points sh g H) as (_ & P & F). rewrite P, F. split; [reflexivity|].
  split; [exact (chain_edges (rings (gm_poly g)) [])|]. split; [apply chain_fst|apply chain_snd].
Qed.
Print Assumptions C50_geometry_edges.

(** The generic shape of create_facets: an open chain or a closed one. *)
Theorem C50_create_facets : forall n offset, (1 <= n)%nat ->
  (forall k, (k < n)%nat -> nth_error (create_facets n true offset) k = Some (offset + k, if Nat.eqb (S k) n then offset else offset + k + 1)%nat) /\
  length (create_facets n true offset) = n /\ create_facets n false offset = firstn (n - 1) (create_facets n true offset).
Proof.
  intros n off Hn. rewrite create_facets_eq.
  assert (L : length (ring_facets (seq off n)) = n) by (rewrite <- (map_length fst), ring_facets_fst; apply seq_length).
  split; [|split; [exact L|]].
  - intros k Hk. assert (Kl : (k < length (ring_facets (seq off n)))%nat) by lia.
    rewrite (nth_error_nth' _ (0%nat, 0%nat) Kl). f_equal. match goal with |- ?x = _ => transitivity (fst x, snd x); [apply surjective_pairing|] end. f_equal.
    + rewrite <- (map_nth fst), ring_facets_fst. cbn [fst]. apply seq_nth, Hk.
    + rewrite <- (map_nth snd), ring_facets_snd. cbn [snd]. destruct n as [|n]; [lia|]. cbn [seq tl firstn].
      destruct (Nat.eqb_spec (S k) (S n)) as [E|E].
      * rewrite app_nth2; rewrite seq_length; [|lia]. replace (k - n)%nat with 0%nat by lia. reflexivity.
      * rewrite app_nth1 by (rewrite seq_length; lia). rewrite seq_nth by lia. lia.
  - unfold create_facets at 1. rewrite removelast_firstn_len.
    fold (create_facets n true off). change (combine (map (fun i => (i + off)%nat) (seq 0 n)) (tl (map (fun i => (i + off)%nat) (seq 0 n)) ++ [off])) with (create_facets n true off).
    rewrite create_facets_eq, L. f_equal. lia.
Qed.
Print Assumptions C50_create_facets.
Example C50_ex : is_geometry toy frame_geom /\ gm_poly frame_geom = frame /\ length (rings frame) = 2%nat.
Proof. split; [apply frame_is|]. split; [apply frame_poly|reflexivity]. Qed.

(** * C51: compilation of a compound *)
Theorem C51_compile : forall sh gs, Forall (is_geometry sh) gs -> let c := compile_compound sh gs in
  NoDup (cp_points c) /\ (forall x, In x (cp_points c) <-> In x (concat (map gm_points gs))) /\
  Forall (fun f => (fst f < length (cp_points c))%nat /\ (snd f < length (cp_points c))%nat) (cp_facets c) /\
  edges (cp_points c) (cp_facets c) = concat (map (fun g => edges (gm_points g) (gm_facets g)) gs) /\
  cp_control c = concat (map gm_control gs) /\ cp_geoms c = gs.
Proof.
  intros sh gs H c. assert (G : Forall good_geom gs) by (eapply Forall_impl; [|exact H]; intros g; apply geometry_good).
  pose proof (compile_fold gs [] [] [] G (NoDup_nil _) (Forall_nil _)) as K. unfold c, compile_compound. destruct (fold_left compile_step gs ([], [], [])) as [[p f] q].
  destruct K as (N & B & E & I & C). cbn [cp_points cp_facets cp_control cp_geoms].
  split; [exact N|]. split; [intros x; rewrite I; cbn; tauto|]. split; [exact B|]. split; [exact E|]. split; [exact C|reflexivity].
Qed.
Print Assumptions C51_compile.
(** One control point for each member, in order: the assigned one, or shapely's representative point. *)
Theorem C51_control_points : forall sh gs, Forall (is_geometry sh) gs -> Forall nonempty gs ->
  cp_control (compile_compound sh gs) = map (fun g => match gm_assigned g with Some c => c | None => sh_rep sh (gm_poly g) end) gs.
Proof.
  intros sh gs H NE. rewrite compile_control. induction H as [|g gs G _ IH]; [reflexivity|]. apply Forall_cons_iff in NE. destruct NE as [NE NEs]. cbn [map concat]. rewrite (IH NEs).
  destruct (geometry_control sh g G NE) as (c & -> & A & B). cbn [app]. f_equal. destruct (gm_assigned g) as [a|]; [apply A|apply B]; reflexivity.
Qed.
Print Assumptions C51_control_points.
(** assign_control_point: the region is meshed from the given point; nothing else changes. *)
Theorem C51_assign_control_point : forall sh g c, is_geometry sh g -> let h := assign_control_point sh g c in
  is_geometry sh h /\ gm_control h = [c] /\ gm_assigned h = Some c /\
  gm_poly h = gm_poly g /\ gm_mat h = gm_mat g /\ gm_tol h = gm_tol g /\ gm_points h = gm_points g /\ gm_facets h = gm_facets g /\ gm_holes h = gm_holes g.
Proof.
  intros sh g c G h. unfold h, assign_control_point. destruct (new_geometry_poly sh (gm_poly g) (gm_mat g) (Some c) (gm_tol g)) as (P & M & A & T).
  rewrite (geometry_round sh g G) in P. pose proof (new_is_geometry sh (gm_poly g) (gm_mat g) (Some c) (gm_tol g)) as G'. set (h' := new_geometry sh (gm_poly g) (gm_mat g) (Some c) (gm_tol g)) in *.
  destruct (geometry_points sh g G) as (_ & P1 & F1). destruct (geometry_points sh h' G') as (_ & P2 & F2). pose proof (geometry_holes sh g G) as H1. pose proof (geometry_holes sh h' G') as H2.
  rewrite P in P2, F2, H2. split; [exact G'|]. split; [unfold h', new_geometry; destruct (create_points_and_facets _ _); reflexivity|]. repeat split; congruence.
Qed.
Print Assumptions C51_assign_control_point.
(** Two squares with a common edge share its two points. *)
Definition square1 : geom := new_geometry toy (mkPoly (box 0 0 1 1) []) default_material None 12.
Example C51_assign_control_point_met : is_geometry toy square1.
Proof. apply new_is_geometry. Qed.
Definition square2 : geom := new_geometry toy (mkPoly (box 1 0 2 1) []) default_material None 12.
Lemma box_poly x1 y1 x2 y2 m c : (x2 <> 0 \/ y1 <> 0)%Z -> gm_poly (new_geometry toy (mkPoly (box x1 y1 x2 y2) []) m c 12) = mkPoly (box x1 y1 x2 y2) [].
Proof.
  intros H. apply new_grid_poly; [repeat constructor; apply int_grid|]. exists (ipt x2 y1). split; [right; left; reflexivity|].
  intros E. injection E as E1 E2. apply (eq_IZR x2 0) in E1. apply (eq_IZR y1 0) in E2. destruct H; contradiction.
Qed.
Example C51_ex : is_geometry toy square1 /\ is_geometry toy square2 /\ In (ipt 1 0) (gm_points square1) /\ In (ipt 1 0) (gm_points square2).
Proof.
  assert (I1 : is_geometry toy square1) by apply new_is_geometry. assert (I2 : is_geometry toy square2) by apply new_is_geometry.
  split; [exact I1|]. split; [exact I2|]. destruct (geometry_points toy _ I1) as (_ & -> & _). destruct (geometry_points toy _ I2) as (_ & -> & _).
  unfold square1, square2. rewrite !box_poly by (left; discriminate). cbn. tauto.
Qed.

(** * C52: from_points *)

(** Facets that run through the loops [l] (exterior) and [ls] (holes), one after the other: shapely gets exactly these
    loops. Each loop has at least three points, is not closed by a repeated point, is not a copy of the exterior, and
    consecutive loops start at different points; one hole point for each hole. *)
Theorem C52_from_points_loops : forall sh points l ls c holes m,
  Forall (fun k => Forall (fun i => (i < length points)%nat) k /\ open_loop (map (at_ points) k)) (l :: ls) -> separate (head_of l) ls ->
  length holes = length ls -> Forall (fun k => map (at_ points) k <> map (at_ points) l) ls ->
  forall p, build_polygon sh (map (at_ points) l) (map (map (at_ points)) ls) = Some p ->
  from_points sh points (concat (map ring_facets (l :: ls))) [c] holes m = Ok (new_geometry sh p m (Some c) 12).
Proof. intros sh points l ls c holes m A B C D p E. rewrite from_points_valid by assumption. rewrite E. reflexivity. Qed.
Print Assumptions C52_from_points_loops.

(** A region or hole described by fewer than three points is refused. *)
Theorem C52_few_points : forall sh points l ls c holes m,
  Forall (fun k => k <> [] /\ Forall (fun i => (i < length points)%nat) k) (l :: ls) -> separate (head_of l) ls ->
  length holes = length ls -> Forall (fun k => map (at_ points) k <> map (at_ points) l) ls ->
  Exists (fun k => (length k < 3)%nat) (l :: ls) ->
  from_points sh points (concat (map ring_facets (l :: ls))) [c] holes m = Err ValueError.
Proof.
  intros sh points l ls c holes m A B C D E. rewrite (from_points_loops sh points l ls [c] holes m A B C D c eq_refl).
  assert (F : forall k, make_polygon k = Err ValueError \/ exists q, make_polygon k = Ok q) by (intros k; unfold make_polygon, make_ring; destruct k; [right; eexists; reflexivity|]; destruct (Nat.ltb _ 3); [left; reflexivity|right; eexists; reflexivity]).
  assert (G : forall k, k <> [] -> (length k < 3)%nat -> make_polygon (map (at_ points) k) = Err ValueError).
  { intros [|i [|j [|h k]]] N L; cbn in L; try lia; [contradiction|reflexivity|]. unfold make_polygon, make_ring, open_ring. cbn [map last]. destruct (pt_eqb _ _); reflexivity. }
  destruct (F (map (at_ points) l)) as [->|[q Q]]; [reflexivity|]. rewrite Q. cbn [bind].
  assert (H : map_result (fun k => make_polygon (map (at_ points) k)) ls = Err ValueError); [|rewrite H; reflexivity].
  apply Forall_cons_iff in A. destruct A as [[Al _] A]. apply Exists_cons in E. destruct E as [E|E]; [rewrite (G l Al E) in Q; discriminate Q|].
  clear - A E F G. induction ls as [|k ls IH]; [inversion E|]. apply Forall_cons_iff in A. destruct A as [[Ak _] A]. cbn [map_result].
  apply Exists_cons in E. destruct E as [E|E]; [rewrite (G k Ak E); reflexivity|]. destruct (F (map (at_ points) k)) as [->|[q ->]]; [reflexivity|]. cbn [bind]. rewrite (IH A E). reflexivity.
Qed.
Example C52_few_points_met : forall sh c m, from_points sh [(0, 0); (1, 0)] [(0, 1); (1, 0)]%nat [c] [] m = Err ValueError.
Proof.
  intros sh c m. apply (C52_few_points sh [(0, 0); (1, 0)] [0; 1]%nat [] c [] m); [| | | |].
  - constructor; [|constructor]. split; [discriminate|]. repeat constructor.
  - exact I.
  - reflexivity.
  - constructor.
  - constructor. cbn. lia.
Qed.
Print Assumptions C52_few_points.

(** Exporting and rebuilding: if shapely gives the polygon back from its exterior and interiors, the rebuilt Geometry has
    the same polygon, control point and points (tolerance at most 12, the default of the rebuilt object). *)
Theorem C52_export_rebuild : forall sh g, is_geometry sh g -> (gm_tol g <= 12)%nat ->
  Forall open_loop (rings (gm_poly g)) -> ~ In (ext (gm_poly g)) (ints (gm_poly g)) ->
  build_polygon sh (ext (gm_poly g)) (ints (gm_poly g)) = Some (gm_poly g) ->
  exists g', from_points sh (gm_points g) (gm_facets g) (gm_control g) (gm_holes g) (gm_mat g) = Ok g' /\
  gm_poly g' = gm_poly g /\ gm_points g' = gm_points g /\ gm_facets g' = gm_facets g /\ gm_holes g' = gm_holes g /\ gm_control g' = gm_control g /\ gm_mat g' = gm_mat g.
Proof.
  intros sh g G T V N B. destruct (geometry_points sh g G) as (Gr & P & F).
  assert (NE : nonempty g) by (intros E; apply Forall_cons_iff in V; destruct V as [[V _] _]; rewrite E in V; cbn in V; lia). destruct (geometry_control sh g G NE) as (c & C & _).
  pose proof (geometry_holes sh g G) as Ho.
  rewrite P, F, C. exists (new_geometry sh (gm_poly g) (gm_mat g) (Some c) 12).
  split. { unfold rings. rewrite from_rings; [rewrite B; reflexivity|exact V|rewrite Ho, map_length; reflexivity|exact N]. }
  assert (Q : gm_poly (new_geometry sh (gm_poly g) (gm_mat g) (Some c) 12) = gm_poly g).
  { destruct (new_geometry_poly sh (gm_poly g) (gm_mat g) (Some c) 12) as (-> & _). apply (round_finer (gm_tol g)); [exact T|exact Gr|apply (geometry_round sh), G]. }
  assert (G' : is_geometry sh (new_geometry sh (gm_poly g) (gm_mat g) (Some c) 12)) by apply new_is_geometry.
  destruct (geometry_points sh _ G') as (_ & P' & F'). pose proof (geometry_holes sh _ G') as Ho'. destruct (geometry_control sh _ G') as (c' & C' & A' & _); [unfold nonempty; rewrite Q; exact NE|].
  rewrite Q in *. rewrite P', F', Ho', Ho, C'. repeat split. f_equal. apply A'. all: apply new_geometry_poly.
Qed.
Print Assumptions C52_export_rebuild.
Example C52_ex : is_geometry toy frame_geom /\ (gm_tol frame_geom <= 12)%nat /\ Forall open_loop (rings (gm_poly frame_geom)) /\
  ~ In (ext (gm_poly frame_geom)) (ints (gm_poly frame_geom)) /\
  build_polygon toy (ext (gm_poly frame_geom)) (ints (gm_poly frame_geom)) = Some (gm_poly frame_geom).
Proof.
  rewrite frame_tol, frame_poly. split; [apply frame_is|]. split; [lia|]. split; [|split; [|reflexivity]].
  - repeat constructor; cbn; intros _ E; injection E as E; lra.
  - intros [E|[]]. injection E as E. lra.
Qed.

(** Any other number of control points than one: ValueError. *)
Theorem C52_control_count : forall sh points facets control holes m, length control <> 1%nat ->
  from_points sh points facets control holes m = Err ValueError.
Proof. intros sh points facets [|c [|d l]] holes m H; [reflexivity|exfalso; apply H; reflexivity|reflexivity]. Qed.
Print Assumptions C52_control_count.
(** Some hole points, but fewer than holes: IndexError. *)
Theorem C52_too_few_holes : forall sh points l ls c holes m,
  Forall (fun k => k <> [] /\ Forall (fun i => (i < length points)%nat) k) (l :: ls) -> separate (head_of l) ls ->
  holes <> [] -> (length holes < length ls)%nat -> Forall (fun k => map (at_ points) k <> map (at_ points) l) ls ->
  from_points sh points (concat (map ring_facets (l :: ls))) [c] holes m = Err IndexError.
Proof. intros. apply from_points_short; assumption. Qed.
Print Assumptions C52_too_few_holes.
(** With no hole point at all a second loop is not recognised: all points become one exterior. *)
Definition six : list pt := [ipt 0 0; ipt 9 0; ipt 0 9; ipt 1 1; ipt 2 1; ipt 1 2].
Theorem C52_no_hole_points_refuted : exists points facets,
  facets = ring_facets [0; 1; 2]%nat ++ ring_facets [3; 4; 5]%nat /\
  forall sh c m, from_points sh points facets [c] [] m =
    match sh_difference sh (mkPoly points []) [] with Some p => Ok (new_geometry sh p m (Some c) 12) | None => Err RuntimeError end.
Proof.
  exists six, [(0, 1); (1, 2); (2, 0); (3, 4); (4, 5); (5, 3)]%nat. split; [reflexivity|]. intros sh c m. unfold from_points.
  cbn [fold_result from_points_step nth_error six fst snd lp_prev bind append_active lp_active lp_ext lp_ints lp_count negb andb Nat.eqb map app map_result].
  rewrite (open_loop_ring [ipt 0 0; ipt 9 0; ipt 0 9; ipt 1 1; ipt 2 1; ipt 1 2]); [reflexivity|].
  split; [cbn; lia|]. intros a. cbn. intros E. injection E as E. lra.
Qed.
Print Assumptions C52_no_hole_points_refuted.

(** * C53: rigid motions *)

(** shift_section moves every vertex of every ring and the assigned control point by (dx, dy), then rounds the vertices to the
    tolerance. *)
Theorem C53_shift : forall sh g dx dy, is_geometry sh g -> proper g -> ~ tie (gm_tol g) dx -> ~ tie (gm_tol g) dy ->
  isometry (translate_pt dx dy) /\ (forall p, translate_pt dx dy p = (fst p + dx, snd p + dy)) /\ moved (translate_pt dx dy) g (shift_section sh g dx dy).
Proof.
  intros sh g dx dy G P X Y. split; [apply isometry_translate|]. split; [reflexivity|]. apply shift_moved.
  apply (away_ext (axis_map 1 1 dx dy)); [intros v; symmetry; apply translate_axis|]. apply (axis_away sh); auto.
Qed.
Print Assumptions C53_shift.
(** rotate_section: rotation about the given point, or the centre of the bounding box; anticlockwise, in degrees or radians. *)
Theorem C53_rotate : forall sh g angle o (rad : bool), let theta := if rad then angle else angle * PI / 180 in
  let c := match o with Center => box_center (bounds [gm_poly g]) | At p => p end in
  let f := fun p : pt => (fst c + (fst p - fst c) * cos theta - (snd p - snd c) * sin theta, snd c + (fst p - fst c) * sin theta + (snd p - snd c) * cos theta) in
  away f g -> isometry f /\ f c = c /\ moved f g (rotate_section sh g angle o rad).
Proof.
  intros sh g angle o rad theta c f A. assert (E : f = rotate_pt (angle_of angle rad) (origin_of o [gm_poly g])) by reflexivity.
  split; [rewrite E; apply isometry_rotate|]. split; [transitivity (fst c, snd c); [unfold f; f_equal; ring|symmetry; apply surjective_pairing]|]. rewrite E in *. apply rotate_moved, A.
Qed.
Print Assumptions C53_rotate.
(** the centre used: middle of the least and greatest coordinates *)
Theorem C53_box_center : forall ps x1 x2 y1 y2, exterior_points ps <> [] -> extreme AtLeft x1 (exterior_points ps) -> extreme AtRight x2 (exterior_points ps) ->
  extreme AtBottom y1 (exterior_points ps) -> extreme AtTop y2 (exterior_points ps) -> box_center (bounds ps) = ((x1 + x2) / 2, (y1 + y2) / 2).
Proof.
  intros ps x1 x2 y1 y2 N A B C D. rewrite box_center_extents.
  rewrite (extreme_unique _ _ _ _ A (extents_extreme ps AtLeft N)), (extreme_unique _ _ _ _ B (extents_extreme ps AtRight N)),
    (extreme_unique _ _ _ _ C (extents_extreme ps AtBottom N)), (extreme_unique _ _ _ _ D (extents_extreme ps AtTop N)). reflexivity.
Qed.
Print Assumptions C53_box_center.
(** mirror_section about a point: axis "x" reflects y, axis "y" reflects x. *)
Theorem C53_mirror : forall sh g p, is_geometry sh g -> proper g ->
  (~ tie (gm_tol g) (2 * snd p) -> let f := fun q : pt => (fst q, 2 * snd p - snd q) in isometry f /\ moved f g (mirror_section sh g "x" (At p))) /\
  (~ tie (gm_tol g) (2 * fst p) -> let f := fun q : pt => (2 * fst p - fst q, snd q) in isometry f /\ moved f g (mirror_section sh g "y" (At p))).
Proof.
  intros sh g p G P.
  assert (M : forall axis fx fy f, mirror_factors axis = (fx, fy) -> fx = 1 \/ fx = -1 -> fy = 1 \/ fy = -1 -> (forall q, f q = scale_pt fx fy p q) ->
    ~ tie (gm_tol g) (fst p - fx * fst p) -> ~ tie (gm_tol g) (snd p - fy * snd p) -> isometry f /\ moved f g (mirror_section sh g axis (At p))).
  { intros axis fx fy f F SX SY E NX NY. split.
    - intros a b. rewrite !E. apply isometry_scale; [destruct SX as [-> | ->]|destruct SY as [-> | ->]]; ring.
    - assert (A : away (scale_pt fx fy p) g).
      { eapply away_ext; [|apply (axis_away sh g fx fy (fst p - fx * fst p) (snd p - fy * snd p)); assumption]. intros v. symmetry. apply scale_axis. }
      destruct (mirror_moved sh g axis p fx fy F A) as (M1 & M2 & M3). split; [|split; [|exact M3]].
      + eapply Forall2_impl; [|exact M1]. intros r r' Hr. eapply Forall2_impl; [|exact Hr]. intros v v'. rewrite E. exact (fun x => x).
      + rewrite M2. destruct (gm_assigned g); cbn; [rewrite E|]; reflexivity. }
  split; intros T f.
  - apply (M "x"%string 1 (-1)); auto; [intros q; unfold f, scale_pt; f_equal; ring|replace (fst p - 1 * fst p) with 0 by ring; apply grid_not_tie, grid_0|replace (snd p - -1 * snd p) with (2 * snd p) by ring; exact T].
  - apply (M "y"%string (-1) 1); auto; [intros q; unfold f, scale_pt; f_equal; ring|replace (fst p - -1 * fst p) with (2 * fst p) by ring; exact T|replace (snd p - 1 * snd p) with 0 by ring; apply grid_not_tie, grid_0].
Qed.
Print Assumptions C53_mirror.
(** mirror_section "center", no assigned control point: reflection in the centre line of the bounding box. *)
Theorem C53_mirror_center : forall sh g, is_geometry sh g -> proper g -> gm_assigned g = None -> let c := box_center (bounds [gm_poly g]) in
  moved (fun q => (fst q, 2 * snd c - snd q)) g (mirror_section sh g "x" Center) /\ moved (fun q => (2 * fst c - fst q, snd q)) g (mirror_section sh g "y" Center).
Proof.
  intros sh g G P N c.
  assert (M : forall axis f, axis = "x"%string \/ axis = "y"%string -> (forall q fx fy, mirror_factors axis = (fx, fy) -> f q = scale_pt fx fy c q) -> moved f g (mirror_section sh g axis Center)).
  { intros axis f Ha E. destruct (mirror_center_facts sh g axis Ha G P) as (fx & fy & F & _ & _ & _ & _ & _ & A).
    destruct (mirror_center_moved sh g axis fx fy F N A) as (M1 & M2 & M3). split; [|split; [|exact M3]].
    - eapply Forall2_impl; [|exact M1]. intros r r' Hr. eapply Forall2_impl; [|exact Hr]. intros v v'. rewrite (E v fx fy F). exact (fun x => x).
    - rewrite M2, N. reflexivity. }
  split; apply M; auto; intros q fx fy F; cbn in F; injection F as <- <-; unfold scale_pt; f_equal; ring.
Qed.
Print Assumptions C53_mirror_center.
(** An assigned control point is not mirrored with "center": it stays where it is, here outside the mirrored section. *)
Definition elbow : polygon := mkPoly [ipt 0 0; ipt 3 0; ipt 3 1; ipt 1 1; ipt 1 3; ipt 0 3] [].
Definition elbow_geom : geom := new_geometry toy elbow default_material (Some (1 / 2, 2)) 12.
Theorem C53_mirror_center_control_refuted : exists sh g, is_geometry sh g /\ proper g /\
  gm_assigned (mirror_section sh g "y" Center) <> option_map (fun q => (2 * fst (box_center (bounds [gm_poly g])) - fst q, snd q)) (gm_assigned g).
Proof.
  exists toy, elbow_geom. assert (E : gm_poly elbow_geom = elbow).
  { apply new_grid_poly; [repeat constructor; apply int_grid|]. exists (ipt 3 0). split; [right; left; reflexivity|]. intros E. injection E as E. lra. }
  split; [apply new_is_geometry|]. split.
  - exists (ipt 0 0), (ipt 3 0). rewrite E. repeat split; [left; reflexivity|right; left; reflexivity|]. intros X. injection X as X. lra.
  - assert (A : gm_assigned elbow_geom = Some (1 / 2, 2)) by apply new_geometry_poly.
    assert (A' : gm_assigned (mirror_section toy elbow_geom "y" Center) = Some (1 / 2, 2)).
    { unfold mirror_section. destruct (mirror_factors "y") as [fx fy].
      destruct (new_geometry_poly toy (map_polygon (scale_pt fx fy (origin_of Center [gm_poly elbow_geom])) (gm_poly elbow_geom)) (gm_mat elbow_geom)
        (option_map (fun c => scale_pt fx fy c c) (gm_assigned elbow_geom)) (gm_tol elbow_geom)) as (_ & _ & C & _). rewrite C, A. cbn [option_map]. rewrite scale_self. reflexivity. }
    rewrite A', A, E. cbn [option_map fst snd].
    rewrite (C53_box_center [elbow] 0 3 0 3); [cbn [fst]; intros X; injection X as X; lra|discriminate|..];
      cbn [extreme exterior_points map concat app ext elbow ipt fst snd]; (split; [repeat (try (left; reflexivity); right)|]);
      intros x H; repeat destruct H as [<-|H]; try lra; destruct H.
Qed.
Print Assumptions C53_mirror_center_control_refuted.

(** Motions preserve areas: exactly before rounding, and with the rounded vertices up to a bound proportional to the number
    of vertices and the size [M] of the coordinates. *)
Theorem C53_area_exact : forall p,
  (forall dx dy, poly_area (map_polygon (translate_pt dx dy) p) = poly_area p) /\
  (forall theta o, poly_area (map_polygon (rotate_pt theta o) p) = poly_area p) /\
  (forall o, poly_area (map_polygon (scale_pt 1 (-1) o) p) = poly_area p /\ poly_area (map_polygon (scale_pt (-1) 1 o) p) = poly_area p).
Proof.
  intros p. split; [intros; apply area_translate|]. split; [intros; apply area_rotate|]. intros o. split; apply area_scale; right; ring.
Qed.
Print Assumptions C53_area_exact.
Theorem C53_area_rounded : forall sh g M, 0 <= M ->
  let small g' := Rabs (poly_area (gm_poly g') - poly_area (gm_poly g)) <= INR (vertex_count g) * (2 * M * half (gm_tol g) + half (gm_tol g) * half (gm_tol g)) in
  (forall dx dy, away (translate_pt dx dy) g -> within M (translate_pt dx dy) g -> small (shift_section sh g dx dy)) /\
  (forall angle o rad, let f := rotate_pt (angle_of angle rad) (origin_of o [gm_poly g]) in away f g -> within M f g -> small (rotate_section sh g angle o rad)) /\
  (forall p, let f := scale_pt 1 (-1) p in away f g -> within M f g -> small (mirror_section sh g "x" (At p))) /\
  (forall p, let f := scale_pt (-1) 1 p in away f g -> within M f g -> small (mirror_section sh g "y" (At p))).
Proof.
  intros sh g M HM small. split; [|split; [|split]].
  - intros dx dy A W. apply (moved_area (translate_pt dx dy)); [apply shift_moved, A|exact HM|exact W|apply area_translate].
  - intros angle o rad f A W. apply (moved_area f); [apply rotate_moved, A|exact HM|exact W|apply area_rotate].
  - intros p f A W. apply (moved_area f); [apply mirror_moved; [reflexivity|exact A]|exact HM|exact W|apply area_scale; right; ring].
  - intros p f A W. apply (moved_area f); [apply mirror_moved; [reflexivity|exact A]|exact HM|exact W|apply area_scale; right; ring].
Qed.
Print Assumptions C53_area_rounded.
(** Shifts by grid numbers add up; a shift followed by the opposite shift, and mirroring twice, give the same object. *)
Theorem C53_shift_additive : forall sh g dx dy ex ey, is_geometry sh g -> proper g -> on_grid (gm_tol g) dx -> on_grid (gm_tol g) dy ->
  shift_section sh (shift_section sh g dx dy) ex ey = shift_section sh g (dx + ex) (dy + ey).
Proof. intros. apply shift_shift; assumption. Qed.
Print Assumptions C53_shift_additive.
Theorem C53_shift_inverse : forall sh g dx dy, is_geometry sh g -> proper g -> ~ tie (gm_tol g) dx -> ~ tie (gm_tol g) dy ->
  shift_section sh (shift_section sh g dx dy) (- dx) (- dy) = g.
Proof. intros. apply shift_inverse; assumption. Qed.
Print Assumptions C53_shift_inverse.
Theorem C53_mirror_involutive : forall sh g p, is_geometry sh g -> proper g ->
  (~ tie (gm_tol g) (2 * snd p) -> mirror_section sh (mirror_section sh g "x" (At p)) "x" (At p) = g) /\
  (~ tie (gm_tol g) (2 * fst p) -> mirror_section sh (mirror_section sh g "y" (At p)) "y" (At p) = g) /\
  mirror_section sh (mirror_section sh g "x" Center) "x" Center = g /\ mirror_section sh (mirror_section sh g "y" Center) "y" Center = g.
Proof.
  intros sh g p G P. split; [|split; [|split]].
  - intros T. apply mirror_back; auto. discriminate.
  - intros T. apply mirror_back; auto. discriminate.
  - apply mirror_center_back; auto.
  - apply mirror_center_back; auto.
Qed.
Print Assumptions C53_mirror_involutive.
(** Additivity for arbitrary offsets fails because of the rounding: with tolerance 0, 0.3 twice is not 0.6. *)
Theorem C53_shift_additive_any_offset_refuted : exists sh g d, is_geometry sh g /\ proper g /\
  shift_section sh (shift_section sh g d 0) d 0 <> shift_section sh g (d + d) 0.
Proof.
  exists toy, (new_geometry toy (mkPoly (box 0 0 2 1) []) default_material None 0), (3 / 10). set (g := new_geometry _ _ _ _ _).
  assert (E : gm_poly g = mkPoly (box 0 0 2 1) []).
  { apply new_grid_poly; [repeat constructor; apply int_grid|]. exists (ipt 2 0). split; [right; left; reflexivity|]. intros E. injection E as E. lra. }
  assert (G : is_geometry toy g) by apply new_is_geometry.
  assert (T : gm_tol g = 0%nat) by apply new_geometry_poly.
  assert (P : proper g) by (exists (ipt 0 0), (ipt 2 0); rewrite E; repeat split; [left; reflexivity|right; left; reflexivity|]; intros X; injection X as X; lra).
  split; [exact G|]. split; [exact P|].
  assert (R0 : forall k : Z, round_to 0 (IZR k + 3 / 10) = IZR k).
  { intros k. apply round_to_unique; [apply int_grid|]. unfold half. cbn [pow]. replace (IZR k - (IZR k + 3 / 10)) with (- (3 / 10)) by ring. rewrite Rabs_Ropp, Rabs_right by lra. lra. }
  assert (Rz : forall k : Z, round_to 0 (IZR k + 0) = IZR k) by (intros k; rewrite Rplus_0_r; apply round_to_id, int_grid).
  assert (S1 : forall h, gm_poly h = mkPoly (box 0 0 2 1) [] -> gm_tol h = 0%nat -> gm_poly (shift_section toy h (3 / 10) 0) = mkPoly (box 0 0 2 1) [] /\ gm_tol (shift_section toy h (3 / 10) 0) = 0%nat).
  { intros h Eh Th. split; [|unfold shift_section; destruct (new_geometry_poly toy (map_polygon (translate_pt (3 / 10) 0) (gm_poly h)) (gm_mat h) (option_map (translate_pt (3 / 10) 0) (gm_assigned h)) (gm_tol h)) as (_ & _ & _ & ->); exact Th].
    rewrite shift_poly.
    - rewrite Eh, Th. unfold map_polygon, box, ipt. cbn [ext ints map]. unfold round_pt, translate_pt. cbn [fst snd]. rewrite !R0, !Rz. reflexivity.
    - exists (ipt 2 0). rewrite Eh, Th. split; [right; left; reflexivity|]. left. unfold translate_pt, ipt, half. cbn [fst pow]. rewrite Rabs_right by lra. lra. }
  intros X. apply (f_equal gm_poly) in X. destruct (S1 g E T) as [E1 T1]. destruct (S1 _ E1 T1) as [E2 _]. rewrite E2 in X. clear E2.
  rewrite shift_poly in X.
  - rewrite E, T in X. apply (f_equal (fun p => fst (nth 1 (ext p) (0, 0)))) in X. unfold map_polygon, box, ipt, round_pt, translate_pt in X. cbn [ext map nth fst snd] in X.
    rewrite (round_to_unique 0 (2 + (3 / 10 + 3 / 10)) (IZR 3)) in X; [lra|apply int_grid|]. unfold half. cbn [pow]. replace (3 - (2 + (3 / 10 + 3 / 10))) with (4 / 10) by field. rewrite Rabs_right by lra. lra.
  - exists (ipt 2 0). rewrite E, T. split; [right; left; reflexivity|]. left. unfold translate_pt, ipt, half. cbn [fst pow]. rewrite Rabs_right by lra. lra.
Qed.
Print Assumptions C53_shift_additive_any_offset_refuted.
Example C53_ex : is_geometry toy frame_geom /\ proper frame_geom /\ ~ tie (gm_tol frame_geom) 7 /\ on_grid (gm_tol frame_geom) 7 /\
  away (rotate_pt (angle_of 90 false) (origin_of Center [gm_poly frame_geom])) frame_geom.
Proof.
  split; [apply frame_is|]. split; [apply frame_proper|]. split; [apply grid_not_tie, (int_grid _ 7)|]. split; [apply (int_grid _ 7)|].
  exists (ipt 1 1). rewrite frame_poly, frame_tol. split; [left; reflexivity|]. left. cbn [origin_of].
  rewrite (C53_box_center [frame] 1 5 1 5); [|discriminate|cbn [extreme exterior_points map concat app ext frame box ipt fst snd];
    (split; [repeat (try (left; reflexivity); right)|]; intros x H; repeat destruct H as [<-|H]; try lra; destruct H)..].
  replace (angle_of 90 false) with (PI / 2) by (unfold angle_of; field). unfold rotate_pt, ipt. cbn [fst snd]. rewrite cos_PI2, sin_PI2.
  replace ((1 + 5) / 2 + (1 - (1 + 5) / 2) * 0 - (1 - (1 + 5) / 2) * 1) with 5 by field. rewrite Rabs_right by lra. pose proof (pow10_pos 12). unfold half.
  assert (/ 10 ^ 12 <= / 1). { apply Rinv_le_contravar; [lra|]. apply pow_R1_Rle. lra. } lra.
Qed.

(** Compounds: every member is moved by the same map; a rotation "center" is about the bounding box of the compound. *)
Theorem C53_compound_shift : forall sh c dx dy, Forall (fun g => away (translate_pt dx dy) g) (cp_geoms c) ->
  Forall2 (moved (translate_pt dx dy)) (cp_geoms c) (cp_geoms (compound_shift sh c dx dy)).
Proof.
  intros sh c dx dy H. unfold compound_shift. rewrite (compound_map sh (fun g => shift_section sh g dx dy)). apply Forall2_map_self.
  eapply Forall_impl; [|exact H]. intros g. apply shift_moved.
Qed.
Print Assumptions C53_compound_shift.
Theorem C53_compound_rotate : forall sh c angle o rad,
  let f := rotate_pt (angle_of angle rad) (match o with Center => box_center (bounds (map gm_poly (cp_geoms c))) | At p => p end) in
  Forall (away f) (cp_geoms c) -> Forall2 (moved f) (cp_geoms c) (cp_geoms (compound_rotate sh c angle o rad)).
Proof.
  intros sh c angle o rad f H. unfold compound_rotate. rewrite (compound_map sh (fun g => rotate_section sh g angle (At (origin_of o (map gm_poly (cp_geoms c)))) rad)). apply Forall2_map_self.
  eapply Forall_impl; [|exact H]. intros g A. apply (rotate_moved sh g angle (At (origin_of o (map gm_poly (cp_geoms c)))) rad). exact A.
Qed.
Print Assumptions C53_compound_rotate.
Theorem C53_compound_mirror : forall sh c p,
  (Forall (away (scale_pt 1 (-1) p)) (cp_geoms c) -> Forall2 (moved (scale_pt 1 (-1) p)) (cp_geoms c) (cp_geoms (compound_mirror sh c "x" (At p)))) /\
  (Forall (away (scale_pt (-1) 1 p)) (cp_geoms c) -> Forall2 (moved (scale_pt (-1) 1 p)) (cp_geoms c) (cp_geoms (compound_mirror sh c "y" (At p)))).
Proof.
  intros sh c p. unfold compound_mirror. rewrite (compound_map sh (fun g => mirror_section sh g "x" (At p))), (compound_map sh (fun g => mirror_section sh g "y" (At p))).
  split; intros H; apply Forall2_map_self; (eapply Forall_impl; [|exact H]); intros g A; apply mirror_moved; try reflexivity; exact A.
Qed.
Print Assumptions C53_compound_mirror.
(** mirror_section of a compound with the default "center" reflects each member about its own centre, not the compound: a
    corner of the compound has no image among the points of the result. *)
Definition lower : geom := new_geometry toy (mkPoly (box 0 0 2 1) []) default_material None 12.
Definition upper : geom := new_geometry toy (mkPoly (box 0 1 1 2) []) default_material None 12.
Definition stack : compound := new_compound toy [ISingle lower; ISingle upper].
Lemma mirrored_box x1 y1 x2 y2 : (x1 < x2)%Z -> (y1 < y2)%Z -> (x2 <> 0 \/ y1 <> 0)%Z ->
  ext (gm_poly (mirror_section toy (new_geometry toy (mkPoly (box x1 y1 x2 y2) []) default_material None 12) "y" Center)) = [ipt x2 y1; ipt x1 y1; ipt x1 y2; ipt x2 y2].
Proof.
  intros Lx Ly H. set (g := new_geometry _ _ _ _ _). assert (E : gm_poly g = mkPoly (box x1 y1 x2 y2) []) by (apply box_poly, H).
  assert (G : is_geometry toy g) by apply new_is_geometry. assert (T : gm_tol g = 12%nat) by apply new_geometry_poly.
  assert (P : proper g). { exists (ipt x1 y1), (ipt x2 y1). rewrite E. repeat split; [left; reflexivity|right; left; reflexivity|]. intros X. injection X as X. apply eq_IZR in X. lia. }
  assert (C : box_center (bounds [gm_poly g]) = ((IZR x1 + IZR x2) / 2, (IZR y1 + IZR y2) / 2)).
  { apply IZR_lt in Lx. apply IZR_lt in Ly. rewrite E. apply C53_box_center; [discriminate|..]; cbn [extreme exterior_points map concat app ext box ipt fst snd];
      (split; [repeat (try (left; reflexivity); right)|]; intros x K; repeat destruct K as [<-|K]; try lra; destruct K). }
  destruct (C53_mirror_center toy g G P) as [_ (M & _)]; [apply new_geometry_poly|]. rewrite C, E, T in M. unfold rings, box in M. cbn [ext ints fst snd] in M.
  inversion M as [|? ? ? ? M1 _]; subst. revert M1. generalize (ext (gm_poly (mirror_section toy g "y" Center))). intros l M1.
  assert (Nr : forall (x y : Z) (v : pt), near 12 (2 * ((IZR x1 + IZR x2) / 2) - IZR x, IZR y) v -> v = ipt (x1 + x2 - x) y).
  { intros x y v (_ & _ & N). assert (Ev : (2 * ((IZR x1 + IZR x2) / 2) - IZR x, IZR y) = ipt (x1 + x2 - x) y) by (unfold ipt; f_equal; rewrite minus_IZR, plus_IZR; field). rewrite Ev in N. apply N, ipt_grid. }
  unfold ipt in M1. cbn [fst snd] in M1.
  repeat match goal with K : Forall2 _ (_ :: _) _ |- _ => inversion K; clear K; subst | K : Forall2 _ [] _ |- _ => inversion K; clear K; subst end.
  repeat match goal with K : near _ _ _ |- _ => apply Nr in K; rewrite K; clear K end.
  replace (x1 + x2 - x1)%Z with x2 by lia. replace (x1 + x2 - x2)%Z with x1 by lia. reflexivity.
Qed.
Theorem C53_compound_mirror_center_refuted : exists sh c, Forall (fun g => is_geometry sh g /\ proper g) (cp_geoms c) /\
  let b := box_center (bounds (map gm_poly (cp_geoms c))) in
  let c' := compound_mirror sh c "y" Center in
  exists v, In v (compound_points c) /\ ~ In (2 * fst b - fst v, snd v) (compound_points c').
Proof.
  exists toy, stack. assert (Gs : cp_geoms stack = [lower; upper]) by (unfold stack, new_compound; rewrite compile_geoms; reflexivity). rewrite Gs.
  assert (El : gm_poly lower = mkPoly (box 0 0 2 1) []) by (apply box_poly; lia). assert (Eu : gm_poly upper = mkPoly (box 0 1 1 2) []) by (apply box_poly; lia).
  split.
  - repeat constructor; try apply new_is_geometry; [exists (ipt 0 0), (ipt 2 0); rewrite El|exists (ipt 0 1), (ipt 1 1); rewrite Eu]; (split; [left; reflexivity|split; [right; left; reflexivity|]]); intros X; injection X as X; lra.
  - cbn [map]. rewrite El, Eu. rewrite (C53_box_center _ 0 2 0 2); [|discriminate|cbn [extreme exterior_points map concat app ext box ipt fst snd];
      (split; [repeat (try (left; reflexivity); right)|]; intros x K; repeat destruct K as [<-|K]; try lra; destruct K)..].
    exists (ipt 0 2). unfold compound_points. rewrite Gs. cbn [map]. rewrite El, Eu. split; [cbn [exterior_points map concat app ext box]; repeat (try (left; reflexivity); right)|].
    unfold compound_mirror. rewrite (compound_map toy (fun g => mirror_section toy g "y" Center)), Gs. unfold exterior_points. cbn [map concat].
    unfold lower, upper. rewrite !mirrored_box by lia. unfold ipt. cbn [app fst snd]. intros K. repeat destruct K as [K|K]; try (injection K; intros; lra); destruct K.
Qed.
Print Assumptions C53_compound_mirror_center_refuted.

(** * C54: alignment *)

(** align_to another geometry, on each side: the adjacent (or, with inner, the same) side of the section is placed on that
    side of the other geometry, and nothing moves in the other direction. *)
Theorem C54_align_to : forall sh g ps s inner t, is_geometry sh g -> proper g -> exterior_points ps <> [] ->
  extreme s t (exterior_points ps) -> ~ tie (gm_tol g) t ->
  exists g', align_to sh g (TGeometry ps) (side_name s) inner = Ok g' /\ placed g g' s (if inner then s else opposite s) t.
Proof.
  intros sh g ps s inner t G P N X T. destruct (align_offset_geometry [gm_poly g] ps s inner) as (off & A & E). unfold align_to. rewrite A. cbn [bind].
  eexists. split; [reflexivity|]. rewrite (extreme_unique s _ _ _ (extents_extreme ps s N) X) in E.
  apply (align_places sh g s (if inner then s else opposite s) t off G P T); [destruct inner, s; reflexivity|exact E].
Qed.
Print Assumptions C54_align_to.
(** align_to a point (not inner): the section is placed on that side of the point. *)
Theorem C54_align_to_point : forall sh g p s, is_geometry sh g -> proper g -> ~ tie (gm_tol g) (along s p) ->
  exists g', align_to sh g (TPoint p) (side_name s) false = Ok g' /\ placed g g' s (opposite s) (along s p).
Proof.
  intros sh g p s G P T. destruct (align_offset_point [gm_poly g] p s) as (off & A & E). unfold align_to. rewrite A. cbn [bind].
  eexists. split; [reflexivity|]. apply (align_places sh g s (opposite s) (along s p) off G P T); [destruct s; reflexivity|exact E].
Qed.
Print Assumptions C54_align_to_point.
(** inner = True with a point: on "left" the left side is placed at the point, but on the other sides the extent of the wrong
    direction is used. *)
Theorem C54_align_to_point_inner_left : forall sh g p, is_geometry sh g -> proper g -> ~ tie (gm_tol g) (fst p) ->
  exists g', align_to sh g (TPoint p) "left" true = Ok g' /\ placed g g' AtLeft AtLeft (fst p).
Proof.
  intros sh g p G P T. destruct (align_offset_left [gm_poly g] p) as (off & A & E). unfold align_to. rewrite A. cbn [bind].
  eexists. split; [reflexivity|]. apply (align_places sh g AtLeft AtLeft (fst p) off G P T); [reflexivity|exact E].
Qed.
Print Assumptions C54_align_to_point_inner_left.
Definition slab : geom := new_geometry toy (mkPoly (box 1 0 9 2) []) default_material None 12.
Theorem C54_align_to_point_inner_refuted : exists sh g p, is_geometry sh g /\ proper g /\ pt_on_grid (gm_tol g) p /\
  forall s, s = AtRight \/ s = AtTop \/ s = AtBottom ->
  exists g' e, align_to sh g (TPoint p) (side_name s) true = Ok g' /\ extreme s e (ext (gm_poly g')) /\ e <> along s p.
Proof.
  exists toy, slab, (ipt 0 0). assert (G : is_geometry toy slab) by apply new_is_geometry. assert (E : gm_poly slab = mkPoly (box 1 0 9 2) []) by (apply box_poly; lia).
  assert (P : proper slab) by (exists (ipt 1 0), (ipt 9 0); rewrite E; repeat split; [left; reflexivity|right; left; reflexivity|]; intros X; injection X as X; lra).
  assert (T : gm_tol slab = 12%nat) by apply new_geometry_poly.
  split; [exact G|]. split; [exact P|]. split; [apply ipt_grid|].
  assert (X : forall s m, extreme s m (exterior_points [gm_poly slab]) -> nth4 (extents [gm_poly slab]) (side_index s) = m).
  { intros s m H. apply (extreme_unique s _ _ (exterior_points [gm_poly slab])); [apply extents_extreme; rewrite E; discriminate|exact H]. }
  assert (Xl : nth4 (extents [gm_poly slab]) 0 = 1).
  { apply (X AtLeft). rewrite E. cbn [extreme exterior_points map concat app ext box ipt fst snd]. split; [repeat (try (left; reflexivity); right)|]. intros x K. repeat destruct K as [<-|K]; try lra; destruct K. }
  assert (Xr : nth4 (extents [gm_poly slab]) 1 = 9).
  { apply (X AtRight). rewrite E. cbn [extreme exterior_points map concat app ext box ipt fst snd]. split; [repeat (try (left; reflexivity); right)|]. intros x K. repeat destruct K as [<-|K]; try lra; destruct K. }
  intros s Hs.
  assert (M : forall dx dy : Z, gm_poly (shift_section toy slab (IZR dx) (IZR dy)) = map_polygon (translate_pt (IZR dx) (IZR dy)) (mkPoly (box 1 0 9 2) [])).
  { intros dx dy. destruct (shift_exact toy slab (IZR dx) (IZR dy) G P (int_grid _ _) (int_grid _ _)) as [_ ->]. rewrite E. reflexivity. }
  destruct Hs as [-> | [-> | ->]]; unfold align_to, align_offset; cbn [side_name align_indices String.eqb Ascii.eqb Bool.eqb bind Nat.eqb orb].
  - rewrite Xl. exists (shift_section toy slab (IZR (-1)) (IZR 0)), 8. split; [f_equal; f_equal; unfold ipt; cbn [fst]; lra|]. rewrite M. unfold map_polygon, translate_pt, box, ipt. cbn [ext map along horizontal fst snd extreme].
    split; [|lra]. split; [right; left; lra|]. intros x K. repeat destruct K as [<-|K]; try lra; destruct K.
  - rewrite Xr. exists (shift_section toy slab (IZR 0) (IZR (-9))), (-7). split; [f_equal; f_equal; unfold ipt; cbn [snd]; lra|]. rewrite M. unfold map_polygon, translate_pt, box, ipt. cbn [ext map along horizontal fst snd extreme].
    split; [|lra]. split; [right; right; left; lra|]. intros x K. repeat destruct K as [<-|K]; try lra; destruct K.
  - rewrite Xr. exists (shift_section toy slab (IZR 0) (IZR (-9))), (-9). split; [f_equal; f_equal; unfold ipt; cbn [snd]; lra|]. rewrite M. unfold map_polygon, translate_pt, box, ipt. cbn [ext map along horizontal fst snd extreme].
    split; [|lra]. split; [left; lra|]. intros x K. repeat destruct K as [<-|K]; try lra; destruct K.
Qed.
Print Assumptions C54_align_to_point_inner_refuted.
(** any other side: KeyError *)
Theorem C54_unknown_side : forall sh g o on inner, (forall s, on <> side_name s) -> align_to sh g o on inner = Err KeyError.
Proof.
  intros sh g o on inner H. unfold align_to, align_offset, align_indices.
  destruct (String.eqb_spec on "left") as [->|_]; [exfalso; apply (H AtLeft); reflexivity|]. destruct (String.eqb_spec on "right") as [->|_]; [exfalso; apply (H AtRight); reflexivity|].
  destruct (String.eqb_spec on "bottom") as [->|_]; [exfalso; apply (H AtBottom); reflexivity|]. destruct (String.eqb_spec on "top") as [->|_]; [exfalso; apply (H AtTop); reflexivity|]. reflexivity.
Qed.
Print Assumptions C54_unknown_side.
(** the same for compounds: all members move together *)
Theorem C54_compound_align_to : forall sh tol c ps s inner t, members sh tol c -> exterior_points ps <> [] -> extreme s t (exterior_points ps) -> ~ tie tol t ->
  exists c' off, compound_align_to sh c (TGeometry ps) (side_name s) inner = Ok c' /\
  Forall2 (moved (if horizontal s then translate_pt off 0 else translate_pt 0 off)) (cp_geoms c) (cp_geoms c') /\
  forall e, extreme (if inner then s else opposite s) e (compound_points c') -> Rabs (e - t) <= half tol /\ (on_grid tol t -> e = t).
Proof.
  intros sh tol c ps s inner t Hm N X T. destruct (align_offset_geometry (map gm_poly (cp_geoms c)) ps s inner) as (off & A & E). unfold compound_align_to. rewrite A. cbn [bind].
  rewrite (extreme_unique s _ _ _ (extents_extreme ps s N) X) in E.
  destruct (compound_places sh tol c s (if inner then s else opposite s) t off Hm T) as [F K]; [destruct inner, s; reflexivity|exact E|].
  eexists _, off. split; [reflexivity|]. split; [destruct (horizontal s); exact F|exact K].
Qed.
Print Assumptions C54_compound_align_to.
(** align_center: the centroid goes to the target, up to rounding the shift; the polygon is translated exactly. *)
Theorem C54_align_center : forall sh g o, is_geometry sh g -> proper g -> poly_area (gm_poly g) <> 0 ->
  let g' := align_center sh g o in
  let t := match o with None => (0, 0) | Some (TGeometry ps) => multi_centroid ps | Some (TPoint p) => p end in
  Rabs (fst (poly_centroid (gm_poly g')) - fst t) <= half (gm_tol g) /\ Rabs (snd (poly_centroid (gm_poly g')) - snd t) <= half (gm_tol g) /\
  exists dx dy, gm_poly g' = map_polygon (fun p => (fst p + dx, snd p + dy)) (gm_poly g).
Proof.
  intros sh g o G P A g' t. destruct (align_center_lands sh g o G P A) as (X & Y & E). split; [exact X|]. split; [exact Y|]. eexists _, _. exact E.
Qed.
Print Assumptions C54_align_center.
(** align_center of a compound: the centroid weighted by axial rigidity E A. *)
Theorem C54_compound_align_center : forall sh c o, members sh 12 c -> Forall (fun g => poly_area (gm_poly g) <> 0) (cp_geoms c) -> sumf rigidity (cp_geoms c) <> 0 ->
  let gs := cp_geoms (compound_align_center sh c o) in
  let t := match o with None => (0, 0) | Some (TGeometry ps) => multi_centroid ps | Some (TPoint p) => p end in
  Rabs (sumf (fun g => fst (poly_centroid (gm_poly g)) * rigidity g) gs / sumf rigidity gs - fst t) <= half 12 /\
  Rabs (sumf (fun g => snd (poly_centroid (gm_poly g)) * rigidity g) gs / sumf rigidity gs - snd t) <= half 12.
Proof.
  intros sh c o [Hm _] Ha S gs t. set (w := weighted_centroid (cp_geoms c)).
  assert (E : gs = map (fun g => shift_section sh g (round_to 12 (fst t - fst w)) (round_to 12 (snd t - snd w))) (cp_geoms c)).
  { unfold gs, compound_align_center, compound_shift. apply (compound_map sh (fun g => shift_section sh g (round_to 12 (fst t - fst w)) (round_to 12 (snd t - snd w)))). }
  assert (W : weighted_centroid gs = translate_pt (round_to 12 (fst t - fst w)) (round_to 12 (snd t - snd w)) w).
  { rewrite E. apply weighted_shift; [|apply round_to_grid|apply round_to_grid|exact S]. rewrite Forall_forall in *. intros g I. destruct (Hm g I) as (A & B & C). repeat split; auto. }
  rewrite weighted_eq in W. apply pair_equal_spec in W. destruct W as [W1 W2]. rewrite W1, W2. unfold translate_pt. cbn [fst snd].
  pose proof (round_to_near 12 (fst t - fst w)) as X. pose proof (round_to_near 12 (snd t - snd w)) as Y.
  split; [replace (fst w + round_to 12 (fst t - fst w) - fst t) with (round_to 12 (fst t - fst w) - (fst t - fst w)) by ring; exact X|
          replace (snd w + round_to 12 (snd t - snd w) - snd t) with (round_to 12 (snd t - snd w) - (snd t - snd w)) by ring; exact Y].
Qed.
Print Assumptions C54_compound_align_center.
Example C54_ex : is_geometry toy frame_geom /\ proper frame_geom /\ poly_area (gm_poly frame_geom) <> 0 /\ extreme AtTop 2 (exterior_points [gm_poly slab]) /\ ~ tie (gm_tol frame_geom) 2 /\
  members toy 12 stack.
Proof.
  split; [apply frame_is|]. split; [apply frame_proper|]. split; [rewrite frame_poly, frame_area; lra|]. split; [|split; [apply grid_not_tie, (int_grid _ 2)|]].
  - unfold slab. rewrite box_poly by lia. cbn [extreme exterior_points map concat app ext box ipt fst snd]. split; [repeat (try (left; reflexivity); right)|]. intros x K. repeat destruct K as [<-|K]; try lra; destruct K.
  - unfold members. assert (Gs : cp_geoms stack = [lower; upper]) by (unfold stack, new_compound; rewrite compile_geoms; reflexivity). rewrite Gs. split; [|discriminate].
    assert (El : gm_poly lower = mkPoly (box 0 0 2 1) []) by (apply box_poly; lia). assert (Eu : gm_poly upper = mkPoly (box 0 1 1 2) []) by (apply box_poly; lia).
    repeat constructor; try apply new_is_geometry; try apply new_geometry_poly; [exists (ipt 0 0), (ipt 2 0); rewrite El|exists (ipt 0 1), (ipt 1 1); rewrite Eu]; (split; [left; reflexivity|split; [right; left; reflexivity|]]); intros X; injection X as X; lra.
Qed.

(** * C55: shift_points *)

(** The vertices numbered by [idxs] (negative numbers count from the end, as [ks] says) and only those are moved, by (dx, dy)
    or to the given non-zero absolute coordinates; the rebuilt polygon has the rings [r :: rs] through the changed vertices,
    the control point is kept, the material is a copy (another object, [ref], with the same fields), the tolerance of the
    result is 12. *)
Theorem C55_shift_points : forall sh ref g idxs dx dy ax ay ks r rs, is_geometry sh g ->
  Forall2 (fun i k => (k < length (gm_points g))%nat /\ (i = Z.of_nat k \/ i = Z.of_nat k - Z.of_nat (length (gm_points g)))%Z) idxs ks -> NoDup ks ->
  ax <> Some 0 -> ay <> Some 0 ->
  map (@length _) (r :: rs) = map (@length _) (rings (gm_poly g)) ->
  changed (fun p => (match ax with Some v => v | None => fst p + dx end, match ay with Some v => v | None => snd p + dy end)) ks (gm_points g) (concat (r :: rs)) ->
  Forall open_loop (r :: rs) -> ~ In r rs ->
  forall p, build_polygon sh r rs = Some p ->
  exists c m g', gm_control g = [c] /\ shift_points sh ref g idxs dx dy ax ay = Ok g' /\ g' = new_geometry sh p m (Some c) 12 /\
    mo_ref m = ref /\ mo_name m = mo_name (gm_mat g) /\ mo_val m = mo_val (gm_mat g) /\ mo_color m = mo_color (gm_mat g).
Proof.
  intros sh ref g idxs dx dy ax ay ks r rs G I N Nx Ny L C V D p B.
  assert (NE : nonempty g) by (intros E; apply Forall_cons_iff in V; destruct V as [[V _] _]; unfold rings in L; rewrite E in L; cbn [map] in L; injection L as L0 _; cbn in L0; lia).
  destruct (geometry_control sh g G NE) as (c & Hc & _).
  exists c, (copy_material ref (gm_mat g)), (new_geometry sh p (copy_material ref (gm_mat g)) (Some c) 12). split; [exact Hc|]. split; [|repeat split].
  rewrite (shift_points_spec sh ref g idxs dx dy ax ay ks r rs c G); [rewrite B; reflexivity| |exact N|exact L| |exact V|exact D|exact Hc].
  - clear -I. induction I as [|i k idxs ks [K E] _ IH]; [reflexivity|]. cbn [map]. rewrite IH. f_equal. unfold py_index. set (n := length (gm_points g)) in *. destruct E as [-> | ->].
    + replace (Z.of_nat k <? 0)%Z with false by (symmetry; apply Z.ltb_ge; lia). replace (Z.of_nat k <? Z.of_nat n)%Z with true by (symmetry; apply Z.ltb_lt; lia). rewrite Nat2Z.id. reflexivity.
    + replace (Z.of_nat k - Z.of_nat n <? 0)%Z with true by (symmetry; apply Z.ltb_lt; lia). replace (0 <=? Z.of_nat n + (Z.of_nat k - Z.of_nat n))%Z with true by (symmetry; apply Z.leb_le; lia). f_equal. lia.
  - destruct C as [C1 C2]. split; [exact C1|]. intros i d Hi. destruct (C2 i d Hi) as [A1 A2]. split; [|exact A2]. intros Ii. rewrite (A1 Ii). unfold move_pt.
    assert (T : forall o : option R, o <> Some 0 -> truthy_num o = o). { intros [v|] H; [|reflexivity]. cbn. destruct (Req_EM_T v 0) as [->|]; [contradiction H; reflexivity|reflexivity]. }
    rewrite (T ax Nx), (T ay Ny). reflexivity.
Qed.
Print Assumptions C55_shift_points.
(** an index outside -n .. n-1: IndexError *)
Theorem C55_bad_index : forall sh ref g idxs dx dy ax ay, Exists (fun i => i < - Z.of_nat (length (gm_points g)) \/ Z.of_nat (length (gm_points g)) <= i)%Z idxs ->
  shift_points sh ref g idxs dx dy ax ay = Err IndexError.
Proof.
  intros sh ref g idxs dx dy ax ay H. unfold shift_points. rewrite shift_bad; [reflexivity|]. eapply Exists_impl; [|exact H]. intros i K. unfold py_index.
  set (n := length (gm_points g)) in *. destruct K as [K|K].
  - replace (i <? 0)%Z with true by (symmetry; apply Z.ltb_lt; lia). replace (0 <=? Z.of_nat n + i)%Z with false by (symmetry; apply Z.leb_gt; lia). reflexivity.
  - replace (i <? 0)%Z with false by (symmetry; apply Z.ltb_ge; lia). replace (i <? Z.of_nat n)%Z with false by (symmetry; apply Z.ltb_ge; lia). reflexivity.
Qed.
Print Assumptions C55_bad_index.
(** An absolute coordinate of 0 is taken for a missing one: the vertex (9, 0) of the slab asked to x = 0 stays. *)
Lemma slab_facts : is_geometry toy slab /\ gm_poly slab = mkPoly (box 1 0 9 2) [] /\ gm_points slab = box 1 0 9 2.
Proof.
  assert (G : is_geometry toy slab) by apply new_is_geometry. assert (E : gm_poly slab = mkPoly (box 1 0 9 2) []) by (apply box_poly; lia).
  split; [exact G|]. split; [exact E|]. destruct (geometry_points toy slab G) as (_ & -> & _). rewrite E. reflexivity.
Qed.
Lemma slab_zero : shift_points toy 5 slab [1%Z] 0 0 (Some 0) None = Ok (new_geometry toy (mkPoly (box 1 0 9 2) []) (copy_material 5 default_material) (Some (ipt 1 0)) 12).
Proof.
  destruct slab_facts as (G & E & P).
  assert (C : gm_control slab = [ipt 1 0]) by (destruct (geometry_control toy slab G) as (c & -> & _ & B); [unfold nonempty; rewrite E; discriminate|]; f_equal; rewrite B, E by apply new_geometry_poly; reflexivity).
  rewrite (shift_points_spec toy 5 slab [1%Z] 0 0 (Some 0) None [1%nat] (box 1 0 9 2) [] (ipt 1 0) G).
  - cbn [build_polygon sh_difference toy map ext]. f_equal. f_equal. f_equal. apply new_geometry_poly.
  - rewrite P. reflexivity.
  - repeat constructor. intros [].
  - rewrite E. reflexivity.
  - rewrite P. cbn [concat]. rewrite app_nil_r. split; [reflexivity|]. intros i d Hi. split; [|reflexivity]. intros [<-|[]]. cbn [nth box]. unfold move_pt, truthy_num, ipt. cbn [fst snd].
    destruct (Req_EM_T 0 0) as [_|X]; [|contradiction X; reflexivity]. rewrite !Rplus_0_r. reflexivity.
  - repeat constructor; cbn; intros _ X; injection X as X; lra.
  - intros [].
  - exact C.
Qed.
Theorem C55_absolute_zero_refuted : exists sh ref g g', is_geometry sh g /\
  shift_points sh ref g [1%Z] 0 0 (Some 0) None = Ok g' /\ In (ipt 9 0) (ext (gm_poly g)) /\ gm_poly g' = gm_poly g.
Proof.
  destruct slab_facts as (G & E & P). exists toy, 5%nat, slab, (new_geometry toy (mkPoly (box 1 0 9 2) []) (copy_material 5 default_material) (Some (ipt 1 0)) 12).
  split; [exact G|]. split; [exact slab_zero|split; [rewrite E; right; left; reflexivity|rewrite E; apply box_poly; lia]].
Qed.
Print Assumptions C55_absolute_zero_refuted.
(** The tolerance is not kept: the result has the default 12. *)
Theorem C55_tolerance_refuted : exists sh ref g g', is_geometry sh g /\ gm_tol g = 3%nat /\ shift_points sh ref g [1%Z] 1 0 None None = Ok g' /\ gm_tol g' = 12%nat.
Proof.
  set (g := new_geometry toy (mkPoly (box 1 0 9 2) []) default_material None 3).
  assert (G : is_geometry toy g) by apply new_is_geometry.
  assert (E : gm_poly g = mkPoly (box 1 0 9 2) []). { apply new_grid_poly; [repeat constructor; apply int_grid|]. exists (ipt 9 0). split; [right; left; reflexivity|]. intros X. injection X as X. lra. }
  destruct (geometry_points toy g G) as (_ & P & _). rewrite E in P.
  assert (C : gm_control g = [ipt 1 0]) by (destruct (geometry_control toy g G) as (c & -> & _ & B); [unfold nonempty; rewrite E; discriminate|]; f_equal; rewrite B, E by apply new_geometry_poly; reflexivity).
  exists toy, 5%nat, g, (new_geometry toy (mkPoly [ipt 1 0; ipt 10 0; ipt 9 2; ipt 1 2] []) (copy_material 5 (gm_mat g)) (Some (ipt 1 0)) 12).
  split; [exact G|]. split; [apply new_geometry_poly|]. split; [|apply new_geometry_poly].
  rewrite (shift_points_spec toy 5 g [1%Z] 1 0 None None [1%nat] [ipt 1 0; ipt 10 0; ipt 9 2; ipt 1 2] [] (ipt 1 0) G); [reflexivity|rewrite P; reflexivity|repeat constructor; intros []|rewrite E; reflexivity| |repeat constructor; cbn; intros _ X; injection X as X; lra|intros []|exact C].
  rewrite P. cbn [concat rings ext ints app box]. split; [reflexivity|]. intros i d Hi. split.
  - intros [<-|[]]. cbn [nth]. unfold move_pt, truthy_num, ipt. cbn [fst snd]. f_equal; lra.
  - intros X. destruct i as [|[|i]]; [reflexivity|exfalso; apply X; left; reflexivity|reflexivity].
Qed.
Print Assumptions C55_tolerance_refuted.
(** The material of the result is another object (of identity [ref]). In a compound of a part and a part made from it by
    shift_points, the elements of the second are in no material group, whatever the mesh: they get no stresses. *)
Theorem C55_lost_elements : forall sh ref g g' idxs dx dy ax ay, shift_points sh ref g idxs dx dy ax ay = Ok g' -> ref <> mo_ref (gm_mat g) ->
  forall m s i e, section_init (Some m) (map gm_mat (cp_geoms (add_geometry sh (ISingle g) (ISingle g')))) = Ok s ->
  nth_error (s_els s) i = Some e -> nth i (rm_attributes m) 0%nat = 1%nat ->
  forall k l, In (k, l) (s_groups s) -> ~ In e l.
Proof.
  intros sh ref g g' idxs dx dy ax ay H Hr m s i e HS He Ha k l Hk Hl.
  assert (Em : map gm_mat (cp_geoms (add_geometry sh (ISingle g) (ISingle g'))) = [gm_mat g; gm_mat g'])
    by (unfold add_geometry, new_compound; rewrite compile_geoms; reflexivity).
  rewrite Em, (shifted_material sh ref g g' idxs dx dy ax ay H) in HS.
  exact (copied_lost m (gm_mat g) ref s i e Hr HS He Ha k l Hk Hl).
Qed.
Print Assumptions C55_lost_elements.
Example C55_lost_met : exists g', shift_points toy 5 slab [1%Z] 0 0 (Some 0) None = Ok g' /\ 5%nat <> mo_ref (gm_mat slab) /\
  exists s e, section_init (Some (mkRaw [(0,0); (4,0); (4,2); (0,2); (2,0); (4,1); (2,1); (2,2); (0,1)] [mkConn 0 1 2 5 6 4; mkConn 0 2 3 7 8 6] [0; 1]%nat))
    (map gm_mat (cp_geoms (add_geometry toy (ISingle slab) (ISingle g')))) = Ok s /\ nth_error (s_els s) 1 = Some e.
Proof.
  eexists. split; [exact slab_zero|]. split; [unfold slab; rewrite (proj1 (proj2 (new_geometry_poly _ _ _ _ _))); discriminate|]. set (g' := new_geometry _ _ _ _ _).
  assert (Em : map gm_mat (cp_geoms (add_geometry toy (ISingle slab) (ISingle g'))) = [gm_mat slab; gm_mat g'])
    by (unfold add_geometry, new_compound; rewrite compile_geoms; reflexivity).
  rewrite Em. eexists. eexists. split; reflexivity.
Qed.
Example C55_ex : is_geometry toy slab /\
  Forall2 (fun i k => (k < length (gm_points slab))%nat /\ (i = Z.of_nat k \/ i = Z.of_nat k - Z.of_nat (length (gm_points slab)))%Z) [1; -1]%Z [1; 3]%nat /\
  changed (fun p => (7, snd p + 1)) [1; 3]%nat (gm_points slab) (concat [[ipt 1 0; ipt 7 1; ipt 9 2; ipt 7 3]]) /\ Forall open_loop [[ipt 1 0; ipt 7 1; ipt 9 2; ipt 7 3]].
Proof.
  destruct slab_facts as (G & E & P). split; [exact G|]. rewrite P. split; [repeat constructor; cbn; lia|]. split.
  - split; [reflexivity|]. intros i d Hi. split.
    + intros [<-|[<-|[]]]; cbn [nth concat app box]; unfold ipt; cbn [snd]; f_equal; lra.
    + intros X. destruct i as [|[|[|[|i]]]]; try reflexivity; exfalso; apply X; cbn; auto.
  - repeat constructor; cbn; intros _ X; injection X as X; lra.
Qed.

(** * C56: the check for disjoint polygons *)

(** Two or more polygons; intersecting is symmetric: True iff some polygons are not joined by a chain of intersecting ones. *)
Theorem C56_disjoint : forall sh lop, (2 <= length lop)%nat -> (forall p q, sh_intersects sh p q = sh_intersects sh q p) ->
  check_geometry_disjoint sh lop = true <-> ~ connected_graph (touching sh lop) (length lop).
Proof. intros. apply disjoint_spec; assumption. Qed.
Print Assumptions C56_disjoint.
(** a single polygon (or none) is reported as disjoint, although it is connected *)
Theorem C56_single_polygon_refuted : forall sh p, check_geometry_disjoint sh [p] = true /\ check_geometry_disjoint sh [] = true /\ connected_graph (touching sh [p]) 1.
Proof.
  intros sh p. split; [reflexivity|]. split; [reflexivity|]. intros i j Hi Hj. replace i with 0%nat by lia. replace j with 0%nat by lia. apply walk_nil. lia.
Qed.
Print Assumptions C56_single_polygon_refuted.
Example C56_ex : (forall p q, sh_intersects toy p q = sh_intersects toy q p) /\ check_geometry_disjoint toy [frame; frame; elbow] = false.
Proof. split; reflexivity. Qed.
Example C56_ex_disjoint : let sh := mkShapely (fun _ => (0, 0)) (fun _ _ => true) (fun p _ => Some p) (fun _ => []) (fun p q => Nat.eqb (length (ext p)) (length (ext q))) in
  (forall p q, sh_intersects sh p q = sh_intersects sh q p) /\ check_geometry_disjoint sh [frame; elbow; frame] = true.
Proof. cbn. split; [intros p q; apply Nat.eqb_sym|reflexivity]. Qed.

(** * C58: nested compounds *)

(** However the geometries are nested, the members of the compound are the geometries from left to right; materials and control
    points are in the same order. *)
Theorem C58_flatten : forall sh l, let c := new_compound sh (map (build_nest sh) l) in
  cp_geoms c = concat (map leaves l) /\ cp_control c = concat (map gm_control (concat (map leaves l))) /\
  map gm_mat (cp_geoms c) = map gm_mat (concat (map leaves l)).
Proof.
  intros sh l c. assert (E : cp_geoms c = concat (map leaves l)) by apply nest_geoms. rewrite E. split; [reflexivity|]. split; [|reflexivity].
  rewrite <- E. unfold c, new_compound. rewrite compile_geoms. apply compile_control.
Qed.
Print Assumptions C58_flatten.
(** the operator + *)
Theorem C58_add : forall sh a b, cp_geoms (add_geometry sh (build_nest sh a) (build_nest sh b)) = leaves a ++ leaves b.
Proof. intros sh a b. unfold add_geometry. pose proof (nest_geoms sh [a; b]) as H. cbn [map concat] in H. rewrite H, app_nil_r. reflexivity. Qed.
Print Assumptions C58_add.
(** Mesh sizes stay aligned: region number k of the mesh request is the control point of member k with size k. *)
Theorem C58_mesh_aligned : forall sh l sizes min_angle coarse rq, let c := new_compound sh (map (build_nest sh) l) in
  Forall (is_geometry sh) (concat (map leaves l)) -> Forall nonempty (concat (map leaves l)) -> (2 <= length sizes)%nat -> compound_create_mesh c (SList sizes) min_angle coarse = Ok rq ->
  length (rq_regions rq) = length (concat (map leaves l)) /\
  forall k g, nth_error (concat (map leaves l)) k = Some g -> exists p s, gm_control g = [p] /\ nth_error sizes k = Some s /\ nth_error (rq_regions rq) k = Some (fst p, snd p, k, s).
Proof.
  intros sh l sizes min_angle coarse rq c G NE L H. destruct (C58_flatten sh l) as (_ & C & _). fold c in C. set (gs := concat (map leaves l)) in *.
  assert (H' : pre_create_mesh (cp_points c) (cp_facets c) (cp_holes c) (cp_control c) sizes min_angle coarse = Ok rq) by (destruct sizes as [|a [|b t]]; [cbn in L; lia|cbn in L; lia|exact H]).
  clear H. unfold pre_create_mesh in H'. destruct (mesh_regions 0 (cp_control c) sizes) as [rg|] eqn:E; [|discriminate]. cbn [bind] in H'. injection H' as <-. cbn [rq_regions].
  destruct (mesh_regions_spec _ _ _ _ E) as [Lr N]. rewrite C in Lr, N.
  assert (S : concat (map gm_control gs) = map (fun g => hd (0, 0) (gm_control g)) gs).
  { clear -G NE. induction G as [|g gs Hg _ IH]; [reflexivity|]. apply Forall_cons_iff in NE. destruct NE as [NE NEs]. cbn [map concat]. rewrite (IH NEs). destruct (geometry_control sh g Hg NE) as (p & -> & _). reflexivity. }
  rewrite S in Lr, N. rewrite map_length in Lr. split; [exact Lr|]. intros k g Hk. rewrite Forall_forall in G, NE. destruct (geometry_control sh g (G g (nth_error_In _ _ Hk)) (NE g (nth_error_In _ _ Hk))) as (p & Hp & _).
  destruct (N k p) as (s & A & B). { rewrite nth_error_map, Hk. cbn. rewrite Hp. reflexivity. } exists p, s. split; [exact Hp|]. split; [exact A|exact B].
Qed.
Print Assumptions C58_mesh_aligned.
Example C58_ex : leaves (Node [Leaf lower; Node [Leaf upper; Node []; Leaf frame_geom]]) = [lower; upper; frame_geom] /\ Forall (is_geometry toy) [lower; upper; frame_geom] /\ Forall nonempty [lower; upper; frame_geom].
Proof.
  split; [reflexivity|]. split; [repeat constructor; apply new_is_geometry|]. repeat constructor; unfold nonempty; [unfold lower; rewrite box_poly by lia|unfold upper; rewrite box_poly by lia|rewrite frame_poly]; discriminate.
Qed.

(** * C69: the mesh request *)

(** Geometry.create_mesh: a number or a list of one number; anything else is a ValueError. *)
Theorem C69_geometry_mesh : forall sh g s min_angle coarse, is_geometry sh g -> nonempty g -> exists c rq, gm_control g = [c] /\
  create_mesh g (SNumber s) min_angle coarse = Ok rq /\ create_mesh g (SList [s]) min_angle coarse = Ok rq /\
  rq_vertices rq = gm_points g /\ rq_segments rq = gm_facets g /\ rq_holes rq = (match gm_holes g with [] => None | h => Some h end) /\
  rq_regions rq = [(fst c, snd c, 0%nat, s)] /\ rq_quality rq = (if coarse then None else Some min_angle).
Proof.
  intros sh g s min_angle coarse G NE. destruct (geometry_control sh g G NE) as (c & C & _). eexists c, _. split; [exact C|]. cbn [create_mesh]. unfold pre_create_mesh. rewrite C. cbn.
  split; [reflexivity|]. repeat split. cbn. destruct (gm_holes g); reflexivity.
Qed.
Print Assumptions C69_geometry_mesh.
Theorem C69_geometry_mesh_error : forall g sizes min_angle coarse, (forall s, sizes <> SNumber s) -> (forall s, sizes <> SList [s]) -> create_mesh g sizes min_angle coarse = Err ValueError.
Proof. intros g [s|[|a [|b t]]|] min_angle coarse A B; try reflexivity; exfalso; [apply (A s)|apply (B a)]; reflexivity. Qed.
Print Assumptions C69_geometry_mesh_error.
(** CompoundGeometry.create_mesh: a number or a one-element list is used for every region; the other lists are matched by
    position: too short a list is an IndexError, surplus sizes are ignored; other types are a TypeError. *)
Theorem C69_compound_mesh : forall c min_angle coarse,
  (forall s, exists rq, compound_create_mesh c (SNumber s) min_angle coarse = Ok rq /\ compound_create_mesh c (SList [s]) min_angle coarse = Ok rq /\
     length (rq_regions rq) = length (cp_control c) /\ forall k p, nth_error (cp_control c) k = Some p -> nth_error (rq_regions rq) k = Some (fst p, snd p, k, s)) /\
  (forall l, length l <> 1%nat -> (length (cp_control c) <= length l)%nat -> exists rq, compound_create_mesh c (SList l) min_angle coarse = Ok rq /\
     length (rq_regions rq) = length (cp_control c) /\
     forall k p, nth_error (cp_control c) k = Some p -> exists s, nth_error l k = Some s /\ nth_error (rq_regions rq) k = Some (fst p, snd p, k, s)) /\
  (forall l, length l <> 1%nat -> (length l < length (cp_control c))%nat -> compound_create_mesh c (SList l) min_angle coarse = Err IndexError) /\
  compound_create_mesh c SOther min_angle coarse = Err TypeError /\
  (forall sizes rq, compound_create_mesh c sizes min_angle coarse = Ok rq -> rq_vertices rq = cp_points c /\ rq_segments rq = cp_facets c /\
     rq_holes rq = (match cp_holes c with [] => None | h => Some h end) /\ rq_quality rq = (if coarse then None else Some min_angle)).
Proof.
  intros c min_angle coarse. set (go l := pre_create_mesh (cp_points c) (cp_facets c) (cp_holes c) (cp_control c) l min_angle coarse).
  assert (Eg : forall l, length l <> 1%nat -> compound_create_mesh c (SList l) min_angle coarse = go l) by (intros [|a [|b t]] H; [reflexivity|exfalso; apply H; reflexivity|reflexivity]).
  assert (Ok_go : forall l, (length (cp_control c) <= length l)%nat -> exists rq, go l = Ok rq /\ length (rq_regions rq) = length (cp_control c) /\
     forall k p, nth_error (cp_control c) k = Some p -> exists s, nth_error l k = Some s /\ nth_error (rq_regions rq) k = Some (fst p, snd p, k, s)).
  { intros l L. destruct (mesh_regions_ok (cp_control c) l 0 L) as [r E]. unfold go, pre_create_mesh. rewrite E. cbn [bind]. eexists. split; [reflexivity|]. cbn [rq_regions].
    destruct (mesh_regions_spec _ _ _ _ E) as [A B]. split; [exact A|]. exact B. }
  assert (Rest : forall l rq, go l = Ok rq -> rq_vertices rq = cp_points c /\ rq_segments rq = cp_facets c /\ rq_holes rq = (match cp_holes c with [] => None | h => Some h end) /\ rq_quality rq = (if coarse then None else Some min_angle)).
  { intros l rq. unfold go, pre_create_mesh. destruct (mesh_regions 0 (cp_control c) l); [|discriminate]. cbn [bind]. intros H. injection H as <-. repeat split. cbn. destruct (cp_holes c); reflexivity. }
  split; [|split; [|split; [|split]]].
  - intros s. destruct (Ok_go (map (fun _ => s) (cp_control c))) as (rq & A & B & C); [rewrite map_length; lia|]. exists rq. split; [exact A|]. split; [exact A|]. split; [exact B|].
    intros k p H. destruct (C k p H) as (s' & D & E). rewrite nth_error_map, H in D. cbn in D. injection D as <-. exact E.
  - intros l N L. rewrite (Eg l N). apply Ok_go, L.
  - intros l N L. rewrite (Eg l N). unfold go, pre_create_mesh. rewrite mesh_regions_short; [reflexivity|exact L|]. intros X. rewrite X in L. cbn in L. lia.
  - reflexivity.
  - intros sizes rq H. destruct sizes as [s|[|a [|b t]]|]; [| | | |discriminate]; (eapply Rest; exact H).
Qed.
Print Assumptions C69_compound_mesh.
Example C69_ex : exists g c, is_geometry toy g /\ length (cp_control c) = 2%nat.
Proof. exists frame_geom, stack. split; [apply frame_is|]. unfold stack, new_compound. rewrite compile_control, flatten_eq. cbn [map concat app]. destruct (geometry_control toy lower (new_is_geometry _ _ _ _ _)) as (a & -> & _); [unfold nonempty, lower; rewrite box_poly by lia; discriminate|]. destruct (geometry_control toy upper (new_is_geometry _ _ _ _ _)) as (b & -> & _); [unfold nonempty, upper; rewrite box_poly by lia; discriminate|]. reflexivity. Qed.
