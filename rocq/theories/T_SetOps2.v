(** Theorems about the set operations |, & and ^ of a compound whose result is a single polygon. *)
From Coq Require Import String Reals List Bool Arith Lra Lia.
From Verif Require Import Base M_Fea M_Init S_Init M_Bisect M_Geometry S_Geometry P_Geometry P_Geometry3 P_Geometry5 P_Geometry6 P_Geometry8 P_Geometry9 M_SetOps S_SetOps P_SetOps T_SetOps.
Import ListNotations.
Local Open Scope R_scope.

(** C77: if shapely merges a compound c with another geometry into one polygon, then c | other is a Geometry of that polygon to
    twelve decimals that keeps the first control point of c, and a ValueError if c has none; c & other and c ^ other are
    Geometries to twelve decimals that get a control point of their own. *)
Theorem C77_compound_control_point : forall sh so c other p,
  (so_union so (item_polys (ICompound c)) (item_polys other) = ShPolygon p ->
     (cp_control c = [] -> geom_or sh so (ICompound c) other = Err ValueError) /\
     (forall c0 cs, cp_control c = c0 :: cs -> exists h, geom_or sh so (ICompound c) other = Ok (ISingle h) /\
        gm_poly h = round_polygon_vertices p 12 /\ gm_tol h = 12%nat /\ gm_assigned h = Some c0)) /\
  (so_intersection so (item_polys (ICompound c)) (item_polys other) = ShPolygon p ->
     exists h, geom_and sh so (ICompound c) other = Ok (ISingle h) /\ gm_poly h = round_polygon_vertices p 12 /\ gm_tol h = 12%nat /\ gm_assigned h = None) /\
  (so_xor so (item_polys (ICompound c)) (item_polys other) = ShPolygon p ->
     exists h, geom_xor sh so (ICompound c) other = Ok (ISingle h) /\ gm_poly h = round_polygon_vertices p 12 /\ gm_tol h = 12%nat /\ gm_assigned h = None).
Proof.
  assert (PL : forall sh op c other p, op (item_polys (ICompound c)) (item_polys other) = ShPolygon p ->
     exists h, geom_plain sh op (ICompound c) other = Ok (ISingle h) /\ gm_poly h = round_polygon_vertices p 12 /\ gm_tol h = 12%nat /\ gm_assigned h = None).
  { intros sh op c other p E. unfold geom_plain. rewrite E. cbn [filter_non_polygons bind as_value_error item_tol]. eexists. split; [reflexivity|].
    repeat split; apply new_geometry_poly. }
  intros sh so c other p. split; [|split; apply PL].
  intros E. unfold geom_or. rewrite E. cbn [filter_non_polygons bind as_value_error item_tol item_control]. split.
  - intros ->. reflexivity.
  - intros c0 cs ->. eexists. split; [reflexivity|]. repeat split; apply new_geometry_poly.
Qed.

(** The compound of two plates united with nothing into one 4 by 1 plate keeps the control point of its first plate. *)
Example C77_compound_control_point_met :
  let c := new_compound toy [ISingle (plate default_material 1); ISingle (plate default_material 3)] in
  let so := no_ops (fun _ _ => ShPolygon (mkPoly (box 1 0 5 1) [])) in
  exists c0 cs h, cp_control c = c0 :: cs /\ geom_or toy so (ICompound c) (ICompound (new_compound toy [])) = Ok (ISingle h) /\ gm_assigned h = Some c0.
Proof.
  cbv zeta. set (c := new_compound toy _). set (so := no_ops _).
  assert (C : exists c0 cs, cp_control c = c0 :: cs).
  { unfold c, new_compound. rewrite compile_control, flatten_eq. cbn [map concat app members_of].
    destruct (geometry_control toy (plate default_material 1) (new_is_geometry _ _ _ _ _)) as (q & Q & _); [unfold nonempty; rewrite plate_poly by lia; discriminate|].
    rewrite Q. cbn [app]. eauto. }
  destruct C as (c0 & cs & C). destruct (C77_compound_control_point toy so c (ICompound (new_compound toy [])) (mkPoly (box 1 0 5 1) [])) as [U _].
  destruct (U eq_refl) as [_ U2]. destruct (U2 c0 cs C) as (h & H & _ & _ & A). exists c0, cs, h. auto.
Qed.

(** C78: an offset that falls into several polygons. The result shows exactly these polygons, in order, all with the material of
    self: with "all", those of the offset polygon (from a MultiPolygon, or the Polygons of a collection); with "exterior", what is
    left of all polygons of the offset outer ring after the hole is cut out; with "interior", what is left of the outer ring after
    all polygons of the offset hole are cut out. *)
Theorem C78_offset_split : forall sh so g amount resolution,
  (forall ps, so_buffer so (gm_poly g) amount resolution = ShMulti ps ->
     exists c, offset_perimeter sh so g amount "all" resolution = Ok (ICompound c) /\ Forall2 (shows sh (gm_mat g)) ps (cp_geoms c)) /\
  (forall l, so_buffer so (gm_poly g) amount resolution = ShCollection l -> (forall ps, ~ In (PtMulti ps) l) ->
     exists i, offset_perimeter sh so g amount "all" resolution = Ok i /\ Forall2 (shows sh (gm_mat g)) (polygons_in (ShCollection l)) (members_of i)) /\
  (forall ps, ints (gm_poly g) = [] -> so_buffer so (mkPoly (ext (gm_poly g)) []) amount resolution = ShMulti ps ->
     exists c, offset_perimeter sh so g amount "exterior" resolution = Ok (ICompound c) /\ Forall2 (shows sh (gm_mat g)) ps (cp_geoms c)) /\
  (forall h ps qs, ints (gm_poly g) = [h] -> so_buffer so (mkPoly (ext (gm_poly g)) []) amount resolution = ShMulti ps ->
     so_difference so ps [mkPoly h []] = ShMulti qs ->
     exists c, offset_perimeter sh so g amount "exterior" resolution = Ok (ICompound c) /\ Forall2 (shows sh (gm_mat g)) qs (cp_geoms c)) /\
  (forall h ps qs, ints (gm_poly g) = [h] -> so_buffer so (mkPoly h []) amount resolution = ShMulti ps ->
     so_difference so [mkPoly (ext (gm_poly g)) []] ps = ShMulti qs ->
     exists c, offset_perimeter sh so g amount "interior" resolution = Ok (ICompound c) /\ Forall2 (shows sh (gm_mat g)) qs (cp_geoms c)).
Proof.
  intros sh so g amount res.
  assert (K : forall p, shows sh (gm_mat g) p (keep_control sh g p)).
  { intros p. unfold keep_control. destruct (gm_assigned g) as [c|]; [destruct (sh_contains sh p c)|]; apply new_shows. }
  assert (M : forall ps, exists c, offset_finish sh g (ShMulti ps) = Ok (ICompound c) /\ Forall2 (shows sh (gm_mat g)) ps (cp_geoms c)).
  { intros ps. eexists. split; [reflexivity|]. apply compound_of_shows. }
  unfold offset_perimeter. cbn [String.eqb Ascii.eqb Bool.eqb]. unfold buffer_polygon. repeat split.
  - intros ps ->. apply M.
  - intros l -> N. assert (E : polygons_in (ShCollection l) = concat (map (fun q => match q with PtPolygon q => [q] | _ => [] end) l)).
    { cbn [polygons_in]. f_equal. apply map_ext_in. intros [p|ps|] I; try reflexivity. exfalso. exact (N _ I). }
    rewrite E. destruct (concat _) as [|q [|q' t]]; cbn [of_polygonal].
    + destruct (M []) as (c & C & F). eauto.
    + eexists. split; [reflexivity|]. constructor; [apply K|constructor].
    + destruct (M (q :: q' :: t)) as (c & C & F). eauto.
  - intros ps -> ->. apply M.
  - intros h ps qs -> -> D. cbn [fold_left of_polygonal shape_polys]. rewrite D. apply M.
  - intros h ps qs -> B D. cbn [fold_left shape_polys]. rewrite B. cbn [polygonal_polys]. rewrite D. apply M.
Qed.
(** A plate whose erosion falls into two plates gives a compound of these two. *)
Example C78_offset_split_met :
  let so := mkSetops (fun _ _ => ShThin) (fun _ _ => ShThin) (fun _ _ => ShThin) (fun _ _ => ShThin)
    (fun _ _ _ => ShMulti [mkPoly (box 1 0 2 1) []; mkPoly (box 3 0 4 1) []]) (fun _ => None) (fun _ _ => None) (fun _ _ _ => None) in
  exists c, offset_perimeter toy so (plate default_material 1) (-1) "all" 12 = Ok (ICompound c) /\ length (cp_geoms c) = 2%nat.
Proof.
  cbv zeta. set (so := mkSetops _ _ _ _ _ _ _ _). destruct (C78_offset_split toy so (plate default_material 1) (-1) 12) as [A _].
  destruct (A _ eq_refl) as (c & C & F). exists c. split; [exact C|]. inversion F as [|? ? ? ? _ F1 E1 E2]; subst. inversion F1 as [|? ? ? ? _ F2 E3 E4]; subst. inversion F2. reflexivity.
Qed.
