(** Theorems about the set operations -, |, &, ^, offset_perimeter and split_section of geometries. shapely's operations are
    arbitrary functions [so] (no assumption on them unless stated). *)
From Coq Require Import String Reals List Bool Arith Lra Lia Permutation.
From Verif Require Import Base M_Fea M_Init S_Init M_Bisect M_Geometry S_Geometry P_Geometry P_Geometry3 P_Geometry5 P_Geometry6 P_Geometry8 P_Geometry9 M_SetOps S_SetOps P_SetOps.
Import ListNotations.
Local Open Scope R_scope.

(** * C77: set operations *)

(** self - other of a Geometry: the polygons of shapely's difference, all with the material of self. *)
Theorem C77_difference : forall sh so g other i, geom_sub sh so (ISingle g) other = Ok i ->
  consists sh (gm_mat g) (so_difference so [gm_poly g] (item_polys other)) i.
Proof. intros sh so g other i H. apply sub_consists, H. Qed.
(** self - other of a compound: every member is cut on its own and keeps its material; the order is kept. *)
Theorem C77_difference_compound : forall sh so c other i, geom_sub sh so (ICompound c) other = Ok i ->
  exists rs, members_of i = concat (map members_of rs) /\
  Forall2 (fun g r => consists sh (gm_mat g) (so_difference so [gm_poly g] (item_polys other)) r) (cp_geoms c) rs.
Proof.
  intros sh so c other i H. cbn [geom_sub] in H. destruct (map_result _ (cp_geoms c)) as [rs|] eqn:E; cbn [bind] in H; [|discriminate H]. injection H as <-.
  exists rs. split; [apply new_members|]. apply map_result_Forall2 in E. eapply Forall2_impl; [|exact E]. intros g r. apply sub_consists.
Qed.
(** |, ^, &: one operation for the whole of self; the material is that of self, if self is a Geometry. *)
Theorem C77_union : forall sh so g other i, geom_or sh so (ISingle g) other = Ok i -> consists sh (gm_mat g) (so_union so [gm_poly g] (item_polys other)) i.
Proof. intros sh so g other i H. exact (or_consists sh so (ISingle g) other i H). Qed.
Theorem C77_intersection : forall sh so g other i, geom_and sh so (ISingle g) other = Ok i -> consists sh (gm_mat g) (so_intersection so [gm_poly g] (item_polys other)) i.
Proof. intros sh so g other i H. exact (plain_consists sh (so_intersection so) (ISingle g) other i H). Qed.
Theorem C77_symmetric_difference : forall sh so g other i, geom_xor sh so (ISingle g) other = Ok i -> consists sh (gm_mat g) (so_xor so [gm_poly g] (item_polys other)) i.
Proof. intros sh so g other i H. exact (plain_consists sh (so_xor so) (ISingle g) other i H). Qed.

(** The only exception is ValueError, and there is none if shapely's result is usable and self has a control point. *)
Theorem C77_errors : forall sh so a b e,
  (geom_sub sh so a b = Err e -> e = ValueError) /\ (geom_or sh so a b = Err e -> e = ValueError) /\
  (geom_and sh so a b = Err e -> e = ValueError) /\ (geom_xor sh so a b = Err e -> e = ValueError).
Proof.
  intros sh so a b e. split; [|split; [|split]]; try apply value_error. destruct a as [g|c]; cbn [geom_sub]; [apply value_error|].
  destruct (map_result _ (cp_geoms c)) as [rs|e'] eqn:E; cbn [bind]; [discriminate|]. intros H. injection H as <-. apply map_result_err in E; [exact E|]. intros g e0. apply value_error.
Qed.
Theorem C77_succeeds : forall sh so a b,
  ((forall g, In g (members_of a) -> usable (so_difference so [gm_poly g] (item_polys b))) -> exists i, geom_sub sh so a b = Ok i) /\
  (usable (so_union so (item_polys a) (item_polys b)) -> item_control a <> [] -> exists i, geom_or sh so a b = Ok i) /\
  (usable (so_intersection so (item_polys a) (item_polys b)) -> exists i, geom_and sh so a b = Ok i) /\
  (usable (so_xor so (item_polys a) (item_polys b)) -> exists i, geom_xor sh so a b = Ok i).
Proof.
  intros sh so a b. assert (S : forall g, usable (so_difference so [gm_poly g] (item_polys b)) -> exists i, sub_single sh so g b = Ok i).
  { intros g U. destruct (usable_ok _ U) as [[p|ps] E]; unfold sub_single; rewrite E; cbn [bind as_value_error]; [|eauto]. destruct (gm_assigned g) as [c|]; [destruct (sh_contains sh p c)|]; cbn; eauto. }
  split; [|split; [|split]].
  - intros H. destruct a as [g|c]; cbn [geom_sub members_of] in *; [apply S, H; left; reflexivity|].
    destruct (map_result_ok (fun g => sub_single sh so g b) (cp_geoms c)) as [r E]; [intros g Hg; apply S, H, Hg|]. rewrite E. cbn [bind]. eauto.
  - intros U C. destruct (usable_ok _ U) as [[p|ps] E]; unfold geom_or; rewrite E; cbn [bind as_value_error]; [|eauto]. destruct (item_control a) as [|c l]; [contradiction|]. cbn. eauto.
  - intros U. destruct (usable_ok _ U) as [[p|ps] E]; unfold geom_and, geom_plain; rewrite E; cbn; eauto.
  - intros U. destruct (usable_ok _ U) as [[p|ps] E]; unfold geom_xor, geom_plain; rewrite E; cbn; eauto.
Qed.

(** The control point: a difference keeps the assigned one exactly if it still lies in the polygon, a union fixes the first control
    point of self, the other two drop it. The tolerance of self is kept if the result is one polygon. *)
Theorem C77_control_point : forall sh so g other h,
  (geom_sub sh so (ISingle g) other = Ok (ISingle h) -> gm_tol h = gm_tol g /\
     forall p, so_difference so [gm_poly g] (item_polys other) = ShPolygon p ->
     gm_assigned h = match gm_assigned g with Some c => if sh_contains sh p c then Some c else None | None => None end) /\
  (geom_or sh so (ISingle g) other = Ok (ISingle h) -> gm_tol h = gm_tol g /\ gm_assigned h = hd_error (gm_control g)) /\
  (geom_and sh so (ISingle g) other = Ok (ISingle h) -> gm_tol h = gm_tol g /\ gm_assigned h = None) /\
  (geom_xor sh so (ISingle g) other = Ok (ISingle h) -> gm_tol h = gm_tol g /\ gm_assigned h = None).
Proof.
  assert (PL : forall sh op g other h, geom_plain sh op (ISingle g) other = Ok (ISingle h) -> gm_tol h = gm_tol g /\ gm_assigned h = None).
  { intros sh op g other h H. unfold geom_plain in H. destruct (filter_non_polygons _) as [[p|ps]|]; cbn [bind as_value_error] in H; try discriminate H. injection H as <-. split; apply new_geometry_poly. }
  intros sh so g other h. split; [|split; [|split; apply PL]].
  - intros H. cbn [geom_sub] in H. unfold sub_single in H. destruct (filter_non_polygons _) as [[p|ps]|] eqn:F; cbn [bind as_value_error] in H; try discriminate H. split.
    + destruct (gm_assigned g) as [c|]; [destruct (sh_contains sh p c)|]; injection H as <-; apply new_geometry_poly.
    + intros q E. rewrite E in F. cbn in F. injection F as ->. destruct (gm_assigned g) as [c|]; [destruct (sh_contains sh p c)|]; injection H as <-; apply new_geometry_poly.
  - intros H. unfold geom_or in H. destruct (filter_non_polygons _) as [[p|ps]|]; cbn [bind as_value_error] in H; try discriminate H. cbn [item_control item_tol item_material material_or] in H.
    destruct (gm_control g) as [|c l]; [discriminate H|]. injection H as <-. split; apply new_geometry_poly.
Qed.

(** For a compound, |, & and ^ lose the materials of the members: the result of a compound of two materials has the default material,
    though shapely's intersection returned the two polygons unchanged. *)
Definition plate (m : mat_obj) (x : Z) : geom := new_geometry toy (mkPoly (box x 0 (x + 1) 1) []) m None 12.
Lemma box_new m c x : (x + 1 <> 0)%Z -> gm_poly (new_geometry toy (mkPoly (box x 0 (x + 1) 1) []) m c 12) = mkPoly (box x 0 (x + 1) 1) [].
Proof.
  intros H. apply new_grid_poly; [repeat constructor; apply int_grid|]. exists (ipt (x + 1) 0). split; [right; left; reflexivity|].
  intros E. injection E as E1. apply (eq_IZR (x + 1) 0) in E1. contradiction.
Qed.
Lemma plate_poly m x : (x + 1 <> 0)%Z -> gm_poly (plate m x) = mkPoly (box x 0 (x + 1) 1) [].
Proof. apply box_new. Qed.
Definition no_ops (s : list polygon -> list polygon -> shape) : setops :=
  mkSetops s s s s (fun p _ _ => ShPolygon p) (fun l => match l with [p] => Some p | _ => None end) (fun p _ => Some [p]) (fun p _ _ => Some p).
Theorem C77_compound_materials_refuted : forall m1 m2, m1 <> default_material -> m2 <> default_material ->
  exists sh so c other r, map gm_mat (cp_geoms c) = [m1; m2] /\ so_intersection so (item_polys (ICompound c)) (item_polys (ICompound other)) = ShMulti (map gm_poly (cp_geoms c)) /\
  geom_and sh so (ICompound c) (ICompound other) = Ok r /\ map gm_mat (members_of r) = [default_material; default_material].
Proof.
  intros m1 m2 N1 N2. exists toy, (no_ops (fun a _ => ShMulti a)), (new_compound toy [ISingle (plate m1 1); ISingle (plate m2 3)]), (new_compound toy []).
  assert (G : cp_geoms (new_compound toy [ISingle (plate m1 1); ISingle (plate m2 3)]) = [plate m1 1; plate m2 3]) by (rewrite new_members; reflexivity).
  eexists. split; [rewrite G; cbn [map]; f_equal; [|f_equal]; apply new_geometry_poly|]. split.
  - cbn [so_intersection no_ops item_polys]. rewrite G. cbn [map filter]. rewrite !plate_poly by lia. reflexivity.
  - unfold geom_and, geom_plain. cbn [so_intersection no_ops filter_non_polygons bind as_value_error item_polys]. rewrite G. cbn [map filter]. rewrite !plate_poly by lia.
    cbn [is_empty ext box negb]. split; [reflexivity|]. cbn [members_of]. unfold compound_of. rewrite new_members. cbn [map concat members_of app item_material material_or].
    f_equal; [|f_equal]; apply new_geometry_poly.
Qed.

(** A member that is taken away completely stays as an empty geometry without a control point: the compound then has more materials
    than regions (and Section refuses it, see C44). *)
Theorem C77_vanished_member_refuted : exists sh so c other r, Forall (is_geometry sh) (cp_geoms c) /\
  so_difference so [gm_poly (nth 0 (cp_geoms c) (plate default_material 1))] (item_polys other) = ShPolygon empty_polygon /\
  geom_sub sh so (ICompound c) other = Ok (ICompound r) /\ length (cp_geoms r) = 2%nat /\ length (cp_control r) = 1%nat.
Proof.
  pose (so := no_ops (fun a _ => match a with [p] => if pt_eqb (hd (0, 0) (ext p)) (ipt 1 0) then ShPolygon empty_polygon else ShPolygon p | _ => ShThin end)).
  assert (G : cp_geoms (new_compound toy [ISingle (plate default_material 1); ISingle (plate default_material 3)]) = [plate default_material 1; plate default_material 3]) by (rewrite new_members; reflexivity).
  assert (T : forall x y, (x <> y)%Z -> pt_eqb (ipt x 0) (ipt y 0) = false).
  { intros x y N. destruct (pt_eqb _ _) eqn:E; [|reflexivity]. exfalso. apply pt_eqb_spec in E. injection E as E. apply eq_IZR in E. contradiction. }
  assert (T1 : pt_eqb (ipt 1 0) (ipt 1 0) = true) by (apply pt_eqb_spec; reflexivity).
  exists toy, so, (new_compound toy [ISingle (plate default_material 1); ISingle (plate default_material 3)]), (ISingle (plate default_material 1)).
  eexists. split; [rewrite G; repeat constructor; apply new_is_geometry|]. split.
  - rewrite G. cbn [nth so so_difference no_ops]. rewrite plate_poly by lia. cbn [ext box hd]. rewrite T1. reflexivity.
  - cbn [geom_sub]. rewrite G. unfold sub_single. cbn [map_result so so_difference no_ops]. rewrite !plate_poly by lia. cbn [ext box hd]. rewrite T1, (T 3%Z 1%Z) by lia.
    cbn [filter_non_polygons bind as_value_error]. assert (A : forall x, gm_assigned (plate default_material x) = None) by (intros; apply new_geometry_poly). rewrite !A.
    assert (GT : forall x, gm_tol (plate default_material x) = 12%nat) by (intros; apply new_geometry_poly). rewrite !GT. cbn [bind].
    split; [reflexivity|]. rewrite new_members. cbn [map concat members_of app length]. split; [reflexivity|].
    unfold new_compound. rewrite compile_control, flatten_eq. cbn [map concat app]. set (e := new_geometry toy empty_polygon _ _ _). set (h := new_geometry toy _ _ _ _).
    assert (E : gm_control e = []) by reflexivity. assert (Ph : gm_poly h = mkPoly (box 3 0 (3 + 1) 1) []) by (unfold h; apply box_new; lia).
    destruct (geometry_control toy h (new_is_geometry _ _ _ _ _)) as (q & Q & _); [unfold nonempty; rewrite Ph; discriminate|]. rewrite E, Q. reflexivity.
Qed.

(** * C78: offset_perimeter *)

(** The result has the material of self; a wrong keyword, or "interior" without holes, is a ValueError. *)
Theorem C78_offset : forall sh so g amount resolution,
  (forall where_ i, offset_perimeter sh so g amount where_ resolution = Ok i -> Forall (fun h => gm_mat h = gm_mat g) (members_of i)) /\
  (forall where_, where_ <> "interior"%string -> where_ <> "exterior"%string -> where_ <> "all"%string -> offset_perimeter sh so g amount where_ resolution = Err ValueError) /\
  (ints (gm_poly g) = [] -> offset_perimeter sh so g amount "interior" resolution = Err ValueError).
Proof.
  intros sh so g amount res. split; [|split].
  - intros w i H. unfold offset_perimeter in H. destruct (String.eqb w "interior"); [destruct (ints (gm_poly g)) as [|h hs]; [discriminate H|]; eapply finish_mat; exact H|].
    destruct (String.eqb w "exterior"); [eapply finish_mat; exact H|]. destruct (String.eqb w "all"); [eapply finish_mat; exact H|discriminate H].
  - intros w A B C. unfold offset_perimeter. apply String.eqb_neq in A, B, C. rewrite A, B, C. reflexivity.
  - intros E. unfold offset_perimeter. rewrite E. reflexivity.
Qed.
(** What is buffered: with "all" the polygon itself; with "exterior" the outer ring, the holes being cut out again; with "interior"
    the holes, cut out of the outer ring. For one hole: *)
Theorem C78_offset_region : forall sh so g amount resolution h, ints (gm_poly g) = [h] ->
  (forall q, so_buffer so (gm_poly g) amount resolution = ShPolygon q -> exists h', offset_perimeter sh so g amount "all" resolution = Ok (ISingle h') /\ shows sh (gm_mat g) q h') /\
  (forall q p, so_buffer so (mkPoly (ext (gm_poly g)) []) amount resolution = ShPolygon q -> so_difference so [q] [mkPoly h []] = ShPolygon p ->
     exists h', offset_perimeter sh so g amount "exterior" resolution = Ok (ISingle h') /\ shows sh (gm_mat g) p h') /\
  (forall q p, so_buffer so (mkPoly h []) amount resolution = ShPolygon q -> so_difference so [mkPoly (ext (gm_poly g)) []] [q] = ShPolygon p ->
     exists h', offset_perimeter sh so g amount "interior" resolution = Ok (ISingle h') /\ shows sh (gm_mat g) p h').
Proof.
  intros sh so g amount res h E. assert (K : forall p, shows sh (gm_mat g) p (keep_control sh g p)).
  { intros p. unfold keep_control. destruct (gm_assigned g) as [c|]; [destruct (sh_contains sh p c)|]; apply new_shows. }
  unfold offset_perimeter. rewrite E. cbn [String.eqb Ascii.eqb Bool.eqb fold_left]. unfold buffer_polygon. split; [|split].
  - intros q B. rewrite B. cbn [of_polygonal offset_finish]. eexists. split; [reflexivity|apply K].
  - intros q p B D. rewrite B. cbn [of_polygonal shape_polys]. rewrite D. cbn [offset_finish]. eexists. split; [reflexivity|apply K].
  - intros q p B D. rewrite B. cbn [polygonal_polys shape_polys]. rewrite D. cbn [offset_finish]. eexists. split; [reflexivity|apply K].
Qed.
(** With any number of holes: what is removed from the offset exterior is each hole in turn ("exterior"); what is removed from
    the exterior is each offset hole in turn ("interior"). [removed so q hs r]: removing the polygons [hs] one after the other
    from [q] gives the polygon [r]. The result keeps the tolerance, and the assigned control point exactly if the new polygon
    contains it. *)
Fixpoint removed (so : setops) (q : polygon) (hs : list polygon) (r : polygon) : Prop :=
  match hs with
  | [] => r = q
  | h :: t => exists q', so_difference so [q] [h] = ShPolygon q' /\ removed so q' t r
  end.
Definition keeps_control (sh : shapely) (g : geom) (p : polygon) (h : geom) : Prop :=
  gm_tol h = gm_tol g /\ forall c, gm_assigned h = Some c <-> gm_assigned g = Some c /\ sh_contains sh p c = true.
Theorem C78_offset_holes : forall sh so g amount resolution, is_geometry sh g ->
  (forall q, so_buffer so (gm_poly g) amount resolution = ShPolygon q ->
     exists h, offset_perimeter sh so g amount "all" resolution = Ok (ISingle h) /\ shows sh (gm_mat g) q h /\ keeps_control sh g q h) /\
  (forall q r, so_buffer so (mkPoly (ext (gm_poly g)) []) amount resolution = ShPolygon q -> removed so q (map (fun h => mkPoly h []) (ints (gm_poly g))) r ->
     exists h, offset_perimeter sh so g amount "exterior" resolution = Ok (ISingle h) /\ shows sh (gm_mat g) r h /\ keeps_control sh g r h) /\
  (forall qs r, ints (gm_poly g) <> [] -> Forall2 (fun h q => so_buffer so (mkPoly h []) amount resolution = ShPolygon q) (ints (gm_poly g)) qs ->
     removed so (mkPoly (ext (gm_poly g)) []) qs r ->
     exists h, offset_perimeter sh so g amount "interior" resolution = Ok (ISingle h) /\ shows sh (gm_mat g) r h /\ keeps_control sh g r h).
Proof.
  intros sh so g amount res G.
  assert (HC : forall c, gm_assigned g = Some c -> hd c (gm_control g) = c).
  { intros c A. destruct G as [p E]. rewrite E, A. unfold new_geometry. destruct (create_points_and_facets _ _). reflexivity. }
  assert (K : forall p, shows sh (gm_mat g) p (keep_control sh g p) /\ keeps_control sh g p (keep_control sh g p)).
  { intros p. unfold keep_control. destruct (gm_assigned g) as [c|] eqn:A; [destruct (sh_contains sh p c) eqn:C|]; (split; [apply new_shows|]).
    - destruct (new_geometry_poly sh p (gm_mat g) (Some (hd c (gm_control g))) (gm_tol g)) as (_ & _ & Q & T). split; [exact T|]. rewrite Q, (HC c eq_refl), A. intros c'. split.
      + intros E. injection E as <-. split; [reflexivity|exact C].
      + intros [E _]. exact E.
    - destruct (new_geometry_poly sh p (gm_mat g) None (gm_tol g)) as (_ & _ & Q & T). split; [exact T|]. rewrite Q, A. intros c'. split; [discriminate|].
      intros [E F]. injection E as <-. congruence.
    - destruct (new_geometry_poly sh p (gm_mat g) None (gm_tol g)) as (_ & _ & Q & T). split; [exact T|]. rewrite Q, A. intros c'. split; [discriminate|intros [E _]; discriminate E]. }
  unfold offset_perimeter. cbn [String.eqb Ascii.eqb Bool.eqb]. unfold buffer_polygon. split; [|split].
  - intros q B. rewrite B. cbn [of_polygonal offset_finish]. eexists. split; [reflexivity|apply K].
  - intros q r B D. rewrite B. cbn [of_polygonal]. assert (F : fold_left (fun s h => so_difference so (shape_polys s) [mkPoly h []]) (ints (gm_poly g)) (ShPolygon q) = ShPolygon r).
    { clear B. revert q D. induction (ints (gm_poly g)) as [|h t IH]; intros q D; cbn [map removed fold_left] in *; [rewrite D; reflexivity|]. destruct D as (q' & D & D'). cbn [shape_polys]. rewrite D. apply IH, D'. }
    rewrite F. cbn [offset_finish]. eexists. split; [reflexivity|apply K].
  - intros qs r N B D. set (f := fun s h => _).
    assert (F : fold_left f (ints (gm_poly g)) (ShPolygon (mkPoly (ext (gm_poly g)) [])) = ShPolygon r).
    { clear N. revert D. generalize (mkPoly (ext (gm_poly g)) []). induction B as [|h q hs qs B _ IH]; intros p D; cbn [removed fold_left] in *; [rewrite D; reflexivity|].
      destruct D as (q' & D & D'). replace (f (ShPolygon p) h) with (ShPolygon q'); [apply IH, D'|]. unfold f. rewrite B. cbn [shape_polys polygonal_polys]. symmetry. exact D. }
    destruct (ints (gm_poly g)) as [|h t] eqn:E; [contradiction|]. rewrite F. cbn [offset_finish]. eexists. split; [reflexivity|apply K].
Qed.
(** When it fails: a buffer alone never does; if removing the last hole leaves neither a polygon nor several, it is a RuntimeError. *)
Definition polygonal_shape (s : shape) : Prop := match s with ShPolygon _ | ShMulti _ => True | _ => False end.
Theorem C78_offset_failure : forall sh so g amount resolution,
  (exists i, offset_perimeter sh so g amount "all" resolution = Ok i) /\
  (ints (gm_poly g) = [] -> exists i, offset_perimeter sh so g amount "exterior" resolution = Ok i) /\
  (forall hs h q r, ints (gm_poly g) = hs ++ [h] -> so_buffer so (mkPoly (ext (gm_poly g)) []) amount resolution = ShPolygon q ->
     removed so q (map (fun h => mkPoly h []) hs) r ->
     (polygonal_shape (so_difference so [r] [mkPoly h []]) -> exists i, offset_perimeter sh so g amount "exterior" resolution = Ok i) /\
     (~ polygonal_shape (so_difference so [r] [mkPoly h []]) -> offset_perimeter sh so g amount "exterior" resolution = Err RuntimeError)) /\
  (forall where_ e, offset_perimeter sh so g amount where_ resolution = Err e -> e = ValueError \/ e = RuntimeError).
Proof.
  intros sh so g amount res. assert (A : forall p, exists i, offset_finish sh g (of_polygonal p) = Ok i) by (intros [p|ps]; eexists; reflexivity).
  assert (B : forall s e, offset_finish sh g s = Err e -> e = RuntimeError) by (intros [p|ps|l| |] e; cbn [offset_finish]; intros H; try discriminate H; injection H as <-; reflexivity).
  unfold offset_perimeter. cbn [String.eqb Ascii.eqb Bool.eqb]. split; [apply A|]. split; [intros ->; apply A|]. split.
  - intros hs h q r E Q D. unfold buffer_polygon. rewrite Q. cbn [of_polygonal]. rewrite E, fold_left_app. cbn [fold_left].
    assert (F : fold_left (fun s h => so_difference so (shape_polys s) [mkPoly h []]) hs (ShPolygon q) = ShPolygon r).
    { clear E Q. revert q D. induction hs as [|k t IH]; intros q D; cbn [map removed fold_left] in *; [rewrite D; reflexivity|]. destruct D as (q' & D & D'). cbn [shape_polys]. rewrite D. apply IH, D'. }
    rewrite F. cbn [shape_polys]. destruct (so_difference so [r] [mkPoly h []]) as [p|ps|l| |]; cbn [polygonal_shape offset_finish]; split; intros H; try contradiction; try (exfalso; apply H; exact I); try (eexists; reflexivity); reflexivity.
  - intros w e. destruct (String.eqb w "interior"); [destruct (ints (gm_poly g)); [intros H; injection H as <-; left; reflexivity|intros H; right; exact (B _ _ H)]|].
    destruct (String.eqb w "exterior"); [intros H; right; exact (B _ _ H)|]. destruct (String.eqb w "all"); [intros H; right; exact (B _ _ H)|intros H; injection H as <-; left; reflexivity].
Qed.
(** Eroding a compound: every member is cut by the eroded outline and keeps its material; none of the members of the result is empty
    (or a compound without area). Amount 0 changes nothing. *)
Theorem C78_compound_erosion : forall sh so c amount where_ resolution c', amount < 0 -> compound_offset sh so c amount where_ resolution = Ok c' ->
  exists u mask rs, so_unary_union so (map gm_poly (cp_geoms c)) = Some u /\
  offset_perimeter sh so (new_geometry sh u default_material None 12) amount where_ resolution = Ok mask /\
  Forall2 (fun g r => consists sh (gm_mat g) (so_intersection so [gm_poly g] (item_polys mask)) r) (cp_geoms c) rs /\
  cp_geoms c' = concat (map (fun r => if forallb is_empty (item_polys r) then [] else members_of r) rs).
Proof.
  intros sh so c amount w res c' A H. unfold compound_offset in H. destruct (Rlt_dec amount 0) as [_|]; [|contradiction].
  destruct (so_unary_union so _) as [u|] eqn:U; [|discriminate H]. destruct (offset_perimeter _ _ _ _ _ _) as [mask|] eqn:O; cbn [bind] in H; [|discriminate H].
  destruct (map_result _ (cp_geoms c)) as [rs|] eqn:E; cbn [bind] in H; [|discriminate H]. injection H as <-. exists u, mask, rs. split; [reflexivity|]. split; [exact O|]. split.
  - apply map_result_Forall2 in E. eapply Forall2_impl; [|exact E]. intros g r. exact (plain_consists sh (so_intersection so) (ISingle g) mask r).
  - rewrite new_members. clear. induction rs as [|r rs IH]; [reflexivity|]. cbn [filter map concat]. unfold item_empty at 1. destruct (forallb is_empty (item_polys r)); cbn [negb map concat]; rewrite IH; reflexivity.
Qed.
Theorem C78_compound_zero : forall sh so c where_ resolution, compound_offset sh so c 0 where_ resolution = Ok c.
Proof. intros. unfold compound_offset. destruct (Rlt_dec 0 0); [lra|reflexivity]. Qed.
(** Dilating a compound of two or more members gives one member for each, in order, with its material. *)
Theorem C78_compound_dilation : forall sh so c amount where_ resolution c', 0 < amount -> (2 <= length (cp_geoms c))%nat ->
  compound_offset sh so c amount where_ resolution = Ok c' -> map gm_mat (cp_geoms c') = map gm_mat (cp_geoms c).
Proof.
  intros sh so c amount w res c' A L H. unfold compound_offset in H. destruct (Rlt_dec amount 0) as [|_]; [lra|]. destruct (Rlt_dec 0 amount) as [_|]; [|contradiction].
  unfold compound_dilation in H. destruct (map_result _ _) as [rs|] eqn:E; cbn [bind] in H; [|discriminate H]. injection H as <-. apply map_result_Forall2 in E.
  set (d := mkGeom empty_polygon default_material None 12 [] [] [] []) in *. set (gs := cp_geoms c) in *.
  assert (M : map gm_mat (concat (map members_of rs)) = map (fun kl : nat * list nat => gm_mat (nth (fst kl) gs d)) (build_geometry_network sh (map gm_poly gs))).
  { clear L. induction E as [|kl r kls rs' Er _ IH]; [reflexivity|]. destruct (so_dilate _ _ _ _) as [p|]; [|discriminate Er]. injection Er as <-. cbn [map concat members_of app].
    rewrite IH. f_equal. apply new_geometry_poly. }
  rewrite new_members, M, <- (map_map fst (fun k => gm_mat (nth k gs d))), network_many by (rewrite map_length; exact L). rewrite map_length.
  apply (nth_ext _ _ (gm_mat d) (gm_mat d)); [rewrite !map_length, seq_length; reflexivity|]. intros k Hk. rewrite map_length, seq_length in Hk.
  rewrite (nth_indep _ (gm_mat d) (gm_mat (nth (length gs) gs d))) by (rewrite map_length, seq_length; exact Hk).
  replace (gm_mat (nth (length gs) gs d)) with ((fun k => gm_mat (nth k gs d)) (length gs)) by reflexivity. rewrite (map_nth (fun k => gm_mat (nth k gs d))), seq_nth by exact Hk.
  cbn [Nat.add]. symmetry. apply (map_nth gm_mat).
Qed.
(** A compound of one member disappears. *)
Theorem C78_compound_dilation_refuted : forall sh so c amount where_ resolution, 0 < amount -> length (cp_geoms c) = 1%nat ->
  exists c', compound_offset sh so c amount where_ resolution = Ok c' /\ cp_geoms c' = [].
Proof.
  intros sh so c amount w res A L. unfold compound_offset. destruct (Rlt_dec amount 0) as [|_]; [lra|]. destruct (Rlt_dec 0 amount) as [_|]; [|contradiction].
  unfold compound_dilation. rewrite network_few by (rewrite map_length; lia). cbn [map_result bind]. eexists. split; [reflexivity|]. rewrite new_members. reflexivity.
Qed.

(** * C79: split_section *)

(** How far the point q is above the line through p in the direction v (to the right of it, if it is vertical). *)
Definition above (p v q : pt) : R := if Req_EM_T (fst v) 0 then fst q - fst p else (snd q - snd p) - snd v / fst v * (fst q - fst p).
(** The parts are shapely's, cut by a segment on the line that crosses the whole bounding box, with the material of self. A part is in
    the first list exactly if its representative point is above the line, in the second if below; if there is none on the line, no
    part is lost. A second point gives the same as the vector to it; neither is a ValueError. *)
Theorem C79_split : forall sh so g p v, (1 / 10 ^ 12 < Rabs (fst v) \/ snd v <> 0) ->
  (exists a b, In a (ext (gm_poly g)) /\ In b (ext (gm_poly g)) /\ fst a < fst b) -> (exists a b, In a (ext (gm_poly g)) /\ In b (ext (gm_poly g)) /\ snd a < snd b) ->
  exists k1 k2, let line := ((fst p + k1 * fst v, snd p + k1 * snd v), (fst p + k2 * fst v, snd p + k2 * snd v)) in
  (forall b, In b (ext (gm_poly g)) -> if Rlt_dec (1 / 10 ^ 12) (Rabs (fst v)) then fst (fst line) <= fst b <= fst (snd line) else snd (fst line) <= snd b <= snd (snd line)) /\
  forall polys, so_split so (gm_poly g) line = Some polys ->
  exists tops bots top bot, split_section sh so g p None (Some v) = Ok (top, bot) /\ split_section sh so g p (Some (fst p + fst v, snd p + snd v)) None = Ok (top, bot) /\
  Forall2 (shows sh (gm_mat g)) tops top /\ Forall2 (shows sh (gm_mat g)) bots bot /\
  (forall q, In q tops <-> In q polys /\ 0 < above p v (sh_rep sh q)) /\ (forall q, In q bots <-> In q polys /\ above p v (sh_rep sh q) < 0) /\
  ((forall q, In q polys -> above p v (sh_rep sh q) <> 0) -> Permutation (tops ++ bots) polys).
Proof.
  intros sh so g p v Hv X Y. destruct (split_line g p v Hv X Y) as (k1 & k2 & E & K & S). exists k1, k2. cbv zeta. split; [exact S|].
  intros polys Es. set (line := ((fst p + k1 * fst v, snd p + k1 * snd v), (fst p + k2 * fst v, snd p + k2 * snd v))) in *.
  assert (SD : forall q, side_of line q = if Rlt_dec (above p v q) 0 then Bottom else if Rlt_dec 0 (above p v q) then Top else On) by (intros q; apply split_side; [exact K|destruct Hv as [Hv|Hv]; [left|right; exact Hv]; intros Z; rewrite Z, Rabs_R0 in Hv; assert (0 < 1 / 10 ^ 12) by (apply Rdiv_lt_0_compat; [lra|apply pow_lt; lra]); lra]).
  exists (fst (group_polys sh polys line)), (snd (group_polys sh polys line)). eexists _, _. split; [|split; [|split; [|split; [|split; [|split]]]]].
  - unfold split_section. rewrite E, Es. unfold group_polys. reflexivity.
  - unfold split_section. cbn [fst snd]. replace (fst p + fst v - fst p) with (fst v) by ring. replace (snd p + snd v - snd p) with (snd v) by ring. rewrite <- surjective_pairing, E, Es. unfold group_polys. reflexivity.
  - apply Forall2_map_r, Forall2_self; intros q; apply new_shows.
  - apply Forall2_map_r, Forall2_self; intros q; apply new_shows.
  - intros q. unfold group_polys. cbn [fst]. rewrite filter_In, SD. generalize (above p v (sh_rep sh q)). intros d. destruct (Rlt_dec d 0), (Rlt_dec 0 d); split; intros [A B]; split; try assumption; try discriminate B; try reflexivity; exfalso; lra.
  - intros q. unfold group_polys. cbn [snd]. rewrite filter_In, SD. generalize (above p v (sh_rep sh q)). intros d. destruct (Rlt_dec d 0), (Rlt_dec 0 d); split; intros [A B]; split; try assumption; try discriminate B; try reflexivity; exfalso; lra.
  - unfold group_polys. cbn [fst snd]. clear -SD. induction polys as [|q polys IH]; intros Z; [constructor|]. cbn [filter]. rewrite SD. pose proof (Z q (or_introl eq_refl)) as Zq.
    specialize (IH (fun q Hq => Z q (or_intror Hq))). destruct (Rlt_dec _ 0) as [A|A]; [apply Permutation_sym, Permutation_cons_app, Permutation_sym, IH|]. destruct (Rlt_dec 0 _) as [B|B]; [cbn [app]; apply perm_skip, IH|lra].
Qed.
Theorem C79_no_line : forall sh so g p, split_section sh so g p None None = Err ValueError.
Proof. reflexivity. Qed.
(** A compound is split member by member. *)
Theorem C79_compound_split : forall sh so gs p j v top bot, compound_split sh so gs p j v = Ok (top, bot) ->
  exists l, Forall2 (fun g tb => split_section sh so g p j v = Ok tb) gs l /\ top = concat (map fst l) /\ bot = concat (map snd l).
Proof.
  induction gs as [|g gs IH]; intros p j v top bot H; cbn [compound_split] in H; [injection H as <- <-; exists []; repeat split; constructor|].
  destruct (split_section sh so g p j v) as [tb|] eqn:E; cbn [bind] in H; [|discriminate H]. destruct (compound_split sh so gs p j v) as [[t' b']|] eqn:E'; cbn [bind] in H; [|discriminate H].
  injection H as <- <-. destruct (IH p j v t' b' E') as (l & F & -> & ->). exists (tb :: l). split; [constructor; assumption|]. split; reflexivity.
Qed.

(** The plates can be cut; the frame has a hole and can be split along a sloping line. *)
Example C77_ex : exists i, geom_sub toy (no_ops (fun a b => ShPolygon (mkPoly (concat (map ext a)) (map ext b)))) (ISingle (plate default_material 1)) (ISingle (plate default_material 3)) = Ok i.
Proof. apply C77_succeeds. intros g _. exact I. Qed.
Example C78_ex : ints (gm_poly frame_geom) <> [] /\ length (cp_geoms (new_compound toy [ISingle frame_geom])) = 1%nat.
Proof. rewrite frame_poly, new_members. split; [discriminate|reflexivity]. Qed.
Example C78_holes_ex : let so := no_ops (fun a b => ShPolygon (mkPoly (concat (map ext a)) (map ext b))) in
  is_geometry toy frame_geom /\ exists h, ints (gm_poly frame_geom) = [h] /\
  removed so (mkPoly (ext (gm_poly frame_geom)) []) [mkPoly h []] (mkPoly (ext (gm_poly frame_geom)) [h]).
Proof.
  cbn zeta. split; [apply new_is_geometry|]. rewrite frame_poly. eexists. split; [reflexivity|]. eexists. split; reflexivity.
Qed.
Example C79_ex : (1 / 10 ^ 12 < Rabs (fst (0, 2)) \/ snd (0, 2) <> 0) /\
  (exists a b, In a (ext (gm_poly frame_geom)) /\ In b (ext (gm_poly frame_geom)) /\ fst a < fst b) /\ (exists a b, In a (ext (gm_poly frame_geom)) /\ In b (ext (gm_poly frame_geom)) /\ snd a < snd b).
Proof.
  rewrite frame_poly. split; [right; cbn; lra|]. split; exists (ipt 1 1), (ipt 5 5); (split; [left; reflexivity|]); (split; [right; right; left; reflexivity|]); cbn [fst snd ipt]; lra.
Qed.

Print Assumptions C77_difference.
Print Assumptions C77_difference_compound.
Print Assumptions C77_union.
Print Assumptions C77_intersection.
Print Assumptions C77_symmetric_difference.
Print Assumptions C77_errors.
Print Assumptions C77_succeeds.
Print Assumptions C77_control_point.
Print Assumptions C77_compound_materials_refuted.
Print Assumptions C77_vanished_member_refuted.
Print Assumptions C78_offset.
Print Assumptions C78_offset_region.
Print Assumptions C78_offset_holes.
Print Assumptions C78_offset_failure.
Print Assumptions C78_compound_erosion.
Print Assumptions C78_compound_zero.
Print Assumptions C78_compound_dilation.
Print Assumptions C78_compound_dilation_refuted.
Print Assumptions C79_split.
Print Assumptions C79_no_line.
Print Assumptions C79_compound_split.
