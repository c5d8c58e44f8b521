(** Model of the set operations, offset_perimeter and split_section of src/sectionproperties/pre/geometry.py. Definitions only.
    The results of shapely's set operations, buffers and splits are oracles. *)
From Coq Require Import String Reals List Bool Arith.
From Verif Require Import Base M_Fea M_Init M_Bisect M_Geometry.
Import ListNotations.
Local Open Scope R_scope.

(** What a shapely set operation can return: a Polygon, a MultiPolygon, a GeometryCollection of Polygons, MultiPolygons and other
    things, a LineString or Point, or anything else (e.g. MultiLineString). *)
Inductive part : Type := PtPolygon (p : polygon) | PtMulti (ps : list polygon) | PtOther.
Inductive shape : Type := ShPolygon (p : polygon) | ShMulti (ps : list polygon) | ShCollection (l : list part) | ShThin | ShOther.
(** shapely's operators on polygons or multipolygons (given by their polygons): |, ^, -, &; buffer(distance, quad_segs); the
    unary_union of a list (None if it is not a Polygon); split by a line (None if a part is not a Polygon); the polygon made by
    compound_dilation for a polygon, its neighbours and an offset, geometry.py 2788-2797 (None if it is not a Polygon). *)
Record setops : Type := mkSetops {
  so_union : list polygon -> list polygon -> shape; so_xor : list polygon -> list polygon -> shape;
  so_difference : list polygon -> list polygon -> shape; so_intersection : list polygon -> list polygon -> shape;
  so_buffer : polygon -> R -> nat -> shape; so_unary_union : list polygon -> option polygon;
  so_split : polygon -> segment -> option (list polygon);
  so_dilate : polygon -> list polygon -> R -> option polygon }.

Definition is_empty (p : polygon) : bool := match ext p with [] => true | _ => false end.
(** self.geom of a Geometry or CompoundGeometry (1668; MultiPolygon leaves out empty polygons), self.material (1674: None for a
    compound), self.tol (1676), self.control_points *)
Definition item_polys (i : item) : list polygon :=
  match i with ISingle g => [gm_poly g] | ICompound c => filter (fun p => negb (is_empty p)) (map gm_poly (cp_geoms c)) end.
Definition item_material (i : item) : option mat_obj := match i with ISingle g => Some (gm_mat g) | ICompound _ => None end.
Definition item_tol (i : item) : nat := match i with ISingle g => gm_tol g | ICompound _ => 12%nat end.
Definition item_control (i : item) : list pt := match i with ISingle g => gm_control g | ICompound c => cp_control c end.
(** [self.material or other.material]; 90: None is the default material *)
Definition material_or (a b : option mat_obj) : mat_obj := match a with Some m => m | None => match b with Some m => m | None => default_material end end.

(** A Polygon or MultiPolygon *)
Inductive polygonal : Type := One (p : polygon) | Many (ps : list polygon).
(** geometry.py 2691-2722: filter_non_polygons. MultiPolygon() of a list with a MultiPolygon in it raises TypeError. *)
Definition polygon_parts (l : list part) : list part := filter (fun q => match q with PtOther => false | _ => true end) l.
Fixpoint only_polygons (l : list part) : result (list polygon) :=
  match l with
  | [] => Ok []
  | PtPolygon p :: rest => bind (only_polygons rest) (fun r => Ok (p :: r))
  | _ :: _ => Err TypeError
  end.
Definition filter_non_polygons (s : shape) : result polygonal :=
  match s with
  | ShPolygon p => Ok (One p)
  | ShMulti ps => Ok (Many ps)
  | ShCollection l =>
      match polygon_parts l with
      | [] => Ok (One empty_polygon)
      | [PtPolygon p] => Ok (One p)
      | [PtMulti ps] => Ok (Many ps)
      | acc => bind (only_polygons acc) (fun ps => Ok (Many ps))
      end
  | ShThin => Ok (One empty_polygon)
  | ShOther => Err RuntimeError
  end.
(** 1358-1361 etc.: the compound of the polygons of a MultiPolygon, with the default tolerance *)
Definition compound_of (sh : shapely) (ps : list polygon) (m : mat_obj) : compound :=
  new_compound sh (map (fun p => ISingle (new_geometry sh p m None 12)) ps).
(** except Exception: raise ValueError *)
Definition as_value_error {A} (r : result A) : result A := match r with Ok a => Ok a | Err _ => Err ValueError end.

(** geometry.py 1313-1370: self | other *)
Definition geom_or (sh : shapely) (so : setops) (a b : item) : result item :=
  let material := material_or (item_material a) (item_material b) in
  as_value_error (bind (filter_non_polygons (so_union so (item_polys a) (item_polys b))) (fun r =>
  match r with
  | Many ps => Ok (ICompound (compound_of sh ps material))
  | One p => match item_control a with
             | [] => Err IndexError
             | c :: _ => Ok (ISingle (new_geometry sh p material (Some c) (item_tol a)))
             end
  end)).
(** geometry.py 1372-1436: self ^ other, and 1565-1624: self & other *)
Definition geom_plain (sh : shapely) (op : list polygon -> list polygon -> shape) (a b : item) : result item :=
  let material := material_or (item_material a) (item_material b) in
  as_value_error (bind (filter_non_polygons (op (item_polys a) (item_polys b))) (fun r =>
  match r with
  | Many ps => Ok (ICompound (compound_of sh ps material))
  | One p => Ok (ISingle (new_geometry sh p material None (item_tol a)))
  end)).
Definition geom_xor (sh : shapely) (so : setops) := geom_plain sh (so_xor so).
Definition geom_and (sh : shapely) (so : setops) := geom_plain sh (so_intersection so).

(** geometry.py 1476-1524: self - other for a Geometry *)
Definition sub_single (sh : shapely) (so : setops) (g : geom) (other : item) : result item :=
  as_value_error (bind (filter_non_polygons (so_difference so [gm_poly g] (item_polys other))) (fun r =>
  match r with
  | Many ps => Ok (ICompound (compound_of sh ps (gm_mat g)))
  | One p =>
      match gm_assigned g with
      | Some c => if sh_contains sh p c then Ok (ISingle (new_geometry sh p (gm_mat g) (Some c) (gm_tol g)))
                  else Ok (ISingle (new_geometry sh p (gm_mat g) None (gm_tol g)))
      | None => Ok (ISingle (new_geometry sh p (gm_mat g) None (gm_tol g)))
      end
  end)).
(** geometry.py 1438-1524: self - other *)
Definition geom_sub (sh : shapely) (so : setops) (a b : item) : result item :=
  match a with
  | ICompound c => bind (map_result (fun g => sub_single sh so g b) (cp_geoms c)) (fun l => Ok (ICompound (new_compound sh l)))
  | ISingle g => sub_single sh so g b
  end.

(** geometry.py 2655-2688: buffer_polygon *)
Definition buffer_polygon (so : setops) (p : polygon) (amount : R) (resolution : nat) : polygonal :=
  match so_buffer so p amount resolution with
  | ShPolygon q => One q
  | ShMulti ps => Many ps
  | ShCollection l =>
      match concat (map (fun q => match q with PtPolygon q => [q] | _ => [] end) l) with
      | [q] => One q
      | qs => Many qs
      end
  | _ => One empty_polygon
  end.
(** [exterior_polygon - other], where the left side is what the previous operation gave: 970, 1007 (anything but a Polygon or
    MultiPolygon counts as empty here; GEOS refuses it) *)
Definition shape_polys (s : shape) : list polygon := match s with ShPolygon p => [p] | ShMulti ps => ps | _ => [] end.
Definition of_polygonal (r : polygonal) : shape := match r with One p => ShPolygon p | Many ps => ShMulti ps end.
Definition polygonal_polys (r : polygonal) : list polygon := match r with One p => [p] | Many ps => ps end.
(** 982-997, 1020-1035: the new Geometry keeps the assigned control point if the polygon contains it; what is passed on is
    control_points[0], which is the assigned one *)
Definition keep_control (sh : shapely) (g : geom) (p : polygon) : geom :=
  match gm_assigned g with
  | Some c => if sh_contains sh p c then new_geometry sh p (gm_mat g) (Some (hd c (gm_control g))) (gm_tol g) else new_geometry sh p (gm_mat g) None (gm_tol g)
  | None => new_geometry sh p (gm_mat g) None (gm_tol g)
  end.
(** geometry.py 926-1064: Geometry.offset_perimeter *)
Definition offset_finish (sh : shapely) (g : geom) (s : shape) : result item :=
  match s with
  | ShMulti ps => Ok (ICompound (compound_of sh ps (gm_mat g)))
  | ShPolygon p => Ok (ISingle (keep_control sh g p))
  | _ => Err RuntimeError
  end.
Definition offset_perimeter (sh : shapely) (so : setops) (g : geom) (amount : R) (where_ : string) (resolution : nat) : result item :=
  let p := gm_poly g in
  if String.eqb where_ "interior" then
    match ints p with
    | [] => Err ValueError
    | hs => offset_finish sh g
              (fold_left (fun s h => so_difference so (shape_polys s) (polygonal_polys (buffer_polygon so (mkPoly h []) amount resolution))) hs
                 (ShPolygon (mkPoly (ext p) [])))
    end
  else if String.eqb where_ "exterior" then
    offset_finish sh g
      (fold_left (fun s h => so_difference so (shape_polys s) [mkPoly h []]) (ints p)
         (of_polygonal (buffer_polygon so (mkPoly (ext p) []) amount resolution)))
  else if String.eqb where_ "all" then offset_finish sh g (of_polygonal (buffer_polygon so p amount resolution))
  else Err ValueError.

(** geometry.py 2767-2807: compound_dilation *)
Definition compound_dilation (sh : shapely) (so : setops) (gs : list geom) (offset : R) : result compound :=
  let polys := map gm_poly gs in
  bind (map_result (fun kl => match so_dilate so (nth (fst kl) polys empty_polygon) (map (fun i => nth i polys empty_polygon) (snd kl)) offset with
                              | None => Err RuntimeError
                              | Some p => Ok (ISingle (new_geometry sh p (gm_mat (nth (fst kl) gs (mkGeom empty_polygon default_material None 12 [] [] [] []))) None 12))
                              end) (build_geometry_network sh polys))
       (fun l => Ok (new_compound sh l)).
(** .geom.is_empty *)
Definition item_empty (i : item) : bool := forallb is_empty (item_polys i).
(** geometry.py 2313-2394: CompoundGeometry.offset_perimeter *)
Definition compound_offset (sh : shapely) (so : setops) (c : compound) (amount : R) (where_ : string) (resolution : nat) : result compound :=
  if Rlt_dec amount 0 then
    match so_unary_union so (map gm_poly (cp_geoms c)) with
    | None => Err RuntimeError
    | Some u =>
        bind (offset_perimeter sh so (new_geometry sh u default_material None 12) amount where_ resolution) (fun mask =>
        bind (map_result (fun g => geom_and sh so (ISingle g) mask) (cp_geoms c)) (fun l =>
        Ok (new_compound sh (filter (fun i => negb (item_empty i)) l))))
    end
  else if Rlt_dec 0 amount then compound_dilation sh so (cp_geoms c) amount
  else Ok c.

(** bisect_section.py 52-104 again, with the polygons themselves *)
Definition group_polys (sh : shapely) (polys : list polygon) (line : segment) : list polygon * list polygon :=
  (filter (fun p => match side_of line (sh_rep sh p) with Top => true | _ => false end) polys,
   filter (fun p => match side_of line (sh_rep sh p) with Bottom => true | _ => false end) polys).
(** geometry.py 842-924: Geometry.split_section; the second point wins over the vector *)
Definition split_section (sh : shapely) (so : setops) (g : geom) (point_i : pt) (point_j vector : option pt) : result (list geom * list geom) :=
  match (match point_j with Some j => Some (fst j - fst point_i, snd j - snd point_i) | None => vector end) with
  | None => Err ValueError
  | Some v =>
      let line := create_line_segment point_i v (extents [gm_poly g]) in
      match so_split so (gm_poly g) line with
      | None => Err RuntimeError
      | Some polys =>
          let '(top, bot) := group_polys sh polys line in
          Ok (map (fun p => new_geometry sh p (gm_mat g) None 12) top, map (fun p => new_geometry sh p (gm_mat g) None 12) bot)
      end
  end.
(** geometry.py 2267-2311: CompoundGeometry.split_section *)
Fixpoint compound_split (sh : shapely) (so : setops) (gs : list geom) (point_i : pt) (point_j vector : option pt) : result (list geom * list geom) :=
  match gs with
  | [] => Ok ([], [])
  | g :: rest =>
      bind (split_section sh so g point_i point_j vector) (fun tb =>
      bind (compound_split sh so rest point_i point_j vector) (fun tb' => Ok (fst tb ++ fst tb', snd tb ++ snd tb')))
  end.
