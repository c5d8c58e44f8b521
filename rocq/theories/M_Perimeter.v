(** Model of calculate_perimeter, calculate_area, calculate_centroid and check_geometry_overlaps of src/sectionproperties/pre/geometry.py and of the
    overlap warning of calculate_plastic_properties in src/sectionproperties/analysis/section.py. Definitions only. Numbers are reals. *)
From Coq Require Import Reals List Bool.
From Verif Require Import Base M_Fea M_Init M_Geometry M_SetOps M_Props M_State.
Import ListNotations.
Local Open Scope R_scope.

(** shapely LinearRing.length: the sum of the lengths of the edges, the last one back to the first vertex *)
Definition pt_dist (a b : pt) : R := sqrt ((fst b - fst a) ^ 2 + (snd b - snd a) ^ 2).
Definition ring_length (l : list pt) : R := around pt_dist l.

(** geometry.py 1254-1260: Geometry.calculate_perimeter; the exterior of an empty polygon has length 0 *)
Definition calculate_perimeter (g : geom) : R := ring_length (ext (gm_poly g)).
(** geometry.py 1262-1268 and 1270-1276: calculate_area and calculate_centroid *)
Definition calculate_area (g : geom) : R := poly_area (gm_poly g).
Definition calculate_centroid (g : geom) : R * R := let c := poly_centroid (gm_poly g) in (fst c, snd c).

(** geometry.py 2459-2473: CompoundGeometry.calculate_perimeter; [union] is unary_union, None if the result is not a Polygon *)
Definition compound_perimeter (union : list polygon -> option polygon) (c : compound) : R :=
  match union (map gm_poly (cp_geoms c)) with Some u => ring_length (ext u) | None => -1 end.
(** section.py 222: self.geometry.calculate_perimeter() *)
Definition item_perimeter (union : list polygon -> option polygon) (i : item) : R :=
  match i with ISingle g => calculate_perimeter g | ICompound c => compound_perimeter union c end.

(** math.isclose(a, b) with the default tolerances: relative 1e-09, absolute 0 *)
Definition math_isclose (a b : R) : bool := if Rle_dec (Rabs (a - b)) (Rmax (1 / 10 ^ 9 * Rmax (Rabs a) (Rabs b)) 0) then true else false.
(** geometry.py 2747-2764: check_geometry_overlaps; [union_area] is unary_union(lop).area *)
Definition check_geometry_overlaps (union_area : list polygon -> R) (lop : list polygon) : bool :=
  let sum_polygons := sumf poly_area lop in negb (math_isclose (union_area lop) sum_polygons).
(** section.py 1202-1224: whether calculate_plastic_properties warns, given the attributes and the geometry; without geometric properties (1203)
    it raises before *)
Definition plastic_warning (union_area : list polygon -> R) (s : props) (i : item) : bool :=
  match num s p_cx with
  | None => false
  | Some _ => match i with ISingle _ => false | ICompound c => check_geometry_overlaps union_area (map gm_poly (cp_geoms c)) end
  end.
