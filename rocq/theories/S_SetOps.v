(** Specification vocabulary for the set operations. *)
From Coq Require Import Reals List Bool Arith.
From Verif Require Import Base M_Fea M_Init M_Geometry S_Geometry M_SetOps.
Import ListNotations.
Local Open Scope R_scope.

(** The geometries of a Geometry or CompoundGeometry. *)
Definition members_of (i : item) : list geom := match i with ISingle g => [g] | ICompound c => cp_geoms c end.
(** The polygons in a shapely object; lines and points are dropped. *)
Definition polygons_in (s : shape) : list polygon :=
  match s with
  | ShPolygon p => [p] | ShMulti ps => ps
  | ShCollection l => concat (map (fun q => match q with PtPolygon p => [p] | PtMulti ps => ps | PtOther => [] end) l)
  | ShThin | ShOther => []
  end.
(** [g] is a Geometry with the polygon [p] (its vertices rounded to the tolerance of [g]) and the material [m]. *)
Definition shows (sh : shapely) (m : mat_obj) (p : polygon) (g : geom) : Prop :=
  is_geometry sh g /\ gm_mat g = m /\
  ((exists v, In v (ext p) /\ (half (gm_tol g) < Rabs (fst v) \/ half (gm_tol g) < Rabs (snd v))) ->
   Forall2 (Forall2 (near (gm_tol g))) (rings p) (rings (gm_poly g))) /\
  (ext p = [] -> gm_poly g = empty_polygon).
(** [i] consists of the polygons of the shape [s], in order, all with material [m]; a single empty Geometry if there are none. *)
Definition consists (sh : shapely) (m : mat_obj) (s : shape) (i : item) : Prop :=
  Forall2 (shows sh m) (polygons_in s) (members_of i) \/
  polygons_in s = [] /\ exists g, members_of i = [g] /\ shows sh m empty_polygon g.
(** shapely's result can be turned into a Geometry: it is not e.g. a MultiLineString, and if it is a collection with several areas
    then all of these are Polygons. *)
Definition usable (s : shape) : Prop :=
  match s with
  | ShOther => False
  | ShCollection l => (forall ps, ~ In (PtMulti ps) l) \/ exists a ps b, l = a ++ PtMulti ps :: b /\ Forall (eq PtOther) (a ++ b)
  | _ => True
  end.
(** the geometry has a non-empty polygon *)
Definition visible (g : geom) : Prop := ext (gm_poly g) <> [].
