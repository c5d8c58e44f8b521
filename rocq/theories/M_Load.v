(** Model of the readers of CAD files: Geometry.from_dxf, load_dxf, Geometry.from_3dm, CompoundGeometry.from_3dm,
    Geometry.from_rhino_encoding and pre/rhino.py. What cad_to_shapely and rhino_shapely_interop find in a file is an argument.
    The packages are assumed to be installed (no ImportError). *)
From Coq Require Import Reals List.
From Verif Require Import Base M_Fea M_Init M_Geometry.
Import ListNotations.
Local Open Scope R_scope.

(** An object found in a file: a shapely Polygon or something else. *)
Inductive found : Type := FPolygon (p : polygon) | FOther.

(** geometry.py 2520-2527: every object must be a Polygon *)
Fixpoint all_polygons (l : list found) : result (list polygon) :=
  match l with
  | [] => Ok []
  | FPolygon p :: r => bind (all_polygons r) (fun ps => Ok (p :: ps))
  | FOther :: _ => Err RuntimeError
  end.

(** geometry.py 2476-2533: load_dxf, and 272-295: Geometry.from_dxf, which only calls it. [file]: None if the path does not exist
    (2507-2509), otherwise the objects that c2s.utils.filter_polygons returns (2511-2516) for the given spline_delta and
    degrees_per_segment. *)
Definition load_dxf (sh : shapely) (file : option (list found)) : result item :=
  match file with
  | None => Err ValueError
  | Some [] => Err RuntimeError
  | Some l =>
      bind (all_polygons l) (fun ps =>
      match ps with
      | [p] => Ok (ISingle (new_geometry sh p default_material None 12))
      | _ => Ok (ICompound (compound_of_polygons sh ps))
      end)
  end.

(** rhino.py 15-64: load_3dm, and 67-115: load_brep_encoding. [breps]: the polygons that get_planer_brep yields for the keyword
    arguments. *)
Definition load_3dm (breps : list polygon) : result (list polygon) := match breps with [] => Err RuntimeError | _ => Ok breps end.
Definition load_brep_encoding (breps : list polygon) : result (list polygon) := match breps with [] => Err RuntimeError | _ => Ok breps end.

(** geometry.py 297-362: Geometry.from_3dm *)
Definition geometry_from_3dm (sh : shapely) (breps : list polygon) : result geom :=
  bind (load_3dm breps) (fun l => match l with [p] => Ok (new_geometry sh p default_material None 12) | _ => Err RuntimeError end).

(** geometry.py 1914-1966: CompoundGeometry.from_3dm *)
Definition compound_from_3dm (sh : shapely) (breps : list polygon) : result compound :=
  bind (load_3dm breps) (fun l => Ok (compound_of_polygons sh l)).

(** geometry.py 364-414: Geometry.from_rhino_encoding (the first polygon of the list) *)
Definition from_rhino_encoding (sh : shapely) (breps : list polygon) : result geom :=
  bind (load_brep_encoding breps) (fun l => match l with p :: _ => Ok (new_geometry sh p default_material None 12) | [] => Err IndexError end).
