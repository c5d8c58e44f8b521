(** Specification vocabulary: points that mark the holes of a compound. *)
From Coq Require Import Reals String List ZArith.
From Verif Require Import Base M_Init M_Geometry S_Geometry S_Nastran.
Import ListNotations.
Local Open Scope R_scope.

(** The point lies in the polygon: its exterior winds around the point, none of its interiors does. *)
Definition in_polygon (p : polygon) (q : pt) : Prop := winding q (ext p) <> 0%Z /\ Forall (fun h => winding q h = 0%Z) (ints p).
(** The polygons hang together: one can go from each to each other over polygons that touch. *)
Definition connected_polygons (sh : shapely) (ps : list polygon) : Prop := connected_graph (touching sh ps) (length ps).
(** What is asked of shapely (geometry.py 2437-2457): if the polygons hang together, the representative points of the holes of their union lie in none of them.
    (If they do not, a polygon may lie inside a hole, and the representative point of the hole may lie in that polygon.) *)
Definition marks_gaps (sh : shapely) : Prop := forall ps q p, connected_polygons sh ps -> In q (sh_union_holes sh ps) -> In p ps -> ~ in_polygon p q.
(** The compounds that the library makes: from lists of geometries and compounds, from polygons, by + and by motions of a compound *)
Inductive made (sh : shapely) : compound -> Prop :=
| made_list l : made sh (new_compound sh l)
| made_polygons ps : made sh (compound_of_polygons sh ps)
| made_sum a b : made sh (add_geometry sh a b)
| made_shift c dx dy : made sh c -> made sh (compound_shift sh c dx dy)
| made_rotate c a o r : made sh c -> made sh (compound_rotate sh c a o r)
| made_mirror c a o : made sh c -> made sh (compound_mirror sh c a o)
| made_align_to c t on inner c' : made sh c -> compound_align_to sh c t on inner = Ok c' -> made sh c'
| made_align_center c o : made sh c -> made sh (compound_align_center sh c o).
