(** Specification vocabulary for the results of a whole analysis of a polygon: the mesh fills the polygon; textbook formulas for polygons. *)
From Coq Require Import Reals String List Permutation.
From Verif Require Import Base S_Integral M_Fea S_Fem M_Section S_Section M_Geometry S_Library M_Init M_Props M_State S_State.
Import ListNotations.
Local Open Scope list_scope.
Local Open Scope R_scope.

(** The ring read anticlockwise *)
Definition left_ring (l : list pt) : list pt := if Rlt_dec (ring_area l) 0 then rev l else l.
(** The edges of a polygon of the material [m] with the polygon on their left: the exterior anticlockwise, the interiors clockwise *)
Definition poly_edges (m : material) (p : polygon) : list edge :=
  S_Section.ring_edges m (left_ring (ext p)) ++ concat (map (fun h => S_Section.ring_edges m (rev (left_ring h))) (ints p)).
(** The triangles fill the polygon: they have its boundary. *)
Definition fills (els : list tri6) (m : material) (p : polygon) : Prop := valid_mesh els /\ same_boundary (mesh_edges els) (poly_edges m p).

(** Second moments of a ring and of a polygon about the origin, whatever the orientation of the rings (area and first moments: M_Geometry.v) *)
Definition ring_ixx (l : list pt) : R := around (fun a b => (snd a ^ 2 + snd a * snd b + snd b ^ 2) * M_Geometry.cross a b) l / 12.
Definition ring_iyy (l : list pt) : R := around (fun a b => (fst a ^ 2 + fst a * fst b + fst b ^ 2) * M_Geometry.cross a b) l / 12.
Definition ring_ixy (l : list pt) : R := around (fun a b => (fst a * snd b + 2 * fst a * snd a + 2 * fst b * snd b + fst b * snd a) * M_Geometry.cross a b) l / 24.
Definition poly_sum (f : list pt -> R) (p : polygon) : R := M_Geometry.orient (ext p) (f (ext p)) - sumf (fun h => M_Geometry.orient h (f h)) (ints p).
Definition poly_ixx (p : polygon) : R := poly_sum ring_ixx p.
Definition poly_iyy (p : polygon) : R := poly_sum ring_iyy p.
Definition poly_ixy (p : polygon) : R := poly_sum ring_ixy p.
(** about the centroid *)
Definition poly_ixx_c (p : polygon) : R := poly_ixx p - poly_area p * snd (poly_centroid p) ^ 2.
Definition poly_iyy_c (p : polygon) : R := poly_iyy p - poly_area p * fst (poly_centroid p) ^ 2.
Definition poly_ixy_c (p : polygon) : R := poly_ixy p - poly_area p * fst (poly_centroid p) * snd (poly_centroid p).

(** ** Symmetric polygons *)

(** The polygon is its own mirror image: the exterior is, and the interiors mirrored and read backwards are the interiors in some order. *)
Definition symmetric_poly_x (c : R) (p : polygon) : Prop :=
  symmetric_x c (ext p) /\ exists hs, Permutation (ints p) hs /\ Forall2 (fun h h' => same_ring h' (rev (map (mirror_x c) h))) (ints p) hs.
Definition symmetric_poly_y (c : R) (p : polygon) : Prop :=
  symmetric_y c (ext p) /\ exists hs, Permutation (ints p) hs /\ Forall2 (fun h h' => same_ring h' (rev (map (mirror_y c) h))) (ints p) hs.

(** ** Shapes made of rectangular plates: the textbook formulas with the parallel axis theorem *)

(** The plate [x1, x2] x [y1, y2] *)
Record plate_at : Type := rect { r_x1 : R; r_y1 : R; r_x2 : R; r_y2 : R }.
Definition r_w (r : plate_at) : R := r_x2 r - r_x1 r.
Definition r_h (r : plate_at) : R := r_y2 r - r_y1 r.
Definition r_area (r : plate_at) : R := r_w r * r_h r.
Definition r_cx (r : plate_at) : R := (r_x1 r + r_x2 r) / 2.
Definition r_cy (r : plate_at) : R := (r_y1 r + r_y2 r) / 2.
Definition plates_area (l : list plate_at) : R := sumf r_area l.
Definition plates_cx (l : list plate_at) : R := sumf (fun r => r_area r * r_cx r) l / plates_area l.
Definition plates_cy (l : list plate_at) : R := sumf (fun r => r_area r * r_cy r) l / plates_area l.
(** about the axes through (x, y) *)
Definition plates_ixx (y : R) (l : list plate_at) : R := sumf (fun r => r_w r * r_h r ^ 3 / 12 + r_area r * (r_cy r - y) ^ 2) l.
Definition plates_iyy (x : R) (l : list plate_at) : R := sumf (fun r => r_w r ^ 3 * r_h r / 12 + r_area r * (r_cx r - x) ^ 2) l.
Definition plates_ixy (x y : R) (l : list plate_at) : R := sumf (fun r => r_area r * (r_cx r - x) * (r_cy r - y)) l.

(** ** Sections after the geometric analysis *)

(** The section was built from a geometry of the default material, the geometric analysis is in the history, and nobody changed the geometry object. *)
Definition analysed (g : geometry) (s : section_obj) (st : string) (h : list call) : Prop :=
  built g s /\ Forall (uses st) h /\ In CGeometric h /\ is_composite (s_mats s) = false.
Definition gives (l : libs) (query : R * R -> list nat) (g : geometry) (s : section_obj) (h : list call) (x : getter) (v : list R) : Prop :=
  forall e, returns l query (run l query (mkWorld g s no_props) h) x e v.
(** What the section reports is what the formulas give for the plates. *)
Definition gives_plates (l : libs) (query : R * R -> list nat) (g : geometry) (s : section_obj) (h : list call) (ps : list plate_at) : Prop :=
  let cx := plates_cx ps in let cy := plates_cy ps in
  gives l query g s h get_area [plates_area ps] /\ gives l query g s h get_c [cx; cy] /\
  gives l query g s h get_q [plates_area ps * cy; plates_area ps * cx] /\
  gives l query g s h get_ig [plates_ixx 0 ps; plates_iyy 0 ps; plates_ixy 0 0 ps] /\
  gives l query g s h get_ic [plates_ixx cy ps; plates_iyy cx ps; plates_ixy cx cy ps].

(** The same closed curve, possibly read in the other direction and from another vertex. *)
Definition same_cycle (l l' : list pt) : Prop := same_ring l l' \/ same_ring (rev l) l'.
