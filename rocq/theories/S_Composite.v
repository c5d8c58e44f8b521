(** Specification vocabulary: composite sections, made of polygons of several materials. *)
From Coq Require Import Reals String List.
From Verif Require Import Base S_Integral M_Fea S_Fem M_Section S_Section M_Geometry M_Init M_Props M_State S_State S_Outline.
Import ListNotations.
Local Open Scope list_scope.
Local Open Scope R_scope.

(** A polygon of a material *)
Definition region : Type := material * polygon.
(** The triangles fill the polygons, each with its material. *)
Definition fills_regions (els : list tri6) (rs : list region) : Prop :=
  valid_mesh els /\ same_boundary (mesh_edges els) (concat (map (fun q => poly_edges (fst q) (snd q)) rs)).
(** The sum over the regions of a quantity weighted by a property of the material *)
Definition weighted (w : material -> R) (f : polygon -> R) (rs : list region) : R := sumf (fun q => w (fst q) * f (snd q)) rs.
(** The elastic centroid *)
Definition elastic_cx (rs : list region) : R := weighted m_E (fun p => poly_area p * fst (poly_centroid p)) rs / weighted m_E poly_area rs.
Definition elastic_cy (rs : list region) : R := weighted m_E (fun p => poly_area p * snd (poly_centroid p)) rs / weighted m_E poly_area rs.
(** The flexural rigidities about axes through (x, y), by the parallel axis theorem *)
Definition rigidity_xx (y : R) (rs : list region) : R := weighted m_E (fun p => poly_ixx_c p + poly_area p * (snd (poly_centroid p) - y) ^ 2) rs.
Definition rigidity_yy (x : R) (rs : list region) : R := weighted m_E (fun p => poly_iyy_c p + poly_area p * (fst (poly_centroid p) - x) ^ 2) rs.
Definition rigidity_xy (x y : R) (rs : list region) : R := weighted m_E (fun p => poly_ixy_c p + poly_area p * (fst (poly_centroid p) - x) * (snd (poly_centroid p) - y)) rs.

(** The getter returns the values divided by the reference modulus it is given (a number or a material). *)
Definition gives_over (l : libs) (query : R * R -> list nat) (g : geometry) (s : section_obj) (h : list call) (x : getter) (v : list R) : Prop :=
  forall e, returns l query (run l query (mkWorld g s no_props) h) x e (map (fun a => a / e_value e) v).
