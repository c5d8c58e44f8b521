(** Specification vocabulary: a geometry whose analyses give what the textbook formulas give for a list of rectangular plates. *)
From Coq Require Import Reals String List.
From Verif Require Import Base M_Fea M_Section S_Section M_Plastic S_Plastic M_Geometry M_Init M_Props M_State S_State S_Outline S_PlasticForms S_Rects S_Composite S_Clt.
Import ListNotations.
Local Open Scope R_scope.

(** The sum over rectangles of a quantity weighted by a property of their material *)
Definition parts_sum (w : material -> R) (f : plate_at -> R) (ps : list part) : R := sumf (fun q => w (fst q) * f (snd q)) ps.
Definition plate_ixx (y : R) (r : plate_at) : R := r_w r * r_h r ^ 3 / 12 + r_area r * (r_cy r - y) ^ 2.
Definition plate_iyy (x : R) (r : plate_at) : R := r_w r ^ 3 * r_h r / 12 + r_area r * (r_cx r - x) ^ 2.
Definition plate_ixy (x y : R) (r : plate_at) : R := r_area r * (r_cx r - x) * (r_cy r - y).
(** What a composite section of rectangles reports: rigidities by the parallel axis theorem about the elastic centroid, over the reference modulus given *)
Definition gives_parts (l : libs) (query : R * R -> list nat) (g : geometry) (s : section_obj) (h : list call) (ps : list part) : Prop :=
  let ea := parts_sum m_E r_area ps in let cx := parts_sum m_E (fun r => r_area r * r_cx r) ps / ea in let cy := parts_sum m_E (fun r => r_area r * r_cy r) ps / ea in
  gives l query g s h get_area [sumf (fun q => r_area (snd q)) ps] /\ gives l query g s h get_mass [parts_sum m_rho r_area ps] /\ gives_over l query g s h get_ea [ea] /\
  gives l query g s h get_c [cx; cy] /\ gives_over l query g s h get_eq [ea * cy; ea * cx] /\
  gives_over l query g s h get_eig [parts_sum m_E (plate_ixx 0) ps; parts_sum m_E (plate_iyy 0) ps; parts_sum m_E (plate_ixy 0 0) ps] /\
  gives_over l query g s h get_eic [parts_sum m_E (plate_ixx cy) ps; parts_sum m_E (plate_iyy cx) ps; parts_sum m_E (plate_ixy cx cy) ps].
(** The geometric analysis has been run on a section with a material other than the default one. *)
Definition analysed_composite (g : geometry) (s : section_obj) (st : string) (h : list call) : Prop :=
  built g s /\ Forall (uses st) h /\ In CGeometric h /\ is_composite (s_mats s) = true.

(** For every mesh that fills the polygon, every history and every mesh handed to the plastic analysis: the geometric properties are those of the plates by
    the parallel axis theorem, with the default material and with another one; the plastic ones are the integrals of the yield stress times the distance from
    the lines that halve the plates. *)
Definition as_plates (mat : mat_obj) (gm : geom) (ps : list plate_at) : Prop :=
  let m := mo_val mat in
  (mat = default_material -> forall l query g s st h, analysed g s st h -> fills (s_tris s) m (gm_poly gm) -> gives_plates l query g s h ps) /\
  (m_E m <> 0 -> forall l query g s st h, analysed_composite g s st h -> fills (s_tris s) m (gm_poly gm) -> gives_parts l query g s h (map (pair m) ps)) /\
  (0 <= m_fy m -> forall l query g s st h1 h2 shapes tol dx dy, plastic_done l query g s st h1 h2 shapes tol -> fills_centred (concat shapes) m (gm_poly gm) ->
   horizontal_axis (map (pair m) ps) dx -> vertical_axis (map (pair m) ps) dy ->
   gives_near l query g s (h1 ++ CPlastic :: h2) (modulus_getter s) (m_fy m * plates_area ps * tol) [moment_about_horizontal (map (pair m) ps) dx; moment_about_vertical (map (pair m) ps) dy]).
(** The same for a compound of one material. *)
Definition compound_as_plates (mat : mat_obj) (c : compound) (ps : list plate_at) : Prop :=
  let m := mo_val mat in
  (mat = default_material -> forall l query g s st h, analysed g s st h -> fills_regions (s_tris s) (compound_regions c) -> gives_plates l query g s h ps) /\
  (m_E m <> 0 -> forall l query g s st h, analysed_composite g s st h -> fills_regions (s_tris s) (compound_regions c) -> gives_parts l query g s h (map (pair m) ps)) /\
  (0 <= m_fy m -> forall l query g s st h1 h2 shapes tol v dx dy, plastic_done l query g s st h1 h2 shapes tol -> same_boundary (region_edges (concat shapes)) (moved_edges v (compound_edges c)) ->
   horizontal_axis (map (pair m) ps) dx -> vertical_axis (map (pair m) ps) dy ->
   gives_near l query g s (h1 ++ CPlastic :: h2) (modulus_getter s) (m_fy m * plates_area ps * tol) [moment_about_horizontal (map (pair m) ps) dx; moment_about_vertical (map (pair m) ps) dy]).
