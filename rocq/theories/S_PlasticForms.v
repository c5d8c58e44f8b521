(** Specification vocabulary for closed forms of the plastic modulus: a section made of rectangles, each on one side of the plastic axis. *)
From Coq Require Import Reals String List.
From Verif Require Import Base S_Integral M_Fea S_Fem M_Section S_Section M_Geometry M_Bisect M_Plastic S_Plastic S_Outline M_Init M_Props M_State S_State.
Import ListNotations.
Local Open Scope list_scope.
Local Open Scope R_scope.

(** A rectangle of a material *)
Definition part : Type := material * plate_at.
Definition rect_ring (r : plate_at) : list point := [(r_x1 r, r_y1 r); (r_x2 r, r_y1 r); (r_x2 r, r_y2 r); (r_x1 r, r_y2 r)].
Definition parts_edges (l : list part) : list edge := concat (map (fun q => S_Section.ring_edges (fst q) (rect_ring (snd q))) l).
(** The yield force of a rectangle, and its distance from the line [height n = d] *)
Definition part_force (q : part) : R := m_fy (fst q) * r_area (snd q).
Definition part_arm (n : R * R) (d : R) (q : part) : R := height n (r_cx (snd q)) (r_cy (snd q)) - d.
(** The rectangle is beyond the line (before it, for s = -1). *)
Definition beyond (n : R * R) (d s : R) (q : part) : Prop :=
  0 < r_w (snd q) /\ 0 < r_h (snd q) /\ forall v, In v (rect_ring (snd q)) -> 0 <= s * (height n (fst v) (snd v) - d).
(** The line cuts the section with the outline [out] into the rectangles [up] beyond it and [dn] before it, which carry the same force. *)
Definition cut_at (out : list edge) (n : R * R) (d : R) (up dn : list part) : Prop :=
  Forall (beyond n d 1) up /\ Forall (beyond n d (-1)) dn /\ same_boundary out (parts_edges (up ++ dn)) /\ sumf part_force up = sumf part_force dn.
(** Textbook: force times arm *)
Definition parts_moment (n : R * R) (d : R) (up dn : list part) : R := sumf (fun q => part_force q * part_arm n d q) up + sumf (fun q => part_force q * (- part_arm n d q)) dn.

(** ** The outline of a section moved to its centroid, which is where the plastic analysis looks for the neutral axes *)
Definition moved_point (c : R * R) (p : point) : point := (fst p - fst c, snd p - snd c).
Definition moved_edges (c : R * R) (l : list edge) : list edge := map (fun e => (fst (fst e), moved_point c (snd (fst e)), moved_point c (snd e))) l.
(** The triangles fill the polygon of material [m] once its centroid is moved to the origin. *)
Definition fills_centred (sec : list mtri) (m : material) (p : polygon) : Prop :=
  same_boundary (region_edges sec) (moved_edges (poly_centroid p) (poly_edges m p)).

(** ** Sections after a plastic analysis *)

(** After a geometric analysis the plastic analysis returned; nobody changed the geometry object; the polygons handed to
    the plastic analysis are cut as the triangles [shapes] show, its points surround them, and brentq keeps its promise. *)
Definition plastic_done (l : libs) (query : R * R -> list nat) (g : geometry) (s : section_obj) (st : string) (h1 h2 : list call) (shapes : list (list mtri)) (tol : R) : Prop :=
  built g s /\ Forall (uses st) (h1 ++ CPlastic :: h2) /\ In CGeometric h1 /\ is_ok (snd (step l query (run l query (mkWorld g s no_props) h1) CPlastic)) /\
  section_covers (pl_geoms (g_plastic g)) shapes /\ surrounds (pl_points (g_plastic g)) (concat shapes) /\ root_within tol (l_brentq l).
(** get_s for a section of the default material, get_mp otherwise, and their versions for the principal axes *)
Definition modulus_getter (s : section_obj) : getter := if is_composite (s_mats s) then get_mp else get_s.
Definition modulus_getter_p (s : section_obj) : getter := if is_composite (s_mats s) then get_mp_p else get_sp.
(** The getter returns the values [vs], up to the tolerance of the root finder times the yield force. *)
Definition gives_near (l : libs) (query : R * R -> list nat) (g : geometry) (s : section_obj) (h : list call) (x : getter) (slack : R) (vs : list R) : Prop :=
  exists ws, gives l query g s h x ws /\ Forall2 (fun v w => v - 2 * slack <= w <= v + slack) vs ws.
