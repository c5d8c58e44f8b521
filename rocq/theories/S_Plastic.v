(** Specification notions for the plastic analysis: regions made of triangles, lines, exact cutting. *)
From Coquelicot Require Import Coquelicot.
From Coq Require Import Reals List.
From Verif Require Import Base S_Integral M_Fea S_Fem S_Section M_Bisect M_Props M_Plastic.
Import ListNotations.
Local Open Scope R_scope.

(** A triangle with its material. *)
Record mtri : Type := mkMtri { mt_mat : material; mt_a : point; mt_b : point; mt_c : point }.

Definition ccw (t : mtri) : Prop := 0 < orient (mt_a t) (mt_b t) (mt_c t).
Definition mt_int (t : mtri) (f : R -> R -> R) : R := tri_int (mt_a t) (mt_b t) (mt_c t) f.
Definition mt_edges (t : mtri) : list edge :=
  [(mt_mat t, mt_a t, mt_b t); (mt_mat t, mt_b t, mt_c t); (mt_mat t, mt_c t, mt_a t)].
Definition region_edges (l : list mtri) : list edge := concat (map mt_edges l).
(** Integral over a region weighted by a property of the material. *)
Definition region_int (w : material -> R) (f : R -> R -> R) (l : list mtri) : R :=
  sumf (fun t => w (mt_mat t) * mt_int t f) l.
Definition corners (t : mtri) : list point := [mt_a t; mt_b t; mt_c t].

(** The triangles of a finite element mesh. *)
Definition mtri_of (el : tri6) : mtri := mkMtri (el_mat el) (corner_a el) (corner_b el) (corner_c el).

(** Position of a point relative to the directed line through a segment: positive on the left. *)
Definition left_of (line : segment) (q : point) : R :=
  let '((x1, y1), (x2, y2)) := line in (x2 - x1) * (snd q - y1) - (y2 - y1) * (fst q - x1).

(** The segment crosses the bounding box (xmin, xmax, ymin, ymax) from one side to the other. *)
Definition spans (bounds : R * R * R * R) (line : segment) : Prop :=
  let '(xmin, xmax, ymin, ymax) := bounds in
  let '((x1, y1), (x2, y2)) := line in
  (x1 <= xmin /\ xmax <= x2 /\ x1 < x2) \/ (y1 <= ymin /\ ymax <= y2 /\ y1 < y2).

(** [q] describes the polygon made of the triangles [ts], which lies on one side of the line; its representative
    point is strictly on that side. *)
Definition describes (line : segment) (q : piece) (ts : list mtri) : Prop :=
  Forall ccw ts /\
  pc_area q = region_int (fun _ => 1) (fun _ _ => 1) ts /\
  pc_area q * pc_cx q = region_int (fun _ => 1) (fun x _ => x) ts /\
  pc_area q * pc_cy q = region_int (fun _ => 1) (fun _ y => y) ts /\
  exists s, (s = 1 \/ s = -1) /\ 0 < s * left_of line (pc_rep q) /\
    forall t p, In t ts -> In p (corners t) -> 0 <= s * left_of line p.

(** [pieces] is an exact cut along the line of the region made of the triangles [shape]. *)
Definition exact_cut (m : material) (shape : list mtri) (line : segment) (pieces : list piece) : Prop :=
  exists parts : list (list mtri),
    Forall2 (describes line) pieces parts /\
    (forall t, In t (concat parts) -> mt_mat t = m) /\
    same_boundary (region_edges (concat parts)) (region_edges shape).

Definition in_bounds (bounds : R * R * R * R) (p : point) : Prop :=
  let '(xmin, xmax, ymin, ymax) := bounds in xmin <= fst p <= xmax /\ ymin <= snd p <= ymax.

(** The geometry [g] covers the triangles [shape], and the split oracle cuts it exactly along every line that
    crosses its bounding box. *)
Definition covers (g : plane_geom) (shape : list mtri) : Prop :=
  shape <> [] /\ Forall ccw shape /\
  (forall t, In t shape -> mt_mat t = pg_mat g) /\
  (forall t p, In t shape -> In p (corners t) -> in_bounds (pg_bounds g) p) /\
  (forall line, spans (pg_bounds g) line -> exact_cut (pg_mat g) shape line (pg_split g line)).

(** The geometries [gs] cover the section made of the regions [shapes]. *)
Definition section_covers (gs : list plane_geom) (shapes : list (list mtri)) : Prop :=
  gs <> [] /\ Forall2 covers gs shapes /\ (forall g, In g gs -> 0 < m_fy (pg_mat g)).

(** Distance along the unit vector [n]. *)
Definition height (n : R * R) (x y : R) : R := fst n * x + snd n * y.
Definition unit_vec (n : R * R) : Prop := fst n * fst n + snd n * snd n = 1.

(** Iterated integrability over a triangle (for stress fields that are not continuous). *)
Definition simplex_ok (f : R -> R -> R) : Prop :=
  (forall s, 0 <= s <= 1 -> ex_RInt (f s) 0 (1 - s)) /\
  ex_RInt (fun s => RInt (f s) 0 (1 - s)) 0 1.
Definition tri_ok (a b c : point) (f : R -> R -> R) : Prop :=
  simplex_ok (fun s t =>
    f (fst a + s * (fst b - fst a) + t * (fst c - fst a))
      (snd a + s * (snd b - snd a) + t * (snd c - snd a))).
Definition mt_ok (t : mtri) (f : R -> R -> R) : Prop := tri_ok (mt_a t) (mt_b t) (mt_c t) f.

(** A stress field on a section: a triangulation of the section with a function on each triangle. *)
Definition stress_field : Type := list (mtri * (R -> R -> R)).

(** A statically admissible field on the section [sec] in direction [n]: any triangulation of the section, the
    stress within the yield strength of the material at every point, and no axial force. *)
Definition admissible (sec : list mtri) (n : R * R) (fld : stress_field) : Prop :=
  Forall (fun tf => let '(t, sigma) := tf in
    ccw t /\ mt_ok t sigma /\ mt_ok t (fun x y => sigma x y * height n x y) /\
    forall p, in_triangle (mt_a t) (mt_b t) (mt_c t) p -> Rabs (sigma (fst p) (snd p)) <= m_fy (mt_mat t)) fld /\
  same_boundary (region_edges (map fst fld)) (region_edges sec) /\
  sumf (fun tf => mt_int (fst tf) (snd tf)) fld = 0.

(** The bending moment of a stress field: the integral of stress times distance. *)
Definition field_moment (n : R * R) (fld : stress_field) : R :=
  sumf (fun tf => mt_int (fst tf) (fun x y => snd tf x y * height n x y)) fld.

(** ** Axes *)

(** The four axes of the plastic analysis, the direction in which distances from them are measured, and the
    attributes holding the position of the plastic neutral axis and the plastic modulus. *)
Inductive axis : Type := axis_x | axis_y | axis_11 | axis_22.
Definition direction (phi : R) (k : axis) : R * R :=
  let t := phi * PI / 180 in
  match k with
  | axis_x => (0, 1) | axis_y => (1, 0) | axis_11 => (- sin t, cos t) | axis_22 => (cos t, sin t)
  end.
Definition pc_prop (k : axis) : prop :=
  match k with axis_x => p_y_pc | axis_y => p_x_pc | axis_11 => p_y22_pc | axis_22 => p_x11_pc end.
Definition s_prop (k : axis) : prop :=
  match k with axis_x => p_sxx | axis_y => p_syy | axis_11 => p_s11 | axis_22 => p_s22 end.

(** The total yield force and the moment when everything beyond the line [height n = d] is at yield in tension
    and everything before it at yield in compression. *)
Definition total_yield_force (sec : list mtri) : R := region_int m_fy (fun _ _ => 1) sec.
Definition yield_moment_about (sec : list mtri) (n : R * R) (d : R) : R :=
  region_int m_fy (fun x y => Rabs (height n x y - d)) sec.

(** The points surround the section: no half-plane contains all the points without containing the section. *)
Definition surrounds (points : list point) (sec : list mtri) : Prop :=
  forall n d, (forall q, In q points -> d <= height n (fst q) (snd q)) ->
    forall t p, In t sec -> In p (corners t) -> d <= height n (fst p) (snd p).

(** What scipy's brentq promises: started on a bracket with a strict change of sign, a converged result is within
    [tol] of a change of sign and of the point evaluated last. *)
Definition root_within (tol : R) (brentq : root_finder) : Prop :=
  forall f a b, a <= b -> f a * f b < 0 -> let r := brentq f a b in rr_converged r = true ->
    Rabs (rr_root r - rr_last r) <= tol /\
    exists x y, x <= y /\ Rabs (x - rr_root r) <= tol /\ Rabs (y - rr_root r) <= tol /\ f x * f y <= 0.

(** An attribute that has been computed and is not zero. *)
Definition available (get : prop -> option R) (p : prop) : Prop := exists v, get p = Some v /\ v <> 0.

(** The largest moment of an admissible stress field. *)
Definition is_plastic_moment (sec : list mtri) (n : R * R) (m : R) : Prop :=
  (exists fld, admissible sec n fld /\ field_moment n fld = m) /\
  (forall fld, admissible sec n fld -> field_moment n fld <= m).

(** The direction of the trial lines for each axis, the orientation of their offset and the interval searched. *)
Definition axis_u (phi : R) (k : axis) : R * R :=
  let t := phi * PI / 180 in
  match k with axis_x => (1, 0) | axis_y => (0, 1) | axis_11 => (cos t, sin t) | axis_22 => (- sin t, cos t) end.
Definition axis_b (k : axis) : bool := match k with axis_x | axis_11 => true | _ => false end.
Definition axis_lim (pts : list (R * R)) (phi : R) (k : axis) : R * R :=
  let '(x1, x2, y1, y2) := calculate_extreme_fibres pts 0 in
  let '(u1, u2, v1, v2) := calculate_extreme_fibres pts phi in
  match k with axis_x => (y1, y2) | axis_y => (x1, x2) | axis_11 => (v1, v2) | axis_22 => (u1, u2) end.
