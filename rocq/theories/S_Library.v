(** Specification vocabulary for the section library: bounding boxes, symmetric rings, the area of filleted corners. *)
From Coq Require Import Reals List Arith.
From Verif Require Import Base M_Fea M_Init M_Geometry S_Geometry.
Import ListNotations.
Local Open Scope R_scope.

(** The smallest box around the points [l] is [x1, x2] x [y1, y2]. *)
Definition spans (l : list pt) (x1 y1 x2 y2 : R) : Prop :=
  least x1 (map fst l) /\ greatest x2 (map fst l) /\ least y1 (map snd l) /\ greatest y2 (map snd l).

(** [l'] is the ring [l] starting at another vertex. *)
Definition same_ring (l l' : list pt) : Prop := exists a b, l = a ++ b /\ l' = b ++ a.
(** The ring is its own mirror image in the vertical line x = c (in the horizontal line y = c): the mirrored vertices, read backwards,
    are the vertices. *)
Definition mirror_x (c : R) (p : pt) : pt := (2 * c - fst p, snd p).
Definition mirror_y (c : R) (p : pt) : pt := (fst p, 2 * c - snd p).
Definition symmetric_x (c : R) (l : list pt) : Prop := same_ring l (rev (map (mirror_x c) l)).
Definition symmetric_y (c : R) (l : list pt) : Prop := same_ring l (rev (map (mirror_y c) l)).
(** The ring is carried to itself by the half turn about [c] (by the rotation by [angle] about the origin). *)
Definition half_turn (c p : pt) : pt := (2 * fst c - fst p, 2 * snd c - snd p).
Definition symmetric_point (c : pt) (l : list pt) : Prop := same_ring l (map (half_turn c) l).
Definition symmetric_turn (angle : R) (l : list pt) : Prop := same_ring l (map (rotate_pt angle (0, 0)) l).

(** The area between two tangents that meet at a right angle and a chord polygon with [n] points on the quarter circle of radius [r]:
    the square on the radius without the n - 1 isosceles triangles at the centre. It is added by a fillet, and cut off by a rounded
    corner; (1 - PI/4) r^2 in the limit. *)
Definition corner (n : nat) (r : R) : R := r ^ 2 - INR (n - 1) * (r ^ 2 * sin (PI / 2 / INR (n - 1)) / 2).

(** [pts]: n points on the circle (centre, radius) with angles theta, theta + sweep/(n-1), ..., theta + sweep *)
Definition on_arc (pts : list pt) (n : nat) (c : pt) (r theta sweep : R) : Prop :=
  length pts = n /\
  forall i d, (i < n)%nat -> nth i pts d = (fst c + r * cos (theta + sweep * (INR i / INR (n - 1))), snd c + r * sin (theta + sweep * (INR i / INR (n - 1)))).

(** The area of the regular n-gon in a circle of radius r *)
Definition ngon_area (n : nat) (r : R) : R := INR n * (r ^ 2 * sin (2 * PI / INR n) / 2).

(** All vertices in the strip. *)
Definition in_box (x1 y1 x2 y2 : R) (p : pt) : Prop := x1 <= fst p <= x2 /\ y1 <= snd p <= y2.

(** The same as [corner] for two tangents that turn by the angle [s]: cut off a corner, or added by a fillet. *)
Definition bend (n : nat) (r s : R) : R := r ^ 2 * tan (s / 2) - INR (n - 1) * (r ^ 2 * sin (s / INR (n - 1)) / 2).

(** A lip of length [l] at a flange of thickness [t]: the strip above the flange, its outer corner cut off, its inner corner filled.
    The outer radius is r_out, or the length of the lip if that is less; no lip if l <= t. *)
Definition lip_area (n : nat) (l t r_out : R) : R :=
  if Rlt_dec r_out l then t * (l - t) - corner n r_out + corner n (Rmax (r_out - t) 0)
  else if Rlt_dec t l then t * (l - t) - corner n l + corner n (l - t) else 0.

(** The function returned a Geometry with this material, no control point given by the user, and the polygon [p] with every vertex
    rounded to 12 decimals (unless all vertices of the exterior round to the origin). *)
Definition outlined (res : result geom) (p : polygon) (m : mat_obj) : Prop :=
  exists g, res = Ok g /\ gm_mat g = m /\ gm_assigned g = None /\ gm_tol g = 12%nat /\
    ((exists v, In v (ext p) /\ (half 12 < Rabs (fst v) \/ half 12 < Rabs (snd v))) -> Forall2 (Forall2 (near 12)) (rings p) (rings (gm_poly g))).
(** It returned the Geometry of shapely's difference of the two rings, or RuntimeError if that is not a polygon. *)
Definition hollowed (sh : shapely) (res : result geom) (outer inner : list pt) (m : mat_obj) : Prop :=
  match sh_difference sh (mkPoly outer []) [mkPoly inner []] with Some p => outlined res p m | None => res = Err RuntimeError end.

(** The rectangle [0, b] x [y1, y2] *)
Definition slab (b y1 y2 : R) : polygon := mkPoly [(0, y1); (b, y1); (b, y2); (0, y2)] [].
