(** Specification vocabulary for perimeters and overlapping regions. *)
From Coq Require Import Reals List Arith.
From Verif Require Import Base M_Fea M_Init M_Geometry S_Geometry S_Library S_Outline M_Perimeter.
Import ListNotations.
Local Open Scope R_scope.

(** The length of the closed polygonal curve through the points: the sum over i < n of the distance from point i to point i + 1 mod n *)
Definition curve_length (l : list pt) : R :=
  sumf (fun i => sqrt ((fst (nth (S i mod length l) l (0, 0)) - fst (nth i l (0, 0))) ^ 2 + (snd (nth (S i mod length l) l (0, 0)) - snd (nth i l (0, 0))) ^ 2))
    (seq 0 (length l)).

(** The length of the chord polygon with [n] points on a quarter circle of radius [r] *)
Definition quarter (n : nat) (r : R) : R := INR (n - 1) * (2 * r * sin (PI / 4 / INR (n - 1))).
(** what a fillet or a rounded corner adds to the perimeter of the sharp corner: the arc instead of two tangents of length r (a negative number) *)
Definition rounding (n : nat) (r : R) : R := quarter n r - 2 * r.

(** The function returned a Geometry with this perimeter, up to the rounding of at most [k] vertices to 12 decimals *)
Definition has_perimeter (res : result geom) (k : nat) (v : R) : Prop :=
  exists g, res = Ok g /\ Rabs (calculate_perimeter g - v) <= INR k * (2 / 10 ^ 12).
(** A map that keeps distances *)
Definition isometry (f : pt -> pt) : Prop := forall a b, pt_dist (f a) (f b) = pt_dist a b.

(** ** Regions that overlap: the lines of all the polygons cut the plane into cells; every polygon consists of some of them. *)
(** A cell: its area, and for every polygon whether it is part of it *)
Definition cells : Type := list (R * list bool).
Definition layers (c : R * list bool) : nat := length (filter (fun b => b) (snd c)).
(** the cells show these polygons, and shapely computes the area of their union *)
Definition cut_into (cs : cells) (lop : list polygon) (union_area : list polygon -> R) : Prop :=
  Forall (fun c => 0 < fst c /\ length (snd c) = length lop) cs /\
  (forall i p, nth_error lop i = Some p -> poly_area p = sumf (fun c => if nth i (snd c) false then fst c else 0) cs) /\
  union_area lop = sumf (fun c => if Nat.eqb (layers c) 0 then 0 else fst c) cs.
(** the area that the sum of the areas counts more than once *)
Definition double_counted (cs : cells) : R := sumf (fun c => INR (layers c - 1) * fst c) cs.
