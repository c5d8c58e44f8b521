(** Specification notions for elements and meshes: straight-sided triangles, polynomials, nodal fields. *)
From Coq Require Import Reals List.
From Verif Require Import Base S_Integral M_Fea.
Import ListNotations.
Local Open Scope R_scope.

(** The six node coordinates (one axis) of a straight-sided element: corners p, q, r and the
    middles of the sides p-q, q-r and p-r. *)
Definition side_nodes (p q r : R) : V6 :=
  mkV6 p q r ((p + q) / 2) ((q + r) / 2) ((p + r) / 2).

(** [el] is the straight-sided triangle with corners a, b, c. *)
Definition straight (el : tri6) (a b c : point) : Prop :=
  el_x el = side_nodes (fst a) (fst b) (fst c) /\
  el_y el = side_nodes (snd a) (snd b) (snd c).

(** Corners of an element. *)
Definition corner_a (el : tri6) : point := (v0 (el_x el), v0 (el_y el)).
Definition corner_b (el : tri6) : point := (v1 (el_x el), v1 (el_y el)).
Definition corner_c (el : tri6) : point := (v2 (el_x el), v2 (el_y el)).

(** A valid element: straight sides and counter-clockwise corners, the form the mesher produces. *)
Definition valid_el (el : tri6) : Prop :=
  straight el (corner_a el) (corner_b el) (corner_c el) /\
  0 < orient (corner_a el) (corner_b el) (corner_c el).

(** Integral over the triangle of an element. *)
Definition el_int (el : tri6) (f : R -> R -> R) : R :=
  tri_int (corner_a el) (corner_b el) (corner_c el) f.

(** The point of an element with area coordinates eta, xi, zeta. *)
Definition el_point (el : tri6) (eta xi zeta : R) : point :=
  (eta * fst (corner_a el) + xi * fst (corner_b el) + zeta * fst (corner_c el),
   eta * snd (corner_a el) + xi * snd (corner_b el) + zeta * snd (corner_c el)).

(** The values of a function of the plane at the six nodes of an element. *)
Definition nodal (f : R -> R -> R) (el : tri6) : V6 := zip6 f (el_x el) (el_y el).

(** Polynomial functions of total degree at most d, as the closure of constants under addition and
    multiplication by a coordinate. *)
Inductive poly_deg : nat -> (R -> R -> R) -> Prop :=
| poly_const : forall d c f, (forall x y, f x y = c) -> poly_deg d f
| poly_add : forall d f g h, poly_deg d f -> poly_deg d g ->
    (forall x y, h x y = f x y + g x y) -> poly_deg d h
| poly_scal : forall d k f h, poly_deg d f -> (forall x y, h x y = k * f x y) -> poly_deg d h
| poly_mulx : forall d f h, poly_deg d f -> (forall x y, h x y = x * f x y) -> poly_deg (S d) h
| poly_muly : forall d f h, poly_deg d f -> (forall x y, h x y = y * f x y) -> poly_deg (S d) h.

(** Area coordinates of the six nodes of an element: three corners, then the middles of the sides
    0-1, 1-2 and 0-2. *)
Definition node_coords : list (R * R * R) :=
  [ (1, 0, 0); (0, 1, 0); (0, 0, 1); (1/2, 1/2, 0); (0, 1/2, 1/2); (1/2, 0, 1/2) ].

(** The i-th unit vector. *)
Definition unit6 (i : nat) : V6 :=
  let d k := if Nat.eqb i k then 1 else 0 in
  mkV6 (d 0%nat) (d 1%nat) (d 2%nat) (d 3%nat) (d 4%nat) (d 5%nat).

(** The i-th entry. *)
Definition nth6 (v : V6) (i : nat) : R :=
  match i with 0 => v0 v | 1 => v1 v | 2 => v2 v | 3 => v3 v | 4 => v4 v | _ => v5 v end%nat.

(** A closed triangle as a set: convex combinations of its corners. *)
Definition in_triangle (a b c p : point) : Prop :=
  exists eta xi zeta, 0 <= eta /\ 0 <= xi /\ 0 <= zeta /\ eta + xi + zeta = 1 /\
    fst p = eta * fst a + xi * fst b + zeta * fst c /\
    snd p = eta * snd a + xi * snd b + zeta * snd c.
