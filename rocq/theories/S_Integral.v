(** Specification: area integrals over triangles, independent of any finite element notion. *)
From Coq Require Import Reals.
From Coquelicot Require Import Coquelicot.
Local Open Scope R_scope.

Definition point : Type := (R * R)%type.

(** Integral of [f] over the unit simplex {s >= 0, t >= 0, s + t <= 1}, as an iterated Riemann integral. *)
Definition simplex_int (f : R -> R -> R) : R :=
  RInt (fun s => RInt (fun t => f s t) 0 (1 - s)) 0 1.

(** Twice the signed area of the triangle a b c (positive when counter-clockwise). *)
Definition orient (a b c : point) : R :=
  (fst b - fst a) * (snd c - snd a) - (fst c - fst a) * (snd b - snd a).

(** Integral of [f x y] over the triangle with corners a, b, c: change of variables to the unit simplex. *)
Definition tri_int (a b c : point) (f : R -> R -> R) : R :=
  Rabs (orient a b c) *
  simplex_int (fun s t =>
    f (fst a + s * (fst b - fst a) + t * (fst c - fst a))
      (snd a + s * (snd b - snd a) + t * (snd c - snd a))).

(** The second-degree polynomial with coefficients a, b, c, d, e, g. *)
Definition quad (a b c d e g : R) (x y : R) : R :=
  a + b * x + c * y + d * x ^ 2 + e * x * y + g * y ^ 2.
