(** Specification vocabulary for the bridge girders: outlines made of trapezoids with horizontal sides, symmetric about x = 0. *)
From Coq Require Import Reals List ZArith.
From Verif Require Import Base M_Fea M_Init M_Geometry S_Geometry S_Library S_Concrete.
Import ListNotations.
Local Open Scope R_scope.

(** A trapezoid between the heights [t_lo] and [t_hi], symmetric about x = 0, with these half widths at the two heights *)
Record trapezoid : Type := mkTrap { t_lo : R; half_lo : R; t_hi : R; half_hi : R }.
(** The half width at the height [y] *)
Definition half_at (t : trapezoid) (y : R) : R := half_lo t + (y - t_lo t) / (t_hi t - t_lo t) * (half_hi t - half_lo t).
(** [p] is in the trapezoid (with its left and lower sides, without the other two) *)
Definition within_trap (p : pt) (t : trapezoid) : Prop := t_lo t <= snd p < t_hi t /\ - half_at t (snd p) <= fst p < half_at t (snd p).
Definition trap_area (t : trapezoid) : R := (half_lo t + half_hi t) * (t_hi t - t_lo t).
Definition traps_area (l : list trapezoid) : R := fold_right Rplus 0 (map trap_area l).

(** How often the closed polygon with these vertices winds, clockwise, around [p]: the ray from [p] to the left crosses an edge that goes
    up (+1) or down (-1). *)
Definition crosses (p : pt) (e : pt * pt) : Z :=
  if Rle_dec (snd (fst e)) (snd p) then
    if Rle_dec (snd (snd e)) (snd p) then 0%Z
    else if Rle_dec (turn e p) 0 then 1%Z else 0%Z
  else
    if Rle_dec (snd (snd e)) (snd p) then (if Rle_dec 0 (turn e p) then (-1)%Z else 0%Z)
    else 0%Z.
Definition clockwise (p : pt) (l : list pt) : Z := fold_right Z.add 0%Z (map (crosses p) (edges l)).

(** The polygon winds once, clockwise, around the points of the trapezoids [body] that are in none of the trapezoids [void], and not
    around any other point; [void] is part of [body]; and the area is the difference of the areas. *)
Definition shaped (l : list pt) (body void : list trapezoid) : Prop :=
  (forall p, clockwise p l = 1%Z /\ Exists (within_trap p) body /\ ~ Exists (within_trap p) void \/
             clockwise p l = 0%Z /\ (~ Exists (within_trap p) body \/ Exists (within_trap p) void)) /\
  (forall p, Exists (within_trap p) void -> Exists (within_trap p) body) /\
  poly_area (mkPoly l []) = traps_area body - traps_area void.

(** How far [p] is, to the right, from the line through [a] and [b] *)
Definition right_of_line (p a b : pt) : R := fst p - (fst a + (snd p - snd a) / (snd b - snd a) * (fst b - fst a)).
