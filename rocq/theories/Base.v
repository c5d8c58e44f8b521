(** Common definitions: results with Python exceptions, 6-vectors over R. *)
From Coq Require Import Reals List Lra String.
Import ListNotations.
Local Open Scope R_scope.

(** Python exceptions raised explicitly by the modelled code. *)
Inductive exn : Type :=
| ValueError
| RuntimeError
| IndexError
| KeyError
| TypeError.

(** A call either returns a value or raises. *)
Inductive result (A : Type) : Type :=
| Ok (a : A)
| Err (e : exn).
Arguments Ok {A} a.
Arguments Err {A} e.

Definition bind {A B : Type} (r : result A) (f : A -> result B) : result B :=
  match r with
  | Ok a => f a
  | Err e => Err e
  end.

Definition is_ok {A : Type} (r : result A) : Prop :=
  match r with Ok _ => True | Err _ => False end.

(** A numpy array of six numbers. *)
Record V6 : Type := mkV6 { v0 : R; v1 : R; v2 : R; v3 : R; v4 : R; v5 : R }.

(** [u @ v] for two arrays of six numbers. *)
Definition dot6 (u v : V6) : R :=
  v0 u * v0 v + v1 u * v1 v + v2 u * v2 v + v3 u * v3 v + v4 u * v4 v + v5 u * v5 v.

Definition map6 (f : R -> R) (u : V6) : V6 :=
  mkV6 (f (v0 u)) (f (v1 u)) (f (v2 u)) (f (v3 u)) (f (v4 u)) (f (v5 u)).

Definition zip6 (f : R -> R -> R) (u v : V6) : V6 :=
  mkV6 (f (v0 u) (v0 v)) (f (v1 u) (v1 v)) (f (v2 u) (v2 v))
       (f (v3 u) (v3 v)) (f (v4 u) (v4 v)) (f (v5 u) (v5 v)).

Definition add6 : V6 -> V6 -> V6 := zip6 Rplus.
Definition scal6 (k : R) : V6 -> V6 := map6 (Rmult k).
Definition const6 (k : R) : V6 := mkV6 k k k k k k.
Definition zero6 : V6 := const6 0.
Definition sum6 (u : V6) : R := v0 u + v1 u + v2 u + v3 u + v4 u + v5 u.

(** Python's [sum] of a list of numbers, and the mathematical finite sum. *)
Definition Rsum (l : list R) : R := fold_right Rplus 0 l.

(** [sumf f l] is the sum of [f x] over the elements of [l]. *)
Definition sumf {A : Type} (f : A -> R) (l : list A) : R := Rsum (map f l).

(** The sum of [f i] for i = 0 .. n-1. *)
Fixpoint sumn (n : nat) (f : nat -> R) : R :=
  match n with
  | O => 0
  | S m => sumn m f + f m
  end.
