(** Specification notions for the linear solvers. *)
From Coq Require Import Reals Arith.
From Verif Require Import Base M_Fea M_Section S_Warp M_Solver.
Local Open Scope R_scope.

(** m is the largest absolute value of the entries 0 .. n. *)
Definition is_max_abs (n : nat) (u : nat -> R) (m : R) : Prop :=
  (forall i, (i <= n)%nat -> Rabs (u i) <= m) /\ exists i, (i <= n)%nat /\ Rabs (u i) = m.

(** A non-singular matrix of size n + 1: only the zero vector is mapped to zero. *)
Definition nonsingular (n : nat) (K : nat -> nat -> R) : Prop :=
  forall u, (forall i, (i <= n)%nat -> mulv (S n) K u i = 0) -> forall i, (i <= n)%nat -> u i = 0.

(** The direct solver solves every non-singular system exactly. *)
Definition exact_direct (n : nat) (spsolve : direct_oracle) : Prop :=
  forall K b, nonsingular n K -> forall i, (i <= n)%nat -> mulv (S n) K (spsolve K b) i = b i.
