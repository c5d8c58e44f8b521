(** Model of src/sectionproperties/analysis/solver.py. Definitions only. The sparse direct solver (pypardiso's or
    scipy's spsolve) and the conjugate gradient squared iteration (scipy's cgs) are oracles. A system of size m is
    a matrix nat -> nat -> R and a vector nat -> R of which the indices below m count. *)
From Coq Require Import Reals ZArith Arith.
From Verif Require Import Base M_Fea M_Section.
Local Open Scope R_scope.

Definition direct_oracle : Type := (nat -> nat -> R) -> (nat -> R) -> nat -> R.
(** cgs(A, b, rtol): solution and info *)
Definition cgs_oracle : Type := (nat -> nat -> R) -> (nat -> R) -> R -> (nat -> R) * Z.

(** np.append(f, 0) for a vector of n entries *)
Definition append_zero (n : nat) (f : nat -> R) : nat -> R := fun i => if Nat.ltb i n then f i else 0.
(** u[:-1] of a vector of n+1 entries; the model fills with zeros *)
Definition drop_last (n : nat) (u : nat -> R) : nat -> R := fun i => if Nat.ltb i n then u i else 0.
(** max(np.absolute(u)) of a vector of n+1 entries *)
Fixpoint max_abs (n : nat) (u : nat -> R) : R :=
  match n with O => Rabs (u O) | S m => Rmax (max_abs m u) (Rabs (u (S m))) end.
(** np.finfo(float).eps *)
Definition float_eps : R := / 2 ^ 52.

(** solver.py 34-60: solve_cgs *)
Definition solve_cgs (cgs : cgs_oracle) (tol : R) (K : nat -> nat -> R) (f : nat -> R) : result (nat -> R) :=
  let '(u, info) := cgs K f tol in
  if Z.eq_dec info 0 then Ok u else Err RuntimeError.

(** solver.py 63-97: solve_cgs_lagrange. The zero vector gives nan > tol, False, in numpy; here 0 / 0 = 0. *)
Definition solve_cgs_lagrange (n : nat) (cgs : cgs_oracle) (tol : R) (K : nat -> nat -> R) (f : nat -> R) : result (nat -> R) :=
  let '(u, info) := cgs K (append_zero n f) tol in
  if Z.eq_dec info 0 then
    let err := u n / max_abs n u in
    if Rlt_dec tol err then Err RuntimeError else Ok (drop_last n u)
  else Err RuntimeError.

(** solver.py 100-113: solve_direct *)
Definition solve_direct (spsolve : direct_oracle) (K : nat -> nat -> R) (f : nat -> R) : nat -> R := spsolve K f.

(** solver.py 116-146: solve_direct_lagrange *)
Definition solve_direct_lagrange (n : nat) (spsolve : direct_oracle) (K : nat -> nat -> R) (f : nat -> R) : result (nat -> R) :=
  let u := spsolve K (append_zero n f) in
  let multiplier := Rabs (u n) in
  let rel_error := multiplier / max_abs n u in
  if Rlt_dec (1 / 10 ^ 7) rel_error then
    if Rlt_dec (10 * float_eps) multiplier then Err RuntimeError else Ok (drop_last n u)
  else Ok (drop_last n u).
