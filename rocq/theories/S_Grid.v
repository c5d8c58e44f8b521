(** Uniform meshes of a triangle: every side is cut into the same number of segments. *)
From Coq Require Import Reals List Arith Cantor.
From Verif Require Import Base S_Integral M_Fea S_Fem M_Post M_Section.
Import ListNotations.
Local Open Scope R_scope.

Section Grid.
Context (P Q T : point) (m : material) (k : nat).

(** Every side of the triangle P Q T is cut into k + 1 segments. The node (i, j) lies at P + (i (Q - P) + j (T - P)) / (2 (k + 1)). *)
Definition grid_node (i j : nat) : nat := to_nat (i, j).
Definition grid_x (n : nat) : R := let '(i, j) := of_nat n in fst P + (INR i * (fst Q - fst P) + INR j * (fst T - fst P)) / (2 * INR (S k)).
Definition grid_y (n : nat) : R := let '(i, j) := of_nat n in snd P + (INR i * (snd Q - snd P) + INR j * (snd T - snd P)) / (2 * INR (S k)).
Definition grid_el (c : conn6) : tri6 := mkTri (gather grid_x c) (gather grid_y c) c m.
(** The triangle whose right angle (in the lattice) is at (2 p, 2 q), and its neighbour across the diagonal *)
Definition grid_up (c : nat * nat) : tri6 := let '(p, q) := c in
  grid_el (mkConn (grid_node (2 * p) (2 * q)) (grid_node (2 * p + 2) (2 * q)) (grid_node (2 * p) (2 * q + 2)) (grid_node (2 * p + 1) (2 * q)) (grid_node (2 * p + 1) (2 * q + 1)) (grid_node (2 * p) (2 * q + 1))).
Definition grid_down (c : nat * nat) : tri6 := let '(p, q) := c in
  grid_el (mkConn (grid_node (2 * p + 2) (2 * q)) (grid_node (2 * p + 2) (2 * q + 2)) (grid_node (2 * p) (2 * q + 2)) (grid_node (2 * p + 2) (2 * q + 1)) (grid_node (2 * p + 1) (2 * q + 2)) (grid_node (2 * p + 1) (2 * q + 1))).
(** The pairs of numbers with a sum below n *)
Fixpoint cells (n : nat) : list (nat * nat) := match n with 0%nat => [] | S n' => map (fun p => (p, 0%nat)) (seq 0 n) ++ map (fun c => (fst c, S (snd c))) (cells n') end.
Definition grid : list tri6 := map grid_up (cells (S k)) ++ map grid_down (cells k).
Definition grid_size : nat := to_nat (2 * k + 3, 0)%nat.
End Grid.
