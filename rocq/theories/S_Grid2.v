(** Uniform meshes of a rectangle: every side is cut into the same number of segments. *)
From Coq Require Import Reals List Arith.
From Verif Require Import Base S_Integral M_Fea S_Fem M_Post M_Section.
Import ListNotations.
Local Open Scope R_scope.

Section Box.
Context (x0 y0 b d : R) (m : material) (k : nat).

(** Every side of the rectangle is cut into k + 1 segments. The node (i, j) lies at (x0 + i b / (2 (k + 1)), y0 + j d / (2 (k + 1))). *)
Definition box_row : nat := 2 * k + 3.
Definition box_node (i j : nat) : nat := i + box_row * j.
Definition box_x (n : nat) : R := x0 + INR (n mod box_row) * b / (2 * INR (S k)).
Definition box_y (n : nat) : R := y0 + INR (n / box_row) * d / (2 * INR (S k)).
Definition box_el (c : conn6) : tri6 := mkTri (gather box_x c) (gather box_y c) c m.
(** The two triangles of a cell *)
Definition box_up (c : nat * nat) : tri6 := let '(p, q) := c in
  box_el (mkConn (box_node (2 * p) (2 * q)) (box_node (2 * p + 2) (2 * q)) (box_node (2 * p) (2 * q + 2)) (box_node (2 * p + 1) (2 * q)) (box_node (2 * p + 1) (2 * q + 1)) (box_node (2 * p) (2 * q + 1))).
Definition box_down (c : nat * nat) : tri6 := let '(p, q) := c in
  box_el (mkConn (box_node (2 * p + 2) (2 * q)) (box_node (2 * p + 2) (2 * q + 2)) (box_node (2 * p) (2 * q + 2)) (box_node (2 * p + 2) (2 * q + 1)) (box_node (2 * p + 1) (2 * q + 2)) (box_node (2 * p + 1) (2 * q + 1))).
Definition box_cells : list (nat * nat) := list_prod (seq 0 (S k)) (seq 0 (S k)).
Definition box_grid : list tri6 := map box_up box_cells ++ map box_down box_cells.
Definition box_size : nat := box_row * box_row.
End Box.
