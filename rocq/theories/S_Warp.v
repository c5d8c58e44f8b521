(** Specification notions for the warping analysis: meshes on numbered nodes, linear systems, exact
    solvers, and stress fields inside elements. *)
From Coq Require Import Reals List Permutation.
From Coquelicot Require Import Coquelicot.
From Verif Require Import Base S_Integral M_Fea S_Fem M_Post M_Section S_Section.
Import ListNotations.
Local Open Scope R_scope.

(** A mesh on the nodes 0 .. n-1 with coordinates X, Y: every element is a valid triangle whose six
    distinct nodes are mesh nodes, with the coordinates of these nodes. *)
Definition mesh_on (n : nat) (X Y : nat -> R) (els : list tri6) : Prop :=
  forall el, In el els ->
    valid_el el /\ NoDup (ids_list (el_ids el)) /\ (forall k, In k (ids_list (el_ids el)) -> (k < n)%nat) /\
    el_x el = gather X (el_ids el) /\ el_y el = gather Y (el_ids el).

(** The matrix-vector product (K u)_i over the first n columns. *)
Definition mulv (n : nat) (K : nat -> nat -> R) (u : nat -> R) (i : nat) : R := sumn n (fun j => K i j * u j).

(** u and the multiplier lam solve the (n+1) x (n+1) system K (u, lam) = (f, 0). *)
Definition solves (n : nat) (K : nat -> nat -> R) (f u : nat -> R) (lam : R) : Prop :=
  (forall i, (i < n)%nat -> mulv n K u i + K i n * lam = f i) /\
  mulv n K u n + K n n * lam = 0.

(** A solver that only returns exact solutions of the bordered system. *)
Definition exact_solver (n : nat) (solve : lg_solver) : Prop :=
  forall K f u, solve K f = Ok u -> exists lam, solves n K f u lam.

(** The local point with coordinates xi = s, zeta = t (and eta = 1 - s - t). *)
Definition loc (s t : R) : gp := mkGp 0 (1 - s - t) s t.

(** Position of the local point in an element. *)
Definition loc_x (el : tri6) (s t : R) : R := fst (el_point el (1 - s - t) s t).
Definition loc_y (el : tri6) (s t : R) : R := snd (el_point el (1 - s - t) s t).

(** Integral over the triangle of an element of a function of the local coordinates. *)
Definition loc_int (el : tri6) (F : R -> R -> R) : R :=
  orient (corner_a el) (corner_b el) (corner_c el) * simplex_int F.

(** Integral over a mesh of a field given element by element in local coordinates. *)
Definition field_int (F : tri6 -> R -> R -> R) (els : list tri6) : R := sumf (fun el => loc_int el (F el)) els.

(** ** Finite element functions *)

(** The quadratic function of the local coordinates s = xi, t = zeta with given values at the six nodes. *)
Definition fe_val (u : V6) (s t : R) : R :=
  let r := 1 - s - t in
  v0 u * (r * (2 * r - 1)) + v1 u * (s * (2 * s - 1)) + v2 u * (t * (2 * t - 1))
  + v3 u * (4 * r * s) + v4 u * (4 * s * t) + v5 u * (4 * t * r).

(** Its derivatives with respect to x and y: the solution of the chain rule equations
      d/ds = d/dx (xb - xa) + d/dy (yb - ya),   d/dt = d/dx (xc - xa) + d/dy (yc - ya). *)
Definition fe_ds (u : V6) (s t : R) : R := Derive (fun s' => fe_val u s' t) s.
Definition fe_dt (u : V6) (s t : R) : R := Derive (fun t' => fe_val u s t') t.
Definition fe_dx (el : tri6) (u : V6) (s t : R) : R :=
  let a := corner_a el in let b := corner_b el in let c := corner_c el in
  (fe_ds u s t * (snd c - snd a) - fe_dt u s t * (snd b - snd a)) / orient a b c.
Definition fe_dy (el : tri6) (u : V6) (s t : R) : R :=
  let a := corner_a el in let b := corner_b el in let c := corner_c el in
  (fe_dt u s t * (fst b - fst a) - fe_ds u s t * (fst c - fst a)) / orient a b c.

(** Value and derivatives of the finite element function with nodal values u inside an element. *)
Definition val (u : nat -> R) (el : tri6) (s t : R) : R := fe_val (gather u (el_ids el)) s t.
Definition ddx (u : nat -> R) (el : tri6) (s t : R) : R := fe_dx el (gather u (el_ids el)) s t.
Definition ddy (u : nat -> R) (el : tri6) (s t : R) : R := fe_dy el (gather u (el_ids el)) s t.

(** Integral over the section of E times a field. *)
Definition E_int (F : tri6 -> R -> R -> R) (els : list tri6) : R :=
  field_int (fun el s t => m_E (el_mat el) * F el s t) els.

(** Strain energy (per unit twist, doubled and divided by the shear modulus scale) of a trial warping
    function u for a rotation about (cx, cy). *)
Definition twist_energy (cx cy : R) (els : list tri6) (u : nat -> R) : R :=
  E_int (fun el s t => (ddx u el s t - (loc_y el s t - cy)) ^ 2 + (ddy u el s t + (loc_x el s t - cx)) ^ 2) els.

(** The results of a geometric analysis followed by a warping analysis with an exact solver, on a mesh
    with positive moduli. A section without materials has modulus 1 everywhere. *)
Definition unit_moduli (els : list tri6) : Prop := forall el, In el els -> m_E (el_mat el) = 1.
Definition analysed (n : nat) (X Y : nat -> R) (els : list tri6) (solve : lg_solver) (composite : bool)
  (w : warping) : Prop :=
  mesh_on n X Y els /\ els <> [] /\ pos_moduli els /\ (composite = false -> unit_moduli els) /\
  exact_solver n solve /\
  warping_analysis n solve composite (section_totals els) (centroidal_of (section_totals els)) els = Ok w.

(** The solver that adds the constant k to every entry of the solution. *)
Definition shift_solver (k : R) (solve : lg_solver) : lg_solver :=
  fun K f => match solve K f with Ok u => Ok (fun i => u i + k) | Err e => Err e end.

(** Effective Poisson's ratio used by the warping and stress analyses. *)
Definition nu_used (composite : bool) (els : list tri6) : R :=
  if composite then nu_eff (section_totals els) else 0.

(** Two warping analyses report the same values (everything except the nodal functions themselves). *)
Definition same_results (w w' : warping) : Prop :=
  w_j w' = w_j w /\ w_delta_s w' = w_delta_s w /\ w_x_se w' = w_x_se w /\ w_y_se w' = w_y_se w /\
  w_x11_se w' = w_x11_se w /\ w_y22_se w' = w_y22_se w /\ w_x_st w' = w_x_st w /\ w_y_st w' = w_y_st w /\
  w_gamma w' = w_gamma w /\
  w_a_sx w' = w_a_sx w /\ w_a_sy w' = w_a_sy w /\ w_a_sxy w' = w_a_sxy w /\ w_a_s11 w' = w_a_s11 w /\ w_a_s22 w' = w_a_s22 w /\
  w_beta_x_plus w' = w_beta_x_plus w /\ w_beta_x_minus w' = w_beta_x_minus w /\
  w_beta_y_plus w' = w_beta_y_plus w /\ w_beta_y_minus w' = w_beta_y_minus w /\
  w_beta_11_plus w' = w_beta_11_plus w /\ w_beta_11_minus w' = w_beta_11_minus w /\
  w_beta_22_plus w' = w_beta_22_plus w /\ w_beta_22_minus w' = w_beta_22_minus w.

(** The results of two analyses agree when the moduli of the second section are k times those of the first:
    j and the shear areas (E-weighted quantities) are multiplied by k, the rest is unchanged. *)
Definition scaled_results (k : R) (w w' : warping) : Prop :=
  w_j w' = k * w_j w /\ w_x_se w' = w_x_se w /\ w_y_se w' = w_y_se w /\
  w_x11_se w' = w_x11_se w /\ w_y22_se w' = w_y22_se w /\
  w_a_sx w' = k * w_a_sx w /\ w_a_sy w' = k * w_a_sy w /\ w_a_sxy w' = k * w_a_sxy w /\
  w_a_s11 w' = k * w_a_s11 w /\ w_a_s22 w' = k * w_a_s22 w /\
  w_beta_x_plus w' = w_beta_x_plus w /\ w_beta_x_minus w' = w_beta_x_minus w /\
  w_beta_y_plus w' = w_beta_y_plus w /\ w_beta_y_minus w' = w_beta_y_minus w /\
  w_beta_11_plus w' = w_beta_11_plus w /\ w_beta_11_minus w' = w_beta_11_minus w /\
  w_beta_22_plus w' = w_beta_22_plus w /\ w_beta_22_minus w' = w_beta_22_minus w.

(** The results that depend on the values (not only the gradient) of the warping function. *)
Definition scaled_warping_moments (k : R) (w w' : warping) : Prop :=
  w_x_st w' = w_x_st w /\ w_y_st w' = w_y_st w /\ w_gamma w' = k * w_gamma w.

(** Two elements with a common node, and meshes in which every element is reached from every other one. *)
Definition share_node (el el' : tri6) : Prop := exists i, In i (ids_list (el_ids el)) /\ In i (ids_list (el_ids el')).
Definition connected (els : list tri6) : Prop :=
  forall el el', In el els -> In el' els ->
    exists path : list tri6, (forall e, In e path -> In e els) /\
      (fix chain (a : tri6) (l : list tri6) : Prop :=
         match l with [] => share_node a el' | b :: l' => share_node a b /\ chain b l' end) el path.

(** Every node 0 .. n-1 belongs to an element. *)
Definition all_used (n : nat) (els : list tri6) : Prop :=
  forall i, (i < n)%nat -> exists el, In el els /\ In i (ids_list (el_ids el)).

(** The nodal vector that is 1 at node i and 0 at the others: its finite element function is the i-th basis
    function of the mesh. *)
Definition unit_node (i : nat) : nat -> R := fun k => if Nat.eqb k i then 1 else 0.

(** The mesh falls apart: it is made of two non-empty lists of elements without a common node. *)
Definition falls_apart (els els1 els2 : list tri6) : Prop :=
  els1 <> [] /\ els2 <> [] /\ Permutation els (els1 ++ els2) /\
  forall e1 e2, In e1 els1 -> In e2 els2 -> ~ share_node e1 e2.

(** Poisson's ratios above -1 (so that shear moduli of materials with E > 0 are positive). *)
Definition physical_nu (els : list tri6) : Prop := forall el, In el els -> -1 < m_nu (el_mat el).
