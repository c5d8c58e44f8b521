(** Specification notions for whole meshes. *)
From Coq Require Import Reals List Permutation.
From Verif Require Import Base S_Integral M_Fea S_Fem.
Import ListNotations.
Local Open Scope R_scope.

(** Weighted integral over a mesh: the sum over the elements of the weight of the element's material
    times the integral over the element's triangle. *)
Definition mesh_int (w : material -> R) (f : R -> R -> R) (els : list tri6) : R :=
  sumf (fun el => w (el_mat el) * el_int el f) els.

Definition valid_mesh (els : list tri6) : Prop := forall el, In el els -> valid_el el.

(** Apply a map of the plane to every node of an element. *)
Definition map_el (fx fy : R -> R -> R) (el : tri6) : tri6 :=
  mkTri (zip6 fx (el_x el) (el_y el)) (zip6 fy (el_x el) (el_y el)) (el_ids el) (el_mat el).

Definition translate_el (dx dy : R) : tri6 -> tri6 := map_el (fun x _ => x + dx) (fun _ y => y + dy).
Definition rotate_el (t : R) : tri6 -> tri6 :=
  map_el (fun x y => cos t * x - sin t * y) (fun x y => sin t * x + cos t * y).
Definition scale_el (k : R) : tri6 -> tri6 := map_el (fun x _ => k * x) (fun _ y => k * y).

(** Reverse the orientation of an element by exchanging corners 1 and 2 (and the mid-side nodes
    accordingly); a mirrored mesh has its elements listed this way. *)
Definition flip6 (v : V6) : V6 := mkV6 (v0 v) (v2 v) (v1 v) (v5 v) (v4 v) (v3 v).
Definition flip_conn (c : conn6) : conn6 := mkConn (c0 c) (c2 c) (c1 c) (c5 c) (c4 c) (c3 c).
Definition flip_el (el : tri6) : tri6 :=
  mkTri (flip6 (el_x el)) (flip6 (el_y el)) (flip_conn (el_ids el)) (el_mat el).
(** Mirror about the x-axis (y -> -y) and about the y-axis (x -> -x). *)
Definition mirror_x_el (el : tri6) : tri6 := flip_el (map_el (fun x _ => x) (fun _ y => - y) el).
Definition mirror_y_el (el : tri6) : tri6 := flip_el (map_el (fun x _ => - x) (fun _ y => y) el).

(** ** Boundaries *)

(** A directed edge carrying the material of the region on its left. *)
Definition edge : Type := (material * point * point)%type.

Definition el_edges (el : tri6) : list edge :=
  [ (el_mat el, corner_a el, corner_b el);
    (el_mat el, corner_b el, corner_c el);
    (el_mat el, corner_c el, corner_a el) ].

Definition mesh_edges (els : list tri6) : list edge := concat (map el_edges els).

(** Two lists of directed edges bound the same regions: generated by reordering, by cancelling an edge
    against its reverse in the same material, and by splitting an edge at a point of its line. *)
Inductive same_boundary : list edge -> list edge -> Prop :=
| sb_refl : forall l, same_boundary l l
| sb_sym : forall l l', same_boundary l l' -> same_boundary l' l
| sb_trans : forall l1 l2 l3, same_boundary l1 l2 -> same_boundary l2 l3 -> same_boundary l1 l3
| sb_perm : forall l l', Permutation l l' -> same_boundary l l'
| sb_cancel : forall m p q l, same_boundary ((m, p, q) :: (m, q, p) :: l) l
| sb_split : forall m p q t l,
    let r := (fst p + t * (fst q - fst p), snd p + t * (snd q - snd p)) in
    same_boundary ((m, p, q) :: l) ((m, p, r) :: (m, r, q) :: l).

(** The edges of a closed polygon given by its vertices in order. *)
Fixpoint path_edges (m : material) (first : point) (l : list point) : list edge :=
  match l with
  | [] => []
  | [p] => [(m, p, first)]
  | p :: (q :: _) as t => (m, p, q) :: path_edges m first t
  end.
Definition ring_edges (m : material) (l : list point) : list edge :=
  match l with [] => [] | p :: _ => path_edges m p l end.

(** Boundary formulas: contribution of a directed edge to the integrals of 1, y, x, y^2, x^2, xy. *)
Definition cross (p q : point) : R := fst p * snd q - fst q * snd p.
Definition b_area (p q : point) : R := cross p q / 2.
Definition b_qx (p q : point) : R := cross p q * (snd p + snd q) / 6.
Definition b_qy (p q : point) : R := cross p q * (fst p + fst q) / 6.
Definition b_ixx (p q : point) : R := cross p q * (snd p ^ 2 + snd p * snd q + snd q ^ 2) / 12.
Definition b_iyy (p q : point) : R := cross p q * (fst p ^ 2 + fst p * fst q + fst q ^ 2) / 12.
Definition b_ixy (p q : point) : R :=
  cross p q * (2 * fst p * snd p + fst p * snd q + fst q * snd p + 2 * fst q * snd q) / 24.

(** Sum of a boundary formula over a list of edges, weighted by material. *)
Definition boundary_sum (w : material -> R) (b : point -> point -> R) (l : list edge) : R :=
  sumf (fun e => let '(m, p, q) := e in w m * b p q) l.

(** Every element has a positive elastic modulus. *)
Definition pos_moduli (els : list tri6) : Prop := forall el, In el els -> 0 < m_E (el_mat el).

(** The same element with its elastic modulus multiplied by k. *)
Definition scale_E (k : R) (el : tri6) : tri6 :=
  mkTri (el_x el) (el_y el) (el_ids el) (mkMat (k * m_E (el_mat el)) (m_nu (el_mat el)) (m_fy (el_mat el)) (m_rho (el_mat el))).
