(** Specification notions for comparing the torsion constants of related meshes: refined meshes, sections made of
    parts, sections with stiffer materials. *)
From Coq Require Import Reals List Permutation.
From Verif Require Import Base S_Integral M_Fea S_Fem S_Section.
Import ListNotations.
Local Open Scope R_scope.

(** A point of the closed triangle of an element. *)
Definition in_el (el : tri6) (p : point) : Prop := in_triangle (corner_a el) (corner_b el) (corner_c el) p.

(** The node numbers of the corners, and the sides as (end, end, middle). *)
Definition corner_ids (el : tri6) : list nat := let c := el_ids el in [c0 c; c1 c; c2 c].
Definition side_ids (el : tri6) : list (nat * nat * nat) :=
  let c := el_ids el in [(c0 c, c1 c, c3 c); (c1 c, c2 c, c4 c); (c0 c, c2 c, c5 c)].
Definition has_side (el : tri6) (a b m : nat) : Prop := In (a, b, m) (side_ids el) \/ In (b, a, m) (side_ids el).

(** A point of the segment from p to q. *)
Definition on_segment (p q r : point) : Prop :=
  exists l, 0 <= l <= 1 /\ r = (fst p + l * (fst q - fst p), snd p + l * (snd q - snd p)).

(** A conforming mesh: two different elements only meet at a common corner or along a common side. *)
Definition conforming (X Y : nat -> R) (els : list tri6) : Prop :=
  forall el el' p, In el els -> In el' els -> in_el el p -> in_el el' p ->
    el = el' \/
    (exists i, In i (corner_ids el) /\ In i (corner_ids el') /\ p = (X i, Y i)) \/
    (exists a b m, has_side el a b m /\ has_side el' a b m /\ on_segment (X a, Y a) (X b, Y b) p).

(** The triangles [children] tile the triangle of [el] and have its material. *)
Definition tiles (el : tri6) (children : list tri6) : Prop :=
  same_boundary (mesh_edges children) (el_edges el) /\
  forall ch, In ch children -> el_mat ch = el_mat el /\ in_el el (corner_a ch) /\ in_el el (corner_b ch) /\ in_el el (corner_c ch).

(** The mesh els' is a refinement of the mesh els: every element is cut into triangles. *)
Definition refines (els els' : list tri6) : Prop :=
  exists cuts : list (tri6 * list tri6), map fst cuts = els /\ Permutation (concat (map snd cuts)) els' /\
    forall el children, In (el, children) cuts -> tiles el children.

(** The same element with its nodes renumbered. *)
Definition renumber (g : nat -> nat) (el : tri6) : tri6 :=
  let c := el_ids el in
  mkTri (el_x el) (el_y el) (mkConn (g (c0 c)) (g (c1 c)) (g (c2 c)) (g (c3 c)) (g (c4 c)) (g (c5 c))) (el_mat el).

(** The same triangle and nodes, with a modulus that is at least as large. *)
Definition stiffer (el el' : tri6) : Prop :=
  el_x el' = el_x el /\ el_y el' = el_y el /\ el_ids el' = el_ids el /\ m_E (el_mat el) <= m_E (el_mat el').
