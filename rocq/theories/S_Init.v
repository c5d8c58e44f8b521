(** Specification notions for the construction of a Section. *)
From Coq Require Import String Reals List Permutation.
From Verif Require Import Base S_Integral M_Fea M_Section M_Init S_Fem.
Import ListNotations.
Local Open Scope R_scope.

Definition midpoint (a b : point) : point := ((fst a + fst b) / 2, (snd a + snd b) / 2).

(** The order in which the mesher (Triangle, option o2) documents the six nodes of a triangle: the corners
    counter-clockwise, then the middle of the edge opposite the first, second and third corner. *)
Definition mesher_row (P : nat -> point) (row : conn6) : Prop :=
  P (c3 row) = midpoint (P (c1 row)) (P (c2 row)) /\
  P (c4 row) = midpoint (P (c2 row)) (P (c0 row)) /\
  P (c5 row) = midpoint (P (c0 row)) (P (c1 row)) /\
  0 < orient (P (c0 row)) (P (c1 row)) (P (c2 row)).

(** A well-formed mesh: one attribute for each triangle, rows in the mesher's order, distinct existing nodes. *)
Definition mesher_mesh (m : raw_mesh) : Prop :=
  length (rm_attributes m) = length (rm_triangles m) /\
  forall row, In row (rm_triangles m) ->
    mesher_row (fun k => nth k (rm_vertices m) (0, 0)) row /\
    NoDup (ids_list row) /\ (forall k, In k (ids_list row) -> (k < length (rm_vertices m))%nat).

(** Equality of Material objects (field by field), and object identity. *)
Definition same_fields (a b : mat_obj) : Prop := mo_name a = mo_name b /\ mo_val a = mo_val b /\ mo_color a = mo_color b.
Definition same_object (a b : mat_obj) : Prop := mo_ref a = mo_ref b.

(** Two references to one object see the same fields. *)
Definition coherent (mats : list mat_obj) : Prop :=
  forall a b, In a mats -> In b mats -> same_object a b -> a = b.
(** Equal materials are one object: the user did not create the same material twice. *)
Definition shared (mats : list mat_obj) : Prop :=
  forall a b, In a mats -> In b mats -> same_fields a b -> same_object a b.

(** The groups partition the elements, each element being in the group of its material. *)
Definition partitions (groups : list group) (els : list element) : Prop :=
  Permutation (concat (map snd groups)) els /\
  (forall m l e, In (m, l) groups -> In e l -> e_mat e = m) /\
  NoDup (map fst groups).
