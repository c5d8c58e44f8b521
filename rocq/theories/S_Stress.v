(** Specification notions for the stress analysis. *)
From Coq Require Import Reals List.
From Verif Require Import Base S_Integral M_Fea S_Fem M_Post M_Section M_Stress S_Section S_Post S_Warp.
Import ListNotations.
Local Open Scope R_scope.

(** The eleven stress components: the nodal array, the element array it is averaged from, and the stress
    resultant that causes it. *)
Definition component : Type := ((nodal_stress -> nat -> R) * (stress_out -> V6) * (actions -> R))%type.
Definition components : list component :=
  [(ns_zz_n, so_zz_n, a_n); (ns_zz_mxx, so_zz_mxx, a_mxx); (ns_zz_myy, so_zz_myy, a_myy);
   (ns_zz_m11, so_zz_m11, a_m11); (ns_zz_m22, so_zz_m22, a_m22);
   (ns_zx_mzz, so_zx_mzz, a_mzz); (ns_zy_mzz, so_zy_mzz, a_mzz);
   (ns_zx_vx, so_zx_vx, a_vx); (ns_zy_vx, so_zy_vx, a_vx);
   (ns_zx_vy, so_zx_vy, a_vy); (ns_zy_vy, so_zy_vy, a_vy)].

(** k times the first set of stress resultants plus l times the second. *)
Definition lin_actions (k : R) (a : actions) (l : R) (b : actions) : actions :=
  mkActions (k * a_n a + l * a_n b) (k * a_vx a + l * a_vx b) (k * a_vy a + l * a_vy b)
    (k * a_mxx a + l * a_mxx b) (k * a_myy a + l * a_myy b) (k * a_m11 a + l * a_m11 b)
    (k * a_m22 a + l * a_m22 b) (k * a_mzz a + l * a_mzz b).

(** The element [el] has node i as its local node j (0 <= j < 6). *)
Definition has_node (el : tri6) (j i : nat) : Prop := nth_error (ids_list (el_ids el)) j = Some i.

(** The contributions of a group of elements to node i: for every element and every local node equal to i,
    the weight of the local node and the value there. *)
Definition el_contributions (h : tri6 -> V6) (i : nat) (el : tri6) : list (R * R) :=
  map snd (filter (fun q => Nat.eqb (fst q) i)
    (combine (ids_list (el_ids el)) (combine (v6_list stress_weights) (v6_list (h el))))).
Definition contributions (h : tri6 -> V6) (els : list tri6) (i : nat) : list (R * R) :=
  concat (map (el_contributions h i) els).

Definition weighted_mean (l : list (R * R)) : R := sumf (fun q => fst q * snd q) l / sumf fst l.
Definition mean (l : list R) : R := sumf (fun x => x) l / INR (length l).

(** The six node numbers of each element are distinct. *)
Definition distinct_ids (els : list tri6) : Prop := forall el, In el els -> NoDup (ids_list (el_ids el)).

(** Node i belongs to the group. *)
Definition in_group (els : list tri6) (i : nat) : Prop := exists el, In el els /\ In i (ids_list (el_ids el)).

(** Integral over the section of a field given element by element in global coordinates. *)
Definition section_int (f : tri6 -> R -> R -> R) (els : list tri6) : R := sumf (fun el => el_int el (f el)) els.

(** Normal stress of engineering beam theory at a point of a material of modulus E: axial force n and
    moments about the centroidal x- and y-axis; moments about the principal axes. *)
Definition beam_zz (ea : R) (c : centroidal) (E n mxx myy : R) (p : point) : R :=
  n * E / ea + bend_xx c E mxx p + bend_yy c E myy p.
Definition beam_zz_p (c : centroidal) (E m11 m22 : R) (p : point) : R :=
  bend_11 c E m11 p + bend_22 c E m22 p.

(** Cauchy stress tensor of a beam, with sig_xx = sig_yy = tau_xy = 0: [is_principal s zz zx zy] says that s
    is an eigenvalue, with the eigenvector (x, y, z). *)
Definition is_principal (s zz zx zy : R) : Prop :=
  exists x y z, (x <> 0 \/ y <> 0 \/ z <> 0) /\
    zx * z = s * x /\ zy * z = s * y /\ zx * x + zy * y + zz * z = s * z.

(** The bending stress components: nodal array, causing moment, formula of beam theory. *)
Definition bending : list ((nodal_stress -> nat -> R) * (actions -> R) * (centroidal -> R -> R -> point -> R)) :=
  [(ns_zz_mxx, a_mxx, bend_xx); (ns_zz_myy, a_myy, bend_yy); (ns_zz_m11, a_m11, bend_11); (ns_zz_m22, a_m22, bend_22)].

(** The stress inside an element at the local point xi = s, zeta = t (eta = 1 - s - t): the values the element
    stress formulas give there, before extrapolation to nodes: bending part of sig_zz, sig_zx, sig_zy. *)
Definition field_at (el : tri6) (a : actions) (p : stress_par) (om ps ph : nat -> R) (s t : R) : stress_gp :=
  element_stress_gp el a p (gather om (el_ids el)) (gather ps (el_ids el)) (gather ph (el_ids el)) (loc s t).
Definition field_bend (el : tri6) (a : actions) (p : stress_par) (om ps ph : nat -> R) (s t : R) : R :=
  let g := field_at el a p om ps ph s t in sg_zz_mxx g + sg_zz_myy g + sg_zz_m11 g + sg_zz_m22 g.
Definition field_zx (el : tri6) (a : actions) (p : stress_par) (om ps ph : nat -> R) (s t : R) : R :=
  let g := field_at el a p om ps ph s t in sg_zx_mzz g + (sg_zx_vx g + sg_zx_vy g).
Definition field_zy (el : tri6) (a : actions) (p : stress_par) (om ps ph : nat -> R) (s t : R) : R :=
  let g := field_at el a p om ps ph s t in sg_zy_mzz g + (sg_zy_vx g + sg_zy_vy g).

(** [f] is bounded by M at the six nodes of an element (in local coordinates). *)
Definition node_bound (f : R -> R -> R) (M : R) : Prop :=
  forall e x z, In (e, x, z) node_coords -> Rabs (f x z) <= M.

(** Local coordinates (xi, zeta) of the six nodes. *)
Definition local_node (j : nat) : R * R :=
  match j with 0%nat => (0, 0) | 1%nat => (1, 0) | 2%nat => (0, 1) | 3%nat => (1 / 2, 0) | 4%nat => (1 / 2, 1 / 2) | _ => (0, 1 / 2) end.

(** The extrapolated components: element array and the field inside the element it is extrapolated from. *)
Definition extrapolated : list ((stress_out -> V6) * (stress_gp -> R)) :=
  [(so_zz_mxx, sg_zz_mxx); (so_zz_myy, sg_zz_myy); (so_zz_m11, sg_zz_m11); (so_zz_m22, sg_zz_m22);
   (so_zx_mzz, sg_zx_mzz); (so_zy_mzz, sg_zy_mzz); (so_zx_vx, sg_zx_vx); (so_zy_vx, sg_zy_vx);
   (so_zx_vy, sg_zx_vy); (so_zy_vy, sg_zy_vy)].

(** The spatial index returns exactly the elements whose closed triangle contains the point. *)
Definition contains (el : tri6) (pt : point) : Prop := in_triangle (corner_a el) (corner_b el) (corner_c el) pt.
Definition exact_query (els : list tri6) (query : point -> list nat) : Prop :=
  forall pt i, In i (query pt) <-> exists el, nth_error els i = Some el /\ contains el pt.

(** Total normal stress of beam theory. *)
Definition beam_total (ea : R) (c : centroidal) (E : R) (a : actions) (pt : point) : R :=
  beam_zz ea c E (a_n a) (a_mxx a) (a_myy a) pt + beam_zz_p c E (a_m11 a) (a_m22 a) pt.
Definition beam_bending (c : centroidal) (E : R) (a : actions) (pt : point) : R :=
  bend_xx c E (a_mxx a) pt + bend_yy c E (a_myy a) pt + bend_11 c E (a_m11 a) pt + bend_22 c E (a_m22 a) pt.

(** Aggregation functions that stay within the range of the values (mean, max, min, median, ...). *)
Definition within_range (agg : list R -> R) : Prop :=
  forall l lo hi, l <> [] -> (forall x, In x l -> lo <= x <= hi) -> lo <= agg l <= hi.
