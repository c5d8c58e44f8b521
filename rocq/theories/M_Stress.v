(** Model of Section.calculate_stress, StressResult.calculate_combined_stresses and
    Section.get_stress_at_points (numerical part; the order-of-calls guards are in M_State.v). *)
From Coq Require Import Reals List Bool.
From Verif Require Import Base M_Fea M_Post M_Section.
Import ListNotations.
Local Open Scope R_scope.

(** section.py 1300, 3316: vx != 0 or vy != 0 or mzz != 0 *)
Definition needs_warping (a : actions) : bool :=
  let nz (x : R) := if Req_EM_T x 0 then false else true in
  nz (a_vx a) || nz (a_vy a) || nz (a_mzz a).

(** section.py 1318-1362 and 3339-3390: the section properties handed to the elements. [t] and [c] are the
    results of the geometric analysis, [w] the results of the warping analysis (None: not performed). *)
Definition stress_parameters (composite : bool) (t : totals) (c : centroidal) (w : option warping)
  (a : actions) : result (stress_par * (nat -> R) * (nat -> R) * (nat -> R)) :=
  let ea := if composite then t_ea t else t_area t in
  let z := fun _ : nat => 0 in
  if needs_warping a then
    match w with
    | None => Err RuntimeError
    | Some w =>
        let nu := if composite then nu_eff t else 0 in
        Ok (mkStressPar ea (p_cx c) (p_cy c) (p_ixx_c c) (p_iyy_c c) (p_ixy_c c) (p_i11_c c) (p_i22_c c)
              (p_phi c) (w_j w) nu (w_delta_s w), w_omega w, w_psi w, w_phi w)
    end
  else
    Ok (mkStressPar ea (p_cx c) (p_cy c) (p_ixx_c c) (p_iyy_c c) (p_ixy_c c) (p_i11_c c) (p_i22_c c)
          (p_phi c) 0 0 0, z, z, z).

(** stress_post.py 1017-1042: calculate_combined_stresses, the arrays at one node *)
Record combined : Type := mkCombined {
  cb_zz_m : R; cb_zxy_mzz : R; cb_zxy_vx : R; cb_zxy_vy : R; cb_zx_v : R; cb_zy_v : R; cb_zxy_v : R;
  cb_zz : R; cb_zx : R; cb_zy : R; cb_zxy : R; cb_11 : R; cb_33 : R; cb_vm : R }.

Definition combine_node (s : nodal_stress) (i : nat) : combined :=
  let zz_m := ns_zz_mxx s i + ns_zz_myy s i + ns_zz_m11 s i + ns_zz_m22 s i in
  let zxy_mzz := sqrt (ns_zx_mzz s i ^ 2 + ns_zy_mzz s i ^ 2) in
  let zxy_vx := sqrt (ns_zx_vx s i ^ 2 + ns_zy_vx s i ^ 2) in
  let zxy_vy := sqrt (ns_zx_vy s i ^ 2 + ns_zy_vy s i ^ 2) in
  let zx_v := ns_zx_vx s i + ns_zx_vy s i in
  let zy_v := ns_zy_vx s i + ns_zy_vy s i in
  let zxy_v := sqrt (zx_v ^ 2 + zy_v ^ 2) in
  let zz := ns_zz_n s i + zz_m in
  let zx := ns_zx_mzz s i + zx_v in
  let zy := ns_zy_mzz s i + zy_v in
  let zxy := sqrt (zx ^ 2 + zy ^ 2) in
  mkCombined zz_m zxy_mzz zxy_vx zxy_vy zx_v zy_v zxy_v zz zx zy zxy
    (zz / 2 + sqrt ((zz / 2) ^ 2 + zxy ^ 2))
    (zz / 2 - sqrt ((zz / 2) ^ 2 + zxy ^ 2))
    (sqrt (zz ^ 2 + 3 * zxy ^ 2)).

(** section.py 1308-1451: calc_stress. One result per material group, in the order of the groups: the
    separate nodal stresses and the combined ones. *)
Definition calc_stress (composite : bool) (t : totals) (c : centroidal) (w : option warping) (a : actions)
  (groups : list (material * list tri6)) : result (list (nodal_stress * (nat -> combined))) :=
  bind (stress_parameters composite t c w a) (fun q =>
  let '(p, omega, psi, phi_s) := q in
  Ok (map (fun g => let s := group_stress a p omega psi phi_s (snd g) in (s, combine_node s)) groups)).

(** section.py 3392-3444: the stress at one query point. [tri_ids] is the answer of the spatial index
    (shapely STRtree.query with predicate "intersects"), [agg] the aggregation function (mean by default). *)
Definition stress_at_point (els : list tri6) (tri_ids : list nat) (agg : list R -> R) (a : actions)
  (p : stress_par) (omega psi phi_s : nat -> R) (pt : R * R) : option (R * R * R) :=
  let one (i : nat) : option (R * R * R) :=
    match nth_error els i with
    | Some tri =>
        let ids := el_ids tri in
        Some (local_element_stress tri pt a p (gather omega ids) (gather psi ids) (gather phi_s ids))
    | None => None
    end in
  match tri_ids with
  | [] => None
  | [i] => one i
  | _ =>
      let sigs := concat (map (fun i => match one i with Some s => [s] | None => [] end) tri_ids) in
      Some (agg (map (fun s => fst (fst s)) sigs), agg (map (fun s => snd (fst s)) sigs), agg (map snd sigs))
  end.

(** section.py 3274-3446: get_stress_at_points (numerical part) *)
Definition stress_at_points (els : list tri6) (query : R * R -> list nat) (agg : list R -> R)
  (composite : bool) (t : totals) (c : centroidal) (w : option warping) (a : actions) (pts : list (R * R))
  : result (list (option (R * R * R))) :=
  bind (stress_parameters composite t c w a) (fun q =>
  let '(p, omega, psi, phi_s) := q in
  Ok (map (fun pt => stress_at_point els (query pt) agg a p omega psi phi_s pt) pts)).
