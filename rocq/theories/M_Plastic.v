(** Model of src/sectionproperties/analysis/plastic_section.py. Definitions only.
    scipy's root finder [brentq] and shapely's [split] are oracles. Verbose output and progress bars are not
    modelled. *)
From Coq Require Import Reals List Bool.
From Verif Require Import Base M_Fea M_Bisect M_Props.
Import ListNotations.
Local Open Scope R_scope.

(** One Geometry as far as the plastic analysis looks at it: material, extents (xmin, xmax, ymin, ymax) and
    shapely's split of its polygon along a line segment. *)
Record plane_geom : Type := mkPlane {
  pg_mat : material; pg_bounds : R * R * R * R; pg_split : segment -> list piece }.

(** plastic_section.py 28-44: the geometry moved to its centroid and compiled: its sub-geometries (one for a
    Geometry) and its points. *)
Record plastic_geom : Type := mkPlasticGeom { pl_geoms : list plane_geom; pl_points : list (R * R) }.

(** geometry.py 903-925 (Geometry.split_section) and 2355-2364 (CompoundGeometry.split_section): the pieces with the material of
    their sub-geometry. *)
Definition split_section (gs : list plane_geom) (p u : R * R) : list (material * piece) * list (material * piece) :=
  let one g := let line := create_line_segment p u (pg_bounds g) in
               group_top_and_bottom_polys (pg_split g line) line in
  (concat (map (fun g => map (pair (pg_mat g)) (fst (one g))) gs),
   concat (map (fun g => map (pair (pg_mat g)) (snd (one g))) gs)).

(** plastic_section.py 439-449: force of a piece; the three lists are filled with the pieces in order *)
Definition piece_force (q : material * piece) : R := m_fy (fst q) * pc_area (snd q).

(** plastic_section.py 409-467: calculate_plastic_force: f_top, f_bot and the lists (force, cx, cy) *)
Record force_out : Type := mkForce { fo_top : R; fo_bot : R; fo_list : list (R * R * R) }.
Definition calculate_plastic_force (gs : list plane_geom) (u p : R * R) : force_out :=
  let '(top, bot) := split_section gs p u in
  mkForce (fold_left (fun acc q => acc + piece_force q) top 0)
          (fold_left (fun acc q => acc + piece_force q) bot 0)
          (map (fun q => (piece_force q, pc_cx (snd q), pc_cy (snd q))) (top ++ bot)).

(** plastic_section.py 371-407: evaluate_force_eq *)
Definition line_point (d : R) (u_p : R * R) : R * R := (d * fst u_p, d * snd u_p).
Definition evaluate_force_eq (gs : list plane_geom) (d : R) (u u_p : R * R) : R :=
  let f := calculate_plastic_force gs u (line_point d u_p) in
  (fo_top f - fo_bot f) / (fo_top f + fo_bot f).

(** plastic_section.py 296-329: calculate_extreme_fibres (umin, umax, vmin, vmax); [angle] in degrees *)
Definition extreme_step (angle : R) (acc : R * R * R * R) (pt : R * R) : R * R * R * R :=
  let '(u_min, u_max, v_min, v_max) := acc in
  let '(u, v) := principal_coordinate angle (fst pt) (snd pt) in
  (Rmin u_min u, Rmax u_max u, Rmin v_min v, Rmax v_max v).
Definition calculate_extreme_fibres (points : list (R * R)) (angle : R) : R * R * R * R :=
  match points with
  | [] => (0, 0, 0, 0)
  | pt :: rest =>
      let '(u, v) := principal_coordinate angle (fst pt) (snd pt) in
      fold_left (extreme_step angle) rest (u, u, v, v)
  end.

(** plastic_section.py 331-369: pc_algorithm. brentq is an oracle: from the function and the bracket it gives
    the root, the converged flag and the abscissa it evaluated last (the lists _f_list, _cx_list, _cy_list are
    those of the last evaluation). *)
Record root_result : Type := mkRoot { rr_root : R; rr_converged : bool; rr_last : R }.
Definition root_finder : Type := (R -> R) -> R -> R -> root_result.

Definition perpendicular (u : R * R) (axis1 : bool) : R * R :=
  if axis1 then (- snd u, fst u) else (snd u, - fst u).

(** Plastic centroid position and the lists left by the last evaluation; RuntimeError if not converged
    (check_convergence, 259-277). *)
Definition pc_algorithm (brentq : root_finder) (gs : list plane_geom) (u : R * R) (dlim : R * R) (axis1 : bool)
  : result (R * list (R * R * R)) :=
  let u_p := perpendicular u axis1 in
  let r := brentq (fun d => evaluate_force_eq gs d u u_p) (fst dlim) (snd dlim) in
  if rr_converged r then
    Ok (rr_root r, fo_list (calculate_plastic_force gs u (line_point (rr_last r) u_p)))
  else Err RuntimeError.

(** plastic_section.py 97-100 (and 123-126, 164-170, 193-199): sum of force times distance; [coord] selects the
    coordinate of the centroid of a piece *)
Definition plastic_modulus (coord : R -> R -> R) (pc : R) (l : list (R * R * R)) : R :=
  fold_left (fun acc q => let '(f, cx, cy) := q in acc + f * Rabs (coord cx cy - pc)) l 0.

(** plastic_section.py 219-251: shape factors. [default] tells whether all materials equal the default one. *)
Definition shape_factors (get : prop -> option R) (default : bool) (sxx syy s11 s22 : R) : list write :=
  let g p := value (get p) in
  if default then
    (if truthy (get p_zxx_plus) && truthy (get p_zxx_minus) && truthy (get p_zyy_plus) && truthy (get p_zyy_minus)
     then [WNum p_sf_xx_plus (sxx / g p_zxx_plus); WNum p_sf_xx_minus (sxx / g p_zxx_minus);
           WNum p_sf_yy_plus (syy / g p_zyy_plus); WNum p_sf_yy_minus (syy / g p_zyy_minus)] else []) ++
    (if truthy (get p_z11_plus) && truthy (get p_z11_minus) && truthy (get p_z22_plus) && truthy (get p_z22_minus)
     then [WNum p_sf_11_plus (s11 / g p_z11_plus); WNum p_sf_11_minus (s11 / g p_z11_minus);
           WNum p_sf_22_plus (s22 / g p_z22_plus); WNum p_sf_22_minus (s22 / g p_z22_minus)] else [])
  else
    (if truthy (get p_my_xx) && truthy (get p_my_yy)
     then [WNum p_sf_xx_plus (sxx / g p_my_xx); WNum p_sf_xx_minus (sxx / g p_my_xx);
           WNum p_sf_yy_plus (syy / g p_my_yy); WNum p_sf_yy_minus (syy / g p_my_yy)] else []) ++
    (if truthy (get p_my_11) && truthy (get p_my_22)
     then [WNum p_sf_11_plus (s11 / g p_my_11); WNum p_sf_11_minus (s11 / g p_my_11);
           WNum p_sf_22_plus (s22 / g p_my_22); WNum p_sf_22_minus (s22 / g p_my_22)] else []).

(** plastic_section.py 46-257: calculate_plastic_properties. [get] reads the attributes stored before the call
    (none of those read here is written here, except the four moduli which are passed on directly). *)
Definition plastic_analysis (brentq : root_finder) (g : plastic_geom) (get : prop -> option R) (default : bool) : W unit :=
  let gs := pl_geoms g in
  let '(xmin, xmax, ymin, ymax) := calculate_extreme_fibres (pl_points g) 0 in
  wbind (wlift (pc_algorithm brentq gs (1, 0) (ymin, ymax) true)) (fun '(y_pc, l) =>
  let sxx := plastic_modulus (fun _ cy => cy) y_pc l in
  wbind (tell [WNum p_y_pc y_pc; WNum p_sxx sxx]) (fun _ =>
  wbind (wlift (pc_algorithm brentq gs (0, 1) (xmin, xmax) false)) (fun '(x_pc, l) =>
  let syy := plastic_modulus (fun cx _ => cx) x_pc l in
  wbind (tell [WNum p_x_pc x_pc; WNum p_syy syy]) (fun _ =>
  match get p_phi with
  | None => wraise RuntimeError
  | Some phi =>
      let angle := phi * PI / 180 in
      let ux := (cos angle, sin angle) in
      let uy := (- sin angle, cos angle) in
      let '(u1, u2, v1, v2) := calculate_extreme_fibres (pl_points g) phi in
      wbind (wlift (pc_algorithm brentq gs ux (v1, v2) true)) (fun '(y22_pc, l) =>
      let s11 := plastic_modulus (fun cx cy => snd (principal_coordinate phi cx cy)) y22_pc l in
      wbind (tell [WNum p_y22_pc y22_pc; WNum p_s11 s11]) (fun _ =>
      wbind (wlift (pc_algorithm brentq gs uy (u1, u2) false)) (fun '(x11_pc, l) =>
      let s22 := plastic_modulus (fun cx cy => fst (principal_coordinate phi cx cy)) x11_pc l in
      wbind (tell [WNum p_x11_pc x11_pc; WNum p_s22 s22]) (fun _ =>
      tell (shape_factors get default sxx syy s11 s22)))))
  end)))).
