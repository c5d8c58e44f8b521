(** Model of what Section.plot_centroids draws: section.py 1667-1778 and post.py 423-545 (draw_principal_axis). Definitions only. *)
From Coq Require Import String Reals List Bool.
From Verif Require Import Base M_Init M_State.
Import ListNotations.
Local Open Scope R_scope.

(** post.py 449-468: add_point *)
Definition add_point (vec : list (R * R)) (basis centroid : R * R) (num denom : R) : list (R * R) :=
  if Req_EM_T denom 0 then vec else vec ++ [(fst basis * num / denom + fst centroid, snd basis * num / denom + snd centroid)].
(** The limits of the axes: xmin, xmax, ymin, ymax *)
Record limits : Type := mkLimits { x_min : R; x_max : R; y_min : R; y_max : R }.
(** post.py 470-530: get_principal_points. [sort] is pts_np[pts_np[:, 0].argsort()] *)
Definition get_principal_points (sort : list (R * R) -> list (R * R)) (basis : R * R) (lims : limits) (centroid : R * R) : list (R * R) :=
  let pts := add_point [] basis centroid (x_min lims - fst centroid) (fst basis) in
  let pts := add_point pts basis centroid (x_max lims - fst centroid) (fst basis) in
  let pts := add_point pts basis centroid (y_min lims - snd centroid) (snd basis) in
  let pts := add_point pts basis centroid (y_max lims - snd centroid) (snd basis) in
  let pts_np := sort pts in
  if Nat.eqb (length pts_np) 4 then firstn 2 (skipn 1 pts_np) else pts_np.
(** post.py 423-545: draw_principal_axis: the two lines plotted, with their labels *)
Definition draw_principal_axis (sort : list (R * R) -> list (R * R)) (lims : limits) (phi cx cy : R) : list (string * list (R * R)) :=
  let basis x y := (cos phi * x + - sin phi * y, sin phi * x + cos phi * y) in
  [("11-axis"%string, get_principal_points sort (basis 1 0) lims (cx, cy)); ("22-axis"%string, get_principal_points sort (basis 0 1) lims (cx, cy))].

(** try: ... except RuntimeError: pass *)
Definition attempt {A B : Type} (r : result A) (f : A -> list B) : result (list B) :=
  match r with Ok a => Ok (f a) | Err RuntimeError => Ok [] | Err e => Err e end.
(** section.py 1667-1778: plot_centroids after the mesh is drawn: the points with their labels, and the lines. The limits of the axes are
    those of matplotlib at the end. *)
Definition plot_centroids (sort : list (R * R) -> list (R * R)) (lims : limits) (w : world) : result (list (string * (R * R)) * list (string * list (R * R))) :=
  let comp := is_composite (s_mats (w_sec w)) in
  let get x := snd (get2 comp x (w_props w)) in
  bind (attempt (get get_c) (fun p => [("Elastic centroid"%string, p)])) (fun a =>
  bind (attempt (get get_sc) (fun p => [("Shear centre"%string, p)])) (fun b =>
  bind (attempt (get get_pc) (fun p => [("Global plastic centroid"%string, p)])) (fun c =>
  bind (attempt (get get_pc_p) (fun p => [("Principal plastic centroid"%string, p)])) (fun d =>
  bind (attempt (bind (snd (get1 comp get_phi (w_props w))) (fun phi => bind (get get_c) (fun c => Ok (phi, c))))
          (fun q => draw_principal_axis sort lims (fst q * PI / 180) (fst (snd q)) (snd (snd q)))) (fun e =>
  Ok (a ++ b ++ c ++ d, e)))))).
