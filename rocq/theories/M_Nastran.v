(** Model of src/sectionproperties/pre/library/nastran_sections.py. Definitions only. Every function returns the geometry and the stress
    recovery points C, D, E, F it stores in it (geometry.py 1279-1311: an attribute without any check). Factors 0.5 * x are written x / 2. *)
From Coq Require Import String Reals List Bool Arith.
From Verif Require Import Base M_Fea M_Init M_Bisect M_Geometry M_Library M_SetOps.
Import ListNotations.
Local Open Scope R_scope.

(** [if not a < b or ...: raise ValueError] *)
Definition lt_b (a b : R) : bool := if Rlt_dec a b then true else false.
Definition checked {A} (ok : bool) (r : result A) : result A := if ok then r else Err ValueError.
(** geom.recovery_points = ... *)
Definition with_points {A} (r : result A) (pts : list pt) : result (A * list pt) := bind r (fun g => Ok (g, pts)).
(** The corners of a box of this size about the origin: C, D, E, F of many sections *)
Definition box_recovery (b d : R) : list pt := [(b / 2, d / 2); (b / 2, - d / 2); (- b / 2, - d / 2); (- b / 2, d / 2)].

(** nastran_sections.py 13-59 *)
Definition bar_points (d1 d2 : R) : list pt := [(- d1 / 2, - d2 / 2); (d1 / 2, - d2 / 2); (d1 / 2, d2 / 2); (- d1 / 2, d2 / 2)].
Definition nastran_bar (sh : shapely) (d1 d2 : R) (m : mat_obj) : result (geom * list pt) :=
  with_points (polygon_geometry sh (bar_points d1 d2) m) (box_recovery d1 d2).
(** 62-134 *)
Definition box_inner (d1 d2 d3 d4 : R) : list pt :=
  [(- d1 / 2 + d4, - d2 / 2 + d3); (d1 / 2 - d4, - d2 / 2 + d3); (d1 / 2 - d4, d2 / 2 - d3); (- d1 / 2 + d4, d2 / 2 - d3)].
Definition nastran_box (sh : shapely) (d1 d2 d3 d4 : R) (m : mat_obj) : result (geom * list pt) :=
  checked (lt_b (2 * d4) d1 && lt_b (2 * d3) d2)
    (with_points (hollow_geometry sh (bar_points d1 d2) (box_inner d1 d2 d3 d4) m) (box_recovery d1 d2)).
(** 137-212 *)
Definition box1_outer (d1 d2 : R) : list pt := [(0, 0); (d1, 0); (d1, d2); (0, d2)].
Definition box1_inner (d1 d2 d3 d4 d5 d6 : R) : list pt := [(d6, d4); (d1 - d5, d4); (d1 - d5, d2 - d3); (d6, d2 - d3)].
Definition nastran_box1 (sh : shapely) (d1 d2 d3 d4 d5 d6 : R) (m : mat_obj) : result (geom * list pt) :=
  checked (lt_b (d5 + d6) d1 && lt_b (d3 + d4) d2)
    (with_points (hollow_geometry sh (box1_outer d1 d2) (box1_inner d1 d2 d3 d4 d5 d6) m) (box_recovery d1 d2)).
(** 215-276 *)
Definition chan_points (d1 d2 d3 d4 : R) : list pt :=
  [(0, 0); (d1, 0); (d1, d4); (d3, d4); (d3, d2 - d4); (d1, d2 - d4); (d1, d2); (0, d2)].
Definition nastran_chan (sh : shapely) (d1 d2 d3 d4 : R) (m : mat_obj) : result (geom * list pt) :=
  checked (lt_b (2 * d4) d2 && lt_b d3 d1) (with_points (polygon_geometry sh (chan_points d1 d2 d3 d4) m) (box_recovery d1 d2)).
(** 279-340 *)
Definition chan1_points (d1 d2 d3 d4 : R) : list pt := let tf := (d4 - d3) / 2 in
  [(0, 0); (d1 + d2, 0); (d1 + d2, tf); (d2, tf); (d2, tf + d3); (d2 + d1, tf + d3); (d2 + d1, d4); (0, d4)].
Definition nastran_chan1 (sh : shapely) (d1 d2 d3 d4 : R) (m : mat_obj) : result (geom * list pt) :=
  checked (lt_b d3 d4) (with_points (polygon_geometry sh (chan1_points d1 d2 d3 d4) m) [(d2 / 2 + d1, d4 / 2); (d2 / 2 + d1, - d4 / 2); (- d2 / 2, - d4 / 2); (- d2 / 2, d4 / 2)]).
(** 343-403 *)
Definition chan2_points (d1 d2 d3 d4 : R) : list pt :=
  [(0, 0); (d4, 0); (d4, d3); (d4 - d1, d3); (d4 - d1, d2); (d1, d2); (d1, d3); (0, d3)].
Definition nastran_chan2 (sh : shapely) (d1 d2 d3 d4 : R) (m : mat_obj) : result (geom * list pt) :=
  checked (lt_b (2 * d1) d4 && lt_b d2 d3) (with_points (polygon_geometry sh (chan2_points d1 d2 d3 d4) m) [(d4 / 2, d3 - d2 / 2); (d4 / 2, - d2 / 2); (- d4 / 2, - d2 / 2); (- d4 / 2, d3 - d2 / 2)]).
(** 406-471 *)
Definition cross_points (d1 d2 d3 d4 : R) : list pt := let d := (d3 - d4) / 2 in
  [(d1 / 2, 0); (d1 / 2 + d2, 0); (d1 / 2 + d2, d); (d1 + d2, d); (d1 + d2, d + d4); (d1 / 2 + d2, d + d4); (d1 / 2 + d2, d3); (d1 / 2, d3); (d1 / 2, d + d4); (0, d + d4); (0, d); (d1 / 2, d)].
Definition nastran_cross (sh : shapely) (d1 d2 d3 d4 : R) (m : mat_obj) : result (geom * list pt) :=
  checked (lt_b d4 d3) (with_points (polygon_geometry sh (cross_points d1 d2 d3 d4) m) [(0, d3 / 2); ((d1 + d2) / 2, 0); (0, - d3 / 2); (- (d1 + d2) / 2, 0)]).
(** 474-571 *)
Definition fcross_points (d1 d2 d3 d4 d5 d6 d7 d8 : R) : list pt :=
  [(d3 / 2, - d4 / 2); (d2 / 2 - d8, - d4 / 2); (d2 / 2 - d8, - d7 / 2); (d2 / 2, - d7 / 2); (d2 / 2, d7 / 2); (d2 / 2 - d8, d7 / 2); (d2 / 2 - d8, d4 / 2);
   (d3 / 2, d4 / 2); (d3 / 2, d1 / 2 - d6); (d5 / 2, d1 / 2 - d6); (d5 / 2, d1 / 2); (- d5 / 2, d1 / 2); (- d5 / 2, d1 / 2 - d6); (- d3 / 2, d1 / 2 - d6);
   (- d3 / 2, d4 / 2); (- d2 / 2 + d8, d4 / 2); (- d2 / 2 + d8, d7 / 2); (- d2 / 2, d7 / 2); (- d2 / 2, - d7 / 2); (- d2 / 2 + d8, - d7 / 2); (- d2 / 2 + d8, - d4 / 2);
   (- d3 / 2, - d4 / 2); (- d3 / 2, - d1 / 2 + d6); (- d5 / 2, - d1 / 2 + d6); (- d5 / 2, - d1 / 2); (d5 / 2, - d1 / 2); (d5 / 2, - d1 / 2 + d6); (d3 / 2, - d1 / 2 + d6)].
Definition nastran_fcross (sh : shapely) (d1 d2 d3 d4 d5 d6 d7 d8 : R) (m : mat_obj) : result (geom * list pt) :=
  checked (lt_b d3 d5 && lt_b d4 d7 && lt_b d7 d1 && lt_b d5 d2 && lt_b d8 (d2 / 2 - d3 / 2) && lt_b d6 (d1 / 2 - d4 / 2))
    (with_points (polygon_geometry sh (fcross_points d1 d2 d3 d4 d5 d6 d7 d8) m) [(0, d1 / 2); (d2 / 2, 0); (0, - d1 / 2); (- d2 / 2, 0)]).
(** 574-674; polygon - polygon - polygon, RuntimeError if the result is not a Polygon. A first difference that is neither a Polygon nor
    a MultiPolygon is taken to give RuntimeError too. *)
Definition dbox_left (d2 d3 d4 d5 d7 d8 : R) : list pt := [(d4, d8); (d3 - d5 / 2, d8); (d3 - d5 / 2, d2 - d7); (d4, d2 - d7)].
Definition dbox_right (d1 d2 d3 d5 d6 d9 d10 : R) : list pt := [(d3 + d5 / 2, d10); (d1 - d6, d10); (d1 - d6, d2 - d9); (d3 + d5 / 2, d2 - d9)].
Definition nastran_dbox (sh : shapely) (so : setops) (d1 d2 d3 d4 d5 d6 d7 d8 d9 d10 : R) (m : mat_obj) : result (geom * list pt) :=
  checked (lt_b (d4 + d5 + d6) d1 && lt_b (d4 + d5 / 2) d3 && lt_b (d7 + d8) d2 && lt_b (d9 + d10) d2)
    (with_points (
      bind (make_polygon (box1_outer d1 d2)) (fun o =>
      bind (make_polygon (dbox_left d2 d3 d4 d5 d7 d8)) (fun i1 =>
      bind (make_polygon (dbox_right d1 d2 d3 d5 d6 d9 d10)) (fun i2 =>
      bind (match so_difference so [o] [i1] with ShPolygon p => Ok [p] | ShMulti ps => Ok ps | _ => Err RuntimeError end) (fun ps =>
      match so_difference so ps [i2] with ShPolygon p => Ok (new_geometry sh p m None 12) | _ => Err RuntimeError end))))) (box_recovery d1 d2)).
(** 677-762 *)
Definition gbox_outer (d1 d2 d3 d4 d5 d6 : R) : list pt := let d := (d1 - d6 - 2 * d5) / 2 in
  [(0, 0); (d1, 0); (d1, d4); (d + 2 * d5 + d6, d4); (d + 2 * d5 + d6, d2 - d3); (d1, d2 - d3); (d1, d2); (0, d2); (0, d2 - d3); (d, d2 - d3); (d, d4); (0, d4)].
Definition gbox_inner (d1 d2 d3 d4 d5 d6 : R) : list pt := let d := (d1 - d6 - 2 * d5) / 2 in
  [(d + d5, d4); (d + d5 + d6, d4); (d + d5 + d6, d2 - d3); (d + d5, d2 - d3)].
Definition nastran_gbox (sh : shapely) (d1 d2 d3 d4 d5 d6 : R) (m : mat_obj) : result (geom * list pt) :=
  checked (lt_b (d3 + d4) d2 && lt_b (2 * d5 + d6) d1)
    (with_points (hollow_geometry sh (gbox_outer d1 d2 d3 d4 d5 d6) (gbox_inner d1 d2 d3 d4 d5 d6) m) (box_recovery d1 d2)).
(** 765-834 *)
Definition h_points (d1 d2 d3 d4 : R) : list pt := let a := (d3 - d4) / 2 in let b := d2 / 2 in
  [(0, 0); (b, 0); (b, a); (b + d1, a); (b + d1, 0); (d1 + d2, 0); (d1 + d2, d3); (d1 + d2 - b, d3); (d1 + d2 - b, a + d4); (b, a + d4); (b, d3); (0, d3)].
Definition nastran_h (sh : shapely) (d1 d2 d3 d4 : R) (m : mat_obj) : result (geom * list pt) :=
  checked (lt_b d4 d3) (with_points (polygon_geometry sh (h_points d1 d2 d3 d4) m) (box_recovery (d1 + d2) d3)).
(** 837-901 *)
Definition hat_points (d1 d2 d3 d4 : R) : list pt :=
  [(0, 0); (d4 + d2, 0); (d4 + d2, d1 - d2); (d4 + d3 - d2, d1 - d2); (d4 + d3 - d2, 0); (2 * d4 + d3, 0); (2 * d4 + d3, d2); (d4 + d3, d2); (d4 + d3, d1); (d4, d1); (d4, d2); (0, d2)].
Definition nastran_hat (sh : shapely) (d1 d2 d3 d4 : R) (m : mat_obj) : result (geom * list pt) :=
  checked (lt_b (2 * d2) d1) (with_points (polygon_geometry sh (hat_points d1 d2 d3 d4) m) [(d3 / 2, d2 / 2); (d3 / 2 + d4, - d1 + d2); (- d3 / 2 - d4, - d1 + d2); (- d3 / 2, d2 / 2)]).
(** 904-975 *)
Definition nastran_hat1 (sh : shapely) (d1 d2 d3 d4 d5 : R) (m : mat_obj) : result (compound * list pt) :=
  checked (lt_b (2 * d4 + d5) d2 && lt_b d3 d1) (with_points (
    bind (nastran_bar sh d1 d5 m) (fun '(plate, _) =>
    let plate := shift_section sh plate 0 (d5 / 2) in
    bind (nastran_hat sh (d2 - d5) d4 d3 ((d1 - d3) / 2) m) (fun '(hat, _) =>
    bind (align_to sh (align_center sh hat (Some (TGeometry [gm_poly plate]))) (TGeometry [gm_poly plate]) "top" false) (fun hat =>
    Ok (add_geometry sh (ISingle hat) (ISingle plate)))))) [(- d1 / 2, 0); (d1 / 2, 0); (- d3 / 2, d2); (d3 / 2, d2)]).
(** 978-1034 *)
Definition hexa_points (d1 d2 d3 : R) : list pt := [(d1, 0); (d2 - d1, 0); (d2, d3 / 2); (d2 - d1, d3); (d1, d3); (0, d3 / 2)].
Definition nastran_hexa (sh : shapely) (d1 d2 d3 : R) (m : mat_obj) : result (geom * list pt) :=
  checked (lt_b d1 d2) (with_points (polygon_geometry sh (hexa_points d1 d2 d3) m) [(0, d3 / 2); (0, - d3 / 2); (d2 / 2, 0); (- d2 / 2, 0)]).
(** 1037-1107 *)
Definition i_points (d1 d2 d3 d4 d5 d6 : R) : list pt := let db := (d2 - d4) / 2 in let dt := (d3 - d4) / 2 in
  [(0, 0); (d2, 0); (d2, d5); (db + d4, d5); (db + d4, d1 - d6); (db + d4 + dt, d1 - d6); (db + d4 + dt, d1); (db - dt, d1); (db - dt, d1 - d6); (db, d1 - d6); (db, d5); (0, d5)].
Definition nastran_i (sh : shapely) (d1 d2 d3 d4 d5 d6 : R) (m : mat_obj) : result (geom * list pt) :=
  checked (lt_b (d5 + d6) d1 && lt_b d4 d3 && lt_b d4 d2) (with_points (polygon_geometry sh (i_points d1 d2 d3 d4 d5 d6) m) (box_recovery d3 d1)).
(** 1110-1175 *)
Definition i1_points (d1 d2 d3 d4 : R) : list pt := let t := (d4 - d3) / 2 in
  [(0, 0); (d1 + d2, 0); (d1 + d2, t); (d1 / 2 + d2, t); (d1 / 2 + d2, t + d3); (d1 + d2, t + d3); (d1 + d2, d4); (0, d4); (0, t + d3); (d1 / 2, t + d3); (d1 / 2, t); (0, t)].
Definition nastran_i1 (sh : shapely) (d1 d2 d3 d4 : R) (m : mat_obj) : result (geom * list pt) :=
  checked (lt_b d3 d4) (with_points (polygon_geometry sh (i1_points d1 d2 d3 d4) m) (box_recovery (d1 + d2) d4)).
(** 1178-1236 *)
Definition l_points (d1 d2 d3 d4 : R) : list pt := [(0, 0); (d1, 0); (d1, d3); (d4, d3); (d4, d2); (0, d2)].
Definition nastran_l (sh : shapely) (d1 d2 d3 d4 : R) (m : mat_obj) : result (geom * list pt) :=
  checked (lt_b d4 d1 && lt_b d3 d2) (with_points (polygon_geometry sh (l_points d1 d2 d3 d4) m) [(d4 / 2, d2 - d3 / 2); (d1 - d4 / 2, - d3 / 2); (- d4 / 2, - d3 / 2); (- d4 / 2, d2 - d3 / 2)]).
(** 1239-1293; the points are those of a circle with the diameter 2 dim_1 *)
Definition circle_recovery (r : R) : list pt := [(0, r); (r, 0); (0, - r); (- r, 0)].
Definition nastran_rod (sh : shapely) (d1 : R) (n : nat) (m : mat_obj) : result (geom * list pt) :=
  with_points (polygon_geometry sh (ellipse_points (2 * d1) (2 * d1) n) m) (circle_recovery d1).
(** 1296-1371; draw_radius with r = 0 gives one point *)
Definition nas_tee_points (d1 d2 d3 d4 : R) : list pt :=
  [(d1 / 2 - d4 / 2, 0); (d1 / 2 + d4 / 2, 0)] ++ draw_radius (d1 / 2 + d4 / 2 + 0, d2 - d3 - 0) 0 PI 1 false (PI / 2)
  ++ [(d1, d2 - d3); (d1, d2); (0, d2); (0, d2 - d3)] ++ draw_radius (d1 / 2 - d4 / 2 - 0, d2 - d3 - 0) 0 (PI / 2) 1 false (PI / 2).
Definition nastran_tee (sh : shapely) (d1 d2 d3 d4 : R) (m : mat_obj) : result (geom * list pt) :=
  checked (lt_b d4 d1 && lt_b d3 d2) (with_points (polygon_geometry sh (nas_tee_points d1 d2 d3 d4) m) [(0, d3 / 2); (d1 / 2, d3 / 2); (0, d3 / 2 - d2); (- d1 / 2, d3 / 2)]).
(** 1374-1435 *)
Definition tee1_points (d1 d2 d3 d4 : R) : list pt := let a := (d1 - d4) / 2 in
  [(0, 0); (d3, 0); (d3, d1); (0, d1); (0, a + d4); (- d2, a + d4); (- d2, a); (0, a)].
Definition nastran_tee1 (sh : shapely) (d1 d2 d3 d4 : R) (m : mat_obj) : result (geom * list pt) :=
  checked (lt_b d4 d1) (with_points (polygon_geometry sh (tee1_points d1 d2 d3 d4) m) [(d3 / 2, 0); (d3 / 2, - d1 / 2); (- d3 / 2 - d2, 0); (d3 / 2, d1 / 2)]).
(** 1438-1499 *)
Definition tee2_points (d1 d2 d3 d4 : R) : list pt := let a := (d1 - d4) / 2 in
  [(0, 0); (d1, 0); (d1, d3); (d1 - a, d3); (d1 - a, d2); (a, d2); (a, d3); (0, d3)].
Definition nastran_tee2 (sh : shapely) (d1 d2 d3 d4 : R) (m : mat_obj) : result (geom * list pt) :=
  checked (lt_b d4 d1 && lt_b d3 d2) (with_points (polygon_geometry sh (tee2_points d1 d2 d3 d4) m) [(d4 / 2, d2 - d3 / 2); (d1 / 2, - d3 / 2); (- d1 / 2, - d3 / 2); (- d4 / 2, d2 - d3 / 2)]).
(** 1502-1570, 1573-1642: the difference of two Geometry objects; dim_2 is the inner radius (the thickness). The attribute is set on
    whatever the difference returns. *)
Definition tube (sh : shapely) (so : setops) (d1 t : R) (n : nat) (m : mat_obj) : result (item * list pt) :=
  with_points (
    bind (polygon_geometry sh (ellipse_points (2 * d1) (2 * d1) n) m) (fun outer =>
    bind (polygon_geometry sh (map (fun i => ((2 * d1 / 2 - t) * cos (INR i * 2 * PI / INR n), (2 * d1 / 2 - t) * sin (INR i * 2 * PI / INR n))) (seq 0 n)) m) (fun inner =>
    geom_sub sh so (ISingle outer) (ISingle inner)))) (circle_recovery d1).
Definition nastran_tube (sh : shapely) (so : setops) (d1 d2 : R) (n : nat) (m : mat_obj) : result (item * list pt) := checked (lt_b d2 d1) (tube sh so d1 (d1 - d2) n m).
Definition nastran_tube2 (sh : shapely) (so : setops) (d1 d2 : R) (n : nat) (m : mat_obj) : result (item * list pt) := checked (lt_b d2 d1) (tube sh so d1 d2 n m).
(** 1645-1707 *)
Definition zed_points (d1 d2 d3 d4 : R) : list pt := let t := (d4 - d3) / 2 in
  [(d1, 0); (2 * d1 + d2, 0); (2 * d1 + d2, t); (d1 + d2, t); (d1 + d2, d4); (0, d4); (0, d4 - t); (d1, d4 - t)].
Definition nastran_zed (sh : shapely) (d1 d2 d3 d4 : R) (m : mat_obj) : result (geom * list pt) :=
  checked (lt_b d3 d4) (with_points (polygon_geometry sh (zed_points d1 d2 d3 d4) m) [(d2 / 2, d4 / 2); (d2 / 2 + d1, - d4 / 2); (- d2 / 2, - d4 / 2); (- d2 / 2 - d1, d4 / 2)]).
