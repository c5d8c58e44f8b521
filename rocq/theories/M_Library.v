(** Model of src/sectionproperties/pre/library/{utils,primitive_sections,steel_sections,timber_sections}.py.
    Definitions only. Numbers are reals, a count [n] is a natural number (range of a negative number is empty, as for 0).
    Factors such as b * 0.5 are written b / 2. Every function first lists the points handed to shapely's Polygon. *)
From Coq Require Import Reals List Bool Arith.
From Verif Require Import Base M_Fea M_Init M_Geometry.
Import ListNotations.
Local Open Scope R_scope.

(** ** utils.py *)

(** utils.py 37-49: the fraction of the sweep at point [i] of [n]: i * 1.0 / max(1, n - 1) *)
Definition step (n i : nat) : R := INR i / INR (Nat.max 1 (n - 1)).
(** the points c + r (cos t, sin t) for t = t(i), i = 0 .. n-1 *)
Definition arc (c : pt) (r : R) (n : nat) (t : nat -> R) : list pt :=
  map (fun i => (fst c + r * cos (t i), snd c + r * sin (t i))) (seq 0 n).
(** utils.py 8-51: draw_radius *)
Definition draw_radius (c : pt) (r theta : R) (n : nat) (ccw : bool) (phi : R) : list pt :=
  if Req_EM_T r 0 then [c] else arc c r n (fun i => theta + (if ccw then 1 else - 1) * step n i * phi).
(** utils.py 54-75: rotate *)
Definition rotate (p : pt) (angle : R) : pt := (cos angle * fst p - sin angle * snd p, sin angle * fst p + cos angle * snd p).

(** Geometry(geom=Polygon(points), material=material), with the default tolerance *)
Definition polygon_geometry (sh : shapely) (points : list pt) (m : mat_obj) : result geom :=
  bind (make_polygon points) (fun p => Ok (new_geometry sh p m None 12)).
(** Geometry(Polygon(outer) - Polygon(inner)), RuntimeError if the difference is not a Polygon *)
Definition hollow_geometry (sh : shapely) (outer inner : list pt) (m : mat_obj) : result geom :=
  bind (make_polygon outer) (fun o => bind (make_polygon inner) (fun i =>
  match sh_difference sh o [i] with Some p => Ok (new_geometry sh p m None 12) | None => Err RuntimeError end)).

(** ** primitive_sections.py *)

(** primitive_sections.py 44: rectangular_section *)
Definition rectangle_points (d b : R) : list pt := [(0, 0); (b, 0); (b, d); (0, d)].
(** primitive_sections.py 13-47 *)
Definition rectangular_section (sh : shapely) (d b : R) (m : mat_obj) : result geom := polygon_geometry sh (rectangle_points d b) m.

(** primitive_sections.py 173-185: the ellipse; the circle (81-94) is the case d_x = d_y *)
Definition ellipse_points (d_x d_y : R) (n : nat) : list pt :=
  map (fun i => (d_x / 2 * cos (INR i * 2 * PI / INR n), d_y / 2 * sin (INR i * 2 * PI / INR n))) (seq 0 n).
(** primitive_sections.py 50-98: circular_section *)
Definition circular_section (sh : shapely) (d : R) (n : nat) (m : mat_obj) : result geom := polygon_geometry sh (ellipse_points d d n) m.
(** primitive_sections.py 132-134: the diameter computed by circular_section_by_area *)
Definition diameter_by_area (area : R) (n : nat) : R :=
  let s := 2 * sqrt (area / INR n) * sqrt (tan (PI / INR n)) in
  let a := s / (2 * tan (PI / INR n)) in
  sqrt (a * a + (s / 2) * (s / 2)) * 2.
(** primitive_sections.py 101-136: circular_section_by_area *)
Definition circular_section_by_area (sh : shapely) (area : R) (n : nat) (m : mat_obj) : result geom :=
  circular_section sh (diameter_by_area area n) n m.
(** primitive_sections.py 139-189: elliptical_section *)
Definition elliptical_section (sh : shapely) (d_x d_y : R) (n : nat) (m : mat_obj) : result geom := polygon_geometry sh (ellipse_points d_x d_y n) m.

(** primitive_sections.py 192-224: triangular_section *)
Definition triangular_section (sh : shapely) (b h : R) (m : mat_obj) : result geom := polygon_geometry sh [(0, 0); (b, 0); (0, h)] m.
(** primitive_sections.py 227-264: triangular_radius_section *)
Definition triangular_radius_points (b : R) (n_r : nat) : list pt := (0, 0) :: draw_radius (b, b) b (3 * PI / 2) n_r false (PI / 2).
Definition triangular_radius_section (sh : shapely) (b : R) (n_r : nat) (m : mat_obj) : result geom := polygon_geometry sh (triangular_radius_points b n_r) m.

(** primitive_sections.py 267-342: cruciform_section *)
Definition cruciform_points (d b t r : R) (n_r : nat) : list pt :=
  [(- t / 2, - d / 2); (t / 2, - d / 2)]
  ++ draw_radius (t / 2 + r, - (t / 2) - r) r PI n_r false (PI / 2)
  ++ [(b / 2, - t / 2); (b / 2, t / 2)]
  ++ draw_radius (t / 2 + r, t / 2 + r) r (3 / 2 * PI) n_r false (PI / 2)
  ++ [(t / 2, d / 2); (- t / 2, d / 2)]
  ++ draw_radius (- (t / 2) - r, t / 2 + r) r 0 n_r false (PI / 2)
  ++ [(- b / 2, t / 2); (- b / 2, - t / 2)]
  ++ draw_radius (- (t / 2) - r, - (t / 2) - r) r (PI / 2) n_r false (PI / 2).
Definition cruciform_section (sh : shapely) (d b t r : R) (n_r : nat) (m : mat_obj) : result geom := polygon_geometry sh (cruciform_points d b t r n_r) m.

(** ** steel_sections.py *)

(** steel_sections.py 13-76: circular_hollow_section *)
Definition circular_hollow_section (sh : shapely) (d t : R) (n : nat) (m : mat_obj) : result geom :=
  hollow_geometry sh (ellipse_points d d n) (map (fun i => ((d / 2 - t) * cos (INR i * 2 * PI / INR n), (d / 2 - t) * sin (INR i * 2 * PI / INR n))) (seq 0 n)) m.
(** steel_sections.py 79-145: elliptical_hollow_section *)
Definition elliptical_hollow_section (sh : shapely) (d_x d_y t : R) (n : nat) (m : mat_obj) : result geom :=
  hollow_geometry sh (ellipse_points d_x d_y n)
    (map (fun i => ((d_x / 2 - t) * cos (INR i * 2 * PI / INR n), (d_y / 2 - t) * sin (INR i * 2 * PI / INR n))) (seq 0 n)) m.

(** steel_sections.py 148-244: rectangular_hollow_section *)
Definition rhs_outer (d b r_out : R) (n_r : nat) : list pt :=
  draw_radius (r_out, r_out) r_out PI n_r true (PI / 2)
  ++ draw_radius (b - r_out, r_out) r_out (3 / 2 * PI) n_r true (PI / 2)
  ++ draw_radius (b - r_out, d - r_out) r_out 0 n_r true (PI / 2)
  ++ draw_radius (r_out, d - r_out) r_out (PI / 2) n_r true (PI / 2).
Definition rhs_inner (d b t t_w r_in : R) (n_r : nat) : list pt :=
  draw_radius (t_w + r_in, t + r_in) r_in PI n_r true (PI / 2)
  ++ draw_radius (b - t_w - r_in, t + r_in) r_in (3 / 2 * PI) n_r true (PI / 2)
  ++ draw_radius (b - t_w - r_in, d - t - r_in) r_in 0 n_r true (PI / 2)
  ++ draw_radius (t_w + r_in, d - t - r_in) r_in (PI / 2) n_r true (PI / 2).
Definition rectangular_hollow_section (sh : shapely) (d b t r_out : R) (n_r : nat) (r_in t_w : option R) (m : mat_obj) : result geom :=
  let t_w := match t_w with None => t | Some w => w end in
  let r_in := match r_in with None => Rmax (r_out - Rmax t t_w) 0 | Some r => r end in
  hollow_geometry sh (rhs_outer d b r_out n_r) (rhs_inner d b t t_w r_in n_r) m.

(** steel_sections.py 247-379: polygon_hollow_section; 348-360 are the base points of one corner (outer or inner: [r] the radius,
    [a] the distance of the face, [straight] the straight part of the side) *)
Definition corner_base (straight a r alpha : R) (n_r : nat) : list pt :=
  map (fun i => let theta := 1 / 2 * PI + step n_r i * alpha in (straight / 2 - r * cos theta, - a + r - r * sin theta)) (seq 0 n_r).
Definition polygon_hollow_section (sh : shapely) (d t : R) (n_sides : nat) (r_in : R) (n_r : nat) (rot : R) (m : mat_obj) : result geom :=
  if Nat.ltb n_sides 3 then Err ValueError else
  let rot := rot * PI / 180 in
  let alpha := 2 * PI / INR n_sides in
  let a_out := d / 2 * cos (alpha / 2) in
  let a_in := a_out - t in
  let side_length_out := d * sin (alpha / 2) in
  let side_length_in := a_in / a_out * side_length_out in
  let r_in := if Rlt_dec a_in r_in then a_in else r_in in
  let '(r_out, n_r) := if Req_EM_T r_in 0 then (0, 1%nat) else (r_in + t, n_r) in
  let c_out := r_out * (side_length_out / 2) / a_out in
  let c_in := r_in * (side_length_in / 2) / a_in in
  let outer := corner_base (side_length_out - 2 * c_out) a_out r_out alpha n_r in
  let inner := corner_base (side_length_in - 2 * c_in) a_in r_in alpha n_r in
  let turned l := concat (map (fun i => map (fun p => rotate p (alpha * INR i + rot)) l) (seq 0 n_sides)) in
  hollow_geometry sh (turned outer) (turned inner) m.

(** steel_sections.py 423-453: the points of i_section *)
Definition i_points (d b t_f t_w r : R) (n_r : nat) : list pt :=
  [(0, 0); (b, 0); (b, t_f)]
  ++ draw_radius (b / 2 + t_w / 2 + r, t_f + r) r (3 / 2 * PI) n_r false (PI / 2)
  ++ draw_radius (b / 2 + t_w / 2 + r, d - t_f - r) r PI n_r false (PI / 2)
  ++ [(b, d - t_f); (b, d); (0, d); (0, d - t_f)]
  ++ draw_radius (b / 2 - t_w / 2 - r, d - t_f - r) r (PI / 2) n_r false (PI / 2)
  ++ draw_radius (b / 2 - t_w / 2 - r, t_f + r) r 0 n_r false (PI / 2)
  ++ [(0, t_f)].
(** steel_sections.py 382-457 *)
Definition i_section (sh : shapely) (d b t_f t_w r : R) (n_r : nat) (m : mat_obj) : result geom := polygon_geometry sh (i_points d b t_f t_w r n_r) m.

(** steel_sections.py 460-546: mono_i_section *)
Definition mono_i_points (d b_t b_b t_ft t_fb t_w r : R) (n_r : nat) : list pt :=
  let x_central := Rmax b_t b_b / 2 in
  [(x_central - b_b / 2, 0); (x_central + b_b / 2, 0); (x_central + b_b / 2, t_fb)]
  ++ draw_radius (x_central + t_w / 2 + r, t_fb + r) r (3 / 2 * PI) n_r false (PI / 2)
  ++ draw_radius (x_central + t_w / 2 + r, d - t_ft - r) r PI n_r false (PI / 2)
  ++ [(x_central + b_t / 2, d - t_ft); (x_central + b_t / 2, d); (x_central - b_t / 2, d); (x_central - b_t / 2, d - t_ft)]
  ++ draw_radius (x_central - t_w / 2 - r, d - t_ft - r) r (PI / 2) n_r false (PI / 2)
  ++ draw_radius (x_central - t_w / 2 - r, t_fb + r) r 0 n_r false (PI / 2)
  ++ [(x_central - b_b / 2, t_fb)].
Definition mono_i_section (sh : shapely) (d b_t b_b t_ft t_fb t_w r : R) (n_r : nat) (m : mat_obj) : result geom :=
  polygon_geometry sh (mono_i_points d b_t b_b t_ft t_fb t_w r n_r) m.

(** steel_sections.py 599-609, 869-879: the slope of a tapered flange; [w] is half the outstand (b/4 - t_w/4 for the I, b/2 - t_w/2
    for the channel) *)
Definition taper_y2 (w r_r alpha : R) : R := (w - r_r * (1 - sin alpha)) * tan alpha.
Definition taper_yt (w t_f r_f alpha : R) : R := t_f - (w - r_f * (1 - sin alpha)) * tan alpha - r_f * cos alpha.
(** one radius of a tapered flange, e.g. 616-628: the point [p] if r = 0, else an arc *)
Definition taper_arc (p c : pt) (r : R) (n_r : nat) (t : nat -> R) : list pt := if Req_EM_T r 0 then [p] else arc c r n_r t.
(** steel_sections.py 549-749: tapered_flange_i_section *)
Definition tapered_i_points (d b t_f t_w r_r r_f alpha : R) (n_r : nat) : list pt :=
  let a := PI * alpha / 180 in
  let w := b / 4 - t_w / 4 in
  let y2 := taper_y2 w r_r a in
  let y_t := taper_yt w t_f r_f a in
  let s i := step n_r i * (PI / 2 - a) in
  [(0, 0); (b, 0)]
  ++ taper_arc (b, y_t) (b - r_f, y_t) r_f n_r s
  ++ taper_arc (b / 2 + t_w / 2, t_f + y2) (b / 2 + t_w / 2 + r_r, t_f + y2 + r_r * cos a) r_r n_r (fun i => (3 / 2 * PI - a) - s i)
  ++ taper_arc (b / 2 + t_w / 2, d - t_f - y2) (b / 2 + t_w / 2 + r_r, d - t_f - y2 - r_r * cos a) r_r n_r (fun i => PI - s i)
  ++ taper_arc (b, d - y_t) (b - r_f, d - y_t) r_f n_r (fun i => (3 * PI / 2 + a) + s i)
  ++ [(b, d); (0, d)]
  ++ taper_arc (0, d - y_t) (r_f, d - y_t) r_f n_r (fun i => PI + s i)
  ++ taper_arc (b / 2 - t_w / 2, d - t_f - y2) (b / 2 - t_w / 2 - r_r, d - t_f - y2 - r_r * cos a) r_r n_r (fun i => (PI / 2 - a) - s i)
  ++ taper_arc (b / 2 - t_w / 2, t_f + y2) (b / 2 - t_w / 2 - r_r, t_f + y2 + r_r * cos a) r_r n_r (fun i => - s i)
  ++ taper_arc (0, y_t) (r_f, y_t) r_f n_r (fun i => (PI / 2 + a) + s i).
Definition tapered_flange_i_section (sh : shapely) (d b t_f t_w r_r r_f alpha : R) (n_r : nat) (m : mat_obj) : result geom :=
  polygon_geometry sh (tapered_i_points d b t_f t_w r_r r_f alpha n_r) m.
(** steel_sections.py 819-955: tapered_flange_channel *)
Definition tapered_channel_points (d b t_f t_w r_r r_f alpha : R) (n_r : nat) : list pt :=
  let a := PI * alpha / 180 in
  let w := b / 2 - t_w / 2 in
  let y2 := taper_y2 w r_r a in
  let y_t := taper_yt w t_f r_f a in
  let s i := step n_r i * (PI / 2 - a) in
  [(0, 0); (b, 0)]
  ++ taper_arc (b, y_t) (b - r_f, y_t) r_f n_r s
  ++ taper_arc (t_w, t_f + y2) (t_w + r_r, t_f + y2 + r_r * cos a) r_r n_r (fun i => (3 / 2 * PI - a) - s i)
  ++ taper_arc (t_w, d - t_f - y2) (t_w + r_r, d - t_f - y2 - r_r * cos a) r_r n_r (fun i => PI - s i)
  ++ taper_arc (b, d - y_t) (b - r_f, d - y_t) r_f n_r (fun i => (3 * PI / 2 + a) + s i)
  ++ [(b, d); (0, d)].
Definition tapered_flange_channel (sh : shapely) (d b t_f t_w r_r r_f alpha : R) (n_r : nat) (m : mat_obj) : result geom :=
  polygon_geometry sh (tapered_channel_points d b t_f t_w r_r r_f alpha n_r) m.

(** steel_sections.py 752-816: channel_section *)
Definition channel_points (d b t_f t_w r : R) (n_r : nat) : list pt :=
  [(0, 0); (b, 0); (b, t_f)]
  ++ draw_radius (t_w + r, t_f + r) r (3 / 2 * PI) n_r false (PI / 2)
  ++ draw_radius (t_w + r, d - t_f - r) r PI n_r false (PI / 2)
  ++ [(b, d - t_f); (b, d); (0, d)].
Definition channel_section (sh : shapely) (d b t_f t_w r : R) (n_r : nat) (m : mat_obj) : result geom := polygon_geometry sh (channel_points d b t_f t_w r n_r) m.

(** steel_sections.py 958-1021: tee_section *)
Definition tee_points (d b t_f t_w r : R) (n_r : nat) : list pt :=
  [(b / 2 - t_w / 2, 0); (b / 2 + t_w / 2, 0)]
  ++ draw_radius (b / 2 + t_w / 2 + r, d - t_f - r) r PI n_r false (PI / 2)
  ++ [(b, d - t_f); (b, d); (0, d); (0, d - t_f)]
  ++ draw_radius (b / 2 - t_w / 2 - r, d - t_f - r) r (PI / 2) n_r false (PI / 2).
Definition tee_section (sh : shapely) (d b t_f t_w r : R) (n_r : nat) (m : mat_obj) : result geom := polygon_geometry sh (tee_points d b t_f t_w r n_r) m.

(** np.isclose(a, b) with the default tolerances *)
Definition isclose (a b : R) : bool := if Rle_dec (Rabs (a - b)) (1 / 10 ^ 8 + 1 / 10 ^ 5 * Rabs b) then true else false.
(** steel_sections.py 1024-1098: angle_section *)
Definition angle_points (d b t r_r r_t : R) (n_r : nat) : list pt :=
  [(0, 0)] ++ (if isclose t r_t then [] else [(b, 0)])
  ++ draw_radius (b - r_t, t - r_t) r_t 0 n_r true (PI / 2)
  ++ draw_radius (t + r_r, t + r_r) r_r (3 / 2 * PI) n_r false (PI / 2)
  ++ draw_radius (t - r_t, d - r_t) r_t 0 n_r true (PI / 2)
  ++ (if isclose t r_t then [] else [(0, d)]).
Definition angle_section (sh : shapely) (d b t r_r r_t : R) (n_r : nat) (m : mat_obj) : result geom :=
  if Rlt_dec t r_t then Err ValueError else polygon_geometry sh (angle_points d b t r_r r_t n_r) m.

(** steel_sections.py 1101-1278: cee_section; the lip branches 1157-1202 and 1223-1266 *)
Definition cee_points (d b l t r_out : R) (n_r : nat) : list pt :=
  let r_in := Rmax (r_out - t) 0 in
  let r_out_l := l in
  let r_in_l := Rmax (l - t) 0 in
  draw_radius (r_out, r_out) r_out PI n_r true (PI / 2)
  ++ (if Rlt_dec r_out l then
        draw_radius (b - r_out, r_out) r_out (3 / 2 * PI) n_r true (PI / 2)
        ++ [(b, l); (b - t, l)]
        ++ draw_radius (b - t - r_in, t + r_in) r_in 0 n_r false (PI / 2)
      else if Rlt_dec t l then
        draw_radius (b - r_out_l, r_out_l) r_out_l (3 / 2 * PI) n_r true (PI / 2)
        ++ draw_radius (b - t - r_in_l, t + r_in_l) r_in_l 0 n_r false (PI / 2)
      else [(b, 0); (b, t)])
  ++ draw_radius (t + r_in, t + r_in) r_in (3 / 2 * PI) n_r false (PI / 2)
  ++ draw_radius (t + r_in, d - t - r_in) r_in PI n_r false (PI / 2)
  ++ (if Rlt_dec r_out l then
        draw_radius (b - t - r_in, d - t - r_in) r_in (PI / 2) n_r false (PI / 2)
        ++ [(b - t, d - l); (b, d - l)]
        ++ draw_radius (b - r_out, d - r_out) r_out 0 n_r true (PI / 2)
      else if Rlt_dec t l then
        draw_radius (b - t - r_in_l, d - t - r_in_l) r_in_l (PI / 2) n_r false (PI / 2)
        ++ draw_radius (b - r_out_l, d - r_out_l) r_out_l 0 n_r true (PI / 2)
      else [(b, d - t); (b, d)])
  ++ draw_radius (r_out, d - r_out) r_out (PI / 2) n_r true (PI / 2).
Definition cee_section (sh : shapely) (d b l t r_out : R) (n_r : nat) (m : mat_obj) : result geom := polygon_geometry sh (cee_points d b l t r_out n_r) m.

(** steel_sections.py 1281-1458: zed_section *)
Definition zed_points (d b_l b_r l t r_out : R) (n_r : nat) : list pt :=
  let r_in := Rmax (r_out - t) 0 in
  let r_out_l := l in
  let r_in_l := Rmax (l - t) 0 in
  draw_radius (r_out, r_out) r_out PI n_r true (PI / 2)
  ++ (if Rlt_dec r_out l then
        draw_radius (b_r - r_out, r_out) r_out (3 / 2 * PI) n_r true (PI / 2)
        ++ [(b_r, l); (b_r - t, l)]
        ++ draw_radius (b_r - t - r_in, t + r_in) r_in 0 n_r false (PI / 2)
      else if Rlt_dec t l then
        draw_radius (b_r - r_out_l, r_out_l) r_out_l (3 / 2 * PI) n_r true (PI / 2)
        ++ draw_radius (b_r - t - r_in_l, t + r_in_l) r_in_l 0 n_r false (PI / 2)
      else [(b_r, 0); (b_r, t)])
  ++ draw_radius (t + r_in, t + r_in) r_in (3 / 2 * PI) n_r false (PI / 2)
  ++ draw_radius (t - r_out, d - r_out) r_out 0 n_r true (PI / 2)
  ++ (if Rlt_dec r_out l then
        draw_radius (t - b_l + r_out, d - r_out) r_out (PI / 2) n_r true (PI / 2)
        ++ [(t - b_l, d - l); (t - b_l + t, d - l)]
        ++ draw_radius (2 * t - b_l + r_in, d - t - r_in) r_in PI n_r false (PI / 2)
      else if Rlt_dec t l then
        draw_radius (t - b_l + r_out_l, d - r_out_l) r_out_l (PI / 2) n_r true (PI / 2)
        ++ draw_radius (2 * t - b_l + r_in_l, d - t - r_in_l) r_in_l PI n_r false (PI / 2)
      else [(t - b_l, d); (t - b_l, d - t)])
  ++ draw_radius (- r_in, d - t - r_in) r_in (PI / 2) n_r false (PI / 2).
Definition zed_section (sh : shapely) (d b_l b_r l t r_out : R) (n_r : nat) (m : mat_obj) : result geom := polygon_geometry sh (zed_points d b_l b_r l t r_out n_r) m.

(** np.arctan2(y, x) for y > 0, which is how it is used below *)
Definition arctan2_pos (y x : R) : R := PI / 2 - atan (x / y).
(** steel_sections.py 1461-1546: box_girder_section (d > 0) *)
Definition girder_angles (d b_t b_b : R) : R * R :=
  if Rlt_dec b_t b_b then let phi_b := arctan2_pos d ((b_b - b_t) / 2) in (phi_b, PI - phi_b)
  else let phi_t := arctan2_pos d ((b_t - b_b) / 2) in (PI - phi_t, phi_t).
Definition box_girder_section (sh : shapely) (d b_t b_b t_ft t_fb t_w : R) (m : mat_obj) : result geom :=
  let x_c := Rmax b_t b_b / 2 in
  let '(phi_b, phi_t) := girder_angles d b_t b_b in
  let x_bot := t_fb / tan (PI - phi_b) in
  let x_top := t_ft / tan (PI - phi_t) in
  let web_x := Rabs (t_w / sin (PI - phi_b)) in
  hollow_geometry sh
    [(x_c - b_b / 2, 0); (x_c + b_b / 2, 0); (x_c + b_t / 2, d); (x_c - b_t / 2, d)]
    [(x_c - b_b / 2 - x_bot + web_x, t_fb); (x_c + b_b / 2 + x_bot - web_x, t_fb);
     (x_c + b_t / 2 + x_top - web_x, d - t_ft); (x_c - b_t / 2 - x_top + web_x, d - t_ft)] m.

(** steel_sections.py 1549-1633: bulb_section; 1625 pops the last point of the first bulb arc *)
Definition bulb_points (d b t r : R) (n_r : nat) (d_b : option R) : list pt :=
  let d_b := match d_b with Some v => v | None => r * cos (PI / 3) / cos (PI / 6) + r + b * tan (PI / 6) end in
  let dc := r / sin (2 / 3 * PI / 2) in
  let ptb := (b + t / 2 - r, d - r) in
  removelast ([(- t / 2, 0); (t / 2, 0)]
    ++ draw_radius (t / 2 + dc * cos (PI / 6), d - d_b - dc * cos (PI / 3)) r PI n_r false (PI / 3)
    ++ draw_radius ptb r (- PI * 1 / 3) n_r true (PI / 3))
  ++ draw_radius ptb r 0 n_r true (PI / 2)
  ++ [(- t / 2, d)].
Definition bulb_section (sh : shapely) (d b t r : R) (n_r : nat) (d_b : option R) (m : mat_obj) : result geom := polygon_geometry sh (bulb_points d b t r n_r d_b) m.

(** ** timber_sections.py *)

(** timber_sections.py 65-77: layer [i] of the panel; d[i] and layer_mat[i] exist by the lengths of the lists *)
Definition clt_layer (sh : shapely) (b : R) (i : nat) (di : R) (m : mat_obj) : result geom :=
  bind (rectangular_section sh di b m) (fun g => Ok (shift_section sh g 0 (- di * INR (i + 1)))).
Fixpoint clt_layers (sh : shapely) (b : R) (i : nat) (d : list R) (mats : list mat_obj) : result (list geom) :=
  match d with
  | [] => Ok []
  | di :: d' =>
      match mats with
      | [] => Err IndexError
      | m :: mats' => bind (clt_layer sh b i di m) (fun g => bind (clt_layers sh b (S i) d' mats') (fun l => Ok (g :: l)))
      end
  end.
(** timber_sections.py 10-80: clt_rectangular_section *)
Definition clt_rectangular_section (sh : shapely) (d : list R) (mats : list mat_obj) (b : R) : result compound :=
  bind (clt_layers sh b 0 d mats) (fun l => Ok (new_compound sh (map ISingle l))).
