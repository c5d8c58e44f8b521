(** Model of src/sectionproperties/pre/bisect_section.py and of split_section in
    src/sectionproperties/pre/geometry.py (842-925, 2267-...). Definitions only.
    shapely's [split] is an oracle: it returns polygons, of which the code only looks at the representative
    point, the area and the centroid. *)
From Coq Require Import Reals List.
From Verif Require Import Base.
Import ListNotations.
Local Open Scope R_scope.

Definition segment : Type := ((R * R) * (R * R))%type.

(** bisect_section.py 14-49: create_line_segment; bounds = (xmin, xmax, ymin, ymax). Division by a zero
    vector[1] (the zero vector) is not modelled. *)
Definition create_line_segment (p vector : R * R) (bounds : R * R * R * R) : segment :=
  let '(xa, xb, ya, yb) := bounds in
  let b_2 := Rmax (Rmax (Rmax xa xb) ya) yb in
  let b_1 := Rmin (Rmin (Rmin xa xb) ya) yb in
  let '(p_x, p_y) := p in
  let '(vx, vy) := vector in
  if Rlt_dec (1 / 10 ^ 12) (Rabs vx) then
    let scale_factor_2 := (b_2 - p_x) / vx in
    let y_2 := scale_factor_2 * vy + p_y in
    let scale_factor_1 := (b_1 - p_x) / vx in
    let y_1 := scale_factor_1 * vy + p_y in
    ((b_1, y_1), (b_2, y_2))
  else
    let scale_factor_2 := (b_2 - p_y) / vy in
    let x_2 := scale_factor_2 * vx + p_x in
    let scale_factor_1 := (b_1 - p_y) / vy in
    let x_1 := scale_factor_1 * vx + p_x in
    ((x_1, b_1), (x_2, b_2)).

(** bisect_section.py 107-134: line_mx_plus_b *)
Definition line_mx_plus_b (line : segment) : R * option R :=
  let '((x1, y1), (x2, y2)) := line in
  if Req_EM_T (x2 - x1) 0 then (1, None)
  else
    let m_slope := (y2 - y1) / (x2 - x1) in
    (m_slope, Some (y1 - m_slope * x1)).

(** The observable parts of a shapely polygon: representative_point(), area, centroid. *)
Record piece : Type := mkPiece { pc_rep : R * R; pc_area : R; pc_cx : R; pc_cy : R }.

(** bisect_section.py 83-102: which side of the line a polygon is on *)
Inductive side : Type := Top | Bottom | On.
Definition side_of (line : segment) (q : R * R) : side :=
  let '(px, py) := q in
  match line_mx_plus_b line with
  | (m, Some b) =>
      let y_test := m * px + b in
      if Rlt_dec py y_test then Bottom else if Rlt_dec y_test py then Top else On
  | (_, None) =>
      let lx := fst (fst line) in
      if Rlt_dec px lx then Bottom else if Rlt_dec lx px then Top else On
  end.

(** bisect_section.py 52-104: group_top_and_bottom_polys. (The check that all parts are polygons is part of
    the split oracle.) *)
Fixpoint group_top_and_bottom_polys (polys : list piece) (line : segment) : list piece * list piece :=
  match polys with
  | [] => ([], [])
  | q :: rest =>
      let '(top, bot) := group_top_and_bottom_polys rest line in
      match side_of line (pc_rep q) with
      | Bottom => (top, q :: bot)
      | Top => (q :: top, bot)
      | On => (top, bot)
      end
  end.
