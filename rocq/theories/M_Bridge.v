(** Model of src/sectionproperties/pre/library/bridge_sections.py. Definitions only. girder_type and girder_subtype are integers. *)
From Coq Require Import Reals List ZArith.
From Verif Require Import Base M_Fea M_Init M_Geometry M_Library.
Import ListNotations.
Local Open Scope R_scope.

(** bridge_sections.py 203-228: get_super_t_girder_dims (a dictionary; KeyError for other keys): d, t_b, t_w *)
Definition get_super_t_girder_dims (girder_type : Z) : result (R * R * R) :=
  match girder_type with
  | 1%Z => Ok (675, 240, 100)
  | 2%Z => Ok (925, 240, 100)
  | 3%Z => Ok (1125, 260, 100)
  | 4%Z => Ok (1425, 260, 100)
  | 5%Z => Ok (1725, 325, 120)
  | _ => Err KeyError
  end.
(** 231-296: get_i_girder_dims: b_tf, b_bf, b_w, h_tf, h_ts, h_w, h_bs, h_bf *)
Record i_girder_dims : Type := mkDims { b_tf : R; b_bf : R; b_w : R; h_tf : R; h_ts : R; h_w : R; h_bs : R; h_bf : R }.
Definition get_i_girder_dims (girder_type : Z) : result i_girder_dims :=
  match girder_type with
  | 1%Z => Ok (mkDims 200 300 120 100 40 420 90 100)
  | 2%Z => Ok (mkDims 350 450 150 100 100 450 150 100)
  | 3%Z => Ok (mkDims 450 500 150 130 150 545 175 150)
  | 4%Z => Ok (mkDims 500 650 150 150 175 650 250 175)
  | _ => Err KeyError
  end.

(** 75-138: the points of super_t_girder_section *)
Definition super_t_points (web_slope flg_slope w_nom d t_b w t_w t_f : R) : list pt :=
  let d_fillet := 75 in let b_fillet := 100 in
  let d_recess := 25 in let b_recess := 25 in
  let d_chamfer := 13 in let b_chamfer := 13 in
  let web_hyp := sqrt (1 + web_slope ^ 2) in
  let web_horiz := t_w * web_slope / web_hyp in
  let x_fillet := w_nom / 2 - d_fillet * 1 / web_hyp in
  let pt_b := w_nom / 2 - web_horiz + (t_f - d_recess) / web_slope in
  let pt_a := pt_b + b_recess in
  let btm_corner := x_fillet - d / web_slope in
  let y10 := t_f - d_recess in
  let y20 := - (d - t_b) in
  let y_inner := 1 / (1 / web_slope - flg_slope) * (y10 / web_slope - y20 * flg_slope - pt_b) in
  let x_inner := flg_slope * (y20 - y_inner) in
  [(pt_b, t_f - d_recess); (pt_a, t_f - d_recess); (pt_a, t_f);
   (w / 2, t_f); (w / 2, d_chamfer); (w / 2 - b_chamfer, 0); (w_nom / 2 + b_fillet, 0); (x_fillet, - d_fillet);
   (btm_corner + d_chamfer / web_slope, - (d - d_chamfer)); (btm_corner - b_chamfer, - d); (- btm_corner + b_chamfer, - d);
   (- btm_corner - d_chamfer / web_slope, - (d - d_chamfer));
   (- x_fillet, - d_fillet); (- w_nom / 2 - b_fillet, 0); (- w / 2 + b_chamfer, 0); (- w / 2, d_chamfer); (- w / 2, t_f);
   (- pt_a, t_f); (- pt_a, t_f - d_recess); (- pt_b, t_f - d_recess);
   (x_inner, y_inner); (0, y20); (- x_inner, y_inner)].
(** 12-138: super_t_girder_section *)
Definition super_t_girder_section (sh : shapely) (girder_type girder_subtype : Z) (w : R) (t_w : option R) (t_f : R) (m : mat_obj) : result geom :=
  if ((girder_type <? 1) || (5 <? girder_type))%Z%bool then Err ValueError else
  if negb ((girder_subtype =? 1) || (girder_subtype =? 2))%Z%bool then Err ValueError else
  if ((girder_type =? 5) && (girder_subtype =? 1))%Z%bool then Err ValueError else
  let '(flg_slope, w_nom) := if (girder_subtype =? 1)%Z then (5, 920) else (5.347, 1027) in
  bind (get_super_t_girder_dims girder_type) (fun dims =>
  let '(d, t_b, t_w_nom) := dims in
  let t := match t_w with Some t => t | None => t_w_nom end in
  polygon_geometry sh (super_t_points 10.556 flg_slope w_nom d t_b w t t_f) m).

(** 177-198: the points of i_girder_section *)
Definition i_girder_points (D : i_girder_dims) : list pt :=
  let d := h_tf D + h_ts D + h_w D + h_bs D + h_bf D in
  let inset_tf := (b_tf D - b_w D) / 2 in
  [(b_tf D / 2, 0); (b_tf D / 2, - h_tf D); (b_tf D / 2 - inset_tf, - h_tf D - h_ts D); (b_tf D / 2 - inset_tf, - h_tf D - h_ts D - h_w D);
   (b_bf D / 2, - d + h_bf D); (b_bf D / 2, - d); (- b_bf D / 2, - d); (- b_bf D / 2, - d + h_bf D);
   (- b_tf D / 2 + inset_tf, - h_tf D - h_ts D - h_w D); (- b_tf D / 2 + inset_tf, - h_tf D - h_ts D); (- b_tf D / 2, - h_tf D); (- b_tf D / 2, 0)].
(** 141-200: i_girder_section *)
Definition i_girder_section (sh : shapely) (girder_type : Z) (m : mat_obj) : result geom :=
  if ((girder_type <? 1) || (4 <? girder_type))%Z%bool then Err ValueError else
  bind (get_i_girder_dims girder_type) (fun D => polygon_geometry sh (i_girder_points D) m).
