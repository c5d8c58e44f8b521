(** Model of src/sectionproperties/pre/library/concrete_sections.py. Definitions only. Bar counts and numbers of points are natural
    numbers; a spacing of zero (ZeroDivisionError) is not modelled. *)
From Coq Require Import String Reals List Bool Arith ZArith.
From Verif Require Import Base M_Fea M_Init M_Bisect M_Geometry M_Library M_SetOps.
Import ListNotations.
Local Open Scope R_scope.

(** math.ceil *)
Definition ceil (x : R) : Z := (- Int_part (- x))%Z.
(** numpy.linspace(start, stop, num): ValueError for a negative number *)
Definition linspace (start stop : R) (num : Z) : result (list R) :=
  if (num <? 0)%Z then Err ValueError
  else Ok (map (fun i => if (num =? 1)%Z then start else start + INR i * ((stop - start) / IZR (num - 1))) (seq 0 (Z.to_nat num))).
(** The combination used by all walls: n = ceil(length / spacing) + 1 points from start to stop *)
Definition run (start stop length spacing : R) : result (list R) := linspace start stop (ceil (length / spacing) + 1).
(** Python slices l[1:], l[:-1], l[1:-1] *)
Definition from_1 {A} (l : list A) : list A := tl l.
Definition to_last {A} (l : list A) : list A := removelast l.
Definition inner {A} (l : list A) : list A := removelast (tl l).
(** The loops that fill xs and ys *)
Definition row (xs : list R) (y : R) : list pt := map (fun x => (x, y)) xs.
Definition col (x : R) (ys : list R) : list pt := map (fun y => (x, y)) ys.
Definition for_x_y (xs ys : list R) : list pt := concat (map (fun x => col x ys) xs).
Definition for_y_x (xs ys : list R) : list pt := concat (map (fun y => row xs y) ys).

(** circular_section_by_area(...).shift_section(x, y) *)
Definition bar_at (sh : shapely) (area : R) (n : nat) (m : mat_obj) (p : pt) : result geom :=
  bind (circular_section_by_area sh area n m) (fun g => Ok (shift_section sh g (fst p) (snd p))).
(** (geometry - bar) + bar: lines 173, 185, 524, 536, 671 and concrete_sections.py 2391-2421: add_bar *)
Definition insert_bar (sh : shapely) (so : setops) (geometry : item) (bar : geom) : result item :=
  bind (geom_sub sh so geometry (ISingle bar)) (fun r => Ok (ICompound (add_geometry sh r (ISingle bar)))).
Definition add_bar (sh : shapely) (so : setops) (area : R) (n : nat) (m : mat_obj) (geometry : item) (p : pt) : result item :=
  bind (bar_at sh area n m p) (insert_bar sh so geometry).
(** concrete_sections.py 2424-2457: add_bars *)
Definition add_bars (sh : shapely) (so : setops) (geometry : item) (area : R) (m : mat_obj) (n : nat) (ps : list pt) : result compound :=
  bind (map_result (bar_at sh area n m) ps) (fun l =>
  let bars := ICompound (new_compound sh (map ISingle l)) in
  bind (geom_sub sh so geometry bars) (fun r => Ok (add_geometry sh r bars))).
(** lines 202-206, 349-353, 553-557, 673-677 *)
Definition must_be_compound (i : item) : result compound := match i with ICompound c => Ok c | ISingle _ => Err ValueError end.

(** concrete_sections.py 130-150: first bar and spacing of a layer of [n] bars in a width [b]; [c_side] wins over the cover of the
    layer unless it is 0 *)
Definition layer (b : R) (n : nat) (dia c c_side : R) : R * R :=
  if Nat.eqb n 1 then (b / 2, 0)
  else let cover := if Req_EM_T c_side 0 then c else c_side in
       (cover + dia / 2, (b - 2 * cover - dia) / (INR n - 1)).
(** 188-200, 539-551: the side bars, right one made from the left one *)
Definition add_side (sh : shapely) (so : setops) (area : R) (n : nat) (m : mat_obj) (dx : R) (geometry : item) (p : pt) : result item :=
  bind (bar_at sh area n m p) (fun bar_left =>
  let bar_right := shift_section sh bar_left dx 0 in
  bind (geom_sub sh so geometry (ISingle bar_left)) (fun g1 =>
  bind (geom_sub sh so g1 (ISingle bar_right)) (fun g2 =>
  Ok (ICompound (add_geometry sh (ICompound (add_geometry sh g2 (ISingle bar_left))) (ISingle bar_right)))))).
(** 163-206, 514-557: the bars of rectangular and tee sections; [top] = (first x, spacing), [bot] likewise, [side] = (left x, right x, spacing) *)
Definition add_layers (sh : shapely) (so : setops) (geometry : item) (d dia_top area_top : R) (n_top : nat) (c_top dia_bot area_bot : R) (n_bot : nat) (c_bot : R)
    (area_side : option R) (n_side n_circle : nat) (steel : mat_obj) (top bot : R * R) (side : R * R * R) : result compound :=
  bind (fold_result (add_bar sh so area_top n_circle steel) (map (fun i => (fst top + snd top * INR i, d - c_top - dia_top / 2)) (seq 0 n_top)) geometry) (fun g1 =>
  bind (fold_result (add_bar sh so area_bot n_circle steel) (map (fun i => (fst bot + snd bot * INR i, c_bot + dia_bot / 2)) (seq 0 n_bot)) g1) (fun g2 =>
  let '(x_left, x_right, spacing) := side in
  bind (match truthy_num area_side with
        | Some a => fold_result (add_side sh so a n_circle steel (x_right - x_left)) (map (fun i => (x_left, c_bot + dia_bot / 2 + spacing * INR (i + 1))) (seq 0 n_side)) g2
        | None => Ok g2
        end) must_be_compound)).
(** concrete_sections.py 14-206: concrete_rectangular_section *)
Definition concrete_rectangular_section (sh : shapely) (so : setops) (d b dia_top area_top : R) (n_top : nat) (c_top dia_bot area_bot : R) (n_bot : nat) (c_bot : R)
    (dia_side area_side : option R) (n_side : nat) (c_side : R) (n_circle : nat) (conc steel : mat_obj) : result compound :=
  bind (rectangular_section sh d b conc) (fun g =>
  let side := match truthy_num dia_side with
              | Some dia => if Nat.eqb n_side 0 then (0, 0, 0)
                            else (c_side + dia / 2, b - (c_side + dia / 2), (d - c_top - c_bot - dia_top / 2 - dia_bot / 2) / (INR n_side + 1))
              | None => (0, 0, 0)
              end in
  add_layers sh so (ISingle g) d dia_top area_top n_top c_top dia_bot area_bot n_bot c_bot area_side n_side n_circle steel
    (layer b n_top dia_top c_top c_side) (layer b n_bot dia_bot c_bot c_side) side).

(** concrete_sections.py 209-353: concrete_column_section. [order] is the order in which Python lists a set. *)
Definition item_extents (i : item) : R * R * R * R := extents (item_polys i).
Definition column_bars (order : list pt -> list pt) (ext4 : R * R * R * R) (n_x n_y : nat) (filled : bool) : result (list pt) :=
  let '(x_min, x_max, y_min, y_max) := ext4 in
  bind (linspace x_min x_max (Z.of_nat n_x)) (fun xs =>
  bind (linspace y_min y_max (Z.of_nat n_y)) (fun ys =>
  Ok (if filled then for_y_x xs ys
      else order (add_points [] (row xs y_max ++ row xs y_min ++ col x_max ys ++ col x_min ys))))).
Definition concrete_column_section (sh : shapely) (so : setops) (order : list pt -> list pt) (d b dia_bar area_bar : R) (n_x n_y : nat) (cover : R) (n_circle : nat)
    (filled : bool) (conc steel : mat_obj) : result compound :=
  bind (rectangular_section sh d b conc) (fun g =>
  bind (offset_perimeter sh so g (- cover - dia_bar / 2) "exterior" 12) (fun o =>
  bind (column_bars order (item_extents o) n_x n_y filled) (fun ps =>
  bind (fold_result (add_bar sh so area_bar n_circle steel) ps (ISingle g)) must_be_compound))).

(** concrete_sections.py 356-557: concrete_tee_section *)
Definition tee_layer (b : R) (n : nat) (dia c c_side : R) : R * R :=
  if Nat.eqb n 1 then (0, 0)
  else let cover := if Req_EM_T c_side 0 then c else c_side in
       (- b / 2 + cover + dia / 2, (b - 2 * cover - dia) / (INR n - 1)).
Definition concrete_tee_section (sh : shapely) (so : setops) (d b d_f b_f dia_top area_top : R) (n_top : nat) (c_top dia_bot area_bot : R) (n_bot : nat) (c_bot : R)
    (dia_side area_side : option R) (n_side : nat) (c_side : R) (n_circle : nat) (conc steel : mat_obj) : result compound :=
  bind (rectangular_section sh (d - d_f) b conc) (fun beam =>
  bind (rectangular_section sh d_f b_f conc) (fun flange =>
  bind (align_to sh flange (TGeometry [gm_poly beam]) "top" false) (fun flange =>
  let geom := compound_shift sh (add_geometry sh (ISingle beam) (ISingle (shift_section sh flange (- (b_f / 2 - b / 2)) 0))) (- b / 2) 0 in
  let side := match truthy_num dia_side with
              | Some dia => if Nat.eqb n_side 0 then (0, 0, 0)
                            else (- b / 2 + c_side + dia / 2, - (- b / 2 + c_side + dia / 2), (d - c_top - c_bot - dia_top / 2 - dia_bot / 2) / (INR n_side + 1))
              | None => (0, 0, 0)
              end in
  add_layers sh so (ICompound geom) d dia_top area_top n_top c_top dia_bot area_bot n_bot c_bot area_side n_side n_circle steel
    (tee_layer b_f n_top dia_top c_top c_side) (tee_layer b n_bot dia_bot c_bot c_side) side))).

(** concrete_sections.py 560-677: concrete_circular_section *)
Definition concrete_circular_section (sh : shapely) (so : setops) (d area_conc : R) (n_conc : nat) (dia_bar area_bar : R) (n_bar : nat) (cover : R) (n_circle : nat)
    (conc steel : mat_obj) : result compound :=
  if Nat.ltb n_bar 2 then Err ValueError
  else
  bind (circular_section_by_area sh area_conc n_conc conc) (fun g =>
  let r := d / 2 - cover - dia_bar / 2 in
  let d_theta := 2 * PI / INR n_bar in
  bind (fold_result (add_bar sh so area_bar n_circle steel) (map (fun i => (r * cos (INR i * d_theta), r * sin (INR i * d_theta))) (seq 0 n_bar)) (ISingle g)) must_be_compound).

(** ** Walls *)

(** concrete_sections.py 776-796 *)
Definition rectangular_wall_bars (d t dia_bar spacing cover : R) (double : bool) : result (list pt) :=
  bind (run (cover + 0.5 * dia_bar) (d - cover - 0.5 * dia_bar) (d - 2 * cover - dia_bar) spacing) (fun y_i =>
  Ok (for_y_x (if double then [cover + 0.5 * dia_bar; t - cover - 0.5 * dia_bar] else [0.5 * t]) y_i)).
(** concrete_sections.py 680-800: rectangular_wall *)
Definition rectangular_wall (sh : shapely) (so : setops) (d t dia_bar area_bar spacing cover : R) (double : bool) (n_circle : nat) (conc steel : mat_obj) : result compound :=
  bind (rectangular_section sh d t conc) (fun g =>
  bind (rectangular_wall_bars d t dia_bar spacing cover double) (fun ps =>
  add_bars sh so (ISingle g) area_bar steel n_circle ps)).

(** concrete_sections.py 914-1005 *)
Definition cee_wall_bars (d b t_f t_w dia_bar spacing cover : R) (double : bool) : result (list pt) :=
  if negb double then
    bind (run (0.5 * t_w) (b - cover - 0.5 * dia_bar) (b - cover - 0.5 * dia_bar - 0.5 * t_w) spacing) (fun x_i =>
    bind (run (0.5 * t_f) (d - 0.5 * t_f) (d - t_f) spacing) (fun y_i =>
    Ok (row x_i (0.5 * t_f) ++ row x_i (d - 0.5 * t_f) ++ col (0.5 * t_w) (inner y_i))))
  else
    bind (run (cover + 0.5 * dia_bar) (b - cover - 0.5 * dia_bar) (b - 2 * cover - dia_bar) spacing) (fun x_o =>
    bind (run (cover + 0.5 * dia_bar) (d - cover - 0.5 * dia_bar) (d - 2 * cover - dia_bar) spacing) (fun y_o =>
    bind (run (t_w - cover - 0.5 * dia_bar) (b - cover - 0.5 * dia_bar) (b - t_w) spacing) (fun x_i =>
    bind (run (t_f - cover - 0.5 * dia_bar) (d - t_f + cover + 0.5 * dia_bar) (d - 2 * t_f + 2 * cover + dia_bar) spacing) (fun y_i =>
    Ok (row x_o (cover + 0.5 * dia_bar) ++ row x_o (d - cover - 0.5 * dia_bar) ++ col (cover + 0.5 * dia_bar) (inner y_o)
        ++ row x_i (t_f - cover - 0.5 * dia_bar) ++ row x_i (d - t_f + cover + 0.5 * dia_bar) ++ col (t_w - cover - 0.5 * dia_bar) (inner y_i)))))).
(** concrete_sections.py 803-1009: cee_wall *)
Definition cee_wall (sh : shapely) (so : setops) (d b t_f t_w dia_bar area_bar spacing cover : R) (double : bool) (n_circle : nat) (conc steel : mat_obj) : result compound :=
  bind (rectangular_section sh d b conc) (fun outer =>
  bind (rectangular_section sh (d - 2 * t_f) (b - t_w) conc) (fun inner_ =>
  bind (align_to sh (align_center sh inner_ (Some (TGeometry [gm_poly outer]))) (TGeometry [gm_poly outer]) "right" true) (fun inner_ =>
  bind (geom_sub sh so (ISingle outer) (ISingle inner_)) (fun g =>
  bind (cee_wall_bars d b t_f t_w dia_bar spacing cover double) (fun ps =>
  add_bars sh so g area_bar steel n_circle ps))))).

(** concrete_sections.py 1122-1199 *)
Definition tee_wall_bars (d b t_f t_w dia_bar spacing cover : R) (double : bool) : result (list pt) :=
  if negb double then
    bind (run (cover + 0.5 * dia_bar) (b - cover - 0.5 * dia_bar) (b - 2 * cover - dia_bar) spacing) (fun x_i =>
    bind (run (cover + 0.5 * dia_bar) (d - 0.5 * t_f) (d - 0.5 * t_f - cover - 0.5 * dia_bar) spacing) (fun y_i =>
    Ok (row x_i (d - 0.5 * t_f) ++ col (0.5 * b) (to_last y_i))))
  else
    bind (run (cover + 0.5 * dia_bar) (b - cover - 0.5 * dia_bar) (b - 2 * cover - dia_bar) spacing) (fun x_o =>
    bind (run (cover + 0.5 * dia_bar) (0.5 * (b - t_w) + cover + 0.5 * dia_bar) (0.5 * (b - t_w)) spacing) (fun x_l =>
    bind (run (0.5 * (b + t_w) - cover - 0.5 * dia_bar) (b - cover - 0.5 * dia_bar) (0.5 * (b - t_w)) spacing) (fun x_r =>
    bind (run (cover + 0.5 * dia_bar) (d - t_f + cover + 0.5 * dia_bar) (d - t_f) spacing) (fun y_i =>
    Ok (row x_o (d - cover - 0.5 * dia_bar) ++ row (x_l ++ x_r) (d - t_f + cover + 0.5 * dia_bar)
        ++ for_y_x [0.5 * (b - t_w) + cover + 0.5 * dia_bar; 0.5 * (b + t_w) - cover - 0.5 * dia_bar] (to_last y_i)))))).
(** concrete_sections.py 1012-1203: tee_wall *)
Definition tee_wall (sh : shapely) (so : setops) (d b t_f t_w dia_bar area_bar spacing cover : R) (double : bool) (n_circle : nat) (conc steel : mat_obj) : result compound :=
  bind (rectangular_section sh d b conc) (fun outer =>
  bind (rectangular_section sh (d - t_f) (0.5 * (b - t_w)) default_material) (fun left =>
  let right := mirror_section sh left "y" (At (0.5 * b, 0)) in
  bind (geom_sub sh so (ISingle outer) (ISingle left)) (fun g =>
  bind (geom_sub sh so g (ISingle right)) (fun g =>
  bind (tee_wall_bars d b t_f t_w dia_bar spacing cover double) (fun ps =>
  add_bars sh so g area_bar steel n_circle ps))))).

(** concrete_sections.py 1323-1470 *)
Definition single_lift_core_bars (d b t1 t2 a dia_bar spacing cover : R) (double : bool) : result (list pt) :=
  if negb double then
    bind (run (0.5 * t2) (b - 0.5 * t2) (b - t2) spacing) (fun x_i =>
    bind (run (0.5 * t1) (d - 0.5 * t1) (d - t1) spacing) (fun y_l =>
    bind (run (0.5 * t1) (0.5 * (d - a) - cover - 0.5 * dia_bar) (0.5 * (d - a) - 0.5 * t1 - cover - 0.5 * dia_bar) spacing) (fun y_b =>
    bind (run (0.5 * (d + a) + cover + 0.5 * dia_bar) (d - 0.5 * t1) (0.5 * (d - a) - 0.5 * t1 - cover - 0.5 * dia_bar) spacing) (fun y_t =>
    Ok (row x_i (0.5 * t1) ++ row x_i (d - 0.5 * t1) ++ col (0.5 * t2) (inner y_l) ++ col (b - 0.5 * t2) (from_1 y_b) ++ col (b - 0.5 * t2) (to_last y_t))))))
  else
    bind (run (cover + 0.5 * dia_bar) (b - cover - 0.5 * dia_bar) (b - 2 * cover - dia_bar) spacing) (fun x_o =>
    bind (run (t2 - cover - 0.5 * dia_bar) (b - t2 + cover + 0.5 * dia_bar) (b - 2 * t2 + 2 * cover + dia_bar) spacing) (fun x_i =>
    bind (run (cover + 0.5 * dia_bar) (d - cover - 0.5 * dia_bar) (d - 2 * cover - dia_bar) spacing) (fun y_o =>
    bind (run (t1 - cover - 0.5 * dia_bar) (d - t1 + cover + 0.5 * dia_bar) (d - 2 * t1 + 2 * cover + dia_bar) spacing) (fun y_i =>
    bind (run (cover + 0.5 * dia_bar) (0.5 * (d - a) - cover - 0.5 * dia_bar) (0.5 * (d - a) - 2 * cover - dia_bar) spacing) (fun y_ob =>
    bind (run (0.5 * (d + a) + cover + 0.5 * dia_bar) (d - cover - 0.5 * dia_bar) (0.5 * (d - a) - 2 * cover - dia_bar) spacing) (fun y_ot =>
    bind (run (t1 - cover - 0.5 * dia_bar) (0.5 * (d - a) - cover - 0.5 * dia_bar) (0.5 * (d - a) - t1) spacing) (fun y_ib =>
    bind (run (0.5 * (d + a) + cover + 0.5 * dia_bar) (d - t1 + cover + 0.5 * dia_bar) (0.5 * (d - a) - t1) spacing) (fun y_it =>
    Ok (for_x_y x_o [cover + 0.5 * dia_bar; d - cover - 0.5 * dia_bar]
        ++ for_x_y x_i [t1 - cover - 0.5 * dia_bar; d - t1 + cover + 0.5 * dia_bar]
        ++ col (cover + 0.5 * dia_bar) (inner y_o) ++ col (t2 - cover - 0.5 * dia_bar) (inner y_i)
        ++ col (b - cover - 0.5 * dia_bar) (inner (y_ob ++ y_ot)) ++ col (b - t2 + cover + 0.5 * dia_bar) (inner (y_ib ++ y_it))))))))))).
(** concrete_sections.py 1206-1474: single_lift_core *)
Definition single_lift_core (sh : shapely) (so : setops) (d b t1 t2 a dia_bar area_bar spacing cover : R) (double : bool) (n_circle : nat) (conc steel : mat_obj) : result compound :=
  bind (rectangular_section sh d b conc) (fun outer =>
  bind (rectangular_section sh (d - 2 * t1) (b - 2 * t2) conc) (fun inner_ =>
  let inner_ := align_center sh inner_ (Some (TGeometry [gm_poly outer])) in
  bind (rectangular_section sh a t2 conc) (fun door =>
  bind (align_to sh (align_center sh door (Some (TGeometry [gm_poly outer]))) (TGeometry [gm_poly outer]) "right" true) (fun door =>
  bind (geom_sub sh so (ISingle outer) (ISingle inner_)) (fun g =>
  bind (geom_sub sh so g (ISingle door)) (fun g =>
  bind (single_lift_core_bars d b t1 t2 a dia_bar spacing cover double) (fun ps =>
  add_bars sh so g area_bar steel n_circle ps))))))).

(** concrete_sections.py 1604-1777 *)
Definition double_lift_core_a_bars (d b t1 t2 a1 a2 dia_bar spacing cover : R) (double : bool) : result (list pt) :=
  let nib := 0.5 * (d - 2 * a1 - a2 - 2 * t1) in
  if negb double then
    bind (run (0.5 * t2) (b - 0.5 * t2) (b - t2) spacing) (fun x_i =>
    bind (run (0.5 * t1) (d - 0.5 * t1) (d - t1) spacing) (fun y_i =>
    bind (run (0.5 * t1) (t1 + nib - cover - 0.5 * dia_bar) (nib + 0.5 * t1) spacing) (fun y_nib_b =>
    bind (run (d - t1 - nib + cover + 0.5 * dia_bar) (d - 0.5 * t1) (nib + 0.5 * t1) spacing) (fun y_nib_t =>
    bind (run (0.5 * (d - a2) + cover + 0.5 * dia_bar) (0.5 * (d + a2) - cover - 0.5 * dia_bar) (a2 - 2 * cover - dia_bar) spacing) (fun y_pier =>
    Ok (row x_i (0.5 * t1) ++ row x_i (d - 0.5 * t1) ++ col (0.5 * t2) (inner y_i) ++ col (b - 0.5 * t2) (from_1 y_nib_b) ++ col (b - 0.5 * t2) (to_last y_nib_t)
        ++ col (b - 0.5 * t2) y_pier))))))
  else
    bind (run (cover + 0.5 * dia_bar) (b - cover - 0.5 * dia_bar) (b - 2 * cover - dia_bar) spacing) (fun x_o =>
    bind (run (t2 - cover - 0.5 * dia_bar) (b - t2 + cover + 0.5 * dia_bar) (b - 2 * t2 + 2 * cover + dia_bar) spacing) (fun x_i =>
    bind (run (cover + 0.5 * dia_bar) (d - cover - 0.5 * dia_bar) (d - 2 * cover - dia_bar) spacing) (fun y_o =>
    bind (run (t1 - cover - 0.5 * dia_bar) (d - t1 + cover + 0.5 * dia_bar) (d - 2 * t1 + 2 * cover + dia_bar) spacing) (fun y_i =>
    bind (run (cover + 0.5 * dia_bar) (t1 + nib - cover - 0.5 * dia_bar) (nib + t1 - 2 * cover - dia_bar) spacing) (fun y_ob =>
    bind (run (d - t1 - nib + cover + 0.5 * dia_bar) (d - cover - 0.5 * dia_bar) (nib + t1 - 2 * cover - dia_bar) spacing) (fun y_ot =>
    bind (run (t1 - cover - 0.5 * dia_bar) (t1 + nib - cover - 0.5 * dia_bar) nib spacing) (fun y_ib =>
    bind (run (d - t1 - nib + cover + 0.5 * dia_bar) (d - t1 + cover + 0.5 * dia_bar) nib spacing) (fun y_it =>
    bind (run (0.5 * (d - a2) + cover + 0.5 * dia_bar) (0.5 * (d + a2) - cover - 0.5 * dia_bar) (a2 - 2 * cover - dia_bar) spacing) (fun y_pier =>
    Ok (for_x_y x_o [cover + 0.5 * dia_bar; d - cover - 0.5 * dia_bar]
        ++ for_x_y x_i [t1 - cover - 0.5 * dia_bar; d - t1 + cover + 0.5 * dia_bar]
        ++ col (cover + 0.5 * dia_bar) (inner y_o) ++ col (t2 - cover - 0.5 * dia_bar) (inner y_i)
        ++ col (b - cover - 0.5 * dia_bar) (inner (y_ob ++ y_ot)) ++ col (b - t2 + cover + 0.5 * dia_bar) (inner (y_ib ++ y_it))
        ++ for_y_x [b - t2 + cover + 0.5 * dia_bar; b - cover - 0.5 * dia_bar] y_pier))))))))))
.
(** concrete_sections.py 1477-1781: double_lift_core_a *)
Definition double_lift_core_a (sh : shapely) (so : setops) (d b t1 t2 a1 a2 dia_bar area_bar spacing cover : R) (double : bool) (n_circle : nat) (conc steel : mat_obj) : result compound :=
  if Rlt_dec (d - 2 * t1) (2 * a1 + a2) then Err ValueError
  else
  bind (rectangular_section sh d b conc) (fun outer =>
  bind (rectangular_section sh (d - 2 * t1) (b - 2 * t2) conc) (fun inner_ =>
  let inner_ := align_center sh inner_ (Some (TGeometry [gm_poly outer])) in
  bind (rectangular_section sh a1 t2 conc) (fun door =>
  let nib := 0.5 * (d - 2 * a1 - a2 - 2 * t1) in
  let door_t := shift_section sh door (b - t2) (d - t1 - nib - a1) in
  let door_b := shift_section sh door (b - t2) (t1 + nib) in
  bind (geom_sub sh so (ISingle outer) (ISingle inner_)) (fun g =>
  bind (geom_sub sh so g (ISingle door_t)) (fun g =>
  bind (geom_sub sh so g (ISingle door_b)) (fun g =>
  bind (double_lift_core_a_bars d b t1 t2 a1 a2 dia_bar spacing cover double) (fun ps =>
  add_bars sh so g area_bar steel n_circle ps))))))).

(** concrete_sections.py 1918-2125 *)
Definition double_lift_core_b_bars (d b t1 t2 t3 a dia_bar spacing cover : R) (double : bool) : result (list pt) :=
  let nib := 0.25 * (d - 2 * t1 - 2 * a - t3) in
  let a2 := 2 * nib + t3 in
  if negb double then
    bind (run (0.5 * t2) (b - 0.5 * t2) (b - t2) spacing) (fun x_i =>
    bind (run (0.5 * t1) (d - 0.5 * t1) (d - t1) spacing) (fun y_i =>
    bind (run (0.5 * t1) (t1 + nib - cover - 0.5 * dia_bar) (nib + 0.5 * t1) spacing) (fun y_nib_b =>
    bind (run (d - t1 - nib + cover + 0.5 * dia_bar) (d - 0.5 * t1) (nib + 0.5 * t1) spacing) (fun y_nib_t =>
    bind (run (0.5 * (d - a2) + cover + 0.5 * dia_bar) (0.5 * (d + a2) - cover - 0.5 * dia_bar) (a2 - 2 * cover - dia_bar) spacing) (fun y_pier =>
    Ok (row x_i (0.5 * t1) ++ row (inner x_i) (0.5 * d) ++ row x_i (d - 0.5 * t1) ++ col (0.5 * t2) (inner y_i) ++ col (b - 0.5 * t2) (from_1 y_nib_b)
        ++ col (b - 0.5 * t2) (to_last y_nib_t) ++ col (b - 0.5 * t2) y_pier))))))
  else
    bind (run (cover + 0.5 * dia_bar) (b - cover - 0.5 * dia_bar) (b - 2 * cover - dia_bar) spacing) (fun x_o =>
    bind (run (t2 - cover - 0.5 * dia_bar) (b - t2 + cover + 0.5 * dia_bar) (b - 2 * t2 + 2 * cover + dia_bar) spacing) (fun x_i =>
    bind (run (cover + 0.5 * dia_bar) (d - cover - 0.5 * dia_bar) (d - 2 * cover - dia_bar) spacing) (fun y_o =>
    bind (run (t1 - cover - 0.5 * dia_bar) (0.5 * (d - t3) + cover + 0.5 * dia_bar) (0.5 * (d - 2 * t1 - t3) + 2 * cover + dia_bar) spacing) (fun y_b =>
    bind (run (0.5 * (d + t3) - cover - 0.5 * dia_bar) (d - t1 + cover + 0.5 * dia_bar) (0.5 * (d - 2 * t1 - t3) + 2 * cover + dia_bar) spacing) (fun y_t =>
    bind (run (cover + 0.5 * dia_bar) (t1 + nib - cover - 0.5 * dia_bar) (nib + t1 - 2 * cover - dia_bar) spacing) (fun y_ob =>
    bind (run (d - t1 - nib + cover + 0.5 * dia_bar) (d - cover - 0.5 * dia_bar) (nib + t1 - 2 * cover - dia_bar) spacing) (fun y_ot =>
    bind (run (t1 - cover - 0.5 * dia_bar) (t1 + nib - cover - 0.5 * dia_bar) nib spacing) (fun y_ib =>
    bind (run (d - t1 - nib + cover + 0.5 * dia_bar) (d - t1 + cover + 0.5 * dia_bar) nib spacing) (fun y_it =>
    bind (run (0.5 * (d - a2) + cover + 0.5 * dia_bar) (0.5 * (d + a2) - cover - 0.5 * dia_bar) (a2 - 2 * cover - dia_bar) spacing) (fun y_pier =>
    bind (run (0.5 * (d - a2) + cover + 0.5 * dia_bar) (0.5 * d - cover - 0.5 * dia_bar) (nib - 2 * cover - dia_bar) spacing) (fun y_pier_b =>
    bind (run (0.5 * d + cover + 0.5 * dia_bar) (0.5 * (d + a2) - cover - 0.5 * dia_bar) (nib - 2 * cover - dia_bar) spacing) (fun y_pier_t =>
    Ok (for_x_y x_o [cover + 0.5 * dia_bar; d - cover - 0.5 * dia_bar]
        ++ for_x_y x_i [t1 - cover - 0.5 * dia_bar; 0.5 * (d - t3) + cover + 0.5 * dia_bar; 0.5 * (d + t3) - cover - 0.5 * dia_bar; d - t1 + cover + 0.5 * dia_bar]
        ++ col (cover + 0.5 * dia_bar) (inner y_o) ++ col (t2 - cover - 0.5 * dia_bar) (inner y_b ++ inner y_t)
        ++ col (b - cover - 0.5 * dia_bar) (inner (y_ob ++ y_ot)) ++ col (b - t2 + cover + 0.5 * dia_bar) (inner (y_ib ++ y_it))
        ++ col (b - cover - 0.5 * dia_bar) y_pier ++ col (b - t2 + cover + 0.5 * dia_bar) (to_last y_pier_b ++ from_1 y_pier_t)))))))))))))).
(** concrete_sections.py 1784-2129: double_lift_core_b *)
Definition double_lift_core_b (sh : shapely) (so : setops) (d b t1 t2 t3 a dia_bar area_bar spacing cover : R) (double : bool) (n_circle : nat) (conc steel : mat_obj) : result compound :=
  if Rlt_dec (0.5 * (d - 2 * t1 - t3)) a then Err ValueError
  else
  let nib := 0.25 * (d - 2 * t1 - 2 * a - t3) in
  bind (rectangular_section sh d b conc) (fun outer =>
  bind (rectangular_section sh (0.5 * (d - 2 * t1 - t3)) (b - 2 * t2) conc) (fun inner_ =>
  bind (rectangular_section sh a t2 conc) (fun door =>
  bind (geom_sub sh so (ISingle outer) (ISingle (shift_section sh inner_ t2 t1))) (fun g =>
  bind (geom_sub sh so g (ISingle (shift_section sh inner_ t2 (0.5 * (d + t3))))) (fun g =>
  bind (geom_sub sh so g (ISingle (shift_section sh door (b - t2) (d - t1 - nib - a)))) (fun g =>
  bind (geom_sub sh so g (ISingle (shift_section sh door (b - t2) (t1 + nib)))) (fun g =>
  bind (double_lift_core_b_bars d b t1 t2 t3 a dia_bar spacing cover double) (fun ps =>
  add_bars sh so g area_bar steel n_circle ps)))))))).

(** concrete_sections.py 2247-2384 *)
Definition stairwell_bars (d b t1 t2 a dia_bar spacing cover : R) (double : bool) : result (list pt) :=
  if negb double then
    bind (run (0.5 * t2) (b - 0.5 * t2) (b - t2) spacing) (fun x_i =>
    bind (run (0.5 * t1) (d - 0.5 * t1) (d - t1) spacing) (fun y_l =>
    bind (run (0.5 * t1) (d - t1 - a - cover - 0.5 * dia_bar) (d - 1.5 * t1 - a - cover - 0.5 * dia_bar) spacing) (fun y_r =>
    Ok (row x_i (0.5 * t1) ++ row x_i (d - 0.5 * t1) ++ col (0.5 * t2) (inner y_l) ++ col (b - 0.5 * t2) (from_1 y_r)))))
  else
    bind (run (cover + 0.5 * dia_bar) (b - cover - 0.5 * dia_bar) (b - 2 * cover - dia_bar) spacing) (fun x_o =>
    bind (run (t2 - cover - 0.5 * dia_bar) (b - cover - 0.5 * dia_bar) (b - t2) spacing) (fun x_t =>
    bind (run (t2 - cover - 0.5 * dia_bar) (b - t2 + cover + 0.5 * dia_bar) (b - 2 * t2 + 2 * cover + dia_bar) spacing) (fun x_b =>
    bind (run (cover + 0.5 * dia_bar) (d - cover - 0.5 * dia_bar) (d - 2 * cover - dia_bar) spacing) (fun y_o =>
    bind (run (t1 - cover - 0.5 * dia_bar) (d - t1 + cover + 0.5 * dia_bar) (d - 2 * t1 + 2 * cover + dia_bar) spacing) (fun y_i =>
    bind (run (t1 - cover - 0.5 * dia_bar) (d - t1 - a - cover - 0.5 * dia_bar) (d - 2 * t1 - a) spacing) (fun y_ri =>
    bind (run (cover + 0.5 * dia_bar) (d - t1 - a - cover - 0.5 * dia_bar) (d - t1 - a - cover - 0.5 * dia_bar) spacing) (fun y_ro =>
    Ok (for_x_y x_o [cover + 0.5 * dia_bar; d - cover - 0.5 * dia_bar] ++ row x_t (d - t1 + cover + 0.5 * dia_bar) ++ row x_b (t1 - cover - 0.5 * dia_bar)
        ++ col (cover + 0.5 * dia_bar) (inner y_o) ++ col (t2 - cover - 0.5 * dia_bar) (inner y_i)
        ++ col (b - t2 + cover + 0.5 * dia_bar) (from_1 y_ri) ++ col (b - cover - 0.5 * dia_bar) (from_1 y_ro))))))))).
(** concrete_sections.py 2132-2388: stairwell *)
Definition stairwell (sh : shapely) (so : setops) (d b t1 t2 a dia_bar area_bar spacing cover : R) (double : bool) (n_circle : nat) (conc steel : mat_obj) : result compound :=
  bind (rectangular_section sh d b conc) (fun outer =>
  bind (rectangular_section sh (d - 2 * t1) (b - 2 * t2) conc) (fun inner_ =>
  let inner_ := align_center sh inner_ (Some (TGeometry [gm_poly outer])) in
  bind (rectangular_section sh a t2 conc) (fun door =>
  let door := shift_section sh door (b - t2) (d - t1 - a) in
  bind (geom_sub sh so (ISingle outer) (ISingle inner_)) (fun g =>
  bind (geom_sub sh so g (ISingle door)) (fun g =>
  bind (stairwell_bars d b t1 t2 a dia_bar spacing cover double) (fun ps =>
  add_bars sh so g area_bar steel n_circle ps)))))).
