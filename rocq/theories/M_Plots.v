(** Model of what the plots draw: post/stress_post.py 59-554 (plot_stress, plot_stress_vector), analysis/section.py 1548-1665 (plot_mesh) and 1783-1845
    (plot_warping_function), pre/geometry.py 1158-1239 (plot_geometry). A plot is the list of the arguments of the drawing calls; what matplotlib does
    with them is not modelled, except the choice of colours in tripcolor. Titles, colour maps, formats and transparency are left out. Definitions only. *)
From Coq Require Import String Reals List Bool ZArith.
From Verif Require Import Base M_Fea M_Init M_Section M_Stress M_Geometry M_Props M_State.
Import ListNotations.
Local Open Scope string_scope.
Local Open Scope R_scope.

(** ** Contours of stresses *)

(** getattr(group.stress_result, name): the attributes of a StressResult (stress_post.py 960-984) *)
Definition stress_attr (num_nodes : nat) (r : nodal_stress * (nat -> combined)) (name : string) : option (list R) :=
  let '(s, c) := r in
  let arr f := Some (map f (seq 0 num_nodes)) in
  if name =? "sig_zz_n" then arr (ns_zz_n s) else if name =? "sig_zz_mxx" then arr (ns_zz_mxx s) else if name =? "sig_zz_myy" then arr (ns_zz_myy s)
  else if name =? "sig_zz_m11" then arr (ns_zz_m11 s) else if name =? "sig_zz_m22" then arr (ns_zz_m22 s)
  else if name =? "sig_zx_mzz" then arr (ns_zx_mzz s) else if name =? "sig_zy_mzz" then arr (ns_zy_mzz s)
  else if name =? "sig_zx_vx" then arr (ns_zx_vx s) else if name =? "sig_zy_vx" then arr (ns_zy_vx s)
  else if name =? "sig_zx_vy" then arr (ns_zx_vy s) else if name =? "sig_zy_vy" then arr (ns_zy_vy s)
  else if name =? "sig_zz_m" then arr (fun i => cb_zz_m (c i)) else if name =? "sig_zxy_mzz" then arr (fun i => cb_zxy_mzz (c i))
  else if name =? "sig_zxy_vx" then arr (fun i => cb_zxy_vx (c i)) else if name =? "sig_zxy_vy" then arr (fun i => cb_zxy_vy (c i))
  else if name =? "sig_zx_v" then arr (fun i => cb_zx_v (c i)) else if name =? "sig_zy_v" then arr (fun i => cb_zy_v (c i))
  else if name =? "sig_zxy_v" then arr (fun i => cb_zxy_v (c i)) else if name =? "sig_zz" then arr (fun i => cb_zz (c i))
  else if name =? "sig_zx" then arr (fun i => cb_zx (c i)) else if name =? "sig_zy" then arr (fun i => cb_zy (c i))
  else if name =? "sig_zxy" then arr (fun i => cb_zxy (c i)) else if name =? "sig_11" then arr (fun i => cb_11 (c i))
  else if name =? "sig_33" then arr (fun i => cb_33 (c i)) else if name =? "sig_vm" then arr (fun i => cb_vm (c i)) else None.
(** dictionary[key] *)
Fixpoint lookup {A : Type} (key : string) (d : list (string * A)) : result A :=
  match d with [] => Err KeyError | (k, v) :: r => if key =? k then Ok v else lookup key r end.
(** stress_post.py 188-289: stress_dict, the attributes *)
Definition contour_dict : list (string * string) :=
  [("n_zz", "sig_zz_n"); ("mxx_zz", "sig_zz_mxx"); ("myy_zz", "sig_zz_myy"); ("m11_zz", "sig_zz_m11"); ("m22_zz", "sig_zz_m22"); ("m_zz", "sig_zz_m");
   ("mzz_zx", "sig_zx_mzz"); ("mzz_zy", "sig_zy_mzz"); ("mzz_zxy", "sig_zxy_mzz"); ("vx_zx", "sig_zx_vx"); ("vx_zy", "sig_zy_vx"); ("vx_zxy", "sig_zxy_vx");
   ("vy_zx", "sig_zx_vy"); ("vy_zy", "sig_zy_vy"); ("vy_zxy", "sig_zxy_vy"); ("v_zx", "sig_zx_v"); ("v_zy", "sig_zy_v"); ("v_zxy", "sig_zxy_v");
   ("zz", "sig_zz"); ("zx", "sig_zx"); ("zy", "sig_zy"); ("zxy", "sig_zxy"); ("11", "sig_11"); ("33", "sig_33"); ("vm", "sig_vm")].
(** The array of one group *)
Definition attr_of (num_nodes : nat) (attribute : string) (r : nodal_stress * (nat -> combined)) : result (list R) :=
  match stress_attr num_nodes r attribute with Some l => Ok l | None => Err KeyError end.
(** material_list and group.material not in material_list *)
Definition left_out (material_list : option (list mat_obj)) (m : mat_obj) : bool :=
  match material_list with None | Some [] => false | Some l => negb (mat_in m l) end.
(** min and max of a list; ValueError if it is empty *)
Definition min_of (l : list R) : result R := match l with [] => Err ValueError | a :: r => Ok (fold_left Rmin r a) end.
Definition max_of (l : list R) : result R := match l with [] => Err ValueError | a :: r => Ok (fold_left Rmax r a) end.
(** np.linspace(start, stop, num=15, endpoint=True) *)
Definition linspace15 (start stop : R) : list R := map (fun i => start + INR i * ((stop - start) / 14)) (seq 0 15).
(** np.isclose(a, b, atol=1e-12), with the default rtol = 1e-5 *)
Definition isclose (a b : R) : bool := if Rle_dec (Rabs (a - b)) (/ 10 ^ 12 + / 10 ^ 5 * Rabs b) then true else false.
(** The levels of the contours: those given, or a number of levels that matplotlib chooses *)
Inductive levels : Type := Given (l : list R) | Automatic (n : nat).
Record contour : Type := mkContour { ct_triangles : list nat; ct_values : list R; ct_levels : levels }.
(** stress_post.py 59-375: plot_stress: the filled contours, for each material group the triangles that are not masked, the nodal values and the levels *)
Definition plot_stress (s : section_obj) (res : list (nodal_stress * (nat -> combined))) (stress : string) (titled : bool)
    (stress_limits : option (R * R)) (material_list : option (list mat_obj)) : result (list contour) :=
  let num_nodes := length (s_nodes s) in
  (* 291-301 *)
  let plotted := filter (fun gr => negb (left_out material_list (fst (fst gr)))) (combine (s_groups s) res) in
  bind (map_result (fun gr => bind (lookup stress contour_dict) (fun a => attr_of num_nodes a (snd gr))) plotted) (fun sigs =>
  (* 303-305 *)
  bind (if titled then Ok "" else lookup stress contour_dict) (fun _ =>
  (* 319-327 *)
  bind (match stress_limits with
        | None => bind (bind (map_result min_of sigs) min_of) (fun lo => bind (bind (map_result max_of sigs) max_of) (fun hi => Ok (lo - / 10 ^ 12, hi + / 10 ^ 12)))
        | Some l => Ok l
        end) (fun lim =>
  let v := linspace15 (fst lim) (snd lim) in
  let lv := if isclose (nth 0 v 0) (nth 14 v 0) then Automatic 15 else Given v in
  (* 340-353 *)
  Ok (concat (map (fun q => let '((g, _), sig) := q in
        if left_out material_list (fst g) then []
        else [mkContour (filter (fun i => existsb (Nat.eqb i) (map e_id (snd g))) (seq 0 (length (s_els s)))) sig lv]) (combine plotted sigs)))))).

(** ** Vectors of stresses *)

(** stress_post.py 434-460: stress_dict, the attributes of the two components *)
Definition vector_dict : list (string * (string * string)) :=
  [("mzz_zxy", ("sig_zx_mzz", "sig_zy_mzz")); ("vx_zxy", ("sig_zx_vx", "sig_zy_vx")); ("vy_zxy", ("sig_zx_vy", "sig_zy_vy"));
   ("v_zxy", ("sig_zx_v", "sig_zy_v")); ("zxy", ("sig_zx", "sig_zy"))].
(** One quiver plot: an arrow at each node with its components, the value that is coloured and the scale *)
Record quiver : Type := mkQuiver { qv_at : list (R * R); qv_x : list R; qv_y : list R; qv_color : list R; qv_scale : R }.
Definition hypot (x y : list R) : list R := map (fun p => sqrt (fst p ^ 2 + snd p ^ 2)) (combine x y).
(** stress_post.py 377-554: plot_stress_vector: the quiver plots, one for each material group, and the ticks of the colour bar. [scale x y] is the scale
    that matplotlib chooses for arrows with the components x and y. *)
Definition plot_stress_vector (scale : list R -> list R -> R) (s : section_obj) (res : list (nodal_stress * (nat -> combined))) (stress : string)
    (titled : bool) : result (list quiver * list R) :=
  let num_nodes := length (s_nodes s) in
  (* 462-468 *)
  bind (map_result (fun gr => bind (lookup stress vector_dict) (fun a =>
          bind (attr_of num_nodes (fst a) (snd gr)) (fun x => bind (attr_of num_nodes (snd a) (snd gr)) (fun y => Ok (x, y))))) (combine (s_groups s) res)) (fun sigs =>
  (* 470-472 *)
  bind (if titled then Ok ("", "") else lookup stress vector_dict) (fun _ =>
  match sigs with
  | [] => Err IndexError (* 489: sigxs[0] *)
  | (x0, y0) :: _ =>
      (* 488-522 *)
      bind (min_of (hypot x0 y0)) (fun c_min => bind (max_of (hypot x0 y0)) (fun c_max =>
      bind (fold_result (fun acc xy => let '(mx, lo, hi) := acc in
              bind (min_of (hypot (fst xy) (snd xy))) (fun a => bind (max_of (hypot (fst xy) (snd xy))) (fun b =>
              Ok (Rmax mx (scale (fst xy) (snd xy)), Rmin lo a, Rmax hi b)))) sigs (0, c_min, c_max)) (fun acc =>
      let '(max_scale, c_min, c_max) := acc in
      (* 524-531 *)
      Ok (map (fun xy => mkQuiver (s_nodes s) (fst xy) (snd xy) (hypot (fst xy) (snd xy)) max_scale) sigs, linspace15 (c_min - / 10 ^ 12) (c_max + / 10 ^ 12)))))
  end)).

(** ** The mesh *)

(** matplotlib's Normalize (autoscaled to the values) followed by ListedColormap: the colour of each value. The value i of N colours is multiplied by N
    and truncated, N itself becomes N - 1. *)
Definition listed_color (colors : list string) (lo hi x : R) : option string :=
  let t := if Req_EM_T lo hi then 0 else (x - lo) / (hi - lo) in
  let n := INR (length colors) in
  nth_error colors (if Req_EM_T (t * n) n then length colors - 1 else Z.to_nat (Int_part (t * n))).
(** tripcolor(triang, c): the values belong to the nodes if there are as many values as nodes, else to the triangles *)
Inductive fill : Type := ByNode (l : list (option string)) | ByTriangle (l : list (option string)).
Definition tripcolor (num_nodes num_triangles : nat) (c : list R) (colors : list string) : result fill :=
  bind (min_of c) (fun lo => bind (max_of c) (fun hi =>
  let l := map (listed_color colors lo hi) c in
  if Nat.eqb (length c) num_nodes then Ok (ByNode l) else if Nat.eqb (length c) num_triangles then Ok (ByTriangle l) else Err ValueError)).
(** section.py 1632-1640: the entries of the legend; [seen] is self.materials[0:i] *)
Fixpoint legend_of (seen rest : list mat_obj) : list (string * string) :=
  match rest with
  | [] => []
  | m :: r => (if match seen with [] => true | _ => negb (mat_in m seen) end then [(mo_color m, mo_name m)] else []) ++ legend_of (seen ++ [m]) r
  end%list.
Record mesh_plot : Type := mkMeshPlot { mp_triangles : list ((R * R) * (R * R) * (R * R)); mp_fill : option fill; mp_legend : list (string * string) }.
(** The corners of the triangles: mesh_nodes and mesh_elements[:, 0:3] *)
Definition triangulation (s : section_obj) : list ((R * R) * (R * R) * (R * R)) :=
  map (fun e => let p i := nth i (s_nodes s) (0, 0) in let c := el_ids (e_tri e) in (p (c0 c), p (c1 c), p (c2 c))) (s_els s).
(** section.py 1548-1665: plot_mesh, without a mask (with one: plot_mesh_masked) *)
Definition plot_mesh (s : section_obj) (materials : bool) : result mesh_plot :=
  if materials && match s_mats s with [] => false | _ => true end then
    let color_array := map (fun e => mo_color (e_mat e)) (s_els s) in
    let c := map INR (seq 0 (length (s_els s))) in
    bind (tripcolor (length (s_nodes s)) (length (s_els s)) c color_array) (fun f => Ok (mkMeshPlot (triangulation s) (Some f) (legend_of [] (s_mats s))))
  else Ok (mkMeshPlot (triangulation s) None []).
(** The entries that a mask leaves: mask[i] is True if the triangle i is left out *)
Fixpoint unmasked {A : Type} (mask : list bool) (l : list A) : list A :=
  match mask, l with b :: mask', a :: l' => if b then unmasked mask' l' else a :: unmasked mask' l' | _, _ => [] end.
(** tripcolor(triang, c) with a mask: matplotlib removes the values of the masked triangles and then scales the colours to those that are left. Values of the
    nodes are kept as they are. *)
Definition tripcolor_masked (num_nodes num_triangles : nat) (mask : list bool) (c : list R) (colors : list string) : result fill :=
  if Nat.eqb (length c) num_nodes then tripcolor num_nodes num_triangles c colors
  else if Nat.eqb (length c) num_triangles then
    match unmasked mask c with
    | [] => Ok (ByTriangle [])
    | kept => bind (min_of kept) (fun lo => bind (max_of kept) (fun hi => Ok (ByTriangle (map (listed_color colors lo hi) kept))))
    end
  else Err ValueError.
(** section.py 1548-1665: plot_mesh with a mask; matplotlib's Triangulation (1614-1619) refuses a mask of another length *)
Definition plot_mesh_masked (s : section_obj) (materials : bool) (mask : list bool) : result mesh_plot :=
  if negb (Nat.eqb (length mask) (length (s_els s))) then Err ValueError
  else if materials && match s_mats s with [] => false | _ => true end then
    let color_array := map (fun e => mo_color (e_mat e)) (s_els s) in
    let c := map INR (seq 0 (length (s_els s))) in
    bind (tripcolor_masked (length (s_nodes s)) (length (s_els s)) mask c color_array) (fun f =>
    Ok (mkMeshPlot (unmasked mask (triangulation s)) (Some f) (legend_of [] (s_mats s))))
  else Ok (mkMeshPlot (unmasked mask (triangulation s)) None []).
(** section.py 1783-1845: plot_warping_function: the values drawn over the triangulation, with contour lines or not *)
Definition plot_warping_function (w : world) (with_lines : bool) : result (list ((R * R) * (R * R) * (R * R)) * (nat -> R) * bool) :=
  match M_Props.vec (w_props w) a_omega with None => Err RuntimeError | Some omega => Ok (triangulation (w_sec w), omega, with_lines) end.

(** ** The geometry *)

(** What ax.plot and ax.annotate receive: lines, markers (style and label) and numbers at points *)
Inductive mark : Type := Line (a b : pt) (label : option string) | Marker (style : string) (a : pt) (label : option string) | Number (i : nat) (a : pt).
(** for i, x in enumerate(l): label = ... if i == 0 else None *)
Definition first_label (label : string) (i : nat) : option string := if Nat.eqb i 0 then Some label else None.
Definition enumerate {A : Type} (l : list A) : list (nat * A) := combine (seq 0 (length l)) l.
(** self.points[i] *)
Definition point_at (points : list pt) (i : nat) : result pt := match nth_error points i with Some p => Ok p | None => Err IndexError end.
(** geometry.py 1158-1239: plot_geometry of a Geometry or CompoundGeometry with these points, facets, holes and control points *)
Definition plot_geometry (points : list pt) (facets : list (nat * nat)) (holes control_points : list pt) (labels : list string) (cp : bool) : result (list mark) :=
  (* 1186-1196 *)
  bind (map_result (fun q => let '(i, f) := q in bind (point_at points (fst f)) (fun a => bind (point_at points (snd f)) (fun b =>
          Ok (Line a b (first_label "Points & Facets" i))))) (enumerate facets)) (fun lines =>
  (* 1198-1201 *)
  let hole_marks := map (fun q => Marker "rx" (snd q) (first_label "Holes" (fst q))) (enumerate holes) in
  (* 1203-1207 *)
  let cp_marks := if cp then map (fun q => Marker "bo" (snd q) (first_label "Control Points" (fst q))) (enumerate control_points) else [] in
  (* 1209-1233 *)
  bind (map_result (fun label =>
          let numbers l := map (fun q => Number (fst q) (snd q)) (enumerate l) in
          bind (if label =? "facets" then map_result (fun q => let '(i, f) := q in bind (point_at points (fst f)) (fun a => bind (point_at points (snd f)) (fun b =>
                  Ok (Number i ((fst a + fst b) / 2, (snd a + snd b) / 2))))) (enumerate facets) else Ok []) (fun facet_numbers =>
          Ok ((if label =? "control_points" then numbers control_points else []) ++ (if label =? "points" then numbers points else []) ++
              facet_numbers ++ (if label =? "holes" then numbers holes else []))%list)) labels) (fun annotations =>
  Ok (lines ++ hole_marks ++ cp_marks ++ concat annotations)%list)).
