(** Model of src/sectionproperties/pre/geometry.py and of create_mesh in src/sectionproperties/pre/pre.py.
    Definitions only. Numbers are reals. shapely is used for areas, centroids, bounds and affine maps (computed here)
    and for set operations (oracles). Not modelled: from_dxf, from_3dm, from_rhino_encoding, plotting, printing,
    recovery points; offset_perimeter and the set operations are in M_SetOps.v. *)
From Coq Require Import String Reals List Bool Arith ZArith.
From Verif Require Import Base M_Fea M_Init.
Import ListNotations.
Local Open Scope R_scope.

Definition pt : Type := (R * R)%type.

(** A shapely Polygon: exterior ring and interior rings, without the repeated last coordinate. Polygon() is
    [mkPoly [] []]. *)
Record polygon : Type := mkPoly { ext : list pt; ints : list (list pt) }.
Definition rings (p : polygon) : list (list pt) := ext p :: ints p.
Definition map_polygon (f : pt -> pt) (p : polygon) : polygon := mkPoly (map f (ext p)) (map (map f) (ints p)).
Definition empty_polygon : polygon := mkPoly [] [].

(** Python's round and np.round on a number: nearest integer, ties to even; with [tol] decimals *)
Definition round_even (x : R) : Z :=
  let k := Int_part x in
  let f := x - IZR k in
  if Rlt_dec f (1 / 2) then k else if Rlt_dec (1 / 2) f then (k + 1)%Z else if Z.even k then k else (k + 1)%Z.
Definition round_to (tol : nat) (x : R) : R := IZR (round_even (x * 10 ^ tol)) / 10 ^ tol.
Definition round_pt (tol : nat) (p : pt) : pt := (round_to tol (fst p), round_to tol (snd p)).

(** ** shapely *)

(** Twice the signed area of a ring and six times its signed first moments *)
Fixpoint shoelace (f : pt -> pt -> R) (first : pt) (l : list pt) : R :=
  match l with
  | [] => 0
  | [a] => f a first
  | a :: ((b :: _) as rest) => f a b + shoelace f first rest
  end.
Definition around (f : pt -> pt -> R) (l : list pt) : R := match l with [] => 0 | a :: _ => shoelace f a l end.
Definition cross (a b : pt) : R := fst a * snd b - fst b * snd a.
Definition ring_area (l : list pt) : R := around cross l / 2.
Definition ring_mx (l : list pt) : R := around (fun a b => (fst a + fst b) * cross a b) l / 6.
Definition ring_my (l : list pt) : R := around (fun a b => (snd a + snd b) * cross a b) l / 6.

(** shapely .area and .centroid of a polygon with non-zero area: the exterior counts positive, the interiors
    negative, whatever the orientation of the rings *)
Definition orient (l : list pt) (v : R) : R := if Rlt_dec (ring_area l) 0 then - v else v.
Definition poly_area (p : polygon) : R := orient (ext p) (ring_area (ext p)) - sumf (fun h => orient h (ring_area h)) (ints p).
Definition poly_mx (p : polygon) : R := orient (ext p) (ring_mx (ext p)) - sumf (fun h => orient h (ring_mx h)) (ints p).
Definition poly_my (p : polygon) : R := orient (ext p) (ring_my (ext p)) - sumf (fun h => orient h (ring_my h)) (ints p).
Definition poly_centroid (p : polygon) : pt := (poly_mx p / poly_area p, poly_my p / poly_area p).
(** the same for a MultiPolygon *)
Definition multi_area (l : list polygon) : R := sumf poly_area l.
Definition multi_centroid (l : list polygon) : pt := (sumf poly_mx l / multi_area l, sumf poly_my l / multi_area l).

(** shapely .bounds: (min x, min y, max x, max y); the bounds of nothing (nan in shapely) are not modelled *)
Definition list_bounds (l : list pt) : R * R * R * R :=
  match l with
  | [] => (0, 0, 0, 0)
  | a :: rest => (fold_left Rmin (map fst rest) (fst a), fold_left Rmin (map snd rest) (snd a),
                  fold_left Rmax (map fst rest) (fst a), fold_left Rmax (map snd rest) (snd a))
  end.
Definition bounds (ps : list polygon) : R * R * R * R := list_bounds (concat (map ext ps)).

(** The centre of the bounding box (shapely's origin "center"; box( *bounds ).centroid) *)
Definition box_center (b : R * R * R * R) : pt := let '(x1, y1, x2, y2) := b in ((x1 + x2) / 2, (y1 + y2) / 2).

(** shapely.affinity.translate, rotate and scale of one point *)
Definition translate_pt (dx dy : R) (p : pt) : pt := (fst p + dx, snd p + dy).
Definition rotate_pt (theta : R) (o p : pt) : pt :=
  (fst o + (fst p - fst o) * cos theta - (snd p - snd o) * sin theta,
   snd o + (fst p - fst o) * sin theta + (snd p - snd o) * cos theta).
Definition scale_pt (fx fy : R) (o p : pt) : pt := (fst o + fx * (fst p - fst o), snd o + fy * (snd p - snd o)).

(** The set operations of shapely that are used: representative_point, Polygon.contains, the difference of a polygon
    and a list of polygons (None if the result is not a Polygon), the representative points of the holes of the buffered
    union of polygons, and whether the intersection of two polygons is non-empty. *)
Record shapely : Type := mkShapely {
  sh_rep : polygon -> pt;
  sh_contains : polygon -> pt -> bool;
  sh_difference : polygon -> list polygon -> option polygon;
  sh_union_holes : list polygon -> list pt;
  sh_intersects : polygon -> polygon -> bool }.

(** shapely.Polygon(coords): closes the ring; 1 or 2 (distinct) coordinates are rejected with ValueError *)
Definition pt_eqb (a b : pt) : bool := Reqb (fst a) (fst b) && Reqb (snd a) (snd b).
Definition open_ring (l : list pt) : list pt :=
  match l with
  | a :: b :: _ => if pt_eqb a (last l a) then removelast l else l
  | _ => l
  end.
Definition make_ring (l : list pt) : result (list pt) :=
  match l with
  | [] => Ok []
  | _ => if Nat.ltb (length (open_ring l)) 3 then Err ValueError else Ok (open_ring l)
  end.
Definition make_polygon (l : list pt) : result polygon := bind (make_ring l) (fun r => Ok (mkPoly r [])).

(** ** Facets *)

(** geometry.py 2536-2565: create_facets; [peek] gives the next index, or the default [offset] after the last *)
Definition create_facets (n : nat) (connect_back : bool) (offset : nat) : list (nat * nat) :=
  let idx := map (fun i => (i + offset)%nat) (seq 0 n) in
  let facets := combine idx (tl idx ++ [offset]) in
  if connect_back then facets else removelast facets.

(** geometry.py 2633-2650: the loop over the holes; state master_count, points, facets; [idx] counts the holes *)
Fixpoint add_holes (tol idx master_count exterior_count : nat) (holes : list (list pt)) (points : list pt) (facets : list (nat * nat))
  : list pt * list (nat * nat) :=
  match holes with
  | [] => (points, facets)
  | h :: rest =>
      let break_count := master_count in
      let int_points := map (round_pt tol) h in
      let offset := if Nat.ltb 0 idx then break_count else exterior_count in
      add_holes tol (S idx) (master_count + length h) exterior_count rest (points ++ int_points)
        (facets ++ create_facets (length int_points) true offset)
  end.

(** geometry.py 2604-2652: create_points_and_facets *)
Definition create_points_and_facets (p : polygon) (tol : nat) : list pt * list (nat * nat) :=
  let points := map (round_pt tol) (ext p) in
  let n := length (ext p) in
  add_holes tol 0 n n (ints p) points (create_facets (length points) true 0).

(** ** Geometry *)

Record geom : Type := mkGeom {
  gm_poly : polygon; gm_mat : mat_obj; gm_assigned : option pt; gm_tol : nat;
  gm_control : list pt; gm_points : list pt; gm_facets : list (nat * nat); gm_holes : list pt }.

(** geometry.py 2725-2744: round_polygon_vertices; an exterior that rounds to zeros only gives the empty polygon *)
Definition round_polygon_vertices (p : polygon) (tol : nat) : polygon :=
  let q := map_polygon (round_pt tol) p in
  if forallb (fun a => pt_eqb a (0, 0)) (ext q) then empty_polygon else q.

(** geometry.py 430-433: the control points; the representative point of the empty polygon has no coordinates *)
Definition control_points (sh : shapely) (q : polygon) (control : option pt) : list pt :=
  match control with Some c => [c] | None => match ext q with [] => [] | _ => [sh_rep sh q] end end.
(** geometry.py 48-98 and 416-445: Geometry.__init__ (the type checks and material None are not modelled), with
    compile_geometry *)
Definition new_geometry (sh : shapely) (p : polygon) (m : mat_obj) (control : option pt) (tol : nat) : geom :=
  let q := round_polygon_vertices p tol in
  let '(points, facets) := create_points_and_facets q tol in
  mkGeom q m control tol
    (control_points sh q control) points facets
    (map (fun h => sh_rep sh (mkPoly h [])) (ints q)).

(** geometry.py 111-147: assign_control_point *)
Definition assign_control_point (sh : shapely) (g : geom) (c : pt) : geom := new_geometry sh (gm_poly g) (gm_mat g) (Some c) (gm_tol g).

(** geometry.py 229-257: the loop of from_points. The state is the exterior, the interiors, the number of the interior
    that is being filled (None: the exterior), and prev_facet. Python compares active_list == exterior by value. Indices
    out of range raise IndexError. *)
Definition pts_eqb (a b : list pt) : bool := Nat.eqb (length a) (length b) && forallb (fun q => pt_eqb (fst q) (snd q)) (combine a b).
Fixpoint app_nth {A} (k : nat) (x : A) (l : list (list A)) : list (list A) :=
  match l, k with
  | [], _ => []
  | h :: t, O => (h ++ [x]) :: t
  | h :: t, S k' => h :: app_nth k' x t
  end.
Record loop_state : Type := mkLoop { lp_ext : list pt; lp_ints : list (list pt); lp_active : option nat; lp_count : nat; lp_prev : option (nat * nat) }.
Definition active (s : loop_state) : list pt := match lp_active s with None => lp_ext s | Some k => nth k (lp_ints s) [] end.
Definition append_active (s : loop_state) (a : option nat) (cnt : nat) (p : pt) (f : nat * nat) : loop_state :=
  match a with
  | None => mkLoop (lp_ext s ++ [p]) (lp_ints s) a cnt (Some f)
  | Some k => mkLoop (lp_ext s) (app_nth k p (lp_ints s)) a cnt (Some f)
  end.
Definition from_points_step (points : list pt) (holes : list pt) (s : loop_state) (f : nat * nat) : result loop_state :=
  match nth_error points (fst f) with
  | None => Err IndexError
  | Some p =>
      match lp_prev s with
      | None => Ok (append_active s (lp_active s) (lp_count s) p f)
      | Some prev =>
          if negb (Nat.eqb (fst f) (snd prev)) && negb (match holes with [] => true | _ => false end) then
            let cnt := if pts_eqb (active s) (lp_ext s) then lp_count s else S (lp_count s) in
            if Nat.ltb cnt (length (lp_ints s)) then Ok (append_active s (Some cnt) cnt p f) else Err IndexError
          else Ok (append_active s (lp_active s) (lp_count s) p f)
      end
  end.
Fixpoint fold_result {A B} (f : A -> B -> result A) (l : list B) (a : A) : result A :=
  match l with [] => Ok a | b :: rest => bind (f a b) (fun a' => fold_result f rest a') end.
Fixpoint map_result {A B} (f : A -> result B) (l : list A) : result (list B) :=
  match l with [] => Ok [] | a :: rest => bind (f a) (fun b => bind (map_result f rest) (fun r => Ok (b :: r))) end.

(** geometry.py 149-270: Geometry.from_points; the tolerance is the default 12 *)
Definition from_points (sh : shapely) (points : list pt) (facets : list (nat * nat)) (control : list pt) (holes : list pt) (m : mat_obj)
  : result geom :=
  match control with
  | [c] =>
      bind (fold_result (from_points_step points holes) facets (mkLoop [] (map (fun _ => []) holes) None 0 None)) (fun s =>
      bind (make_polygon (lp_ext s)) (fun e =>
      bind (map_result make_polygon (lp_ints s)) (fun is_ =>
      match sh_difference sh e is_ with
      | Some p => Ok (new_geometry sh p m (Some c) 12)
      | None => Err RuntimeError
      end)))
  | _ => Err ValueError
  end.

(** geometry.py 1241-1252: calculate_extents (min x, max x, min y, max y); 1254-1276 perimeter, area and centroid are
    shapely's *)
Definition extents (ps : list polygon) : R * R * R * R := let '(x1, y1, x2, y2) := bounds ps in (x1, x2, y1, y2).

(** geometry.py 669-710: Geometry.shift_section *)
Definition shift_section (sh : shapely) (g : geom) (dx dy : R) : geom :=
  new_geometry sh (map_polygon (translate_pt dx dy) (gm_poly g)) (gm_mat g) (option_map (translate_pt dx dy) (gm_assigned g)) (gm_tol g).

(** An origin of a rotation or reflection: "center" or a point *)
Inductive origin : Type := Center | At (p : pt).
Definition origin_of (o : origin) (ps : list polygon) : pt := match o with Center => box_center (bounds ps) | At p => p end.

(** geometry.py 712-768: Geometry.rotate_section *)
Definition angle_of (angle : R) (use_radians : bool) : R := if use_radians then angle else angle * PI / 180.
Definition rotate_section (sh : shapely) (g : geom) (angle : R) (rot_point : origin) (use_radians : bool) : geom :=
  let theta := angle_of angle use_radians in
  let o := origin_of rot_point [gm_poly g] in
  new_geometry sh (map_polygon (rotate_pt theta o) (gm_poly g)) (gm_mat g) (option_map (rotate_pt theta o) (gm_assigned g)) (gm_tol g).

(** geometry.py 770-840: Geometry.mirror_section. The assigned control point is scaled with its own "center": itself. *)
Definition mirror_factors (axis : string) : R * R :=
  if String.eqb axis "x" then (1, -1) else if String.eqb axis "y" then (-1, 1) else (1, 1).
Definition mirror_section (sh : shapely) (g : geom) (axis : string) (mirror_point : origin) : geom :=
  let '(fx, fy) := mirror_factors axis in
  new_geometry sh (map_polygon (scale_pt fx fy (origin_of mirror_point [gm_poly g])) (gm_poly g)) (gm_mat g)
    (option_map (fun c => scale_pt fx fy (match mirror_point with Center => c | At p => p end) c) (gm_assigned g)) (gm_tol g).

(** geometry.py 515-602: align_to, also used by CompoundGeometry: the offsets handed to shift_section *)
Inductive align_target : Type := TGeometry (ps : list polygon) | TPoint (p : pt).
Definition nth4 (b : R * R * R * R) (i : nat) : R :=
  let '(a, b, c, d) := b in match i with 0%nat => a | 1%nat => b | 2%nat => c | _ => d end.
Definition align_indices (on : string) : result (nat * nat * nat) :=
  if String.eqb on "left" then Ok (1, 0, 0)%nat else if String.eqb on "right" then Ok (0, 1, 0)%nat
  else if String.eqb on "bottom" then Ok (3, 2, 1)%nat else if String.eqb on "top" then Ok (2, 3, 1)%nat else Err KeyError.
Definition align_offset (self : list polygon) (other : align_target) (on : string) (inner : bool) : result (R * R) :=
  bind (align_indices on) (fun '(self_idx, geom_idx, point_idx) =>
  let '(to_idx, coord) := match other with
    | TGeometry ps => (geom_idx, nth4 (extents ps) geom_idx)
    | TPoint p => (point_idx, if Nat.eqb point_idx 0 then fst p else snd p)
    end in
  let self_coord := if inner then nth4 (extents self) to_idx else nth4 (extents self) self_idx in
  let offset := coord - self_coord in
  Ok (if String.eqb on "top" || String.eqb on "bottom" then (0, offset) else (offset, 0))).
Definition align_to (sh : shapely) (g : geom) (other : align_target) (on : string) (inner : bool) : result geom :=
  bind (align_offset [gm_poly g] other on inner) (fun o => Ok (shift_section sh g (fst o) (snd o))).

(** geometry.py 604-667: Geometry.align_center; the target is None, a geometry or a point (other arguments raise
    ValueError, not modelled) *)
Definition center_target (o : option align_target) : pt :=
  match o with None => (0, 0) | Some (TGeometry ps) => multi_centroid ps | Some (TPoint p) => p end.
Definition center_shift (tol : nat) (c : pt) (o : option align_target) : R * R :=
  let t := center_target o in (round_to tol (fst t - fst c), round_to tol (snd t - snd c)).
Definition align_center (sh : shapely) (g : geom) (o : option align_target) : geom :=
  let s := center_shift (gm_tol g) (poly_centroid (gm_poly g)) o in shift_section sh g (fst s) (snd s).

(** geometry.py 1066-1156: Geometry.shift_points. A negative index counts from the end. [abs_x if abs_x else ...] takes
    0.0 for missing. The second from_points (1146-1155) makes the same object again. *)
Definition truthy_num (x : option R) : option R := match x with Some v => if Req_EM_T v 0 then None else Some v | None => None end.
Definition py_index (n : nat) (i : Z) : option nat :=
  if (i <? 0)%Z then (if (0 <=? Z.of_nat n + i)%Z then Some (Z.to_nat (Z.of_nat n + i)) else None)
  else if (i <? Z.of_nat n)%Z then Some (Z.to_nat i) else None.
Definition set_nth {A} (k : nat) (x : A) (l : list A) : list A := firstn k l ++ x :: skipn (S k) l.
Definition move_pt (dx dy : R) (abs_x abs_y : option R) (p : pt) : pt :=
  (match truthy_num abs_x with Some v => v | None => fst p + dx end, match truthy_num abs_y with Some v => v | None => snd p + dy end).
Definition shift_one (dx dy : R) (abs_x abs_y : option R) (points : list pt) (i : Z) : result (list pt) :=
  match py_index (length points) i with
  | None => Err IndexError
  | Some k => match nth_error points k with None => Err IndexError | Some p => Ok (set_nth k (move_pt dx dy abs_x abs_y p) points) end
  end.
(** geometry.py 1125: copy.copy of a Material makes another object, of identity [ref], with the same fields *)
Definition copy_material (ref : nat) (m : mat_obj) : mat_obj := mkMatObj ref (mo_name m) (mo_val m) (mo_color m).
Definition shift_points (sh : shapely) (ref : nat) (g : geom) (idxs : list Z) (dx dy : R) (abs_x abs_y : option R) : result geom :=
  bind (fold_result (shift_one dx dy abs_x abs_y) idxs (gm_points g)) (fun points =>
  from_points sh points (gm_facets g) (gm_control g) (gm_holes g) (copy_material ref (gm_mat g))).

(** ** CompoundGeometry *)

Record compound : Type := mkCompound { cp_geoms : list geom; cp_control : list pt; cp_points : list pt; cp_facets : list (nat * nat); cp_holes : list pt }.
Inductive item : Type := ISingle (g : geom) | ICompound (c : compound).

(** Python's [p in l] and l.index(p) *)
Definition pt_in (p : pt) (l : list pt) : bool := existsb (pt_eqb p) l.
Fixpoint pt_index (p : pt) (l : list pt) : nat := match l with [] => 0 | a :: rest => if pt_eqb a p then 0 else S (pt_index p rest) end.
Definition add_points (points new : list pt) : list pt := fold_left (fun acc p => if pt_in p acc then acc else acc ++ [p]) new points.

(** geometry.py 2408-2435: one sub-geometry (its points, facets and control points exist since __init__) *)
Definition compile_step (st : list pt * list (nat * nat) * list pt) (g : geom) : list pt * list (nat * nat) * list pt :=
  let '(points, facets, control) := st in
  let points' := add_points points (gm_points g) in
  (points',
   facets ++ map (fun f => (pt_index (nth (fst f) (gm_points g) (0, 0)) points', pt_index (nth (snd f) (gm_points g) (0, 0)) points')) (gm_facets g),
   control ++ gm_control g).

(** geometry.py 2396-2457: CompoundGeometry.compile_geometry *)
Definition compile_compound (sh : shapely) (gs : list geom) : compound :=
  let '(points, facets, control) := fold_left compile_step gs ([], [], []) in
  mkCompound gs control points facets (sh_union_holes sh (map gm_poly gs)).

(** geometry.py 1642-1677: CompoundGeometry.__init__ from a list; nested compounds are flattened *)
Definition flatten_items (l : list item) : list geom :=
  fold_left (fun acc i => match i with ICompound c => acc ++ cp_geoms c | ISingle g => acc ++ [g] end) l [].
Definition new_compound (sh : shapely) (l : list item) : compound := compile_compound sh (flatten_items l).
(** 1652-1656: from a MultiPolygon. Simplification: its attribute geom, from which the extents are taken, keeps the coordinates
    before rounding to 12 decimals; here the extents are those of the rounded polygons. *)
Definition compound_of_polygons (sh : shapely) (ps : list polygon) : compound :=
  compile_compound sh (map (fun p => new_geometry sh p default_material None 12) ps).

(** geometry.py 1526-1563: self + other *)
Definition add_geometry (sh : shapely) (a b : item) : compound := new_compound sh [a; b].

(** geometry.py 2037-2154: the motions of a compound *)
Definition compound_shift (sh : shapely) (c : compound) (dx dy : R) : compound :=
  new_compound sh (map (fun g => ISingle (shift_section sh g dx dy)) (cp_geoms c)).
Definition compound_rotate (sh : shapely) (c : compound) (angle : R) (rot_point : origin) (use_radians : bool) : compound :=
  let rp := origin_of rot_point (map gm_poly (cp_geoms c)) in
  new_compound sh (map (fun g => ISingle (rotate_section sh g angle (At rp) use_radians)) (cp_geoms c)).
Definition compound_mirror (sh : shapely) (c : compound) (axis : string) (mirror_point : origin) : compound :=
  new_compound sh (map (fun g => ISingle (mirror_section sh g axis mirror_point)) (cp_geoms c)).
Definition compound_align_to (sh : shapely) (c : compound) (other : align_target) (on : string) (inner : bool) : result compound :=
  bind (align_offset (map gm_poly (cp_geoms c)) other on inner) (fun o => Ok (compound_shift sh c (fst o) (snd o))).

(** geometry.py 2156-2265: CompoundGeometry.align_center, with the E-weighted centroid; its tolerance is 12 *)
Definition weighted_centroid (gs : list geom) : pt :=
  let ea g := m_E (mo_val (gm_mat g)) * poly_area (gm_poly g) in
  let ea_sum := sumf ea gs in
  (fold_left (fun acc g => acc + fst (poly_centroid (gm_poly g)) * ea g) gs 0 / ea_sum,
   fold_left (fun acc g => acc + snd (poly_centroid (gm_poly g)) * ea g) gs 0 / ea_sum).
Definition compound_align_center (sh : shapely) (c : compound) (o : option align_target) : compound :=
  let s := center_shift 12 (weighted_centroid (cp_geoms c)) o in compound_shift sh c (fst s) (snd s).

(** geometry.py 1806-1839: the polygons of CompoundGeometry.from_points. State: the points of the current polygon, the
    polygons so far, prev_facet. *)
Definition chain_step (points : list pt) (st : list pt * list polygon * option (nat * nat)) (f : nat * nat)
  : result (list pt * list polygon * option (nat * nat)) :=
  let '(cur, polys, prev) := st in
  let start cur polys := match nth_error points (fst f) with Some p => Ok (cur ++ [p], polys, Some f) | None => Err IndexError end in
  match prev with
  | None => start cur polys
  | Some pf =>
      if Nat.eqb (fst f) (snd pf) then start cur polys
      else match nth_error points (snd pf) with
           | None => Err IndexError
           | Some q => bind (make_polygon (cur ++ [q])) (fun poly => start [] (polys ++ [poly]))
           end
  end.
Definition chain_polygons (points : list pt) (facets : list (nat * nat)) : result (list polygon) :=
  bind (fold_result (chain_step points) facets ([], [], None)) (fun '(cur, polys, prev) =>
  match nth_error points (match prev with Some f => snd f | None => 0%nat end) with
  | None => Err IndexError
  | Some q => bind (make_polygon (cur ++ [q])) (fun poly => Ok (polys ++ [poly]))
  end).

(** geometry.py 1884-1910: the holes are punched through one exterior; the control point is the first one inside. Simplification: a difference
    that is not a Polygon raises RuntimeError at once, in the code after the last hole. *)
Fixpoint punch (sh : shapely) (control : list pt) (p : polygon) (cp : pt) (interiors : list polygon) : result (polygon * pt) :=
  match interiors with
  | [] => Ok (p, cp)
  | i :: rest =>
      match sh_difference sh p [i] with
      | None => Err RuntimeError
      | Some q => match find (sh_contains sh q) control with
                  | None => Err ValueError
                  | Some c => punch sh control q c rest
                  end
      end
  end.

(** geometry.py 1695-1912: CompoundGeometry.from_points *)
Definition compound_from_points (sh : shapely) (points : list pt) (facets : list (nat * nat)) (control holes : list pt)
  (materials : option (list mat_obj)) : result compound :=
  let mats := match materials with Some l => l | None => map (fun _ => default_material) control end in
  if negb (match mats with [] => true | _ => false end) && match control with [] => true | _ => false end then Err ValueError
  else if negb (Nat.eqb (length mats) (length control)) then Err ValueError
  else
    bind (chain_polygons points facets) (fun polys =>
    let interior p := existsb (sh_contains sh p) holes && negb (existsb (sh_contains sh p) control) in
    let exteriors := filter (fun p => negb (interior p)) polys in
    let interiors := filter interior polys in
    if negb (Nat.eqb (length exteriors) (length control)) then Err ValueError
    else
      bind (match interiors with
            | [] => Ok (map (fun q => let '(e, (c, m)) := q in new_geometry sh e m (Some c) 12) (combine exteriors (combine control mats)))
            | _ => map_result (fun q => bind (punch sh control (fst q) (0, 0) interiors) (fun r =>
                                        Ok (new_geometry sh (fst r) (snd q) (Some (snd r)) 12))) (combine exteriors mats)
            end) (fun gs => Ok (compile_compound sh gs))).

(** ** Meshing *)

(** The argument mesh_sizes: a number, a list of numbers, anything else *)
Inductive mesh_sizes : Type := SNumber (r : R) | SList (l : list R) | SOther.
(** What is handed to CyTriangle: vertices, segments, holes (absent when empty), regions (x, y, attribute, area), and
    the switches: None for "pAo2", Some angle for "pq<angle>Aao2" *)
Record mesh_request : Type := mkRequest {
  rq_vertices : list pt; rq_segments : list (nat * nat); rq_holes : option (list pt);
  rq_regions : list (R * R * nat * R); rq_quality : option R }.

(** pre.py 124-131: one region for each control point; a missing size raises IndexError *)
Fixpoint mesh_regions (i : nat) (control : list pt) (sizes : list R) : result (list (R * R * nat * R)) :=
  match control with
  | [] => Ok []
  | c :: rest =>
      match nth_error sizes i with
      | None => Err IndexError
      | Some s => bind (mesh_regions (S i) rest sizes) (fun r => Ok ((fst c, snd c, i, s) :: r))
      end
  end.
(** pre.py 82-146: create_mesh *)
Definition pre_create_mesh (points : list pt) (facets : list (nat * nat)) (holes control : list pt) (sizes : list R) (min_angle : R) (coarse : bool)
  : result mesh_request :=
  bind (mesh_regions 0 control sizes) (fun regions =>
  Ok (mkRequest points facets (match holes with [] => None | _ => Some holes end) regions (if coarse then None else Some min_angle))).

(** geometry.py 447-513: Geometry.create_mesh *)
Definition create_mesh (g : geom) (sizes : mesh_sizes) (min_angle : R) (coarse : bool) : result mesh_request :=
  match sizes with
  | SList [s] | SNumber s => pre_create_mesh (gm_points g) (gm_facets g) (gm_holes g) (gm_control g) [s] min_angle coarse
  | _ => Err ValueError
  end.
(** geometry.py 1968-2035: CompoundGeometry.create_mesh; len() of something else raises TypeError *)
Definition compound_create_mesh (c : compound) (sizes : mesh_sizes) (min_angle : R) (coarse : bool) : result mesh_request :=
  let go l := pre_create_mesh (cp_points c) (cp_facets c) (cp_holes c) (cp_control c) l min_angle coarse in
  match sizes with
  | SNumber s | SList [s] => go (map (fun _ => s) (cp_control c))
  | SList l => go l
  | SOther => Err TypeError
  end.

(** ** The network of touching polygons *)

(** geometry.py 2856-2883: build_geometry_network: the neighbours of each polygon; with fewer than two polygons no key
    is ever added. The order of a Python set of small integers is ascending. *)
Definition neighbours (sh : shapely) (lop : list polygon) (i : nat) : list nat :=
  filter (fun j => negb (Nat.eqb i j) && sh_intersects sh (nth i lop empty_polygon) (nth j lop empty_polygon)) (seq 0 (length lop)).
Definition build_geometry_network (sh : shapely) (lop : list polygon) : list (nat * list nat) :=
  if Nat.ltb (length lop) 2 then [] else map (fun i => (i, neighbours sh lop i)) (seq 0 (length lop)).
(** network.get(node, set()) *)
Fixpoint network_get (network : list (nat * list nat)) (node : nat) : list nat :=
  match network with [] => [] | (k, l) :: rest => if Nat.eqb k node then l else network_get rest node end.

(** geometry.py 2824-2848: walk_network; the recursion ends since every call adds a new node: [fuel] bounds its depth *)
Fixpoint walk_network (fuel : nat) (network : list (nat * list nat)) (node : nat) (visited : list nat) : list nat :=
  match fuel with
  | O => visited
  | S f =>
      fold_left (fun vis c => if existsb (Nat.eqb c) vis then vis else walk_network f network c (vis ++ [c]))
        (network_get network node) visited
  end.
(** geometry.py 2810-2853: check_geometry_disjoint: set(nodes_visited) != set(network.keys()) *)
Definition check_geometry_disjoint (sh : shapely) (lop : list polygon) : bool :=
  let network := build_geometry_network sh lop in
  let visited := walk_network (S (length lop)) network 0 [0%nat] in
  negb (forallb (fun i => existsb (Nat.eqb i) (map fst network)) visited && forallb (fun i => existsb (Nat.eqb i) visited) (map fst network)).
