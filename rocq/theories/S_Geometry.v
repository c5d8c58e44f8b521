(** Specification vocabulary for the geometry theorems. *)
From Coq Require Import String Reals List Bool Arith ZArith.
From Verif Require Import Base M_Fea M_Init M_Geometry.
Import ListNotations.
Local Open Scope R_scope.

(** The edges of a closed ring: each vertex with the next, the last with the first. *)
Definition ring_edges (r : list pt) : list (pt * pt) := combine r (tl r ++ firstn 1 r).
(** The edges described by points and facets. *)
Definition edges (points : list pt) (facets : list (nat * nat)) : list (pt * pt) :=
  map (fun f => (nth (fst f) points (0, 0), nth (snd f) points (0, 0))) facets.
(** The closed chain of facets through the given indices. *)
Definition ring_facets (l : list nat) : list (nat * nat) := combine l (tl l ++ firstn 1 l).

(** Decimal grid: the numbers with [tol] decimals. *)
Definition on_grid (tol : nat) (x : R) : Prop := exists k : Z, x * 10 ^ tol = IZR k.
Definition pt_on_grid (tol : nat) (p : pt) : Prop := on_grid tol (fst p) /\ on_grid tol (snd p).
Definition half (tol : nat) : R := / 10 ^ tol / 2.
(** half way between two grid numbers *)
Definition tie (tol : nat) (x : R) : Prop := exists k : Z, x * 10 ^ tol = IZR k + 1 / 2.
(** b is a, rounded *)
Definition near (tol : nat) (a b : pt) : Prop :=
  Rabs (fst b - fst a) <= half tol /\ Rabs (snd b - snd a) <= half tol /\ (pt_on_grid tol a -> b = a).

(** Distance preserving maps of the plane. *)
Definition dist2 (a b : pt) : R := (fst a - fst b) ^ 2 + (snd a - snd b) ^ 2.
Definition isometry (f : pt -> pt) : Prop := forall a b, dist2 (f a) (f b) = dist2 a b.

(** [g'] is [g] moved by [f], with vertices rounded to the tolerance of [g]: every vertex of every ring, the assigned
    control point (exactly), same material and tolerance. *)
Definition moved (f : pt -> pt) (g g' : geom) : Prop :=
  Forall2 (Forall2 (fun a b => near (gm_tol g) (f a) b)) (rings (gm_poly g)) (rings (gm_poly g')) /\
  gm_assigned g' = option_map f (gm_assigned g) /\ gm_mat g' = gm_mat g /\ gm_tol g' = gm_tol g.

(** A Geometry object as made by the constructor. *)
Definition is_geometry (sh : shapely) (g : geom) : Prop := exists p, g = new_geometry sh p (gm_mat g) (gm_assigned g) (gm_tol g).
(** its exterior has a vertex (it is not the empty polygon) *)
Definition nonempty (g : geom) : Prop := ext (gm_poly g) <> [].
(** the image of some exterior vertex is not rounded to the origin *)
Definition away (f : pt -> pt) (g : geom) : Prop :=
  exists v, In v (ext (gm_poly g)) /\ (half (gm_tol g) < Rabs (fst (f v)) \/ half (gm_tol g) < Rabs (snd (f v))).

(** its exterior has two different vertices *)
Definition proper (g : geom) : Prop := exists a b, In a (ext (gm_poly g)) /\ In b (ext (gm_poly g)) /\ a <> b.

(** The least and greatest coordinates of the vertices of the exteriors. *)
Definition least (m : R) (l : list R) : Prop := In m l /\ forall x, In x l -> m <= x.
Definition greatest (m : R) (l : list R) : Prop := In m l /\ forall x, In x l -> x <= m.
Definition exterior_points (ps : list polygon) : list pt := concat (map ext ps).

(** The four sides of a bounding box: the extreme coordinate of a set of points on that side. *)
Inductive side : Type := AtLeft | AtRight | AtBottom | AtTop.
Definition side_name (s : side) : string :=
  match s with AtLeft => "left" | AtRight => "right" | AtBottom => "bottom" | AtTop => "top" end.
Definition opposite (s : side) : side := match s with AtLeft => AtRight | AtRight => AtLeft | AtBottom => AtTop | AtTop => AtBottom end.
Definition horizontal (s : side) : bool := match s with AtLeft | AtRight => true | _ => false end.
(** the coordinate that an alignment on side [s] changes, and the other one *)
Definition along (s : side) (p : pt) : R := if horizontal s then fst p else snd p.
Definition across (s : side) (p : pt) : R := if horizontal s then snd p else fst p.
Definition extreme (s : side) (m : R) (l : list pt) : Prop :=
  match s with
  | AtLeft => least m (map fst l) | AtRight => greatest m (map fst l)
  | AtBottom => least m (map snd l) | AtTop => greatest m (map snd l)
  end.

(** Walks in the graph of touching polygons 0 .. n-1 *)
Inductive walk (touch : nat -> nat -> Prop) (n : nat) : nat -> nat -> Prop :=
| walk_nil : forall i, (i < n)%nat -> walk touch n i i
| walk_cons : forall i j k, walk touch n i j -> (k < n)%nat -> j <> k -> touch j k -> walk touch n i k.
Definition connected_graph (touch : nat -> nat -> Prop) (n : nat) : Prop := forall i j, (i < n)%nat -> (j < n)%nat -> walk touch n i j.

(** The points with the given numbers; consecutive loops do not start with the same point. *)
Definition at_ (points : list pt) (i : nat) : pt := nth i points (0, 0).
Definition head_of (l : list nat) : nat := hd 0%nat l.
Fixpoint separate (j : nat) (ls : list (list nat)) : Prop := match ls with [] => True | l :: rest => head_of l <> j /\ separate (head_of l) rest end.
(** A ring that shapely accepts as it is: at least three vertices, not closed by a repeated last vertex. *)
Definition open_loop (r : list pt) : Prop := (3 <= length r)%nat /\ forall a, hd a r <> last r a.
(** The polygon given by an exterior and holes, as sent to shapely: exterior - MultiPolygon(holes). *)
Definition build_polygon (sh : shapely) (exterior : list pt) (holes : list (list pt)) : option polygon :=
  sh_difference sh (mkPoly exterior []) (map (fun h => mkPoly h []) holes).
(** The points [l'] are [l] with those numbered in [ks] changed by [f]. *)
Definition changed (f : pt -> pt) (ks : list nat) (l l' : list pt) : Prop :=
  length l' = length l /\ forall i d, (i < length l)%nat -> (In i ks -> nth i l' d = f (nth i l d)) /\ (~ In i ks -> nth i l' d = nth i l d).

(** Polygon number [i] and [j] intersect. *)
Definition touching (sh : shapely) (lop : list polygon) (i j : nat) : Prop := sh_intersects sh (nth i lop empty_polygon) (nth j lop empty_polygon) = true.

(** Nested compounds: a tree of geometries; how the user builds it, and its leaves from left to right. *)
Inductive nest : Type := Leaf (g : geom) | Node (l : list nest).
Fixpoint build_nest (sh : shapely) (t : nest) : item :=
  match t with Leaf g => ISingle g | Node l => ICompound (new_compound sh (map (build_nest sh) l)) end.
Fixpoint leaves (t : nest) : list geom := match t with Leaf g => [g] | Node l => concat (map leaves l) end.

(** all coordinates of [f v], for the vertices [v] of [g], are at most [M] in size; the number of vertices *)
Definition within (M : R) (f : pt -> pt) (g : geom) : Prop := Forall (Forall (fun v => Rabs (fst (f v)) <= M /\ Rabs (snd (f v)) <= M)) (rings (gm_poly g)).
Definition vertex_count (g : geom) : nat := length (concat (rings (gm_poly g))).
(** axial rigidity: the weight of a geometry in align_center *)
Definition rigidity (g : geom) : R := m_E (mo_val (gm_mat g)) * poly_area (gm_poly g).

(** An alignment on side [s]: [g'] is [g] moved horizontally (or vertically) only, and its side [s'] is at [t], exactly if [t]
    is a number of the grid and up to rounding otherwise. *)
Definition placed (g g' : geom) (s s' : side) (t : R) : Prop :=
  (exists off, moved (if horizontal s then translate_pt off 0 else translate_pt 0 off) g g') /\
  Forall2 (Forall2 (fun a b => across s b = across s a)) (rings (gm_poly g)) (rings (gm_poly g')) /\
  forall e, extreme s' e (ext (gm_poly g')) -> Rabs (e - t) <= half (gm_tol g) /\ (on_grid (gm_tol g) t -> e = t).
(** A non-empty compound of geometries with the same tolerance; the vertices of its exteriors. *)
Definition members (sh : shapely) (tol : nat) (c : compound) : Prop :=
  Forall (fun g => is_geometry sh g /\ proper g /\ gm_tol g = tol) (cp_geoms c) /\ cp_geoms c <> [].
Definition compound_points (c : compound) : list pt := exterior_points (map gm_poly (cp_geoms c)).
