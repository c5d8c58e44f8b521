(** Specification vocabulary for reinforced concrete sections. *)
From Coq Require Import Reals List Arith Permutation.
From Verif Require Import Base M_Fea M_Init M_Geometry S_Geometry M_SetOps S_SetOps.
Import ListNotations.
Local Open Scope R_scope.

(** The point at the fraction [t] of the way from P to Q, the length of the way *)
Definition toward (P Q : pt) (t : R) : pt := (fst P + t * (fst Q - fst P), snd P + t * (snd Q - snd P)).
Definition distance (P Q : pt) : R := sqrt ((fst Q - fst P) ^ 2 + (snd Q - snd P) ^ 2).
(** A line from P to Q along which there are bars; the flags say whether there is a bar at P (at Q). *)
Record line : Type := mkLine { ln_from : pt; ln_to : pt; ln_first : bool; ln_last : bool }.
Definition full (P Q : pt) : line := mkLine P Q true true.
(** Among the points [l] there are, from P to Q, points at equal distances of at most [s]. *)
Definition spaced (s : R) (l : list pt) (n : line) : Prop :=
  exists k, (1 <= k)%nat /\ distance (ln_from n) (ln_to n) <= INR k * s /\
  forall i, (i <= k)%nat -> (i = 0%nat -> ln_first n = true) -> (i = k -> ln_last n = true) -> In (toward (ln_from n) (ln_to n) (INR i / INR k)) l.
(** A rectangle with sides parallel to the axes: (x1, y1) its lower left, (x2, y2) its upper right corner; a point in it, at least [m]
    away from its sides. *)
Definition rect : Type := (pt * pt)%type.
Definition within (m : R) (p : pt) (r : rect) : Prop :=
  fst (fst r) + m <= fst p <= fst (snd r) - m /\ snd (fst r) + m <= snd p <= snd (snd r) - m.
(** Bars at the points [l] reinforce walls (given by rectangles): along every line of the list [lines] there are bars at
    equal distances not above [s]; there is no bar elsewhere; every bar is in one of the walls, at least [m] from its faces; no two bars
    are at the same place. *)
Definition reinforced (s m : R) (walls : list rect) (lines : list line) (l : list pt) : Prop :=
  Forall (spaced s l) lines /\
  Forall (fun p => Exists (fun n => exists t, 0 <= t <= 1 /\ p = toward (ln_from n) (ln_to n) t) lines) l /\
  Forall (fun p => Exists (within m p) walls) l /\
  NoDup l.

(** Equal up to the rounding of vertices to 12 decimals by the constructors of Geometry. *)
Definition close (a b : pt) : Prop := Rabs (fst b - fst a) <= 1 / 10 ^ 11 /\ Rabs (snd b - snd a) <= 1 / 10 ^ 11.
(** Lengths from here on are far above that rounding. *)
Definition tiny : R := 1 / 10 ^ 10.
(** [g] is a rectangle of material [m]. *)
Definition rectangle (r : rect) (m : mat_obj) (g : geom) : Prop :=
  gm_mat g = m /\ ints (gm_poly g) = [] /\
  let '((x1, y1), (x2, y2)) := r in
  (Forall2 close [(x1, y1); (x2, y1); (x2, y2); (x1, y2)] (ext (gm_poly g)) \/ Forall2 close [(x2, y1); (x1, y1); (x1, y2); (x2, y2)] (ext (gm_poly g))).
(** [g] is a bar of material [m] at [p]: a polygon with n vertices on a circle about [p], at equal angles, of the given area. *)
Definition ngon (n : nat) (p : pt) (r : R) : list pt := map (fun i => (fst p + r * cos (INR i * 2 * PI / INR n), snd p + r * sin (INR i * 2 * PI / INR n))) (seq 0 n).
Definition bar (area : R) (n : nat) (m : mat_obj) (p : pt) (g : geom) : Prop :=
  gm_mat g = m /\ ints (gm_poly g) = [] /\ exists r, 0 < r /\ poly_area (mkPoly (ngon n p r) []) = area /\ Forall2 close (ngon n p r) (ext (gm_poly g)).
(** The compound [c]: first the concrete [conc] without the bars (C77 says what a difference is), then one bar for every point, in order. *)
Definition with_bars (sh : shapely) (so : setops) (conc : item) (area : R) (n : nat) (m : mat_obj) (l : list pt) (c : compound) : Prop :=
  exists bars cut, Forall2 (bar area n m) l (cp_geoms bars) /\ geom_sub sh so conc (ICompound bars) = Ok cut /\ cp_geoms c = members_of cut ++ cp_geoms bars.
(** a - b1 - b2 - ... *)
Fixpoint less (sh : shapely) (so : setops) (a : item) (bs : list geom) (r : item) : Prop :=
  match bs with [] => r = a | b :: rest => exists a', geom_sub sh so a (ISingle b) = Ok a' /\ less sh so a' rest r end.
(** The rectangle [outer] less the openings is the union of the walls (up to the edges of the openings). *)
Definition made_of (outer : rect) (openings walls : list rect) : Prop :=
  (forall p, Exists (within 0 p) walls -> within 0 p outer /\ Forall (fun r => ~ (fst (fst r) < fst p < fst (snd r) /\ snd (fst r) < snd p < snd (snd r))) openings) /\
  (forall p, within 0 p outer -> Forall (fun r => ~ within 0 p r) openings -> Exists (within 0 p) walls).
(** A reinforced wall: the rectangle [outer] less the openings, of the concrete [conc], with bars along [lines] in the [walls]. *)
Definition reinforced_wall (sh : shapely) (so : setops) (outer : rect) (openings walls : list rect) (lines : list line) (s m area : R) (n : nat) (conc steel : mat_obj) (c : compound) : Prop :=
  made_of outer openings walls /\
  exists o os body l, rectangle outer conc o /\ Forall2 (fun r g => exists mat, rectangle r mat g) openings os /\ less sh so (ISingle o) os body /\
    with_bars sh so body area n steel l c /\ reinforced s m walls lines l.
(** shapely can take any bars out of any concrete: the result is never something else than polygons (with lines or points). *)
Definition workable (so : setops) : Prop := forall a b, usable (so_difference so a b).

(** ** Bars in beams and columns *)

(** The edges of a ring; the same ring, whatever its first vertex and its orientation. *)
Definition edges (l : list pt) : list (pt * pt) := combine l (tl l ++ firstn 1 l).
Definition back (e : pt * pt) : pt * pt := (snd e, fst e).
Definition same_ring (l l' : list pt) : Prop := Permutation (edges l) (edges l') \/ Permutation (edges l) (map back (edges l')).
Definition same_rings (ls ls' : list (list pt)) : Prop := exists hs, Permutation hs ls /\ Forall2 same_ring hs ls'.
(** Some straight line is strictly between the vertices of two rings. *)
Definition apart (l l' : list pt) : Prop :=
  exists u v w, Forall (fun p => u * fst p + v * snd p < w) l /\ Forall (fun p => w < u * fst p + v * snd p) l'.
(** The vertices of [l] are strictly on the inner side of all edges of [l']. *)
Definition turn (e : pt * pt) (p : pt) : R := (fst (snd e) - fst (fst e)) * (snd p - snd (fst e)) - (snd (snd e) - snd (fst e)) * (fst p - fst (fst e)).
Definition inside (l l' : list pt) : Prop :=
  Forall (fun p => Forall (fun e => 0 < turn e p) (edges l')) l \/ Forall (fun p => Forall (fun e => turn e p < 0) (edges l')) l.
(** What is asked of shapely's difference: nothing is taken off a polygon by one that is apart from it, and a polygon inside another one and
    apart from its holes makes one more hole. *)
Record cuts (so : setops) : Prop := {
  cut_apart : forall a b, apart (ext a) (ext b) -> exists a', so_difference so [a] [b] = ShPolygon a' /\ same_ring (ext a) (ext a') /\ same_rings (ints a) (ints a');
  cut_hole : forall a b, ext a <> [] -> ext b <> [] -> ints b = [] -> inside (ext b) (ext a) -> Forall (apart (ext b)) (ints a) ->
    exists a', so_difference so [a] [b] = ShPolygon a' /\ same_ring (ext a) (ext a') /\ same_rings (ext b :: ints a) (ints a') }.
(** The radius of the circle through the vertices of a regular polygon with [n] vertices and the given area *)
Definition circumradius (n : nat) (area : R) : R := sqrt (2 * area / (INR n * sin (2 * PI / INR n))).
(** A bar to be cast in: where, its area, and in which body of the concrete (by number) *)
Record rebar : Type := mkRebar { rb_at : pt; rb_area : R; rb_body : nat }.
(** [k] points from P to Q at equal distances (the middle one if there is only one) *)
Definition row_of (k : nat) (P Q : pt) : list pt :=
  if Nat.eqb k 1 then [toward P Q (1 / 2)] else map (fun i => toward P Q (INR i / (INR k - 1))) (seq 0 k).
(** No two bars touch. *)
Definition clear_of (n : nat) (a b : rebar) : Prop := circumradius n (rb_area a) + circumradius n (rb_area b) + tiny <= distance (rb_at a) (rb_at b).
(** The compound [c]: the bodies of concrete, in the given outlines, with the bars of that body as holes; then the bars, in order. Nothing
    is lost: concrete and bars together have the area of the outlines. *)
Definition steel_bar (n : nat) (m : mat_obj) (b : rebar) (g : geom) : Prop :=
  gm_mat g = m /\ ints (gm_poly g) = [] /\ exists r l, 0 < r /\ poly_area (mkPoly (ngon n (rb_at b) r) []) = rb_area b /\ Forall2 close (ngon n (rb_at b) r) l /\ same_ring l (ext (gm_poly g)).
Definition bars_of (k : nat) (bars : list rebar) (bs : list geom) : list (list pt) :=
  map (fun bg => ext (gm_poly (snd bg))) (filter (fun bg => Nat.eqb (rb_body (fst bg)) k) (combine bars bs)).
Definition cast (outlines : list (list pt)) (conc steel : mat_obj) (n : nat) (bars : list rebar) (c : compound) : Prop :=
  exists bodies bs rings, cp_geoms c = bodies ++ bs /\ Forall2 (steel_bar n steel) bars bs /\ Forall2 (Forall2 close) outlines rings /\
    Forall2 (fun kr g => gm_mat g = conc /\ same_ring (snd kr) (ext (gm_poly g)) /\ same_rings (bars_of (fst kr) bars bs) (ints (gm_poly g))) (combine (seq 0 (length rings)) rings) bodies /\
    multi_area (map gm_poly bodies) + multi_area (map gm_poly bs) = sumf (fun l => Rabs (ring_area l)) rings.
(** Every bar is inside its body, a rectangle, and no two bars touch; bars are far above the rounding of vertices. *)
Definition fits (n : nat) (rects : list rect) (bars : list rebar) : Prop :=
  Forall (fun b => 1 / 10 ^ 20 <= rb_area b /\ exists r, nth_error rects (rb_body b) = Some r /\ within (circumradius n (rb_area b) + tiny) (rb_at b) r) bars /\
  ForallOrdPairs (clear_of n) bars.
Definition outline (r : rect) : list pt := let '((x1, y1), (x2, y2)) := r in [(x1, y1); (x2, y1); (x2, y2); (x1, y2)].
(** [k] points that divide the way from P to Q into k + 1 equal parts *)
Definition between (k : nat) (P Q : pt) : list pt := map (fun i => toward P Q (INR i / (INR k + 1))) (seq 1 k).
(** Each point and its mirror image in the line x = c *)
Definition both_sides (c : R) (l : list pt) : list pt := concat (map (fun p => [p; (2 * c - fst p, snd p)]) l).
(** Bars of one area at given points; the body they are in depends on the height *)
Definition bars_at (area : R) (body : R -> nat) (l : list pt) : list rebar := map (fun p => mkRebar p area (body (snd p))) l.
(** What is asked of shapely's buffer for columns: a rectangle, offset inwards, is the smaller rectangle. *)
Definition shrunk (t : R) (r : rect) : rect := ((fst (fst r) + t, snd (fst r) + t), (fst (snd r) - t, snd (snd r) - t)).
Definition insets (so : setops) : Prop := forall r t k, 0 < t -> fst (fst r) + 2 * t < fst (snd r) -> snd (fst r) + 2 * t < snd (snd r) ->
  exists p, so_buffer so (mkPoly (outline r) []) (- t) k = ShPolygon p /\ same_ring (outline (shrunk t r)) (ext p) /\ ints p = [].
(** The points of a lattice with n_x times n_y points that fills a rectangle; those on its border *)
Definition lattice (n_x n_y : nat) (r : rect) (ij : nat * nat) : pt :=
  (fst (fst r) + INR (fst ij) / (INR n_x - 1) * (fst (snd r) - fst (fst r)), snd (fst r) + INR (snd ij) / (INR n_y - 1) * (snd (snd r) - snd (fst r))).
Definition on_border (n_x n_y : nat) (ij : nat * nat) : Prop := fst ij = 0%nat \/ S (fst ij) = n_x \/ snd ij = 0%nat \/ S (snd ij) = n_y.
(** The bars of a column: all points of the lattice, or those on its border; their number *)
Definition wanted (filled : bool) (n_x n_y : nat) (ij : nat * nat) : Prop := (fst ij < n_x)%nat /\ (snd ij < n_y)%nat /\ (filled = true \/ on_border n_x n_y ij).
Definition how_many (filled : bool) (n_x n_y : nat) : nat := if filled then (n_x * n_y)%nat else (2 * n_x + 2 * n_y - 4)%nat.
(** The body of a tee that has the bars at height [y]: the web (0) up to [y0], the flange (1) above *)
Definition flange_above (y0 : R) (y : R) : nat := if Rle_dec y y0 then 0%nat else 1%nat.
