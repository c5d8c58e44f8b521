(** Specification vocabulary for outlines made of rectangular plates, and stress recovery points. *)
From Coq Require Import Reals List Arith ZArith.
From Verif Require Import Base M_Fea M_Init M_Geometry S_Geometry S_Library S_Concrete.
Import ListNotations.
Local Open Scope R_scope.

(** How often a closed chain of edges winds around a point: the ray downwards from [p] crosses an edge that goes to the right (+1) or to
    the left (-1). *)
Definition crossing (p : pt) (e : pt * pt) : Z :=
  if Rle_dec (fst (fst e)) (fst p) then
    if Rle_dec (fst (snd e)) (fst p) then 0%Z
    else if Rle_dec 0 (turn e p) then 1%Z else 0%Z
  else
    if Rle_dec (fst (snd e)) (fst p) then (if Rle_dec (turn e p) 0 then (-1)%Z else 0%Z)
    else 0%Z.
Definition winding (p : pt) (l : list pt) : Z := fold_right Z.add 0%Z (map (crossing p) (edges l)).
(** The number of rectangles that contain [p] (with their left and lower sides, without the other two). *)
Definition member (p : pt) (r : rect) : Z :=
  let '((x1, y1), (x2, y2)) := r in
  if Rle_dec x1 (fst p) then if Rle_dec x2 (fst p) then 0%Z else if Rle_dec y1 (snd p) then if Rle_dec y2 (snd p) then 0%Z else 1%Z else 0%Z else 0%Z.
Definition covered (p : pt) (rs : list rect) : Z := fold_right Z.add 0%Z (map (member p) rs).
(** Plates of positive size that do not overlap *)
Definition sized (r : rect) : Prop := fst (fst r) < fst (snd r) /\ snd (fst r) < snd (snd r).
Definition beside (r s : rect) : Prop :=
  fst (snd r) <= fst (fst s) \/ fst (snd s) <= fst (fst r) \/ snd (snd r) <= snd (fst s) \/ snd (snd s) <= snd (fst r).
Definition plates (rs : list rect) : Prop := Forall sized rs /\ ForallOrdPairs beside rs.
Definition rect_area (r : rect) : R := (fst (snd r) - fst (fst r)) * (snd (snd r) - snd (fst r)).
Definition plates_area (rs : list rect) : R := fold_right Rplus 0 (map rect_area rs).
(** The ring [l] goes once, anticlockwise, around exactly the points of the plates, and encloses their area. *)
Definition tiled (l : list pt) (rs : list rect) : Prop :=
  plates rs /\ (forall p, winding p l = covered p rs) /\ poly_area (mkPoly l []) = plates_area rs.
(** The same for a ring with holes: the holes do not overlap, and what is not in them is in the plates. *)
Definition tiled_around (l : list pt) (holes : list (list pt)) (rs : list rect) : Prop :=
  plates rs /\ (forall p, winding p l = (fold_right Z.add 0 (map (winding p) holes) + covered p rs)%Z) /\
  poly_area (mkPoly l []) = fold_right Rplus 0 (map (fun h => poly_area (mkPoly h [])) holes) + plates_area rs.
(** Four stress recovery points; moved together to the axes of the outline [l], all of them are on [l]. *)
Definition on_ring (q : pt) (l : list pt) : Prop := Exists (fun e => exists t, 0 <= t <= 1 /\ q = toward (fst e) (snd e) t) (edges l).
Definition recovers (l pts : list pt) : Prop := length pts = 4%nat /\ exists u v, Forall (fun q => on_ring (fst q + u, snd q + v) l) pts.
(** The function returned the geometry with this outline, and its recovery points are on it. *)
Definition drawn (res : result (geom * list pt)) (m : mat_obj) (rs : list rect) : Prop :=
  exists g pts l, res = Ok (g, pts) /\ outlined (Ok g) (mkPoly l []) m /\ tiled l rs /\ recovers l pts.
(** The function returned shapely's difference of the outline and the hole (RuntimeError if that is not one polygon). *)
Definition drawn_hollow (sh : shapely) (res : result (geom * list pt)) (m : mat_obj) (rs : list rect) : Prop :=
  exists pts o i, hollowed sh (bind res (fun x => Ok (fst x))) o i m /\ (forall g pts', res = Ok (g, pts') -> pts' = pts) /\ tiled_around o [i] rs /\ recovers o pts.
(** A convex ring: no vertex is to the right of an edge. *)
Definition convex (l : list pt) : Prop := Forall (fun e => Forall (fun p => 0 <= turn e p) l) (edges l).
(** Two edges cross at an inner point of both. *)
Definition self_crossing (l : list pt) : Prop := exists e f, In e (edges l) /\ In f (edges l) /\ turn e (fst f) * turn e (snd f) < 0 /\ turn f (fst e) * turn f (snd e) < 0.
