(** Specification vocabulary for CompoundGeometry.from_points. *)
From Coq Require Import Reals List.
From Verif Require Import Base M_Init M_Geometry S_Geometry.
Import ListNotations.

(** The region inside a loop of point numbers. *)
Definition region (points : list pt) (k : list nat) : polygon := mkPoly (map (at_ points) k) [].
(** A loop that shapely accepts, with existing points. *)
Definition good_loop (points : list pt) (k : list nat) : Prop := Forall (fun i => (i < length points)%nat) k /\ open_loop (map (at_ points) k).
(** The loop is a void: some hole point is inside and no control point is. *)
Definition is_void (sh : shapely) (points control holes : list pt) (k : list nat) : Prop :=
  (exists h, In h holes /\ sh_contains sh (region points k) h = true) /\ forall c, In c control -> sh_contains sh (region points k) c = false.
(** The materials of the regions: those given, else the default one for each region. *)
Definition materials_of (materials : option (list mat_obj)) (control : list pt) (mats : list mat_obj) : Prop :=
  materials = Some mats \/ materials = None /\ mats = map (fun _ => default_material) control.
(** [q] is [p] without the polygons of the list. *)
Inductive punched (sh : shapely) : polygon -> list polygon -> polygon -> Prop :=
| punched_all p : punched sh p [] p
| punched_one p i rest p' q : sh_difference sh p [i] = Some p' -> punched sh p' rest q -> punched sh p (i :: rest) q.
(** Taking away a polygon adds no points. *)
Definition shrinks (sh : shapely) : Prop := forall p i q x, sh_difference sh p [i] = Some q -> sh_contains sh q x = true -> sh_contains sh p x = true.
(** [c] is the first of the points that is inside [q]. *)
Definition first_inside (sh : shapely) (control : list pt) (q : polygon) (c : pt) : Prop :=
  exists before after, control = before ++ c :: after /\ sh_contains sh q c = true /\ forall x, In x before -> sh_contains sh q x = false.
